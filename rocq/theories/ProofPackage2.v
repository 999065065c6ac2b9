(** The statements about the package: names, shapes, uses, units. *)
From Coq Require Import String List Bool Arith ZArith Reals Lra Lia.
From Verif Require Import Base ModelArray ProofArray ModelMath SpecMath ProofMath ModelSurface SpecSurface ProofSurface ProofSurface2 ProofSurface3
  SpecWinding ProofWinding4 ModelParams ModelField SpecField ProofField ProofField2 ProofField3 ModelForce
  ModelQuantity ModelWrapper ModelShipped ModelPackage SpecPackage ProofRescale ProofPackage.
Import ListNotations.
Open Scope R_scope.
Open Scope string_scope.
Open Scope list_scope.

(** ** The rescaled problem exists *)
Definition resize (c : R) (s : surface) : surface :=
  {| s_nfp := s_nfp s; s_stellsym := s_stellsym s; s_mpol := s_mpol s; s_ntor := s_ntor s; s_dofs := map (Rmult c) (s_dofs s);
     s_qphi := s_qphi s; s_qtheta := s_qtheta s; s_theta_mesh := s_theta_mesh s; s_phi_mesh := s_phi_mesh s;
     s_dphi := s_dphi s; s_dtheta := s_dtheta s |}.
Lemma resize_resized c s : resized c s (resize c s).
Proof. repeat split. Qed.
Lemma resize_built c s : built s -> built (resize c s).
Proof.
  intros (nfp & st & mpol & ntor & p & t & d & E). exists nfp, st, mpol, ntor, p, t, (arr1 (map (Rmult c) (elements d))).
  unfold make_surface in *. destruct (is_ndarray p); [|discriminate]. destruct (is_ndarray t); [|discriminate]. destruct (is_ndarray d); [|discriminate].
  cbn [negb] in *. change (is_ndarray (arr1 (map (Rmult c) (elements d)))) with true. cbn [negb].
  destruct (getclamp (elements p) 1) as [p1|]; [|discriminate]. destruct (getclamp (elements p) 0) as [p0|]; [|discriminate].
  destruct (getclamp (elements t) 1) as [t1|]; [|discriminate]. destruct (getclamp (elements t) 0) as [t0|]; [|discriminate].
  cbn [bind] in *. injection E as <-. reflexivity.
Qed.
Lemma rescale_exists c b q : made q -> exists q', made q' /\ rescaled c b q q'.
Proof.
  intros M. pose proof M as (BP & BW & _). destruct (made_facts q M) as (Hn & Hm & _). destruct (made_points q M) as (N1 & N2 & _).
  set (P := resize c (q_plasma q)). set (W := resize c (q_winding q)).
  assert (E : exists q', make_params P W (c * b * q_G q) (c * b * q_I q) (Some (map (map (Rmult b)) (q_Bnormal q))) (q_mpol q) (q_ntor q)
    (Some (arr1 (q_qphi q))) (Some (arr1 (q_qtheta q))) (Some (q_stellsym q)) = Ok q' /\
    q_plasma q' = P /\ q_winding q' = W /\ q_G q' = c * b * q_G q /\ q_I q' = c * b * q_I q /\ q_stellsym q' = q_stellsym q /\
    q_mpol q' = q_mpol q /\ q_ntor q' = q_ntor q /\ q_qphi q' = q_qphi q /\ q_qtheta q' = q_qtheta q /\
    q_Bnormal q' = map (map (Rmult b)) (q_Bnormal q)).
  { unfold make_params, make_base. change (s_nfp W) with (s_nfp (q_winding q)). change (s_qphi W) with (s_qphi (q_winding q)).
    destruct (s_nfp (q_winding q)); [contradiction|]. rewrite Hm. cbn [Nat.eqb negb].
    destruct (copy_ok W (q_qphi q) (q_qtheta q) N1 N2) as [s Es]. unfold resampled in Es. rewrite Es. cbn [bind].
    eexists. split; [reflexivity|]. cbn. repeat split. }
  destruct E as (q' & E & E1 & E2 & E3 & E4 & E5 & E6 & E7 & E8 & E9 & E10). exists q'. split.
  - split; [rewrite E1; now apply resize_built|]. split; [rewrite E2; now apply resize_built|]. do 10 eexists. exact E.
  - split; [rewrite E1; apply resize_resized|]. split; [rewrite E2; apply resize_resized|]. repeat (split; [assumption|]). assumption.
Qed.
Lemma map_mult1 l : map (Rmult 1) l = l.
Proof. induction l; [reflexivity|]. cbn. rewrite IHl. f_equal. ring. Qed.
Lemma rescaled_self q : rescaled 1 1 q q.
Proof.
  assert (E : forall s, resized 1 s s) by (intros s; unfold resized; rewrite map_mult1; repeat split).
  repeat (split; [apply E|]). repeat split; try ring. 
  induction (q_Bnormal q); [reflexivity|]. cbn. rewrite <- IHg. f_equal. symmetry. apply map_mult1.
Qed.

(** ** Names *)
Definition package_names : list string :=
  ["K"; "K2"; "f_max_K2"; "f_huber_K"; "K_theta"; "f_K"; "K_dot_grad_K"; "K_dot_grad_K_cyl"; "f_max_K_dot_grad_K_cyl";
   "winding_surface_B"; "Bnormal"; "Bnormal2"; "f_B"; "f_B_normalized_by_Bnormal_IG"; "f_max_Bnormal"; "f_max_Bnormal2";
   "f_max_force_cyl"; "f_l1_force_cyl"; "f_max_force2_cyl"; "Phi"; "Phi_with_net_current"; "Phi2"; "f_max_Phi"; "f_max_Phi2";
   "f_max_Phi4"; "f_l1_Phi"; "f_Phi"].
Lemma lookup_in {A} k (d : dict A) v : lookup k d = Some v -> In k (map fst d).
Proof.
  induction d as [|[k' v'] d IH]; [discriminate|]. cbn [lookup map fst]. destruct (String.eqb k k') eqn:E; [|intros; right; auto].
  apply String.eqb_eq in E. left. auto.
Qed.
Lemma define_names {P} reg (defs : list (string * quantity_args P)) : map fst (snd (define_all reg defs)) = map fst defs.
Proof.
  revert reg; induction defs as [|[n a] defs IH]; intros reg; [reflexivity|]. cbn [define_all]. destruct (init_quantity reg a) as [reg' r].
  specialize (IH reg'). destruct (define_all reg' defs) as [reg'' rs]. cbn [snd map fst] in *. now rewrite IH.
Qed.
Lemma package_only other name Q : get_quantity (package other) name = Ok Q -> In name package_names.
Proof.
  unfold get_quantity, package, package_namespace. set (l := snd (define_all [] _)).
  destruct (lookup name l) as [r|] eqn:E; [intros _|destruct (mem name other); discriminate].
  apply lookup_in in E. unfold l in E. rewrite define_names in E. exact E.
Qed.
Lemma value_sound other q x : sound q x -> forall name k, In (name, k) (documented ++ undocumented) ->
  ~ In name ["f_max_Bnormal_abs"; "Phi_abs"] -> (name = "K_theta" -> q_stellsym q = true) ->
  exists Q v, get_quantity (package other) name = Ok Q /\ value_of Q q x = Ok v /\ sh v = shape_of q k /\ wf v.
Proof.
  intros S name k I N T.
  destruct (every_quantity 1 1 q q x other Rlt_0_1 Rlt_0_1 (rescaled_self q) S (proj1 S)) as [ET E].
  assert (R : forall j s, reported 1 1 q q x other name j s -> s = shape_of q k ->
    exists Q v, get_quantity (package other) name = Ok Q /\ value_of Q q x = Ok v /\ sh v = shape_of q k /\ wf v).
  { intros j s (Q & G & v & V & _ & Sv & W) Es. exists Q, v. rewrite <- Es. auto. }
  rewrite List.Forall_forall in E.
  assert (R' : forall j s, In (name, j, s) _ -> s = shape_of q k -> _) by (intros j s Hi; exact (R j s (E _ Hi))). clear E R.
  repeat (destruct I as [I|I]; [injection I as <- <-;
    first [exfalso; apply N; cbn; tauto
          |destruct (ET (T eq_refl)) as (Q & G & v & V & _ & Sv & W); exists Q, v; rewrite Sv; repeat split; auto
          |eapply R'; [cbn; tauto|reflexivity]]|]).
  contradiction.
Qed.
