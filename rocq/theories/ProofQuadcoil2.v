(** Lemmas behind the properties of the entry point: keys, modes, packing,
    symmetry, constraints. *)
From Coq Require Import String List Bool Arith ZArith Reals Lra Lia Permutation.
From Verif Require Import Base ModelArray ModelMath ModelQuantity ModelWrapper ModelSurface ModelParams
  ModelField ModelSolver SpecSolver ModelQuadcoil SpecMath SpecQuantity SpecWrapper SpecSurface SpecQuadcoil
  ProofArray ProofQuantity ProofWrapper ProofWrapper2 ProofSolver ProofSurface ProofQuadcoil.
Import ListNotations.
Open Scope R_scope.
Open Scope string_scope.
Open Scope list_scope.

Lemma requested_iff {L} (a : args L) m : requested a m <-> In m (metrics a).
Proof.
  unfold requested, metrics. destruct (qc_metric_name a) as [s|l|]; split.
  - intros [[= ->]|(l & H & _)]; [left; reflexivity|discriminate].
  - intros [->|[]]. left. reflexivity.
  - intros [H|(l' & [= <-] & H)]; [discriminate|exact H].
  - intros H. right. eauto.
  - intros [H|(l & H & _)]; discriminate.
  - intros [].
Qed.

Lemma append_inj s a b : String.append s a = String.append s b -> a = b.
Proof. induction s as [|c s IH]; cbn; auto. intros H. injection H as H. auto. Qed.

Section Output.
  Variable ns : namespace params.
  Variable E : library.
  Notation L := (x_solver E).

  Lemma finish_gradient (a : args L) p r o : finish ns E a p r = Ok o -> qc_value_only a = false ->
    exists out0, grad_metrics ns E (metrics a) a p r out0 = Ok (o_out E o) /\
      out0 = (match r, qc_verbose a with
              | Direct _, true => [("hess_cond", {| e_value := None; e_grad := None; e_extra := [] |})]
              | _, _ => [] end).
  Proof.
    unfold finish. destruct (unscale _ _ _) as [d|]; [|discriminate]. cbn [bind]. intros H V. rewrite V in H.
    match type of H with bind ?A _ = _ => destruct A as [out|] eqn:Eg; [|discriminate] end.
    cbn [bind] in H. injection H as <-. cbn. eauto.
  Qed.
  Lemma finish_value (a : args L) p r o : finish ns E a p r = Ok o -> qc_value_only a = true ->
    value_metrics ns (metrics a) (pr_fn p) (o_dofs E o) [] = Ok (o_out E o).
  Proof.
    unfold finish. destruct (unscale _ _ _) as [d|]; [|discriminate]. cbn [bind]. intros H V. rewrite V in H.
    match type of H with bind ?A _ = _ => destruct A as [out|] eqn:Eg; [|discriminate] end.
    cbn [bind] in H. injection H as <-. exact Eg.
  Qed.

  (** ** C50 *)
  Lemma gradient_keys (a : args L) o : quadcoil ns E a = Some (Ok o) -> qc_value_only a = false ->
    forall m, requested a m -> exists e g, lookup m (o_out E o) = Some e /\ e_grad e = Some g /\ NoDup (map fst g) /\
      forall key shp, (exists v, In (key, v) g /\ sh v = shp) <->
                      (exists k, key = String.append "df_d" k /\ in_use a k shp).
  Proof.
    intros H V m Hm. apply requested_iff in Hm.
    destruct (quadcoil_ok ns E a o H) as (p & r & d & Hp & Hr & Hf & _).
    destruct (finish_gradient _ _ _ _ Hf V) as (out0 & Hg & _).
    destruct (grad_metrics_ok ns E _ _ _ _ _ _ Hg) as [H1 _]. destruct (H1 m Hm) as (v & _ & _ & Hl).
    destruct (prepare_fields ns a p Hp) as (Ow & Go & Gc & Ey & _).
    unfold made_entry in Hl. set (g := metric_gradient _ _ _ _ _) in Hl.
    eexists _, _. split; [exact Hl|]. split; [reflexivity|].
    set (s := structure (pr_y p)).
    assert (Ns : NoDup (map fst s)).
    { unfold s, structure. rewrite map_map. cbn [fst]. rewrite Ey. apply sort_nodup, y_nodup. }
    split.
    - rewrite map_map. cbn [fst]. rewrite <- (map_map fst (String.append "df_d")), unravel_fst.
      clear -Ns. induction (map fst s) as [|k l IH]; [constructor|]. inversion Ns; subst. cbn [map]. constructor; auto.
      intros I. apply in_map_iff in I as (k' & Hk & I). apply append_inj in Hk. subst. contradiction.
    - intros key shp.
      assert (K : forall k shp, (exists v, In (k, v) (unravel s g) /\ sh v = shp) <-> in_use a k shp).
      { intros k shp'. rewrite <- (y_lookup a Ow Go Gc). split.
        - intros (v' & I & <-). assert (I' : In (k, sh v') s).
          { rewrite <- (unravel_keys s g). apply in_map_iff. exists (k, v'). auto. }
          unfold s, structure in I'. apply in_map_iff in I' as ((k1 & w) & Hk & I'). cbn in Hk. injection Hk as -> Hk.
          exists w. split; [|exact Hk]. apply lookup_in; [apply y_nodup|].
          rewrite Ey in I'. eapply Permutation_in; [apply sort_perm|exact I'].
        - intros (w & Hw & <-). apply lookup_in in Hw; [|apply y_nodup].
          assert (I' : In (k, sh w) s).
          { unfold s, structure. apply in_map_iff. exists (k, w). split; [reflexivity|]. rewrite Ey. eapply Permutation_in; [symmetry; apply sort_perm|exact Hw]. }
          rewrite <- (unravel_keys s g) in I'. apply in_map_iff in I' as ((k1 & w') & Hk & I'). cbn in Hk. injection Hk as -> Hk. eauto. }
      split.
      + intros (v' & I & Hs). apply in_map_iff in I as ((k & w) & Hk & I). cbn in Hk. injection Hk as <- <-.
        exists k. split; [reflexivity|]. apply K. eauto.
      + intros (k & -> & I). apply K in I as (w & I & Hs). exists w. split; auto. apply in_map_iff. exists (k, w). auto.
  Qed.

  (** ** C77 *)
  Lemma output_keys_gradient (a : args L) o : quadcoil ns E a = Some (Ok o) -> qc_value_only a = false ->
    forall m, (lookup m (o_out E o) <> None <->
      requested a m \/ (m = "hess_cond" /\ qc_verbose a = true /\ exists r, o_results E o = Direct E r)).
  Proof.
    intros H V m. rewrite requested_iff. destruct (quadcoil_ok ns E a o H) as (p & r & d & Hp & Hr & Hf & _ & _ & _ & Eres).
    destruct (finish_gradient _ _ _ _ Hf V) as (out0 & Hg & E0).
    destruct (grad_metrics_ok ns E _ _ _ _ _ _ Hg) as [H1 H2]. rewrite Eres.
    destruct (in_dec string_dec m (metrics a)) as [I|I].
    - destruct (H1 m I) as (v & _ & _ & ->). split; [auto|discriminate].
    - rewrite (H2 m I), E0. destruct r as [r|dd]; [destruct (qc_verbose a)|].
      + cbn [lookup]. destruct (String.eqb m "hess_cond") eqn:Em.
        * apply String.eqb_eq in Em. split; [right; eauto|discriminate].
        * apply String.eqb_neq in Em. split; [congruence|tauto].
      + split; [cbn; congruence|]. intros [K|(_ & K & _)]; [contradiction|discriminate].
      + split; [cbn; destruct (qc_verbose a); congruence|]. intros [K|(_ & _ & r & K)]; [contradiction|discriminate].
  Qed.
  Lemma output_keys_value (a : args L) o : quadcoil ns E a = Some (Ok o) -> qc_value_only a = true ->
    forall m, (lookup m (o_out E o) <> None <-> requested a m /\ m <> "f_obj").
  Proof.
    intros H V m. rewrite requested_iff. destruct (quadcoil_ok ns E a o H) as (p & r & d & Hp & Hr & Hf & _).
    pose proof (finish_value _ _ _ _ Hf V) as Hv. destruct (value_metrics_ok ns _ _ _ _ _ Hv) as [H1 H2].
    destruct (in_dec string_dec m (metrics a)) as [I|I]; [destruct (string_dec m "f_obj") as [J|J]|].
    - rewrite (H2 m) by auto. cbn. tauto.
    - destruct (H1 m I J) as (q & v & _ & _ & ->). split; [auto|discriminate].
    - rewrite (H2 m) by auto. cbn. tauto.
  Qed.

  (** ** C51 *)
  Lemma value_only_same (a : args L) o : (forall b, qc_Bnormal a = Some b -> wf b) ->
    quadcoil ns E (with_value_only a false) = Some (Ok o) ->
    exists o', quadcoil ns E (with_value_only a true) = Some (Ok o') /\
      o_qp E o' = o_qp E o /\ o_dofs E o' = o_dofs E o /\ o_results E o' = o_results E o /\
      forall m, requested a m -> m <> "f_obj" -> exists v e e',
        lookup m (o_out E o) = Some e /\ lookup m (o_out E o') = Some e' /\ e_value e = Some v /\ e_value e' = Some v /\
        e_grad e' = None.
  Proof.
    intros HB H. destruct (quadcoil_ok ns E _ o H) as (p & r & d & Hp & Hr & Hf & Hd & Eqp & Edofs & Eres).
    destruct (finish_gradient _ _ _ _ Hf eq_refl) as (out0 & Hg & _).
    destruct (grad_metrics_ok ns E _ _ _ _ _ _ Hg) as [H1 _].
    assert (Hq : y_to_qp (with_value_only a false) (pr_qd p) (unravel (structure (pr_y p)) (ravel (pr_y p))) = Ok (fn_qp (pr_fn p)))
      by (apply (metric_at_inputs ns (with_value_only a false)); auto).
    assert (M : forall m, In m (metrics a) -> exists v, lookup m (o_out E o) = Some (made_entry ns E (with_value_only a false) p r m v) /\
       if String.eqb m "f_obj" then fn_f (pr_fn p) (fn_qp (pr_fn p)) d = Ok v
       else exists q, get_quantity ns m = Ok q /\ call q (fn_qp (pr_fn p)) d = Ok v).
    { intros m I. destruct (H1 m I) as (v & Hv & _ & Hl). exists v. split; auto.
      unfold f_metric in Hv. rewrite Hq in Hv. cbn [bind] in Hv. rewrite Hd in Hv. cbn [bind] in Hv.
      destruct (String.eqb m "f_obj"); auto. destruct (get_quantity ns m) as [q|]; [|discriminate]. exists q. auto. }
    destruct (value_metrics_ex ns (metrics a) (pr_fn p) d []) as [out' Ho'].
    { intros m I. destruct (M m I) as (v & _ & K). destruct (String.eqb m "f_obj"); [eauto|]. destruct K as (q & Kq & Kv). eauto. }
    assert (Hcall : quadcoil ns E (with_value_only a true) =
       Some (Ok {| o_out := out'; o_qp := fn_qp (pr_fn p); o_dofs := d; o_results := r |})).
    { unfold quadcoil. change (prepare ns (with_value_only a true)) with (prepare ns (with_value_only a false)). rewrite Hp.
      change (solve E (with_value_only a true) p) with (solve E (with_value_only a false) p). rewrite Hr.
      unfold finish. rewrite Hd. cbn [bind qc_value_only with_value_only].
      change (metrics (with_value_only a true)) with (metrics a). rewrite Ho'. reflexivity. }
    eexists. split; [exact Hcall|]. cbn. split; [auto|]. split; [auto|]. split; [auto|].
    intros m I N. apply requested_iff in I. destruct (M m I) as (v & Hl & K).
    apply String.eqb_neq in N as N'. rewrite N' in K. destruct K as (q & Kq & Kv).
    destruct (value_metrics_ok ns _ _ _ _ _ Ho') as [H2 _]. destruct (H2 m I N) as (q' & v' & Kq' & Kv' & Hl').
    assert (v' = v) by congruence. subst v'.
    exists v. do 2 eexists. split; [exact Hl|]. split; [exact Hl'|]. repeat split.
  Qed.

  (** ** C52 *)
  Lemma options_ignored (a : args L) m ls p : solve E (with_options a m ls) p = solve E a p.
  Proof. reflexivity. Qed.
  Lemma options_ignored_value (a : args L) m ls : qc_value_only a = true ->
    quadcoil ns E (with_options a m ls) = quadcoil ns E a.
  Proof.
    intros V. unfold quadcoil. change (prepare ns (with_options a m ls)) with (prepare ns a).
    destruct (prepare ns a) as [p|]; [|reflexivity]. change (solve E (with_options a m ls) p) with (solve E a p).
    destruct (solve E a p) as [r|]; [|reflexivity]. unfold finish. cbn [qc_value_only with_options]. rewrite V. reflexivity.
  Qed.
  Lemma options_same_point (a : args L) m ls o o' : quadcoil ns E a = Some (Ok o) ->
    quadcoil ns E (with_options a m ls) = Some (Ok o') ->
    o_qp E o' = o_qp E o /\ o_dofs E o' = o_dofs E o /\ o_results E o' = o_results E o.
  Proof.
    intros H H'. destruct (quadcoil_ok ns E a o H) as (p & r & d & Hp & Hr & _ & Hd & E1 & E2 & E3).
    destruct (quadcoil_ok ns E _ o' H') as (p' & r' & d' & Hp' & Hr' & _ & Hd' & E1' & E2' & E3').
    change (prepare ns (with_options a m ls)) with (prepare ns a) in Hp'.
    assert (p' = p) by congruence. subst p'. change (solve E (with_options a m ls) p) with (solve E a p) in Hr'.
    assert (r' = r) by congruence. subst r'. assert (d' = d) by congruence. subst d'. repeat split; congruence.
  Qed.
  Lemma solver_mask (a : args L) p : p_mask _ (solver_problem E a p) = gplus_hard (R_num (x_fin E)).
  Proof. reflexivity. Qed.
  Lemma solver_options (a : args L) p :
    let P := solver_problem E a p in
    p_growth _ P = qc_c_growth a /\ p_maxiter_tot _ P = qc_maxiter_tot a /\ p_maxiter_inner _ P = qc_maxiter_inner a /\
    p_xstop_outer _ P = xstop_outer (qc_tol a) /\ p_ctol _ P = ctol_outer (qc_tol a) /\
    p_fstop _ P = fstop_inner (qc_tol a) /\ p_xstop _ P = xstop_inner (qc_tol a) /\ p_gtol _ P = gtol_inner (qc_tol a) /\
    p_fstop_last _ P = fstop_inner_last (qc_tol a) /\ p_xstop_last _ P = xstop_inner_last (qc_tol a) /\
    p_gtol_last _ P = gtol_inner_last (qc_tol a).
  Proof. repeat split. Qed.
End Output.

(** ** C53 *)
Lemma lookup_filter {A} (d : ModelArray.dict A) k0 k :
  lookup k (filter (fun kv => negb (String.eqb (fst kv) k0)) d) = if String.eqb k k0 then None else lookup k d.
Proof.
  induction d as [|[k1 v] d IH]; cbn [filter fst lookup].
  - destruct (String.eqb k k0); reflexivity.
  - destruct (String.eqb k1 k0) eqn:E1; cbn [negb lookup].
    + apply String.eqb_eq in E1. subst k1. rewrite IH. destruct (String.eqb k k0) eqn:E2; reflexivity.
    + rewrite IH. destruct (String.eqb k k1) eqn:E2; [|reflexivity]. apply String.eqb_eq in E2. subst k1. rewrite E1. reflexivity.
Qed.
Lemma unscale_lookup s u x d : unscale s u x = Ok d -> forall k,
  lookup k d = if String.eqb k "phi_scaled" then None else
               if String.eqb k "phi" then option_map (amap (fun v => v * u)) (lookup "phi_scaled" (unravel s x))
               else lookup k (unravel s x).
Proof.
  unfold unscale, getitem. destruct (lookup "phi_scaled" (unravel s x)) as [p|] eqn:Ep; [|discriminate]. cbn [bind].
  intros [= <-] k. rewrite lookup_filter, lookup_set. reflexivity.
Qed.
Lemma add_aux_ok aux qp phi : forall x x', add_aux aux qp phi x = Ok x' -> NoDup (map fst aux) ->
  (NoDup (map fst x) -> NoDup (map fst x')) /\
  (forall k init, In (k, init) aux -> exists v, init qp [("phi", vec_arr phi)] = Ok v /\ lookup k x' = Some v) /\
  (forall k, ~ In k (map fst aux) -> lookup k x' = lookup k x).
Proof.
  induction aux as [|[k i] aux IH]; intros x x' H N; cbn [add_aux] in H.
  - injection H as <-. repeat split; auto. intros k i [].
  - destruct (i qp [("phi", vec_arr phi)]) as [v|] eqn:Ev; [|discriminate]. cbn [bind] in H. cbn [map fst] in N. inversion N; subst.
    destruct (IH _ _ H H3) as (A & B & C). split; [|split].
    + intros Nx. apply A. now apply nodup_set.
    + intros k0 i0 [[= <- <-]|I].
      * exists v. split; auto. rewrite C by auto. rewrite lookup_set, String.eqb_refl. reflexivity.
      * apply B. exact I.
    + intros k0 Nk. cbn [map fst In] in Nk. rewrite C by tauto. rewrite lookup_set. destruct (String.eqb k0 k) eqn:E0; auto.
      apply String.eqb_eq in E0. subst. tauto.
Qed.

Lemma packing (aux : ModelArray.dict (callable params)) qp phi u x : u <> 0 ->
  NoDup (map fst aux) -> ~ In "phi" (map fst aux) -> ~ In "phi_scaled" (map fst aux) ->
  (forall k init v, In (k, init) aux -> init qp [("phi", vec_arr phi)] = Ok v -> wf v) ->
  x_dict aux qp phi u = Ok x ->
  exists d, unscale (structure x) u (ravel x) = Ok d /\ lookup "phi" d = Some (vec_arr phi) /\
    (forall k init, In (k, init) aux -> exists v, init qp [("phi", vec_arr phi)] = Ok v /\ lookup k d = Some v) /\
    (forall k, lookup k d <> None -> k = "phi" \/ In k (map fst aux)).
Proof.
  intros Hu N N1 N2 W H. unfold x_dict in H. set (ps := vec_arr (map (fun p => p / u) phi)) in H.
  destruct (add_aux_ok _ _ _ _ _ H N) as (A & B & C).
  assert (Nx : NoDup (map fst x)) by (apply A; cbn; repeat constructor; auto).
  assert (Wx : forall kv, In kv x -> wf (snd kv)).
  { intros [k v] I. apply lookup_in in I; auto. cbn [snd]. destruct (in_dec string_dec k (map fst aux)) as [J|J].
    - apply in_map_iff in J as ((k' & i) & Hk & J). cbn in Hk. subst k'. destruct (B k i J) as (v' & Hv & Hl).
      assert (v' = v) by congruence. subst. eapply W; eauto.
    - rewrite C in I by auto. cbn [lookup] in I. destruct (String.eqb k "phi_scaled"); [|discriminate]. injection I as <-. apply wf_vec. }
  assert (Lk : forall k, lookup k (unravel (structure x) (ravel x)) = lookup k x) by (intros k; rewrite unravel_ravel by auto; apply lookup_sort, Nx).
  assert (Ps : lookup "phi_scaled" x = Some ps) by (rewrite C by auto; reflexivity).
  destruct (unscale (structure x) u (ravel x)) as [d|e] eqn:Ed.
  2: { unfold unscale, getitem in Ed. rewrite Lk, Ps in Ed. discriminate. }
  exists d. split; [reflexivity|]. pose proof (unscale_lookup _ _ _ _ Ed) as LL. split; [|split].
  - rewrite LL. cbn [String.eqb Ascii.eqb Bool.eqb]. rewrite Lk, Ps. cbn [option_map]. unfold ps, vec_arr, amap. cbn [sh el].
    rewrite map_length, map_map. do 2 f_equal. rewrite <- (map_id phi) at 2. apply map_ext. intros v. field. exact Hu.
  - intros k i I. destruct (B k i I) as (v & Hv & Hl). exists v. split; auto. rewrite LL, !Lk.
    assert (In k (map fst aux)) by (apply in_map_iff; exists (k, i); auto).
    destruct (String.eqb_spec k "phi_scaled"); [subst; contradiction|]. destruct (String.eqb_spec k "phi"); [subst; contradiction|]. exact Hl.
  - intros k Hk. destruct (in_dec string_dec k (map fst aux)) as [J|J]; auto. left. rewrite LL, !Lk, (C k) in Hk by auto.
    destruct (String.eqb_spec k "phi_scaled"); [congruence|]. destruct (String.eqb_spec k "phi"); auto.
    cbn [lookup] in Hk. apply String.eqb_neq in n. rewrite n in Hk. congruence.
Qed.

Lemma slack_unscaled s u1 u2 x d1 d2 k : unscale s u1 x = Ok d1 -> unscale s u2 x = Ok d2 -> k <> "phi" -> lookup k d1 = lookup k d2.
Proof.
  intros H1 H2 N. rewrite (unscale_lookup _ _ _ _ H1), (unscale_lookup _ _ _ _ H2). apply String.eqb_neq in N. rewrite N. reflexivity.
Qed.

Lemma unpack_injective s u x1 x2 d : u <> 0 -> NoDup (map fst s) -> ~ In "phi" (map fst s) ->
  length x1 = total s -> length x2 = total s -> unscale s u x1 = Ok d -> unscale s u x2 = Ok d -> x1 = x2.
Proof.
  intros Hu N Np L1 L2 H1 H2. rewrite <- (unravel_flat s x1 L1), <- (unravel_flat s x2 L2). f_equal.
  assert (K : forall k, lookup k (unravel s x1) = lookup k (unravel s x2)).
  { intros k. pose proof (unscale_lookup _ _ _ _ H1 k) as A1. pose proof (unscale_lookup _ _ _ _ H2 k) as A2.
    destruct (in_dec string_dec k (map fst s)) as [I|I].
    2: { assert (forall x, lookup k (unravel s x) = None) as Z by (intros x; apply lookup_none; rewrite unravel_fst; exact I). rewrite !Z. reflexivity. }
    destruct (string_dec k "phi_scaled") as [Ek|Nk].
    - rewrite Ek. clear A1 A2. pose proof (unscale_lookup _ _ _ _ H1 "phi") as B1. pose proof (unscale_lookup _ _ _ _ H2 "phi") as B2.
      rewrite B1 in B2. cbn [String.eqb Ascii.eqb Bool.eqb] in B2.
      destruct (lookup "phi_scaled" (unravel s x1)) as [[s1 e1]|], (lookup "phi_scaled" (unravel s x2)) as [[s2 e2]|]; try discriminate; auto.
      cbn [option_map] in B2. unfold amap in B2. cbn [sh el] in B2. injection B2 as -> B2. do 2 f_equal.
      clear -B2 Hu. revert e2 B2. induction e1 as [|a e1 IH]; intros [|b e2] H; try discriminate; auto. cbn [map] in H. injection H as H H'.
      apply Rmult_eq_reg_r in H; auto. subst. f_equal. auto.
    - assert (Nk' : k <> "phi") by (intros ->; contradiction).
      apply String.eqb_neq in Nk, Nk'. rewrite Nk, Nk' in A1, A2. congruence. }
  assert (E : forall (s : list (string * list nat)) (d1 d2 : ModelArray.dict arr), map fst d1 = map fst s -> map fst d2 = map fst s -> NoDup (map fst s) ->
     (forall k, lookup k d1 = lookup k d2) -> d1 = d2).
  { clear. induction s as [|[k sh] s IH]; intros [|[k1 v1] d1] [|[k2 v2] d2] E1 E2 N H; try discriminate; auto.
    cbn [map fst] in *. injection E1 as -> E1. injection E2 as -> E2. inversion N; subst.
    pose proof (H k) as Hk. cbn [lookup] in Hk. rewrite String.eqb_refl in Hk. injection Hk as ->. f_equal.
    apply IH; auto. intros k'. destruct (String.eqb_spec k' k) as [->|Nk].
    - rewrite (proj2 (lookup_none d1 k)), (proj2 (lookup_none d2 k)) by congruence. reflexivity.
    - specialize (H k'). cbn [lookup] in H. apply String.eqb_neq in Nk. rewrite Nk in H. exact H. }
  apply (E s); auto using unravel_fst.
Qed.

(** ** C56 *)
Lemma made_surface nfp st mpol ntor p t d s : make_surface nfp st mpol ntor p t d = Ok s ->
  s_stellsym s = st /\ s_mpol s = mpol /\ s_ntor s = ntor /\ s_dofs s = elements d /\ s_nfp s = nfp.
Proof.
  unfold make_surface. destruct (negb (is_ndarray p)); [discriminate|]. destruct (negb (is_ndarray t)); [discriminate|].
  destruct (negb (is_ndarray d)); [discriminate|]. cbv zeta.
  destruct (getclamp (elements p) 1); [|discriminate]. cbn [bind]. destruct (getclamp (elements p) 0); [|discriminate]. cbn [bind].
  destruct (getclamp (elements t) 1); [|discriminate]. cbn [bind]. destruct (getclamp (elements t) 0); [|discriminate]. cbn [bind].
  intros [= <-]. repeat split.
Qed.
Lemma made_params pl wi G I Bn mpol ntor qp qt st q : make_params pl wi G I Bn mpol ntor qp qt (Some st) = Ok q ->
  q_plasma q = pl /\ q_winding q = wi /\ q_stellsym q = st /\ q_G q = G /\ q_I q = I.
Proof.
  unfold make_params, make_base. destruct (s_nfp wi) eqn:En; [discriminate|].
  destruct (negb _); [discriminate|]. destruct (copy_and_set_quadpoints _ _ _); [|discriminate]. cbn [bind].
  intros [= <-]. repeat split.
Qed.

Lemma lengths_differ mpol ntor : legal_length true mpol ntor <> legal_length false mpol ntor.
Proof. unfold legal_length, n_modes. lia. Qed.

Lemma generated_symmetry {L} (a : args L) qd y qp d0 : qc_distance a = Some d0 -> honest_generator (qc_generator a) ->
  y_to_qp a qd y = Ok qp ->
  s_stellsym (q_winding qp) = qc_stellsym a /\
  (legal (q_winding qp) <-> qc_stellsym a = qc_plasma_stellsym a).
Proof.
  intros Hd Hg H. unfold y_to_qp in H. rewrite Hd in H.
  destruct (getitem y "plasma_dofs") as [pd|]; [|discriminate]. cbn [bind] in H.
  destruct (make_surface _ _ _ _ _ _ (PyArr pd)) as [pl|] eqn:Epl; [|discriminate]. cbn [bind] in H.
  destruct (gamma pl) as [pts|]; [|discriminate]. cbn [bind] in H.
  match type of H with bind (bind ?A _) _ = _ => destruct A as [dist|]; [|discriminate] end. cbn [bind] in H.
  destruct (qc_generator a pts dist (s_nfp pl) (s_stellsym pl) (qc_winding_mpol a) (qc_winding_ntor a)) as [w|] eqn:Ew; [|discriminate].
  cbn [bind] in H.
  destruct (make_surface _ (qc_stellsym a) _ _ _ _ (arr1 w)) as [wi|] eqn:Ewi; [|discriminate]. cbn [bind] in H.
  match type of H with bind ?A _ = _ => destruct A as [Bn|]; [|discriminate] end. cbn [bind] in H.
  match type of H with bind ?A _ = _ => destruct A as [G|]; [|discriminate] end. cbn [bind] in H.
  match type of H with bind ?A _ = _ => destruct A as [I|]; [|discriminate] end. cbn [bind] in H.
  destruct (made_params _ _ _ _ _ _ _ _ _ _ _ H) as (_ & E2 & _). rewrite E2.
  destruct (made_surface _ _ _ _ _ _ _ _ Epl) as (P1 & _). destruct (made_surface _ _ _ _ _ _ _ _ Ewi) as (S1 & S2 & S3 & S4 & _).
  split; [exact S1|]. unfold legal. rewrite S1, S2, S3, S4. cbn [arr1 elements el]. rewrite (Hg _ _ _ _ _ _ _ Ew), P1.
  pose proof (lengths_differ (qc_winding_mpol a) (qc_winding_ntor a)).
  destruct (qc_stellsym a), (qc_plasma_stellsym a); split; congruence.
Qed.

Lemma generated_fails {L} (a : args L) qd y qp d0 : qc_distance a = Some d0 -> honest_generator (qc_generator a) ->
  y_to_qp a qd y = Ok qp -> qc_stellsym a <> qc_plasma_stellsym a ->
  (forall i j, gammadash i j (q_winding qp) = Raise TypeError) /\
  forall x, exists e, Bnormal qp x = Raise e.
Proof.
  intros Hd Hg H N. destruct (generated_symmetry a qd y qp d0 Hd Hg H) as [_ K].
  assert (K' : ~ legal (q_winding qp)) by (intros X; apply K in X; contradiction).
  split; [intros i j; now apply illegal_raises|]. intros x. unfold Bnormal, winding_surface_B.
  destruct (unitnormal (q_plasma qp)) as [u|e]; cbn [bind]; [|eauto].
  destruct (gamma (q_plasma qp)) as [u'|e]; cbn [bind]; [|eauto].
  unfold gamma. rewrite (illegal_raises _ 0 0 K'). cbn [bind]. eauto.
Qed.

(** ** C79 *)
Lemma objective_metric_ignores ns E (a : args (x_solver E)) p x y1 y2 :
  (forall k, k <> "objective_weight" -> lookup k (unravel (structure (pr_y p)) y1) = lookup k (unravel (structure (pr_y p)) y2)) ->
  f_metric ns E a p "f_obj" x y1 = f_metric ns E a p "f_obj" x y2.
Proof.
  intros H. unfold f_metric.
  assert (Q : y_to_qp a (pr_qd p) (unravel (structure (pr_y p)) y1) = y_to_qp a (pr_qd p) (unravel (structure (pr_y p)) y2)).
  { unfold y_to_qp, getitem. rewrite !H by discriminate. reflexivity. }
  rewrite Q. reflexivity.
Qed.

(** ** C80 *)
Section Feasible.
  Variable ns : namespace params.

  Lemma plain_adds_nothing name u use mode sp ad q qp d fld :
    add_quantity q_ndofs ns name u use mode sp = Ok ad -> ns name = Some (AQuantity q) ->
    plain q mode qp d fld -> ad_g ad = [] /\ ad_h ad = [].
  Proof.
    unfold add_quantity, get_quantity. intros H E. rewrite E in H. cbn [bind] in H.
    intros [W [[-> Hr]|[-> [func [[reg [compat I]] Hr]]]]].
    - unfold scaled_f_impl, scaled_g_ineq_impl, scaled_h_eq_impl, scaled_slack_dofs_init, slack_only in H.
      cbn [bind] in H. destruct (mem use (q_compat q)); [|discriminate H].
      cbn [negb bind] in H. destruct (unit_callable q_ndofs q u); [|discriminate]. cbn [bind] in H. inversion H; subst ad. auto.
    - unfold init_quantity in I. cbn in I. inversion I; subst q.
      unfold scaled_f_impl, scaled_g_ineq_impl, scaled_h_eq_impl, scaled_slack_dofs_init, slack_only in H.
      cbn [bind String.eqb Ascii.eqb Bool.eqb q_slack_f q_slack_g q_slack_h q_slack_init] in H.
      destruct (mem use _); [|discriminate H]. cbn [negb bind] in H. destruct (unit_callable q_ndofs _ u); [|discriminate].
      cbn [bind] in H. inversion H; subst ad. auto.
  Qed.

  Lemma obj_loop_plain names : forall units mode sp fs acc fs' acc' qp d,
    (forall n, In n names -> exists q fld, ns n = Some (AQuantity q) /\ plain q mode qp d fld) ->
    parse_obj_loop q_ndofs ns names units mode sp fs acc = Ok (fs', acc') ->
    ModelWrapper.p_g acc' = ModelWrapper.p_g acc /\ ModelWrapper.p_h acc' = ModelWrapper.p_h acc.
  Proof.
    induction names as [|n names IH]; intros units mode sp fs acc fs' acc' qp d Hn H; cbn [parse_obj_loop] in H.
    - injection H as <- <-. auto.
    - destruct units as [|u units]; [discriminate|].
      destruct (add_quantity q_ndofs ns n u "f" mode sp) as [ad|] eqn:Ea; [|discriminate]. cbn [bind] in H.
      destruct (Hn n (or_introl eq_refl)) as (q & fld & Eq & Pl).
      destruct (plain_adds_nothing _ _ _ _ _ _ _ _ _ _ Ea Eq Pl) as [G1 G2].
      destruct (IH _ _ _ _ _ _ _ qp d (fun m I => Hn m (or_intror I)) H) as [I1 I2].
      rewrite I1, I2. cbn [ModelWrapper.p_g ModelWrapper.p_h]. rewrite G1, G2, !app_nil_r. auto.
  Qed.

  Lemma cons_loop_evaluates cs mode sp qp d : forall acc p, not_approx mode ->
    (forall c, In c cs -> uc_unit c <> 0 /\ exists q fld, ns (uc_name c) = Some (AQuantity q) /\ plain q mode qp d fld) ->
    parse_cons_loop q_ndofs ns (map uc_name cs) (map (fun c => op_string (uc_cmp c)) cs)
      (map (fun c => UScalar (uc_unit c)) cs) (map uc_val cs) mode sp acc = Ok p ->
    (forall f, In f (ModelWrapper.p_g acc ++ ModelWrapper.p_h acc) -> exists o, f qp d = Ok o) ->
    (forall f, In f (ModelWrapper.p_g p ++ ModelWrapper.p_h p) -> exists o, f qp d = Ok o).
  Proof.
    intros acc p NA. revert acc. induction cs as [|c cs IH]; intros acc Hc H Ha.
    - simpl in H. inversion H; subst. exact Ha.
    - cbn [map parse_cons_loop] in H.
      destruct (Hc c (or_introl eq_refl)) as [Hu [q [fld [Eq Pl]]]].
      destruct (add_quantity q_ndofs ns (uc_name c) (UScalar (uc_unit c)) (op_string (uc_cmp c)) mode sp)
        as [ad|e] eqn:A; [|discriminate H].
      cbn [bind] in H. cbv zeta in H.
      destruct (plain_add _ _ _ _ _ _ _ _ _ _ _ _ _ A Eq Pl) as [Hf [Huc [Hg [Hh Hs]]]].
      rewrite Hg, Hh in H. rewrite !app_nil_r in H. cbn [ModelWrapper.p_g ModelWrapper.p_h p_slack] in H.
      set (cf := cons_func_centered (ad_f ad) (uc_val c) (ad_unit ad) (sign_of (op_string (uc_cmp c))) mode sp) in *.
      assert (Ecf : exists o, cf qp d = Ok o).
      { eexists. unfold cf. apply centered_value; [exact NA|exact Hf|apply Pl|]. rewrite Huc. reflexivity. }
      assert (Hc' : forall c, In c cs -> uc_unit c <> 0 /\ exists q fld, ns (uc_name c) = Some (AQuantity q) /\ plain q mode qp d fld)
        by (intros; apply Hc; right; auto).
      destruct (uc_cmp c) eqn:Cc; cbn [op_string] in H; simpl in H; refine (IH _ Hc' H _); cbn [ModelWrapper.p_g ModelWrapper.p_h]; intros f I;
      rewrite ?in_app_iff in I; cbn [In] in I; (destruct (Ecf) as [o Eo]);
      repeat match goal with H : _ \/ _ |- _ => destruct H end; subst; eauto; try contradiction; apply Ha, in_app_iff; auto.
  Qed.

  Lemma forall_list_el (o : arr) (l : list R) (Q : R -> Prop) : l = el o -> (forall v, In v l -> Q v) -> forall v, In v (el o) -> Q v.
  Proof. intros ->. auto. Qed.

  Lemma feasible E (a : args (x_solver E)) o d cs : counted (x_opt E) ->
    quadcoil ns E a = Some (Ok o) -> o_results E o = Constrained E d ->
    (forall v, In v (d_g _ d) -> v <= 0) -> (forall v, In v (d_h _ d) -> v = 0) ->
    not_approx (qc_smoothing a) -> qc_merge a = false ->
    qc_constraint_name a = NTuple (map uc_name cs) ->
    qc_constraint_type a = NTuple (map (fun c => op_string (uc_cmp c)) cs) ->
    qc_constraint_unit a = UsSeq (map (fun c => UScalar (uc_unit c)) cs) ->
    qc_constraint_value a = VSeq (map uc_val cs) ->
    (forall n, qc_objective_name a = NStr n \/ (exists l, qc_objective_name a = NTuple l /\ In n l) ->
       exists q fld, ns n = Some (AQuantity q) /\ plain q (qc_smoothing a) (o_qp E o) (o_dofs E o) fld) ->
    (forall c, In c cs -> uc_unit c <> 0 /\ exists q fld, ns (uc_name c) = Some (AQuantity q) /\
       plain q (qc_smoothing a) (o_qp E o) (o_dofs E o) fld) ->
    forall c q fld, In c cs -> ns (uc_name c) = Some (AQuantity q) ->
      plain q (qc_smoothing a) (o_qp E o) (o_dofs E o) fld -> meets (uc_cmp c) (uc_val c) fld.
  Proof.
    intros Hcnt H Hres Hg Hh NA Hm N1 N2 N3 N4 Hobj Hcons.
    destruct (quadcoil_ok ns E a o H) as (p & r & dofs & Hp & Hr & Hf & Hd & E1 & E2 & E3).
    rewrite Hres in E3. subst r. rewrite E1, E2 in *. clear Hf H.
    destruct (prepare_fields ns a p Hp) as (_ & Go & _ & Ey & Ef & _).
    unfold solve in Hr. destruct (unconstrained (pr_fn p)).
    { destruct (run_opt _ _ _ _ _ _ _ _ _ _); discriminate. }
    destruct (solve_constrained _ _ _ _ _ _ _ _ _ _) as [d'|] eqn:Es; [|discriminate]. injection Hr as <-.
    destruct (reported_values _ _ _ Hcnt _ _ _ _ _ _ _ _ Es) as (_ & Rg & Rh).
    cbn [solver_problem ModelSolver.p_g ModelSolver.p_h] in Rg, Rh.
    unfold f_g_h_from_y in Ef. destruct (y_to_qp a (pr_qd p) (y_dict a)) as [qp|]; [|discriminate]. cbn [bind] in Ef.
    destruct (parse_objectives _ _ _ _ _ _) as [[f po]|] eqn:Epo; [|discriminate]. cbn [bind] in Ef.
    destruct (parse_constraints _ _ _ _ _ _ _ _) as [pc|] eqn:Epc; [|discriminate]. cbn [bind] in Ef.
    assert (Vals : (match lookup "constraint_value" (y_dict a) with Some v => el v | None => [] end) = map uc_val cs).
    { destruct cs as [|c0 cs'].
      - cbn [map]. destruct (lookup "constraint_value" (y_dict a)) as [v|] eqn:El; [|reflexivity].
        exfalso. assert (Gc := prepare_fields ns a p Hp). destruct Gc as (Ow & Go' & Gc & _).
        assert (U : in_use a "constraint_value" (sh v)) by (apply (y_lookup a Ow Go' Gc); eauto).
        inversion U as [| | | | |names vs X1 X2 X3| |]. rewrite N1 in X1. injection X1 as <-. cbn in X2. congruence.
      - unfold y_dict. rewrite N1, N4. cbn [names_of values_of map].
        destruct (qc_Bnormal a), (qc_distance a); repeat rewrite lookup_set; cbn [String.eqb Ascii.eqb Bool.eqb]; reflexivity. }
    rewrite Vals in Epc. clear Vals. rewrite N1, N2, N3 in Epc. cbn [names_of units_of] in Epc.
    assert (Fn : fn_qp (pr_fn p) = qp /\ fn_g (pr_fn p) = merge_callables (map Some (ModelWrapper.p_g po ++ ModelWrapper.p_g pc)) (qc_merge a) (qc_smoothing a) (qc_smoothing_params a)
       /\ fn_h (pr_fn p) = merge_callables (map Some (ModelWrapper.p_h po ++ ModelWrapper.p_h pc)) false None []).
    { assert (pr_fn p = {| fn_qp := qp; fn_f := f;
          fn_g := merge_callables (map Some (ModelWrapper.p_g po ++ ModelWrapper.p_g pc)) (qc_merge a) (qc_smoothing a) (qc_smoothing_params a);
          fn_h := merge_callables (map Some (ModelWrapper.p_h po ++ ModelWrapper.p_h pc)) false None [];
          fn_ng := if qc_merge a then 1%nat else length (ModelWrapper.p_g po ++ ModelWrapper.p_g pc);
          fn_nh := length (ModelWrapper.p_h po ++ ModelWrapper.p_h pc); fn_aux := dict_union (p_slack po) (p_slack pc) |}) as -> by congruence. auto. }
    destruct Fn as (Fq & Fg & Fh). rewrite Fq in *.
    assert (Po : ModelWrapper.p_g po = [] /\ ModelWrapper.p_h po = []).
    { unfold parse_objectives, objective_of in Epo. destruct (qc_objective_name a) as [n|l|] eqn:Eon.
      - destruct (negb _); [discriminate|]. destruct (parse_obj_loop _ _ _ _ _ _ _ _) as [[fs acc]|] eqn:Elp; [|discriminate].
        cbn [bind] in Epo. injection Epo as <- <-. eapply obj_loop_plain in Elp; [exact Elp|]. intros n' [<-|[]]. apply Hobj. left. reflexivity.
      - destruct (negb _); [discriminate|]. destruct (parse_obj_loop _ _ _ _ _ _ _ _) as [[fs acc]|] eqn:Elp; [|discriminate].
        cbn [bind] in Epo. injection Epo as <- <-. eapply obj_loop_plain in Elp; [exact Elp|]. intros n' I. apply Hobj. right. eauto.
      - exfalso. destruct Go as [[s K]|(nn & ww & us & K & _)]; discriminate. }
    destruct Po as [Pg Ph]. rewrite Pg, Hm in Fg. rewrite Ph in Fh. cbn [app] in Fg, Fh.
    assert (Ev : forall f, In f (ModelWrapper.p_g pc ++ ModelWrapper.p_h pc) -> exists o, f qp dofs = Ok o).
    { unfold parse_constraints in Epc. rewrite !map_length, Nat.eqb_refl in Epc. cbn [andb] in Epc.
      eapply cons_loop_evaluates; [exact NA|exact Hcons|exact Epc|]. cbn. intros f' []. }
    destruct (constraint_meaning _ q_ndofs ns cs (qc_smoothing a) (qc_smoothing_params a) qp dofs pc NA Hcons Epc) as [_ CM].
    apply CM. clear CM.
    assert (GG : g_scaled p (d_x (R_num (x_fin E)) d') = merge_callables (map Some (ModelWrapper.p_g pc)) false (qc_smoothing a) (qc_smoothing_params a) qp dofs).
    { unfold g_scaled. cbn [optimum] in Hd. rewrite Hd. cbn [bind]. rewrite Fq, Fg. reflexivity. }
    assert (HH : h_scaled p (d_x (R_num (x_fin E)) d') = merge_callables (map Some (ModelWrapper.p_h pc)) false None [] qp dofs).
    { unfold h_scaled. cbn [optimum] in Hd. rewrite Hd. cbn [bind]. rewrite Fq, Fh. reflexivity. }
    split.
    - intros g I. destruct (merge_plain _ (map Some (ModelWrapper.p_g pc)) (qc_smoothing a) (qc_smoothing_params a) qp dofs) as (out & Em & Ele & _).
      { intros g' I'. apply in_map_iff in I' as (g1 & [= <-] & I'). apply Ev, in_app_iff. auto. }
      assert (Al : all_le0 out). { intros v Iv. apply Hg. rewrite Rg, GG, Em. exact Iv. }
      destruct (Ev g) as [og Eg]; [apply in_app_iff; auto|]. exists og. split; auto. apply (proj1 Ele Al g og); auto. apply in_map. exact I.
    - intros h I. destruct (merge_plain _ (map Some (ModelWrapper.p_h pc)) None [] qp dofs) as (out & Em & _ & Eeq).
      { intros g' I'. apply in_map_iff in I' as (g1 & [= <-] & I'). apply Ev, in_app_iff. auto. }
      assert (Al : all_eq0 out). { intros v Iv. apply Hh. rewrite Rh, HH, Em. exact Iv. }
      destruct (Ev h) as [og Eg]; [apply in_app_iff; auto|]. exists og. split; auto. apply (proj1 Eeq Al h og); auto. apply in_map. exact I.
  Qed.
End Feasible.

(** ** C81 *)
Lemma default_unit {L} (a : args L) qp phi b : qc_phi_unit a = None -> Bnormal qp phi = Ok b ->
  forall u, phi_unit_of a qp phi = Ok u ->
  exists len, u = gaverage (gmap Rabs b) * 10000000 * Rabs len /\
    match qc_distance a with
    | Some d => len = d
    | None => forall pd wd, qc_plasma_dofs a = pd -> qc_winding_dofs a = Some wd ->
        (qc_plasma_ntor a * 2 + 1 < length pd)%nat -> (qc_winding_ntor a * 2 + 1 < length wd)%nat ->
        len = nth (qc_plasma_ntor a * 2 + 1) pd 0 - nth (qc_winding_ntor a * 2 + 1) wd 0
    end.
Proof.
  intros Hn Hb u H. unfold phi_unit_of in H. rewrite Hn, Hb in H. cbn [bind] in H.
  destruct (qc_distance a) as [d|].
  - injection H as <-. exists d. auto.
  - destruct (getclamp (qc_plasma_dofs a) _) as [pm|] eqn:Ep; [|discriminate]. cbn [bind] in H.
    destruct (getclamp _ (qc_winding_ntor a * 2 + 1)) as [wm|] eqn:Ew; [|discriminate]. cbn [bind] in H.
    injection H as <-. exists (pm - wm). split; auto. intros pd wd <- Hw L1 L2. rewrite Hw in Ew. unfold getclamp in Ep, Ew.
    destruct (qc_plasma_dofs a) as [|v l] eqn:El; [discriminate|]. destruct wd as [|v' l']; [discriminate|].
    injection Ep as <-. injection Ew as <-. rewrite !Nat.min_l by (cbn [length] in *; lia). reflexivity.
Qed.
Lemma zero_unit_loses s x d k : unscale s 0 x = Ok d -> lookup "phi" d = Some k -> forall v, In v (el k) -> v = 0.
Proof.
  intros H Hl v I. rewrite (unscale_lookup _ _ _ _ H) in Hl. cbn [String.eqb Ascii.eqb Bool.eqb] in Hl.
  destruct (lookup "phi_scaled" (unravel s x)) as [p|]; [|discriminate]. cbn in Hl. injection Hl as <-. cbn [amap el] in I.
  apply in_map_iff in I as (w & <- & _). lra.
Qed.
