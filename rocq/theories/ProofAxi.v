(** Axisymmetric machines: any number of field periods may be declared. *)
From Coq Require Import String List Bool Arith ZArith Reals Lra Lia.
From Verif Require Import Base ModelArray ModelMath SpecMath ModelSurface SpecSurface ProofSurface ProofSurface2
  ModelParams ModelField SpecField ProofField ProofField2 ProofField3
  ModelQuantity SpecQuantity ModelWrapper SpecWrapper ModelShipped ModelPackage SpecPackage ProofPackage4
  SpecConvex ProofConvex SpecRefine ProofRefine SpecMirror SpecNfp ProofNfp ProofNfp2 ProofNfp3 ProofNfp4 SpecAxi.
Import ListNotations.
Open Scope R_scope.
Open Scope string_scope.
Open Scope list_scope.

Lemma pt_00 s p t : pt s 0 0 p t = V3 (cos (2 * PI * p) * rval s 0 0 p t) (sin (2 * PI * p) * rval s 0 0 p t) (zval s 0 0 p t).
Proof.
  rewrite pt00. unfold cyl_point. f_equal; ring.
Qed.
Lemma axi_values s : legal s -> axisymmetric s -> forall p p' t, rval s 0 0 p t = rval s 0 0 p' t /\ zval s 0 0 p t = zval s 0 0 p' t.
Proof.
  intros L (F & HF & Hr). pose proof (reports_unique _ _ _ _ HF (reports_gammadash s 0 0 L)) as U.
  assert (A : forall p t, rval s 0 0 p t = rval s 0 0 0 t /\ zval s 0 0 p t = zval s 0 0 0 t).
  { intros p t. pose proof (Hr 0 t p) as H. rewrite Rplus_0_l, !U, !pt_00 in H. unfold rotz in H. cbn [vx vy vz] in H. rewrite Rmult_0_r, cos_0, sin_0 in H.
    injection H as H1 H2 H3. split; [|exact H3].
    pose proof (sin2_cos2 (2 * PI * p)) as Q; unfold Rsqr in Q. revert H1 H2 Q. generalize (cos (2 * PI * p)) (sin (2 * PI * p)) (rval s 0 0 p t) (rval s 0 0 0 t). intros c s' a b H1 H2 Q.
    replace a with (a * (s' * s' + c * c)) by (rewrite Q; ring). replace b with (b * (s' * s' + c * c)) by (rewrite Q; ring).
    replace (a * (s' * s' + c * c)) with (s' * (s' * a) + c * (c * a)) by ring. rewrite H1, H2. ring. }
  intros p p' t. destruct (A p t) as (-> & ->). destruct (A p' t) as (-> & ->). auto.
Qed.
Lemma centry_rescale k m p t c : centry (k * m) 0 0 p t c = centry m 0 0 (INR k * p) t c.
Proof.
  destruct c as [|mn|mn]; cbn [centry]; [reflexivity| |]; unfold cmn_entry, smn_entry; cbn [Nat.add Nat.modulo Nat.divmod snd Nat.eqb Nat.sub];
    (replace (phase_even (k * m) (fst mn) (snd mn) p t) with (phase_even m (fst mn) (snd mn) (INR k * p) t) by (unfold phase_even; rewrite mult_INR; ring));
    unfold derivative_factor; cbn [pow]; reflexivity.
Qed.
(** The surface with [k] times as many declared periods. *)
Lemma relabelled k s ps ts : legal s -> axisymmetric s -> ps <> [] -> ts <> [] ->
  exists s', built s' /\ s_nfp s' = (k * s_nfp s)%nat /\ legal s' /\ same_shape s' s /\ s_qphi s' = ps /\ s_qtheta s' = ts.
Proof.
  intros L A Hp Ht.
  assert (E : exists s', make_surface (k * s_nfp s) (s_stellsym s) (s_mpol s) (s_ntor s) (arr1 ps) (arr1 ts) (arr1 (s_dofs s)) = Ok s' /\
    s_nfp s' = (k * s_nfp s)%nat /\ s_stellsym s' = s_stellsym s /\ s_mpol s' = s_mpol s /\ s_ntor s' = s_ntor s /\ s_dofs s' = s_dofs s /\ s_qphi s' = ps /\ s_qtheta s' = ts).
  { unfold make_surface. destruct ps as [|p0 [|]]; [contradiction| |]; (destruct ts as [|t0 [|]]; [contradiction| |]); cbn; eexists; (split; [reflexivity|repeat split]). }
  destruct E as (s' & E & E1 & E2 & E3 & E4 & E5 & E6 & E7). exists s'. split; [unfold built; eauto 10|]. split; [exact E1|].
  assert (L' : legal s') by (unfold legal; now rewrite E2, E3, E4, E5). split; [exact L'|]. split; [|now split].
  assert (P : forall p t, pt s' 0 0 p t = pt s 0 0 p t).
  { intros p t. rewrite !pt_00. assert (Rv : rval s' 0 0 p t = rval s 0 0 (INR k * p) t /\ zval s' 0 0 p t = zval s 0 0 (INR k * p) t).
    { unfold rval, zval. rewrite E1, E2, E3, E4, E5. split; apply ldot_map_ext; intros c _; apply centry_rescale. }
    destruct Rv as (-> & ->). destruct (axi_values s L A (INR k * p) p t) as (-> & ->). reflexivity. }
  exists (pt s 0 0). split; [|exact (reports_gammadash s 0 0 L)].
  intros ps' ts' Hp' Ht'. destruct (reports_gammadash s' 0 0 L' ps' ts' Hp' Ht') as (s2 & A2 & B2). exists s2. split; [exact A2|].
  refine (eq_trans B2 _). f_equal. apply map_ext. intros p. apply map_ext. intros t. apply P.
Qed.

Lemma equi_some x0 h n : (n <> 0)%nat -> equispaced x0 h n <> [].
Proof. destruct n; [contradiction|discriminate]. Qed.
Lemma sample_shaped {A} (F : R -> R -> A) ps ts : length (sample F ps ts) = length ps /\ List.Forall (fun row => length row = length ts) (sample F ps ts).
Proof. unfold sample. split; [apply map_length|]. apply Forall_forall. intros r H. apply in_map_iff in H as (p & <- & _). apply map_length. Qed.

(** The machine with [k] times as many declared periods and no toroidal harmonics. *)
Lemma many_periods k q : made q -> legal (q_winding q) -> legal (q_plasma q) -> axisymmetric_machine q -> uniform_grids k q -> (q_ntor q < k)%nat ->
  exists q0, made q0 /\ legal (q_winding q0) /\ legal (q_plasma q0) /\ plasma_shaped q0 /\ fewer_periods k q0 q /\ periodic_harmonics k q0 q /\ q_ntor q0 = 0%nat.
Proof.
  intros M Lw Lp (Ap & Aw & b & Eb) (En & (xe & ne & He & Ge) & (xp & np & Hp & Gp) & (xw & nw & Hw & Gw)) Hk.
  destruct (made_facts q M) as (Nz & Md & _ & _ & _ & Cw & Cp). fold (q_nfp q) in Nz.
  assert (Tw : s_qtheta (q_winding q) <> []) by (intros Z; rewrite Z in Cw; unfold resampled, copy_and_set_quadpoints, make_surface in Cw; cbn in Cw; destruct (s_qphi (q_winding q)); discriminate).
  assert (Tp : s_qtheta (q_plasma q) <> []) by (intros Z; rewrite Z in Cp; unfold resampled, copy_and_set_quadpoints, make_surface in Cp; cbn in Cp; destruct (s_qphi (q_plasma q)); discriminate).
  assert (Te : q_qtheta q <> []).
  { destruct (made_facts q M) as (_ & _ & _ & _ & Ce & _). intros Z; rewrite Z in Ce; unfold resampled, copy_and_set_quadpoints, make_surface in Ce; cbn in Ce; destruct (q_qphi q); discriminate. }
  set (N := q_nfp q) in *. assert (Kz : k <> 0%nat) by (clear - Hk; lia).
  destruct (relabelled k (q_plasma q) (equispaced xp (/ (INR (k * N) * INR np)) np) (s_qtheta (q_plasma q)) Lp Ap (equi_some _ _ np ltac:(lia)) Tp) as (pl & Bp & Np & Lp' & Sp & Qp & Qtp).
  destruct (relabelled k (q_winding q) (s_qphi (q_winding q)) (s_qtheta (q_winding q)) Lw Aw) as (wi & Bw & Nw & Lw' & Sw & Qw & Qtw); [rewrite Gw; apply equi_some; apply Nat.neq_mul_0; split; [exact Nz|]; apply Nat.neq_mul_0; split; [exact Kz|exact Hw]|exact Tw|].
  set (pe := equispaced xe (/ (INR (k * N) * INR ne)) ne).
  set (Bn := sample (fun _ t => b t) (s_qphi pl) (s_qtheta pl)).
  destruct (copy_ok wi pe (q_qtheta q) (equi_some _ _ ne ltac:(lia)) Te) as (ev & Ev).
  assert (Q : exists q0, make_params pl wi (q_G q) (q_I q) (Some Bn) (q_mpol q) 0 (Some (arr1 pe)) (Some (arr1 (q_qtheta q))) (Some (q_stellsym q)) = Ok q0 /\
    q_plasma q0 = pl /\ q_winding q0 = wi /\ q_G q0 = q_G q /\ q_I q0 = q_I q /\ q_Bnormal q0 = Bn /\ q_qphi q0 = pe /\ q_qtheta q0 = q_qtheta q /\
    q_stellsym q0 = q_stellsym q /\ q_mpol q0 = q_mpol q /\ q_ntor q0 = 0%nat).
  { unfold make_params, make_base. rewrite Nw. fold (q_nfp q). fold N. destruct (k * N)%nat as [|kn] eqn:EkN; [apply Nat.mul_eq_0 in EkN; clear - EkN Kz Nz; tauto|]. rewrite <- EkN.
    replace (length (s_qphi wi) mod (k * N))%nat with 0%nat.
    2:{ symmetry. rewrite Qw, Gw. unfold equispaced. rewrite map_length, seq_length. replace (N * (k * nw))%nat with (nw * (k * N))%nat by ring. apply Nat.mod_mul. lia. }
    cbn [Nat.eqb negb]. unfold resampled in Ev. rewrite Ev. cbn [bind]. eexists. split; [reflexivity|]. repeat split. }
  destruct Q as (q0 & Mk & E1 & E2 & E3 & E4 & E5 & E6 & E7 & E8 & E9 & E10). exists q0.
  assert (NN : q_nfp q0 = (k * N)%nat) by (unfold q_nfp; now rewrite E2, Nw).
  split; [split; [now rewrite E1|split; [now rewrite E2|]]; do 10 eexists; exact Mk|]. split; [now rewrite E2|]. split; [now rewrite E1|].
  split; [unfold plasma_shaped; rewrite E5, E1; unfold Bn; apply sample_shaped|].
  assert (PN : forall n, / (INR (k * N) * INR n) = / (INR N * INR (k * n))) by (intros n; rewrite !mult_INR; f_equal; ring).
  split; [|split; [split; [exact E8|split; [exact E9|rewrite E10; symmetry; now apply Nat.div_small]]|exact E10]].
  unfold fewer_periods. rewrite NN, E1, E2, E3, E4, E5, E6, E7.
  split; [exact Nw|]. split; [rewrite Np, Nw, En; reflexivity|]. split; [exact Sp|]. split; [exact Sw|]. split; [reflexivity|]. split; [reflexivity|]. split; [now symmetry|]. split; [now symmetry|].
  split; [exists xw, nw; split; [exact Hw|]; rewrite Qw, Gw, PN; f_equal; ring|].
  split; [exists xe, ne; split; [exact He|]; split; [reflexivity|]; rewrite Ge, PN; reflexivity|]. split; [reflexivity|].
  split; [exists xp, np; split; [exact Hp|]; split; [exact Qp|]; rewrite Gp, PN; reflexivity|]. split; [now symmetry|].
  exists (fun _ t => b t). split; [reflexivity|]. split; [exact Eb|]. reflexivity.
Qed.

Lemma flat_potential q y p p' t : q_ntor q = 0%nat -> phi_of q y p t = phi_of q y p' t.
Proof.
  intros E. unfold phi_of. apply ldot_map_ext. intros [[a b] s] H. unfold qcols in H. rewrite E, pcols_in in H. destruct H as (H & _).
  assert (b = 0%Z) as -> by (destruct H as [(_ & H)|(_ & H)]; lia). unfold tr, targ, trig_arg. cbn [fst snd]. f_equal. ring.
Qed.

Lemma axi_no_worse other k q x os cs fx : sound q x -> ordered q -> axisymmetric_machine q -> uniform_grids k q -> (q_ntor q < k)%nat ->
  turned_objective other q os -> turned_constraints other q cs -> feasible other q cs x -> weighted other q os x fx ->
  exists z fz, length z = q_ndofs q /\ axisymmetric_design q z /\ feasible other q cs z /\ weighted other q os z fz /\ fz <= fx.
Proof.
  intros S O A G Hk Ho Hc F W. pose proof S as (M & Lw & Lp & Ps & L).
  destruct (many_periods k q M Lw Lp A G Hk) as (q0 & M0 & Lw0 & Lp0 & Ps0 & D & H & N0).
  destruct (periodic_no_worse other k q0 q x os cs fx) as (y & fy & Ly & Fy & Wy & Le); auto.
  pose proof H as (H1 & H2 & H3).
  destruct (described k q0 q y D M0 M H1 H2) as (z & Lz & Ez); [rewrite N0; lia|exact Ly|].
  assert (Sy : sound q0 y) by (repeat (split; [assumption|]); exact Ly). pose proof (sound_other q x z S Lz) as Sz.
  exists z, fy. split; [exact Lz|]. split; [|split; [|split; [|exact Le]]].
  - exists (phi_of q z). split; [|intros p p' t; rewrite !Ez; now apply flat_potential].
    apply qreports_of; [exact M|]. intros ps ts q' _ _ P. now apply (Phi_placed q z M Lz).
  - apply (agree_feasible other q0 y q z); [|exact Fy]. intros name c b I. apply (fewer_even other k q0 q y z name D Sy Sz Ez).
    destruct (Hc name c b I) as [(Q & _)|Q]; [now apply (even_comparable other q)|auto].
  - apply (agree_weighted other q0 y q z); [|exact Wy]. intros name w I. apply (fewer_even other k q0 q y z name D Sy Sz Ez). now apply (even_comparable other q), (Ho name w).
Qed.
