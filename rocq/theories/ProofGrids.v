(** The grids a call works on when none are given, for C150. *)
From Coq Require Import String List Bool Arith ZArith Reals Lra Lia.
From Verif Require Import Base ModelArray ProofArray ModelMath SpecMath ProofMath ModelSurface SpecSurface ProofSurface ProofSurface2 ProofSurface3
  ModelParams ModelField SpecField ProofField ProofField2 ProofField3 ProofField4
  ModelQuantity ModelWrapper ModelPackage SpecPackage ProofPackage ProofPackage2 ProofPackage3 ProofPackage4 ProofConvex SpecQuad ProofQuad4 ProofFlux ProofPeriods
  ModelSolver ModelQuadcoil SpecQuadcoil ProofQuadcoil ProofQuadcoil5.
Import ListNotations.
Open Scope R_scope.
Open Scope string_scope.
Open Scope list_scope.

Lemma linspace_equi stop n : linspace_open stop n = equispaced 0 (stop / INR n) n.
Proof. unfold linspace_open, equispaced. apply map_ext. intros i. ring. Qed.
Lemma surface_made nfp st mp nt p t d s : make_surface nfp st mp nt (arr1 p) (arr1 t) d = Ok s -> s_nfp s = nfp /\ s_qphi s = p /\ s_qtheta s = t.
Proof.
  unfold make_surface. change (is_ndarray (arr1 p)) with true. change (is_ndarray (arr1 t)) with true. destruct (is_ndarray d); [|discriminate]. cbn [negb]. cbv zeta.
  repeat match goal with |- bind ?A _ = _ -> _ => let X := fresh in destruct A as [X|]; [cbn [bind]|discriminate] end.
  intros X. injection X as <-. repeat split.
Qed.

(** The parameter object of a call. *)
Lemma call_params {L} (a : args L) qd y q : y_to_qp a qd y = Ok q ->
  s_nfp (q_plasma q) = qc_nfp a /\ s_nfp (q_winding q) = qc_nfp a /\
  s_qphi (q_plasma q) = qd_plasma_phi qd /\ s_qtheta (q_plasma q) = qd_plasma_theta qd /\
  s_qphi (q_winding q) = qd_winding_phi qd /\ s_qtheta (q_winding q) = qd_winding_theta qd /\
  q_qphi q = qd_phi qd /\ q_qtheta q = qd_theta qd /\
  (length (s_qphi (q_winding q)) mod qc_nfp a = 0)%nat /\ (qc_nfp a <> 0)%nat /\
  make_params (q_plasma q) (q_winding q) (q_G q) (q_I q) (Some (q_Bnormal q)) (q_mpol q) (q_ntor q) (Some (arr1 (q_qphi q))) (Some (arr1 (q_qtheta q))) (Some (q_stellsym q)) = Ok q.
Proof.
  unfold y_to_qp. destruct (getitem y "plasma_dofs") as [pd|]; [|discriminate]. cbn [bind].
  destruct (make_surface _ _ _ _ _ _ (PyArr pd)) as [plasma|] eqn:Ep; [|discriminate]. cbn [bind]. apply surface_made in Ep as (P1 & P2 & P3).
  match goal with |- bind ?A _ = _ -> _ => destruct A as [winding|] eqn:Ew; [|discriminate] end. cbn [bind].
  assert (W : s_nfp winding = qc_nfp a /\ s_qphi winding = qd_winding_phi qd /\ s_qtheta winding = qd_winding_theta qd).
  { destruct (qc_distance a).
    - destruct (gamma plasma); [|discriminate]. cbn [bind] in Ew. destruct (bind (getitem y _) item); [|discriminate]. cbn [bind] in Ew.
      destruct (qc_generator _ _ _ _ _ _); [|discriminate]. cbn [bind] in Ew. exact (surface_made _ _ _ _ _ _ _ _ Ew).
    - destruct (getitem y _); [|discriminate]. cbn [bind] in Ew. exact (surface_made _ _ _ _ _ _ _ _ Ew). }
  destruct W as (W1 & W2 & W3). clear Ew.
  match goal with |- bind ?A _ = _ -> _ => destruct A as [Bn|]; [|discriminate] end. cbn [bind].
  match goal with |- bind ?A _ = _ -> _ => destruct A as [G|]; [|discriminate] end. cbn [bind].
  match goal with |- bind ?A _ = _ -> _ => destruct A as [I|]; [|discriminate] end. cbn [bind].
  unfold make_params, make_base. destruct (s_nfp winding) as [|k] eqn:Es; [discriminate|]. destruct (Nat.eqb _ 0) eqn:Em; [|discriminate]. cbn [negb].
  destruct (copy_and_set_quadpoints winding _ _) as [ev|] eqn:Ev; [|discriminate]. cbn [bind]. intros [= <-].
  cbn [q_plasma q_winding q_eval q_G q_I q_Bnormal q_qphi q_qtheta q_stellsym q_mpol q_ntor q_ndofs q_ndofs_half b_plasma b_winding b_eval b_G b_I b_Bnormal b_qphi b_qtheta b_stellsym arr1 elements el].
  rewrite Es, Em. cbn [negb]. change (PyArr (Arr [length (qd_phi qd)] (qd_phi qd))) with (arr1 (qd_phi qd)). change (PyArr (Arr [length (qd_theta qd)] (qd_theta qd))) with (arr1 (qd_theta qd)).
  rewrite Ev. apply Nat.eqb_eq in Em. rewrite W1 in *. repeat split; auto; lia.
Qed.

(** What the call works on, argument by argument. *)
Lemma call_grids ns E (a : args (x_solver E)) o : quadcoil ns E a = Some (Ok o) ->
  let q := o_qp E o in let nfp := qc_nfp a in
  (nfp <> 0)%nat /\ s_nfp (q_plasma q) = nfp /\ s_nfp (q_winding q) = nfp /\
  s_qphi (q_plasma q) = match qc_plasma_qphi a with Some l => l | None => equispaced 0 (1 / INR nfp / INR 32) 32 end /\
  s_qtheta (q_plasma q) = match qc_plasma_qtheta a with Some l => l | None => equispaced 0 (1 / INR 34) 34 end /\
  s_qphi (q_winding q) = match qc_winding_qphi a with Some l => l | None => equispaced 0 (1 / INR (32 * nfp)) (32 * nfp) end /\
  s_qtheta (q_winding q) = match qc_winding_qtheta a with Some l => l | None => equispaced 0 (1 / INR 34) 34 end /\
  q_qphi q = match qc_qphi a with Some l => l | None => firstn (length (s_qphi (q_winding q)) / nfp) (s_qphi (q_winding q)) end /\
  q_qtheta q = match qc_qtheta a with Some l => l | None => s_qtheta (q_winding q) end /\
  (length (s_qphi (q_winding q)) mod nfp = 0)%nat /\
  make_params (q_plasma q) (q_winding q) (q_G q) (q_I q) (Some (q_Bnormal q)) (q_mpol q) (q_ntor q) (Some (arr1 (q_qphi q))) (Some (arr1 (q_qtheta q))) (Some (q_stellsym q)) = Ok q.
Proof.
  intros Hq q nfp. destruct (quadcoil_ok _ _ _ _ Hq) as (p & r & dofs & Hp & _ & _ & _ & E1 & _). subst q. rewrite E1.
  pose proof (prepare_quadpoints _ _ _ Hp) as Eq. destruct (prepare_fields _ _ _ Hp) as (_ & _ & _ & _ & _ & Ey & _).
  destruct (call_params _ _ _ _ Ey) as (A1 & A2 & A3 & A4 & A5 & A6 & A7 & A8 & A9 & A10 & A11).
  fold nfp in A1, A2, A9, A10. unfold default_quadpoints in Eq. fold nfp in Eq. apply Nat.eqb_neq in A10 as Z. rewrite Z in Eq. cbv zeta in Eq.
  assert (Eq' : pr_qd p = {| qd_plasma_phi := match qc_plasma_qphi a with Some p => p | None => linspace_open (1 / INR nfp) 32 end;
          qd_plasma_theta := match qc_plasma_qtheta a with Some t => t | None => linspace_open 1 34 end;
          qd_winding_phi := match qc_winding_qphi a with Some p => p | None => linspace_open 1 (32 * nfp) end;
          qd_winding_theta := match qc_winding_qtheta a with Some t => t | None => linspace_open 1 34 end;
          qd_phi := match qc_qphi a with Some p => p | None => firstn (length (match qc_winding_qphi a with Some p => p | None => linspace_open 1 (32 * nfp) end) / nfp) (match qc_winding_qphi a with Some p => p | None => linspace_open 1 (32 * nfp) end) end;
          qd_theta := match qc_qtheta a with Some t => t | None => match qc_winding_qtheta a with Some t => t | None => linspace_open 1 34 end end |}).
  { destruct (qc_plasma_qphi a), (qc_qphi a); injection Eq as <-; reflexivity. }
  clear Eq. rewrite Eq' in A3, A4, A5, A6, A7, A8. cbn [qd_plasma_phi qd_plasma_theta qd_winding_phi qd_winding_theta qd_phi qd_theta] in A3, A4, A5, A6, A7, A8.
  rewrite <- A5 in A7. rewrite <- A6 in A8. rewrite !linspace_equi in *. repeat (split; [assumption|]). assumption.
Qed.

(** The object rebuilt without evaluation points. *)
Lemma unset_points q nfp : s_nfp (q_winding q) = nfp -> (nfp <> 0)%nat -> (length (s_qphi (q_winding q)) mod nfp = 0)%nat ->
  q_qphi q = firstn (length (s_qphi (q_winding q)) / nfp) (s_qphi (q_winding q)) -> q_qtheta q = s_qtheta (q_winding q) ->
  make_params (q_plasma q) (q_winding q) (q_G q) (q_I q) (Some (q_Bnormal q)) (q_mpol q) (q_ntor q) (Some (arr1 (q_qphi q))) (Some (arr1 (q_qtheta q))) (Some (q_stellsym q)) = Ok q ->
  make_params (q_plasma q) (q_winding q) (q_G q) (q_I q) (Some (q_Bnormal q)) (q_mpol q) (q_ntor q) None None (Some (q_stellsym q)) = Ok q.
Proof.
  intros En Nz Hm E1 E2. rewrite E1, E2 at 1. unfold make_params, make_base. rewrite En. destruct nfp; [contradiction|]. rewrite Hm. cbn [Nat.eqb negb]. auto.
Qed.

(** The field error over the whole plasma surface. *)
Section Error.
  Variables (other : list string) (q : params) (x : list R) (Bp : R -> R -> R) (x0 p0 : R) (k n : nat).
  Hypothesis Sd : sound q x.
  Hypothesis Ns : s_nfp (q_plasma q) = s_nfp (q_winding q).
  Hypothesis Hk : (k <> 0)%nat.
  Hypothesis Hw : s_qphi (q_winding q) = equispaced x0 (/ (INR (q_nfp q) * INR k)) (q_nfp q * k).
  Hypothesis Hn : (2 <= n)%nat.
  Hypothesis Hp : s_qphi (q_plasma q) = equispaced p0 (/ (INR (q_nfp q) * INR n)) n.
  Hypothesis PB : forall p t, Bp (p + / INR (q_nfp q)) t = Bp p t.
  Hypothesis HB : q_Bnormal q = sample Bp (s_qphi (q_plasma q)) (s_qtheta (q_plasma q)).
  Lemma whole_error : exists qb, on_plasma_field q Bp (one_turn p0 (q_nfp q * n)) (s_qtheta (q_plasma q)) = Ok qb /\
    (exists r v d, reads other "f_B" q x (scal r) /\ reads other "Bnormal" qb x v /\ da (q_plasma qb) = Ok d /\
      r = Rsum (map2 (fun w y => w * (y * y / 2)) (concat d) (el v))).
  Proof using Sd Ns Hk Hw Hn Hp PB HB.
    pose proof Sd as (M & Lw & Lp & _ & L). destruct (made_facts q M) as (Nf & _ & _ & _ & _ & _ & Cp). assert (Nq : (q_nfp q <> 0)%nat) by exact Nf.
    assert (Nt : s_qtheta (q_plasma q) <> []) by (intros Z; rewrite Z in Cp; unfold resampled, copy_and_set_quadpoints, make_surface in Cp; cbn in Cp; destruct (s_qphi (q_plasma q)); discriminate).
    assert (Np : one_turn p0 (q_nfp q * n) <> []).
    { unfold one_turn, equispaced. destruct (q_nfp q * n)%nat eqn:Z; [clear - Nq Hn Z; nia|]. discriminate. }
    destruct (field_on_plasma q Bp _ _ x Sd Np Nt) as (qb & Eb & Sb & Cb & Nb & Bb & _ & Vb). exists qb. split; [exact Eb|].
    assert (Npl : s_qphi (q_plasma q) <> []) by (rewrite Hp; unfold equispaced; destruct n; [lia|discriminate]).
    assert (Vq : Bnormal q x = Ok (sample (fun p t => bnval q x p t + Bp p t) (s_qphi (q_plasma q)) (s_qtheta (q_plasma q)))).
    { rewrite Bnormal_made by (auto; apply Sd). now rewrite HB, gmap2_sample. }
    destruct (integral_value other q x Sd "f_B" "Bnormal" (q_plasma q) (fun y => y * y / 2) ltac:(cbn; tauto)) as (r & v & d & Rr & Rv & Dd & Er).
    destruct (reads_Bnormal other q x Sd) as (g & Eg & Rg). rewrite Vq in Eg. injection Eg as <-.
    destruct (reads_Bnormal other qb x Sb) as (g' & Eg' & Rg'). rewrite Vb in Eg'. injection Eg' as <-.
    exists r. eexists. eexists. split; [exact Rr|]. split; [exact Rg'|].
    pose proof Sb as (Mb & _ & Lb & _). destruct (made_facts qb Mb) as (_ & _ & _ & _ & _ & _ & Cbb).
    split; [exact (da_copy _ _ _ _ Lp Cb)|].
    rewrite Er, (reads_fun _ _ _ _ _ _ Rv Rg). cbn [of_grid el].
    rewrite (da_copy _ _ _ _ Lp Cp) in Dd. injection Dd as <-.
    assert (Nr : INR (q_nfp q) <> 0) by now apply not_0_INR. assert (Nqn : (2 <= q_nfp q * n)%nat) by (clear - Nq Hn; nia). assert (Nn : INR n <> 0) by (apply not_0_INR; lia).
    assert (E1 : one_turn p0 (q_nfp q * n) = equispaced p0 (/ (INR (q_nfp q) * INR n)) (q_nfp q * n)) by (unfold one_turn; now rewrite mult_INR).
    rewrite E1 in *. rewrite Hp in Cp. rewrite (equi_dphi _ _ _ _ _ _ Hn Cp), (equi_dphi _ _ _ _ _ _ Nqn Cb).
    assert (Dt : s_dtheta (q_plasma qb) = s_dtheta (q_plasma q)).
    { apply copy_fields in Cb as (_ & _ & _ & _ & _ & _ & _ & _ & _ & _ & X1). apply copy_fields in Cp as (_ & _ & _ & _ & _ & _ & _ & _ & _ & _ & X2). congruence. }
    rewrite Dt, Hp, !(sum_grid _ _ (fun y => y * y / 2)). symmetry.
    apply (period_sum (fun p => Rsum (map (fun t => / (INR (q_nfp q) * INR n) * s_dtheta (q_plasma q) * norm3 (nrm (q_plasma q) p t) * ((bnval q x p t + Bp p t) * (bnval q x p t + Bp p t) / 2)) (s_qtheta (q_plasma q))))
      p0 _ n (/ INR (q_nfp q))).
    - field. auto.
    - intros p. apply Rsum_ext. intros t _. rewrite PB, (bnval_periodic q x x0 k) by auto. do 2 f_equal. unfold q_nfp. rewrite <- Ns. rewrite nrm_shift; [reflexivity|]. unfold q_nfp in Nf. congruence.
  Qed.
End Error.
