(** The figures on jointly refined grids, for C130. *)
From Coq Require Import String List Bool Arith ZArith Reals Lra Lia FunctionalExtensionality.
From Coquelicot Require Import Coquelicot.
From Verif Require Import Base ModelArray ProofArray ModelMath SpecMath ProofMath ModelSurface SpecSurface ProofSurface ProofSurface2 ProofSurface3
  ModelParams ModelField SpecField ProofField ProofField2 ProofField3 ProofField4 ProofField6
  ModelQuantity ModelWrapper ModelPackage SpecPackage ProofPackage ProofPackage2 ProofPackage3 ProofPackage4 SpecConvex ProofConvex ProofUnique2 ProofPeriods SpecQuad ProofQuad ProofQuad2 ProofQuad3 ProofQuad4 SpecLimit ProofLimit.
Import ListNotations.
Open Scope R_scope.
Open Scope string_scope.
Open Scope list_scope.

Lemma regridded_facts q Bp p0 t0 n m x : sound q x -> (2 <= n)%nat -> (2 <= m)%nat ->
  exists q', regridded q Bp p0 t0 n m = Ok q' /\ sound q' x /\ q_nfp q' = q_nfp q /\ q_ndofs q' = q_ndofs q /\ q_winding q' = q_winding q /\ q_stellsym q' = q_stellsym q /\
    q_mpol q' = q_mpol q /\ q_ntor q' = q_ntor q /\ q_qphi q' = one_period (q_nfp q) p0 n /\ q_qtheta q' = one_turn t0 m /\
    resampled (q_winding q) (one_period (q_nfp q) p0 n) (one_turn t0 m) (q_eval q') /\ resampled (q_plasma q) (one_period (q_nfp q) p0 n) (one_turn t0 m) (q_plasma q') /\
    (forall p t, kval q' x p t = kval q x p t) /\ (forall p t, phi_of q' x p t = phi_of q x p t) /\
    Bnormal q' x = Ok (sample (fun p t => bnval q x p t + Bp p t) (one_period (q_nfp q) p0 n) (one_turn t0 m)).
Proof.
  intros (M & Lw & Lp & _ & L) Hn Hm. destruct (made_facts q M) as (Nf & Hd & Nd & _). set (ps := one_period (q_nfp q) p0 n). set (ts := one_turn t0 m).
  assert (Hp : ps <> []) by (apply equi_ne; lia). assert (Ht : ts <> []) by (apply equi_ne; lia).
  destruct (copy_ok (q_plasma q) ps ts Hp Ht) as [s E]. destruct (copy_ok (q_winding q) ps ts Hp Ht) as [w Ew].
  assert (X : exists q', regridded q Bp p0 t0 n m = Ok q' /\ q_plasma q' = s /\ q_winding q' = q_winding q /\ q_G q' = q_G q /\ q_I q' = q_I q /\
    q_stellsym q' = q_stellsym q /\ q_mpol q' = q_mpol q /\ q_ntor q' = q_ntor q /\ q_ndofs q' = q_ndofs q /\ q_Bnormal q' = sample Bp ps ts /\ q_qphi q' = ps /\ q_qtheta q' = ts /\ q_eval q' = w).
  { unfold regridded. cbv zeta. fold ps ts. pose proof E as E0. pose proof Ew as Ew0. unfold resampled in E0, Ew0. rewrite E0. cbn [bind]. unfold make_params, make_base. destruct (s_nfp (q_winding q)) eqn:Es; [contradiction|]. rewrite Hd. cbn [Nat.eqb negb].
    rewrite Ew0. cbn [bind]. eexists. split; [reflexivity|]. cbn. rewrite Nd. repeat split. }
  destruct X as (q' & X & F1 & F2 & F3 & F4 & F5 & F6 & F7 & F8 & F9 & F10 & F11 & F12). exists q'. split; [exact X|].
  assert (M' : made q').
  { split; [rewrite F1; eapply built_resampled; exact E|]. split; [rewrite F2; apply M|]. unfold regridded in X. cbv zeta in X. fold ps ts in X. pose proof E as E0. unfold resampled in E0. rewrite E0 in X. cbn [bind] in X. repeat eexists. exact X. }
  pose proof (copy_fields _ _ _ _ E) as (_ & _ & _ & _ & _ & Q1 & Q2 & _).
  assert (Sh : plasma_shaped q').
  { unfold plasma_shaped. rewrite F9, F1, Q1, Q2. unfold sample. split; [apply map_length|]. apply List.Forall_forall. intros r Hr. apply in_map_iff in Hr as (p & <- & _). apply map_length. }
  assert (L1 : legal (q_winding q')) by now rewrite F2. assert (L2 : legal (q_plasma q')) by (rewrite F1; eapply legal_copy; eauto). assert (L3 : length x = q_ndofs q') by congruence.
  split; [split; [exact M'|split; [exact L1|split; [exact L2|split; [exact Sh|exact L3]]]]|]. split; [unfold q_nfp; now rewrite F2|].
  repeat (split; [assumption|]). split; [now rewrite F12|]. split; [now rewrite F1|]. split; [intros; now apply kval_same|]. split; [intros; unfold phi_of, tr, targ, qcols, q_nfp; now rewrite F2, F5, F6, F7|].
  rewrite Bnormal_made by auto. rewrite F1, Q1, Q2, F9, gmap2_sample. f_equal. apply sample_ext. intros p t. f_equal.
  unfold bnval, unit_at. rewrite F1. rewrite (proj1 (pt_copy _ _ _ _ 0 0 p t E)), (proj2 (pt_copy _ _ _ _ 0 0 p t E)). now rewrite (bval_same q q').
Qed.

Section Figures.
  Variables (other : list string) (q : params) (Bp : R -> R -> R) (p0 t0 : R) (x : list R).
  Hypothesis S : sound q x.
  Hypothesis CB : cont2 Bp.
  Hypothesis Nw : forall p t, wn q p t <> zero3.
  Hypothesis Nz : forall p t, nrm (q_plasma q) p t <> zero3.
  Hypothesis Off : forall p t p' t', In p' (s_qphi (q_winding q)) -> In t' (s_qtheta (q_winding q)) -> pt (q_plasma q) 0 0 p t <> pt (q_winding q) 0 0 p' t'.
  Notation B := (fun p t => bnval q x p t + Bp p t).
  (** Convergence of a figure on the refined grids. *)
  Definition settles (name : string) (r : R) : Prop := forall e, 0 < e -> eventually (fun n m => exists q' v, regridded q Bp p0 t0 n m = Ok q' /\ reads other name q' x (scal v) /\ Rabs (v - r) <= e).

  Definition wfield (fld : string) : R -> R -> R := if String.eqb fld "K2" then (fun p t => dot3 (kval q x p t) (kval q x p t)) else phi_of q x.
  Lemma wfield_fielded fld : fld = "K2" \/ fld = "Phi" -> fielded other fld q x (wfield fld).
  Proof using S Nw. clear CB Nz Off. intros [-> | ->]; unfold wfield; cbn [String.eqb Ascii.eqb Bool.eqb]; [now apply K2_fielded|now apply Phi_fielded]. Qed.
  Lemma wfield_reads fld n m q' : fld = "K2" \/ fld = "Phi" -> (2 <= n)%nat -> (2 <= m)%nat -> regridded q Bp p0 t0 n m = Ok q' ->
    reads other fld q' x (of_grid (sample (wfield fld) (one_period (q_nfp q) p0 n) (one_turn t0 m))).
  Proof using S.
    clear CB Nw Nz Off. intros Hf Hn Hm E. destruct (regridded_facts q Bp p0 t0 n m x S Hn Hm) as (q1 & E1 & S1 & _ & _ & _ & _ & _ & _ & P1 & P2 & _ & _ & Ek & Ep & _).
    rewrite E in E1. injection E1 as <-. destruct Hf as [-> | ->]; unfold wfield; cbn [String.eqb Ascii.eqb Bool.eqb].
    - pose proof (reads_K2 other q' x S1) as Rd. rewrite P1, P2 in Rd. replace (sample (fun p t => dot3 (kval q x p t) (kval q x p t)) _ _) with (sample (fun p t => dot3 (kval q' x p t) (kval q' x p t)) (one_period (q_nfp q) p0 n) (one_turn t0 m)); [exact Rd|].
      apply sample_ext. intros p t. now rewrite Ek.
    - pose proof (reads_Phi other q' x S1) as Rd. rewrite P1, P2 in Rd. replace (sample (phi_of q x) _ _) with (sample (phi_of q' x) (one_period (q_nfp q) p0 n) (one_turn t0 m)); [exact Rd|].
      apply sample_ext. intros p t. now rewrite Ep.
  Qed.
  Lemma integral_settles name fld h : In (name, fld, h) winding_integrals -> settles name (integral (fun p t => h (wfield fld p t) * norm3 (wn q p t)) p0 1 t0).
  Proof using S Nw.
    clear CB Nz Off. intros Hi e Pe. assert (Hf : fld = "K2" \/ fld = "Phi") by (destruct Hi as [X|[X|[X|[X|[]]]]]; injection X as <- <- <-; auto).
    assert (Hh : forall y, continuity_pt h y) by (intros y; destruct Hi as [X|[X|[X|[X|[]]]]]; injection X as <- <- <-; [reg|reg|apply Rcontinuity_abs|apply continuity_pt_filterlim, continuous_sqrt]).
    pose proof (wfield_fielded fld Hf) as (CF & PF & _ & _). set (F := wfield fld) in *. set (G := fun p t => h (F p t) * norm3 (wn q p t)). assert (CG : cont2 G).
    { apply cont2_mult; [apply cont2_comp; assumption|]. apply cont3_norm, cont3_nrm. }
    destruct (grids_converge G p0 1 t0 1 ltac:(lra) ltac:(lra) CG e Pe) as (N0 & H0). exists (Nat.max N0 2). intros n m Hn Hm. pose proof (nfp_pos q x S) as Pk. pose proof S as (M & Lw & _). destruct (made_facts q M) as (Nf & _).
    destruct (regridded_facts q Bp p0 t0 n m x S ltac:(lia) ltac:(lia)) as (q' & E & S' & Ek & _ & _ & _ & _ & _ & _ & _ & C & _). exists q'.
    destruct (integral_value other q' x S' name fld (q_eval q') h) as (r & v & d & Rr & Rv & Dd & Er).
    { destruct Hi as [X|[X|[X|[X|[]]]]]; injection X as <- <- <-; cbn; tauto. }
    exists r. split; [exact E|]. split; [exact Rr|]. rewrite (da_copy _ _ _ _ Lw C) in Dd. injection Dd as <-. unfold one_period, one_turn in C, Er. rewrite (equi_dphi _ _ _ n _ _ ltac:(lia) C), (equi_dtheta _ _ _ m _ _ ltac:(lia) C) in Er.
    rewrite (reads_fun _ _ _ _ _ _ Rv (wfield_reads fld n m q' Hf ltac:(lia) ltac:(lia) E)) in Er. cbn [of_grid el] in Er. fold F in Er.
    unfold one_period, one_turn in Er. rewrite sum_grid in Er. rewrite Ek in Er. set (k := q_nfp q) in *. set (hh := / (INR k * INR n)) in *.
    assert (Pn : 0 < INR n) by (apply lt_0_INR; lia). assert (Pm : 0 < INR m) by (apply lt_0_INR; lia).
    change (nrm (q_winding q)) with (wn q) in Er.
    rewrite <- (period_sum (fun p => Rsum (map (fun t => hh * / INR m * norm3 (wn q p t) * h (F p t)) (equispaced t0 (/ INR m) m))) p0 hh n (/ INR k) k) in Er.
    - specialize (H0 (k * n)%nat m). unfold Rdiv in H0. rewrite !Rmult_1_l, mult_INR in H0. fold hh in H0. unfold double in H0.
      replace r with (hh * / INR m * dsum G (equispaced p0 hh (k * n)) (equispaced t0 (/ INR m) m)); [apply H0; try lia; unfold k, q_nfp in *; nia|].
      rewrite Er. unfold dsum. rewrite <- lsum_mult. unfold lsum. f_equal. apply map_ext. intros p.
      change (hh * / INR m * lsum (fun t => h (F p t) * norm3 (wn q p t)) (equispaced t0 (/ INR m) m) = lsum (fun t => hh * / INR m * norm3 (wn q p t) * h (F p t)) (equispaced t0 (/ INR m) m)).
      rewrite <- lsum_mult. unfold lsum. f_equal. apply map_ext. intros t. ring.
    - unfold hh. field. split; lra.
    - intros p. apply Rsum_ext. intros t _. rewrite PF. unfold wn. unfold k, q_nfp. now rewrite nrm_shift.
  Qed.
  Lemma max_settles name fld h r : In (name, fld, h) winding_maxima -> is_lub (fun y => exists p t, y = h (wfield fld p t)) r -> settles name r.
  Proof using S Nw.
    clear CB Nz Off. intros Hi (Ub & Lub) e Pe. assert (Hf : fld = "K2" \/ fld = "Phi") by (destruct Hi as [X|[X|[X|[X|[]]]]]; injection X as <- <- <-; auto).
    assert (Hh : forall y, continuity_pt h y) by (intros y; destruct Hi as [X|[X|[X|[X|[]]]]]; injection X as <- <- <-; [reg|apply Rcontinuity_abs|reg|reg]).
    pose proof (wfield_fielded fld Hf) as (CF & PF & TF & _). set (F := wfield fld) in *. assert (CG : cont2 (fun p t => h (F p t))) by (apply cont2_comp; assumption). pose proof (nfp_pos q x S) as Pk.
    destruct (grids_reach (fun p t => h (F p t)) p0 (/ INR (q_nfp q)) t0 1 ltac:(now apply Rinv_0_lt_compat) ltac:(lra) CG e Pe) as (N0 & H0). exists (Nat.max N0 2). intros n m Hn Hm.
    destruct (regridded_facts q Bp p0 t0 n m x S ltac:(lia) ltac:(lia)) as (q' & E & S' & Ek & _). exists q'.
    destruct (largest_value other q' x S' name fld h) as (v & w & Rr & Rv & Hr).
    { destruct Hi as [X|[X|[X|[X|[]]]]]; injection X as <- <- <-; cbn; tauto. }
    exists v. split; [exact E|]. split; [exact Rr|]. rewrite (reads_fun _ _ _ _ _ _ Rv (wfield_reads fld n m q' Hf ltac:(lia) ltac:(lia) E)) in Hr. fold F in Hr. cbn [of_grid el] in Hr. rewrite concat_sample, map_map in Hr. destruct Hr as (Ir & Mr).
    assert (B1 : v <= r). { apply in_map_iff in Ir as ((p, t) & Eq & _). apply Ub. exists p, t. now rewrite <- Eq. }
    assert (B2 : r <= v + e).
    { apply Lub. intros y (p & t & ->). destruct (into_period (/ INR (q_nfp q)) p0 p ltac:(now apply Rinv_0_lt_compat)) as (k1 & C1). destruct (into_period 1 t0 t ltac:(lra)) as (k2 & C2).
      rewrite <- (whole_periods (fun p => F p t) _ (fun y => PF y t) k1 p). rewrite <- (whole_periods (fun t => F (p + IZR k1 * / INR (q_nfp q)) t) _ (fun y => TF _ y) k2 t).
      destruct (H0 n m ltac:(lia) ltac:(lia) ltac:(lia) ltac:(lia) _ _ C1 C2) as (p' & t' & I1 & I2 & Hc).
      assert (Hle : h (F p' t') <= v).
      { apply Mr. apply in_map_iff. exists (p', t'). split; [reflexivity|]. apply pairs_in. unfold one_period, one_turn, Rdiv in *. rewrite Rmult_1_l in I2. rewrite <- Rinv_mult in I1. auto. }
      revert Hc. unfold Rabs. destruct (Rcase_abs _); lra. }
    apply Rabs_le. lra.
  Qed.
  Lemma error_settles : settles "f_B" (INR (q_nfp q) * integral (fun p t => B p t * B p t / 2 * norm3 (nrm (q_plasma q) p t)) p0 (/ INR (q_nfp q)) t0).
  Proof using S CB Nz Off.
    clear Nw. intros e Pe. pose proof (nfp_pos q x S) as Pk. assert (Cn : cont2 (bnval q x)) by now apply cont2_bnval. set (k := INR (q_nfp q)) in *.
    set (G := fun p t => B p t * B p t / 2 * norm3 (nrm (q_plasma q) p t)). assert (CG : cont2 G).
    { unfold G, Rdiv. repeat first [assumption|apply cont2_mult|apply cont2_plus|apply cont2_const|apply cont3_norm, cont3_nrm]. }
    destruct (grids_converge G p0 (/ k) t0 1 ltac:(now apply Rinv_0_lt_compat) ltac:(lra) CG (e / k) ltac:(now apply Rdiv_lt_0_compat)) as (N0 & H0). exists (Nat.max N0 2). intros n m Hn Hm.
    destruct (regridded_facts q Bp p0 t0 n m x S ltac:(lia) ltac:(lia)) as (q' & E & S' & Ek & _ & _ & _ & _ & _ & _ & _ & _ & C & _ & _ & EB). exists q'.
    destruct (integral_value other q' x S' "f_B" "Bnormal" (q_plasma q') (fun y => y * y / 2) ltac:(cbn; tauto)) as (r & v & d & Rr & Rv & Dd & Er). exists r. split; [exact E|]. split; [exact Rr|].
    destruct (reads_Bnormal other q' x S') as (g & Eg & Rg). rewrite EB in Eg. injection Eg as <-. rewrite (reads_fun _ _ _ _ _ _ Rv Rg) in Er. cbn [of_grid el] in Er.
    pose proof S as (_ & _ & Lp & _). rewrite (da_copy _ _ _ _ Lp C) in Dd. injection Dd as <-. unfold one_period, one_turn in C, Er. rewrite (equi_dphi _ _ _ n _ _ ltac:(lia) C), (equi_dtheta _ _ _ m _ _ ltac:(lia) C) in Er.
    rewrite sum_grid in Er. rewrite Ek in Er. fold k in Er. assert (Pn : 0 < INR n) by (apply lt_0_INR; lia). assert (Pm : 0 < INR m) by (apply lt_0_INR; lia).
    specialize (H0 n m ltac:(lia) ltac:(lia) ltac:(lia) ltac:(lia)). unfold Rdiv in H0. rewrite Rmult_1_l, <- Rinv_mult in H0. unfold double in H0. fold (integral G p0 (/ k) t0) in H0.
    replace r with (k * (/ (k * INR n) * / INR m * dsum G (equispaced p0 (/ (k * INR n)) n) (equispaced t0 (/ INR m) m))).
    - rewrite <- Rmult_minus_distr_l, Rabs_mult, (Rabs_right k) by lra. apply Rmult_le_compat_l with (r := k) in H0; [|lra]. replace (k * (e * / k)) with e in H0 by (field; lra). exact H0.
    - rewrite Er. f_equal. unfold dsum. rewrite <- lsum_mult. unfold lsum. f_equal. apply map_ext. intros p.
      change (/ (k * INR n) * / INR m * lsum (G p) (equispaced t0 (/ INR m) m) = lsum (fun t => / (k * INR n) * / INR m * norm3 (nrm (q_plasma q) p t) * (B p t * B p t / 2)) (equispaced t0 (/ INR m) m)).
      rewrite <- lsum_mult. unfold lsum, G. f_equal. apply map_ext. intros t. ring.
  Qed.
  Lemma in_equi a hh nn u : 0 < hh -> In u (equispaced a hh nn) -> a <= u < a + INR nn * hh.
  Proof. clear. intros Ph Hu. apply in_map_iff in Hu as (i & <- & Hi'). apply in_seq in Hi'. assert (0 <= INR i) by apply pos_INR. assert (INR i < INR nn) by (apply lt_INR; lia). nra. Qed.
  Lemma in_grid n m p t : (1 <= n)%nat -> (1 <= m)%nat -> In p (one_period (q_nfp q) p0 n) -> In t (one_turn t0 m) -> p0 <= p < p0 + / INR (q_nfp q) /\ t0 <= t < t0 + 1.
  Proof using S.
    clear CB Nw Nz Off. intros Hn Hm I1 I2. pose proof (nfp_pos q x S) as Pk. assert (Pn : 0 < INR n) by (apply lt_0_INR; lia). assert (Pm : 0 < INR m) by (apply lt_0_INR; lia).
    apply in_equi in I1; [|apply Rinv_0_lt_compat; nra]. apply in_equi in I2; [|now apply Rinv_0_lt_compat].
    replace (INR n * / (INR (q_nfp q) * INR n)) with (/ INR (q_nfp q)) in I1 by (field; lra). replace (INR m * / INR m) with 1 in I2 by (field; lra). auto.
  Qed.
  Lemma worst_settles name h r : In (name, h) plasma_maxima -> is_lub (fun y => exists p t, p0 <= p < p0 + / INR (q_nfp q) /\ t0 <= t < t0 + 1 /\ y = h (B p t)) r -> settles name r.
  Proof using S CB Nz Off.
    clear Nw. intros Hi (Ub & Lub) e Pe. pose proof (nfp_pos q x S) as Pk. assert (Cn : cont2 (bnval q x)) by now apply cont2_bnval.
    assert (CG : cont2 (fun p t => h (B p t))). { destruct Hi as [X|[X|[]]]; injection X as <- <-; cont2. }
    destruct (grids_reach (fun p t => h (B p t)) p0 (/ INR (q_nfp q)) t0 1 ltac:(now apply Rinv_0_lt_compat) ltac:(lra) CG e Pe) as (N0 & H0). exists (Nat.max N0 2). intros n m Hn Hm.
    destruct (regridded_facts q Bp p0 t0 n m x S ltac:(lia) ltac:(lia)) as (q' & E & S' & Ek & _ & _ & _ & _ & _ & _ & _ & _ & C & _ & _ & EB). exists q'.
    destruct (largest_value other q' x S' name "Bnormal" h) as (v & w & Rr & Rv & Hr). { destruct Hi as [X|[X|[]]]; injection X as <- <-; cbn; tauto. }
    exists v. split; [exact E|]. split; [exact Rr|]. destruct (reads_Bnormal other q' x S') as (g & Eg & Rg). rewrite EB in Eg. injection Eg as <-. rewrite (reads_fun _ _ _ _ _ _ Rv Rg) in Hr. cbn [of_grid el] in Hr.
    rewrite concat_sample, map_map in Hr. destruct Hr as (Ir & Mr).
    assert (B1 : v <= r). { apply in_map_iff in Ir as ((p, t) & Eq & Ip). apply pairs_in in Ip as (I1 & I2). cbn [fst snd] in Eq. destruct (in_grid n m p t ltac:(lia) ltac:(lia) I1 I2). apply Ub. exists p, t. auto. }
    assert (B2 : r <= v + e).
    { apply Lub. intros y (p & t & C1 & C2 & ->). destruct (H0 n m ltac:(lia) ltac:(lia) ltac:(lia) ltac:(lia) _ _ C1 C2) as (p' & t' & I1 & I2 & Hc).
      assert (Hle : h (B p' t') <= v).
      { apply Mr. apply in_map_iff. exists (p', t'). split; [reflexivity|]. apply pairs_in. unfold one_period, one_turn, Rdiv in *. rewrite Rmult_1_l in I2. rewrite <- Rinv_mult in I1. auto. }
      revert Hc. unfold Rabs. destruct (Rcase_abs _); lra. }
    apply Rabs_le. lra.
  Qed.
End Figures.
