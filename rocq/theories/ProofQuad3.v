(** Figures of merit on refined grids, for C128. *)
From Coq Require Import String List Bool Arith ZArith Reals Lra Lia.
From Coquelicot Require Import Coquelicot.
From Verif Require Import Base ModelArray ProofArray ModelMath SpecMath ProofMath ModelSurface SpecSurface ProofSurface ProofSurface2 ProofSurface3
  ModelParams ModelField SpecField ProofField ProofField2 ProofField3 ProofField4 ProofField6
  ModelQuantity ModelWrapper ModelPackage SpecPackage ProofPackage ProofPackage2 ProofPackage3 ProofPackage4 ProofConvex ProofUnique2 ProofPeriods SpecQuad ProofQuad ProofQuad2.
Import ListNotations.
Open Scope R_scope.
Open Scope string_scope.
Open Scope list_scope.

Lemma equi_len a h n : length (equispaced a h n) = n.
Proof. unfold equispaced. now rewrite map_length, seq_length. Qed.
Lemma equi_ne a h n : (1 <= n)%nat -> equispaced a h n <> [].
Proof. intros H E. apply (f_equal (@length R)) in E. rewrite equi_len in E. cbn in E. lia. Qed.
Lemma placed_sound q ps ts q' x : sound q x -> on_points q ps ts = Ok q' -> sound q' x.
Proof.
  intros (M & Lw & Lp & Ps & L) H. pose proof (placed_made q ps ts q' M H) as M'. pose proof (placed_fields q ps ts q' H) as (E1 & E2 & _ & _ & _ & E3 & _).
  split; [exact M'|]. split; [now rewrite E2|]. split; [now rewrite E1|]. split; [unfold plasma_shaped in *; now rewrite E1, E3|]. now rewrite (placed_len q ps ts q' M H).
Qed.

(** A field that is reported, continuous and repeats every field period. *)
Definition fielded (other : list string) (fld : string) (q : params) (x : list R) (F : R -> R -> R) : Prop :=
  cont2 F /\ (forall p t, F (p + / INR (q_nfp q)) t = F p t) /\ (forall p t, F p (t + 1) = F p t) /\
  forall ps ts q', on_points q ps ts = Ok q' -> reads other fld q' x (of_grid (sample F ps ts)).
Lemma K2_fielded other q x : sound q x -> (forall p t, wn q p t <> zero3) -> fielded other "K2" q x (fun p t => dot3 (kval q x p t) (kval q x p t)).
Proof.
  intros S Nz. pose proof S as (M & Lw & _). destruct (made_facts q M) as (Nf & _). split; [|split; [|split]].
  - apply cont3_dot; now apply cont3_kval.
  - intros p t. rewrite kval_shift by exact Nf. apply rotz_dot.
  - intros p t. now rewrite kval_theta.
  - intros ps ts q' H. pose proof (placed_sound q ps ts q' x S H) as S'. pose proof (reads_K2 other q' x S') as Rd.
    pose proof (placed_fields q ps ts q' H) as (E1 & E2 & _ & E3 & E4 & _ & E5 & E6 & E7 & E8 & E9 & _). rewrite E5, E6 in Rd.
    replace (sample (fun p t => dot3 (kval q x p t) (kval q x p t)) ps ts) with (sample (fun p t => dot3 (kval q' x p t) (kval q' x p t)) ps ts); [exact Rd|].
    apply sample_ext. intros p t. now rewrite (kval_same q q').
Qed.
Lemma Phi_fielded other q x : sound q x -> fielded other "Phi" q x (phi_of q x).
Proof.
  intros S. pose proof S as (M & Lw & _). destruct (made_facts q M) as (Nf & _). split; [apply cont2_phi|]. split; [intros; now apply phi_shift_phi|]. split; [intros; apply phi_shift_theta|].
  intros ps ts q' H. pose proof (placed_sound q ps ts q' x S H) as S'. pose proof (reads_Phi other q' x S') as Rd.
  pose proof (placed_fields q ps ts q' H) as (E1 & E2 & _ & E3 & E4 & _ & E5 & E6 & E7 & E8 & E9 & _). rewrite E5, E6 in Rd.
  replace (sample (phi_of q x) ps ts) with (sample (phi_of q' x) ps ts); [exact Rd|].
  apply sample_ext. intros p t. unfold phi_of, tr, targ, qcols, q_nfp. now rewrite E2, E7, E8, E9.
Qed.
Lemma shows_unique other fld q x F G : fielded other fld q x G -> shows other fld q x F -> forall p t, F p t = G p t.
Proof.
  intros (_ & _ & _ & H) Sh p t. destruct (Sh [p] [t] ltac:(discriminate) ltac:(discriminate)) as (q' & v & E & Rv & Ev). pose proof (reads_fun _ _ _ _ _ _ Rv (H _ _ _ E)) as X. rewrite X in Ev. cbn in Ev. now injection Ev.
Qed.

Lemma into_period P p0 p : 0 < P -> exists k, p0 <= p + IZR k * P < p0 + P.
Proof.
  intros HP. set (y := (p - p0) / P). destruct (archimed y) as (A1 & A2). exists (1 - up y)%Z. rewrite minus_IZR. assert (E : p - p0 = y * P) by (unfold y; field; lra).
  assert (E2 : p + (1 - IZR (up y)) * P = p0 + (y + 1 - IZR (up y)) * P) by lra. rewrite E2. split; nra.
Qed.
Lemma whole_periods (F : R -> R) P : (forall p, F (p + P) = F p) -> forall k p, F (p + IZR k * P) = F p.
Proof.
  intros H. assert (N : forall n p, F (p + INR n * P) = F p).
  { induction n as [|n IH]; intros p; [cbn [INR]; f_equal; ring|]. rewrite S_INR. replace (p + (INR n + 1) * P) with ((p + INR n * P) + P) by ring. rewrite H. apply IH. }
  intros k p. destruct (Z_le_gt_dec 0 k) as [G|L].
  - rewrite <- (Z2Nat.id k G), <- INR_IZR_INZ. apply N.
  - rewrite <- (N (Z.to_nat (- k)) (p + IZR k * P)). f_equal. rewrite INR_IZR_INZ, Z2Nat.id by lia. rewrite opp_IZR. ring.
Qed.

Section Refine.
  Variables (other : list string) (q : params) (x : list R) (fld : string) (F : R -> R -> R).
  Hypothesis S : sound q x.
  Hypothesis HF : fielded other fld q x F.
  Variables (h : R -> R) (p0 t0 : R).
  Hypothesis Hh : forall y, continuity_pt h y.
  Notation G := (fun p t => h (F p t) * norm3 (wn q p t)).
  Lemma nfp_pos : 0 < INR (q_nfp q).
  Proof using S. destruct S as (M & _). destruct (made_facts q M) as (Nf & _). apply lt_0_INR. unfold q_nfp. lia. Qed.
  Lemma refined n m : (2 <= n)%nat -> (2 <= m)%nat -> exists q', on_points q (one_period (q_nfp q) p0 n) (one_turn t0 m) = Ok q' /\ sound q' x /\
    q_nfp q' = q_nfp q /\ da (q_eval q') = Ok (sample (fun p t => / (INR (q_nfp q) * INR n) * / INR m * norm3 (wn q p t)) (one_period (q_nfp q) p0 n) (one_turn t0 m)).
  Proof using S.
    clear HF Hh. intros Hn Hm. pose proof S as (M & Lw & _). destruct (made_facts q M) as (Nf & Md & _).
    destruct (placed_ok q (one_period (q_nfp q) p0 n) (one_turn t0 m) Nf Md) as (q' & H); [apply equi_ne; lia|apply equi_ne; lia|].
    exists q'. split; [exact H|]. split; [exact (placed_sound _ _ _ _ _ S H)|]. pose proof (placed_fields _ _ _ _ H) as (E1 & E2 & C & _).
    split; [unfold q_nfp; now rewrite E2|]. rewrite (da_copy _ _ _ _ Lw C). unfold one_period, one_turn in *. now rewrite (equi_dphi _ _ _ _ _ _ Hn C), (equi_dtheta _ _ _ _ _ _ Hm C).
  Qed.
  Lemma integral_refined name : In (name, fld, h) [("f_K", "K2", fun y => y / 2); ("f_Phi", "Phi", fun y => y * y / 2); ("f_l1_Phi", "Phi", Rabs); ("f_huber_K", "K2", sqrt)] ->
    forall e, 0 < e -> exists N0, forall n m, (N0 <= n)%nat -> (N0 <= m)%nat -> exists q' r,
      on_points q (one_period (q_nfp q) p0 n) (one_turn t0 m) = Ok q' /\ reads other name q' x (scal r) /\ Rabs (r - integral G p0 1 t0) <= e.
  Proof using S HF Hh.
    intros Hi e Pe. destruct HF as (CF & PF & _ & RF). assert (CG : cont2 G).
    { apply cont2_mult; [apply cont2_comp; assumption|]. apply cont3_norm, cont3_nrm. }
    destruct (grids_converge G p0 1 t0 1 ltac:(lra) ltac:(lra) CG e Pe) as (N0 & H0). exists (Nat.max N0 2). intros n m Hn Hm. pose proof nfp_pos as Pk. pose proof S as (M & Lw & _). destruct (made_facts q M) as (Nf & _).
    destruct (refined n m ltac:(lia) ltac:(lia)) as (q' & E & S' & Ek & D). exists q'.
    destruct (integral_value other q' x S' name fld (q_eval q') h) as (r & v & d & Rr & Rv & Dd & Er).
    { destruct Hi as [X|[X|[X|[X|[]]]]]; injection X as <- <- <-; cbn; tauto. }
    exists r. split; [exact E|]. split; [exact Rr|]. rewrite D in Dd. injection Dd as <-. rewrite (reads_fun _ _ _ _ _ _ Rv (RF _ _ _ E)) in Er. cbn [of_grid el] in Er.
    rewrite sum_grid in Er. rewrite Ek in Er. unfold one_period, one_turn in Er. set (k := q_nfp q) in *. set (hh := / (INR k * INR n)) in *.
    assert (Pn : 0 < INR n) by (apply lt_0_INR; lia). assert (Pm : 0 < INR m) by (apply lt_0_INR; lia).
    rewrite <- (period_sum (fun p => Rsum (map (fun t => hh * / INR m * norm3 (wn q p t) * h (F p t)) (equispaced t0 (/ INR m) m))) p0 hh n (/ INR k) k) in Er.
    - specialize (H0 (k * n)%nat m). unfold Rdiv in H0. rewrite !Rmult_1_l, mult_INR in H0. fold hh in H0. unfold double in H0.
      replace r with (hh * / INR m * dsum G (equispaced p0 hh (k * n)) (equispaced t0 (/ INR m) m)); [apply H0; try lia; unfold k, q_nfp in *; nia|].
      rewrite Er. unfold dsum. rewrite <- lsum_mult. unfold lsum. f_equal. apply map_ext. intros p.
      change (hh * / INR m * lsum (fun t => h (F p t) * norm3 (wn q p t)) (equispaced t0 (/ INR m) m) = lsum (fun t => hh * / INR m * norm3 (wn q p t) * h (F p t)) (equispaced t0 (/ INR m) m)).
      rewrite <- lsum_mult. unfold lsum. f_equal. apply map_ext. intros t. ring.
    - unfold hh. field. split; lra.
    - intros p. apply Rsum_ext. intros t _. rewrite PF. unfold wn. unfold k, q_nfp. now rewrite nrm_shift.
  Qed.
  Lemma max_refined name : In (name, fld, h) [("f_max_K2", "K2", fun y : R => y); ("f_max_Phi", "Phi", Rabs); ("f_max_Phi2", "Phi", fun y => y * y); ("f_max_Phi4", "Phi", fun y => y ^ 4)] ->
    forall e, 0 < e -> exists N0, forall n m, (N0 <= n)%nat -> (N0 <= m)%nat -> exists q' r,
      on_points q (one_period (q_nfp q) p0 n) (one_turn t0 m) = Ok q' /\ reads other name q' x (scal r) /\ (exists p t, r = h (F p t)) /\ forall p t, h (F p t) <= r + e.
  Proof using S HF Hh.
    intros Hi e Pe. destruct HF as (CF & PF & TF & RF). assert (CG : cont2 (fun p t => h (F p t))) by (apply cont2_comp; assumption). pose proof nfp_pos as Pk.
    destruct (grids_reach (fun p t => h (F p t)) p0 (/ INR (q_nfp q)) t0 1 ltac:(now apply Rinv_0_lt_compat) ltac:(lra) CG e Pe) as (N0 & H0). exists (Nat.max N0 2). intros n m Hn Hm.
    destruct (refined n m ltac:(lia) ltac:(lia)) as (q' & E & S' & Ek & D). exists q'. clear D.
    destruct (largest_value other q' x S' name fld h) as (r & v & Rr & Rv & Hr).
    { destruct Hi as [X|[X|[X|[X|[]]]]]; injection X as <- <- <-; cbn; tauto. }
    exists r. split; [exact E|]. split; [exact Rr|]. rewrite (reads_fun _ _ _ _ _ _ Rv (RF _ _ _ E)) in Hr. cbn [of_grid el] in Hr. rewrite concat_sample, map_map in Hr. destruct Hr as (Ir & Mr). split.
    - apply in_map_iff in Ir as ((p, t) & Eq & _). exists p, t. now rewrite <- Eq.
    - intros p t. destruct (into_period (/ INR (q_nfp q)) p0 p ltac:(now apply Rinv_0_lt_compat)) as (k1 & B1). destruct (into_period 1 t0 t ltac:(lra)) as (k2 & B2).
      rewrite <- (whole_periods (fun p => F p t) _ (fun y => PF y t) k1 p). rewrite <- (whole_periods (fun t => F (p + IZR k1 * / INR (q_nfp q)) t) _ (fun y => TF _ y) k2 t).
      destruct (H0 n m ltac:(lia) ltac:(lia) ltac:(lia) ltac:(lia) _ _ B1 B2) as (p' & t' & I1 & I2 & Hc).
      assert (Hle : h (F p' t') <= r).
      { apply Mr. apply in_map_iff. exists (p', t'). split; [reflexivity|]. apply pairs_in. unfold one_period, one_turn, Rdiv in *. rewrite Rmult_1_l in I2. rewrite <- Rinv_mult in I1. auto. }
      apply Rabs_def2b in Hc || idtac. revert Hc. unfold Rabs. destruct (Rcase_abs _); lra.
  Qed.
End Refine.
