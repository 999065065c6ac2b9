(** Property C159: the violations that a constrained solve leaves behind. *)
From Coq Require Import List Bool Arith Lia Reals Lra.
From Verif Require Import Base ModelSolver SpecSolver ProofSolver ProofSolverR SpecCert ProofCert SpecCertify SpecDual ProofDual WitnessSolver WitnessCert SpecPrice WitnessPrice.
Import ListNotations.
Open Scope R_scope.

(** ** C159 *)
(** A convex problem, solved by an inner optimiser that ends every pass where
    its augmented Lagrangian is level, from multipliers for which [low] bounds
    the Lagrangian from below (for multipliers 0: the objective).  The
    violations after all passes, weighted with the penalty weights, add up to at
    most the distance from [low] to the objective of any point that meets the
    constraints; in particular no such point lies below [low + w]. *)
Theorem C159_violations_add_up :
  forall (fin : R -> bool) (o : optimiser (R_num fin)) ag, counted o -> shaped o ->
  forall (P : problem (R_num fin)) n (x0 : list R) c0 (lam0 mu0 : list R) low,
    p_mask _ P = gplus_hard (R_num fin) -> 0 < p_growth _ P ->
    sized P n (length mu0) (length lam0) -> length x0 = n -> 0 < c0 -> List.Forall (fun m => 0 <= m) mu0 ->
    convex_problem_of P n ->
    let d0 := init_dict (R_num fin) P x0 c0 lam0 mu0 in
    exact_passes o ag P n d0 ->
    (forall z : list R, length z = n -> low <= p_f _ P z + dotR lam0 (p_h _ P z) + dotR mu0 (p_g _ P z)) ->
    forall v w k d, spent o ag P v d0 w k d ->
    forall y : list R, length y = n -> admissible P y -> w <= p_f _ P y - low.
Proof.
  intros fin o ag Hcnt Hsh P n x0 c0 lam0 mu0 low Hm Hg Sz Lx Hc Pm Cv d0 Ex Low v w k d Sp y Ly Ay.
  assert (S0 : sound_state fin n (length mu0) (length lam0) d0) by (repeat split; try assumption; simpl; try reflexivity; lra).
  pose proof (spent_climbs fin o ag Hcnt Hsh P Hm Hg n _ _ Sz Cv v d0 low S0 Ex Low w k d Sp y Ly) as K.
  pose proof (passes_sound _ _ _ Hcnt P Hm n _ _ Sz Hsh Hg _ _ (spent_passes _ _ _ _ _ _ _ _ _ Sp) S0) as (_ & _ & _ & _ & _ & Pmu).
  pose proof (admissible_below P (d_lam _ d) (d_mu _ d) y Pmu Ay). cbn [T R_num] in *. lra.
Qed.
Print Assumptions C159_violations_add_up.

(** What a finished solve reports is violated by at most that distance divided
    by the last penalty weight. *)
Theorem C159_reported_violation :
  forall (fin : R -> bool) (o : optimiser (R_num fin)) ag, counted o -> shaped o ->
  forall (P : problem (R_num fin)) n (x0 : list R) c0 (lam0 mu0 : list R) low fuel_out fuel_in d,
    p_mask _ P = gplus_hard (R_num fin) -> 0 < p_growth _ P ->
    sized P n (length mu0) (length lam0) -> length x0 = n -> 0 < c0 -> List.Forall (fun m => 0 <= m) mu0 ->
    convex_problem_of P n ->
    exact_passes o ag P n (init_dict (R_num fin) P x0 c0 lam0 mu0) ->
    (forall z : list R, length z = n -> low <= p_f _ P z + dotR lam0 (p_h _ P z) + dotR mu0 (p_g _ P z)) ->
    solve_constrained (R_num fin) o ag P fuel_out fuel_in x0 c0 lam0 mu0 = Some d ->
    exists d1, main_loop (R_num fin) o ag P fuel_out fuel_in (init_dict (R_num fin) P x0 c0 lam0 mu0) = Some d1 /\ 0 < d_c _ d1 /\
    forall y : list R, length y = n -> admissible P y ->
      violation d <= (p_f _ P y - low) / d_c _ d1 /\
      (forall v, In v (d_g _ d) -> v <= sqrt ((p_f _ P y - low) / d_c _ d1)) /\
      (forall v, In v (d_h _ d) -> Rabs v <= sqrt ((p_f _ P y - low) / d_c _ d1)).
Proof.
  intros fin o ag Hcnt Hsh P n x0 c0 lam0 mu0 low fo fi d Hm Hg Sz Lx Hc Pm Cv Ex Low Hsol.
  destruct (solve_inv _ o ag Hcnt P _ _ _ _ _ _ _ Hsol) as (d1 & Hml & Hlast & _). exists d1. split; [exact Hml|].
  pose proof (proj1 (main_inv _ o ag Hcnt P _ _ _ _ _ _ _ Hml)) as Hps. set (d0 := init_dict (R_num fin) P x0 c0 lam0 mu0) in *.
  assert (S0 : sound_state fin n (length mu0) (length lam0) d0) by (repeat split; try assumption; simpl; try reflexivity; lra).
  pose proof (passes_sound _ _ _ Hcnt P Hm n _ _ Sz Hsh Hg _ _ Hps S0) as (_ & _ & _ & Hc1 & _ & _). split; [exact Hc1|].
  assert (Sp : exists w k, 0 <= w /\ spent o ag P 0 d0 w k d1).
  { clear Hml Hlast Hc1 Hsol. induction Hps as [|e1 e2 fuel fs xs gt Hp (w & k & Hw & IH) Hb]; [exists 0, O; split; [lra|constructor]|].
    pose proof (passes_sound _ _ _ Hcnt P Hm n _ _ Sz Hsh Hg _ _ Hp S0) as (_ & _ & _ & Hc1 & _ & _).
    exists (w + d_c _ e1 * violation e2), (S k). split; [pose proof (violation_nonneg e2); cbn [T R_num] in *; nra|]. econstructor; [exact IH|exact Hb|apply violation_nonneg]. }
  destruct Sp as (w & k & Hw & Sp).
  assert (Sp' : spent o ag P 0 d0 (w + d_c _ d1 * violation d) (S k) d) by (econstructor; [exact Sp|exact Hlast|apply violation_nonneg]).
  intros y Ly Ay. pose proof (C159_violations_add_up fin o ag Hcnt Hsh P n x0 c0 lam0 mu0 low Hm Hg Sz Lx Hc Pm Cv Ex Low _ _ _ _ Sp' y Ly Ay) as K.
  assert (V : violation d <= (p_f _ P y - low) / d_c _ d1).
  { apply (Rmult_le_reg_l (d_c _ d1)); [exact Hc1|]. replace (d_c _ d1 * ((p_f _ P y - low) / d_c _ d1)) with (p_f _ P y - low) by (field; apply Rgt_not_eq; exact Hc1). cbn [T R_num] in *. lra. }
  split; [exact V|]. unfold violation in V.
  pose proof (squares_nonneg (map (Rmax 0) (d_g _ d))) as Q1. pose proof (squares_nonneg (d_h _ d)) as Q2. split.
  - intros v I. pose proof (square_below _ _ (in_map (Rmax 0) _ _ I)) as X. apply Rle_trans with (Rmax 0 v); [apply Rmax_r|].
    rewrite <- (sqrt_square (Rmax 0 v)) by apply Rmax_l. apply sqrt_le_1_alt. cbn [T R_num] in *. lra.
  - intros v I. pose proof (square_below _ _ I) as X. rewrite <- sqrt_Rsqr_abs. apply sqrt_le_1_alt. unfold Rsqr. cbn [T R_num] in *. lra.
Qed.
Print Assumptions C159_reported_violation.

(** Few passes can end outside a tolerance [tol]: with penalty weights from [c0]
    on, at most (objective - low) / (c0 tol^2). *)
Theorem C159_passes_outside_the_tolerance :
  forall (fin : R -> bool) (o : optimiser (R_num fin)) ag, counted o -> shaped o ->
  forall (P : problem (R_num fin)) n (x0 : list R) c0 (lam0 mu0 : list R) low tol,
    p_mask _ P = gplus_hard (R_num fin) -> 1 <= p_growth _ P ->
    sized P n (length mu0) (length lam0) -> length x0 = n -> 0 < c0 -> List.Forall (fun m => 0 <= m) mu0 ->
    convex_problem_of P n ->
    let d0 := init_dict (R_num fin) P x0 c0 lam0 mu0 in
    exact_passes o ag P n d0 ->
    (forall z : list R, length z = n -> low <= p_f _ P z + dotR lam0 (p_h _ P z) + dotR mu0 (p_g _ P z)) -> 0 < tol ->
    (forall d : dict (R_num fin), (exists v, In v (d_g _ d) /\ tol <= v) \/ (exists v, In v (d_h _ d) /\ tol <= Rabs v) -> tol * tol <= violation d) /\
    forall w k d, spent o ag P (tol * tol) d0 w k d ->
    forall y : list R, length y = n -> admissible P y -> INR k <= (p_f _ P y - low) / (c0 * (tol * tol)).
Proof.
  intros fin o ag Hcnt Hsh P n x0 c0 lam0 mu0 low tol Hm Hg Sz Lx Hc Pm Cv d0 Ex Low Ht. split.
  - intros d H. unfold violation. pose proof (squares_nonneg (map (Rmax 0) (d_g _ d))) as Q1. pose proof (squares_nonneg (d_h _ d)) as Q2. destruct H as [(v & I & H)|(v & I & H)].
    + pose proof (square_below _ _ (in_map (Rmax 0) _ _ I)) as X. rewrite Rmax_right in X by lra. assert (tol * tol <= v * v) by (apply Rmult_le_compat; lra). cbn [T R_num] in *. lra.
    + pose proof (square_below _ _ I) as X. assert (tol * tol <= Rabs v * Rabs v) by (apply Rmult_le_compat; lra). rewrite <- Rabs_mult, (Rabs_pos_eq (v * v)) in H0 by nra. cbn [T R_num] in *. lra.
  - intros w k d Sp y Ly Ay.
    pose proof (C159_violations_add_up fin o ag Hcnt Hsh P n x0 c0 lam0 mu0 low Hm ltac:(cbn [T R_num] in *; lra) Sz Lx Hc Pm Cv Ex Low _ _ _ _ Sp y Ly Ay) as K.
    assert (Hct : 0 < c0 * (tol * tol)) by (apply Rmult_lt_0_compat; [exact Hc|nra]).
    destruct (spent_counts fin o ag P (tol * tol) d0 c0 ltac:(nra) ltac:(lra)) with (w := w) (k := k) (d := d) as (Q & _); [|exact Sp|].
    { intros e Pe. apply (proj2 (c_invariant fin o ag Hcnt P d0 e Pe Hc Hg)). }
    apply (Rmult_le_reg_r (c0 * (tol * tol))); [exact Hct|]. unfold Rdiv. rewrite Rmult_assoc, Rinv_l by lra. lra.
Qed.
Print Assumptions C159_passes_outside_the_tolerance.

(** Minimise x^2 subject to x >= 1, from x = 3 and multiplier 0: [low] is 0 and
    the point 1 has objective 1. *)
Example C159_example : let P := floor_at 1 in let d0 := init_dict RN P [3] 1 [] [0] in
  p_mask _ P = gplus_hard RN /\ 1 <= p_growth _ P /\ sized P 1 1 0 /\ convex_problem_of P 1 /\ exact_passes careful no_grad P 1 d0 /\
  (forall z : list R, length z = 1%nat -> 0 <= p_f _ P z + dotR [] (p_h _ P z) + dotR [0] (p_g _ P z)) /\
  admissible P [1] /\ p_f _ P [1] = 1 /\
  (exists w k d, spent careful no_grad P (/ 100) d0 w k d /\ (0 < k)%nat) /\
  exists d, solve_constrained RN careful no_grad P 100 1 [3] 1 [] [0] = Some d.
Proof.
  intros P d0.
  assert (S0 : sound_state (fun _ => false) 1 1 0 d0) by (repeat split; simpl; try lra; constructor; [lra|constructor]).
  assert (Ex : forall d d' fuel fs xs gt, passes careful no_grad P d0 d -> body _ careful no_grad P fuel fs xs gt d = Some d' ->
    forall z, augmented (p_f _ P) (p_g _ P) (p_h _ P) (d_c _ d) (d_lam _ d) (d_mu _ d) (d_x _ d') <= augmented (p_f _ P) (p_g _ P) (p_h _ P) (d_c _ d) (d_lam _ d) (d_mu _ d) [z]).
  { intros d d' fuel fs xs gt Hp Hb z.
    pose proof (passes_sound _ careful no_grad careful_counted P eq_refl 1 _ _ (bound_sized 1) careful_shaped ltac:(simpl; lra) _ _ Hp S0) as S.
    destruct (pass_facts _ careful no_grad careful_counted P eq_refl 1 1 0 (bound_sized 1) careful_shaped _ _ _ _ _ _ S Hb) as (r & Hr & Lr & Exx & _).
    pose proof S as (Lx & Ll & Lm & Hc & Hu & _).
    assert (Ex0 : exists a, (d_x RN d : list R) = [a]) by (destruct (d_x RN d) as [|a [|]]; try discriminate; eauto). destruct Ex0 as [a Ea]. rewrite Ea in Hr. cbn [map] in Hr.
    pose proof (bound_solves 1 ltac:(lra) _ _ _ _ _ _ _ (subproblem_of _ P eq_refl 1 1 0 (bound_sized 1) d S) Hr (z / d_xunit RN d)) as Hs.
    rewrite !(handed _ P eq_refl 1 1 0 (bound_sized 1)) in Hs by (try reflexivity; assumption). rewrite <- Exx in Hs. cbn [map] in Hs.
    replace (z / d_xunit RN d * d_xunit RN d) with z in Hs by (field; apply Rgt_not_eq; exact Hu). exact Hs. }
  split; [reflexivity|]. split; [simpl; lra|]. split; [exact (bound_sized 1)|]. split; [|split; [|split; [|split; [|split; [|split]]]]].
  - intros x z t Lx Lz Ht. destruct x as [|x [|]]; try discriminate. destruct z as [|z [|]]; try discriminate. simpl. unfold head. simpl. split; [|split; [|reflexivity]].
    + cbn [T R_num] in *. pose proof (Rmult_le_pos (t * (1 - t)) ((z - x) * (z - x)) ltac:(apply Rmult_le_pos; lra) (Rle_0_sqr (z - x))). lra.
    + constructor; [lra|constructor].
  - intros d d' fuel fs xs gt Hp Hb z Lz eps He. destruct z as [|z [|]]; try discriminate. exists 1. split; [lra|]. intros t Ht.
    assert (Lx : exists x', (d_x RN d' : list R) = [x']).
    { pose proof (passes_sound _ careful no_grad careful_counted P eq_refl 1 _ _ (bound_sized 1) careful_shaped ltac:(simpl; lra) _ _ (passes_more _ _ _ _ _ _ _ _ _ _ Hp Hb) S0) as (Lx & _).
      destruct (d_x RN d') as [|a [|]]; try discriminate; eauto. }
    destruct Lx as (x' & Ed). pose proof (Ex _ _ _ _ _ _ Hp Hb (x' + t * (z - x'))) as X. rewrite Ed in *. cbn [between map2].
    pose proof (Rmult_lt_0_compat t eps ltac:(lra) He). lra.
  - intros z Lz. destruct z as [|z [|]]; try discriminate. unfold dotR, sumR. simpl. unfold head. simpl. nra.
  - split; [constructor; [simpl; unfold head; simpl; lra|constructor]|constructor].
  - simpl. unfold head. simpl. ring.
  - destruct (body_some RN careful no_grad careful_counted P 1 0 0 0 d0 ltac:(simpl; lia)) as (d & Hd).
    exists (0 + d_c RN d0 * violation d), 1%nat, d. split; [|lia]. eapply spent_off; [apply spent_none|exact Hd|].
    destruct (body_inv RN careful no_grad careful_counted P _ _ _ _ _ _ Hd) as (_ & _ & _ & _ & _ & _ & Eg & _).
    pose proof (passes_sound _ careful no_grad careful_counted P eq_refl 1 _ _ (bound_sized 1) careful_shaped ltac:(simpl; lra) _ _ (passes_more _ _ _ _ _ _ _ _ _ _ (passes_none _ _ _ _) Hd) S0) as (Lx & _).
    pose proof (Ex _ _ _ _ _ _ (passes_none _ _ _ _) Hd (1 / 3)) as X.
    assert (E1 : exists x', (d_x RN d : list R) = [x']) by (destruct (d_x RN d) as [|a [|]]; try discriminate; eauto). destruct E1 as (x' & E1).
    unfold violation. rewrite Eg. rewrite E1 in *. revert X. unfold augmented, squares, dotR, sumR. simpl. unfold head. simpl. cbn [T R_num] in *.
    rewrite (Rmax_right 0 (0 + 1 * (1 - 1 / 3))) by lra. intros X. destruct (Rle_dec 1 x') as [H|H].
    + exfalso. pose proof (Rmax_l 0 (0 + 1 * (1 - x'))). nra.
    + rewrite (Rmax_right 0 (0 + 1 * (1 - x'))) in X by lra. rewrite (Rmax_right 0 (1 - x')) by lra. assert (Q : (x' - 1 / 3) * (x' - 1 / 3) <= 0) by lra. assert (Z : x' - 1 / 3 = 0) by (apply Rsqr_0_uniq; unfold Rsqr; pose proof (Rle_0_sqr (x' - 1 / 3)) as Q'; unfold Rsqr in Q'; lra). replace x' with (1 / 3) by lra. pose proof (squares_nonneg (d_h RN d)) as Q2. unfold squares, sumR in Q2. cbn [T R_num] in *. lra.
  - destruct (outer_terminates RN careful no_grad careful_counted P [3] 1 [] [0] 100 1) as (d & H & _); [simpl; lia|simpl; lia|]. eauto.
Qed.
