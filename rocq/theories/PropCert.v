(** Properties C118, C119 and the positive part of C43: what the answer of the
    constrained solver is worth. *)
From Coq Require Import List Bool Arith Lia Reals Lra.
From Coquelicot Require Import Coquelicot.
From Verif Require Import Base ModelSolver SpecSolver ProofSolver RDeriv ProofSolverR SpecCert ProofCert
  WitnessSolver WitnessCert.
Import ListNotations.
Open Scope R_scope.

(** ** C43, positive part *)
(** The main loop ended within the tolerance, at [d1].  If no update of the
    inner optimiser makes its objective larger, the last pass can leave the
    tolerance only by trading it for a smaller objective: every violation at
    the returned point is bounded by the decrease of the objective, the
    multipliers and the tolerance, and the bound shrinks like one over the
    square root of the penalty weight.  Missing for the full statement: that
    the violation is still below the tolerance. *)
Theorem C43_violation_bound_partial :
  forall (fin : R -> bool) (o : optimiser (R_num fin)) ag, counted o -> shaped o -> descending o ->
  forall (P : problem (R_num fin)) n (x0 : list R) c0 (lam0 mu0 : list R) fuel_out fuel_in d1 d,
    p_mask _ P = gplus_hard (R_num fin) -> 0 < p_growth _ P -> 0 <= p_ctol _ P ->
    sized P n (length mu0) (length lam0) -> length x0 = n -> 0 < c0 ->
    List.Forall (fun m => 0 <= m) mu0 ->
    main_loop (R_num fin) o ag P fuel_out fuel_in (init_dict (R_num fin) P x0 c0 lam0 mu0) = Some d1 ->
    (forall v, In v (p_g _ P (d_x _ d1)) -> v < p_ctol _ P) ->
    (forall v, In v (p_h _ P (d_x _ d1)) -> Rabs v < p_ctol _ P) ->
    solve_constrained (R_num fin) o ag P fuel_out fuel_in x0 c0 lam0 mu0 = Some d ->
    let c := d_c _ d1 in
    let B := squares (map (fun l => Rabs l + c * p_ctol _ P) (d_lam _ d1))
             + squares (map (fun m => m + c * p_ctol _ P) (d_mu _ d1))
             + 2 * c * (d_f _ d1 - d_f _ d) in
    0 < c /\
    (forall v, In v (p_g _ P (d_x _ d)) -> 0 <= v -> c * v <= sqrt B) /\
    (forall v, In v (p_h _ P (d_x _ d)) -> c * Rabs v <= normR (d_lam _ d1) + sqrt B).
Proof.
  intros fin o ag Hcnt Hsh Hde P n x0 c0 lam0 mu0 fo fi d1 d Hm Hg Ht Hs Hx Hc Hmu Hml Gv Hv Hsol c B.
  assert (Hp : passes o ag P (init_dict (R_num fin) P x0 c0 lam0 mu0) d1)
    by apply (main_inv _ o ag Hcnt P _ _ _ _ _ _ _ Hml).
  assert (S0 : sound_state fin n (length mu0) (length lam0) (init_dict (R_num fin) P x0 c0 lam0 mu0)).
  { repeat split; try assumption; simpl; try reflexivity; try lra. }
  pose proof (passes_sound fin o ag Hcnt P Hm n _ _ Hs Hsh Hg _ _ Hp S0) as S1.
  unfold solve_constrained in Hsol. rewrite Hml in Hsol. unfold last_pass in Hsol.
  pose proof (pass_descends fin o ag Hcnt P Hm n _ _ Hs Hsh _ _ _ _ _ _ Hde S1 Hsol) as D.
  rewrite (aug_value fin P n _ _ Hs d1 (d_x _ d1) S1 (proj1 S1)) in D.
  pose proof S1 as (Lx & Ll & Lm & Hc1 & Hu & Hp1). destruct (Hs _ Lx) as [Sg Sh].
  pose proof (tolerant_equalities (d_c _ d1) (p_ctol _ P) (d_lam _ d1) (p_h _ P (d_x _ d1)) Hc1
    ltac:(cbn [T R_num] in *; congruence)) as TE.
  pose proof (tolerant_inequalities (d_c _ d1) (p_ctol _ P) (d_mu _ d1) (p_g _ P (d_x _ d1)) Hc1 Ht
    ltac:(cbn [T R_num] in *; congruence) Hp1) as TI.
  specialize (TE ltac:(apply Forall_forall; intros v Hin; left; exact (Hv v Hin))).
  specialize (TI ltac:(apply Forall_forall; intros v Hin; left; exact (Gv v Hin))).
  fold c in D, TE, TI. fold c in Hc1.
  match type of TE with ?a <= ?b => set (A1 := a) in *; set (B1 := b) in * end.
  match type of TI with ?a <= ?b => set (A2 := a) in *; set (B2 := b) in * end.
  pose proof (violations fin o ag Hcnt P Hm n _ _ Hs Hsh _ _ _ _ _ _ _ S1 Hsol D) as (_ & V1 & V2).
  fold c in V1, V2. 
  set (L1 := squares (d_lam _ d1)) in *. set (M1 := squares (d_mu _ d1)) in *.
  assert (E1 : d_f _ d1 = p_f _ P (d_x _ d1)).
  { destruct (main_inv _ o ag Hcnt P _ _ _ _ _ _ _ Hml) as (_ & _ & _ & dm & Hb & _).
    destruct (body_inv _ o ag Hcnt P _ _ _ _ _ _ Hb) as (? & _ & _ & _ & _ & E & _). exact E. }
  assert (E2 : d_f _ d = p_f _ P (d_x _ d)) by (destruct (body_inv _ o ag Hcnt P _ _ _ _ _ _ Hsol) as (? & _ & _ & _ & _ & E & _); exact E).
  assert (HB : L1 + M1 + 2 * c * (p_f _ P (d_x _ d1) + (A1 + A2 - L1 - M1) / (2 * c) - p_f _ P (d_x _ d)) <= B).
  { unfold B. rewrite E1, E2. fold c.
    replace (2 * c * (p_f _ P (d_x _ d1) + (A1 + A2 - L1 - M1) / (2 * c) - p_f _ P (d_x _ d)))
      with (2 * c * (p_f _ P (d_x _ d1) - p_f _ P (d_x _ d)) + (A1 + A2 - L1 - M1)) by (field; lra).
    lra. }
  apply sqrt_le_1_alt in HB.
  split; [exact Hc1|]. split.
  - intros v Hi H0. eapply Rle_trans; [exact (V1 v Hi H0)|exact HB].
  - intros v Hi. eapply Rle_trans; [exact (V2 v Hi)|]. apply Rplus_le_compat_l. exact HB.
Qed.
Print Assumptions C43_violation_bound_partial.

(** ** C118 *)
(** An inner optimiser that solves its subproblems to within [eps] gives a
    returned point that is nearly optimal and nearly feasible: its objective is
    at most [eps] plus the squared multipliers over twice the penalty weight
    above that of every point meeting the constraints, and the violations
    shrink as the penalty weight grows. *)
Theorem C118_near_optimal :
  forall (fin : R -> bool) (o : optimiser (R_num fin)) ag, counted o -> shaped o ->
  forall (P : problem (R_num fin)) n eps (x0 : list R) c0 (lam0 mu0 : list R) fuel_out fuel_in d,
    p_mask _ P = gplus_hard (R_num fin) -> 0 < p_growth _ P ->
    sized P n (length mu0) (length lam0) -> length x0 = n -> 0 < c0 ->
    List.Forall (fun m => 0 <= m) mu0 ->
    reliable o ag P n (length mu0) (length lam0) eps ->
    solve_constrained (R_num fin) o ag P fuel_out fuel_in x0 c0 lam0 mu0 = Some d ->
    exists d1,
      main_loop (R_num fin) o ag P fuel_out fuel_in (init_dict (R_num fin) P x0 c0 lam0 mu0) = Some d1 /\
      let c := d_c _ d1 in let W := squares (d_lam _ d1) + squares (d_mu _ d1) in
      0 < c /\
      forall y : list R, length y = n -> admissible P y ->
        d_f _ d + (squares (d_lam _ d) + squares (d_mu _ d)) / (2 * c) <= p_f _ P y + eps + W / (2 * c) /\
        (forall v, In v (d_g _ d) -> 0 <= v ->
           c * v <= sqrt (W + 2 * c * (p_f _ P y + eps - d_f _ d))) /\
        (forall v, In v (d_h _ d) ->
           c * Rabs v <= normR (d_lam _ d1) + sqrt (W + 2 * c * (p_f _ P y + eps - d_f _ d))).
Proof.
  intros fin o ag Hcnt Hsh P n eps x0 c0 lam0 mu0 fo fi d Hm Hg Hs Hx Hc Hmu Hrel Hsol.
  destruct (solve_inv _ o ag Hcnt P _ _ _ _ _ _ _ Hsol) as (d1 & Hml & Hlast & _).
  exists d1. split; [exact Hml|].
  assert (Hp : passes o ag P (init_dict (R_num fin) P x0 c0 lam0 mu0) d1)
    by apply (main_inv _ o ag Hcnt P _ _ _ _ _ _ _ Hml).
  assert (S0 : sound_state fin n (length mu0) (length lam0) (init_dict (R_num fin) P x0 c0 lam0 mu0)).
  { repeat split; try assumption; simpl; try reflexivity; try lra. }
  pose proof (passes_sound fin o ag Hcnt P Hm n _ _ Hs Hsh Hg _ _ Hp S0) as S1.
  cbv zeta. pose proof S1 as (_ & _ & _ & Hc1 & _ & _). split; [exact Hc1|].
  intros y Hy Ha.
  pose proof (pass_reliable fin o ag Hcnt P Hm n _ _ Hs Hsh eps _ _ _ _ _ _ y Hrel S1 Hlast Hy) as D.
  pose proof (admissible_value fin P n _ _ Hs d1 y S1 Hy Ha) as D2.
  assert (D3 : aug fin P d1 (d_x _ d) <= p_f _ P y + eps).
  { eapply Rle_trans; [exact D|]. apply Rplus_le_compat_r. exact D2. }
  pose proof (violations fin o ag Hcnt P Hm n _ _ Hs Hsh _ _ _ _ _ _ _ S1 Hlast D3) as (V0 & V1 & V2).
  destruct (body_inv _ o ag Hcnt P _ _ _ _ _ _ Hlast) as (r & _ & _ & _ & _ & Ef & Eg & Eh & _).
  rewrite Ef, Eg, Eh. split; [|split; [exact V1|exact V2]].
  rewrite (reported_squares fin o ag Hcnt P Hm n _ _ Hs Hsh _ _ _ _ _ _ S1 Hlast) in D3.
  set (a := squares (d_lam _ d)) in *. set (b := squares (d_mu _ d)) in *.
  set (a1 := squares (d_lam _ d1)) in *. set (b1 := squares (d_mu _ d1)) in *.
  replace ((a + b - a1 - b1) / (2 * d_c _ d1)) with ((a + b) / (2 * d_c _ d1) - (a1 + b1) / (2 * d_c _ d1)) in D3
    by (field; lra).
  lra.
Qed.
Print Assumptions C118_near_optimal.

(** ** C119 *)
(** For convex problems the reported numbers are a certificate: with an inner
    optimiser that ends at a nearly stationary point, the returned objective
    plus the multiplier-weighted constraint values, all reported, is at most
    the objective of any point that meets the constraints, up to the slope left
    times the distance. *)
Theorem C119_certificate :
  forall (fin : R -> bool) (o : optimiser (R_num fin)) ag, counted o -> shaped o ->
  forall (P : problem (R_num fin)) n eta (x0 : list R) c0 (lam0 mu0 : list R) fuel_out fuel_in d,
    p_mask _ P = gplus_hard (R_num fin) -> 0 < p_growth _ P ->
    sized P n (length mu0) (length lam0) -> length x0 = n -> 0 < c0 ->
    List.Forall (fun m => 0 <= m) mu0 ->
    stationary o ag P n (length mu0) (length lam0) eta ->
    solve_constrained (R_num fin) o ag P fuel_out fuel_in x0 c0 lam0 mu0 = Some d ->
    exists d1,
      main_loop (R_num fin) o ag P fuel_out fuel_in (init_dict (R_num fin) P x0 c0 lam0 mu0) = Some d1 /\
      0 < d_xunit _ d1 /\
      forall y : list R, length y = n -> convex_from P (d_x _ d) y -> admissible P y ->
        d_f _ d + dotR (d_lam _ d) (d_h _ d) + dotR (d_mu _ d) (d_g _ d)
        <= p_f _ P y + eta * (normR (map2 Rminus y (d_x _ d)) / d_xunit _ d1).
Proof.
  intros fin o ag Hcnt Hsh P n eta x0 c0 lam0 mu0 fo fi d Hm Hg Hs Hx Hc Hmu Hst Hsol.
  destruct (solve_inv _ o ag Hcnt P _ _ _ _ _ _ _ Hsol) as (d1 & Hml & Hlast & _).
  exists d1. split; [exact Hml|].
  assert (Hp : passes o ag P (init_dict (R_num fin) P x0 c0 lam0 mu0) d1)
    by apply (main_inv _ o ag Hcnt P _ _ _ _ _ _ _ Hml).
  assert (S0 : sound_state fin n (length mu0) (length lam0) (init_dict (R_num fin) P x0 c0 lam0 mu0)).
  { repeat split; try assumption; simpl; try reflexivity; try lra. }
  pose proof (passes_sound fin o ag Hcnt P Hm n _ _ Hs Hsh Hg _ _ Hp S0) as S1.
  pose proof (pass_sound fin o ag Hcnt P Hm n _ _ Hs Hsh Hg _ _ _ _ _ _ S1 Hlast) as S2.
  split; [apply S1|]. intros y Hy Hcv (Ay & By).
  pose proof (certificate fin o ag Hcnt P Hm n _ _ Hs Hsh Hg eta _ _ _ _ _ _ y Hst S1 Hlast Hy Hcv) as H.
  destruct (body_inv _ o ag Hcnt P _ _ _ _ _ _ Hlast) as (r & _ & _ & _ & _ & Ef & Eg & Eh & _).
  rewrite Ef, Eg, Eh. eapply Rle_trans; [exact H|]. apply Rplus_le_compat_r.
  assert (H1 : dotR (d_lam _ d) (p_h _ P y) = 0) by (apply dot_zeros; exact By).
  assert (H2 : dotR (d_mu _ d) (p_g _ P y) <= 0) by (apply dot_signs; [apply S2|exact Ay]).
  rewrite H1. lra.
Qed.
Print Assumptions C119_certificate.

(** Minimise x^2 subject to x >= 1 meets all the hypotheses with [eps = 0] and
    [eta = 0]; every solve ends; and every pair of points is in convex position. *)
Example C118_example :
  counted careful /\ shaped careful /\ descending careful /\
  p_mask RN floor_problem = gplus_hard RN /\ 0 < p_growth RN floor_problem /\
  sized floor_problem 1 1 0 /\ reliable careful no_grad floor_problem 1 1 0 0 /\
  stationary careful no_grad floor_problem 1 1 0 0 /\
  (exists d, solve_constrained RN careful no_grad floor_problem 100 1 [3] 1 [] [2] = Some d) /\
  admissible floor_problem [1] /\ admissible floor_problem [2].
Proof.
  split; [apply careful_counted|]. split; [apply careful_shaped|]. split; [apply careful_descending|].
  split; [reflexivity|]. split; [simpl; lra|]. split; [apply floor_sized|].
  split; [apply careful_reliable|]. split; [apply careful_stationary|]. split.
  - destruct (outer_terminates RN careful no_grad careful_counted floor_problem [3] 1 [] [2] 100 1) as (d & H & _);
      [simpl; lia|simpl; lia|]. exists d. exact H.
  - split; (split; [|constructor]); repeat constructor; simpl; unfold head; simpl; lra.
Qed.

Example C119_example : forall a b, convex_from floor_problem [a] [b].
Proof.
  intros a b. split; [|split].
  - exists (2 * a * (b - a)). split.
    + apply is_derive_ext with (f := fun t => (a + t * (b - a)) * (a + t * (b - a))); [intros t; reflexivity|].
      auto_derive; [trivial|ring].
    + simpl. unfold head. simpl. pose proof (Rle_0_sqr (b - a)) as H. unfold Rsqr in H. lra.
  - intros [|[|i]]; simpl.
    + exists (- (b - a)). split.
      * apply is_derive_ext with (f := fun t => 1 - (a + t * (b - a))); [intros t; reflexivity|].
        auto_derive; [trivial|ring].
      * unfold head. simpl. lra.
    + exists 0. split; [apply dR_const|lra].
    + exists 0. split; [apply dR_const|lra].
  - intros i.
    assert (E : forall t, nth i (p_h RN floor_problem (between [a] [b] t)) 0 = 0)
      by (intros t; destruct i; reflexivity).
    split; exists 0; (split; [|rewrite !E; lra]);
      (apply is_derive_ext with (f := fun _ : R => 0 : R); [intros t; rewrite E; try apply eq_sym, Ropp_0; reflexivity|apply dR_const]).
Qed.

(** The main loop of this problem, started at x = 3 with multiplier 2, ends
    after one pass at x = 1, within the tolerance. *)
Example C43_example : exists d1 d,
  main_loop RN careful no_grad floor_problem 100 1 (init_dict RN floor_problem [3] 1 [] [2]) = Some d1 /\
  (forall v, In v (p_g RN floor_problem (d_x RN d1)) -> v < p_ctol RN floor_problem) /\
  solve_constrained RN careful no_grad floor_problem 100 1 [3] 1 [] [2] = Some d.
Proof. exact floor_run. Qed.
