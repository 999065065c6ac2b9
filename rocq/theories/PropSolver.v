(** Properties C37-C48: the optimisation loops. *)
From Coq Require Import List Bool Arith Lia ZArith Reals Lra.
From Coquelicot Require Import Coquelicot.
From Verif Require Import Base ModelSolver SpecSolver ProofSolver RDeriv ProofSolverR WitnessSolver.
Import ListNotations.

(** ** C37 *)
(** For any arithmetic, objective, gradient oracle and optimiser with an
    honest counter: the inner loop terminates; it has made exactly the
    reported number of optimiser updates, at least one and at most
    max(1, maxiter); and the outcome does not depend on the loop bound used to
    execute it. *)
Theorem C37_inner_terminates :
  forall (N : Num) (o : optimiser N) (ag : (list N -> N) -> list N -> list N),
    counted o ->
    forall (f : list N -> N) (x0 : list N) (fuel maxiter : nat) (fstop xstop gtol : N),
    (Nat.max 1 maxiter <= fuel)%nat ->
    exists r, run_opt N o ag fuel x0 f maxiter fstop xstop gtol = Some r /\
      (1 <= r_count N r <= Nat.max 1 maxiter)%nat /\
      (exists s u vals, traj o ag f x0 (r_count N r) (r_x N r) s u vals) /\
      (forall fuel' r', run_opt N o ag fuel' x0 f maxiter fstop xstop gtol = Some r' -> r' = r).
Proof. exact inner_terminates. Qed.
Print Assumptions C37_inner_terminates.

(** Integer run of gradient descent on x^2 from 64: the optimiser counter is
    honest and eight updates are made before the step vanishes. *)
Example C37_example :
  counted (gd_opt Z_num (fun a => - (a / 4))%Z) /\
  option_map (fun r => (r_count Z_num r, r_x Z_num r))
    (run_opt Z_num (gd_opt Z_num (fun a => - (a / 4))%Z)
             (fun _ x => map (fun a => 2 * a)%Z x) 50 [64%Z]
             (fun x => (hd 0 x * hd 0 x)%Z) 50 0%Z 0%Z 0%Z)
  = Some (8%nat, [1%Z]).
Proof. split; [apply gd_counted|vm_compute; reflexivity]. Qed.

(** The same theorem at an arithmetic in which every value is NaN. *)
Example C37_example_nan :
  option_map (r_count NaN_num)
    (run_opt NaN_num (gd_opt NaN_num (fun a => a)) (fun _ x => x) 50 [tt] (fun _ => tt) 50 tt tt tt)
  = Some 1%nat.
Proof. vm_compute; reflexivity. Qed.

(** ** C38 *)
Open Scope R_scope.
(** When the loop stops, the budget is exhausted, or the reported gradient norm
    is at most gtol, or the mean decrease over the last ten recorded values is
    at most fstop, or all three reported changes are within tolerance.  The
    recorded values are the objective values used for the updates, preceded by
    the artificial start-up record of solver.py line 129. *)
Theorem C38_inner_exit_reason :
  forall (fin : R -> bool) (o : optimiser (R_num fin)) ag, counted o ->
    forall (f : list R -> R) (x0 : list R) (fuel maxiter : nat) (fstop xstop gtol : R) r,
    run_opt (R_num fin) o ag fuel x0 f maxiter fstop xstop gtol = Some r ->
    exists s u vals,
      traj (N := R_num fin) o ag f x0 (r_count _ r) (r_x _ r) s u vals /\
      length vals = r_count _ r /\
      ((maxiter <= r_count _ r)%nat
       \/ normR (r_grad _ r) <= gtol
       \/ ((if (length vals <? 10)%nat
            then 1000 * fstop * (INR (9 - length vals) / 9) + 2 * f x0
            else nth (length vals - 10) vals 0) - last vals 0) / 9 <= fstop
       \/ (r_dx _ r <= xstop /\ r_du _ r <= xstop /\ r_df _ r <= fstop)).
Proof. exact inner_exit_R. Qed.
Print Assumptions C38_inner_exit_reason.

Example C38_example : exists r,
  run_opt RN quarter_descent grad_square 1 [1] square 1 0 0 0 = Some r /\ r_count RN r = 1%nat.
Proof. eexists; split; reflexivity. Qed.

(** ** C39 *)
(** Full statement: the mean-decrease test never stops a run in which every
    step decreases the objective by more than fstop.  False: with a negative
    starting value the artificial record stops the run after one step. *)
Theorem C39_mean_decrease_refuted :
  exists (o : optimiser RN) ag f x0 maxiter fstop xstop gtol r,
    counted o /\ honest o ag f x0 /\ 0 <= fstop /\
    (forall n x s u vals, traj (N := RN) o ag f x0 n x s u vals ->
       forall i, (S i < length vals)%nat -> fstop < nth i vals 0 - nth (S i) vals 0) /\
    run_opt RN o ag maxiter x0 f maxiter fstop xstop gtol = Some r /\
    r_count RN r = 1%nat /\ (1 < maxiter)%nat /\
    gtol < normR (r_grad RN r) /\ xstop < r_dx RN r /\ xstop < r_du RN r.
Proof. exact mean_decrease_refuted. Qed.
Print Assumptions C39_mean_decrease_refuted.

(** Partial: it holds when the starting value is positive and at least fstop.
    Missing: starting values below that (false there, see above). *)
Theorem C39_mean_decrease_partial :
  forall (fin : R -> bool) (o : optimiser (R_num fin)) ag, counted o ->
    forall (f : list R -> R) (x0 : list R) fuel maxiter fstop xstop gtol r,
    honest o ag f x0 -> 0 <= fstop -> fstop <= f x0 -> 0 < f x0 ->
    (forall n x s u vals, traj (N := R_num fin) o ag f x0 n x s u vals ->
       forall i, (S i < length vals)%nat -> fstop < nth i vals 0 - nth (S i) vals 0) ->
    run_opt (R_num fin) o ag fuel x0 f maxiter fstop xstop gtol = Some r ->
    (maxiter <= r_count _ r)%nat \/ normR (r_grad _ r) <= gtol \/
    (r_dx _ r <= xstop /\ r_du _ r <= xstop /\ r_df _ r <= fstop).
Proof. exact no_premature_stop. Qed.
Print Assumptions C39_mean_decrease_partial.

Definition lifted_square (x : list R) : R := head x * head x + 1.
Example C39_example :
  counted quarter_descent /\ honest quarter_descent grad_square lifted_square [1] /\
  0 <= 0 <= lifted_square [1] /\ 0 < lifted_square [1] /\
  (forall n x s u vals, traj (N := RN) quarter_descent grad_square lifted_square [1] n x s u vals ->
     forall i, (S i < length vals)%nat -> 0 < nth i vals 0 - nth (S i) vals 0).
Proof.
  split; [apply gd_counted|]. split; [apply never_finite_honest; reflexivity|].
  unfold lifted_square, head; simpl. split; [lra|]. split; [lra|].
  intros n x s u vals Ht.
  assert (H : x = [(/ 2) ^ n] /\ vals = map (fun i => (/ 2) ^ i * (/ 2) ^ i + 1) (seq 0 n)).
  { induction Ht as [|n x s u vals v g u' s' Ht [IHx IHv] H1 H2 Hu]; [simpl; auto|].
    destruct (H2 eq_refl) as [-> ->]. subst x. simpl in Hu. injection Hu as <- <-.
    split; [simpl; f_equal; unfold head; simpl; lra|].
    rewrite seq_S, map_app, IHv. reflexivity. }
  destruct H as [_ ->]. intros i Hi. rewrite map_length, seq_length in Hi.
  set (F := fun i => (/ 2) ^ i * (/ 2) ^ i + 1).
  rewrite !(nth_indep (map F (seq 0 n)) 0 (F 0%nat)) by (rewrite map_length, seq_length; lia).
  rewrite !map_nth, !seq_nth by lia. unfold F. simpl.
  assert (0 < (/ 2) ^ i) by (apply pow_lt; lra). nra.
Qed.

(** ** C40 *)
(** Full statement: the objective value returned belongs to the point returned,
    in constrained and unconstrained runs.  False for unconstrained runs, which
    return the inner optimiser's value. *)
Theorem C40_reported_value_refuted :
  exists (o : optimiser RN) ag f x0 maxiter fstop xstop gtol r,
    counted o /\ honest o ag f x0 /\
    run_opt RN o ag maxiter x0 f maxiter fstop xstop gtol = Some r /\
    r_f RN r <> f (r_x RN r).
Proof. exact stale_value_refuted. Qed.
Print Assumptions C40_reported_value_refuted.

(** Partial: constrained runs do report objective and constraints at the
    returned point, for any arithmetic. *)
Theorem C40_reported_value_constrained_partial :
  forall (N : Num) (o : optimiser N) ag, counted o ->
    forall (P : problem N) x0 c0 lam0 mu0 fuel_out fuel_in d,
    solve_constrained N o ag P fuel_out fuel_in x0 c0 lam0 mu0 = Some d ->
    d_f N d = p_f N P (d_x N d) /\ d_g N d = p_g N P (d_x N d) /\ d_h N d = p_h N P (d_x N d).
Proof. exact reported_values. Qed.
Print Assumptions C40_reported_value_constrained_partial.

(** What the unconstrained run reports: the value one update earlier. *)
Theorem C40_reported_value_unconstrained_partial :
  forall (N : Num) (o : optimiser N) ag, counted o ->
    forall f x0 fuel maxiter fstop xstop gtol r,
    honest o ag f x0 ->
    run_opt N o ag fuel x0 f maxiter fstop xstop gtol = Some r ->
    exists xprev u s vals,
      traj o ag f x0 (r_count N r - 1) xprev s u vals /\
      (exists u', r_x N r = map2 (n_add N) xprev u') /\ r_f N r = f xprev.
Proof. exact value_is_previous. Qed.
Print Assumptions C40_reported_value_unconstrained_partial.

(** An integer constrained run: minimise -x subject to x <= 3 with unit steps. *)
Definition Z_problem : problem Z_num :=
  Build_problem Z_num (fun x => - hd 0 x)%Z (fun x => [hd 0 x - 3])%Z (fun _ => [])
    (gplus_hard Z_num) 2%Z 8%Z 1%Z 1%Z 0%Z 0%Z 0%Z 0%Z 0%Z 0%Z 6 1.

Example C40_example :
  option_map (fun d => (d_tot Z_num d, d_f Z_num d, d_g Z_num d, d_x Z_num d))
    (solve_constrained Z_num (const_opt Z_num [1%Z]) (fun _ x => x) Z_problem 6 1 [2%Z] 1%Z [] [0%Z])
  = Some (7%nat, (-192)%Z, [189%Z], [192%Z]).
Proof. vm_compute; reflexivity. Qed.

Example C40_example_unconstrained :
  counted quarter_descent /\ honest quarter_descent grad_square square [1] /\
  exists r, run_opt RN quarter_descent grad_square 1 [1] square 1 0 0 0 = Some r.
Proof.
  split; [apply gd_counted|]. split; [apply never_finite_honest; reflexivity|].
  eexists; reflexivity.
Qed.

(** ** C41 *)
Theorem C41_outer_terminates :
  forall (N : Num) (o : optimiser N) ag, counted o ->
    forall (P : problem N) x0 c0 lam0 mu0 fuel_out fuel_in,
    (Nat.max 1 (p_maxiter_inner N P) <= fuel_in)%nat ->
    (Nat.max 1 (p_maxiter_tot N P) <= fuel_out)%nat ->
    exists d, solve_constrained N o ag P fuel_out fuel_in x0 c0 lam0 mu0 = Some d /\
      (2 <= d_tot N d <= p_maxiter_tot N P - 1 + 2 * Nat.max 1 (p_maxiter_inner N P))%nat.
Proof. exact outer_terminates. Qed.
Print Assumptions C41_outer_terminates.

(** The bound is attained by the run of [C40_example]: 6 - 1 + 2 * 1 = 7. *)
Example C41_example :
  counted (const_opt Z_num [1%Z]) /\
  option_map (d_tot Z_num)
    (solve_constrained Z_num (const_opt Z_num [1%Z]) (fun _ x => x) Z_problem 6 1 [2%Z] 1%Z [] [0%Z])
  = Some (p_maxiter_tot Z_num Z_problem - 1 + 2 * Nat.max 1 (p_maxiter_inner Z_num Z_problem))%nat.
Proof. split; [apply const_counted|vm_compute; reflexivity]. Qed.

(** ** C42 *)
Theorem C42_outer_exit_reason :
  forall (fin : R -> bool) (o : optimiser (R_num fin)) ag, counted o ->
    forall (P : problem (R_num fin)) x0 c0 lam0 mu0 fuel_out fuel_in d,
    main_loop (R_num fin) o ag P fuel_out fuel_in (init_dict (R_num fin) P x0 c0 lam0 mu0) = Some d ->
    (p_maxiter_tot _ P <= d_tot _ d)%nat \/
    (d_dx _ d < p_xstop_outer _ P /\
     ((forall v, In v (p_g _ P (d_x _ d)) -> v < p_ctol _ P) /\
      (forall v, In v (p_h _ P (d_x _ d)) -> Rabs v < p_ctol _ P)
      \/ p_csafe _ P < d_c _ d)).
Proof. exact main_exit_R. Qed.
Print Assumptions C42_outer_exit_reason.

(** The main loop of the drift problem ends after one pass, within tolerance. *)
Example C42_example : exists d,
  main_loop RN unit_step no_grad drift_problem 100 1 (init_dict RN drift_problem [0] 1 [] [0]) = Some d /\
  (d_tot RN d < 100)%nat.
Proof.
  destruct last_pass_refuted_main as (d & H1 & H2 & _). exists d. auto.
Qed.

(** ** C43 *)
(** Full statement: when the main loop ends within the constraint tolerance,
    so does the returned point.  False: the last pass is not checked. *)
Theorem C43_final_tolerance_refuted :
  exists (o : optimiser RN) ag P x0 c0 lam0 mu0 d1 d,
    counted o /\ List.Forall (fun m => 0 <= m) mu0 /\ 0 < c0 /\
    main_loop RN o ag P (p_maxiter_tot RN P) (p_maxiter_inner RN P)
              (init_dict RN P x0 c0 lam0 mu0) = Some d1 /\
    (d_tot RN d1 < p_maxiter_tot RN P)%nat /\
    (forall v, In v (p_g RN P (d_x RN d1)) -> v < p_ctol RN P) /\
    solve_constrained RN o ag P (p_maxiter_tot RN P) (p_maxiter_inner RN P) x0 c0 lam0 mu0 = Some d /\
    exists v, In v (p_g RN P (d_x RN d)) /\ p_ctol RN P <= v.
Proof. exact last_pass_refuted. Qed.
Print Assumptions C43_final_tolerance_refuted.

(** ** C44 *)
(** Full statement: multipliers stay non-negative for every offered mask.
    False for the ELU mask. *)
Theorem C44_multipliers_elu_refuted :
  exists (o : optimiser RN) ag P d d',
    counted o /\ p_mask RN P = gplus_elu RN /\ 0 < d_c RN d /\ 1 <= p_growth RN P /\
    List.Forall (fun m => 0 <= m) (d_mu RN d) /\
    passes o ag P d d' /\ exists m, In m (d_mu RN d') /\ m < 0.
Proof. exact elu_refuted. Qed.
Print Assumptions C44_multipliers_elu_refuted.

(** Partial: it holds for the default (hard) and the softplus mask, after any
    number of passes. *)
Theorem C44_multipliers_nonneg_partial :
  forall (fin : R -> bool) (o : optimiser (R_num fin)) ag, counted o ->
    forall (P : problem (R_num fin)) d d',
    (p_mask _ P = gplus_hard (R_num fin) \/ p_mask _ P = gplus_softplus (R_num fin)) ->
    passes o ag P d d' -> 0 < d_c _ d -> 0 < p_growth _ P ->
    List.Forall (fun m => 0 <= m) (d_mu _ d) -> List.Forall (fun m => 0 <= m) (d_mu _ d').
Proof. exact mu_nonneg. Qed.
Print Assumptions C44_multipliers_nonneg_partial.

Example C44_example : exists d d',
  passes unit_step no_grad drift_problem d d' /\ d <> d' /\ 0 < d_c RN d /\
  p_mask RN drift_problem = gplus_hard RN /\ List.Forall (fun m => 0 <= m) (d_mu RN d).
Proof.
  set (d0 := init_dict RN drift_problem [0] 1 [] [0]).
  destruct (unit_body drift_problem 0 0 0 d0 eq_refl eq_refl) as (d1 & B1 & _ & T1).
  exists d0, d1. split; [econstructor; [constructor|exact B1]|].
  split; [intros E; rewrite <- E in T1; simpl in T1; lia|].
  simpl. split; [lra|]. split; [reflexivity|]. repeat constructor; lra.
Qed.

(** ** C45 *)
Theorem C45_penalty_weight :
  forall (fin : R -> bool) (o : optimiser (R_num fin)) ag, counted o ->
    forall (P : problem (R_num fin)) d d',
    passes o ag P d d' -> 0 < d_c _ d -> 1 <= p_growth _ P ->
    (exists n, d_c _ d' = d_c _ d * p_growth _ P ^ n) /\
    d_c _ d <= d_c _ d' <= Rmax (d_c _ d) (p_csafe _ P * p_growth _ P).
Proof. exact c_invariant. Qed.
Print Assumptions C45_penalty_weight.

Example C45_example : exists d d',
  passes unit_step no_grad drift_problem d d' /\ d <> d' /\ 0 < d_c RN d /\
  1 <= p_growth RN drift_problem.
Proof.
  destruct C44_example as (d & d' & H1 & H2 & H3 & _). exists d, d'.
  repeat split; try assumption. simpl; lra.
Qed.

(** ** C46 *)
(** Along any differentiable curve through the point found by a pass, the
    augmented Lagrangian that the pass minimised has the derivative of the
    ordinary Lagrangian with the multipliers reported by that pass. *)
Theorem C46_multiplier_update_gradient :
  forall (fin : R -> bool) (o : optimiser (R_num fin)) ag, counted o ->
    forall (P : problem (R_num fin)), p_mask _ P = gplus_hard (R_num fin) ->
    forall fuel fs xs gt d d' (X : R -> list R) (t0 df : R)
      (gs : list (R -> R)) (dgs : list R) (hs : list (R -> R)) (dhs : list R),
    body (R_num fin) o ag P fuel fs xs gt d = Some d' -> 0 < d_c _ d -> d_xunit _ d <> 0 ->
    X t0 = d_x _ d' ->
    is_derive (fun t => p_f _ P (X t)) t0 df ->
    (forall t, p_g _ P (X t) = map (fun g => g t) gs) ->
    (forall t, p_h _ P (X t) = map (fun h => h t) hs) ->
    Forall2 (fun g dg => is_derive g t0 dg) gs dgs ->
    Forall2 (fun h dh => is_derive h t0 dh) hs dhs ->
    length (d_mu _ d : list R) = length gs -> length (d_lam _ d : list R) = length hs ->
    is_derive (fun t => l_k (R_num fin) P (d_xunit _ d) (d_c _ d) (d_lam _ d) (d_mu _ d)
                          (map (fun a => a / d_xunit _ d) (X t))) t0
      (df + dotR (d_lam _ d') dhs + dotR (d_mu _ d') dgs).
Proof. exact pass_gradient. Qed.
Print Assumptions C46_multiplier_update_gradient.

(** If a pass leaves the multipliers unchanged, the point it found is feasible,
    the multipliers are non-negative and complementary. *)
Theorem C46_fixed_point_kkt :
  forall (fin : R -> bool) (o : optimiser (R_num fin)) ag, counted o ->
    forall (P : problem (R_num fin)), p_mask _ P = gplus_hard (R_num fin) ->
    forall fuel fs xs gt d d',
    body (R_num fin) o ag P fuel fs xs gt d = Some d' -> 0 < d_c _ d ->
    length (d_mu _ d : list R) = length (p_g _ P (d_x _ d') : list R) ->
    length (d_lam _ d : list R) = length (p_h _ P (d_x _ d') : list R) ->
    d_lam _ d' = d_lam _ d -> d_mu _ d' = d_mu _ d ->
    List.Forall (fun h => h = 0) (p_h _ P (d_x _ d')) /\
    Forall2 (fun m g => 0 <= m /\ g <= 0 /\ m * g = 0) (d_mu _ d) (p_g _ P (d_x _ d')).
Proof. exact fixed_point_kkt. Qed.
Print Assumptions C46_fixed_point_kkt.

(** The first pass of the drift problem (x: 0 -> 1, constraint x <= 1 active)
    meets the hypotheses of both theorems, along the straight line X(t) = [t]. *)
Example C46_example :
  exists d d',
    body RN unit_step no_grad drift_problem 1 0 0 0 d = Some d' /\ 0 < d_c RN d /\
    d_xunit RN d <> 0 /\ [1] = d_x RN d' /\
    is_derive (fun t => p_f RN drift_problem [t]) 1 (-1) /\
    (forall t, p_g RN drift_problem [t] = map (fun g => g t) [fun t => t - 1]) /\
    Forall2 (fun g dg => is_derive g 1 dg) [fun t => t - 1] [1] /\
    d_mu RN d' = d_mu RN d /\ d_lam RN d' = d_lam RN d /\
    length (d_mu RN d : list R) = 1%nat.
Proof.
  set (d0 := init_dict RN drift_problem [0] 1 [] [0]).
  destruct (unit_body drift_problem 0 0 0 d0 eq_refl eq_refl) as (d1 & B1 & X1 & T1).
  assert (X1' : d_x RN d1 = [1]) by (rewrite X1; simpl; f_equal; field).
  destruct (body_inv RN unit_step no_grad (const_counted _ _) drift_problem _ _ _ _ _ _ B1) as
    (r & _ & _ & _ & _ & _ & Hg & Hh & _ & _ & _ & Hl & Hm & _).
  exists d0, d1. split; [exact B1|]. split; [simpl; lra|]. split; [simpl; lra|].
  split; [symmetry; exact X1'|].
  split. { apply (dR_opp (fun t => t) 1 1). apply dR_id. }
  split; [reflexivity|].
  split. { constructor; [|constructor]. apply dR_eq with (a := 1 - 0); [lra|]. apply (dR_minus (fun t => t) (fun _ => 1)); [apply dR_id|apply dR_const]. }
  split; [|split; [exact Hl|reflexivity]].
  rewrite Hm, Hg, X1'. cbn [p_mask p_g drift_problem].
  unfold gplus_hard, vadd, vscale, head. cbn [map2 map d_mu d_c d0 init_dict hd R_num n_add n_mul n_max n_opp n_div].
  f_equal. rewrite Rmax_left by lra. lra.
Qed.

(** ** C47 *)
Theorem C47_lower_bound :
  forall (fin : R -> bool) (P : problem (R_num fin)) u c lam mu x,
    p_mask _ P = gplus_hard (R_num fin) -> 0 < c ->
    let X := map (fun a => a * u) x in
    length mu = length (p_g _ P X) -> length lam = length (p_h _ P X) ->
    List.Forall (fun m => 0 <= m) mu ->
    List.Forall (fun g => g <= 0) (p_g _ P X) -> List.Forall (fun h => h = 0) (p_h _ P X) ->
    l_k (R_num fin) P u c lam mu x <= p_f _ P X.
Proof. exact al_le_objective. Qed.
Print Assumptions C47_lower_bound.

Example C47_example :
  let X := map (fun a => a * 2) [/ 4] in
  length [3] = length (p_g RN drift_problem X) /\ List.Forall (fun m => 0 <= m) [3] /\
  List.Forall (fun g => g <= 0) (p_g RN drift_problem X) /\
  List.Forall (fun h => h = 0) (p_h RN drift_problem X).
Proof.
  simpl. split; [reflexivity|]. split; [repeat constructor; lra|].
  split; [|constructor]. repeat constructor. unfold head; simpl. lra.
Qed.

(** ** C48 *)
(** After any number of passes the scale is positive, and scaling and unscaling
    a point returns it, so every evaluation happens at the unscaled point. *)
Theorem C48_rescaling_transparent :
  forall (fin : R -> bool) (o : optimiser (R_num fin)) ag, counted o ->
    forall (P : problem (R_num fin)) d d',
    passes o ag P d d' -> 0 < d_xunit _ d ->
    0 < d_xunit _ d' /\
    (forall x : list R, map (fun a => a * d_xunit _ d') (map (fun a => a / d_xunit _ d') x) = x).
Proof. exact rescaling_transparent. Qed.
Print Assumptions C48_rescaling_transparent.

(** Every pass minimises, from the scaled current point, a function whose value
    at a scaled point is the augmented Lagrangian of the user's functions at the
    point itself, whatever the scale; the recorded point is the optimiser's
    answer unscaled, and the recorded values are the user's functions there. *)
Theorem C48_evaluated_at_the_unscaled_point :
  forall (fin : R -> bool) (o : optimiser (R_num fin)) ag (P : problem (R_num fin)) fuel fs xs gt (d d' : dict (R_num fin)),
    (0 < d_xunit _ d)%R -> body _ o ag P fuel fs xs gt d = Some d' ->
    exists F r, run_opt _ o ag fuel (map (fun a : R => a / d_xunit _ d)%R (d_x _ d)) F (p_maxiter_inner _ P) fs xs gt = Some r /\
      (forall x : list R, F (map (fun a => a / d_xunit _ d)%R x) =
         (p_f _ P x + dotR (d_lam _ d) (p_h _ P x) + dotR (d_mu _ d) (p_mask _ P (p_g _ P x) (d_mu _ d) (d_c _ d))
          + d_c _ d / 2 * (sumR (map (fun v => v * v) (p_h _ P x)) + sumR (map (fun v => v * v) (p_mask _ P (p_g _ P x) (d_mu _ d) (d_c _ d)))))%R) /\
      d_x _ d' = map (fun a : R => a * d_xunit _ d)%R (r_x _ r) /\
      d_f _ d' = p_f _ P (d_x _ d') /\ d_g _ d' = p_g _ P (d_x _ d') /\ d_h _ d' = p_h _ P (d_x _ d').
Proof. exact pass_unscaled. Qed.
Print Assumptions C48_evaluated_at_the_unscaled_point.

Example C48_example : exists d d',
  passes unit_step no_grad drift_problem d d' /\ d <> d' /\ 0 < d_xunit RN d /\
  exists fuel fs xs gt, body RN unit_step no_grad drift_problem fuel fs xs gt d = Some d'.
Proof.
  set (d0 := init_dict RN drift_problem [0] 1 [] [0]).
  destruct (unit_body drift_problem 0 0 0 d0 eq_refl eq_refl) as (d1 & B1 & _ & T1).
  exists d0, d1. split; [econstructor; [constructor|exact B1]|].
  split; [intros E; rewrite <- E in T1; simpl in T1; lia|]. split; [simpl; lra|]. eauto 8.
Qed.
