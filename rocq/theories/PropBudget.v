(** Property C125: when a call stops. *)
From Coq Require Import String List Bool Arith ZArith Reals Lra Lia.
From Verif Require Import Base ModelArray ModelMath SpecMath ModelSurface ModelParams ModelSolver SpecSolver ProofSolver ProofSolverR PropSolver
  ModelWrapper ModelPackage ModelQuadcoil ProofQuadcoil WitnessEnd WitnessQuadcoil PropEnd PropPackage.
Import ListNotations.
Open Scope R_scope.
Open Scope string_scope.
Open Scope list_scope.

(** ** C125 *)
(** Iterations made by a call (src/quadcoil/quadcoil.py 664: inner_fin_niter;
    src/quadcoil/solver.py 577: tot_niter). *)
Definition iterations (E : library) (r : solve_results E) : nat :=
  match r with Direct r => r_count _ r | Constrained d => d_tot _ d end.
(** An optimiser run ended for one of the declared reasons
    (docs/tutorial_inputs.rst 454-474; src/quadcoil/solver.py 162-206): the
    iterations are used up, the gradient is small, the mean decrease over the
    record of ten values is small, or the last step, update and decrease are. *)
Definition declared (f : list R -> R) (x0 : list R) (maxiter : nat) (fstop xstop gtol : R) {fin} (r : opt_out (R_num fin)) (vals : list R) : Prop :=
  (maxiter <= r_count _ r)%nat \/ normR (r_grad _ r) <= gtol \/
  ((if (length vals <? 10)%nat then 1000 * fstop * (INR (9 - length vals) / 9) + 2 * f x0 else nth (length vals - 10) vals 0) - last vals 0) / 9 <= fstop \/
  (r_dx _ r <= xstop /\ r_du _ r <= xstop /\ r_df _ r <= fstop).

Theorem C125_budget_partial :
  forall ns E (a : args (x_solver E)) o, counted (x_opt E) -> quadcoil ns E a = Some (Ok o) ->
  match o_results E o with
  | Direct r => (1 <= r_count _ r <= Nat.max 1 (qc_maxiter_tot a))%nat
  | Constrained d => (2 <= d_tot _ d <= qc_maxiter_tot a - 1 + 2 * Nat.max 1 (qc_maxiter_inner a))%nat
  end.
Proof.
  intros ns E a o C H. destruct (quadcoil_ok ns E a o H) as (p & r & dofs & Hp & Hs & _ & _ & _ & _ & ->). unfold solve in Hs. destruct (unconstrained (pr_fn p)).
  - destruct (run_opt _ _ _ _ _ _ _ _ _ _) as [r0|] eqn:Hr; [|discriminate]. injection Hs as <-.
    destruct (inner_terminates (R_num (x_fin E)) (x_opt E) (x_autograd E) C (fun x => real_of (f_scaled p x)) (pr_x0 p) (Nat.max 1 (qc_maxiter_tot a)) (qc_maxiter_tot a) (fstop_inner_last (qc_tol a)) (xstop_inner_last (qc_tol a)) (gtol_inner (qc_tol a)) (le_n _))
      as (r1 & _ & B & _ & U). rewrite (U _ _ Hr). exact B.
  - destruct (solve_constrained _ _ _ _ _ _ _ _ _ _) as [d|] eqn:Hr; [|discriminate]. injection Hs as <-.
    destruct (solve_inv _ _ _ C _ _ _ _ _ _ _ _ Hr) as (d1 & Hm & Hl & _). destruct (main_inv _ _ _ C _ _ _ _ _ _ _ _ Hm) as (_ & _ & B & _).
    unfold last_pass in Hl. destruct (body_inv _ _ _ C _ _ _ _ _ _ _ Hl) as (r & _ & B' & -> & _). cbn [solver_problem p_maxiter_tot p_maxiter_inner] in *. lia.
Qed.
Print Assumptions C125_budget_partial.
(** Every call ends for a declared reason with the tolerances given: without
    constraints those of the last stage, except for the gradient; with
    constraints the main loop ends converged or with its budget used up, which
    the last stage then exceeds. *)
Theorem C125_reasons :
  forall ns E (a : args (x_solver E)) o p, counted (x_opt E) -> quadcoil ns E a = Some (Ok o) -> prepare ns a = Ok p ->
  match o_results E o with
  | Direct r => let f := fun x => real_of (f_scaled p x) in
      exists s u vals, traj (N := R_num (x_fin E)) (x_opt E) (x_autograd E) f (pr_x0 p) (r_count _ r) (r_x _ r) s u vals /\ length vals = r_count _ r /\
        declared f (pr_x0 p) (qc_maxiter_tot a) (fstop_inner_last (qc_tol a)) (xstop_inner_last (qc_tol a)) (gtol_inner (qc_tol a)) r vals
  | Constrained d => let P := solver_problem E a p in exists d1 r s u vals, (1 <= d_tot _ d1)%nat /\
      passes (x_opt E) (x_autograd E) P (init_dict _ P (pr_x0 p) (qc_c_init a) (pr_lam0 p) (pr_mu0 p)) d1 /\
      ((qc_maxiter_tot a <= d_tot _ d1)%nat \/
       (d_dx _ d1 < xstop_outer (qc_tol a) /\
        ((forall v, In v (list_of (g_scaled p (d_x _ d1))) -> v < ctol_outer (qc_tol a)) /\
         (forall v, In v (list_of (h_scaled p (d_x _ d1))) -> Rabs v < ctol_outer (qc_tol a)) \/ 10 ^ 15 < d_c _ d1))) /\
      let f := l_k _ P (d_xunit _ d1) (d_c _ d1) (d_lam _ d1) (d_mu _ d1) in let x0 := map (fun v => v / d_xunit _ d1) (d_x _ d1) in
      traj (N := R_num (x_fin E)) (x_opt E) (x_autograd E) f x0 (r_count _ r) (r_x _ r) s u vals /\ length vals = r_count _ r /\
      declared f x0 (qc_maxiter_inner a) (fstop_inner_last (qc_tol a)) (xstop_inner_last (qc_tol a)) (gtol_inner_last (qc_tol a)) r vals /\
      (1 <= r_count _ r)%nat /\ d_tot _ d = (d_tot _ d1 + r_count _ r)%nat /\ d_x _ d = map (fun v => v * d_xunit _ d1) (r_x _ r)
  end.
Proof.
  intros ns E a o p C H Hp. destruct (quadcoil_ok ns E a o H) as (p' & r & dofs & Hp' & Hs & _ & _ & _ & _ & ->). rewrite Hp in Hp'. injection Hp' as <-. unfold solve in Hs. destruct (unconstrained (pr_fn p)).
  - destruct (run_opt _ _ _ _ _ _ _ _ _ _) as [r0|] eqn:Hr; [|discriminate]. injection Hs as <-.
    exact (C38_inner_exit_reason _ _ _ C _ _ _ _ _ _ _ _ Hr).
  - destruct (solve_constrained _ _ _ _ _ _ _ _ _ _) as [d|] eqn:Hr; [|discriminate]. injection Hs as <-. cbv zeta. set (P := solver_problem E a p) in *.
    destruct (solve_inv _ _ _ C _ _ _ _ _ _ _ _ Hr) as (d1 & Hm & Hl & _). pose proof (main_exit_R _ _ _ C _ _ _ _ _ _ _ _ Hm) as R1. destruct (main_inv _ _ _ C _ _ _ _ _ _ _ _ Hm) as (Ps & _ & B1 & _).
    unfold last_pass in Hl. destruct (body_inv _ _ _ C _ _ _ _ _ _ _ Hl) as (r & Hrun & Bc & Et & Ex & _).
    destruct (C38_inner_exit_reason _ _ _ C _ _ _ _ _ _ _ _ Hrun) as (s & u & vals & T & L & D).
    exists d1, r, s, u, vals. split; [lia|]. split; [exact Ps|]. split; [exact R1|]. split; [exact T|]. split; [exact L|]. split; [exact D|]. split; [lia|]. split; [exact Et|exact Ex].
Qed.
Print Assumptions C125_reasons.
(** The documented meaning of maxiter_tot (docs/tutorial_inputs.rst 466-469). *)
Theorem C125_total_refuted :
  exists ns E (a : args (x_solver E)) o, counted (x_opt E) /\ quadcoil ns E a = Some (Ok o) /\ (1 <= qc_maxiter_tot a)%nat /\ (qc_maxiter_tot a < iterations E (o_results E o))%nat.
Proof.
  destruct C121_example as ((o & H & _) & _). exists (package []), E120, call120, o. split; [apply call_hypotheses|]. split; [exact H|]. split; [cbn; lia|].
  pose proof (C125_budget_partial _ _ _ _ (proj1 call_hypotheses) H) as B. destruct (quadcoil_ok _ _ _ _ H) as (p & r & dofs & Hp & Hs & _ & _ & _ & _ & E3).
  destruct (call_start p Hp) as (_ & _ & _ & _ & Uc & _). unfold solve in Hs. rewrite Uc in Hs. destruct (solve_constrained _ _ _ _ _ _ _ _ _ _) as [d|]; [|discriminate]. injection Hs as <-.
  rewrite E3 in B |- *. cbn [iterations]. cbn [call120 qc_maxiter_tot]. lia.
Qed.
Print Assumptions C125_total_refuted.
(** More generally a constrained call that does not converge exceeds it. *)
Theorem C125_overrun :
  forall ns E (a : args (x_solver E)) o d p, counted (x_opt E) -> quadcoil ns E a = Some (Ok o) -> o_results E o = Constrained E d -> prepare ns a = Ok p ->
  (forall d1, let P := solver_problem E a p in passes (x_opt E) (x_autograd E) P (init_dict _ P (pr_x0 p) (qc_c_init a) (pr_lam0 p) (pr_mu0 p)) d1 ->
     (1 <= d_tot _ d1)%nat -> xstop_outer (qc_tol a) <= d_dx _ d1) ->
  (qc_maxiter_tot a < d_tot _ d)%nat.
Proof.
  intros ns E a o d p C H Er Hp Nc. pose proof (C125_reasons ns E a o p C H Hp) as R. rewrite Er in R. cbv zeta in R.
  destruct R as (d1 & r & s & u & vals & O1 & Ps & [B|[X _]] & T & L & _ & O & -> & _); [lia|]. specialize (Nc d1 Ps O1). lra.
Qed.
Print Assumptions C125_overrun.

(** Both kinds of call, made and ended: the constrained one meets the
    hypothesis of C125_overrun with one iteration permitted, the other stays
    within its budget. *)
Example C125_example :
  counted (x_opt E120) /\
  (exists o d p, quadcoil (package []) E120 call120 = Some (Ok o) /\ o_results E120 o = Constrained E120 d /\ prepare (package []) call120 = Ok p /\
    (forall d1, let P := solver_problem E120 call120 p in passes (x_opt E120) (x_autograd E120) P (init_dict _ P (pr_x0 p) (qc_c_init call120) (pr_lam0 p) (pr_mu0 p)) d1 ->
     (1 <= d_tot _ d1)%nat -> xstop_outer (qc_tol call120) <= d_dx _ d1) /\ (2 <= d_tot _ d <= 2)%nat) /\
  (exists o r, quadcoil (package []) E120 free120 = Some (Ok o) /\ o_results E120 o = Direct E120 r /\ r_count _ r = 1%nat).
Proof.
  split; [apply call_hypotheses|]. destruct C121_example as ((o & H & _) & (o' & H' & _)). split.
  - pose proof (C125_budget_partial _ _ _ _ (proj1 call_hypotheses) H) as B. destruct (quadcoil_ok _ _ _ _ H) as (p & r & dofs & Hp & Hs & _ & _ & _ & _ & E3).
    destruct (call_start p Hp) as (_ & _ & _ & _ & Uc & _). unfold solve in Hs. rewrite Uc in Hs. destruct (solve_constrained _ _ _ _ _ _ _ _ _ _) as [d|]; [|discriminate]. injection Hs as <-.
    rewrite E3 in B. exists o, d, p. split; [exact H|]. split; [exact E3|]. split; [exact Hp|]. split; [|cbn [call120 qc_maxiter_tot qc_maxiter_inner] in B; lia].
    intros d1 P Ps _. cbn [call120 qc_tol loose xstop_outer]. destruct Ps as [|d0 d1 fuel fs xs gt Ps Bd]; [cbn; lra|].
    destruct (body_inv _ _ _ (proj1 call_hypotheses) _ _ _ _ _ _ _ Bd) as (r & _ & _ & _ & _ & _ & _ & _ & _ & -> & _). apply sqrt_pos.
  - pose proof (C125_budget_partial _ _ _ _ (proj1 call_hypotheses) H') as B. destruct (quadcoil_ok _ _ _ _ H') as (p & r & dofs & Hp & Hs & _ & _ & _ & _ & E3).
    destruct (free_start p Hp) as (_ & _ & Uc & _). unfold solve in Hs. rewrite Uc in Hs. destruct (run_opt _ _ _ _ _ _ _ _ _ _) as [r0|]; [|discriminate]. injection Hs as <-.
    rewrite E3 in B. exists o', r0. split; [exact H'|]. split; [exact E3|]. cbn [free120 qc_maxiter_tot] in B. lia.
Qed.
