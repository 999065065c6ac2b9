(** A small gradient means a design near the best one (C133). *)
From Coq Require Import String List Bool Arith ZArith Reals Lra Lia.
From Coquelicot Require Import Coquelicot.
From Verif Require Import Base ModelArray ProofArray ModelMath SpecMath ProofMath ModelSurface SpecSurface ModelParams ModelField SpecField ProofField3
  ModelQuantity SpecQuantity ProofQuantity ProofSlack ModelWrapper SpecWrapper ProofWrapper ProofWrapper2 ModelShipped ModelPackage SpecPackage
  SpecConvex ProofPackage4 ProofConvex ModelSolver SpecSolver ProofSolver ModelQuadcoil SpecQuadcoil ProofQuadcoil ProofQuadcoil2
  SpecProblem ProofProblem ProofProblem2 ProofEnd ProofEnd2 SpecEnd ProofEnd3 ProofEnd4 SpecCert ProofCert PropConvex
  SpecBest ProofSquares ProofBest ProofUnique2 ProofAttained ProofAttained2 SpecNear ProofNear
  WitnessField WitnessSolver WitnessQuadcoil PropBest PropAttained WitnessEnd PropEnd WitnessNear.
Import ListNotations.
Open Scope R_scope.
Open Scope string_scope.
Open Scope list_scope.

(** One constant [m], that depends on the coil description and on the terms of
    the objective but not on the call, bounds the distance of the returned
    design from the best one, and the excess of its objective, by the norm of
    the gradient at which the optimiser stopped. *)
Theorem C133_small_gradient_near_best :
  forall other q U os z,
  sound q z -> ordered q -> resolved q -> regular (q_eval q) ->
  (forall t, In t os -> 0 <= ob_weight t /\ scaled_use U q (ob_name t) (ob_unit t)) ->
  convex_objective other q (asked_terms os) -> regularised q (asked_terms os) ->
  exists m, 0 < m /\
  forall (E : library) (a : args (x_solver E)) o p r,
    counted (x_opt E) -> shaped (x_opt E) ->
    asks a os [] -> qc_smoothing a = Some "slack" -> qc_merge a = false ->
    (forall x, qc_phi_init a = Some x -> length x = q_ndofs q) ->
    quadcoil (package other) E a = Some (Ok o) -> o_results E o = Direct E r -> o_qp E o = q ->
    prepare (package other) a = Ok p -> pr_unit p <> 0 ->
    slope (fun y => real_of (f_scaled p y)) (r_x _ r) (r_grad _ r) ->
    exists x v, lookup "phi" (o_dofs E o) = Some (Arr [length x] x) /\ length x = q_ndofs q /\
      weighted other q (asked_terms os) x v /\
      forall xs fs, best other q (asked_terms os) [] xs fs ->
        m * Rabs (pr_unit p) * normR (lincomb 1 (-1) x xs) <= normR (r_grad _ r) /\
        m * pr_unit p ^ 2 * (v - fs) <= normR (r_grad _ r) ^ 2.
Proof.
  intros other q U os z S O Rs Rg Uo Ho Hr.
  destruct (uniform_gap other q z (asked_terms os) S O Rs Rg Ho Hr) as (m0 & Pm & Gm).
  exists (rate q m0). split; [now apply rate_pos|].
  intros E a o p r Hcnt Hsh As Hs Hm Hphi Hq Hres Eq Hp Hu Sl.
  destruct (quadcoil_ok _ E a o Hq) as (p' & r' & dofs & Hp' & Hso & _ & Hd & E1 & E2 & E3).
  assert (p' = p) by congruence. subst p'. rewrite Hres in E3. subst r'. rewrite E1 in Eq. rewrite E2. clear E1 E2 Hres Hq Hp'.
  unfold solve in Hso. destruct (unconstrained (pr_fn p)) eqn:Free.
  2: { destruct (solve_constrained _ _ _ _ _ _ _ _ _ _); discriminate. }
  destruct (run_opt _ _ _ _ _ _ _ _ _ _) as [r''|] eqn:Hrun; [|discriminate]. injection Hso as ->. cbn [optimum] in Hd.
  assert (Lr : length (r_x _ r : list R) = length (pr_x0 p)).
  { eapply run_length; eassumption. }
  subst q. set (q := fn_qp (pr_fn p)) in *.
  assert (Sa : forall x, length x = q_ndofs q -> sound q x) by (intros x Lx; now apply (sound_all q z)).
  destruct (plain_problem other a p U os Hp As Hs Hm O Sa Uo Hphi Free) as (Lx0 & PP). rewrite Lx0 in Lr.
  assert (Hf : forall y, length y = q_ndofs q -> weighted other q (asked_terms os) (map (fun v => v * pr_unit p) y) (real_of (f_scaled p y))).
  { intros y Ly. destruct (PP y Ly) as (_ & v & Ev & Wv). rewrite Ev. exact Wv. }
  destruct (PP _ Lr) as (Ed & v & Ev & Wv). assert (dofs = [("phi", vec (map (fun v => v * pr_unit p) (r_x _ r)))]) by congruence. subst dofs.
  exists (map (fun v => v * pr_unit p) (r_x _ r)), (real_of (f_scaled p (r_x _ r))).
  split; [reflexivity|]. split; [rewrite map_length; exact Lr|]. split; [apply Hf; exact Lr|].
  intros xs fs B. exact (near other q z (asked_terms os) S Ho m0 Pm Gm (pr_unit p) (fun y => real_of (f_scaled p y)) Hu Hf _ _ xs fs Lr Sl B).
Qed.
Print Assumptions C133_small_gradient_near_best.

(** Non-trivial case: field error and current of a small device, started away
    from the best design, with an optimiser that stops after one look at the
    gradient; the gradients are central differences, exact here. *)
Example C133_example :
  (sound (lit true) [1; 2; 3; 4] /\ ordered (lit true) /\ resolved (lit true) /\ regular (q_eval (lit true)) /\
   (forall t, In t terms133 -> 0 <= ob_weight t /\ scaled_use U120 (lit true) (ob_name t) (ob_unit t)) /\
   convex_objective [] (lit true) (asked_terms terms133) /\ regularised (lit true) (asked_terms terms133)) /\
  (exists xs fs, best [] (lit true) (asked_terms terms133) [] xs fs) /\
  counted (x_opt E133) /\ shaped (x_opt E133) /\ asks call133 terms133 [] /\ qc_smoothing call133 = Some "slack" /\ qc_merge call133 = false /\
  (forall x, qc_phi_init call133 = Some x -> length x = q_ndofs (lit true)) /\
  exists o p r, quadcoil (package []) E133 call133 = Some (Ok o) /\ o_results E133 o = Direct E133 r /\ o_qp E133 o = lit true /\
    prepare (package []) call133 = Ok p /\ pr_unit p <> 0 /\
    slope (fun y => real_of (f_scaled p y)) (r_x _ r) (r_grad _ r).
Proof.
  pose proof (lit_sound true [1; 2; 3; 4] eq_refl) as S. pose proof (lit_ordered true) as O.
  assert (Qd : forall name c, In (name, c) (asked_terms terms133) -> 0 <= c /\ In name quadratic_figures).
  { intros name c [E|[E|[]]]; cbn in E; injection E as <- <-; rewrite Rabs_right by lra; (split; [lra|cbn; tauto]). }
  assert (Use : forall t, In t terms133 -> 0 <= ob_weight t /\ scaled_use U120 (lit true) (ob_name t) (ob_unit t)) by (intros t I; destruct (use133 t I) as (? & ? & _); auto).
  split; [|split; [|split; [|split; [|split; [|split; [|split; [|split]]]]]]].
  - split; [exact S|]. split; [exact O|]. split; [apply lit_resolved|]. split; [apply lit_regular|]. split; [exact Use|]. split; [now apply regcoil_convex|].
    exists (4 / Rabs 2). split; [rewrite Rabs_right; lra|]. right. split; [cbn; tauto|reflexivity].
  - destruct (C123_best_design_exists [] (lit true) [1; 2; 3; 4] (asked_terms terms133) S O Qd) as (x & fx & L & W & B). exists x, fx.
    split; [exact L|]. split; [intros ? ? ? []|]. split; [exact W|exact B].
  - exact heed_counted.
  - exact heed_shaped.
  - exact asks133.
  - reflexivity.
  - reflexivity.
  - intros x [= <-]. reflexivity.
  - destruct (C121_valid_calls_return [] E133 call133 (lit true) U120 terms133 [] heed_counted heed_shaped builds133 asks133 eq_refl eq_refl
      ltac:(cbn; lra) ltac:(cbn; lra) O (ex_intro _ _ S) ltac:(intros x [= <-]; reflexivity) ltac:(intros b [= <-]; reflexivity) ltac:(discriminate)
      ltac:(intros p Hp; destruct (start133 p Hp) as (-> & _); lra) use133 ltac:(intros c []) metrics133 (le_n _) (le_n _))
      as (o & Hq & Eq & _).
    destruct (quadcoil_ok _ _ _ _ Hq) as (p & r & dofs & Hp & Hso & _ & Hd & E1 & E2 & E3).
    destruct (start133 p Hp) as (Un & Uc). unfold solve in Hso. rewrite Uc in Hso.
    destruct (run_opt _ _ _ _ _ _ _ _ _ _) as [r0|] eqn:Hr; [|discriminate]. injection Hso as <-.
    exists o, p, r0. split; [exact Hq|]. split; [exact E3|]. split; [exact Eq|]. split; [exact Hp|]. split; [rewrite Un; lra|].
    exact (slope133 p r0 Hp Hr).
Qed.
