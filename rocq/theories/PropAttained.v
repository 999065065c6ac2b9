(** Property C126: regularised convex problems have exactly one best design. *)
From Coq Require Import String List Bool Arith ZArith Reals Lra Lia.
From Verif Require Import Base ModelArray ModelMath SpecMath ModelSurface SpecSurface ModelParams ModelField SpecField
  ModelQuantity ModelWrapper SpecWrapper ModelPackage SpecPackage ProofPackage4 SpecConvex ProofConvex PropConvex
  SpecBest ProofBest ProofUnique2 PropBest ProofAttained2.
Import ListNotations.
Open Scope R_scope.
Open Scope string_scope.
Open Scope list_scope.

(** ** C126 *)
Theorem C126_one_best_design :
  forall other q os cs z fz, sound q z -> ordered q -> resolved q -> regular (q_eval q) ->
  convex_objective other q os -> convex_constraints other q cs -> regularised q os ->
  feasible other q cs z -> weighted other q os z fz ->
  exists x fx, best other q os cs x fx /\ forall y fy, best other q os cs y fy -> y = x /\ fy = fx.
Proof.
  intros other q os cs z fz S O Rs Rg Ho Hc Reg Fz Wz. destruct (uniform_gap other q z os S O Rs Rg Ho Reg) as (m & Pm & Gm).
  destruct (best_design other q os cs z fz S Ho Hc Fz Wz m Pm Gm) as (x & fx & Lx & Fx & Wx & Bx). exists x, fx. split; [repeat (split; [assumption|]); assumption|].
  intros y fy (Ly & Fy & Wy & By). pose proof (sound_all q z S) as Sa.
  assert (E : x = y) by (apply (C124_unique_partial other q os cs x y fx fy); auto). subst y. split; [reflexivity|]. exact (weighted_fun other q os x fy fx Wy Wx).
Qed.
Print Assumptions C126_one_best_design.
(** Designs that are nearly as good are near the best one: the rate does not
    depend on the constraints. *)
Theorem C126_nearly_best_is_near :
  forall other q os z, sound q z -> ordered q -> resolved q -> regular (q_eval q) -> convex_objective other q os -> regularised q os ->
  exists m, 0 < m /\ forall cs x y fx fy e, convex_constraints other q cs -> best other q os cs x fx ->
    length y = q_ndofs q -> feasible other q cs y -> weighted other q os y fy -> fy <= fx + e ->
    forall j, m * (nth j y 0 - nth j x 0) ^ 2 <= e.
Proof.
  intros other q os z S O Rs Rg Ho Reg. destruct (uniform_gap other q z os S O Rs Rg Ho Reg) as (m & Pm & Gm). exists m. split; [exact Pm|].
  intros cs x y fx fy e Hc (Lx & Fx & Wx & Bx) Ly Fy Wy B j. pose proof (growth other q z os cs S Ho Hc x y fx fy Lx Fx Bx Ly Fy Wx Wy) as G. pose proof (Gm x y j Lx Ly). lra.
Qed.
Print Assumptions C126_nearly_best_is_near.

(** A problem with a constraint that is active somewhere. *)
Example C126_example : let q := lit true in exists b fz,
  let cs := [("f_max_K2", LE, b)] in
  sound q [1; 2; 3; 4] /\ ordered q /\ resolved q /\ regular (q_eval q) /\ convex_objective [] q regcoil /\ convex_constraints [] q cs /\ regularised q regcoil /\
  feasible [] q cs [1; 2; 3; 4] /\ weighted [] q regcoil [1; 2; 3; 4] fz.
Proof.
  cbv zeta. pose proof (lit_sound true [1; 2; 3; 4] eq_refl) as S. assert (Cv := C111_convex_quantities [] _ _ S (lit_ordered true) "f_max_K2" ltac:(cbn; tauto)).
  destruct (largest_value [] (lit true) [1; 2; 3; 4] S "f_max_K2" "K2" (fun v => v) ltac:(cbn; tauto)) as (b & v & R & _). exists b. eexists.
  split; [exact S|]. split; [apply lit_ordered|]. split; [apply lit_resolved|]. split; [apply lit_regular|]. split; [apply regcoil_convex, regcoil_quadratic|].
  split; [intros name c r [E|[]]; injection E as <- <- <-; exact Cv|]. split; [exists 2; split; [lra|]; right; split; [cbn; tauto|reflexivity]|].
  split; [intros name c r [E|[]]; injection E as <- <- <-; exists (scal b); split; [exact R|]; intros y [<-|[]]; lra|].
  exact (objective_reads [] _ _ regcoil S regcoil_quadratic [1; 2; 3; 4] eq_refl).
Qed.
