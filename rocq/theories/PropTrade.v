(** Property C127: what weights and bounds do to the best design. *)
From Coq Require Import String List Bool Arith ZArith Reals Lra Lia.
From Verif Require Import Base ModelArray ModelMath SpecMath ModelSurface SpecSurface ModelParams ModelField SpecField
  ModelQuantity ModelWrapper SpecWrapper ModelPackage SpecPackage ProofPackage4 SpecConvex ProofConvex PropConvex
  SpecBest ProofBest ProofUnique2 PropBest ProofAttained2 ProofTrade PropAttained.
Import ListNotations.
Open Scope R_scope.
Open Scope string_scope.
Open Scope list_scope.

(** ** C127 *)
(** Raising the weight of a figure never raises the figure, and never improves
    the rest. *)
Theorem C127_raising_a_weight :
  forall other q o1 n o2 w w' cs x x' f f' v v' r r', w < w' ->
  best other q (o1 ++ (n, w) :: o2) cs x f -> best other q (o1 ++ (n, w') :: o2) cs x' f' ->
  reads other n q x (scal v) -> reads other n q x' (scal v') -> weighted other q (o1 ++ o2) x r -> weighted other q (o1 ++ o2) x' r' ->
  v' <= v /\ (0 <= w -> r <= r').
Proof.
  intros other q o1 n o2 w w' cs x x' f f' v v' r r' Hw (Lx & Fx & Wx & Bx) (Lx' & Fx' & Wx' & Bx') Rv Rv' Wr Wr'.
  assert (A : forall c y ry vy, weighted other q (o1 ++ o2) y ry -> reads other n q y (scal vy) -> weighted other q (o1 ++ (n, c) :: o2) y (ry + c * vy)) by (intros; apply weighted_split; eauto).
  pose proof (Bx x' _ _ Lx' I Fx' (A w x r v Wr Rv) (A w x' r' v' Wr' Rv')) as H1. pose proof (Bx' x _ _ Lx I Fx (A w' x' r' v' Wr' Rv') (A w' x r v Wr Rv)) as H2.
  assert (Hv : v' <= v). { apply Rmult_le_reg_l with (w' - w); lra. } split; [exact Hv|]. intros Pw. assert (w * v' <= w * v) by (apply Rmult_le_compat_l; lra). lra.
Qed.
Print Assumptions C127_raising_a_weight.
(** More constraints, or a tighter bound, never improve the objective. *)
Theorem C127_constraints_cost :
  forall other q os cs cs' x x' f f', best other q os cs x f -> best other q os cs' x' f' ->
  (forall n c b, In (n, c, b) cs -> exists b', In (n, c, b') cs' /\ match c with LE => b' <= b | GE => b <= b' | EQ => b' = b end) -> f <= f'.
Proof.
  intros other q os cs cs' x x' f f' (Lx & Fx & Wx & Bx) (Lx' & Fx' & Wx' & _) T. apply (Bx x' f f' Lx' I); auto.
  intros n c b Hi. destruct (T n c b Hi) as (b' & Hi' & Hb). destruct (Fx' n c b' Hi') as (v & Rv & M). exists v. split; [exact Rv|]. intros y Hy. specialize (M y Hy). destruct c; lra.
Qed.
Print Assumptions C127_constraints_cost.
(** A figure in the objective can be replaced by the bound it reaches. *)
Theorem C127_weight_as_bound :
  forall other q o1 n o2 w cs x f v r, 0 <= w -> best other q (o1 ++ (n, w) :: o2) cs x f -> reads other n q x (scal v) -> weighted other q (o1 ++ o2) x r ->
  (forall y fy, length y = q_ndofs q -> weighted other q (o1 ++ o2) y fy -> exists vy, reads other n q y (scal vy)) ->
  best other q (o1 ++ o2) ((n, LE, v) :: cs) x r.
Proof.
  intros other q o1 n o2 w cs x f v r Pw (Lx & Fx & Wx & Bx) Rv Wr Tot. split; [exact Lx|]. split; [|split; [exact Wr|]].
  - apply feasible_cons. split; [|exact Fx]. exists (scal v). split; [exact Rv|]. intros y [<-|[]]. lra.
  - intros y fx fy Ly _ Fy Wx' Wy. rewrite (weighted_fun other q _ _ _ _ Wx' Wr). apply feasible_cons in Fy as ((u & Ru & M) & Fy). destruct (Tot y fy Ly Wy) as (vy & Rvy).
    rewrite (reads_fun _ _ _ _ _ _ Ru Rvy) in M. specialize (M vy (or_introl eq_refl)). cbn in M.
    assert (H : r + w * v <= fy + w * vy) by (apply (Bx y); auto; apply weighted_split; eauto). assert (w * vy <= w * v) by (apply Rmult_le_compat_l; lra). lra.
Qed.
Print Assumptions C127_weight_as_bound.
(** In a convex problem a bound that some design satisfies strictly is worth a
    weight; the weight is zero unless the bound is reached. *)
Theorem C127_bound_as_weight :
  forall other q os cs n b x fx z fz vz, convex_objective other q os -> convex_constraints other q cs -> convex_quantity other n q ->
  best other q os ((n, LE, b) :: cs) x fx ->
  length z = q_ndofs q -> feasible other q cs z -> weighted other q os z fz -> reads other n q z (scal vz) -> vz < b ->
  exists w v, 0 <= w /\ reads other n q x (scal v) /\ (v < b -> w = 0) /\ best other q (os ++ [(n, w)]) cs x (fx + w * v).
Proof.
  intros other q os cs n b x fx z fz vz Ho Hc Hn (Lx & Fx & Wx & Bx) Lz Fz Wz Rz Sl.
  destruct (multiplier other q os cs n b Ho Hc Hn x z fx fz vz Lx Fx Wx Bx Lz Fz Wz Rz Sl) as (w & Pw & M).
  destruct (chord_shape Rle other n q z x (scal vz) Hn Lz Lx Rz) as ([sv ev] & Rv & Sv & Ev). cbn in Sv, Ev. subst sv. destruct ev as [|v [|]]; try discriminate. change (Arr [] [v]) with (scal v) in Rv.
  apply feasible_cons in Fx as ((u & Ru & Mu) & Fx'). rewrite (reads_fun _ _ _ _ _ _ Ru Rv) in Mu. specialize (Mu v (or_introl eq_refl)). cbn in Mu.
  pose proof (M x fx v Lx Fx' Wx Rv) as Mx. exists w, v. split; [exact Pw|]. split; [exact Rv|].
  assert (Wb : w * b = w * v). { apply Rle_antisym; [lra|]. apply Rmult_le_compat_l; lra. }
  split. { intros Hv. assert (Z : w * (b - v) = 0) by lra. apply Rmult_integral in Z as [Z|Z]; lra. }
  split; [exact Lx|]. split; [exact Fx'|]. split.
  - apply weighted_app. exists fx, (w * v). split; [exact Wx|]. split; [apply weighted_one; eauto|reflexivity].
  - intros y f fy Ly _ Fy W1 W2. apply weighted_app in W1 as (g & h & Wg & Wh & ->). apply weighted_one in Wh as (v' & Rv' & ->). rewrite (scal_fun _ _ _ _ _ _ Rv' Rv), (weighted_fun other q _ _ _ _ Wg Wx).
    apply weighted_app in W2 as (g2 & h2 & Wg2 & Wh2 & ->). apply weighted_one in Wh2 as (vy & Rvy & ->). pose proof (M y g2 vy Ly Fy Wg2 Rvy). lra.
Qed.
Print Assumptions C127_bound_as_weight.

(** The regularisation of a design with two weights, and a bound on the largest
    current density that the design [1; 2; 3; 4] satisfies with room to spare. *)
Example C127_example : let q := lit true in
  (exists x f x' f' v v', best [] q [("f_B", 1); ("f_K", 2)] [] x f /\ best [] q [("f_B", 1); ("f_K", 3)] [] x' f' /\ reads [] "f_K" q x (scal v) /\ reads [] "f_K" q x' (scal v')) /\
  (forall y, length y = q_ndofs q -> exists vy, reads [] "f_K" q y (scal vy)) /\
  (exists b x fx fz vz, convex_objective [] q regcoil /\ convex_constraints [] q [] /\ convex_quantity [] "f_max_K2" q /\ best [] q regcoil [("f_max_K2", LE, b)] x fx /\
    feasible [] q [] [1; 2; 3; 4] /\ weighted [] q regcoil [1; 2; 3; 4] fz /\ reads [] "f_max_K2" q [1; 2; 3; 4] (scal vz) /\ vz < b).
Proof.
  cbv zeta. pose proof (lit_sound true [1; 2; 3; 4] eq_refl) as S. pose proof (sound_all _ _ S) as Sa. assert (Cv := C111_convex_quantities [] _ _ S (lit_ordered true) "f_max_K2" ltac:(cbn; tauto)).
  split; [|split].
  - assert (Bs : forall w, 0 <= w -> exists x f v, best [] (lit true) [("f_B", 1); ("f_K", w)] [] x f /\ reads [] "f_K" (lit true) x (scal v)).
    { intros w Pw. destruct (C123_best_design_exists [] (lit true) [1; 2; 3; 4] [("f_B", 1); ("f_K", w)] S (lit_ordered true)) as (x & f & Lx & Wx & Bx).
      - intros name c [E|[E|[]]]; injection E as <- <-; (split; [lra|cbn; tauto]).
      - exists x, f. eexists. split; [split; [exact Lx|]; split; [intros ? ? ? []|]; split; assumption|]. apply (figure [] "f_K" (lit true) x (Sa x Lx)). cbn. tauto. }
    destruct (Bs 2 ltac:(lra)) as (x & f & v & B & Rv). destruct (Bs 3 ltac:(lra)) as (x' & f' & v' & B' & Rv'). exists x, f, x', f', v, v'. auto.
  - intros y Ly. eexists. apply (figure [] "f_K" (lit true) y (Sa y Ly)). cbn. tauto.
  - destruct (largest_value [] (lit true) [1; 2; 3; 4] S "f_max_K2" "K2" (fun v => v) ltac:(cbn; tauto)) as (b & v & R & _).
    assert (Ho := regcoil_convex true regcoil regcoil_quadratic). assert (Wz := objective_reads [] _ _ regcoil S regcoil_quadratic [1; 2; 3; 4] eq_refl).
    assert (Hc : convex_constraints [] (lit true) [("f_max_K2", LE, b + 1)]) by (intros name c r [E|[]]; injection E as <- <- <-; exact Cv).
    assert (Fz : feasible [] (lit true) [("f_max_K2", LE, b + 1)] [1; 2; 3; 4]) by (intros name c r [E|[]]; injection E as <- <- <-; exists (scal b); split; [exact R|]; intros y [<-|[]]; lra).
    assert (Rg : regularised (lit true) regcoil) by (exists 2; split; [lra|]; right; split; [cbn; tauto|reflexivity]).
    destruct (C126_one_best_design [] (lit true) regcoil _ _ _ S (lit_ordered true) (lit_resolved true) (lit_regular true) Ho Hc Rg Fz Wz) as (x & fx & B & _).
    exists (b + 1), x, fx. eexists. exists b. split; [exact Ho|]. split; [intros ? ? ? []|]. split; [exact Cv|]. split; [exact B|]. split; [intros ? ? ? []|]. split; [exact Wz|]. split; [exact R|lra].
Qed.
