(** Property C142: best designs depend stably on the required normal field. *)
From Coq Require Import String List Bool Arith ZArith Reals Lra Lia.
From Verif Require Import Base ModelArray ModelMath SpecMath ModelSurface SpecSurface ModelParams ModelField SpecField ProofField3
  ModelQuantity ModelWrapper SpecWrapper ModelPackage SpecPackage ProofPackage4 SpecConvex ProofConvex PropConvex
  SpecBest ProofBest ProofUnique2 PropBest ProofAttained2 PropAttained SpecStable ProofStable.
Import ListNotations.
Open Scope R_scope.
Open Scope string_scope.
Open Scope list_scope.

(** ** C142 *)
(** The quantities in [coil_names] do not see the required normal field. *)
Theorem C142_coil_quantities_ignore_the_target :
  forall other q1 q2 z name x v, sound q1 z -> sound q2 z -> other_field q1 q2 -> In name coil_names -> length x = q_ndofs q1 ->
  (reads other name q1 x v <-> reads other name q2 x v).
Proof. exact blind. Qed.
Print Assumptions C142_coil_quantities_ignore_the_target.

(** [qd] is the device whose required normal field is the difference of the two
    and that carries no net current, so its f_B without unknowns is the size of the
    change; [q0] is the device without net currents and required field, whose
    figures at x2 - x1 are the size of the difference of the designs. *)
Theorem C142_designs_move_no_more_than_the_target :
  forall other q1 q2 q0 qd z w os cs x1 x2 f1 f2 D e m, sound q1 z -> sound q2 z -> other_field q1 q2 -> ordered q1 -> 0 <= w ->
  convex_objective other q1 os -> convex_constraints other q1 cs ->
  (forall name c, In (name, c) os -> In name coil_names) -> (forall name c b, In (name, c, b) cs -> In name coil_names) ->
  best other q1 (("f_B", w) :: os) cs x1 f1 -> best other q2 (("f_B", w) :: os) cs x2 f2 ->
  made q0 -> SpecField.scaled 0 q1 q0 -> made qd -> superposed 1 (-1) q1 q2 qd ->
  reads other "f_B" qd (repeat 0 (q_ndofs q1)) (scal D) ->
  weighted other q0 (quadratic_part os) (lincomb 1 (-1) x2 x1) e -> reads other "f_B" q0 (lincomb 1 (-1) x2 x1) (scal m) ->
  4 * e <= w * D /\ (0 < w -> m <= D).
Proof.
  intros other q1 q2 q0 qd z w os cs x1 x2 f1 f2 D e m S1 S2 OF O Pw Ho Hc No Nc B1 B2 M0 Q0 Md Qd RD We Rm.
  destruct (moved other q1 q2 q0 qd z w os cs S1 S2 OF O Pw Ho Hc No Nc M0 Q0 Qd x1 x2 f1 f2 B1 B2) as (_ & _ & _ & _ & We').
  pose proof (moved_bounds other q1 q2 q0 qd z w os cs S1 S2 OF O Pw Ho Hc No Nc M0 Q0 Qd x1 x2 f1 f2 B1 B2) as H. cbv zeta in H.
  assert (P1 : plasma_shaped q1) by apply S1. assert (P2 : plasma_shaped q2) by apply S2. pose proof Qd as (Gd & _). pose proof Q0 as (G0 & _).
  assert (L1 : length x1 = q_ndofs q1) by apply B1. assert (L2 : length x2 = q_ndofs q1) by (destruct B2 as (-> & _); destruct OF as ((_ & _ & _ & _ & _ & _ & _ & _ & E) & _); exact E).
  assert (So : forall q x, made q -> same_geometry q q1 -> plasma_shaped q -> length x = q_ndofs q1 -> sound q x).
  { intros q x M G P L. split; [exact M|]. pose proof G as (-> & -> & _). split; [apply S1|]. split; [apply S1|]. split; [exact P|]. rewrite L. symmetry. apply G. }
  assert (Sd : sound qd (repeat 0 (q_ndofs q1))) by (apply So; auto; [apply (superposed_shape 1 (-1) q1 q2 qd); auto|apply repeat_length]).
  assert (S0 : sound q0 (lincomb 1 (-1) x2 x1)) by (apply So; auto; [apply (superposed_shape 1 (-1) q1 q1 q0); auto; now apply quiet_superposed|rewrite length_lincomb; congruence]).
  pose proof (reads_fun _ _ _ _ _ _ RD (figure other "f_B" qd _ Sd ltac:(cbn; tauto))) as ED. pose proof (reads_fun _ _ _ _ _ _ Rm (figure other "f_B" q0 _ S0 ltac:(cbn; tauto))) as Em.
  rewrite (weights_same "f_B" q1 qd Gd) in ED. rewrite (weights_same "f_B" q1 q0 G0) in Em. injection ED as ->. injection Em as ->.
  rewrite (weighted_fun other q0 _ _ _ _ We We'). exact H.
Qed.
Print Assumptions C142_designs_move_no_more_than_the_target.

(** The unknowns themselves: the rate depends on neither the two required fields
    nor the constraints. *)
Theorem C142_unknowns_move_continuously :
  forall other q1 z os, sound q1 z -> ordered q1 -> resolved q1 -> regular (q_eval q1) -> convex_objective other q1 os -> regularised q1 os ->
  (forall name c, In (name, c) os -> In name coil_names) ->
  exists r, 0 < r /\ forall q2 qd w cs x1 x2 f1 f2 D, sound q2 z -> other_field q1 q2 -> 0 <= w -> convex_constraints other q1 cs ->
    (forall name c b, In (name, c, b) cs -> In name coil_names) ->
    best other q1 (("f_B", w) :: os) cs x1 f1 -> best other q2 (("f_B", w) :: os) cs x2 f2 ->
    (exists q0, made q0 /\ SpecField.scaled 0 q1 q0) -> made qd -> superposed 1 (-1) q1 q2 qd -> reads other "f_B" qd (repeat 0 (q_ndofs q1)) (scal D) ->
    forall j, r * (nth j x2 0 - nth j x1 0) ^ 2 <= w * D.
Proof.
  intros other q1 z os S1 O Rs Rg Ho Reg No. destruct (uniform_gap other q1 z os S1 O Rs Rg Ho Reg) as (r & Pr & Gr). exists (4 * r). split; [lra|].
  intros q2 qd w cs x1 x2 f1 f2 D S2 OF Pw Hc Nc B1 B2 (q0 & M0 & Q0) Md Qd RD j.
  destruct (moved_bounds other q1 q2 q0 qd z w os cs S1 S2 OF O Pw Ho Hc No Nc M0 Q0 Qd x1 x2 f1 f2 B1 B2) as (H & _).
  assert (P1 : plasma_shaped q1) by apply S1. assert (P2 : plasma_shaped q2) by apply S2. pose proof Qd as (Gd & _).
  assert (L1 : length x1 = q_ndofs q1) by apply B1. assert (L2 : length x2 = q_ndofs q1) by (destruct B2 as (-> & _); destruct OF as ((_ & _ & _ & _ & _ & _ & _ & _ & E) & _); exact E).
  assert (Sd : sound qd (repeat 0 (q_ndofs q1))).
  { split; [exact Md|]. pose proof Gd as (E1 & E2 & _). rewrite E1, E2. split; [apply S1|]. split; [apply S1|]. split; [apply (superposed_shape 1 (-1) q1 q2 qd); auto|]. rewrite repeat_length. symmetry. apply Gd. }
  pose proof (reads_fun _ _ _ _ _ _ RD (figure other "f_B" qd _ Sd ltac:(cbn; tauto))) as ED. rewrite (weights_same "f_B" q1 qd Gd) in ED. injection ED as ->.
  pose proof (Gr x1 x2 j L1 L2). lra.
Qed.
Print Assumptions C142_unknowns_move_continuously.

(** Two required fields in one device, with a bound on the peak current density. *)
Definition relit : params := fine 2 1 [[0; 1]; [2; 5]] true.
Definition difference : params := fine 0 0 [[0; 0]; [0; -2]] true.
Definition smoothing : list (string * R) := [("f_K", 2); ("f_max_K2", 3)].
Lemma relit_sound x : length x = 4%nat -> sound relit x.
Proof. intros L. split; [apply fine_made|]. split; [reflexivity|]. split; [reflexivity|]. split; [|exact L]. split; [reflexivity|repeat constructor]. Qed.
Lemma relit_other : other_field (lit true) relit.
Proof. split; [|split; reflexivity]. repeat split; reflexivity. Qed.
Lemma difference_superposed : superposed 1 (-1) (lit true) relit difference.
Proof.
  split; [repeat split; reflexivity|]. split; [repeat split; reflexivity|]. cbn [q_G q_I q_Bnormal]. split; [|split].
  - change (0 = 1 * 2 + -1 * 2). lra.
  - change (0 = 1 * 1 + -1 * 1). lra.
  - change ([[0; 0]; [0; -2]] = [[1 * 0 + -1 * 0; 1 * 1 + -1 * 1]; [1 * 2 + -1 * 2; 1 * 3 + -1 * 5]]). repeat f_equal; lra.
Qed.
Example C142_example : exists b x1 x2 f1 f2 D,
  let cs := [("f_max_K2", LE, b)] in let os := smoothing in
  sound (lit true) [1; 2; 3; 4] /\ sound relit [1; 2; 3; 4] /\ other_field (lit true) relit /\ ordered (lit true) /\ resolved (lit true) /\ regular (q_eval (lit true)) /\
  convex_objective [] (lit true) os /\ regularised (lit true) os /\ convex_constraints [] (lit true) cs /\
  (forall name c, In (name, c) os -> In name coil_names) /\ (forall name c r, In (name, c, r) cs -> In name coil_names) /\
  best [] (lit true) (("f_B", 1) :: os) cs x1 f1 /\ best [] relit (("f_B", 1) :: os) cs x2 f2 /\
  made (dark true) /\ SpecField.scaled 0 (lit true) (dark true) /\ made difference /\ superposed 1 (-1) (lit true) relit difference /\
  reads [] "f_B" difference (repeat 0 4) (scal D).
Proof.
  pose proof (lit_sound true [1; 2; 3; 4] eq_refl) as S. pose proof (relit_sound [1; 2; 3; 4] eq_refl) as S2. pose proof relit_other as OF.
  assert (O2 : ordered relit) by exact (lit_ordered true).
  assert (Cv : forall q name, sound q [1; 2; 3; 4] -> ordered q -> In name ["f_B"; "f_K"; "f_max_K2"] -> convex_quantity [] name q).
  { intros q name Sq Oq I. apply (C111_convex_quantities [] q _ Sq Oq). cbn in *. tauto. }
  destruct (largest_value [] (lit true) [1; 2; 3; 4] S "f_max_K2" "K2" (fun v => v) ltac:(cbn; tauto)) as (b & v & Rb & _).
  assert (Rb2 : reads [] "f_max_K2" relit [1; 2; 3; 4] (scal b)) by (refine (proj1 (blind [] (lit true) relit [1; 2; 3; 4] "f_max_K2" [1; 2; 3; 4] (scal b) S S2 OF _ eq_refl) Rb); cbn; tauto).
  assert (Co : forall q, sound q [1; 2; 3; 4] -> ordered q -> convex_objective [] q (("f_B", 1) :: smoothing)).
  { intros q Sq Oq name c I. split; [|apply (Cv q name Sq Oq)]; cbn in *; destruct I as [E|[E|[E|[]]]]; injection E as <- <-; try lra; tauto. }
  assert (Cc : forall q, sound q [1; 2; 3; 4] -> ordered q -> convex_constraints [] q [("f_max_K2", LE, b)]).
  { intros q Sq Oq name c r [E|[]]. injection E as <- <- <-. apply (Cv q _ Sq Oq). cbn; tauto. }
  assert (Fe : forall q, reads [] "f_max_K2" q [1; 2; 3; 4] (scal b) -> SpecConvex.feasible [] q [("f_max_K2", LE, b)] [1; 2; 3; 4]).
  { intros q Rq name c r [E|[]]. injection E as <- <- <-. exists (scal b). split; [exact Rq|]. intros y [<-|[]]. lra. }
  assert (We : forall q, sound q [1; 2; 3; 4] -> reads [] "f_max_K2" q [1; 2; 3; 4] (scal b) -> exists fz, weighted [] q (("f_B", 1) :: smoothing) [1; 2; 3; 4] fz).
  { intros q Sq Rq. eexists. eexists [_; _; _]. split; [|reflexivity]. constructor; [exact (figure [] "f_B" q _ Sq ltac:(cbn; tauto))|]. constructor; [exact (figure [] "f_K" q _ Sq ltac:(cbn; tauto))|]. constructor; [exact Rq|constructor]. }
  assert (Rr : forall q, q_stellsym q = true -> regularised q (("f_B", 1) :: smoothing)) by (intros q E; exists 2; split; [lra|]; right; split; [cbn; tauto|exact E]).
  assert (Rs2 : resolved relit) by exact (lit_resolved true). assert (Rg2 : regular (q_eval relit)) by exact (lit_regular true).
  destruct (We _ S Rb) as (fz & Wz). destruct (We _ S2 Rb2) as (fz2 & Wz2).
  destruct (C126_one_best_design [] (lit true) _ _ _ _ S (lit_ordered true) (lit_resolved true) (lit_regular true) (Co _ S (lit_ordered true)) (Cc _ S (lit_ordered true)) (Rr (lit true) eq_refl) (Fe _ Rb) Wz) as (x1 & f1 & B1 & _).
  destruct (C126_one_best_design [] relit _ _ _ _ S2 O2 Rs2 Rg2 (Co _ S2 O2) (Cc _ S2 O2) (Rr relit eq_refl) (Fe _ Rb2) Wz2) as (x2 & f2 & B2 & _).
  assert (Sd : sound difference (repeat 0 4)) by (split; [apply fine_made|]; split; [reflexivity|]; split; [reflexivity|]; split; [|reflexivity]; split; [reflexivity|repeat constructor]).
  exists b, x1, x2, f1, f2. eexists. cbv zeta. split; [exact S|]. split; [exact S2|]. split; [exact OF|]. split; [apply lit_ordered|]. split; [apply lit_resolved|]. split; [apply lit_regular|].
  split; [intros name c I; apply (Co _ S (lit_ordered true)); now right|]. split; [exists 2; split; [lra|]; right; split; [cbn; tauto|reflexivity]|]. split; [exact (Cc _ S (lit_ordered true))|].
  split; [intros name c [E|[E|[]]]; injection E as <- <-; cbn; tauto|]. split; [intros name c r [E|[]]; injection E as <- <- <-; cbn; tauto|].
  split; [exact B1|]. split; [exact B2|]. split; [apply dark_quiet|]. split; [apply dark_quiet|]. split; [apply fine_made|]. split; [apply difference_superposed|].
  exact (figure [] "f_B" difference _ Sd ltac:(cbn; tauto)).
Qed.
