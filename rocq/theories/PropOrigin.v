(** Property C143: results do not depend on where angles and heights are counted from. *)
From Coq Require Import String List Bool Arith ZArith Reals Lra Lia.
From Verif Require Import Base ModelArray ModelMath SpecMath ModelSurface SpecSurface ModelParams ModelField SpecField ProofField ProofField3
  ModelQuantity ModelWrapper SpecWrapper ModelPackage SpecPackage ProofPackage4 SpecConvex ProofConvex PropConvex
  SpecBest ProofBest PropBest PropAttained SpecMirror ProofNfp2 SpecOrigin ProofOrigin ProofOrigin2.
Import ListNotations.
Open Scope R_scope.
Open Scope string_scope.
Open Scope list_scope.

(** ** C143 *)
Lemma origin_comparable name : In name origin_names -> comparable name.
Proof. unfold origin_names, comparable. rewrite !in_app_iff. intros [H|[H|[<-|[]]]]; tauto. Qed.

(** The scalar quantities read the same numbers, in the same order. *)
Theorem C143_figures_do_not_depend_on_the_origin :
  forall other a b h q q' x x' name v, sound q x -> sound q' x' -> moved_device a b h q q' -> moved_potential a b q x q' x' -> In name origin_names ->
  (reads other name q x v <-> reads other name q' x' v).
Proof. intros other a b h q q' x x' name v S S' D P I. apply (origin_both other a b h); auto. now apply origin_comparable. Qed.
Print Assumptions C143_figures_do_not_depend_on_the_origin.

(** The vectors turn with the machine. *)
Theorem C143_vectors_turn_with_the_machine :
  forall other a b h q q' x x' name, sound q x -> sound q' x' -> moved_device a b h q q' -> moved_potential a b q x q' x' -> In name ["K"; "winding_surface_B"] ->
  exists g, reads other name q x (of_grid3 g) /\ reads other name q' x' (of_grid3 (map (map (rotz (2 * PI * a))) g)).
Proof.
  intros other a b h q q' x x' name S S' D P I.
  assert (E : forall p t, phi_of q' x' (p + a) (t + b) = phi_of q x p t) by (apply potential_phi; auto; [apply S|apply S'|apply S|apply S']).
  destruct (mv_vectors other a b h q q' x x' S S' D E) as (A & B). destruct I as [<-|[<-|[]]]; assumption.
Qed.
Print Assumptions C143_vectors_turn_with_the_machine.

(** The best designs are moved along, with the same objective; a mere lift leaves
    the unknowns as they are. *)
Theorem C143_best_designs_move_along :
  forall other a b h q q' z z' os cs x fx, sound q z -> sound q' z' -> moved_device a b h q q' -> same_unknowns a b q q' ->
  (forall name w, In (name, w) os -> In name origin_names) -> (forall name c d, In (name, c, d) cs -> In name origin_names) ->
  best other q os cs x fx -> exists x', best other q' os cs x' fx /\ moved_potential a b q x q' x' /\ (a = 0 -> b = 0 -> x' = x).
Proof.
  intros other a b h q q' z z' os cs x fx S S' D U Co Cc. apply (origin_best other a b h q q' z z' os cs x fx S S' D U).
  - intros name w I. now apply origin_comparable, (Co name w).
  - intros name c d I. now apply origin_comparable, (Cc name c d).
Qed.
Print Assumptions C143_best_designs_move_along.

(** Every machine can be moved within the surfaces of the package. *)
Theorem C143_machines_can_be_moved :
  forall a b h q x, sound q x -> exists q', sound q' x /\ moved_device a b h q q' /\ q_mpol q' = q_mpol q /\ q_ntor q' = q_ntor q /\ q_stellsym q' = q_stellsym q.
Proof. exact moved_exists. Qed.
Print Assumptions C143_machines_can_be_moved.

(** A machine of two periods with net currents and a required field, turned by a
    fifth of a turn, its poloidal angle counted from elsewhere, and lifted by 3. *)
Definition nine : list R := [1; 2; 3; 4; 5; 6; 7; 8; 9].
Definition penalised : list (string * R) := [("f_B", 1); ("f_Phi", 2)].
Example C143_example : exists q' x x' fx b, let cs := [("f_max_K2", LE, b)] in
  sound (lit false) nine /\ sound q' nine /\ moved_device (/ 5) (/ 7) 3 (lit false) q' /\ same_unknowns (/ 5) (/ 7) (lit false) q' /\
  (forall name w, In (name, w) penalised -> In name origin_names) /\ (forall name c d, In (name, c, d) cs -> In name origin_names) /\
  best [] (lit false) penalised cs x fx /\ best [] q' penalised cs x' fx /\ moved_potential (/ 5) (/ 7) (lit false) x q' x'.
Proof.
  pose proof (lit_sound false nine eq_refl) as S. destruct (moved_exists (/ 5) (/ 7) 3 (lit false) nine S) as (q' & S' & D & E1 & E2 & E3).
  assert (U : same_unknowns (/ 5) (/ 7) (lit false) q') by (repeat (split; [assumption|]); discriminate).
  destruct (largest_value [] (lit false) nine S "f_max_K2" "K2" (fun v => v) ltac:(cbn; tauto)) as (b & v & Rb & _).
  set (cs := [("f_max_K2", LE, b)]).
  assert (No : forall name w, In (name, w) penalised -> In name origin_names) by (intros name w [E|[E|[]]]; injection E as <- <-; cbn; tauto).
  assert (Nc : forall name c d, In (name, c, d) cs -> In name origin_names) by (intros name c d [E|[]]; injection E as <- <- <-; cbn; tauto).
  assert (Cv : forall name, In name ["f_B"; "f_Phi"; "f_max_K2"] -> convex_quantity [] name (lit false)).
  { intros name I. apply (C111_convex_quantities [] (lit false) _ S (lit_ordered false)). cbn in *. tauto. }
  assert (Co : convex_objective [] (lit false) penalised).
  { intros name c I. split; [|apply Cv]; cbn in *; destruct I as [E|[E|[]]]; injection E as <- <-; try lra; tauto. }
  assert (Cc : convex_constraints [] (lit false) cs) by (intros name c r [E|[]]; injection E as <- <- <-; apply Cv; cbn; tauto).
  assert (Fe : SpecConvex.feasible [] (lit false) cs nine) by (intros name c r [E|[]]; injection E as <- <- <-; exists (scal b); split; [exact Rb|]; intros y [<-|[]]; lra).
  assert (We : exists fz, weighted [] (lit false) penalised nine fz).
  { eexists. eexists [_; _]. split; [|reflexivity]. constructor; [exact (figure [] "f_B" (lit false) _ S ltac:(cbn; tauto))|]. constructor; [exact (figure [] "f_Phi" (lit false) _ S ltac:(cbn; tauto))|constructor]. }
  destruct We as (fz & Wz).
  assert (Rr : regularised (lit false) penalised) by (exists 2; split; [lra|]; left; cbn; tauto).
  destruct (C126_one_best_design [] (lit false) _ cs _ _ S (lit_ordered false) (lit_resolved false) (lit_regular false) Co Cc Rr Fe Wz) as (x & fx & B & _).
  destruct (C143_best_designs_move_along [] (/ 5) (/ 7) 3 (lit false) q' nine nine penalised cs x fx S S' D U No Nc B) as (x' & B' & P & _).
  exists q', x, x', fx, b. cbv zeta. fold cs. tauto.
Qed.
