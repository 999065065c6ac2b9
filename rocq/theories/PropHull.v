(** Which corners of a contour the hull scan is sure to keep. *)
From Coq Require Import List Bool Arith Lia Reals Lra.
From Verif Require Import Base ModelWinding SpecWinding ProofHull WitnessWinding.
Import ListNotations.
Open Scope R_scope.

(** ** C82 *)
(** Missing from the property: a corner that is the leftmost of several lowest
    points (see [C82_hull_refuted]).  Every other corner is kept: one that has a
    lower point, one that has a point at its height on its left, or one that is
    the only lowest point. *)
Theorem C82_hull_partial :
  forall r z marks i, graham_scan r z = Ok marks -> extreme r z i ->
    (exists j, (j < length r)%nat /\ nth j z 0 < nth i z 0) \/
    (exists j, (j < length r)%nat /\ nth j z 0 = nth i z 0 /\ nth j r 0 < nth i r 0) \/
    (forall j, (j < length r)%nat -> j <> i -> nth i z 0 < nth j z 0) ->
    nth i marks false = true.
Proof. exact hull_corner. Qed.
Print Assumptions C82_hull_partial.
Example C82_example :
  (graham_scan [0; 1; 1; 0] [0; 0; 1; 1] = Ok [false; true; true; true] /\
   extreme [0; 1; 1; 0] [0; 0; 1; 1] 2 /\ nth 0 [0; 0; 1; 1] 0 < nth 2 [0; 0; 1; 1] 0) /\
  (extreme [0; 1; 1; 0] [0; 0; 1; 1] 1 /\ nth 0 [0; 0; 1; 1] 0 = nth 1 [0; 0; 1; 1] 0 /\ nth 0 [0; 1; 1; 0] 0 < nth 1 [0; 1; 1; 0] 0).
Proof.
  split; [split; [exact square_hull|split]|split].
  - split; [cbn; lia|]. exists 1, 1. intros [|[|[|[|j]]]] Hj Hn; cbn in *; try lia; lra.
  - cbn. lra.
  - split; [cbn; lia|]. exists 1, (-1). intros [|[|[|[|j]]]] Hj Hn; cbn in *; try lia; lra.
  - cbn. lra.
Qed.
