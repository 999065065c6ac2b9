(** Vocabulary for the bounds that hold for every design (C139, C140). *)
From Coq Require Import List Reals.
From Verif Require Import Base SpecMath.
Import ListNotations.
Open Scope R_scope.

(** The mean of a function over a list of points. *)
Definition mean {A} (f : A -> R) (l : list A) : R := Rsum (map f l) / INR (length l).
