(** Vocabulary for the statement about the accuracy of a design (C133). *)
From Coq Require Import List Reals.
From Coquelicot Require Import Coquelicot.
From Verif Require Import SpecSolver SpecField.
Import ListNotations.
Open Scope R_scope.

(** [g] is the gradient of [f] at [x]: as long as [x], it gives the slope in every direction. *)
Definition slope (f : list R -> R) (x g : list R) : Prop :=
  length g = length x /\ forall d, length d = length x -> is_derive (fun t => f (lincomb 1 t x d)) 0 (dotR g d).
