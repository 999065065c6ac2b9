(** Vocabulary for the statements about math_utils and quantities; independent
    of the model definitions except for the data types. *)
From Coq Require Import String List Bool Arith ZArith Reals Lra.
From Verif Require Import Base ModelArray ModelMath.
Import ListNotations.
Open Scope R_scope.

(** [M] is the largest element of [l]. *)
Definition is_max (M : R) (l : list R) : Prop :=
  In M l /\ forall y, In y l -> y <= M.

(** Sum of a list of reals. *)
Definition Rsum (l : list R) : R := fold_right Rplus 0 l.

(** Pairing of two matrices, and of two vectors, by position. *)
Definition pair_vec (a b : list R) : R := Rsum (map (fun p => fst p * snd p) (combine a b)).
Definition pair_mat (A B : list (list R)) : R :=
  Rsum (map (fun p => pair_vec (fst p) (snd p)) (combine A B)).
(** An [n] by [n] matrix. *)
Definition square (n : nat) (A : list (list R)) : Prop :=
  length A = n /\ List.Forall (fun row => length row = n) A.
(** Entry (i, j). *)
Definition entry (A : list (list R)) (i j : nat) : R := nth j (nth i A []) 0.
(** [y] solves the linear system with matrix [M]. *)
Definition solves (n : nat) (M : nat -> nat -> R) (y rhs : list R) : Prop :=
  length y = n /\ forall i, (i < n)%nat ->
    Rsum (map (fun j => M i j * nth j y 0) (seq 0 n)) = nth i rhs 0.

(** What an entry of a cotangent counts for: non-finite entries count for nothing. *)
Definition counts (e : ext) : R := match e with Fin r => r | NaN => 0 | PInf => 0 | NInf => 0 end.

(** [v] tends to [L] as the positive parameter tends to 0; a raised exception
    does not count as a value. *)
Definition tends_to_0plus (v : R -> result R) (L : R) : Prop :=
  forall e, 0 < e -> exists d, 0 < d /\
    forall eps, 0 < eps < d -> exists x, v eps = Ok x /\ Rabs (x - L) < e.
