(** Vocabulary for C146. *)
From Coq Require Import String List Bool Arith Reals Permutation.
From Verif Require Import Base ModelArray ModelParams ModelQuantity ModelWrapper SpecWrapper.
Import ListNotations.
Open Scope R_scope.
Open Scope string_scope.
Open Scope list_scope.

(** The terms of an objective with their weights, and the bounds. *)
Definition problem : Type := (list (string * R) * list (string * cmp * R))%type.
(** The figures that are the largest modulus of a field. *)
Definition peaks : list (string * string) := [("f_max_Bnormal", "Bnormal"); ("f_max_Phi", "Phi"); ("f_max_K_dot_grad_K_cyl", "K_dot_grad_K_cyl")].
(** Figures that are single numbers. *)
Definition single_figures : list string :=
  ["f_max_K2"; "f_max_K_dot_grad_K_cyl"; "f_max_Bnormal"; "f_max_Bnormal2"; "f_max_Phi"; "f_max_Phi2"; "f_max_Phi4"; "f_K"; "f_B"; "f_Phi"; "f_l1_Phi"; "f_huber_K"; "f_B_normalized_by_Bnormal_IG"].
(** Two ways of writing the same problem. *)
Inductive rephrased : problem -> problem -> Prop :=
| ph_same : forall P, rephrased P P
| ph_back : forall P Q, rephrased P Q -> rephrased Q P
| ph_then : forall P Q S, rephrased P Q -> rephrased Q S -> rephrased P S
(** the terms and the constraints in another order; *)
| ph_order : forall os os' cs cs', Permutation os os' -> Permutation cs cs' -> rephrased (os, cs) (os', cs')
(** a term in two parts; a term without weight; *)
| ph_parts : forall n v w os cs, rephrased ((n, v + w) :: os, cs) ((n, v) :: (n, w) :: os, cs)
| ph_weightless : forall n os cs, In n single_figures -> rephrased ((n, 0) :: os, cs) (os, cs)
(** an equality as two inequalities; *)
| ph_equal : forall n b os cs, rephrased (os, (n, EQ, b) :: cs) (os, (n, LE, b) :: (n, GE, b) :: cs)
(** a bound and a looser one; *)
| ph_looser : forall n b b' os cs, b <= b' -> rephrased (os, (n, LE, b) :: (n, LE, b') :: cs) (os, (n, LE, b) :: cs)
| ph_lower : forall n b b' os cs, b' <= b -> rephrased (os, (n, GE, b) :: (n, GE, b') :: cs) (os, (n, GE, b) :: cs)
(** a bound on a largest value and the same bound at every point; *)
| ph_peak : forall f n b os cs, In (f, n) peaks -> rephrased (os, (f, LE, b) :: cs) (os, (n, LE, b) :: (n, GE, - b) :: cs)
| ph_density : forall b os cs, rephrased (os, ("f_max_K2", LE, b) :: cs) (os, ("K2", LE, b) :: cs)
(** and bounds on powers of the same field. *)
| ph_Bnormal2 : forall b os cs, 0 <= b -> rephrased (os, ("f_max_Bnormal2", LE, b ^ 2) :: cs) (os, ("f_max_Bnormal", LE, b) :: cs)
| ph_Phi2 : forall b os cs, 0 <= b -> rephrased (os, ("f_max_Phi2", LE, b ^ 2) :: cs) (os, ("f_max_Phi", LE, b) :: cs)
| ph_Phi4 : forall b os cs, 0 <= b -> rephrased (os, ("f_max_Phi4", LE, b ^ 4) :: cs) (os, ("f_max_Phi", LE, b) :: cs)
| ph_Bnormal_points : forall b os cs, 0 <= b -> rephrased (os, ("Bnormal2", LE, b ^ 2) :: cs) (os, ("f_max_Bnormal", LE, b) :: cs)
| ph_Phi_points : forall b os cs, 0 <= b -> rephrased (os, ("Phi2", LE, b ^ 2) :: cs) (os, ("f_max_Phi", LE, b) :: cs).
