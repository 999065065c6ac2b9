(** Vocabulary for C147 and C156. *)
From Coq Require Import String List Reals.
From Verif Require Import Base ModelArray ModelMath SpecMath ModelSurface ModelParams SpecField ModelQuantity ModelWrapper SpecWrapper ModelPackage SpecPackage
  SpecConvex SpecBest SpecProblem SpecSolver SpecCert.
Import ListNotations.
Open Scope R_scope.
Open Scope string_scope.
Open Scope list_scope.

(** The quantities that stay convex in the form with a slack variable.
    (f_max_K2 is not among them: it is built as if K2 could be negative, and the
    row that bounds -K2 is concave.) *)
Definition convex_slacks : list string := ["f_max_Bnormal"; "f_max_Bnormal2"; "f_max_Phi"; "f_max_Phi2"; "f_max_Phi4"; "f_l1_Phi"].
(** A convex problem all of whose terms and constraints are handed over as they
    are or through a convex slack form. *)
Definition convex_call (other : list string) (q : params) (os : list objective) (cs : list user_constraint) : Prop :=
  convex_objective other q (asked_terms os) /\ convex_constraints other q (asked_bounds cs) /\
  (forall t, In t os -> In (ob_name t) (convex_slacks ++ direct_quantities)) /\
  (forall c, In c cs -> In (uc_name c) (convex_slacks ++ direct_quantities)).
(** The same with f_max_K2 allowed: the problem is convex in the design, but not
    every row of the problem handed to the solver is. *)
Definition nearly_convex_call (other : list string) (q : params) (os : list objective) (cs : list user_constraint) : Prop :=
  convex_objective other q (asked_terms os) /\ convex_constraints other q (asked_bounds cs) /\
  (forall t, In t os -> In (ob_name t) ("f_max_K2" :: convex_slacks ++ direct_quantities)) /\
  (forall c, In c cs -> In (uc_name c) ("f_max_K2" :: convex_slacks ++ direct_quantities)).
(** From [x], no straight way to another point with [n] coordinates descends
    faster than [eta] per unit length. *)
Definition level (n : nat) (eta : R) (F : list R -> R) (x : list R) : Prop :=
  forall z, length z = n -> forall eps, 0 < eps -> exists t0, 0 < t0 /\
    forall t, 0 < t < t0 -> F x <= F (between x z t) + t * (eta * normR (map2 Rminus z x) + eps).
(** Row [i] of [g], a function of [n] unknowns, is convex. *)
Definition convex_row (n : nat) (g : list R -> list R) (i : nat) : Prop :=
  forall z1 z2 t, length z1 = n -> length z2 = n -> 0 <= t <= 1 ->
    nth i (g (lincomb t (1 - t) z1 z2)) 0 <= t * nth i (g z1) 0 + (1 - t) * nth i (g z2) 0.
