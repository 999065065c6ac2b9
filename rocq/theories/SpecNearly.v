(** Vocabulary for C160 and C161: bounds that are met up to a tolerance. *)
From Coq Require Import String List Reals.
From Verif Require Import Base ModelArray ModelMath SpecMath ModelSurface ModelParams ModelWrapper SpecWrapper ModelPackage SpecPackage SpecProblem.
Import ListNotations.
Open Scope R_scope.

(** Every entry of [v] meets the bound [b] up to [tol]. *)
Definition meets_within (c : cmp) (b tol : R) (v : arr) : Prop :=
  forall y, In y (el v) -> match c with LE => y <= b + tol | GE => b - tol <= y | EQ => Rabs (y - b) <= tol end.
(** The largest values that are handed over through one slack variable. *)
Definition max_quantities : list string :=
  ["f_max_K2"; "f_max_K_dot_grad_K_cyl"; "f_max_Bnormal"; "f_max_Bnormal2"; "f_max_force_cyl"; "f_max_Phi"]%string.
(** [x] meets each of the constraints [cs] on a quantity without a slack
    variable up to [e] units of that constraint, and each on a largest value up
    to [2 e] units. *)
Definition nearly_feasible (other : list string) (q : params) (cs : list user_constraint) (e : R) (x : list R) : Prop :=
  forall c k, In c cs -> In (uc_name c) direct_quantities /\ k = 1 \/ In (uc_name c) max_quantities /\ k = 2 ->
    exists v, reads other (uc_name c) q x v /\ meets_within (uc_cmp c) (uc_val c) (k * e * Rabs (uc_unit c)) v.
(** The squared and fourth powers of largest values. *)
Definition power_quantities : list string := ["f_max_force2_cyl"; "f_max_Phi2"; "f_max_Phi4"]%string.
(** [x] meets each of the upper bounds [cs] on a power up to the margin that
    comes from [e] units on the slack variable and [e] units on its square. *)
Definition powers_nearly_bounded (other : list string) (q : params) (cs : list user_constraint) (e : R) (x : list R) : Prop :=
  forall c, In c cs -> In (uc_name c) power_quantities ->
    exists v u, reads other (uc_name c) q x (scal v) /\ u = Rabs (uc_unit c) /\ v <= u * (sqrt (uc_val c / u + e) + e) ^ 2.
(** The area of the grid on which the potential is summed, all field periods. *)
Definition summed_area (q : params) (A : R) : Prop := exists g, da (q_eval q) = Ok g /\ A = INR (q_nfp q) * Rsum (concat g).
(** [x] meets each of the upper bounds [cs] on the sum of the absolute
    potential up to [(1 + A) e] units, [A] the area. *)
Definition sums_nearly_bounded (other : list string) (q : params) (cs : list user_constraint) (e : R) (x : list R) : Prop :=
  forall c, In c cs -> uc_name c = "f_l1_Phi"%string ->
    exists v A, reads other "f_l1_Phi" q x (scal v) /\ summed_area q A /\ v <= uc_val c + (1 + A) * e * Rabs (uc_unit c).
