(** Vocabulary for what the constrained solver guarantees about its answer
    (C118, C119 and the positive part of C43). *)
From Coq Require Import List Reals.
From Coquelicot Require Import Coquelicot.
From Verif Require Import Base ModelSolver SpecSolver.
Import ListNotations.
Open Scope R_scope.

(** Sum of squares. *)
Definition squares (l : list R) : R := sumR (map (fun a => a * a) l).

(** The augmented Lagrangian of the textbooks (Bertsekas, Constrained
    Optimization and Lagrange Multiplier Methods, section 3.1): minimise [f]
    subject to [g <= 0] and [h = 0], penalty weight [c], multipliers [lam] of
    the equalities and [mu] of the inequalities. *)
Definition augmented (f : list R -> R) (g h : list R -> list R) (c : R) (lam mu x : list R) : R :=
  f x + sumR (map2 (fun l v => l * v + c / 2 * (v * v)) lam (h x))
      + sumR (map2 (fun m v => (Rmax 0 (m + c * v) * Rmax 0 (m + c * v) - m * m) / (2 * c)) mu (g x)).

(** [y] satisfies all the constraints. *)
Definition admissible {fin} (P : problem (R_num fin)) (y : list R) : Prop :=
  List.Forall (fun v => v <= 0) (p_g _ P y) /\ List.Forall (fun v => v = 0) (p_h _ P y).

(** Every point with [n] coordinates has [ng] inequality and [nh] equality
    values. *)
Definition sized {fin} (P : problem (R_num fin)) (n ng nh : nat) : Prop :=
  forall x : list R, length x = n ->
    length (p_g _ P x : list R) = ng /\ length (p_h _ P x : list R) = nh.

(** The updates of the optimiser have the shape of the unknown. *)
Definition shaped {fin} (o : optimiser (R_num fin)) : Prop :=
  forall f g s (x : list R) v, length (fst (o_update _ o f g s x v) : list R) = length x.

(** No update makes the objective larger (what an Armijo line search ensures). *)
Definition descending {fin} (o : optimiser (R_num fin)) : Prop :=
  forall (f : list R -> R) g s (x : list R) v,
    f (map2 Rplus x (fst (o_update _ o f g s x v))) <= f x.

(** [F] is an augmented Lagrangian of [P], as a function of the unknown divided
    by a positive number. *)
Definition subproblem {fin} (P : problem (R_num fin)) (n ng nh : nat) (F : list R -> R) : Prop :=
  exists c u lam mu, 0 < c /\ 0 < u /\ length lam = nh /\ length mu = ng /\
    List.Forall (fun m => 0 <= m) mu /\
    forall x : list R, length x = n ->
      F x = augmented (p_f _ P) (p_g _ P) (p_h _ P) c lam mu (map (fun a => a * u) x).

(** The inner optimiser solves these subproblems to within [eps]. *)
Definition reliable {fin} (o : optimiser (R_num fin)) ag (P : problem (R_num fin))
    (n ng nh : nat) (eps : R) : Prop :=
  forall F, subproblem P n ng nh F ->
  forall fuel (x0 : list R) fstop xstop gtol r, length x0 = n ->
    run_opt _ o ag fuel x0 F (p_maxiter_inner _ P) fstop xstop gtol = Some r ->
    forall y : list R, length y = n -> F (r_x _ r) <= F y + eps.

(** The inner optimiser ends where no direction has a slope below [-eta]. *)
Definition stationary {fin} (o : optimiser (R_num fin)) ag (P : problem (R_num fin))
    (n ng nh : nat) (eta : R) : Prop :=
  forall F, subproblem P n ng nh F ->
  forall fuel (x0 : list R) fstop xstop gtol r, length x0 = n ->
    run_opt _ o ag fuel x0 F (p_maxiter_inner _ P) fstop xstop gtol = Some r ->
    forall (v : list R) s, length v = n ->
      is_derive (fun t => F (map2 (fun a b => a + t * b) (r_x _ r) v)) 0 s ->
      - (eta * normR v) <= s.

(** The point a fraction [t] of the way from [x] to [y]. *)
Definition between (x y : list R) (t : R) : list R := map2 (fun a b => a + t * (b - a)) x y.

(** [phi] has a slope at 0 and lies above its tangent at 1. *)
Definition above_tangent (phi : R -> R) : Prop :=
  exists s, is_derive phi 0 s /\ phi 0 + s <= phi 1.

(** Seen from [x], the objective and the inequality constraints lie above their
    tangents at [y], and the equality constraints are on their tangents.  True
    for every pair of points when objective and inequalities are convex and the
    equalities affine. *)
Definition convex_from {fin} (P : problem (R_num fin)) (x y : list R) : Prop :=
  above_tangent (fun t => p_f _ P (between x y t)) /\
  (forall i, above_tangent (fun t => nth i (p_g _ P (between x y t)) 0)) /\
  (forall i, above_tangent (fun t => nth i (p_h _ P (between x y t)) 0) /\
             above_tangent (fun t => - nth i (p_h _ P (between x y t)) 0)).
