(** Properties C20-C22: smooth maxima, cylindrical projection, linear solve. *)
From Coq Require Import String List Bool Arith ZArith Reals Lra Lia.
From Coquelicot Require Import Coquelicot.
From Verif Require Import Base ModelArray ModelMath SpecMath RDeriv ProofMath WitnessMath.
Import ListNotations.
Open Scope R_scope.

(** ** C20 *)
Theorem C20_smooth_max :
  forall (l : list R) (eps M : R), 0 < eps -> is_max M l ->
    M <= max_lse l eps <= M + eps * ln (INR (length l)).
Proof. exact max_lse_bounds. Qed.
Print Assumptions C20_smooth_max.

Theorem C20_smooth_abs :
  forall (x eps : R), 0 < eps -> Rabs x <= abs_lse1 eps x <= Rabs x + eps * ln 2.
Proof. exact abs_lse_bounds. Qed.
Print Assumptions C20_smooth_abs.

Theorem C20_smooth_linf :
  forall (l : list R) (eps M : R), 0 < eps -> is_max M (map Rabs l) ->
    M <= linf_lse l eps <= M + eps * ln (2 * INR (length l)).
Proof. exact linf_lse_bounds. Qed.
Print Assumptions C20_smooth_linf.

Example C20_example : 0 < 1/10 /\ is_max 2 [1; 2] /\ is_max 4 (map Rabs [3; -4]).
Proof. exact ex_c20. Qed.

(** ** C21 *)
(** The projection divides the radial direction by the norm of all three
    coordinates, so it shortens vectors away from the mid-plane. *)
Theorem C21_cylindrical_isometry_refuted :
  exists gamma v : vec3, (vx gamma <> 0 \/ vy gamma <> 0) /\
    norm3 (project_arr_cylindrical gamma v) <> norm3 v.
Proof. exact c21_witness. Qed.
Print Assumptions C21_cylindrical_isometry_refuted.

(** What holds: at points of the plane z = 0 it is an isometry.  Missing: all
    other points, where it is false. *)
Theorem C21_cylindrical_isometry_partial :
  forall gamma v : vec3, vz gamma = 0 -> (vx gamma <> 0 \/ vy gamma <> 0) ->
    norm3 (project_arr_cylindrical gamma v) = norm3 v.
Proof. exact proj_cyl_isometry. Qed.
Print Assumptions C21_cylindrical_isometry_partial.

(** The exact factor at every other point: horizontal parts shrink by
    R/sqrt(R^2+z^2). *)
Theorem C21_cylindrical_length_partial :
  forall gamma v : vec3, norm3 gamma <> 0 ->
  let q := project_arr_cylindrical gamma v in
  vx q * vx q + vy q * vy q + vz q * vz q
  = (vx gamma * vx gamma + vy gamma * vy gamma) / (norm3 gamma * norm3 gamma) *
    (vx v * vx v + vy v * vy v) + vz v * vz v.
Proof. exact proj_cyl_sq. Qed.
Print Assumptions C21_cylindrical_length_partial.

Example C21_example : vz (V3 3 4 0) = 0 /\ (vx (V3 3 4 0) <> 0 \/ vy (V3 3 4 0) <> 0) /\
  project_arr_cylindrical (V3 3 4 0) (V3 3 4 7) = V3 5 0 7 /\ norm3 (V3 3 4 0) <> 0.
Proof. exact ex_c21. Qed.

(** ** C22 *)
(** Along any differentiable family A(t) x(t) = b(t), the returned gradients
    pair with (A', b') as the finite part of the cotangent pairs with x'.  The
    linear solver is any function that solves the transposed system whenever
    it is solvable. *)
Theorem C22_linear_solve_adjoint :
  forall n (A : R -> matrix) (b x : R -> list R) (dA : matrix) (db dx : list R)
   (solve : matrix -> list R -> list ext) (g : list ext),
  (forall t, square n (A t)) -> (forall t, length (b t) = n) ->
  (forall t, solves n (entry (A t)) (x t) (b t)) ->
  square n dA -> length db = n -> length dx = n -> length g = n ->
  (forall i j, (i < n)%nat -> (j < n)%nat -> is_derive (fun t => entry (A t) i j) 0 (entry dA i j)) ->
  (forall i, (i < n)%nat -> is_derive (fun t => nth i (b t) 0) 0 (nth i db 0)) ->
  (forall i, (i < n)%nat -> is_derive (fun t => nth i (x t) 0) 0 (nth i dx 0)) ->
  (exists v, solves n (fun i j => entry (A 0) j i) v (map counts g)) ->
  (forall M rhs v, square n M -> solves n (entry M) v rhs ->
     exists w, solve M rhs = map Fin w /\ solves n (entry M) w rhs) ->
  let '(gA, gb) := safe_linear_solve_bwd solve (A 0) (x 0) g in
  pair_vec (map counts g) dx = pair_mat gA dA + pair_vec gb db.
Proof.
  intros n A b x dA db dx solve g. rewrite <- cleaned_counts. exact (adjoint_true n A b x dA db dx solve g).
Qed.
Print Assumptions C22_linear_solve_adjoint.

(** Non-finite cotangent entries act as zero. *)
Theorem C22_nonfinite_ignored :
  forall solve A x g,
  safe_linear_solve_bwd solve A x g
  = safe_linear_solve_bwd solve A x (map (fun e => Fin (counts e)) g).
Proof. exact bwd_finite_part. Qed.
Print Assumptions C22_nonfinite_ignored.

(** A 1x1 family: A(t) = [2+t], b(t) = [4+2t], x(t) = [2]; a solver that
    divides; the cotangent 6.  The theorem's hypotheses hold and the pairing is
    0 on both sides: gA = -6, gb = 3, dA = 1, db = 2. *)
Example C22_example :
  solves 1 (entry [[2]]) [2] [4] /\
  (exists v, solves 1 (fun i j => entry [[2]] j i) v (map counts [Fin 6])) /\
  safe_linear_solve_bwd div_solve [[2]] [2] [Fin 6] = ([[-6]], [3]) /\
  safe_linear_solve_bwd div_solve [[2]] [2] [NaN] = ([[0]], [0]).
Proof. exact ex_c22. Qed.
Example C22_example_family :
  (forall t, square 1 [[2 + t]]) /\
  (forall t, solves 1 (entry [[2 + t]]) [2] [4 + 2 * t]) /\
  (forall i j, (i < 1)%nat -> (j < 1)%nat -> is_derive (fun t => entry [[2 + t]] i j) 0 (entry [[1]] i j)) /\
  (forall i, (i < 1)%nat -> is_derive (fun t => nth i [4 + 2 * t] 0) 0 (nth i [2] 0)) /\
  (forall i, (i < 1)%nat -> is_derive (fun _ : R => nth i [2] 0) 0 (nth i [0] 0)) /\
  (forall M rhs v, square 1 M -> solves 1 (entry M) v rhs ->
     exists w, div_solve M rhs = map Fin w /\ solves 1 (entry M) w rhs).
Proof. exact ex_c22b. Qed.
