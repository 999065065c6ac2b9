(** Model of src/quadcoil/math_utils.py over the reals.  No proofs here. *)
From Coq Require Import String List Bool Arith ZArith Reals.
From Verif Require Import Base ModelArray.
Import ListNotations.
Open Scope R_scope.

(** math_utils.py 16-32, [sin_or_cos], one element: sine where mode is 1,
    cosine otherwise. *)
Definition sin_or_cos (x : R) (mode : Z) : R := if Z.eqb mode 1 then sin x else cos x.

(** math_utils.py 153-155, [max_lse], on the flattened array:
    eps * logsumexp(x/eps).  [jax.nn.logsumexp] subtracts the maximum before
    exponentiating; over the reals that is the formula below.  On an empty
    array JAX gives -inf; the value of this definition there is meaningless
    and every theorem asks for a non-empty list. *)
Definition max_lse (l : list R) (eps : R) : R :=
  eps * ln (fold_right Rplus 0 (map (fun x => exp (x / eps)) l)).

(** math_utils.py 157-161, [abs_lse], one element: x and -x are stacked along
    a new last axis, which [max_lse] then reduces. *)
Definition abs_lse1 (eps x : R) : R := max_lse [x; - x] eps.
(** math_utils.py 157-161, the whole array. *)
Definition abs_lse (l : list R) (eps : R) : list R := map (abs_lse1 eps) l.

(** math_utils.py 163-165, [linf_lse]. *)
Definition linf_lse (l : list R) (eps : R) : R := max_lse (abs_lse l eps) eps.

(** Three-vectors (the last axis of length 3 throughout math_utils.py 35-150). *)
Record vec3 : Type := V3 { vx : R; vy : R; vz : R }.
(** Dot product along the last axis (math_utils.py 102-106). *)
Definition dot3 (a b : vec3) : R := vx a * vx b + vy a * vy b + vz a * vz b.
(** [jnp.cross] (math_utils.py 142). *)
Definition cross3 (a b : vec3) : vec3 :=
  V3 (vy a * vz b - vz a * vy b) (vz a * vx b - vx a * vz b) (vx a * vy b - vy a * vx b).
(** [jnp.linalg.norm] of a three-vector (math_utils.py 57, 136). *)
Definition norm3 (a : vec3) : R := sqrt (vx a * vx a + vy a * vy a + vz a * vz a).
(** Elementwise sum of three-vectors (surfacerzfourier_jax.py 304-313). *)
Definition add3 (a b : vec3) : vec3 := V3 (vx a + vx b) (vy a + vy b) (vz a + vz b).
(** Elementwise difference of three-vectors (magnetic_field.py 25). *)
Definition sub3 (a b : vec3) : vec3 := V3 (vx a - vx b) (vy a - vy b) (vz a - vz b).
(** A number times a three-vector (surfacerzfourier_jax.py 240-242). *)
Definition scale3 (c : R) (a : vec3) : vec3 := V3 (c * vx a) (c * vy a) (c * vz a).
(** The zero vector, the value of an empty sum (magnetic_field.py 31). *)
Definition zero3 : vec3 := V3 0 0 0.

(** math_utils.py 35-59, [norm_helper], at one grid point: the length of a
    vector and its reciprocal. *)
Definition norm_helper (v : vec3) : R * R := (norm3 v, / norm3 v).

(** math_utils.py 62-107, [project_arr_coord], at one grid point and one
    trailing index: the three dot products, stacked. *)
Definition project_arr_coord (op u1 u2 u3 : vec3) : vec3 :=
  V3 (dot3 u1 op) (dot3 u2 op) (dot3 u3 op).

(** math_utils.py 132-136: r_unit.  The x and y components are divided by the
    norm of all three components of gamma (line 136); the z component is 0. *)
Definition r_unit (gamma : vec3) : vec3 :=
  V3 (vx gamma / norm3 gamma) (vy gamma / norm3 gamma) 0.
(** math_utils.py 138-140. *)
Definition z_unit : vec3 := V3 0 0 1.
(** math_utils.py 110-150, [project_arr_cylindrical], at one grid point and
    one trailing index. *)
Definition project_arr_cylindrical (gamma op : vec3) : vec3 :=
  let r := r_unit gamma in
  project_arr_coord op r (cross3 z_unit r) z_unit.

(** IEEE values as far as [jnp.nan_to_num] distinguishes them (math_utils.py 183, 189). *)
Inductive ext : Type := Fin (x : R) | NaN | PInf | NInf.
(** [jnp.nan_to_num(x, nan=0.0, posinf=0.0, neginf=0.0)] (math_utils.py 183, 189). *)
Definition nan_to_num (x : ext) : R := match x with Fin r => r | _ => 0 end.

(** Matrices as lists of rows
    (the operators and Hessians of quadcoil_params.py and quadcoil.py 846-996, and A in math_utils.py 168-194). *)
Definition matrix := list (list R).
(** [a @ b] for one-dimensional arrays (dipole.py 23). *)
Definition ldot (a b : list R) : R := fold_right Rplus 0 (map2 Rmult a b).
(** [A @ x] (quadcoil.py 992-993). *)
Definition matvec (A : matrix) (x : list R) : list R := map (fun row => ldot row x) A.
(** Column [j] of a matrix (for [A.T], math_utils.py 186). *)
Definition col (A : matrix) (j : nat) : list R := map (fun row => nth j row 0) A.
(** [A.T] of a square matrix of size [n] (math_utils.py 186). *)
Definition transpose (n : nat) (A : matrix) : matrix := map (col A) (seq 0 n).
(** [jnp.outer(v, x)] (math_utils.py 192). *)
Definition outer (v x : list R) : matrix := map (fun a => map (fun b => a * b) x) v.

(** math_utils.py 180-194, [safe_linear_solve_bwd].  [solve] stands for
    lineax.linear_solve with AutoLinearSolver(well_posed=False); its entries
    may be non-finite.  Returns (dA, db). *)
Definition safe_linear_solve_bwd (solve : matrix -> list R -> list ext)
    (A : matrix) (x : list R) (g : list ext) : matrix * list R :=
  let g := map nan_to_num g in
  let v := map nan_to_num (solve (transpose (length g) A) g) in
  (map (map Ropp) (outer v x), v).
