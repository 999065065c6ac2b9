(** Model of two helpers that no other code calls: _precondition_coordinate_by_matrix
    (quadcoil.py 1074-1085) and delta_normalized (solver.py 20-23).  No proofs here. *)
From Coq Require Import List Reals.
From Verif Require Import Base ModelArray ModelMath.
Import ListNotations.
Open Scope R_scope.

(** The singular values and the right factor that [jnp.linalg.svd] returns
    (quadcoil.py 1081); the left factor is dropped there. *)
Record svd_out : Type := { sv : list R; basis : matrix }.
(** quadcoil.py 1082 *)
Definition scale (o : svd_out) : list R := map sqrt (sv o).
(** quadcoil.py 1083 *)
Definition x_to_xp (o : svd_out) (x : list R) : list R := map2 Rmult (matvec (basis o) x) (scale o).
(** quadcoil.py 1084; [n] is the size of the matrix.  A division by zero, which
    gives inf or nan in JAX, has no meaning here. *)
Definition xp_to_x (n : nat) (o : svd_out) (xp : list R) : list R := matvec (transpose n (basis o)) (map2 Rdiv xp (scale o)).
(** quadcoil.py 1074-1085, [_precondition_coordinate_by_matrix]; [svd] stands for [jnp.linalg.svd]. *)
Definition precondition (svd : matrix -> svd_out) (hess : matrix) : (list R -> list R) * (list R -> list R) :=
  let o := svd hess in (x_to_xp o, xp_to_x (length hess) o).

(** Floating-point division as far as zero divisors are concerned (solver.py 23). *)
Definition ext_div (a b : R) : ext :=
  if Req_EM_T b 0 then (if Req_EM_T a 0 then NaN else if Rlt_dec 0 a then PInf else NInf) else Fin (a / b).
(** solver.py 20-23, [delta_normalized], one element. *)
Definition delta_normalized1 (x1 x2 : R) : ext :=
  let diff := Rabs (x1 - x2) in
  let max := Rmax (Rabs x1) (Rabs x2) in
  if Rlt_dec 0 max then ext_div diff max else Fin max.
(** solver.py 20-23, arrays of the same shape. *)
Definition delta_normalized (x1 x2 : list R) : list ext := map2 delta_normalized1 x1 x2.
