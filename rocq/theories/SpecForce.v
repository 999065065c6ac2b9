(** Vocabulary for the statements about the self-force; independent of the
    helper functions of the model. *)
From Coq Require Import String List Bool Arith ZArith Reals Lra.
From Verif Require Import Base ModelArray ModelMath ModelSurface SpecSurface ModelParams ModelForce.
Import ListNotations.
Open Scope R_scope.

(** Element (i, j) of an array. *)
Definition at2 {A} (d : A) (g : grid A) (i j : nat) : A := nth j (nth i g []) d.
(** The vector k_a T_ab. *)
Definition contract (k : vec3) (T : mat3) : vec3 :=
  V3 (vx k * vx (m_x T) + vy k * vx (m_y T) + vz k * vx (m_z T))
     (vx k * vy (m_x T) + vy k * vy (m_y T) + vz k * vy (m_z T))
     (vx k * vz (m_x T) + vy k * vz (m_y T) + vz k * vz (m_z T)).
(** Equality of points is decided by their coordinates. *)
Definition same_point (u v : vec3) : {u = v} + {u <> v}.
Proof.
  destruct u as [a b c], v as [a' b' c'].
  destruct (Req_EM_T a a') as [E|N]; [|right; congruence].
  destruct (Req_EM_T b b') as [E'|N]; [|right; congruence].
  destruct (Req_EM_T c c') as [E''|N]; [left; congruence|right; congruence].
Defined.
(** The contribution to the force at [y] of the element at [x] with unit normal
    [n] and area [a]: the single layer kernel a/|y-x| and the double layer
    kernel a (y-x).n/|y-x|^3 on the two tensors; nothing if the points
    coincide. *)
Definition pair_force (y k x n : vec3) (a : R) (S D : mat3) : vec3 :=
  if same_point x y then V3 0 0 0
  else let d := sub3 y x in
       add3 (scale3 (a / norm3 d) (contract k S)) (scale3 (a * dot3 d n / norm3 d ^ 3) (contract k D)).
(** The sum of a vector-valued function over 0, ..., n-1. *)
Fixpoint vsum_upto (n : nat) (f : nat -> vec3) : vec3 :=
  match n with O => V3 0 0 0 | S n => add3 (vsum_upto n f) (f n) end.
(** The sum over all elements of a surface given by arrays over the whole torus
    (positions, normals) and over one of its [nfp] periods (areas, tensors). *)
Definition direct_force (gx nx : grid vec3) (a : grid R) (S D : grid mat3) (nfp nphi ntheta : nat) (y k : vec3) : vec3 :=
  vsum_upto nfp (fun fp => vsum_upto nphi (fun p => vsum_upto ntheta (fun t =>
    pair_force y k (at2 zero3 gx (fp * nphi + p) t) (at2 zero3 nx (fp * nphi + p) t)
      (at2 0 a p t) (at2 mzero3 S p t) (at2 mzero3 D p t)))).
(** The components of a vector in the local cylindrical frame at [y]. *)
Definition frame_components (y v : vec3) : vec3 :=
  let r := sqrt (vx y * vx y + vy y * vy y) in
  V3 ((vx y * vx v + vy y * vy v) / r) ((vx y * vy v - vy y * vx v) / r) (vz v).
(** The same sum with tensors in Cartesian components, which turn with the
    field period. *)
Definition cartesian_force (gx nx : grid vec3) (a : grid R) (S D : grid mat3) (nfp nphi ntheta : nat) (y k : vec3) : vec3 :=
  vsum_upto nfp (fun fp => let w := 2 * PI * INR fp / INR nfp in
    rotz w (vsum_upto nphi (fun p => vsum_upto ntheta (fun t =>
      pair_force (rotz (- w) y) (rotz (- w) k)
        (rotz (- w) (at2 zero3 gx (fp * nphi + p) t)) (rotz (- w) (at2 zero3 nx (fp * nphi + p) t))
        (at2 0 a p t) (at2 mzero3 S p t) (at2 mzero3 D p t))))).
(** No two grid points coincide, seen through indices. *)
Definition distinct_nodes (n m : nat) (g : grid vec3) : Prop :=
  forall i j i' j', (i < n)%nat -> (j < m)%nat -> (i' < n)%nat -> (j' < m)%nat ->
    at2 zero3 g i j = at2 zero3 g i' j' -> i = i' /\ j = j'.
(** The evaluation points are those of the first field period of the winding
    surface, as they are by default. *)
Definition default_eval (q : params) : Prop :=
  q_qphi q = firstn (length (s_qphi (q_winding q)) / s_nfp (q_winding q)) (s_qphi (q_winding q)) /\
  q_qtheta q = s_qtheta (q_winding q).
(** The contribution of one pair of points as [pair_force], except that the
    caller says whether the pair is left out. *)
Definition pair_force_unless (skip : bool) (y k x n : vec3) (a : R) (S D : mat3) : vec3 :=
  if skip then V3 0 0 0
  else let d := sub3 y x in
       add3 (scale3 (a / norm3 d) (contract k S)) (scale3 (a * dot3 d n / norm3 d ^ 3) (contract k D)).
(** The sum over all pairs of the components the code works with: the current
    in the directions attached to the evaluation point, the tensors in those
    attached to the source point in the first period. *)
Definition pairwise_sum (gx nx : grid vec3) (a : grid R) (S D : grid mat3) (gy k : grid vec3) (nfp n m i j : nat) : vec3 :=
  vsum_upto nfp (fun fp => vsum_upto n (fun p => vsum_upto m (fun t =>
    pair_force (at2 zero3 gy i j) (project_arr_cylindrical (at2 zero3 gy i j) (at2 zero3 k i j))
      (at2 zero3 gx (fp * n + p) t) (at2 zero3 nx (fp * n + p) t) (at2 0 a p t)
      (project_both (at2 zero3 gx p t) (at2 mzero3 S p t)) (project_both (at2 zero3 gx p t) (at2 mzero3 D p t))))).
