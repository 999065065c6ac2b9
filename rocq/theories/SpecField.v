(** Vocabulary for the statements about parameter objects, the current
    potential, the surface current and the field. *)
From Coq Require Import String List Bool Arith ZArith Reals Lra.
From Coquelicot Require Import Coquelicot.
From Verif Require Import Base ModelArray ModelMath SpecMath ModelSurface SpecSurface ModelParams ModelField.
Import ListNotations.
Open Scope R_scope.

(** Objects that come out of their constructor. *)
Definition built (s : surface) : Prop :=
  exists nfp st mpol ntor p t d, make_surface nfp st mpol ntor p t d = Ok s.
Definition made (q : params) : Prop :=
  built (q_plasma q) /\ built (q_winding q) /\
  exists plasma winding G I Bn mpol ntor p t st,
    make_params plasma winding G I Bn mpol ntor p t st = Ok q.

(** Rebuilding the parameter object with the same data on any evaluation
    points and evaluating [m] returns the values of the function [F] of the
    two angles. *)
Definition on_points (q : params) (ps ts : list R) : result params :=
  make_params (q_plasma q) (q_winding q) (q_G q) (q_I q) (Some (q_Bnormal q))
    (q_mpol q) (q_ntor q) (Some (arr1 ps)) (Some (arr1 ts)) (Some (q_stellsym q)).
Definition qreports {A} (m : params -> result (grid A)) (q : params) (F : R -> R -> A) : Prop :=
  forall ps ts, ps <> [] -> ts <> [] ->
  exists q', on_points q ps ts = Ok q' /\ m q' = Ok (sample F ps ts).

(** No vanishing normal on the surface's own grid. *)
Definition regular (s : surface) : Prop :=
  forall g v, normal s = Ok g -> In v (concat g) -> v <> zero3.
(** No point of the plasma grid on the winding grid, no vanishing normals. *)
Definition well_posed (q : params) : Prop :=
  regular (q_plasma q) /\ regular (q_winding q) /\ regular (q_eval q) /\
  forall gp gw v w, gamma (q_plasma q) = Ok gp -> gamma (q_winding q) = Ok gw ->
    In v (concat gp) -> In w (concat gw) -> v <> w.

(** [q] differs from [q'] at most in the net currents and the plasma field. *)
Definition same_geometry (q q' : params) : Prop :=
  q_plasma q = q_plasma q' /\ q_winding q = q_winding q' /\ q_eval q = q_eval q' /\
  q_qphi q = q_qphi q' /\ q_qtheta q = q_qtheta q' /\ q_stellsym q = q_stellsym q' /\
  q_mpol q = q_mpol q' /\ q_ntor q = q_ntor q' /\ q_ndofs q = q_ndofs q'.
(** Linear combinations of vectors and of grids. *)
Definition lincomb (a b : R) (x y : list R) : list R := map2 (fun u v => a * u + b * v) x y.
Definition glincomb (a b : R) (g h : grid R) : grid R := map2 (lincomb a b) g h.
Definition glincomb3 (a b : R) (g h : grid vec3) : grid vec3 :=
  gmap2 (fun u v => add3 (scale3 a u) (scale3 b v)) g h.
(** [q] has the net currents and plasma field a*(those of q1) + b*(those of q2). *)
Definition superposed (a b : R) (q1 q2 q : params) : Prop :=
  same_geometry q q1 /\ same_geometry q q2 /\
  q_G q = a * q_G q1 + b * q_G q2 /\ q_I q = a * q_I q1 + b * q_I q2 /\
  q_Bnormal q = glincomb a b (q_Bnormal q1) (q_Bnormal q2).

(** Quadrature angles whose first spacing is not negative. *)
Definition increasing (l : list R) : Prop := forall i j, (i <= j < length l)%nat -> nth i l 0 <= nth j l 0.

(** The plasma normal field has one entry per plasma grid point. *)
Definition plasma_shaped (q : params) : Prop :=
  length (q_Bnormal q) = length (s_qphi (q_plasma q)) /\
  List.Forall (fun row => length row = length (s_qtheta (q_plasma q))) (q_Bnormal q).
(** A function of [n] coefficients that never raises, is non-negative and convex. *)
Definition convex_on (n : nat) (f : list R -> result R) : Prop :=
  forall x y t, length x = n -> length y = n -> 0 <= t <= 1 ->
  exists fx fy fz, f x = Ok fx /\ f y = Ok fy /\ f (lincomb t (1 - t) x y) = Ok fz /\
    0 <= fx /\ fz <= t * fx + (1 - t) * fy.
(** [x] minimises [f] among the points closer than [e] in every coefficient,
    or among all. *)
Definition near (e : R) (x y : list R) : Prop := forall i, Rabs (nth i x 0 - nth i y 0) < e.
Definition local_min (n : nat) (f : list R -> result R) (x : list R) : Prop :=
  exists e, 0 < e /\ forall y fx fy, length y = n -> near e x y -> f x = Ok fx -> f y = Ok fy -> fx <= fy.
Definition global_min (n : nat) (f : list R -> result R) (x : list R) : Prop :=
  forall y fx fy, length y = n -> f x = Ok fx -> f y = Ok fy -> fx <= fy.
(** [q'] carries [c] times the net currents and plasma field of [q]. *)
Definition scaled (c : R) (q q' : params) : Prop :=
  same_geometry q' q /\ q_G q' = c * q_G q /\ q_I q' = c * q_I q /\
  q_Bnormal q' = map (map (Rmult c)) (q_Bnormal q).
(** Rebuilding the parameter object with the plasma surface re-sampled on any
    quadrature points. *)
Definition on_plasma (q : params) (ps ts : list R) : result params :=
  bind (copy_and_set_quadpoints (q_plasma q) (arr1 ps) (arr1 ts)) (fun plasma =>
  make_params plasma (q_winding q) (q_G q) (q_I q) None
    (q_mpol q) (q_ntor q) (Some (arr1 (q_qphi q))) (Some (arr1 (q_qtheta q))) (Some (q_stellsym q))).
Definition preports {A} (m : params -> result (grid A)) (q : params) (F : R -> R -> A) : Prop :=
  forall ps ts, ps <> [] -> ts <> [] ->
  exists q', on_plasma q ps ts = Ok q' /\ m q' = Ok (sample F ps ts).

(** The Biot-Savart sum at [P] of current elements [J] at [W], in SI units. *)
Definition biot_savart (elements : list (vec3 * vec3)) (P : vec3) : vec3 :=
  V3 (Rsum (map (fun e => / 10 ^ 7 * (vx (cross3 (snd e) (sub3 P (fst e))) / norm3 (sub3 P (fst e)) ^ 3)) elements))
     (Rsum (map (fun e => / 10 ^ 7 * (vy (cross3 (snd e) (sub3 P (fst e))) / norm3 (sub3 P (fst e)) ^ 3)) elements))
     (Rsum (map (fun e => / 10 ^ 7 * (vz (cross3 (snd e) (sub3 P (fst e))) / norm3 (sub3 P (fst e)) ^ 3)) elements)).
(** [q'] has the coil data of [q]: winding surface, net currents, harmonics. *)
Definition same_coil (q q' : params) : Prop :=
  q_winding q' = q_winding q /\ q_G q' = q_G q /\ q_I q' = q_I q /\
  q_stellsym q' = q_stellsym q /\ q_mpol q' = q_mpol q /\ q_ntor q' = q_ntor q.
(** A vector field has partial derivatives at [P] that add up to zero. *)
Definition divergence_free (F : vec3 -> vec3) (P : vec3) : Prop :=
  exists a b c, is_derive (fun y => vx (F (V3 y (vy P) (vz P)))) (vx P) a /\
    is_derive (fun y => vy (F (V3 (vx P) y (vz P)))) (vy P) b /\
    is_derive (fun y => vz (F (V3 (vx P) (vy P) y))) (vz P) c /\ a + b + c = 0.
(** The surface with every Fourier coefficient multiplied by [c]. *)
Definition resized (c : R) (s s' : surface) : Prop :=
  s_nfp s' = s_nfp s /\ s_stellsym s' = s_stellsym s /\ s_mpol s' = s_mpol s /\ s_ntor s' = s_ntor s /\
  s_qphi s' = s_qphi s /\ s_qtheta s' = s_qtheta s /\ s_dofs s' = map (Rmult c) (s_dofs s).
(** The same problem on surfaces [c] times as large, with the same currents and
    a plasma field divided by [c]. *)
Definition resized_problem (c : R) (q q' : params) : Prop :=
  resized c (q_plasma q) (q_plasma q') /\ resized c (q_winding q) (q_winding q') /\
  q_G q' = q_G q /\ q_I q' = q_I q /\ q_stellsym q' = q_stellsym q /\ q_mpol q' = q_mpol q /\ q_ntor q' = q_ntor q /\
  q_qphi q' = q_qphi q /\ q_qtheta q' = q_qtheta q /\
  q_Bnormal q' = map (map (Rmult (/ c))) (q_Bnormal q).
(** A whole turn of equispaced angles that is symmetric under negation: starting
    at a multiple of half the spacing (0 and half a cell are the usual ones). *)
Definition symmetric_turn (l : list R) : Prop :=
  exists k n, n <> 0%nat /\ l = equispaced (INR k / 2 * / INR n) (/ INR n) n.
(** Half-turn about the x axis. *)
Definition flip (v : vec3) : vec3 := V3 (vx v) (- vy v) (- vz v).
