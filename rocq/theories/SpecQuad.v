(** Vocabulary for the statements about refined grids. *)
From Coq Require Import String List Bool Arith ZArith Reals Lra.
From Coquelicot Require Import Coquelicot.
From Verif Require Import Base ModelArray ModelMath SpecMath ModelSurface SpecSurface ModelParams ModelField SpecField
  ModelQuantity ModelWrapper ModelPackage SpecPackage.
Import ListNotations.
Open Scope R_scope.

(** The quantity [name] of the design [x] is the function [F] of the two angles,
    whatever evaluation points the parameter object is rebuilt with. *)
Definition shows (other : list string) (name : string) (q : params) (x : list R) (F : R -> R -> R) : Prop :=
  forall ps ts, ps <> [] -> ts <> [] ->
  exists q' v, on_points q ps ts = Ok q' /\ reads other name q' x v /\ el v = concat (sample F ps ts).
(** The integral over a whole poloidal turn and the toroidal angles from [p0] to [p0 + L]. *)
Definition integral (F : R -> R -> R) (p0 L t0 : R) : R := RInt (fun p => RInt (fun t => F p t) t0 (t0 + 1)) p0 (p0 + L).
(** [n] equispaced toroidal angles in one of [nfp] field periods, [m] equispaced
    poloidal angles in a whole turn. *)
Definition one_period (nfp : nat) (p0 : R) (n : nat) : list R := equispaced p0 (/ (INR nfp * INR n)) n.
Definition one_turn (t0 : R) (m : nat) : list R := equispaced t0 (/ INR m) m.
(** Rebuilding the parameter object with the plasma surface re-sampled and the
    plasma field [Bp] evaluated at the new points. *)
Definition on_plasma_field (q : params) (Bp : R -> R -> R) (ps ts : list R) : result params :=
  bind (copy_and_set_quadpoints (q_plasma q) (arr1 ps) (arr1 ts)) (fun plasma =>
  make_params plasma (q_winding q) (q_G q) (q_I q) (Some (sample Bp ps ts))
    (q_mpol q) (q_ntor q) (Some (arr1 (q_qphi q))) (Some (arr1 (q_qtheta q))) (Some (q_stellsym q))).
(** A function of the two angles that is continuous. *)
Definition continuous_field (F : R -> R -> R) : Prop := forall p t, continuity_2d_pt F p t.
(** Rebuilding the parameter object with the winding surface re-sampled on [n]
    toroidal and [m] poloidal equispaced angles, each a whole turn. *)
Definition rewound (q : params) (p0 t0 : R) (n m : nat) : result params :=
  bind (copy_and_set_quadpoints (q_winding q) (arr1 (one_turn p0 n)) (arr1 (one_turn t0 m))) (fun winding =>
  make_params (q_plasma q) winding (q_G q) (q_I q) (Some (q_Bnormal q))
    (q_mpol q) (q_ntor q) (Some (arr1 (q_qphi q))) (Some (arr1 (q_qtheta q))) (Some (q_stellsym q))).
(** The Biot-Savart field at [P] of the current density [Kf] on the surface with
    points [W] and normals [nf], in SI units: three surface integrals. *)
Definition biot_savart_integral (W nf Kf : R -> R -> vec3) (P : vec3) (p0 t0 : R) : vec3 :=
  let J p t := scale3 (norm3 (nf p t) / norm3 (sub3 P (W p t)) ^ 3) (cross3 (Kf p t) (sub3 P (W p t))) in
  scale3 (/ 10 ^ 7) (V3 (integral (fun p t => vx (J p t)) p0 1 t0) (integral (fun p t => vy (J p t)) p0 1 t0) (integral (fun p t => vz (J p t)) p0 1 t0)).
(** Two vectors within [e] of each other in every component. *)
Definition close3 (e : R) (u v : vec3) : Prop := Rabs (vx u - vx v) <= e /\ Rabs (vy u - vy v) <= e /\ Rabs (vz u - vz v) <= e.
