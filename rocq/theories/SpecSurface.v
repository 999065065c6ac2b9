(** Vocabulary for the statements about surfaces; independent of the helper
    functions of the model. *)
From Coq Require Import String List Bool Arith ZArith Reals Lra.
From Coquelicot Require Import Coquelicot.
From Verif Require Import Base ModelArray ModelMath SpecMath ModelSurface.
Import ListNotations.
Open Scope R_scope.

(** Evaluating the method [m] on the surface [s], re-sampled on any
    quadrature points, returns the values of the function [F] of the two
    angles. *)
Definition reports {A} (m : surface -> result (grid A)) (s : surface) (F : R -> R -> A) : Prop :=
  forall ps ts, ps <> [] -> ts <> [] ->
  exists s', copy_and_set_quadpoints s (arr1 ps) (arr1 ts) = Ok s' /\
    m s' = Ok (map (fun p => map (fun t => F p t) ts) ps).

(** Number of modes (m,n) with m = 0, 0 <= n <= ntor or 1 <= m <= mpol,
    |n| <= ntor. *)
Definition n_modes (mpol ntor : nat) : nat := 1 + ntor + mpol * (2 * ntor + 1).
Definition legal_length (stellsym : bool) (mpol ntor : nat) : nat :=
  if stellsym then (2 * n_modes mpol ntor - 1)%nat else (2 * (2 * n_modes mpol ntor - 1))%nat.
(** A surface with the number of coefficients its resolution asks for. *)
Definition legal (s : surface) : Prop :=
  length (s_dofs s) = legal_length (s_stellsym s) (s_mpol s) (s_ntor s).

(** The mode (m,n) belongs to the resolution (mpol, ntor). *)
Definition is_mode (mpol ntor : nat) (mn : Z * Z) : Prop :=
  let '(m, n) := mn in
  (m = 0 /\ 0 <= n <= Z.of_nat ntor)%Z \/
  (1 <= m <= Z.of_nat mpol /\ - Z.of_nat ntor <= n <= Z.of_nat ntor)%Z.
(** The list [l] contains exactly the elements satisfying [P], each once. *)
Definition once_each {A} (P : A -> Prop) (l : list A) : Prop :=
  NoDup l /\ forall x, In x l <-> P x.

(** Fourier series over a list of modes, coefficients in the same order. *)
Definition series (f : R -> R) (nfp : nat) (modes : list (Z * Z)) (coefs : list R) (phi theta : R) : R :=
  Rsum (map (fun cm => fst cm *
     f (2 * PI * (IZR (fst (snd cm)) * theta - IZR (snd (snd cm)) * INR nfp * phi)))
     (combine coefs modes)).
(** The point with cylindrical coordinates (r, 2 pi phi, z). *)
Definition cyl_point (phi r z : R) : vec3 := V3 (r * cos (2 * PI * phi)) (r * sin (2 * PI * phi)) z.
(** Rotation about the z axis. *)
Definition rotz (a : R) (v : vec3) : vec3 :=
  V3 (cos a * vx v - sin a * vy v) (sin a * vx v + cos a * vy v) (vz v).
(** Componentwise derivative. *)
Definition derives (f : R -> vec3) (t : R) (d : vec3) : Prop :=
  is_derive (fun x => vx (f x)) t (vx d) /\ is_derive (fun x => vy (f x)) t (vy d) /\
  is_derive (fun x => vz (f x)) t (vz d).
(** [n] equispaced angles with spacing [h] starting at [x0]. *)
Definition equispaced (x0 h : R) (n : nat) : list R := map (fun i => x0 + INR i * h) (seq 0 n).
(** The values of [F] at the quadrature points. *)
Definition sample {A} (F : R -> R -> A) (ps ts : list R) : grid A :=
  map (fun p => map (fun t => F p t) ts) ps.
(** The first and second result of a method that returns a pair of arrays. *)
Definition first_of {A B} (m : surface -> result (A * B)) (s : surface) : result A :=
  bind (m s) (fun p => Ok (fst p)).
Definition second_of {A B} (m : surface -> result (A * B)) (s : surface) : result B :=
  bind (m s) (fun p => Ok (snd p)).
