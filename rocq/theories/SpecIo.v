(** Vocabulary for the statements about the exchange with other codes, coil
    cutting, plotting and the differentiable wrapper. *)
From Coq Require Import String List Bool Arith ZArith Reals.
From Verif Require Import Base ModelArray ModelMath SpecMath ModelSurface SpecSurface ModelSimsopt ModelCut.
Import ListNotations.
Open Scope R_scope.

(** The surface a FOCUS boundary file describes: the Fourier series over its
    lines, with the number of field periods of the header. *)
Definition focus_surface (f : focus_file) (phi theta : R) : vec3 :=
  let angle l := 2 * PI * (IZR (fl_m l) * theta - IZR (fl_n l) * INR (ff_nfp f) * phi) in
  cyl_point phi
    (Rsum (map (fun l => fl_Rbc l * cos (angle l) + fl_Rbs l * sin (angle l)) (ff_body f)))
    (Rsum (map (fun l => fl_Zbc l * cos (angle l) + fl_Zbs l * sin (angle l)) (ff_body f))).

(** The trigonometric polynomial with coefficients c0, s1, c1, s2, c2, ... (the
    layout of a simsopt curve) at the curve parameter [t]. *)
Definition trig_poly (a : list R) (t : R) : R :=
  nth 0 a 0 + Rsum (map (fun k => nth (2 * k - 1) a 0 * sin (2 * PI * INR k * t) +
                                  nth (2 * k) a 0 * cos (2 * PI * INR k * t)) (seq 1 (length a / 2))).
(** Its values at [N] equispaced parameters. *)
Definition samples (N : nat) (f : R -> R) : list R := map (fun j => f (INR j / INR N)) (seq 0 N).
(** A curve at the parameter [t]. *)
Definition curve_point (c : curve) (t : R) : vec3 :=
  V3 (trig_poly (cv_x c) t) (trig_poly (cv_y c) t) (trig_poly (cv_z c) t).
(** The sum of the values with alternating signs. *)
Definition alternating (l : list R) : R := Rsum (map (fun i => (-1) ^ i * nth i l 0) (seq 0 (length l))).

(** The poloidal current of a set of coils: a mirrored coil runs in the
    opposite poloidal direction. *)
Definition poloidal_current (l : list coil) : R :=
  Rsum (map (fun c => if cl_flip c then - cl_current c else cl_current c) l).
(** The coils of one field period. *)
Definition in_period (k : nat) (l : list coil) : list coil := filter (fun c => Nat.eqb (cl_period c) k) l.
(** The current of the coils of a file, in all the periods the file declares. *)
Definition file_current (f : coils_file) : R :=
  INR (cf_periods f) * Rsum (map (fun fil => match fil with [] => 0 | pc :: _ => snd pc end) (cf_filaments f)).
