(** Vocabulary for C143. *)
From Coq Require Import String List Bool Arith Reals.
From Verif Require Import Base ModelArray ModelMath SpecMath ModelSurface SpecSurface ModelParams ModelField SpecField SpecMirror.
Import ListNotations.
Open Scope R_scope.

(** A point turned by [a] turns about the axis and lifted by [h]. *)
Definition lifted (a h : R) (P : vec3) : vec3 := add3 (rotz (2 * PI * a) P) (V3 0 0 h).
(** [s'] is [s] turned by [a] turns, lifted by [h] and with the poloidal angle
    counted from elsewhere; its points are the points of [s]. *)
Definition moved_surface (a b h : R) (s s' : surface) : Prop :=
  s_nfp s' = s_nfp s /\ s_qphi s' = map (fun p => p + a) (s_qphi s) /\ s_qtheta s' = map (fun t => t + b) (s_qtheta s) /\
  exists F F', reports gamma s F /\ reports gamma s' F' /\ forall p t, F' (p + a) (t + b) = lifted a h (F p t).
(** The whole machine moved. *)
Definition moved_device (a b h : R) (q q' : params) : Prop :=
  moved_surface a b h (q_plasma q) (q_plasma q') /\ moved_surface a b h (q_winding q) (q_winding q') /\
  q_qphi q' = map (fun p => p + a) (q_qphi q) /\ q_qtheta q' = map (fun t => t + b) (q_qtheta q) /\
  q_G q' = q_G q /\ q_I q' = q_I q /\ q_Bnormal q' = q_Bnormal q.
(** The current potential moved along. *)
Definition moved_potential (a b : R) (q : params) (x : list R) (q' : params) (x' : list R) : Prop :=
  exists F, qreports (fun q => Phi q x) q F /\ qreports (fun q => Phi q x') q' (fun p t => F (p - a) (t - b)).
(** The same harmonics; with sine terms alone the angles must not move. *)
Definition same_unknowns (a b : R) (q q' : params) : Prop :=
  q_mpol q' = q_mpol q /\ q_ntor q' = q_ntor q /\ q_stellsym q' = q_stellsym q /\ (q_stellsym q = true -> a = 0 /\ b = 0).
(** The figures of merit and bounds for which this is stated. *)
Definition origin_names : list string := (even_names ++ odd_names ++ ["f_B_normalized_by_Bnormal_IG"%string])%list.
