(** Vocabulary for C145. *)
From Coq Require Import String List Bool Arith ZArith Reals Permutation.
From Verif Require Import Base ModelArray ModelMath SpecMath ModelSurface SpecSurface ModelParams ModelField SpecField SpecMirror SpecOrigin.
Import ListNotations.
Open Scope R_scope.

(** Reflection in the plane of the machine. *)
Definition flipz (P : vec3) : vec3 := V3 (vx P) (vy P) (- vz P).
(** The distance between the first two points of a grid of angles. *)
Definition spacing (ts : list R) : R := match ts with a :: b :: _ => b - a | _ => 0 end.
(** The poloidal angles of [ts'] are the opposite of those of [ts], up to whole
    turns and order; the spacing is the same. *)
Definition mirrored_angles (ts ts' : list R) : Prop :=
  spacing ts' = spacing ts /\ exists l, Permutation l ts' /\ List.Forall2 (fun t t' => exists k, t' = IZR k - t) ts l.
(** [s'] is the mirror image of [s], with the poloidal angle counted the other way so
    that it runs around the image as it ran around [s]. *)
Definition mirrored_surface (s s' : surface) : Prop :=
  s_nfp s' = s_nfp s /\ s_qphi s' = s_qphi s /\ mirrored_angles (s_qtheta s) (s_qtheta s') /\
  exists F F', reports gamma s F /\ reports gamma s' F' /\ forall p t, F' p t = flipz (F p (- t)).
(** The mirror image of the whole machine: the net poloidal current is the same and the
    net toroidal current opposite; the required normal field is mirrored along. *)
Definition mirrored_device (q q' : params) : Prop :=
  mirrored_surface (q_plasma q) (q_plasma q') /\ mirrored_surface (q_winding q) (q_winding q') /\
  q_qphi q' = q_qphi q /\ mirrored_angles (q_qtheta q) (q_qtheta q') /\ q_G q' = q_G q /\ q_I q' = - q_I q /\
  exists b, (forall p t, b p (t + 1) = b p t) /\ q_Bnormal q = sample b (s_qphi (q_plasma q)) (s_qtheta (q_plasma q)) /\
    q_Bnormal q' = sample (fun p t => b p (- t)) (s_qphi (q_plasma q')) (s_qtheta (q_plasma q')).
(** The current potential mirrored along. *)
Definition mirrored_potential (q : params) (x : list R) (q' : params) (x' : list R) : Prop :=
  exists F, qreports (fun q => Phi q x) q F /\ qreports (fun q => Phi q x') q' (fun p t => F p (- t)).
(** The same set of harmonics. *)
Definition same_harmonics (q q' : params) : Prop := q_mpol q' = q_mpol q /\ q_ntor q' = q_ntor q /\ q_stellsym q' = q_stellsym q.
