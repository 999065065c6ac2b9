(** Vocabulary for the statements about problems that differ only in the
    resolution of the current potential. *)
From Coq Require Import String List Bool Arith ZArith Reals.
From Verif Require Import Base ModelArray ModelMath ModelSurface ModelParams ModelField SpecField.
Import ListNotations.
Open Scope R_scope.

(** The same plasma, winding surface, net currents, required field and
    evaluation points. *)
Definition same_device (q q' : params) : Prop :=
  q_plasma q' = q_plasma q /\ q_winding q' = q_winding q /\ q_G q' = q_G q /\ q_I q' = q_I q /\
  q_Bnormal q' = q_Bnormal q /\ q_qphi q' = q_qphi q /\ q_qtheta q' = q_qtheta q.
(** The same device with at least the harmonics of [q]. *)
Definition finer (q q' : params) : Prop :=
  same_device q q' /\ (q_mpol q <= q_mpol q')%nat /\ (q_ntor q <= q_ntor q')%nat /\
  (q_stellsym q' = true -> q_stellsym q = true).
(** The coefficients [x] of [q] and [x'] of [q'] describe the same current potential. *)
Definition same_potential (q : params) (x : list R) (q' : params) (x' : list R) : Prop :=
  exists F, qreports (fun q => Phi q x) q F /\ qreports (fun q => Phi q x') q' F.
