(** Vocabulary for C140. *)
From Coq Require Import String List Arith Reals.
From Verif Require Import Base ModelArray ModelMath SpecMath ModelSurface ModelParams ModelField.
Import ListNotations.
Open Scope R_scope.

(** The area over all field periods of [q] of surface [s], the winding surface or the plasma surface, from the area elements it reports. *)
Definition area (q : params) (s : surface) (a : R) : Prop := exists d, da s = Ok d /\ a = INR (q_nfp q) * Rsum (concat d).
