(** Vocabulary for C142. *)
From Coq Require Import String List Arith Reals.
From Verif Require Import Base ModelArray ModelMath SpecMath ModelSurface ModelParams SpecField.
Import ListNotations.
Open Scope R_scope.
Open Scope string_scope.
Open Scope list_scope.

(** The same device with another required normal field. *)
Definition other_field (q q' : params) : Prop := same_geometry q' q /\ q_G q' = q_G q /\ q_I q' = q_I q.
(** Quantities that describe the coils alone. *)
Definition coil_names : list string :=
  ["K"; "K2"; "Phi"; "Phi2"; "f_K"; "f_Phi"; "f_l1_Phi"; "f_huber_K"; "f_max_K2"; "f_max_Phi"; "f_max_Phi2"; "f_max_Phi4"].
