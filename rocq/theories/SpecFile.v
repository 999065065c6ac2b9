(** Vocabulary for the property about the coils file (C137). *)
From Coq Require Import List Arith Reals.
From Verif Require Import Base ModelArray ModelMath ModelSurface.
Import ListNotations.
Open Scope R_scope.

(** How a coils file is read: the current on a line flows from the point of
    that line to the point of the next line. *)
Fixpoint wires (rows : list (vec3 * R)) : list (vec3 * vec3 * R) :=
  match rows with
  | (p, i) :: ((p', _) :: _) as rest => (p, p', i) :: wires rest
  | _ => []
  end.
(** The closed polygon through the points of a coil: wire [j] goes from point
    [j] to the next one, the last wire back to the first point. *)
Definition polygon (pts : list vec3) (i : R) (l : list (vec3 * vec3 * R)) : Prop :=
  length l = length pts /\
  forall j d, (j < length pts)%nat -> nth j l (d, d, 0) = (nth j pts d, nth ((j + 1) mod length pts) pts d, i).
