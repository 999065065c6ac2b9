(** Vocabulary for scans of weights and bounds (C151). *)
From Coq Require Import String List Bool Arith ZArith Reals.
From Verif Require Import Base ModelArray ModelMath SpecMath ModelWrapper SpecWrapper.
Import ListNotations.
Open Scope R_scope.
Open Scope string_scope.
Open Scope list_scope.

(** The objective with terms [ns] and weights [ws]. *)
Definition with_weights (ns : list string) (ws : list R) : list (string * R) := map2 pair ns ws.
(** The constraints with quantities and directions [ks] and bounds [bs]. *)
Definition with_bounds (ks : list (string * cmp)) (bs : list R) : list (string * cmp * R) := map2 (fun k b => (fst k, snd k, b)) ks bs.
