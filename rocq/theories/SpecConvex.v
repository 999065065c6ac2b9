(** Vocabulary for the statements about convex problems. *)
From Coq Require Import String List Bool Arith ZArith Reals.
From Verif Require Import Base ModelArray ModelMath SpecMath ModelSurface SpecSurface ModelParams SpecField
  ModelQuantity ModelWrapper SpecWrapper ModelPackage SpecPackage.
Import ListNotations.
Open Scope R_scope.
Open Scope string_scope.
Open Scope list_scope.

(** Entry by entry, what a quantity reports between two coefficient vectors lies
    on the chord, or not above it. *)
Definition on_chord (rel : R -> R -> Prop) (other : list string) (name : string) (q : params) : Prop :=
  forall x y t, length x = q_ndofs q -> length y = q_ndofs q -> 0 <= t <= 1 ->
  exists vx vy vz, reads other name q x vx /\ reads other name q y vy /\ reads other name q (lincomb t (1 - t) x y) vz /\
    sh vx = sh vz /\ sh vy = sh vz /\ length (el vx) = length (el vz) /\ length (el vy) = length (el vz) /\
    Forall2 rel (el vz) (lincomb t (1 - t) (el vx) (el vy)).
Definition affine_quantity := on_chord eq.
Definition convex_quantity := on_chord Rle.

(** Quadrature angles in increasing order on both surfaces. *)
Definition ordered (q : params) : Prop :=
  increasing (q_qphi q) /\ increasing (q_qtheta q) /\ increasing (s_qphi (q_plasma q)) /\ increasing (s_qtheta (q_plasma q)).

(** The weighted sum of the quantities [os] at [x]. *)
Definition weighted (other : list string) (q : params) (os : list (string * R)) (x : list R) (r : R) : Prop :=
  exists vs, Forall2 (fun o m => reads other (fst o) q x (scal m)) os vs /\ r = Rsum (map2 (fun o m => snd o * m) os vs).
(** [x] meets the constraints [cs]. *)
Definition feasible (other : list string) (q : params) (cs : list (string * cmp * R)) (x : list R) : Prop :=
  forall name c b, In (name, c, b) cs -> exists v, reads other name q x v /\ meets c b v.
(** [x] has the least weighted sum among the feasible vectors that satisfy [P]. *)
Definition least (other : list string) (q : params) (os : list (string * R)) (cs : list (string * cmp * R)) (x : list R) (P : list R -> Prop) : Prop :=
  forall y fx fy, length y = q_ndofs q -> P y -> feasible other q cs y -> weighted other q os x fx -> weighted other q os y fy -> fx <= fy.
