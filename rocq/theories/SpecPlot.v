(** Vocabulary for the properties of plots and VTK files. *)
From Coq Require Import String List Arith Reals.
From Verif Require Import Base ModelArray ModelMath ModelQuantity ModelWrapper ModelSurface ModelParams ModelQuadcoil ModelPlot
  SpecMath SpecQuantity SpecWrapper SpecWinding.
Import ListNotations.
Open Scope R_scope.

(** Position of node (i, j) of a structured grid of dimensions (nx, ny, 1) in
    the VTK storage order: the first index runs fastest. *)
Definition vtk_index {A} (f : vtk_file A) (i j : nat) : nat :=
  let '(nx, _, _) := vt_dims f in (i + nx * j)%nat.
(** Point and value at that node. *)
Definition vtk_point {A} (f : vtk_file A) (i j : nat) : vec3 := nth (vtk_index f i j) (vt_points f) (V3 0 0 0).
Definition vtk_value {A} (f : vtk_file A) (d : A) (i j : nat) : A := nth (vtk_index f i j) (vt_data f) d.
(** The file holds the surface with its grid lines: nodes next to each other
    along an axis of the file are next to each other on the surface. *)
Definition keeps_grid {A} (f : vtk_file A) (gamma : grid vec3) (m n : nat) : Prop :=
  (vt_dims f = (n, m, 1%nat) /\ forall i j, (i < m)%nat -> (j < n)%nat -> vtk_point f j i = SpecWinding.node i j gamma) \/
  (vt_dims f = (m, n, 1%nat) /\ forall i j, (i < m)%nat -> (j < n)%nat -> vtk_point f i j = SpecWinding.node i j gamma).

(** [d'] is the state [d] with coefficients [i] and [j] set to [a] and [b]. *)
Definition moved (d : ModelArray.dict arr) (i j : nat) (a b : R) (d' : ModelArray.dict arr) : Prop :=
  exists phi phi', lookup "phi"%string d = Some phi /\ lookup "phi"%string d' = Some phi' /\
    sh phi' = sh phi /\ length (el phi') = length (el phi) /\ nth i (el phi') 0 = a /\ nth j (el phi') 0 = b /\
    (forall m, m <> i -> m <> j -> nth m (el phi') 0 = nth m (el phi) 0) /\
    forall key, key <> "phi"%string -> lookup key d' = lookup key d.
(** A panel over [n] times [n] states around [d], with the relation [ok] between
    each state and the value drawn there. *)
Definition panel_over (n : nat) (d : ModelArray.dict arr) (i j : nat) (xs ys : list R) (ok : ModelArray.dict arr -> R -> Prop) (p : panel) : Prop :=
  pn_x p = xs /\ pn_y p = ys /\ length xs = n /\ length ys = n /\
  forall k l, (k < n)%nat -> (l < n)%nat ->
    exists d', moved d i j (nth k xs 0) (nth l ys 0) d' /\ ok d' (nth l (nth k (pn_z p) []) 0).

(** A constraint (name, type, unit, value) that can be drawn around [d]: an
    inequality on a smooth quantity with field [func], in a unit [k], the field
    being defined and not empty at the states drawn. *)
Definition drawable {P} (ns : namespace P) (qp : P) (d : ModelArray.dict arr) (i j : nat) (given : string * string * unit_arg * R) (meaning : field P * cmp * R) : Prop :=
  let '(name, t, u, v) := given in let '(func, c, k) := meaning in
  c <> EQ /\ t = op_string c /\ u = UScalar k /\ k <> 0 /\ supported ns name t u /\
  (exists q, ns name = Some (AQuantity q) /\ smooth_quantity q func) /\
  forall a b d', moved d i j a b d' -> exists fld, func qp d' = Ok fld /\ wf fld /\ el fld <> [].
(** The panel of such a constraint: values at most 0 only where the user's
    constraint holds, and everywhere it holds with the smoothing margin. *)
Definition marks {P} (qp : P) (d : ModelArray.dict arr) (i j : nat) (xs ys : list R) (given : string * string * unit_arg * R) (meaning : field P * cmp * R) (p : panel) : Prop :=
  let '(name, _, _, v) := given in let '(func, c, k) := meaning in
  pn_name p = name /\ pn_constraint p = true /\
  panel_over 100 d i j xs ys (fun d' z => exists fld, func qp d' = Ok fld /\ (z <= 0 -> meets c v fld) /\
    let margin := Rabs k * (/ 10 ^ 10 * ln (INR (length (el fld)))) in
    (meets c (match c with GE => v + margin | _ => v - margin end) fld -> z <= 0)) p.
(** The four lists in which constraints are passed. *)
Definition names_of (gs : list (string * string * unit_arg * R)) := map (fun g => fst (fst (fst g))) gs.
Definition types_of (gs : list (string * string * unit_arg * R)) := map (fun g => snd (fst (fst g))) gs.
Definition units_of (gs : list (string * string * unit_arg * R)) := map (fun g => snd (fst g)) gs.
Definition values_of (gs : list (string * string * unit_arg * R)) := map snd gs.
