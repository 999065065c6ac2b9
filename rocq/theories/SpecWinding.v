(** Vocabulary for the statements about winding surface generation;
    independent of the helper functions of the model. *)
From Coq Require Import String List Bool Arith ZArith Reals Lra.
From Verif Require Import Base ModelArray ModelMath SpecMath ModelSurface SpecSurface.
Import ListNotations.
Open Scope R_scope.

(** The linear solver answers a square system with a solution whenever there
    is one. *)
Definition honest_solver (solve : list (list R) -> list R -> list R) : Prop :=
  forall n M b, square n M -> length b = n ->
    length (solve M b) = n /\
    ((exists x, solves n (entry M) x b) -> solves n (entry M) (solve M b) b).
(** ... and is homogeneous in the right-hand side. *)
Definition homogeneous_solver (solve : list (list R) -> list R -> list R) : Prop :=
  forall M b c, solve M (map (Rmult c) b) = map (Rmult c) (solve M b).

(** The cylindrical coordinates (r, z) of the surface with the coefficients
    [x], read in the order of the modes [cl] and [sl]. *)
Definition coords (nfp : nat) (stellsym : bool) (cl sl : list (Z * Z)) (x : list R) (phi theta : R) : R * R :=
  let c k := series cos nfp cl (firstn (length cl) (skipn k x)) phi theta in
  let s k := series sin nfp sl (firstn (length sl) (skipn k x)) phi theta in
  if stellsym then (c 0%nat, s (length cl))
  else (c 0%nat + s (length cl), c (length cl + length sl)%nat + s (length cl + length sl + length cl)%nat).
(** A point to be fitted: angles, coordinates and weight. *)
Record target : Type := Target { tg_phi : R; tg_theta : R; tg_r : R; tg_z : R; tg_w : R }.
(** The weighted squared misfit of one target. *)
Definition misfit1 (rz : R -> R -> R * R) (t : target) : R :=
  let '(r, z) := rz (tg_phi t) (tg_theta t) in
  (tg_w t * (r - tg_r t)) ^ 2 + (tg_w t * (z - tg_z t)) ^ 2.
(** The penalty on high harmonics. *)
Definition roughness (stellsym : bool) (cl sl : list (Z * Z)) (x : list R) : R :=
  let modes := if stellsym then cl ++ sl else (cl ++ sl) ++ (cl ++ sl) in
  Rsum (map (fun p => IZR (fst (snd p) * fst (snd p) + snd (snd p) * snd (snd p)) * (fst p) ^ 2) (combine x modes)).
(** What the fit should minimise. *)
Definition fit_cost (nfp : nat) (stellsym : bool) (cl sl : list (Z * Z)) (lam : R) (targets : list target) (x : list R) : R :=
  Rsum (map (misfit1 (coords nfp stellsym cl sl x)) targets) + lam * roughness stellsym cl sl x.
(** A complete list of modes. *)
Definition complete_modes (mpol ntor : nat) (cl sl : list (Z * Z)) : Prop :=
  once_each (is_mode mpol ntor) cl /\ once_each (fun mn => is_mode mpol ntor mn /\ mn <> (0%Z, 0%Z)) sl.
(** The targets described by four arrays of points and an array of weights. *)
Definition of_arrays (phi theta r z w : grid R) : list target :=
  map (fun p => Target (fst (fst (fst (fst p)))) (snd (fst (fst (fst p)))) (snd (fst (fst p))) (snd (fst p)) (snd p))
    (combine (combine (combine (combine (concat phi) (concat theta)) (concat r)) (concat z)) (concat w)).
(** Equal shapes. *)
Definition shape_as {A B} (g : grid A) (h : grid B) : Prop := map (@length A) g = map (@length B) h.
(** An [n] by [m] array. *)
Definition rect {A} (n m : nat) (g : grid A) : Prop :=
  length g = n /\ List.Forall (fun row => length row = m) g.
(** Point (i, j) of an array of points. *)
Definition node (i j : nat) (g : grid vec3) : vec3 := nth j (nth i g []) (V3 0 0 0).
(** The targets determine the coefficients: only the zero vector vanishes on
    all of them. *)
Definition determined (nfp : nat) (stellsym : bool) (mpol ntor : nat) (cl sl : list (Z * Z)) (targets : list target) : Prop :=
  forall x, length x = legal_length stellsym mpol ntor ->
    (forall t, In t targets -> tg_w t <> 0 -> coords nfp stellsym cl sl x (tg_phi t) (tg_theta t) = (0, 0)) ->
    forall v, In v x -> v = 0.

(** ** Plane geometry *)
(** A point of the closed segment from [p] to [q]. *)
Definition on_segment (p q x : R * R) : Prop :=
  exists t, 0 <= t <= 1 /\ x = (fst p + t * (fst q - fst p), snd p + t * (snd q - snd p)).
(** The two segments point in different directions. *)
Definition transverse (p0 p1 p2 p3 : R * R) : Prop :=
  (fst p1 - fst p0) * (snd p3 - snd p2) <> (snd p1 - snd p0) * (fst p3 - fst p2).
(** The closed segments share a point. *)
Definition cross_at_point (p0 p1 p2 p3 : R * R) : Prop :=
  exists x, on_segment p0 p1 x /\ on_segment p2 p3 x.
(** Corner [i] of a closed polygon. *)
Definition corner (p : list (R * R)) (i : nat) : R * R := nth (i mod length p) p (0, 0).
(** Edge [i] goes from corner [i] to corner [i+1]; edges [i] and [j] are
    neighbours if they share a corner or are equal. *)
Definition neighbours (n i j : nat) : Prop :=
  i = j \/ i = ((j + 1) mod n)%nat \/ j = ((i + 1) mod n)%nat.
(** Edge [i] properly meets an edge that is not its neighbour. *)
Definition crossed (p : list (R * R)) (i : nat) : Prop :=
  exists j, (j < length p)%nat /\ ~ neighbours (length p) i j /\
    transverse (corner p i) (corner p (i + 1)) (corner p j) (corner p (j + 1)) /\
    cross_at_point (corner p i) (corner p (i + 1)) (corner p j) (corner p (j + 1)).
(** The number of edges among [es] that are crossed, stated as a relation. *)
Inductive count_crossed (p : list (R * R)) : list nat -> nat -> Prop :=
| CC_nil : count_crossed p [] 0
| CC_yes i l k : crossed p i -> count_crossed p l k -> count_crossed p (i :: l) (S k)
| CC_no i l k : ~ crossed p i -> count_crossed p l k -> count_crossed p (i :: l) k.
(** Distance in the plane. *)
Definition dist2 (p q : R * R) : R := sqrt ((fst p - fst q) ^ 2 + (snd p - snd q) ^ 2).
(** Point [i] sticks out: some direction has its strict maximum there. *)
Definition extreme (r z : list R) (i : nat) : Prop :=
  (i < length r)%nat /\ exists a b, forall j, (j < length r)%nat -> j <> i ->
    a * nth j r 0 + b * nth j z 0 < a * nth i r 0 + b * nth i z 0.
