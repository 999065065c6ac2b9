(** Model of src/quadcoil/winding_surface.py over the reals.  No proofs here. *)
From Coq Require Import String List Bool Arith ZArith Reals.
From Verif Require Import Base ModelArray ModelMath ModelSurface.
Import ListNotations.
Open Scope R_scope.

(** Equality of array shapes (winding_surface.py 35). *)
Definition same_shape {A B} (g : grid A) (h : grid B) : bool :=
  if list_eq_dec Nat.eq_dec (gshape g) (gshape h) then true else false.
(** winding_surface.py 42, 44: the rows of the design matrix that belong to one
    point, [r] then [z], multiplied by the weight of the point. *)
Definition point_rows (nfp : nat) (stellsym : bool) (mpol ntor : nat) (phi theta w : R) : matrix :=
  let '(r, z) := dof_to_rz_op phi theta nfp stellsym 0 0 mpol ntor in
  [map (fun a => a * w) r; map (fun a => a * w) z].
(** winding_surface.py 28, 43, 45: the entries of the right-hand side that
    belong to one point. *)
Definition point_rhs (r z w : R) : list R := [r * w; z * w].
(** [A.T.dot(B)] for matrices with [n] and [m] columns (winding_surface.py 58). *)
Definition tdot (n m : nat) (A B : matrix) : matrix :=
  map (fun i => map (fun j => ldot (col A i) (col B j)) (seq 0 m)) (seq 0 n).
(** [A.T.dot(b)] (winding_surface.py 59). *)
Definition tdotv (n : nat) (A : matrix) (b : list R) : list R :=
  map (fun i => ldot (col A i) b) (seq 0 n).
(** [lam * jnp.diag(d)] (winding_surface.py 47). *)
Definition scaled_diag (lam : R) (d : list R) : matrix :=
  map (fun i => map (fun j => if Nat.eqb i j then lam * nth i d 0 else 0) (seq 0 (length d)))
      (seq 0 (length d)).
(** Sum of two matrices of equal shape (winding_surface.py 58). *)
Definition add_mat (A B : matrix) : matrix := map2 (map2 Rplus) A B.
(** [jnp.ones] of the shape of a grid; the missing custom_weight
    (winding_surface.py 34). *)
Definition gones {A} (g : grid A) : grid R := gmap (fun _ => 1) g.

(** winding_surface.py 11-61, [fit_surfacerzfourier].  [solve] stands for
    [safe_linear_solve] (math_utils.py 170-174).  phi_grid and theta_grid must
    have equal shapes: shapes that only broadcast against each other are
    rejected here.  Without custom_weight only the number of points has to
    agree (44-45, 59). *)
Definition fit_surfacerzfourier (solve : matrix -> list R -> list R)
    (phi_grid theta_grid r_fit z_fit : grid R) (nfp : nat) (stellsym : bool) (mpol ntor : nat)
    (lam_tikhonov : R) (custom_weight : option (grid R)) : result (list R) :=
  if negb (same_shape phi_grid theta_grid) then Raise TypeError
  else if negb (same_shape r_fit z_fit) then Raise TypeError
  else
    let n := length (m2_n2 stellsym mpol ntor) in
    let finish (w wb : grid R) :=
      let A := concat (map2 (fun pt w => point_rows nfp stellsym mpol ntor (fst pt) (snd pt) w)
                         (combine (concat phi_grid) (concat theta_grid)) (concat w)) in
      let b := concat (map2 (fun rz w => point_rhs (fst rz) (snd rz) w)
                         (combine (concat r_fit) (concat z_fit)) (concat wb)) in
      if Nat.eqb (length A) (length b)
      then Ok (solve (add_mat (tdot n n A A) (scaled_diag lam_tikhonov (map IZR (m2_n2 stellsym mpol ntor))))
                     (tdotv n A b))
      else Raise TypeError in
    match custom_weight with
    | None => finish (gones phi_grid) (gones r_fit)
    | Some w =>
        if negb (same_shape w phi_grid) then Raise ValueError
        else if negb (same_shape r_fit w) then Raise TypeError
        else finish w w
    end.

(** winding_surface.py 65-69 and 91: [gen_rot_matrix], applied to a vector. *)
Definition rot_vec (theta : R) (v : vec3) : vec3 :=
  V3 (cos theta * vx v + - sin theta * vy v + 0 * vz v)
     (sin theta * vx v + cos theta * vy v + 0 * vz v)
     (0 * vx v + 0 * vy v + 1 * vz v).
(** [jnp.roll(row, 1)] (winding_surface.py 94, 197). *)
Definition roll_right {A} (l : list A) : list A :=
  match l with [] => [] | x :: _ => last l x :: removelast l end.
(** [jnp.roll(row, -1)] (winding_surface.py 152). *)
Definition roll_left {A} (l : list A) : list A :=
  match l with [] => [] | x :: r => r ++ [x] end.

(** winding_surface.py 91-96: the approximate unit normal. *)
Definition approx_unitnormal (nfp : nat) (gamma : grid vec3) : grid vec3 :=
  let theta := 2 * PI / INR nfp in
  let rolled := tl gamma ++ [map (rot_vec theta) (hd [] gamma)] in
  let delta_phi := gmap2 sub3 rolled gamma in
  let delta_theta := map (fun row => map2 sub3 (roll_right row) row) gamma in
  gmap (fun n => scale3 (/ norm3 n) n) (gmap2 cross3 delta_theta delta_phi).

(** [jnp.arctan2] (winding_surface.py 111, 210, 345). *)
Definition atan2 (y x : R) : R :=
  if Rlt_dec 0 x then atan (y / x)
  else if Rlt_dec x 0 then (if Rle_dec 0 y then atan (y / x) + PI else atan (y / x) - PI)
  else if Rlt_dec 0 y then PI / 2
  else if Rlt_dec y 0 then - PI / 2
  else 0.
(** Cylindrical radius of a point (winding_surface.py 110, 328, 334, 340). *)
Definition radius (v : vec3) : R := sqrt (vy v * vy v + vx v * vx v).
(** [jnp.linspace(0, 1, n, endpoint=False)] (winding_surface.py 112, 316, 395). *)
Definition linspace_open (n : nat) : list R := map (fun i => INR i / INR n) (seq 0 n).
(** [jnp.linspace(0, stop, n)] (winding_surface.py 311, 390). *)
Definition linspace (stop : R) (n : nat) : list R :=
  map (fun i => if Nat.eqb i (n - 1) && negb (Nat.eqb i 0) then stop else INR i * (stop / INR (n - 1))) (seq 0 n).

(** winding_surface.py 98-113: the offset points. *)
Definition offset_points (gamma normals : grid vec3) (d : R) (stellsym : bool) : grid vec3 :=
  let add := gmap2 (fun p n => add3 p (scale3 d n)) in
  if stellsym then let len_phi := (length gamma / 2)%nat in add (firstn len_phi gamma) (firstn len_phi normals)
  else add gamma normals.

(** winding_surface.py 75-127, [gen_winding_surface_offset].  An empty plasma
    array raises (91).  A given unitnormal of another shape than the plasma
    array is rejected here (shapes that broadcast are not modelled). *)
Definition gen_winding_surface_offset (solve : matrix -> list R -> list R)
    (gamma : grid vec3) (d : R) (nfp : nat) (stellsym : bool)
    (unitnormal : option (grid vec3)) (mpol ntor : nat) : result (list R) :=
  match gamma with
  | [] => Raise IndexError
  | row :: _ =>
      let normals := match unitnormal with None => approx_unitnormal nfp gamma | Some u => u end in
      if negb (same_shape normals gamma) then Raise TypeError
      else
        let pts := offset_points gamma normals d stellsym in
        let phi := gmap (fun p => atan2 (vy p) (vx p) / PI / 2) pts in
        let theta := map (fun _ => map (fun t => t + 1) (linspace_open (length row))) phi in
        fit_surfacerzfourier solve phi theta (gmap radius pts) (gmap vz pts) nfp stellsym mpol ntor 0 None
  end.

(** winding_surface.py 129-141, [get_line_intersection]. *)
Definition get_line_intersection (p0 p1 p2 p3 : R * R) : bool :=
  let s1 := (fst p1 - fst p0, snd p1 - snd p0) in
  let s2 := (fst p3 - fst p2, snd p3 - snd p2) in
  let denom := - fst s2 * snd s1 + fst s1 * snd s2 in
  if Req_EM_T denom 0 then false
  else
    let s := (- snd s1 * (fst p0 - fst p2) + fst s1 * (snd p0 - snd p2)) * (1 / denom) in
    let t := (fst s2 * (snd p0 - snd p2) - snd s2 * (fst p0 - fst p2)) * (1 / denom) in
    if Rle_dec 0 s then if Rle_dec s 1 then if Rle_dec 0 t then if Rle_dec t 1 then true
    else false else false else false else false.

(** winding_surface.py 166-170. *)
Definition is_overlapping (n a b : nat) : bool :=
  Nat.eqb a b || Nat.eqb a ((b + 1) mod n) || Nat.eqb ((a + 1) mod n) b.
(** winding_surface.py 158-179: does edge [a] meet another edge. *)
Definition has_self_intersection (edges : list ((R * R) * (R * R))) (a : nat) (e : (R * R) * (R * R)) : bool :=
  existsb (fun be => get_line_intersection (fst e) (snd e) (fst (snd be)) (snd (snd be))
                     && negb (is_overlapping (length edges) a (fst be)))
          (combine (seq 0 (length edges)) edges).
(** winding_surface.py 156-190: the outer scan, weights +1 and -1. *)
Fixpoint scan_weights (edges : list ((R * R) * (R * R))) (a : nat) (weight : R) (l : list ((R * R) * (R * R))) : list R :=
  match l with
  | [] => []
  | e :: l' => let weight := if has_self_intersection edges a e then - weight else weight in
               weight :: scan_weights edges (S a) weight l'
  end.
(** winding_surface.py 144-198, [polygon_self_intersection]. *)
Definition polygon_self_intersection (r_pol z_pol : list R) : list R :=
  let p0 := combine r_pol z_pol in
  let edges := combine p0 (roll_left p0) in
  let weight := map (fun w => (w + 1) / 2) (scan_weights edges 0 1 edges) in
  map (fun w => if Req_EM_T w 0 then 0 else 1) (roll_right weight).

(** The lexicographic order used by [jnp.lexsort((second, first))]
    (winding_surface.py 204, 214); [jnp.lexsort] is stable. *)
Definition lex_le (p q : R * R) : bool :=
  if Rlt_dec (fst p) (fst q) then true
  else if Rlt_dec (fst q) (fst p) then false
  else if Rle_dec (snd p) (snd q) then true else false.
(** Stable insertion of an index in a sorted list of indices (winding_surface.py 204, 214). *)
Fixpoint insert_idx (key : nat -> R * R) (i : nat) (l : list nat) : list nat :=
  match l with
  | [] => [i]
  | j :: l' => if lex_le (key i) (key j) then i :: l else j :: insert_idx key i l'
  end.
(** [jnp.lexsort] of [n] keys (winding_surface.py 204, 214). *)
Definition lexsort (key : nat -> R * R) (n : nat) : list nat := fold_right (insert_idx key) [] (seq 0 n).
(** winding_surface.py 218-241, [keep_unique_angles]. *)
Fixpoint keep_unique (angle : nat -> R) (last_angle : R) (l : list nat) : list nat :=
  match l with
  | [] => []
  | i :: l' => if Req_EM_T (angle i) last_angle then keep_unique angle last_angle l'
               else i :: keep_unique angle (angle i) l'
  end.
(** winding_surface.py 253-257, [ccw]. *)
Definition ccw (p : nat -> R * R) (i j k : nat) : R :=
  (fst (p j) - fst (p i)) * (snd (p k) - snd (p i)) - (fst (p k) - fst (p i)) * (snd (p j) - snd (p i)).
(** winding_surface.py 266-274: the inner loop.  The stack is kept with its
    top first. *)
Fixpoint pop_stack (p : nat -> R * R) (i : nat) (stack : list nat) : list nat :=
  match stack with
  | b :: ((a :: _) as rest) => if Rle_dec (ccw p a b i) 0 then pop_stack p i rest else stack
  | _ => stack
  end.
(** winding_surface.py 200-283, [graham_scan], called directly.  [jnp.zeros(M)
    .at[:2].set] raises when fewer than two directions are left (250); an empty
    polygon raises (204). *)
Definition graham_scan (r z : list R) : result (list bool) :=
  let N := length r in
  let at_ (l : list R) (i : nat) := nth i l 0 in
  match lexsort (fun i => (at_ z i, at_ r i)) N with
  | [] => Raise IndexError
  | m :: _ =>
      let dr i := at_ r i - at_ r m in
      let dz i := at_ z i - at_ z m in
      let angle i := atan2 (dz i) (dr i) in
      let dist i := dr i * dr i + dz i * dz i in
      match lexsort (fun i => (angle i, - dist i)) N with
      | [] => Raise IndexError
      | first :: others =>
          let kept := first :: keep_unique angle (angle first) others in
          let p k := let i := nth k kept 0%nat in (at_ r i, at_ z i) in
          match length kept with
          | O | 1%nat => Raise ValueError
          | M =>
              let stack := fold_left (fun stack i => i :: pop_stack p i stack) (seq 2 (M - 2)) [1%nat; 0%nat] in
              let hull := map (fun k => nth k kept 0%nat) stack in
              Ok (map (fun i => existsb (Nat.eqb i) hull) (seq 0 N))
          end
      end
  end.

(** [jnp.average(rows, axis=-1)] (winding_surface.py 336-337, 416-417). *)
Definition row_average (g : grid R) : list R := map (fun row => fold_right Rplus 0 row / INR (length row)) g.
(** [g - c[:, None]] (winding_surface.py 345): the columns are broadcast. *)
Definition sub_column (g : grid R) (c : list R) : result (grid R) :=
  if Nat.eqb (length c) (length g) then Ok (map2 (fun row x => map (fun a => a - x) row) g c)
  else match c, g with
       | [x], _ => Ok (gmap (fun a => a - x) g)
       | _, [row] => Ok (map (fun x => map (fun a => a - x) row) c)
       | _, _ => Raise TypeError
       end.

(** winding_surface.py 311-341 and 390-421: the interpolated offset surface,
    trimmed to half a period when symmetric: toroidal angles and points. *)
Definition interpolated (solve : matrix -> list R -> list R)
    (gamma : grid vec3) (d : R) (nfp : nat) (stellsym : bool)
    (unitnormal : option (grid vec3)) (mpol ntor pol_interp tor_interp : nat)
  : result (list R * grid vec3) :=
  bind (gen_winding_surface_offset solve gamma d nfp stellsym unitnormal mpol ntor) (fun dofs =>
  let phi := linspace (1 / INR nfp) (length gamma * tor_interp) in
  bind (make_surface nfp stellsym mpol ntor (arr1 phi)
          (arr1 (linspace_open (length (hd [] gamma) * pol_interp))) (arr1 dofs)) (fun s =>
  bind (ModelSurface.gamma s) (fun pts =>
  let len_phi := (length phi / 2)%nat in
  Ok (if stellsym then (firstn len_phi phi, firstn len_phi pts) else (phi, pts))))).
(** winding_surface.py 322-337 and 402-417: the plasma rows whose centres are
    used. *)
Definition centre_rows (gamma : grid vec3) (stellsym : bool) (tor_interp : nat) : grid vec3 :=
  if stellsym then firstn ((length gamma * tor_interp) / 2) gamma else gamma.

(** winding_surface.py 285-301, 356, 361-377, 454 and 11: [lam_tikhonov] is an
    ordinary argument of the two compiled generators but a static one of
    fit_surfacerzfourier.  When the caller gives it, it is traced and jax
    raises a ValueError for a non-hashable static argument; the default 1e-5
    (not given, None here) stays a Python number. *)
Definition static_lam (lam : option R) : result R :=
  match lam with None => Ok (1 / 100000) | Some _ => Raise ValueError end.

(** winding_surface.py 294-359, [gen_winding_surface_atan]. *)
Definition gen_winding_surface_atan (solve : matrix -> list R -> list R)
    (gamma : grid vec3) (d : R) (nfp : nat) (stellsym : bool)
    (unitnormal : option (grid vec3)) (mpol ntor pol_interp tor_interp : nat) (lam_tikhonov : option R)
  : result (list R) :=
  bind (interpolated solve gamma d nfp stellsym unitnormal mpol ntor pol_interp tor_interp) (fun pp =>
  let '(phi, pts) := pp in
  let centre := centre_rows gamma stellsym tor_interp in
  let r := gmap radius pts in
  let z := gmap vz pts in
  let w := map2 polygon_self_intersection r z in
  bind (sub_column z (row_average (gmap vz centre))) (fun dz =>
  bind (sub_column r (row_average (gmap radius centre))) (fun dr =>
  let theta := gmap (fun t => if Rlt_dec 0 t then t else t + 1)
                 (gmap2 (fun a b => atan2 a b / PI / 2) dz dr) in
  if Nat.eqb (length phi) (length theta) || Nat.eqb (length phi) 1
  then
    let phi_grid := map2 (fun p row => map (fun _ => p) row)
                      (if Nat.eqb (length phi) (length theta) then phi else repeat (hd 0 phi) (length theta)) theta in
    bind (static_lam lam_tikhonov) (fun lam =>
    fit_surfacerzfourier solve phi_grid theta r z nfp stellsym mpol ntor lam (Some w))
  else Raise ValueError))).

(** winding_surface.py 433-442: the poloidal angle by arc length of one
    contour. *)
Definition segment_lengths (r z : list R) : list R :=
  map2 (fun a b => sqrt (a * a + b * b))
    (map2 Rminus (roll_left r) r) (map2 Rminus (roll_left z) z).
(** [jnp.cumsum] (winding_surface.py 441). *)
Fixpoint cumsum (acc : R) (l : list R) : list R :=
  match l with [] => [] | x :: l' => (acc + x) :: cumsum (acc + x) l' end.
(** winding_surface.py 441-442. *)
Definition arc_angles (r z : list R) : list R :=
  let arclengths := cumsum 0 (segment_lengths r z) in
  map (fun a => (a - hd 0 arclengths) / last arclengths 0) arclengths.

(** winding_surface.py 422-430: the weights of the contours.  [graham_scan] is
    always traced here (the function is compiled and the rule mapped over the
    rows), so that the slice size [count] on line 240 is not a concrete number
    and jax raises a TypeError. *)
Definition rule_weights (rule : string) (r z : grid R) : result (grid R) :=
  if String.eqb rule "self-intersection" then Ok (map2 polygon_self_intersection r z)
  else if String.eqb rule "hull" then Raise TypeError
  else Raise ValueError.

(** winding_surface.py 370-457, [gen_winding_surface_arc]; the centres computed
    on lines 408-417 are not used. *)
Definition gen_winding_surface_arc (solve : matrix -> list R -> list R)
    (gamma : grid vec3) (d : R) (nfp : nat) (stellsym : bool)
    (unitnormal : option (grid vec3)) (mpol ntor pol_interp tor_interp : nat) (lam_tikhonov : option R)
    (rule : string) : result (list R) :=
  bind (interpolated solve gamma d nfp stellsym unitnormal mpol ntor pol_interp tor_interp) (fun pp =>
  let '(phi, pts) := pp in
  let r := gmap radius pts in
  let z := gmap vz pts in
  bind (rule_weights rule r z) (fun w =>
  let theta := map2 arc_angles r z in
  bind (static_lam lam_tikhonov) (fun lam =>
  fit_surfacerzfourier solve (map2 (fun p row => map (fun _ => p) row) phi theta) theta r z
    nfp stellsym mpol ntor lam (Some w)))).
