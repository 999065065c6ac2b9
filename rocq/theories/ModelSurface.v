(** Model of src/quadcoil/surfacerzfourier_jax.py over the reals.  No proofs here. *)
From Coq Require Import String List Bool Arith ZArith Reals.
From Verif Require Import Base ModelArray ModelMath.
Import ListNotations.
Open Scope R_scope.

(** A two-dimensional array [nphi, ntheta] (or [nphi, ntheta, 3] when the
    entries are three-vectors), as the list of its rows (surfacerzfourier_jax.py
    25, 163-340). *)
Definition grid (A : Type) : Type := list (list A).
(** Elementwise operations on grids of equal shape (all of 171-340). *)
Definition gmap {A B} (f : A -> B) (g : grid A) : grid B := map (map f) g.
(** The same for two grids (surfacerzfourier_jax.py 171-340). *)
Definition gmap2 {A B C} (f : A -> B -> C) (g : grid A) (h : grid B) : grid C :=
  map2 (map2 f) g h.

(** surfacerzfourier_jax.py 25, [jnp.meshgrid(quadpoints_theta,
    quadpoints_phi)] with its default 'xy' indexing: one row per second
    argument, one column per first argument; first result the repeated first
    argument. *)
Definition meshgrid (x y : list R) : grid R * grid R :=
  (map (fun _ => x) y, map (fun b => map (fun _ => b) x) y).

(** Indexing [q[i]] with a constant non-negative index (26-27).  jax.numpy
    clamps indices that are too large (a NumPy array would raise IndexError
    instead); an empty array raises. *)
Definition getclamp (q : list R) (i : nat) : result R :=
  match q with
  | [] => Raise IndexError
  | _ => Ok (nth (Nat.min i (length q - 1)) q 0)
  end.

(** The attributes of a SurfaceRZFourierJAX (18-27).  [mpol], [ntor], [nfp]
    are natural numbers; a negative resolution makes [jnp.zeros] raise and is
    not modelled. *)
Record surface : Type := Surface {
  s_nfp : nat; s_stellsym : bool; s_mpol : nat; s_ntor : nat;
  s_dofs : list R; s_qphi : list R; s_qtheta : list R;
  s_theta_mesh : grid R; s_phi_mesh : grid R; s_dphi : R; s_dtheta : R }.

(** An argument of the constructor: an array, or a Python object of another
    type (surfacerzfourier_jax.py 12-17). *)
Inductive pyobj : Type := PyArr (a : arr) | PyOther.
(** math_utils.py 13-14, [is_ndarray(arr, 1)]. *)
Definition is_ndarray (o : pyobj) : bool :=
  match o with PyArr a => Nat.eqb (ndim a) 1 | PyOther => false end.
(** The elements of an array argument (surfacerzfourier_jax.py 22-24). *)
Definition elements (o : pyobj) : list R := match o with PyArr a => el a | PyOther => [] end.
(** A one-dimensional array with the given elements (surfacerzfourier_jax.py 369-371). *)
Definition arr1 (l : list R) : pyobj := PyArr (Arr [length l] l).

(** surfacerzfourier_jax.py 10-27, [__init__]. *)
Definition make_surface (nfp : nat) (stellsym : bool) (mpol ntor : nat)
    (quadpoints_phi quadpoints_theta dofs : pyobj) : result surface :=
  if negb (is_ndarray quadpoints_phi) then Raise TypeError
  else if negb (is_ndarray quadpoints_theta) then Raise TypeError
  else if negb (is_ndarray dofs) then Raise TypeError
  else
    let p := elements quadpoints_phi in
    let t := elements quadpoints_theta in
    let mesh := meshgrid t p in
    bind (getclamp p 1) (fun p1 => bind (getclamp p 0) (fun p0 =>
    bind (getclamp t 1) (fun t1 => bind (getclamp t 0) (fun t0 =>
    Ok {| s_nfp := nfp; s_stellsym := stellsym; s_mpol := mpol; s_ntor := ntor;
          s_dofs := elements dofs; s_qphi := p; s_qtheta := t;
          s_theta_mesh := fst mesh; s_phi_mesh := snd mesh;
          s_dphi := p1 - p0; s_dtheta := t1 - t0 |})))).

(** surfacerzfourier_jax.py 29-38. *)
Definition copy_and_set_quadpoints (s : surface) (p t : pyobj) : result surface :=
  make_surface (s_nfp s) (s_stellsym s) (s_mpol s) (s_ntor s) p t (arr1 (s_dofs s)).

(** [jnp.arange(lo, lo + len)] (surfacerzfourier_jax.py 380, 383-384). *)
Definition arange (lo : Z) (len : nat) : list Z := map (fun i => (lo + Z.of_nat i)%Z) (seq 0 len).

(** surfacerzfourier_jax.py 376-388, [make_rzfourier_mc_ms_nc_ns]; the
    tuple (mc, ms, nc, ns).  [jnp.repeat] repeats every element, [jnp.tile]
    the whole array. *)
Definition make_ms (mpol ntor : nat) : list Z :=
  repeat 0%Z ntor ++ flat_map (fun m => repeat m (ntor * 2 + 1)) (arange 1 mpol).
(** The toroidal mode numbers (surfacerzfourier_jax.py 376-388). *)
Definition make_ns (mpol ntor : nat) : list Z :=
  arange 1 ntor ++ concat (repeat (arange (- Z.of_nat ntor) (2 * ntor + 1)) mpol).
(** The tuple (surfacerzfourier_jax.py 376-388). *)
Definition make_mcmsncns (mpol ntor : nat) : list Z * list Z * list Z * list Z :=
  let ms := make_ms mpol ntor in
  let ns := make_ns mpol ntor in
  (0%Z :: ms, ms, 0%Z :: ns, ns).

(** surfacerzfourier_jax.py 401-408: the derivative factor of mode (m, n) for
    orders (a, b); [(-1) ** total_neg] with total_neg = (a + b)//2. *)
Definition derivative_factor (nfp a b : nat) (m n : Z) : R :=
  pow (- IZR n * PI * 2 * INR nfp) a * pow (IZR m * PI * 2) b * pow (-1) ((a + b) / 2).
(** The phase of a mode as written on lines 420-427 (even total order) ... *)
Definition phase_even (nfp : nat) (m n : Z) (phi theta : R) : R :=
  IZR m * PI * 2 * theta - IZR n * PI * 2 * INR nfp * phi.
(** ... and on lines 439-446 (odd total order). *)
Definition phase_odd (nfp : nat) (m n : Z) (phi theta : R) : R :=
  IZR m * theta * PI * 2 - IZR n * phi * PI * 2 * INR nfp.
(** surfacerzfourier_jax.py 409-446: the entries of cmn and smn at one point. *)
Definition cmn_entry (nfp a b : nat) (phi theta : R) (mn : Z * Z) : R :=
  if Nat.eqb ((a + b) mod 2) 0
  then derivative_factor nfp a b (fst mn) (snd mn) * cos (phase_even nfp (fst mn) (snd mn) phi theta)
  else - derivative_factor nfp a b (fst mn) (snd mn) * sin (phase_odd nfp (fst mn) (snd mn) phi theta).
(** surfacerzfourier_jax.py 409-446, see above. *)
Definition smn_entry (nfp a b : nat) (phi theta : R) (mn : Z * Z) : R :=
  if Nat.eqb ((a + b) mod 2) 0
  then derivative_factor nfp a b (fst mn) (snd mn) * sin (phase_even nfp (fst mn) (snd mn) phi theta)
  else derivative_factor nfp a b (fst mn) (snd mn) * cos (phase_odd nfp (fst mn) (snd mn) phi theta).

(** A row of zeros ([jnp.zeros_like], surfacerzfourier_jax.py 462-463). *)
Definition zeros_like (l : list R) : list R := map (fun _ => 0) l.

(** surfacerzfourier_jax.py 391-472, [dof_to_rz_op], at one grid point: the
    two rows (r, z) of the operator, each with one entry per coefficient. *)
Definition dof_to_rz_op (phi theta : R) (nfp : nat) (stellsym : bool) (a b mpol ntor : nat)
  : list R * list R :=
  let '(mc, ms, nc, ns) := make_mcmsncns mpol ntor in
  let cmn := map (cmn_entry nfp a b phi theta) (combine mc nc) in
  let smn := map (smn_entry nfp a b phi theta) (combine ms ns) in
  let r_operator := if stellsym then cmn else cmn ++ smn in
  let z_operator := if stellsym then smn else cmn ++ smn in
  (r_operator ++ zeros_like z_operator, zeros_like r_operator ++ z_operator).

(** surfacerzfourier_jax.py 447-449: the second result m^2 + n^2 of
    dof_to_rz_op. *)
Definition m2_n2 (stellsym : bool) (mpol ntor : nat) : list Z :=
  let '(mc, ms, nc, ns) := make_mcmsncns mpol ntor in
  let w := map2 (fun m n => (m * m + n * n)%Z) (mc ++ ms) (nc ++ ns) in
  if stellsym then w else w ++ w.

(** surfacerzfourier_jax.py 508-509: the Leibniz coefficient of the term with
    k derivatives on r. *)
Definition leibniz_factor (a k : nat) : R :=
  let t := (a - k)%nat in
  INR (fact a) / INR (fact k) / INR (fact t) * pow (-1) (t / 2) * pow (PI * 2) t.
(** surfacerzfourier_jax.py 510-515: what multiplies r in the x and y terms. *)
Definition trig_x (a k : nat) (phi : R) : R :=
  if Nat.eqb ((a - k) mod 2) 0 then leibniz_factor a k * cos (phi * PI * 2)
  else - leibniz_factor a k * sin (phi * PI * 2).
(** surfacerzfourier_jax.py 510-515, see above. *)
Definition trig_y (a k : nat) (phi : R) : R :=
  if Nat.eqb ((a - k) mod 2) 0 then leibniz_factor a k * sin (phi * PI * 2)
  else leibniz_factor a k * cos (phi * PI * 2).

(** surfacerzfourier_jax.py 474-517, [dof_to_gamma_op], at one grid point: the
    rows (x, y, z).  The accumulators start from the number 0. (483-484),
    which broadcasts; here they start from a row of zeros.  [dof_to_z] is
    taken from the last pass of the loop (502-503). *)
Definition dof_to_gamma_op (phi theta : R) (nfp : nat) (stellsym : bool) (a b mpol ntor : nat)
  : list R * list R * list R :=
  let rz k := dof_to_rz_op phi theta nfp stellsym k b mpol ntor in
  let step trig (acc : list R) (k : nat) :=
    map2 Rplus acc (map (fun r => trig a k phi * r) (fst (rz k))) in
  let zero := zeros_like (fst (rz 0%nat)) in
  (fold_left (step trig_x) (seq 0 (a + 1)) zero,
   fold_left (step trig_y) (seq 0 (a + 1)) zero,
   snd (rz a)).

(** surfacerzfourier_jax.py 519-535, [dof_to_gamma]: the operator applied to
    the coefficients, at all points of the two meshes.  [@] raises when the
    last dimension of the operator differs from the number of coefficients;
    that dimension does not depend on the point. *)
Definition dof_to_gamma (dofs : list R) (phi_grid theta_grid : grid R) (nfp : nat)
    (stellsym : bool) (a b mpol ntor : nat) : result (grid vec3) :=
  if Nat.eqb (length (snd (dof_to_gamma_op 0 0 nfp stellsym a b mpol ntor))) (length dofs)
  then Ok (gmap2 (fun phi theta =>
         let '(x, y, z) := dof_to_gamma_op phi theta nfp stellsym a b mpol ntor in
         V3 (ldot x dofs) (ldot y dofs) (ldot z dofs)) phi_grid theta_grid)
  else Raise TypeError.

(** surfacerzfourier_jax.py 171-183, [gammadash]. *)
Definition gammadash (a b : nat) (s : surface) : result (grid vec3) :=
  dof_to_gamma (s_dofs s) (s_phi_mesh s) (s_theta_mesh s) (s_nfp s) (s_stellsym s)
    a b (s_mpol s) (s_ntor s).
(** surfacerzfourier_jax.py 185-190. *)
Definition gamma : surface -> result (grid vec3) := gammadash 0 0.
(** surfacerzfourier_jax.py 186. *)
Definition gammadash1 : surface -> result (grid vec3) := gammadash 1 0.
(** surfacerzfourier_jax.py 187. *)
Definition gammadash2 : surface -> result (grid vec3) := gammadash 0 1.
(** surfacerzfourier_jax.py 188. *)
Definition gammadash1dash1 : surface -> result (grid vec3) := gammadash 2 0.
(** surfacerzfourier_jax.py 189. *)
Definition gammadash1dash2 : surface -> result (grid vec3) := gammadash 1 1.
(** surfacerzfourier_jax.py 190. *)
Definition gammadash2dash2 : surface -> result (grid vec3) := gammadash 0 2.

(** surfacerzfourier_jax.py 194-195. *)
Definition normal (s : surface) : result (grid vec3) :=
  bind (gammadash1 s) (fun g1 => bind (gammadash2 s) (fun g2 => Ok (gmap2 cross3 g1 g2))).
(** surfacerzfourier_jax.py 199-201. *)
Definition unitnormal (s : surface) : result (grid vec3) :=
  bind (normal s) (fun N => Ok (gmap (fun n => scale3 (/ norm3 n) n) N)).
(** surfacerzfourier_jax.py 206-211. *)
Definition da (s : surface) : result (grid R) :=
  bind (normal s) (fun N => Ok (gmap (fun n => s_dphi s * s_dtheta s * norm3 n) N)).
(** [jnp.sum] over all elements (surfacerzfourier_jax.py 216, 222). *)
Definition gsum (g : grid R) : R := fold_right Rplus 0 (concat g).
(** The shape of a grid, row by row; equal exactly when two rectangular arrays
    have equal shapes (surfacerzfourier_jax.py 216). *)
Definition gshape {A} (g : grid A) : list nat := map (@length A) g.
(** surfacerzfourier_jax.py 213-216, [integrate], for a scalar field sampled on
    the surface's own grid.  Other shapes that broadcast against the grid are
    not modelled: they are rejected here. *)
Definition integrate (s : surface) (scalar_field : grid R) : result R :=
  bind (da s) (fun d =>
  if list_eq_dec Nat.eq_dec (gshape scalar_field) (gshape d)
  then Ok (gsum (gmap2 Rmult scalar_field d)) else Raise ValueError).
(** surfacerzfourier_jax.py 220-222. *)
Definition area (s : surface) : result R := bind (da s) (fun d => Ok (gsum d)).

(** surfacerzfourier_jax.py 226-243, [grad_helper], at one point. *)
Definition grad1_at (dg1 dg2 : vec3) : vec3 :=
  let n := cross3 dg1 dg2 in scale3 (/ dot3 n n) (cross3 dg2 n).
(** surfacerzfourier_jax.py 226-243, the other gradient. *)
Definition grad2_at (dg1 dg2 : vec3) : vec3 :=
  let n := cross3 dg1 dg2 in scale3 (/ dot3 n n) (cross3 dg1 (scale3 (-1) n)).
(** surfacerzfourier_jax.py 226-243, on the grid. *)
Definition grad_helper (s : surface) : result (grid vec3 * grid vec3) :=
  bind (gammadash2 s) (fun g2 => bind (gammadash1 s) (fun g1 =>
  Ok (gmap2 grad1_at g1 g2, gmap2 grad2_at g1 g2))).

(** surfacerzfourier_jax.py 281-340, at one point: the normal [nrm], its
    derivative [ndash], a tangent [g] and its derivative [gd] give
    [gd/|N| + g * d(1/|N|)].  [x ** 1.5] is x * sqrt x for x >= 0. *)
Definition pow15 (x : R) : R := x * sqrt x.
(** surfacerzfourier_jax.py 281-340, d(1/|N|). *)
Definition inv_norm_dash (nrm ndash : vec3) : R := - dot3 nrm ndash / pow15 (dot3 nrm nrm).
(** surfacerzfourier_jax.py 281-340, as described above. *)
Definition dg_inv_n_dash_at (nrm ndash g gd : vec3) : vec3 :=
  add3 (scale3 (snd (norm_helper nrm)) gd) (scale3 (inv_norm_dash nrm ndash) g).
(** surfacerzfourier_jax.py 304-313: derivatives of the normal at one point
    (with [dg11] for d(dg1), [dg12] for d(dg2)). *)
Definition normaldash_at (dg1 dg2 dga1 dga2 : vec3) : vec3 :=
  add3 (cross3 dga1 dg2) (cross3 dg1 dga2).
(** A pointwise function of the five tangent fields and the normal, on the
    grid (the common shape of 281-340 and 247-277). *)
Definition from_fields {A} (s : surface) (f : vec3 -> vec3 -> vec3 -> vec3 -> vec3 -> vec3 -> A)
  : result (grid A) :=
  bind (normal s) (fun N =>
  bind (gammadash1 s) (fun g1 => bind (gammadash2 s) (fun g2 =>
  bind (gammadash1dash1 s) (fun g11 => bind (gammadash1dash2 s) (fun g12 =>
  bind (gammadash2dash2 s) (fun g22 =>
  Ok (gmap2 (fun h x => h x)
       (gmap2 (fun h x => h x)
         (gmap2 (fun h x => h x)
           (gmap2 (fun h x => h x)
             (gmap2 f N g1) g2) g11) g12) g22))))))).
(** surfacerzfourier_jax.py 281-340, [dga_inv_n_dashb], at one point. *)
Definition dga_at (N g1 g2 g11 g12 g22 : vec3) : vec3 * vec3 * vec3 * vec3 :=
  let n1 := normaldash_at g1 g2 g11 g12 in
  let n2 := normaldash_at g1 g2 g12 g22 in
  (dg_inv_n_dash_at N n1 g1 g11, dg_inv_n_dash_at N n2 g1 g12,
   dg_inv_n_dash_at N n1 g2 g12, dg_inv_n_dash_at N n2 g2 g22).
(** surfacerzfourier_jax.py 281-340, [dga_inv_n_dashb], on the grid; the four
    results at a point are kept together. *)
Definition dga_inv_n_dashb (s : surface) : result (grid (vec3 * vec3 * vec3 * vec3)) :=
  from_fields s dga_at.
(** surfacerzfourier_jax.py 247-277, [unitnormaldash], at one point. *)
Definition unitnormaldash_at (N g1 g2 g11 g12 g22 : vec3) : vec3 * vec3 :=
  let '(d11, d12, _, _) := dga_at N g1 g2 g11 g12 g22 in
  let g1_inv_n := scale3 (snd (norm_helper N)) g1 in
  (add3 (cross3 d11 g2) (cross3 g1_inv_n g12),
   add3 (cross3 d12 g2) (cross3 g1_inv_n g22)).
(** surfacerzfourier_jax.py 247-277, on the grid. *)
Definition unitnormaldash (s : surface) : result (grid (vec3 * vec3)) :=
  from_fields s unitnormaldash_at.

(** The leaves of a flattened object: scalars, vectors and matrices
    (surfacerzfourier_jax.py 345-353, quadcoil_params.py 182-203). *)
Inductive leaf : Type := Leaf0 (x : R) | Leaf1 (l : list R) | Leaf2 (g : grid R).
(** A leaf as a constructor argument (surfacerzfourier_jax.py 369-371). *)
Definition leaf_obj (l : leaf) : pyobj :=
  match l with
  | Leaf0 x => PyArr (scal x)
  | Leaf1 l => arr1 l
  | Leaf2 g => PyArr (Arr [length g; length (hd [] g)] (concat g))
  end.
(** The static part of a flattened surface (surfacerzfourier_jax.py 354-359). *)
Record surf_aux : Type := SurfAux {
  a_nfp : nat; a_stellsym : bool; a_mpol : nat; a_ntor : nat }.
(** surfacerzfourier_jax.py 344-360, [tree_flatten]. *)
Definition surf_flatten (s : surface) : list leaf * surf_aux :=
  ([Leaf1 (s_qphi s); Leaf1 (s_qtheta s); Leaf1 (s_dofs s);
    Leaf2 (s_theta_mesh s); Leaf2 (s_phi_mesh s); Leaf0 (s_dphi s); Leaf0 (s_dtheta s)],
   SurfAux (s_nfp s) (s_stellsym s) (s_mpol s) (s_ntor s)).
(** [children[i]] (surfacerzfourier_jax.py 362-372). *)
Definition child (c : list leaf) (i : nat) : result pyobj :=
  match nth_error c i with Some l => Ok (leaf_obj l) | None => Raise IndexError end.
(** surfacerzfourier_jax.py 362-372, [tree_unflatten]. *)
Definition surf_unflatten (x : surf_aux) (c : list leaf) : result surface :=
  bind (child c 0) (fun p => bind (child c 1) (fun t => bind (child c 2) (fun d =>
  make_surface (a_nfp x) (a_stellsym x) (a_mpol x) (a_ntor x) p t d))).

(** Python slices [l[:-k]] and [l[-k:]] for k >= 0 (surfacerzfourier_jax.py
    129-144): for k = 0 the first is empty and the second is everything. *)
Definition slice_to_neg {A} (k : nat) (l : list A) : list A :=
  match k with O => [] | _ => firstn (length l - k) l end.
(** [l[-k:]], see above (surfacerzfourier_jax.py 129-144). *)
Definition slice_from_neg {A} (k : nat) (l : list A) : list A :=
  match k with O => l | _ => skipn (length l - k) l end.
(** [jnp.insert(l, 0, 0.)] (131, 142, 145). *)
Definition insert0 (l : list R) : list R := 0 :: l.

(** The four coefficient tables (rc, rs, zc, zs) exchanged with DESC's
    [ptolemy_identity_fwd]/[_rev], each indexed by (mc, nc) (surfacerzfourier_jax.py 60-160). *)
Record tables : Type := Tables { t_rc : list R; t_rs : list R; t_zc : list R; t_zs : list R }.

(** surfacerzfourier_jax.py 126-145, the first half of [to_desc]: the tables
    passed to DESC's ptolemy_identity_fwd.  The DESC call itself is not
    modelled. *)
Definition to_desc_tables (s : surface) : tables :=
  let d := s_dofs s in
  if s_stellsym s then
    let len_sin := (length d / 2)%nat in
    let rc := slice_to_neg len_sin d in
    {| t_rc := rc; t_rs := zeros_like rc; t_zc := zeros_like rc;
       t_zs := insert0 (slice_from_neg len_sin d) |}
  else
    let half_len := (length d / 2)%nat in
    let len_sin := (half_len / 2)%nat in
    let rcrs := firstn (half_len / 2) d in
    let zczs := skipn (half_len / 2) d in
    {| t_rc := slice_to_neg len_sin rcrs; t_rs := insert0 (slice_from_neg len_sin rcrs);
       t_zc := slice_to_neg len_sin zczs; t_zs := insert0 (slice_from_neg len_sin zczs) |}.

(** surfacerzfourier_jax.py 101-108, the second half of [from_desc]: the
    coefficient vector built from the tables that ptolemy_identity_rev
    returns. *)
Definition from_desc_dofs (stellsym : bool) (t : tables) : list R :=
  let rc := t_rc t in
  let rs := skipn 1 (t_rs t) in
  let zc := t_zc t in
  let zs := skipn 1 (t_zs t) in
  if stellsym then rc ++ zs else rc ++ rs ++ zc ++ zs.
