(** Model of src/quadcoil/io/coil_cutting.py over the reals.  The contour
    finder of matplotlib is a parameter.  simsopt and matplotlib are taken to
    be installed.  Printing and plotting are not modelled.  No proofs here. *)
From Coq Require Import String List Bool Arith ZArith Reals.
From Verif Require Import Base ModelArray ModelMath ModelSurface ModelParams ModelField ModelSimsopt.
Import ListNotations.
Open Scope R_scope.

(** [plt.contour(x, y, z, levels)] with the attribute allsegs of its result
    (coil_cutting.py 59, 69): for every level the list of its paths, a path
    being a list of (zeta, theta) points. *)
Definition contour_finder : Type :=
  list R -> list R -> grid R -> list R -> result (list (list (list (R * R)))).

(** [np.linspace(0, stop, n, endpoint=False)] (coil_cutting.py 28, 52, 54). *)
Definition linspace_open (stop : R) (n : nat) : list R :=
  map (fun i => INR i * (stop / INR n)) (seq 0 n).
(** [np.finfo(float).eps] (coil_cutting.py 38). *)
Definition finfo_eps : R := / 2 ^ 52.
(** [np.transpose] of a two-dimensional array with rows of length [n]
    (coil_cutting.py 59). *)
Definition transpose (n : nat) (g : grid R) : grid R :=
  map (fun j => map (fun row => nth j row 0) g) (seq 0 n).

(** coil_cutting.py 18, 28: the poloidal angles handed to the contour finder.
    An empty array raises at [theta[0]]. *)
Definition cut_theta (q : params) : result (list R) :=
  match q_qtheta q with
  | [] => Raise IndexError
  | t0 :: _ => Ok (map (fun x => t0 * 2 * PI + x) (linspace_open (2 * PI) (length (q_qtheta q))))
  end.
(** coil_cutting.py 19, 30-33: the toroidal angles over three periods. *)
Definition cut_zeta (q : params) : list R :=
  let zeta := map (fun p => p * 2 * PI) (q_qphi q) in
  let d := 2 * PI / INR (q_nfp q) in
  map (fun z => z - d) zeta ++ zeta ++ map (fun z => z + d) zeta.
(** coil_cutting.py 38-43: the normalised potential over three periods.  When
    the maximum is 0 the quotient is NaN or infinite in NumPy and 0 here. *)
Definition cut_data (q : params) (current_potential : grid R) : result (grid R) :=
  if Rlt_dec finfo_eps (Rabs (q_G q)) then
    let data := gmap (fun p => p / q_G q * INR (q_nfp q)) current_potential in
    Ok (gmap (fun x => x - 1) data ++ data ++ gmap (fun x => x + 1) data)
  else
    match concat current_potential with
    | [] => Raise ValueError
    | p :: ps => let data := gmap (fun x => x / lmax p ps) current_potential in Ok (data ++ data ++ data)
    end.
(** Python's [x % 1] for a float (coil_cutting.py 48). *)
Definition mod1 (x : R) : R := x - IZR (Int_part x).
(** coil_cutting.py 47-57: the levels. *)
Definition cut_levels (stellsym : bool) (coils_per_half_period : nat) (theta_shift : R) : result (list R) :=
  match coils_per_half_period with
  | O => Raise ZeroDivisionError
  | _ =>
    let d := (1 / 2) / INR coils_per_half_period in
    let level_shift := mod1 theta_shift * d in
    let levels :=
      if stellsym then linspace_open (1 / 2) coils_per_half_period
      else map (fun x => x + level_shift) (linspace_open 1 (coils_per_half_period * 2)) in
    Ok (map (fun x => x + d / 2) levels)
  end.
(** coil_cutting.py 10-80, [coil_zeta_theta_from_qp]: the list of paths, each a
    list of (zeta, theta) points (the code returns the two components in two
    lists). *)
Definition coil_zeta_theta_from_qp (find : contour_finder) (q : params) (x : list R)
    (coils_per_half_period : nat) (theta_shift : R) : result (list (list (R * R))) :=
  bind (Phi_with_net_current q x) (fun current_potential =>
  bind (cut_theta q) (fun theta =>
  bind (cut_data q current_potential) (fun data_3 =>
  bind (cut_levels (q_stellsym q) coils_per_half_period theta_shift) (fun levels =>
  bind (find (cut_zeta q) theta (transpose (length theta) data_3) levels) (fun allsegs =>
  Ok (concat allsegs)))))).

(** coil_cutting.py 130-146: R and Z of one point of a path.  The table
    [surf.rc[m, i]] is the coefficient (m, i - ntor). *)
Definition cut_step (ss : simsopt_surface) (zeta theta : R) (acc : R * R) (mi : Z * nat) : R * R :=
  let m := fst mi in
  let n := (Z.of_nat (snd mi) - Z.of_nat (ss_ntor ss))%Z in
  let crc := ss_rc ss m n in
  let czs := ss_zs ss m n in
  let crs := if ss_stellsym ss then 0 else ss_rs ss m n in
  let czc := if ss_stellsym ss then 0 else ss_zc ss m n in
  let angle := IZR m * theta - IZR n * zeta * INR (ss_nfp ss) in
  (fst acc + crc * cos angle + crs * sin angle, snd acc + czs * sin angle + czc * cos angle).
(** coil_cutting.py 130-145: the loops over m and n. *)
Definition cut_RZ (ss : simsopt_surface) (zeta theta : R) : R * R :=
  fold_left (cut_step ss zeta theta)
    (flat_map (fun m => map (fun i => (m, i)) (seq 0 (2 * ss_ntor ss + 1))) (arange 0 (ss_mpol ss + 1))) (0, 0).
(** coil_cutting.py 148-152: the Cartesian coordinates. *)
Definition cut_point (ss : simsopt_surface) (zt : R * R) : vec3 :=
  let rz := cut_RZ ss (fst zt) (snd zt) in
  V3 (fst rz * cos (fst zt)) (fst rz * sin (fst zt)) (snd rz).

(** coil_cutting.py 153-155: the current of every coil.  Dividing by 0 coils
    raises when the net current is a Python float. *)
Definition coil_currents (q : params) (num_coils : nat) : result R :=
  match num_coils with
  | O => Raise ZeroDivisionError
  | _ => let c := q_G q / INR num_coils / INR (q_nfp q) in
         Ok (if q_stellsym q then c / 2 else c)
  end.
(** The lines of a coils file (coil_cutting.py 159-174): the number of field
    periods in the header, and per coil its points with the current, the last
    line repeating the first point with current 0. *)
Record coils_file : Type := CoilsFile { cf_periods : nat; cf_filaments : list (list (vec3 * R)) }.
(** coil_cutting.py 165-171: one coil.  An empty path raises at [contour_X[j][0]]. *)
Definition filament (current : R) (pts : list vec3) : result (list (vec3 * R)) :=
  match pts with
  | [] => Raise IndexError
  | p :: _ => Ok (map (fun v => (v, current)) pts ++ [(p, 0)])
  end.
(** All coils in turn (coil_cutting.py 165). *)
Fixpoint filaments (current : R) (coils : list (list vec3)) : result (list (list (vec3 * R))) :=
  match coils with
  | [] => Ok []
  | c :: cs => bind (filament current c) (fun f => bind (filaments current cs) (fun fs => Ok (f :: fs)))
  end.
(** coil_cutting.py 104-181, [coil_xyz_from_qp]: the coils, their common
    current and, when [save] is set, the file written. *)
Definition coil_xyz_from_qp (find : contour_finder) (q : params) (x : list R)
    (coils_per_half_period : nat) (theta_shift : R) (save : bool)
    : result (list (list vec3) * R * option coils_file) :=
  bind (coil_zeta_theta_from_qp find q x coils_per_half_period theta_shift) (fun paths =>
  bind (to_simsopt (q_winding q)) (fun surf =>
  let coils := map (map (cut_point surf)) paths in
  bind (coil_currents q (length paths)) (fun current =>
  if save then
    bind (filaments current coils) (fun fs =>
    Ok (coils, current, Some {| cf_periods := q_nfp q; cf_filaments := fs |}))
  else Ok (coils, current, None)))).

(** Real and imaginary part of [scipy.fft.rfft(x)[k]] (coil_cutting.py 85). *)
Definition rfft_re (x : list R) (k : nat) : R :=
  fold_right Rplus 0 (map2 (fun v j => v * cos (2 * PI * INR j * INR k / INR (length x))) x (seq 0 (length x))).
(** The imaginary part, see above (coil_cutting.py 85). *)
Definition rfft_im (x : list R) (k : nat) : R :=
  - fold_right Rplus 0 (map2 (fun v j => v * sin (2 * PI * INR j * INR k / INR (length x))) x (seq 0 (length x))).
(** coil_cutting.py 83-95, [ifft_simsopt].  rfft of an empty array raises
    ValueError. *)
Definition ifft_simsopt (x : list R) (order : nat) : result (list R) :=
  if Nat.ltb (length x) (2 * order) then Raise AssertionError
  else if Nat.eqb (length x) 0 then Raise ValueError
  else
    let N := INR (length x) in
    Ok (rfft_re x 0 / N :: flat_map (fun k => [- 2 * (rfft_im x k / N); 2 * (rfft_re x k / N)]) (seq 1 order)).

(** coil_cutting.py 195-203: the order, [None] and [0] asking for the default;
    the result [None] stands for float('inf'), left when there are no coils. *)
Definition default_order (coils : list (list vec3)) : option nat :=
  fold_left (fun o c => match o with
    | None => Some (length c / 2)%nat
    | Some k => Some (if Nat.ltb (length c / 2) k then (length c / 2)%nat else k) end) coils None.
(** A simsopt CurveXYZFourier (coil_cutting.py 205, 218): its order and the
    three vectors of coefficients. *)
Record curve : Type := Curve { cv_order : nat; cv_x : list R; cv_y : list R; cv_z : list R }.
(** coil_cutting.py 207-218: one coil. *)
Definition curve_of (order : nat) (c : list vec3) : result curve :=
  bind (ifft_simsopt (map vx c) order) (fun x =>
  bind (ifft_simsopt (map vy c) order) (fun y =>
  bind (ifft_simsopt (map vz c) order) (fun z =>
  Ok {| cv_order := order; cv_x := x; cv_y := y; cv_z := z |}))).
(** All coils in turn (coil_cutting.py 207). *)
Fixpoint curves_of (order : nat) (coils : list (list vec3)) : result (list curve) :=
  match coils with
  | [] => Ok []
  | c :: cs => bind (curve_of order c) (fun f => bind (curves_of order cs) (fun fs => Ok (f :: fs)))
  end.
(** coil_cutting.py 184-219, [simsopt_curves_from_xyz].  The number of
    quadrature points order*ppp of the curves is not modelled. *)
Definition simsopt_curves_from_xyz (coils : list (list vec3)) (order : option nat) : result (list curve) :=
  let chosen := match order with None | Some O => default_order coils | Some k => Some k end in
  match chosen with
  | None => Ok []
  | Some k => curves_of k coils
  end.

(** One coil of the full set built by simsopt's coils_via_symmetries (called in
    coil_cutting.py 255): the curve, the number of periods it is rotated by,
    whether it is the mirror image (y, z) -> (-y, -z) of the base curve, and its
    current. *)
Record coil : Type := Coil { cl_curve : curve; cl_period : nat; cl_flip : bool; cl_current : R }.
(** The call of coil_cutting.py 255; simsopt lists periods first, within a period the base coils and then the mirrored ones, whose currents are reversed. *)
Definition coils_via_symmetries (base : list (curve * R)) (nfp : nat) (stellsym : bool) : list coil :=
  flat_map (fun k => flat_map (fun f : bool => map (fun ci => {| cl_curve := fst ci; cl_period := k; cl_flip := f;
      cl_current := if f then - snd ci else snd ci |}) base)
    (if stellsym then [false; true] else [false])) (seq 0 nfp).
(** coil_cutting.py 221-256, [simsopt_coil_from_qp] with the default method and
    base_mode=False. *)
Definition simsopt_coil_from_qp (find : contour_finder) (q : params) (x : list R)
    (coils_per_half_period : nat) (theta_shift : R) (order : option nat) : result (list coil) :=
  bind (coil_xyz_from_qp find q x coils_per_half_period theta_shift false) (fun r =>
  let '(coils, current, _) := r in
  bind (simsopt_curves_from_xyz coils order) (fun curves =>
  Ok (coils_via_symmetries (map (fun c => (c, current)) curves) (q_nfp q) (q_stellsym q)))).
