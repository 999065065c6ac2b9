(** Model of src/quadcoil/quantity/current.py, magnetic_field.py, dipole.py and
    curvature.py over the reals.  The coefficient vector is dofs['phi'].  No
    proofs here.  Division by zero is a real number in Coq and inf or NaN in
    JAX; statements about these functions assume regular surfaces and distinct
    points where that matters. *)
From Coq Require Import String List Bool Arith ZArith Reals.
From Verif Require Import Base ModelArray ModelMath ModelSurface ModelParams.
Import ListNotations.
Open Scope R_scope.

(** The first [n] rows of a grid (current.py 18-20, [x[:n, :, :]]). *)
Definition first_rows {A} (n : nat) (g : grid A) : grid A := firstn n g.

(** current.py 16-28: normal, dg1, dg2 for a mode. *)
Definition K_fields (q : params) (mode : ws_mode) : result (grid vec3 * grid vec3 * grid vec3) :=
  let s := match mode with OnEval => q_eval q | _ => q_winding q end in
  let cut g := match mode with
    | OnDivide => first_rows (length (s_qphi (q_winding q)) / s_nfp (q_winding q)) g
    | _ => g end in
  bind (normal s) (fun N => bind (gammadash1 s) (fun g1 => bind (gammadash2 s) (fun g2 =>
  Ok (cut N, cut g1, cut g2)))).

(** current.py 46-49: the operator b_K at one point, one three-vector per
    coefficient. *)
Definition b_K_at (N dg1 dg2 : vec3) (rphi rtheta : list R) : list vec3 :=
  map2 (fun a b => scale3 (/ norm3 N) (sub3 (scale3 a dg2) (scale3 b dg1))) rphi rtheta.
(** current.py 50-53: c_K at one point. *)
Definition c_K_at (G I : R) (N dg1 dg2 : vec3) : vec3 :=
  scale3 (/ norm3 N) (sub3 (scale3 G dg2) (scale3 I dg1)).

(** current.py 9-54, [_K]. *)
Definition K (q : params) (x : list R) (mode : ws_mode) : result (grid vec3) :=
  bind (K_fields q mode) (fun f => let '(N, g1, g2) := f in
  bind (diff_helper q mode) (fun d =>
  let geo := gmap2 pair (gmap2 pair N g1) g2 in
  let b_K := gmap2 (fun ge tr => let '(n, a, b) := ge in
      b_K_at n a b (row_diag tr (d_phi d)) (row_diag tr (d_theta d))) geo (d_trig_diff d) in
  let c_K := gmap (fun ge => let '(n, a, b) := ge in c_K_at (q_G q) (q_I q) n a b) geo in
  bind (apply_vrows (d_n d) b_K x) (fun sv => Ok (gmap2 add3 sv c_K)))).
(** current.py 58-59, [_K2]. *)
Definition K2 (q : params) (x : list R) : result (grid R) :=
  bind (K q x OnEval) (fun k => Ok (gmap (fun v => dot3 v v) k)).

(** current.py 76-81: trig_choice as written in _K_theta: the general branch
    lacks the last element (and passes a Python list to jnp.repeat). *)
Definition K_theta_choice (stellsym : bool) (n_harmonic : nat) : list Z :=
  if stellsym then repeat 1%Z n_harmonic
  else repeat 1%Z (n_harmonic / 2) ++ repeat (-1)%Z (n_harmonic / 2).
(** current.py 63-97, [_K_theta]. *)
Definition K_theta (q : params) (x : list R) : result (grid R) :=
  let '(m, n) := make_mn (q_mpol q) (q_ntor q) (q_stellsym q) in
  let c := K_theta_choice (q_stellsym q) (length m) in
  if negb (Nat.eqb (length c) (length m)) then Raise TypeError
  else
    let partial_phi := map2 (fun a k => - IZR a * IZR k * INR (q_nfp q) * 2 * PI) n c in
    bind (diff_helper q OnEval) (fun d =>
    bind (apply_rows (d_n d) (gmap (fun r => row_diag r partial_phi) (d_trig_diff d)) x) (fun v =>
    Ok (gmap (fun y => y + q_G q) v))).

(** current.py 101-103, [_f_K]. *)
Definition f_K (q : params) (x : list R) : result R :=
  bind (K2 q x) (fun k => bind (integrate (q_eval q) (gmap (fun y => y / 2) k)) (fun v =>
  Ok (v * INR (q_nfp q)))).

(** dipole.py 10-23, [_Phi]. *)
Definition Phi (q : params) (x : list R) : result (grid R) :=
  bind (diff_helper q OnEval) (fun d => apply_rows (d_n d) (d_trig d) x).
(** [(trig_diff @ partial) @ phi_mn] and [(trig @ partial) @ phi_mn]: the
    single-valued potential differentiated once (curvature.py 38-39) and twice
    (the operators of quadcoil_params.py 303, 310, 319, 326) on the evaluation
    points. *)
Definition dPhi_phi (q : params) (x : list R) : result (grid R) :=
  bind (diff_helper q OnEval) (fun d =>
  apply_rows (d_n d) (gmap (fun r => row_diag r (d_phi d)) (d_trig_diff d)) x).
(** As above with the poloidal operator (curvature.py 38-39). *)
Definition dPhi_theta (q : params) (x : list R) : result (grid R) :=
  bind (diff_helper q OnEval) (fun d =>
  apply_rows (d_n d) (gmap (fun r => row_diag r (d_theta d)) (d_trig_diff d)) x).
(** quadcoil_params.py 303, 310, 319, 326: as above, second toroidal derivative. *)
Definition dPhi_phi_phi (q : params) (x : list R) : result (grid R) :=
  bind (diff_helper q OnEval) (fun d =>
  apply_rows (d_n d) (gmap (fun r => row_diag r (d_phi_phi d)) (d_trig d)) x).
(** quadcoil_params.py 303, 310, 319, 326: as above, mixed derivative. *)
Definition dPhi_phi_theta (q : params) (x : list R) : result (grid R) :=
  bind (diff_helper q OnEval) (fun d =>
  apply_rows (d_n d) (gmap (fun r => row_diag r (d_phi_theta d)) (d_trig d)) x).
(** quadcoil_params.py 303, 310, 319, 326: as above, second poloidal derivative. *)
Definition dPhi_theta_theta (q : params) (x : list R) : result (grid R) :=
  bind (diff_helper q OnEval) (fun d =>
  apply_rows (d_n d) (gmap (fun r => row_diag r (d_theta_theta d)) (d_trig d)) x).
(** dipole.py 27-32, [_Phi_with_net_current]. *)
Definition Phi_with_net_current (q : params) (x : list R) : result (grid R) :=
  bind (Phi q x) (fun v =>
  Ok (gmap2 Rplus (gmap2 Rplus v (gmap (fun p => p * q_G q) (s_phi_mesh (q_eval q))))
        (gmap (fun t => t * q_I q) (s_theta_mesh (q_eval q))))).
(** dipole.py 35-36, [_Phi2]. *)
Definition Phi2 (q : params) (x : list R) : result (grid R) :=
  bind (Phi q x) (fun v => Ok (gmap (fun y => y * y) v)).
(** dipole.py 39-41, [_f_Phi]. *)
Definition f_Phi (q : params) (x : list R) : result R :=
  bind (Phi2 q x) (fun k => bind (integrate (q_eval q) (gmap (fun y => y / 2) k)) (fun v =>
  Ok (v * INR (q_nfp q)))).

(** magnetic_field.py 23-32, [compute_B], one field point: the sum over the
    winding-surface points of |N| K x r / |r|^3, r from source to field point. *)
Definition contribution (point ws_point ws_normal k : vec3) : vec3 :=
  let r := sub3 point ws_point in
  let rmag_inv := 1 / sqrt (dot3 r r) in
  scale3 (sqrt (dot3 ws_normal ws_normal)) (scale3 (rmag_inv * rmag_inv * rmag_inv) (cross3 k r)).
(** magnetic_field.py 31: the sum over source points. *)
Definition sum3 (l : list vec3) : vec3 := fold_right add3 zero3 l.
(** magnetic_field.py 23-32, as described above. *)
Definition compute_B (ws : list (vec3 * vec3 * vec3)) (point : vec3) : vec3 :=
  sum3 (map (fun w => let '(p, n, k) := w in contribution point p n k) ws).
(** magnetic_field.py 21: mu0/(4 pi). *)
Definition fak : R := / 10000000.
(** magnetic_field.py 9-34, [_winding_surface_B].  Reshaping to a list of
    points is row-major, as [concat]. *)
Definition winding_surface_B (q : params) (x : list R) : result (grid vec3) :=
  bind (gamma (q_plasma q)) (fun pts =>
  bind (gamma (q_winding q)) (fun wsg =>
  bind (normal (q_winding q)) (fun wsn =>
  bind (K q x OnWinding) (fun k =>
  let ws := map2 (fun pn v => (fst pn, snd pn, v)) (combine (concat wsg) (concat wsn)) (concat k) in
  let nphi := INR (length wsg) in
  let ntheta := INR (length (hd [] wsg)) in
  Ok (gmap (fun p => scale3 (/ ntheta) (scale3 (/ nphi) (scale3 fak (compute_B ws p)))) pts))))).
(** magnetic_field.py 38-43, [_Bnormal].  Bnormal_plasma must have the shape of
    the plasma grid; other shapes that broadcast are not modelled. *)
Definition Bnormal (q : params) (x : list R) : result (grid R) :=
  bind (unitnormal (q_plasma q)) (fun u => bind (winding_surface_B q x) (fun b =>
  let bn := gmap2 dot3 u b in
  if list_eq_dec Nat.eq_dec (gshape (q_Bnormal q)) (gshape bn)
  then Ok (gmap2 Rplus bn (q_Bnormal q)) else Raise ValueError)).
(** magnetic_field.py 48-51, [_f_B]. *)
Definition f_B (q : params) (x : list R) : result R :=
  bind (Bnormal q x) (fun b =>
  bind (integrate (q_plasma q) (gmap (fun y => y * y / 2) b)) (fun v => Ok (v * INR (q_nfp q)))).
(** magnetic_field.py 55-62, [_f_B_normalized_by_Bnormal_IG]. *)
Definition f_B_normalized (q : params) (x : list R) : result R :=
  bind (f_B q x) (fun v => bind (f_B q (repeat 0 (q_ndofs q))) (fun v0 => Ok (v / v0))).

(** curvature.py 9-41, [_K_dot_grad_K]. *)
Definition K_dot_grad_K (q : params) (x : list R) : result (grid vec3) :=
  bind (normal (q_eval q)) (fun N =>
  bind (Kdash_helper q OnEval) (fun kd =>
  bind (diff_helper q OnEval) (fun d =>
  bind (apply_vrows (kd_n kd) (kd1_op kd) x) (fun k1 =>
  bind (apply_vrows (kd_n kd) (kd2_op kd) x) (fun k2 =>
  bind (apply_rows (d_n d) (gmap (fun r => row_diag r (d_phi d)) (d_trig_diff d)) x) (fun pphi =>
  bind (apply_rows (d_n d) (gmap (fun r => row_diag r (d_theta d)) (d_trig_diff d)) x) (fun ptheta =>
  let Kdash1 := gmap2 add3 k1 (kd1_const kd) in
  let Kdash2 := gmap2 add3 k2 (kd2_const kd) in
  let term_a := gmap2 (fun p k => scale3 (p + q_G q) k) pphi Kdash2 in
  let term_b := gmap2 (fun p k => scale3 (p + q_I q) k) ptheta Kdash1 in
  Ok (gmap2 (fun n v => scale3 (snd (norm_helper n)) v) N (gmap2 sub3 term_a term_b))))))))).
(** The two derivatives of K used there (curvature.py 36-37). *)
Definition Kdash1 (q : params) (x : list R) : result (grid vec3) :=
  bind (Kdash_helper q OnEval) (fun kd =>
  bind (apply_vrows (kd_n kd) (kd1_op kd) x) (fun k1 => Ok (gmap2 add3 k1 (kd1_const kd)))).
(** curvature.py 36-37, see above. *)
Definition Kdash2 (q : params) (x : list R) : result (grid vec3) :=
  bind (Kdash_helper q OnEval) (fun kd =>
  bind (apply_vrows (kd_n kd) (kd2_op kd) x) (fun k2 => Ok (gmap2 add3 k2 (kd2_const kd)))).
(** curvature.py 45-47, [_K_dot_grad_K_cyl]. *)
Definition K_dot_grad_K_cyl (q : params) (x : list R) : result (grid vec3) :=
  bind (K_dot_grad_K q x) (fun k => bind (gamma (q_eval q)) (fun g =>
  Ok (gmap2 project_arr_cylindrical g k))).
