(** Model of src/quadcoil/quantity/force.py over the reals.  No proofs here.
    The commented-out versions (263-349, 458-513) are not modelled. *)
From Coq Require Import String List Bool Arith ZArith Reals.
From Verif Require Import Base ModelArray ModelMath ModelSurface ModelParams ModelField.
Import ListNotations.
Open Scope R_scope.

(** A 3x3 tensor at one grid point, the last two axes of the integrands
    (force.py 24-25).  The first index, which acts on K(y), selects one of the
    three rows. *)
Record mat3 : Type := M3 { m_x : vec3; m_y : vec3; m_z : vec3 }.
(** Sums of tensors (force.py 76-111). *)
Definition madd3 (A B : mat3) : mat3 :=
  M3 (add3 (m_x A) (m_x B)) (add3 (m_y A) (m_y B)) (add3 (m_z A) (m_z B)).
(** Differences of tensors (force.py 87, 110). *)
Definition msub3 (A B : mat3) : mat3 :=
  M3 (sub3 (m_x A) (m_x B)) (sub3 (m_y A) (m_y B)) (sub3 (m_z A) (m_z B)).
(** A number times a tensor (force.py 76, 102). *)
Definition mscale3 (c : R) (A : mat3) : mat3 :=
  M3 (scale3 c (m_x A)) (scale3 c (m_y A)) (scale3 c (m_z A)).
(** The zero tensor, the value of an empty sum (jnp.einsum in force.py 236-258). *)
Definition mzero3 : mat3 := M3 zero3 zero3 zero3.
(** [a[:, :, :, None] * b[:, :, None, :]] (force.py 85, 88-89, 96, 98-99, 106, 110). *)
Definition outer3 (a b : vec3) : mat3 := M3 (scale3 (vx a) b) (scale3 (vy a) b) (scale3 (vz a) b).
(** [.swapaxes(2, 3)] (force.py 148-155). *)
Definition swapaxes (A : mat3) : mat3 :=
  M3 (V3 (vx (m_x A)) (vx (m_y A)) (vx (m_z A)))
     (V3 (vy (m_x A)) (vy (m_y A)) (vy (m_z A)))
     (V3 (vz (m_x A)) (vz (m_y A)) (vz (m_z A))).
(** Contraction with K: ['ijk,ijlkm->ijm'] at one point and period (force.py
    248-258). *)
Definition vecmat (k : vec3) (A : mat3) : vec3 :=
  add3 (scale3 (vx k) (m_x A)) (add3 (scale3 (vy k) (m_y A)) (scale3 (vz k) (m_z A))).

(** force.py 39-111: the two integrands at one point, from the unit normal, its
    two derivatives, the two dual vectors, K and its two derivatives. *)
Definition div_n_at (n1 n2 grad1 grad2 : vec3) : R := dot3 grad1 n1 + dot3 grad2 n2.
(** force.py 58-73: [div_pi_x]. *)
Definition div_pi_at (n n1 n2 grad1 grad2 : vec3) : vec3 :=
  scale3 (-1) (add3 (scale3 (div_n_at n1 n2 grad1 grad2) n)
                    (add3 (scale3 (dot3 n grad1) n1) (scale3 (dot3 n grad2) n2))).
(** force.py 76-101: [integrand_single]. *)
Definition single_at (n n1 n2 grad1 grad2 k k1 k2 : vec3) : mat3 :=
  mscale3 fak
    (madd3 (madd3 (msub3 (outer3 (scale3 (div_n_at n1 n2 grad1 grad2) n) k)
                         (madd3 (outer3 grad1 k1) (outer3 grad2 k2)))
                  (outer3 k (div_pi_at n n1 n2 grad1 grad2)))
           (madd3 (outer3 k1 grad1) (outer3 k2 grad2))).
(** force.py 102-111: [integrand_double]. *)
Definition double_at (n k : vec3) : mat3 := mscale3 fak (msub3 (outer3 n k) (outer3 k n)).

(** force.py 14-114, [_force_integrands_xyz]. *)
Definition force_integrands_xyz (q : params) (x : list R) (mode : ws_mode)
  : result (grid mat3 * grid mat3) :=
  bind (sel_surface q mode) (fun s =>
  bind (unitnormal s) (fun u =>
  bind (unitnormaldash s) (fun ud =>
  bind (grad_helper s) (fun g =>
  bind (Kdash_helper q mode) (fun kd =>
  bind (K q x mode) (fun k =>
  bind (apply_vrows (kd_n kd) (kd1_op kd) x) (fun a1 =>
  bind (apply_vrows (kd_n kd) (kd2_op kd) x) (fun a2 =>
  let k1 := gmap2 add3 a1 (kd1_const kd) in
  let k2 := gmap2 add3 a2 (kd2_const kd) in
  let geo := gmap2 pair (gmap2 pair u ud) (gmap2 pair (fst g) (snd g)) in
  let cur := gmap2 pair k (gmap2 pair k1 k2) in
  Ok (gmap2 (fun ge cu => let '(n, (n1, n2), (g1, g2)) := ge in let '(k, (k1, k2)) := cu in
               single_at n n1 n2 g1 g2 k k1 k2) geo cur,
      gmap2 (fun n k => double_at n k) u k))))))))).

(** [project_arr_cylindrical] on an array with a trailing axis (force.py
    137-144): every column is projected. *)
Definition project_first (gamma : vec3) (A : mat3) : mat3 :=
  let c := swapaxes A in
  swapaxes (M3 (project_arr_cylindrical gamma (m_x c)) (project_arr_cylindrical gamma (m_y c))
               (project_arr_cylindrical gamma (m_z c))).
(** force.py 137-155: both axes, the second one by swapping. *)
Definition project_both (gamma : vec3) (A : mat3) : mat3 :=
  swapaxes (project_first gamma (swapaxes (project_first gamma A))).

(** The elements of a list with their positions ([np.arange] along an axis,
    force.py 198-202). *)
Definition enumerate {A} (l : list A) : list (nat * A) := combine (seq 0 (length l)) l.
(** The elements of a grid with their two positions (force.py 198-202). *)
Definition genum {A} (g : grid A) : list (nat * nat * A) :=
  concat (map (fun ir => map (fun ja => (fst ir, fst ja, snd ja)) (enumerate (snd ir))) (enumerate g)).
(** One field period of a grid over the whole torus: the reshaping of the axis
    of length nfp * n_phix into (nfp, n_phix) (force.py 193, 220-221). *)
Definition period {A} (n_phix fp : nat) (g : grid A) : grid A := firstn n_phix (skipn (fp * n_phix) g).

(** A source point: field period, two indices within the period, position, unit
    normal, area element and the two integrands (force.py 186-240). *)
Record source : Type := Source {
  so_fp : nat; so_phi : nat; so_theta : nat;
  so_x : vec3; so_n : vec3; so_da : R; so_single : mat3; so_double : mat3 }.
(** force.py 186-193: the pairs of axes (nfp, n_phix, n_thetax) as one list, in
    row-major order.  Area elements and integrands are those of the first
    period (227, 236-246). *)
Definition sources (gamma_x unitnormal_x : grid vec3) (da_1fp : grid R) (single double : grid mat3) (nfp : nat)
  : list source :=
  let n_phix := length single in
  concat (map (fun fp =>
    map (fun e => let '(p, t, (x, n, (a, (s, d)))) := e in
          Source fp p t x n a s d)
        (genum (gmap2 pair (gmap2 pair (period n_phix fp gamma_x) (period n_phix fp unitnormal_x))
                           (gmap2 pair da_1fp (gmap2 pair single double)))))
    (seq 0 nfp)).

(** force.py 203-207: [self_mask]. *)
Definition self_mask (i j : nat) (s : source) : bool :=
  Nat.eqb (so_fp s) 0 && Nat.eqb (so_phi s) i && Nat.eqb (so_theta s) j.
(** force.py 186, 215: distance with the small number added where the mask is set. *)
Definition masked_dist (mask : bool) (y x : vec3) : R :=
  sqrt (dot3 (sub3 y x) (sub3 y x) + / 10000000000 * (if mask then 1 else 0)).
(** force.py 224-228: [single_kernel_da]. *)
Definition single_kernel (mask : bool) (y : vec3) (s : source) : R :=
  if mask then 0 else so_da s / masked_dist mask y (so_x s).
(** force.py 216-218, 229-233: [double_kernel_da]. *)
Definition double_kernel (mask : bool) (y : vec3) (s : source) : R :=
  if mask then 0
  else so_da s * dot3 (sub3 y (so_x s)) (so_n s) / (masked_dist mask y (so_x s)) ^ 3.
(** Sum of tensors over the axes contracted in force.py 236-258. *)
Definition msum3 (l : list mat3) : mat3 := fold_right madd3 mzero3 l.

(** The reshapings of force.py 215, 220-221 succeed when the torus grid has
    nfp times the rows of the integrands; grids have rows of equal length
    here.  (An array that has the right number of elements but other row
    lengths does not occur: both come from the same surface.) *)
Definition reshape_ok (gamma_x : grid vec3) (single : grid mat3) (nfp : nat) : bool :=
  Nat.eqb (length gamma_x) (nfp * length single).

(** An operation on every element of a grid that may depend on its indices: the
    axes i, j of force.py 201-202, 236-258. *)
Definition gmapi {A B} (f : nat -> nat -> A -> B) (g : grid A) : grid B :=
  map (fun ir => map (fun jy => f (fst ir) (fst jy) (snd jy)) (enumerate (snd ir))) (enumerate g).
(** force.py 236-258 at one evaluation point (i, j), given as its position and
    the current there. *)
Definition contracted (src : list source) (kernel : bool -> vec3 -> source -> R) (T : source -> mat3)
    (i j : nat) (yk : vec3 * vec3) : vec3 :=
  vecmat (snd yk) (msum3 (map (fun s => mscale3 (kernel (self_mask i j s) (fst yk) s) (T s)) src)).
(** force.py 170-260, [_integrate_force]. *)
Definition integrate_force (gamma_y gamma_x unitnormal_x K_cyl : grid vec3) (da_1fp : grid R)
    (single double : grid mat3) (nfp : nat) : result (grid vec3 * grid vec3) :=
  if reshape_ok gamma_x single nfp then
    let src := sources gamma_x unitnormal_x da_1fp single double nfp in
    let yk := gmap2 pair gamma_y K_cyl in
    Ok (gmapi (contracted src single_kernel so_single) yk, gmapi (contracted src double_kernel so_double) yk)
  else Raise TypeError.

(** force.py 419-426: the kernels of the legacy version, which drop pairs at
    distance zero instead of a fixed pair. *)
Definition legacy_single_kernel (y : vec3) (s : source) : R :=
  let d := norm3 (sub3 y (so_x s)) in if Req_EM_T d 0 then 0 else 1 / d.
(** force.py 422, 426. *)
Definition legacy_double_kernel (y : vec3) (s : source) : R :=
  let d := norm3 (sub3 y (so_x s)) in
  if Req_EM_T d 0 then 0 else dot3 (sub3 y (so_x s)) (so_n s) / d ^ 3.
(** force.py 405-456, [_integrate_force_legacy]. *)
Definition integrate_force_legacy (gamma_y gamma_x unitnormal_x K_cyl : grid vec3) (da_1fp : grid R)
    (single double : grid mat3) (nfp : nat) : result (grid vec3 * grid vec3) :=
  if reshape_ok gamma_x single nfp then
    let src := sources gamma_x unitnormal_x da_1fp single double nfp in
    let at_point (kernel : vec3 -> source -> R) (T : source -> mat3) (yk : vec3 * vec3) :=
      sum3 (map (fun s => vecmat (snd yk) (mscale3 (kernel (fst yk) s * so_da s) (T s))) src) in
    let yk := gmap2 pair gamma_y K_cyl in
    Ok (gmap (at_point legacy_single_kernel so_single) yk,
        gmap (at_point legacy_double_kernel so_double) yk)
  else Raise TypeError.

(** force.py 126-168: the part of [_force_cyl] after the surface and current
    arrays have been computed. *)
Definition force_from_arrays (gamma_y gamma_x unitnormal_x K_y : grid vec3) (da : grid R)
    (single_1fp double_1fp : grid mat3) (n_phi_1fp nfp : nat) : result (grid vec3) :=
  let gamma_x_1fp := first_rows n_phi_1fp gamma_x in
  let da_1fp := first_rows n_phi_1fp da in
  let K_cyl := gmap2 project_arr_cylindrical gamma_y K_y in
  let cyl := gmap2 project_both gamma_x_1fp in
  bind (integrate_force gamma_y gamma_x unitnormal_x K_cyl da_1fp (cyl single_1fp) (cyl double_1fp) nfp)
    (fun r => Ok (gmap2 add3 (fst r) (snd r))).
(** force.py 116-168, [_force_cyl]. *)
Definition force_cyl (q : params) (x : list R) : result (grid vec3) :=
  let n_phi_1fp := (length (s_qphi (q_winding q)) / q_nfp q)%nat in
  bind (force_integrands_xyz q x OnDivide) (fun T =>
  bind (gamma (q_winding q)) (fun gx =>
  bind (gamma (q_eval q)) (fun gy =>
  bind (da (q_winding q)) (fun a =>
  bind (K q x OnEval) (fun k =>
  bind (unitnormal (q_winding q)) (fun n =>
  force_from_arrays gy gx n k a (fst T) (snd T) n_phi_1fp (q_nfp q))))))).
(** force.py 351-403, [_force_cyl_legacy]: the readable version, evaluated on
    the first field period of the winding surface. *)
Definition force_cyl_legacy (q : params) (x : list R) : result (grid vec3) :=
  let n_phi_1fp := (length (s_qphi (q_winding q)) / s_nfp (q_winding q))%nat in
  bind (force_integrands_xyz q x OnDivide) (fun T =>
  bind (gamma (q_winding q)) (fun gx =>
  let gy := first_rows n_phi_1fp gx in
  bind (da (q_winding q)) (fun a =>
  bind (K q x OnDivide) (fun k =>
  bind (unitnormal (q_winding q)) (fun n =>
  let cyl := gmap2 project_both gy in
  bind (integrate_force_legacy gy gx n (gmap2 project_arr_cylindrical gy k) (first_rows n_phi_1fp a)
          (cyl (fst T)) (cyl (snd T)) (q_nfp q))
    (fun r => Ok (gmap2 add3 (fst r) (snd r)))))))).
