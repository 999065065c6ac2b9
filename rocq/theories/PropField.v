(** Properties of the parameter objects, the current potential, the surface
    current and the magnetic field. *)
From Coq Require Import String List Bool Arith ZArith Reals Lra Lia.
From Coquelicot Require Import Coquelicot.
From Verif Require Import Base ModelArray ModelMath SpecMath RDeriv ProofMath ModelSurface SpecSurface
  ProofSurface ProofSurface2 ProofSurface3 WitnessSurface
  ModelParams ModelField SpecField ProofField ProofField2 ProofField3 ProofField4 ProofField5 ProofField6 WitnessField.
Import ListNotations.
Open Scope R_scope.

(** ** C08 *)
Theorem C08_params_roundtrip :
  forall q, made q -> params_unflatten (snd (params_flatten q)) (fst (params_flatten q)) = Ok q.
Proof. exact params_roundtrip. Qed.
Print Assumptions C08_params_roundtrip.

Example C08_params_example : made (device 1 2 1 [[0; 1]; [2; 3]] false) /\ made (device 1 2 1 [[0; 1]; [2; 3]] true).
Proof. split; apply device_made. Qed.

(** The finite-element parameter class cannot be flattened at all: its static
    part reads attributes that are never set. *)
Theorem C08_finite_element_refuted :
  exists b, make_base torus torus 1 0 None None None None = Ok b /\ ~ exists f, fe_flatten b = Ok f.
Proof. eexists. split; [reflexivity|]. intros [f H]. rewrite fe_always_raises in H. discriminate. Qed.
Print Assumptions C08_finite_element_refuted.
Theorem C08_finite_element_always_raises : forall b, fe_flatten b = Raise AttributeError.
Proof. exact fe_always_raises. Qed.
Print Assumptions C08_finite_element_always_raises.

(** ** C10 *)
Theorem C10_potential_modes :
  forall mpol ntor, exists modes,
  once_each (fun mn => is_mode mpol ntor mn /\ mn <> (0%Z, 0%Z)) modes /\
  (forall m n, (Z.abs m <= Z.of_nat mpol)%Z -> (Z.abs n <= Z.of_nat ntor)%Z -> (m, n) <> (0%Z, 0%Z) ->
     In (m, n) modes /\ ~ In ((- m)%Z, (- n)%Z) modes \/ ~ In (m, n) modes /\ In ((- m)%Z, (- n)%Z) modes) /\
  forall q, made q -> q_mpol q = mpol -> q_ntor q = ntor ->
    q_ndofs_half q = length modes /\
    (q_stellsym q = true -> q_ndofs q = length modes /\
       forall x, length x = q_ndofs q ->
         qreports (fun q => Phi q x) q (fun p t => series sin (q_nfp q) modes x p t)) /\
    (q_stellsym q = false -> q_ndofs q = (2 * length modes + 1)%nat /\
       forall s c0 c, length s = length modes -> length c = length modes ->
         qreports (fun q => Phi q (s ++ c0 :: c)) q
           (fun p t => series sin (q_nfp q) modes s p t + c0 + series cos (q_nfp q) modes c p t)) /\
    (forall x, length x <> q_ndofs q -> Phi q x = Raise TypeError).
Proof. exact potential_modes. Qed.
Print Assumptions C10_potential_modes.

Example C10_example : forall st, let q := device 1 2 1 [[0; 1]; [2; 3]] st in
  made q /\ q_mpol q = 1%nat /\ q_ntor q = 1%nat /\ q_stellsym q = st.
Proof. intros st. split; [apply device_made|]. repeat split. Qed.

(** ** C11 *)
Theorem C11_potential_derivatives :
  forall q x, made q -> length x = q_ndofs q ->
  exists P P1 P2 P11 P12 P22 : R -> R -> R,
    qreports (fun q => Phi q x) q P /\
    qreports (fun q => dPhi_phi q x) q P1 /\ qreports (fun q => dPhi_theta q x) q P2 /\
    qreports (fun q => dPhi_phi_phi q x) q P11 /\ qreports (fun q => dPhi_phi_theta q x) q P12 /\
    qreports (fun q => dPhi_theta_theta q x) q P22 /\
    forall p t,
      is_derive (fun y => P y t) p (P1 p t) /\ is_derive (fun y => P p y) t (P2 p t) /\
      is_derive (fun y => P1 y t) p (P11 p t) /\ is_derive (fun y => P1 p y) t (P12 p t) /\
      is_derive (fun y => P2 y t) p (P12 p t) /\ is_derive (fun y => P2 p y) t (P22 p t).
Proof. exact potential_derivatives. Qed.
Print Assumptions C11_potential_derivatives.

Example C11_example : let q := device 1 2 1 [[0; 1]; [2; 3]] false in
  made q /\ length [1; 2; 3; 4; 5; 6; 7; 8; 9] = q_ndofs q.
Proof. split; [apply device_made|reflexivity]. Qed.

(** ** C12 *)
Theorem C12_potential_symmetry :
  forall q x F, made q -> qreports (fun q => Phi q x) q F ->
  forall p t, F (p + / INR (q_nfp q)) t = F p t /\ F p (t + 1) = F p t /\
    (q_stellsym q = true -> F (- p) (- t) = - F p t /\ F 0 0 = 0).
Proof. exact potential_symmetry. Qed.
Print Assumptions C12_potential_symmetry.

Example C12_example : let q := device 1 2 1 [[0; 1]; [2; 3]] true in
  made q /\ q_stellsym q = true /\ exists F, qreports (fun q => Phi q [1; 2; 3; 4]) q F.
Proof. split; [apply device_made|]. split; [reflexivity|]. eexists. apply phi_reports; [apply device_made|reflexivity]. Qed.

(** ** C13 *)
Theorem C13_net_currents :
  forall q x, made q -> length x = q_ndofs q ->
  exists F, qreports (fun q => Phi_with_net_current q x) q F /\
  forall p t, F (p + 1) t - F p t = q_G q /\ F p (t + 1) - F p t = q_I q.
Proof. exact net_currents. Qed.
Print Assumptions C13_net_currents.

Example C13_example : let q := device 1 2 1 [[0; 1]; [2; 3]] true in
  made q /\ length [1; 2; 3; 4] = q_ndofs q /\ q_G q = 2 /\ q_I q = 1.
Proof. split; [apply device_made|]. repeat split. Qed.

(** ** C14 *)
(** J1, J2: the contravariant components of |N| K.  That their derivatives
    cancel is the vanishing of the surface divergence. *)
Theorem C14_current_structure :
  forall q x, made q -> legal (q_winding q) -> length x = q_ndofs q ->
  exists (Kf T1 T2 N U E1 E2 : R -> R -> vec3) (F F1 F2 J1 J2 : R -> R -> R),
    qreports (fun q => K q x OnEval) q Kf /\
    qreports (fun q => Phi_with_net_current q x) q F /\
    reports gammadash1 (q_winding q) T1 /\ reports gammadash2 (q_winding q) T2 /\
    reports normal (q_winding q) N /\ reports unitnormal (q_winding q) U /\
    reports (first_of grad_helper) (q_winding q) E1 /\ reports (second_of grad_helper) (q_winding q) E2 /\
    (forall p t, is_derive (fun y => F y t) p (F1 p t) /\ is_derive (fun y => F p y) t (F2 p t)) /\
    (forall p t, N p t <> zero3 ->
       dot3 (Kf p t) (N p t) = 0 /\
       Kf p t = cross3 (U p t) (add3 (scale3 (F1 p t) (E1 p t)) (scale3 (F2 p t) (E2 p t))) /\
       scale3 (norm3 (N p t)) (Kf p t) = add3 (scale3 (J1 p t) (T1 p t)) (scale3 (J2 p t) (T2 p t))) /\
    (forall p t, exists d, is_derive (fun y => J1 y t) p d /\ is_derive (fun y => J2 p y) t (- d)).
Proof. exact current_structure. Qed.
Print Assumptions C14_current_structure.

Example C14_example : let q := device 1 2 1 [[0; 1]; [2; 3]] true in
  made q /\ legal (q_winding q) /\ length [1; 2; 3; 4] = q_ndofs q /\ forall p t, nrm (q_winding q) p t <> zero3.
Proof. split; [apply device_made|]. split; [reflexivity|]. split; [reflexivity|]. intros. apply ring_normal. lra. Qed.

(** ** C15 *)
Theorem C15_superposition :
  forall a b q1 q2 q x1 x2,
  made q1 -> made q2 -> made q -> superposed a b q1 q2 q -> legal (q_winding q) -> legal (q_plasma q) -> well_posed q ->
  plasma_shaped q1 -> plasma_shaped q2 -> length x1 = q_ndofs q -> length x2 = q_ndofs q ->
  (forall mode, exists k1 k2, K q1 x1 mode = Ok k1 /\ K q2 x2 mode = Ok k2 /\
     K q (lincomb a b x1 x2) mode = Ok (glincomb3 a b k1 k2)) /\
  (exists k1 k2, winding_surface_B q1 x1 = Ok k1 /\ winding_surface_B q2 x2 = Ok k2 /\
     winding_surface_B q (lincomb a b x1 x2) = Ok (glincomb3 a b k1 k2)) /\
  (exists k1 k2, Bnormal q1 x1 = Ok k1 /\ Bnormal q2 x2 = Ok k2 /\
     Bnormal q (lincomb a b x1 x2) = Ok (glincomb a b k1 k2)).
Proof. exact superposition. Qed.
Print Assumptions C15_superposition.

(** The same parameter object: affine in the coefficients. *)
Theorem C15_affine :
  forall t q x1 x2,
  made q -> legal (q_winding q) -> legal (q_plasma q) -> well_posed q ->
  plasma_shaped q -> length x1 = q_ndofs q -> length x2 = q_ndofs q ->
  (forall mode, exists k1 k2, K q x1 mode = Ok k1 /\ K q x2 mode = Ok k2 /\
     K q (lincomb t (1 - t) x1 x2) mode = Ok (glincomb3 t (1 - t) k1 k2)) /\
  (exists k1 k2, winding_surface_B q x1 = Ok k1 /\ winding_surface_B q x2 = Ok k2 /\
     winding_surface_B q (lincomb t (1 - t) x1 x2) = Ok (glincomb3 t (1 - t) k1 k2)) /\
  (exists k1 k2, Bnormal q x1 = Ok k1 /\ Bnormal q x2 = Ok k2 /\
     Bnormal q (lincomb t (1 - t) x1 x2) = Ok (glincomb t (1 - t) k1 k2)).
Proof. exact affine. Qed.
Print Assumptions C15_affine.

Example C15_example :
  let q1 := device 1 2 1 [[0; 1]; [2; 3]] true in
  let q2 := device 1 5 0 [[1; 1]; [0; 4]] true in
  let q := device 1 (2 * 2 + 3 * 5) (2 * 1 + 3 * 0) [[2 * 0 + 3 * 1; 2 * 1 + 3 * 1]; [2 * 2 + 3 * 0; 2 * 3 + 3 * 4]] true in
  made q1 /\ made q2 /\ made q /\ superposed 2 3 q1 q2 q /\ legal (q_winding q) /\ legal (q_plasma q) /\ well_posed q /\
  plasma_shaped q1 /\ plasma_shaped q2 /\ length [1; 2; 3; 4] = q_ndofs q.
Proof.
  split; [apply device_made|]. split; [apply device_made|]. split; [apply device_made|].
  split; [apply device_superposed|]. split; [reflexivity|]. split; [reflexivity|]. split; [apply device_well_posed|].
  split; [apply device_shaped|]. split; [apply device_shaped|reflexivity].
Qed.

(** ** C16 *)
Theorem C16_current_derivatives :
  forall q x, made q -> legal (q_winding q) -> length x = q_ndofs q ->
  exists Kf K1 K2 KK T1 T2 N : R -> R -> vec3,
    qreports (fun q => K q x OnEval) q Kf /\
    qreports (fun q => Kdash1 q x) q K1 /\ qreports (fun q => Kdash2 q x) q K2 /\
    qreports (fun q => K_dot_grad_K q x) q KK /\
    reports gammadash1 (q_winding q) T1 /\ reports gammadash2 (q_winding q) T2 /\
    reports normal (q_winding q) N /\
    forall p t, N p t <> zero3 ->
      derives (fun y => Kf y t) p (K1 p t) /\ derives (fun y => Kf p y) t (K2 p t) /\
      (exists a b, Kf p t = add3 (scale3 a (T1 p t)) (scale3 b (T2 p t))) /\
      (forall a b, Kf p t = add3 (scale3 a (T1 p t)) (scale3 b (T2 p t)) ->
         KK p t = add3 (scale3 a (K1 p t)) (scale3 b (K2 p t))).
Proof. exact current_derivatives. Qed.
Print Assumptions C16_current_derivatives.

Example C16_example : let q := device 1 2 1 [[0; 1]; [2; 3]] false in
  made q /\ legal (q_winding q) /\ length [1; 2; 3; 4; 5; 6; 7; 8; 9] = q_ndofs q /\ forall p t, nrm (q_winding q) p t <> zero3.
Proof. split; [apply device_made|]. split; [reflexivity|]. split; [reflexivity|]. intros. apply ring_normal. lra. Qed.

(** ** C17 *)
(** Stellarator-symmetric parameter objects.  Missing: the others, where it is
    false (next theorem). *)
Theorem C17_K_theta_symmetric_partial :
  forall q x F, made q -> q_stellsym q = true -> length x = q_ndofs q ->
  qreports (fun q => Phi_with_net_current q x) q F ->
  exists D, qreports (fun q => K_theta q x) q D /\ forall p t, is_derive (fun y => F y t) p (D p t).
Proof. exact K_theta_sym. Qed.
Print Assumptions C17_K_theta_symmetric_partial.

Example C17_example : let q := device 1 2 1 [[0; 1]; [2; 3]] true in
  made q /\ q_stellsym q = true /\ length [1; 2; 3; 4] = q_ndofs q /\
  exists F, qreports (fun q => Phi_with_net_current q [1; 2; 3; 4]) q F.
Proof.
  split; [apply device_made|]. split; [reflexivity|]. split; [reflexivity|]. eexists. apply tot_reports; [apply device_made|reflexivity].
Qed.

Theorem C17_K_theta_general_refuted :
  exists q x, made q /\ legal (q_winding q) /\ length x = q_ndofs q /\ ~ exists k, K_theta q x = Ok k.
Proof.
  exists (device 1 2 1 [[0; 1]; [2; 3]] false), [1; 2; 3; 4; 5; 6; 7; 8; 9].
  split; [apply device_made|]. split; [reflexivity|]. split; [reflexivity|].
  intros [k H]. rewrite K_theta_general in H by reflexivity. discriminate.
Qed.
Print Assumptions C17_K_theta_general_refuted.
Theorem C17_K_theta_general_always_raises :
  forall q x, q_stellsym q = false -> K_theta q x = Raise TypeError.
Proof. exact K_theta_general. Qed.
Print Assumptions C17_K_theta_general_always_raises.

(** ** C18 *)
Theorem C18_figures_of_merit_convex :
  forall q, made q -> legal (q_winding q) -> legal (q_plasma q) -> plasma_shaped q ->
  increasing (q_qphi q) -> increasing (q_qtheta q) -> increasing (s_qphi (q_plasma q)) -> increasing (s_qtheta (q_plasma q)) ->
  forall f, In f [f_B q; f_K q; f_Phi q] ->
    convex_on (q_ndofs q) f /\ forall x, length x = q_ndofs q -> local_min (q_ndofs q) f x -> global_min (q_ndofs q) f x.
Proof. exact figures_of_merit. Qed.
Print Assumptions C18_figures_of_merit_convex.

Example C18_example : let q := device 1 2 1 [[0; 1]; [2; 3]] true in
  made q /\ legal (q_winding q) /\ legal (q_plasma q) /\ plasma_shaped q /\ well_posed q /\
  increasing (q_qphi q) /\ increasing (q_qtheta q) /\ increasing (s_qphi (q_plasma q)) /\ increasing (s_qtheta (q_plasma q)).
Proof.
  split; [apply device_made|]. split; [reflexivity|]. split; [reflexivity|]. split; [apply device_shaped|].
  split; [apply device_well_posed|]. apply device_increasing.
Qed.

(** ** C19 *)
Theorem C19_rotation :
  forall a ws P,
  compute_B (map (fun w => let '(p, n, k) := w in (rotz a p, rotz a n, rotz a k)) ws) (rotz a P) = rotz a (compute_B ws P).
Proof. exact compute_B_rotz. Qed.
Print Assumptions C19_rotation.

Theorem C19_field_periods :
  forall q x x0 n, made q -> legal (q_winding q) -> legal (q_plasma q) -> length x = q_ndofs q ->
  s_nfp (q_plasma q) = s_nfp (q_winding q) -> n <> 0%nat ->
  s_qphi (q_winding q) = equispaced x0 (/ (INR (q_nfp q) * INR n)) (q_nfp q * n) ->
  exists F, preports (fun q => winding_surface_B q x) q F /\
  forall p t, F (p + / INR (q_nfp q)) t = rotz (2 * PI / INR (q_nfp q)) (F p t) /\ F (p + 1) t = F p t /\ F p (t + 1) = F p t.
Proof. exact field_periods. Qed.
Print Assumptions C19_field_periods.

Example C19_example : let q := device 1 2 1 [[0; 1]; [2; 3]] true in
  made q /\ legal (q_winding q) /\ legal (q_plasma q) /\ length [1; 2; 3; 4] = q_ndofs q /\
  s_nfp (q_plasma q) = s_nfp (q_winding q) /\ 1%nat <> 0%nat /\
  s_qphi (q_winding q) = equispaced 0 (/ (INR (q_nfp q) * INR 1)) (q_nfp q * 1).
Proof. split; [apply device_made|]. repeat split. discriminate. Qed.

(** ** C70 *)
Theorem C70_scaling :
  forall c q q' x v0, made q -> made q' -> legal (q_winding q) -> legal (q_plasma q) -> plasma_shaped q ->
  length x = q_ndofs q -> scaled c q q' -> c <> 0 -> f_B q (repeat 0 (q_ndofs q)) = Ok v0 -> v0 <> 0 ->
  exists v, f_B_normalized q x = Ok v /\ f_B_normalized q' (map (Rmult c) x) = Ok v.
Proof. exact normalized_invariant. Qed.
Print Assumptions C70_scaling.

Theorem C70_field_error_zero :
  forall q x b d v, made q -> legal (q_winding q) -> legal (q_plasma q) -> plasma_shaped q ->
  increasing (s_qphi (q_plasma q)) -> increasing (s_qtheta (q_plasma q)) -> length x = q_ndofs q ->
  Bnormal q x = Ok b -> da (q_plasma q) = Ok d -> f_B q x = Ok v ->
  (v = 0 <-> forall i j, 0 < nth j (nth i d []) 0 -> nth j (nth i b []) 0 = 0).
Proof. exact f_B_zero. Qed.
Print Assumptions C70_field_error_zero.

Theorem C70_normalised_error_zero :
  forall q x v0, made q -> legal (q_winding q) -> legal (q_plasma q) -> plasma_shaped q ->
  increasing (s_qphi (q_plasma q)) -> increasing (s_qtheta (q_plasma q)) -> length x = q_ndofs q ->
  f_B q (repeat 0 (q_ndofs q)) = Ok v0 -> v0 <> 0 ->
  exists b d v, Bnormal q x = Ok b /\ da (q_plasma q) = Ok d /\ f_B_normalized q x = Ok v /\ 0 <= v /\
    (v = 0 <-> forall i j, 0 < nth j (nth i d []) 0 -> nth j (nth i b []) 0 = 0).
Proof. exact normalized_error. Qed.
Print Assumptions C70_normalised_error_zero.

Example C70_example : let q := device 1 2 1 unit_error true in
  made q /\ legal (q_winding q) /\ legal (q_plasma q) /\ plasma_shaped q /\ well_posed q /\
  increasing (s_qphi (q_plasma q)) /\ increasing (s_qtheta (q_plasma q)) /\ length [1; 2; 3; 4] = q_ndofs q /\
  (exists v0, f_B q (repeat 0 (q_ndofs q)) = Ok v0 /\ v0 <> 0) /\
  (let q' := device 1 (3 * 2) (3 * 1) (map (map (Rmult 3)) unit_error) true in made q' /\ scaled 3 q q').
Proof.
  split; [apply device_made|]. split; [reflexivity|]. split; [reflexivity|]. split; [apply device_shaped|].
  split; [apply device_well_posed|]. split; [apply (device_increasing 1 2 1 unit_error true)|].
  split; [apply (device_increasing 1 2 1 unit_error true)|]. split; [reflexivity|]. split; [exact device_error|].
  split; [apply device_made|]. repeat split.
Qed.

(** ** C73 *)
Theorem C73_current_modes :
  forall q x Kf, made q -> legal (q_winding q) -> length x = q_ndofs q ->
  qreports (fun q => K q x OnEval) q Kf ->
  let ps := s_qphi (q_winding q) in let ts := s_qtheta (q_winding q) in
  K q x OnEval = Ok (sample Kf (q_qphi q) (q_qtheta q)) /\
  K q x OnWinding = Ok (sample Kf ps ts) /\
  K q x OnDivide = Ok (sample Kf (firstn (length ps / q_nfp q) ps) ts).
Proof. exact current_modes. Qed.
Print Assumptions C73_current_modes.

Example C73_example : let q := device 1 2 1 [[0; 1]; [2; 3]] true in
  made q /\ legal (q_winding q) /\ length [1; 2; 3; 4] = q_ndofs q /\
  exists Kf, qreports (fun q => K q [1; 2; 3; 4] OnEval) q Kf.
Proof.
  split; [apply device_made|]. split; [reflexivity|]. split; [reflexivity|].
  eexists. apply K_reports; [apply device_made|reflexivity|reflexivity].
Qed.

(** ** C74 *)
Theorem C74_field_of_position :
  forall q x, made q -> legal (q_winding q) -> length x = q_ndofs q ->
  exists els,
    (forall gw nw kw, gamma (q_winding q) = Ok gw -> normal (q_winding q) = Ok nw -> K q x OnWinding = Ok kw ->
       els = map2 (fun gn k => (fst gn, scale3 (norm3 (snd gn) / (INR (length (s_qphi (q_winding q))) * INR (length (s_qtheta (q_winding q))))) k))
               (combine (concat gw) (concat nw)) (concat kw)) /\
    (forall q' gp, made q' -> same_coil q q' -> legal (q_plasma q') -> gamma (q_plasma q') = Ok gp ->
       winding_surface_B q' x = Ok (map (map (biot_savart els)) gp)) /\
    (forall P gw, gamma (q_winding q) = Ok gw -> ~ In P (concat gw) -> divergence_free (biot_savart els) P).
Proof. exact field_of_position. Qed.
Print Assumptions C74_field_of_position.

Example C74_example : let q := device 1 2 1 [[0; 1]; [2; 3]] true in
  made q /\ legal (q_winding q) /\ length [1; 2; 3; 4] = q_ndofs q /\ well_posed q /\ same_coil q q.
Proof. split; [apply device_made|]. split; [reflexivity|]. split; [reflexivity|]. split; [apply device_well_posed|]. repeat split. Qed.

(** ** C75 *)
Theorem C75_size_scaling :
  forall c q q' x, made q -> made q' -> legal (q_winding q) -> legal (q_plasma q) -> plasma_shaped q ->
  length x = q_ndofs q -> 0 < c -> resized_problem c q q' ->
  (forall mode, exists k, K q x mode = Ok k /\ K q' x mode = Ok (map (map (scale3 (/ c))) k)) /\
  (exists b, winding_surface_B q x = Ok b /\ winding_surface_B q' x = Ok (map (map (scale3 (/ c))) b)) /\
  (exists b, Bnormal q x = Ok b /\ Bnormal q' x = Ok (map (map (Rmult (/ c))) b)) /\
  (exists v, f_B q x = Ok v /\ f_B q' x = Ok v) /\
  (exists v, f_K q x = Ok v /\ f_K q' x = Ok v) /\
  (exists v, f_Phi q x = Ok v /\ f_Phi q' x = Ok (c * c * v)).
Proof. exact resized_results. Qed.
Print Assumptions C75_size_scaling.

Example C75_example : let q := device 1 2 1 [[0; 1]; [2; 3]] true in
  let q' := device (2 * 1) 2 1 [[/ 2 * 0; / 2 * 1]; [/ 2 * 2; / 2 * 3]] true in
  made q /\ made q' /\ legal (q_winding q) /\ legal (q_plasma q) /\ plasma_shaped q /\ well_posed q /\
  length [1; 2; 3; 4] = q_ndofs q /\ 0 < 2 /\ resized_problem 2 q q'.
Proof.
  split; [apply device_made|]. split; [apply device_made|]. split; [reflexivity|]. split; [reflexivity|].
  split; [apply device_shaped|]. split; [apply device_well_posed|]. split; [reflexivity|]. split; [lra|].
  unfold resized_problem, resized. cbn. repeat split; f_equal; try ring; f_equal; try ring; f_equal; ring.
Qed.

(** ** C76 *)
Theorem C76_current_field_symmetry :
  forall q x, made q -> legal (q_winding q) -> legal (q_plasma q) -> length x = q_ndofs q ->
  q_stellsym q = true -> s_stellsym (q_winding q) = true -> s_stellsym (q_plasma q) = true ->
  symmetric_turn (s_qphi (q_winding q)) -> symmetric_turn (s_qtheta (q_winding q)) ->
  exists (Kf : R -> R -> vec3) (B : R -> R -> vec3) (Bn : R -> R -> R),
    qreports (fun q => K q x OnEval) q Kf /\
    preports (fun q => winding_surface_B q x) q B /\ preports (fun q => Bnormal q x) q Bn /\
    forall p t,
      Kf (- p) (- t) = scale3 (-1) (flip (Kf p t)) /\ B (- p) (- t) = scale3 (-1) (flip (B p t)) /\
      Bn (- p) (- t) = - Bn p t.
Proof. exact current_field_symmetry. Qed.
Print Assumptions C76_current_field_symmetry.

Example C76_example : let q := device 1 2 1 [[0; 1]; [2; 3]] true in
  made q /\ legal (q_winding q) /\ legal (q_plasma q) /\ length [1; 2; 3; 4] = q_ndofs q /\
  q_stellsym q = true /\ s_stellsym (q_winding q) = true /\ s_stellsym (q_plasma q) = true /\
  symmetric_turn (s_qphi (q_winding q)) /\ symmetric_turn (s_qtheta (q_winding q)).
Proof.
  split; [apply device_made|]. do 6 (split; [reflexivity|]). split.
  - exists 0%nat, 2%nat. split; [discriminate|]. cbn. f_equal; [field|f_equal; field].
  - exists 0%nat, 2%nat. split; [discriminate|]. cbn. f_equal; [field|f_equal; field].
Qed.
