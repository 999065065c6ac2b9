(** Properties C01-C09: the Fourier surface. *)
From Coq Require Import String List Bool Arith ZArith Reals Lra Lia.
From Coquelicot Require Import Coquelicot.
From Verif Require Import Base ModelArray ModelMath SpecMath ModelSurface SpecSurface
  ProofSurface ProofSurface2 ProofSurface3 WitnessSurface.
Import ListNotations.
Open Scope R_scope.

(** ** C01 *)
(** There are two lists of modes, complete and without repetition, in whose
    order the coefficients are read: rc ++ zs for a symmetric surface and
    rc ++ rs ++ zc ++ zs for a general one; the reported position is the
    Fourier series with those coefficients. *)
Theorem C01_mode_layout :
  forall mpol ntor, exists cl sl,
  once_each (is_mode mpol ntor) cl /\
  once_each (fun mn => is_mode mpol ntor mn /\ mn <> (0%Z, 0%Z)) sl /\
  length cl = n_modes mpol ntor /\ length sl = (n_modes mpol ntor - 1)%nat /\
  (forall s rc zs, s_mpol s = mpol -> s_ntor s = ntor -> s_stellsym s = true ->
     s_dofs s = rc ++ zs -> length rc = length cl -> length zs = length sl ->
     reports gamma s (fun phi theta =>
       cyl_point phi (series cos (s_nfp s) cl rc phi theta) (series sin (s_nfp s) sl zs phi theta))) /\
  (forall s rc rs zc zs, s_mpol s = mpol -> s_ntor s = ntor -> s_stellsym s = false ->
     s_dofs s = rc ++ rs ++ zc ++ zs -> length rc = length cl -> length rs = length sl ->
     length zc = length cl -> length zs = length sl ->
     reports gamma s (fun phi theta =>
       cyl_point phi (series cos (s_nfp s) cl rc phi theta + series sin (s_nfp s) sl rs phi theta)
                     (series cos (s_nfp s) cl zc phi theta + series sin (s_nfp s) sl zs phi theta))).
Proof. exact mode_layout. Qed.
Print Assumptions C01_mode_layout.

(** Every other number of coefficients is rejected, at every derivative order. *)
Theorem C01_wrong_length_rejected :
  forall s a b, ~ legal s -> gammadash a b s = Raise TypeError.
Proof. exact illegal_raises. Qed.
Print Assumptions C01_wrong_length_rejected.

Example C01_example : legal torus /\ legal torus_general /\ legal_length true 4 4 = 81%nat /\
  legal_length false 4 4 = 162%nat.
Proof. repeat split. Qed.

(** ** C02 *)
Theorem C02_surface_derivatives :
  forall s, legal s ->
  exists P : nat -> nat -> R -> R -> vec3,
    (forall a b, reports (gammadash a b) s (P a b)) /\
    forall a b phi theta,
      derives (fun x => P a b x theta) phi (P (S a) b phi theta) /\
      derives (fun x => P a b phi x) theta (P a (S b) phi theta).
Proof. exact surface_derivatives. Qed.
Print Assumptions C02_surface_derivatives.

Example C02_example : legal torus /\ legal torus_general.
Proof. split; [exact torus_legal|exact torus_general_legal]. Qed.

(** ** C03 *)
Theorem C03_surface_periods :
  forall s a b F, (s_nfp s <> 0)%nat -> reports (gammadash a b) s F ->
  forall phi theta,
    F (phi + / INR (s_nfp s)) theta = rotz (2 * PI / INR (s_nfp s)) (F phi theta) /\
    F (phi + 1) theta = F phi theta /\ F phi (theta + 1) = F phi theta.
Proof. exact surface_periods. Qed.
Print Assumptions C03_surface_periods.

Example C03_example : (s_nfp torus <> 0)%nat /\ exists F, reports (gammadash 2 1) torus F.
Proof. split; [discriminate|]. eexists. apply reports_gammadash. exact torus_legal. Qed.

(** ** C04 *)
Theorem C04_stellarator_symmetry :
  forall s F, s_stellsym s = true -> reports gamma s F ->
  forall phi theta,
    F (- phi) (- theta) = V3 (vx (F phi theta)) (- vy (F phi theta)) (- vz (F phi theta)).
Proof. exact surface_stellsym. Qed.
Print Assumptions C04_stellarator_symmetry.

Example C04_example : s_stellsym torus = true /\ exists F, reports gamma torus F.
Proof. split; [reflexivity|]. eexists. apply reports_gammadash. exact torus_legal. Qed.

(** ** C05 *)
Theorem C05_frame :
  forall s T1 T2, reports gammadash1 s T1 -> reports gammadash2 s T2 ->
  exists N U E1 E2 : R -> R -> vec3,
    reports normal s N /\ reports unitnormal s U /\
    reports (first_of grad_helper) s E1 /\ reports (second_of grad_helper) s E2 /\
    (forall ps ts s', copy_and_set_quadpoints s (arr1 ps) (arr1 ts) = Ok s' ->
       da s' = Ok (sample (fun p t => s_dphi s' * s_dtheta s' * norm3 (N p t)) ps ts)) /\
    forall p t,
      dot3 (N p t) (T1 p t) = 0 /\ dot3 (N p t) (T2 p t) = 0 /\
      norm3 (N p t) = sqrt (dot3 (T1 p t) (T1 p t) * dot3 (T2 p t) (T2 p t) - dot3 (T1 p t) (T2 p t) * dot3 (T1 p t) (T2 p t)) /\
      (N p t <> zero3 ->
        norm3 (U p t) = 1 /\ (exists c, 0 < c /\ U p t = scale3 c (N p t)) /\
        dot3 (E1 p t) (T1 p t) = 1 /\ dot3 (E1 p t) (T2 p t) = 0 /\
        dot3 (E2 p t) (T1 p t) = 0 /\ dot3 (E2 p t) (T2 p t) = 1 /\
        dot3 (E1 p t) (N p t) = 0 /\ dot3 (E2 p t) (N p t) = 0).
Proof. exact frame. Qed.
Print Assumptions C05_frame.

Example C05_example : (exists T1, reports gammadash1 torus T1) /\ (exists T2, reports gammadash2 torus T2) /\
  exists N, reports normal torus N /\ N 0 0 <> zero3.
Proof.
  split; [eexists; apply reports_gammadash; exact torus_legal|].
  split; [eexists; apply reports_gammadash; exact torus_legal|]. exact torus_regular.
Qed.

(** ** C06 *)
Theorem C06_geometry_derivatives :
  forall s, legal s ->
  exists (T1 T2 N U : R -> R -> vec3) (D : R -> R -> vec3 * vec3 * vec3 * vec3) (UD : R -> R -> vec3 * vec3),
    reports gammadash1 s T1 /\ reports gammadash2 s T2 /\ reports normal s N /\ reports unitnormal s U /\
    reports dga_inv_n_dashb s D /\ reports unitnormaldash s UD /\
    forall p t, N p t <> zero3 ->
      (let '(u1, u2) := UD p t in
       derives (fun x => U x t) p u1 /\ derives (fun x => U p x) t u2) /\
      (let '(d11, d12, d21, d22) := D p t in
       derives (fun x => scale3 (/ norm3 (N x t)) (T1 x t)) p d11 /\
       derives (fun x => scale3 (/ norm3 (N p x)) (T1 p x)) t d12 /\
       derives (fun x => scale3 (/ norm3 (N x t)) (T2 x t)) p d21 /\
       derives (fun x => scale3 (/ norm3 (N p x)) (T2 p x)) t d22).
Proof. exact geometry_derivatives. Qed.
Print Assumptions C06_geometry_derivatives.

Example C06_example : legal torus /\ exists N, reports normal torus N /\ N 0 0 <> zero3.
Proof. split; [exact torus_legal|exact torus_regular]. Qed.

(** ** C07 *)
(** [one] samples one field period with n >= 2 equispaced angles, [full] the
    whole torus with the same spacing. *)
Theorem C07_one_period :
  forall s x0 n ts (F : R -> R -> R) one full,
  legal s -> (s_nfp s <> 0)%nat -> (2 <= n)%nat ->
  (forall p t, F (p + / INR (s_nfp s)) t = F p t) ->
  let h := / (INR (s_nfp s) * INR n) in
  let ps1 := equispaced x0 h n in let psf := equispaced x0 h (s_nfp s * n) in
  copy_and_set_quadpoints s (arr1 ps1) (arr1 ts) = Ok one ->
  copy_and_set_quadpoints s (arr1 psf) (arr1 ts) = Ok full ->
  (exists A, area one = Ok A /\ area full = Ok (INR (s_nfp s) * A)) /\
  (exists V, integrate one (sample F ps1 ts) = Ok V /\ integrate full (sample F psf ts) = Ok (INR (s_nfp s) * V)).
Proof. exact one_period. Qed.
Print Assumptions C07_one_period.

Example C07_example : legal torus /\ (s_nfp torus <> 0)%nat /\ (2 <= 3)%nat /\
  (forall p t : R, (fun _ t => t) (p + / INR (s_nfp torus)) t = (fun _ t => t) p t) /\
  (exists one, copy_and_set_quadpoints torus (arr1 (equispaced 0 (/ (INR 2 * INR 3)) 3)) (arr1 [0; 1/2]) = Ok one) /\
  (exists full, copy_and_set_quadpoints torus (arr1 (equispaced 0 (/ (INR 2 * INR 3)) 6)) (arr1 [0; 1/2]) = Ok full).
Proof.
  split; [exact torus_legal|]. split; [discriminate|]. split; [lia|]. split; [reflexivity|].
  split; eexists; reflexivity.
Qed.

(** ** C08 *)
(** The surface class; the parameter classes are in PropParams.v. *)
Theorem C08_surface_roundtrip :
  forall nfp st mpol ntor p t d s,
  make_surface nfp st mpol ntor p t d = Ok s ->
  let '(c, x) := surf_flatten s in surf_unflatten x c = Ok s.
Proof. exact surf_roundtrip. Qed.
Print Assumptions C08_surface_roundtrip.

Example C08_surface_example :
  make_surface 2 true 1 0 (arr1 [0; 1/4]) (arr1 [0; 1/2]) (arr1 [3; 1; 1]) = Ok torus.
Proof. exact torus_made. Qed.

(** ** C09 *)
(** Every general (non-symmetric) surface: the cosine table of R handed to
    DESC is empty, because the vector is cut at a quarter of its length
    instead of half (surfacerzfourier_jax.py 138-139). *)
Theorem C09_desc_general_refuted :
  exists s, legal s /\ s_stellsym s = false /\
    length (t_rc (to_desc_tables s)) <> n_modes (s_mpol s) (s_ntor s).
Proof. exact desc_general_refuted. Qed.
Print Assumptions C09_desc_general_refuted.

Theorem C09_desc_general_always_wrong :
  forall s, legal s -> s_stellsym s = false -> t_rc (to_desc_tables s) = [].
Proof. exact desc_gen_rc. Qed.
Print Assumptions C09_desc_general_always_wrong.

(** A symmetric surface with a single coefficient: the slice [:-0] is empty. *)
Theorem C09_desc_circle_refuted :
  exists s, legal s /\ s_stellsym s = true /\
    length (t_rc (to_desc_tables s)) <> n_modes (s_mpol s) (s_ntor s).
Proof. exact desc_circle_refuted. Qed.
Print Assumptions C09_desc_circle_refuted.

(** What holds: symmetric surfaces with at least one sine coefficient.
    Missing: general surfaces and mpol = ntor = 0, where it is false. *)
Theorem C09_desc_symmetric_partial :
  forall s rc zs, s_stellsym s = true -> s_dofs s = rc ++ zs -> zs <> [] -> length rc = S (length zs) ->
  let t := to_desc_tables s in
  t_rc t = rc /\ t_zs t = 0 :: zs /\ t_rs t = map (fun _ => 0) rc /\ t_zc t = map (fun _ => 0) rc /\
  from_desc_dofs (s_stellsym s) t = s_dofs s.
Proof. exact desc_sym. Qed.
Print Assumptions C09_desc_symmetric_partial.

Example C09_example : s_stellsym torus = true /\ s_dofs torus = [3; 1] ++ [1] /\ [1] <> [] :> list R /\
  length [3; 1] = S (length [1]).
Proof. repeat split. discriminate. Qed.
