(** Concrete surfaces showing that the hypotheses of the surface theorems can
    be met, and counterexamples. *)
From Coq Require Import String List Bool Arith ZArith Reals Lra Lia.
From Coquelicot Require Import Coquelicot.
From Verif Require Import Base ModelArray ModelMath SpecMath RDeriv ProofMath ModelSurface SpecSurface
  ProofSurface ProofSurface2 ProofSurface3.
Import ListNotations.
Open Scope R_scope.

(** A circular torus R = 3 + cos, Z = sin, declared with two field periods. *)
Definition torus : surface :=
  {| s_nfp := 2; s_stellsym := true; s_mpol := 1; s_ntor := 0; s_dofs := [3; 1; 1];
     s_qphi := [0; 1/4]; s_qtheta := [0; 1/2];
     s_theta_mesh := [[0; 1/2]; [0; 1/2]]; s_phi_mesh := [[0; 0]; [1/4; 1/4]];
     s_dphi := 1/4 - 0; s_dtheta := 1/2 - 0 |}.
(** The same torus without declared symmetry: rc, rs, zc, zs. *)
Definition torus_general : surface :=
  {| s_nfp := 2; s_stellsym := false; s_mpol := 1; s_ntor := 0; s_dofs := [3; 1; 0; 0; 0; 1];
     s_qphi := [0; 1/4]; s_qtheta := [0; 1/2];
     s_theta_mesh := [[0; 1/2]; [0; 1/2]]; s_phi_mesh := [[0; 0]; [1/4; 1/4]];
     s_dphi := 1/4 - 0; s_dtheta := 1/2 - 0 |}.
(** A circle in the plane z = 0: a single coefficient. *)
Definition circle : surface :=
  {| s_nfp := 1; s_stellsym := true; s_mpol := 0; s_ntor := 0; s_dofs := [5];
     s_qphi := [0; 1/4]; s_qtheta := [0; 1/2];
     s_theta_mesh := [[0; 1/2]; [0; 1/2]]; s_phi_mesh := [[0; 0]; [1/4; 1/4]];
     s_dphi := 1/4 - 0; s_dtheta := 1/2 - 0 |}.

Lemma torus_made : make_surface 2 true 1 0 (arr1 [0; 1/4]) (arr1 [0; 1/2]) (arr1 [3; 1; 1]) = Ok torus.
Proof. reflexivity. Qed.
Lemma torus_legal : legal torus.
Proof. reflexivity. Qed.
Lemma torus_general_legal : legal torus_general.
Proof. reflexivity. Qed.
Lemma circle_legal : legal circle.
Proof. reflexivity. Qed.

Lemma torus_rval a b phi theta : 
  rval torus a b phi theta = 3 * cmn_entry 2 a b phi theta (0%Z, 0%Z) + cmn_entry 2 a b phi theta (1%Z, 0%Z).
Proof. unfold rval, ldot. cbn -[cmn_entry]. ring. Qed.
Lemma torus_zval a b phi theta : zval torus a b phi theta = smn_entry 2 a b phi theta (1%Z, 0%Z).
Proof. unfold zval, ldot. cbn -[smn_entry]. ring. Qed.

Lemma torus_normal : nrm torus 0 0 = V3 (16 * PI * PI) 0 0.
Proof.
  unfold nrm, pt, cross3. cbn [vx vy vz]. rewrite !torus_zval.
  unfold Rsum. cbn [Nat.add seq map fold_right]. rewrite !torus_rval.
  unfold trig_x, trig_y, leibniz_factor, cmn_entry, smn_entry, derivative_factor, phase_even, phase_odd.
  cbn [Nat.add Nat.sub Nat.modulo Nat.divmod fst snd Nat.div Nat.eqb fact Nat.mul pow].
  replace (1 * 0 * PI * 2 - 0 * 0 * PI * 2 * INR 2) with 0 by ring.
  replace (1 * PI * 2 * 0 - 0 * PI * 2 * INR 2 * 0) with 0 by ring.
  replace (0 * PI * 2 * 0 - 0 * PI * 2 * INR 2 * 0) with 0 by ring.
  replace (0 * 0 * PI * 2 - 0 * 0 * PI * 2 * INR 2) with 0 by ring.
  replace (0 * PI * 2) with 0 by ring. rewrite cos_0, sin_0. simpl INR.
  f_equal; field.
Qed.

Lemma torus_regular : exists N, reports normal torus N /\ N 0 0 <> zero3.
Proof.
  exists (nrm torus). split.
  - apply reports_of. intros. now apply normal_copy.
  - rewrite torus_normal. unfold zero3. intros E. injection E as E. pose proof PI_RGT_0. nra.
Qed.

Lemma desc_general_refuted : exists s, legal s /\ s_stellsym s = false /\
  length (t_rc (to_desc_tables s)) <> n_modes (s_mpol s) (s_ntor s).
Proof. exists torus_general. split; [reflexivity|]. split; [reflexivity|]. cbn. discriminate. Qed.
Lemma desc_circle_refuted : exists s, legal s /\ s_stellsym s = true /\
  length (t_rc (to_desc_tables s)) <> n_modes (s_mpol s) (s_ntor s).
Proof. exists circle. split; [reflexivity|]. split; [reflexivity|]. cbn. discriminate. Qed.
