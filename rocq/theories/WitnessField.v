(** Concrete parameter objects showing that the hypotheses of the theorems
    about currents and fields can be met, and counterexamples. *)
From Coq Require Import String List Bool Arith ZArith Reals Lra Lia.
From Coquelicot Require Import Coquelicot.
From Verif Require Import Base ModelArray ModelMath SpecMath RDeriv ProofMath ModelSurface SpecSurface
  ProofSurface ProofSurface2 ProofSurface3 WitnessSurface
  ModelParams ModelField SpecField ProofField ProofField2 ProofField3 ProofField4 ProofField5 ProofField6.
Import ListNotations.
Open Scope R_scope.

(** Circular tori: major radius [r], minor radius [a], two declared field
    periods, on two toroidal and two poloidal angles. *)
Definition ring (r a p0 p1 t0 t1 : R) : surface :=
  {| s_nfp := 2; s_stellsym := true; s_mpol := 1; s_ntor := 0; s_dofs := [r; a; a];
     s_qphi := [p0; p1]; s_qtheta := [t0; t1];
     s_theta_mesh := [[t0; t1]; [t0; t1]]; s_phi_mesh := [[p0; p0]; [p1; p1]];
     s_dphi := p1 - p0; s_dtheta := t1 - t0 |}.
Lemma ring_made r a p0 p1 t0 t1 : make_surface 2 true 1 0 (arr1 [p0; p1]) (arr1 [t0; t1]) (arr1 [r; a; a]) = Ok (ring r a p0 p1 t0 t1).
Proof. reflexivity. Qed.
Lemma ring_built r a p0 p1 t0 t1 : built (ring r a p0 p1 t0 t1).
Proof. unfold built. repeat eexists. apply ring_made. Qed.
Lemma ring_legal r a p0 p1 t0 t1 : legal (ring r a p0 p1 t0 t1).
Proof. reflexivity. Qed.

Lemma ring_point r a p0 p1 t0 t1 p t : pt (ring r a p0 p1 t0 t1) 0 0 p t = cyl_point p (r + a * cos (2 * PI * t)) (a * sin (2 * PI * t)).
Proof.
  pose proof (layout_sym (ring r a p0 p1 t0 t1) [r; a] [a] eq_refl eq_refl eq_refl eq_refl) as H.
  rewrite <- (reports_pt _ _ _ _ H p t). unfold series, cyl_point, Rsum. cbn -[PI cos sin].
  replace (2 * PI * (0 * t - 0 * (1 + 1) * p)) with 0 by ring. replace (2 * PI * (1 * t - 0 * (1 + 1) * p)) with (2 * PI * t) by ring.
  rewrite cos_0. f_equal; ring.
Qed.
Lemma ring_t1 r a p0 p1 t0 t1 (p t : R) : pt (ring r a p0 p1 t0 t1) 1 0 p t =
  V3 (- (2 * PI) * (r + a * cos (2 * PI * t)) * sin (2 * PI * p)) (2 * PI * (r + a * cos (2 * PI * t)) * cos (2 * PI * p)) 0.
Proof.
  eapply derives_unique; [apply pt_phi|]. unfold derives; cbn [vx vy vz].
  split; [|split]; (eapply dR_ext; [intros y; rewrite ring_point; reflexivity|]); unfold cyl_point; cbn [vx vy vz]; auto_derive; auto; ring.
Qed.
Lemma ring_t2 r a p0 p1 t0 t1 (p t : R) : pt (ring r a p0 p1 t0 t1) 0 1 p t =
  V3 (- (2 * PI) * a * sin (2 * PI * t) * cos (2 * PI * p)) (- (2 * PI) * a * sin (2 * PI * t) * sin (2 * PI * p)) (2 * PI * a * cos (2 * PI * t)).
Proof.
  eapply derives_unique; [apply pt_theta|]. unfold derives; cbn [vx vy vz].
  split; [|split]; (eapply dR_ext; [intros y; rewrite ring_point; reflexivity|]); unfold cyl_point; cbn [vx vy vz]; auto_derive; auto; ring.
Qed.
Lemma ring_normal r a p0 p1 t0 t1 p t : 0 < a < r -> nrm (ring r a p0 p1 t0 t1) p t <> zero3.
Proof.
  intros H E. apply (f_equal (fun v => dot3 v v)) in E. unfold nrm in E. rewrite ring_t1, ring_t2 in E.
  unfold dot3, cross3, zero3 in E; cbn [vx vy vz] in E.
  pose proof (sin2_cos2 (2 * PI * p)) as S1. pose proof (sin2_cos2 (2 * PI * t)) as S2. unfold Rsqr in *.
  set (cp := cos (2 * PI * p)) in *. set (sp := sin (2 * PI * p)) in *. set (ct := cos (2 * PI * t)) in *. set (st := sin (2 * PI * t)) in *.
  assert (Hct : -1 <= ct <= 1) by apply COS_bound. clearbody cp sp ct st. set (w := 2 * PI) in *. assert (0 < w) by (unfold w; pose proof PI_RGT_0; lra). clearbody w.
  set (Q := w * w * a * (r + a * ct)).
  assert (E' : Q * Q * (sp * sp + cp * cp) * (ct * ct) + Q * Q * (st * st) * ((sp * sp + cp * cp) * (sp * sp + cp * cp)) = 0).
  { unfold Q. rewrite <- (Rmult_0_l 0) at 1. rewrite <- (Rplus_0_r (0 * 0)). rewrite <- (Rplus_0_r (0 * 0 + 0)). 
    transitivity (0 * 0 + 0 * 0 + 0 * 0); [|ring]. rewrite <- E. ring. }
  rewrite S1 in E'. assert (E2 : Q * Q * (st * st + ct * ct) = 0) by lra. rewrite S2 in E2.
  assert (0 < r + a * ct) by nra. assert (0 < Q) by (unfold Q; repeat apply Rmult_lt_0_compat; lra). nra.
Qed.
Lemma ring_regular r a p0 p1 t0 t1 ps ts s : 0 < a < r -> resampled (ring r a p0 p1 t0 t1) ps ts s -> regular s.
Proof.
  intros H C g v E I. rewrite (normal_copy (ring r a p0 p1 t0 t1) ps ts s (ring_legal _ _ _ _ _ _) C) in E. injection E as <-.
  rewrite concat_sample in I. apply in_map_iff in I as (u & <- & _). now apply ring_normal.
Qed.
Lemma rings_apart r a b p0 p1 t0 t1 p0' p1' t0' t1' p t p' t' : 0 < a -> a < b -> b < r ->
  pt (ring r a p0 p1 t0 t1) 0 0 p t <> pt (ring r b p0' p1' t0' t1') 0 0 p' t'.
Proof.
  intros Ha Hab Hb. rewrite !ring_point. unfold cyl_point. intros E. injection E as E1 E2 E3.
  assert (E4 : (r + a * cos (2 * PI * t)) * (r + a * cos (2 * PI * t)) = (r + b * cos (2 * PI * t')) * (r + b * cos (2 * PI * t'))).
  { transitivity (Rsqr ((r + a * cos (2 * PI * t)) * cos (2 * PI * p)) + Rsqr ((r + a * cos (2 * PI * t)) * sin (2 * PI * p))).
    - pose proof (sin2_cos2 (2 * PI * p)) as S. unfold Rsqr in *. 
      transitivity ((r + a * cos (2 * PI * t)) * (r + a * cos (2 * PI * t)) * (sin (2 * PI * p) * sin (2 * PI * p) + cos (2 * PI * p) * cos (2 * PI * p))); [rewrite S; ring|ring].
    - rewrite E1, E2. pose proof (sin2_cos2 (2 * PI * p')) as S. unfold Rsqr in *. 
      transitivity ((r + b * cos (2 * PI * t')) * (r + b * cos (2 * PI * t')) * (sin (2 * PI * p') * sin (2 * PI * p') + cos (2 * PI * p') * cos (2 * PI * p'))); [ring|rewrite S; ring]. }
  pose proof (sin2_cos2 (2 * PI * t)) as S1. pose proof (sin2_cos2 (2 * PI * t')) as S2. unfold Rsqr in *.
  pose proof (COS_bound (2 * PI * t)). pose proof (COS_bound (2 * PI * t')).
  set (c := cos (2 * PI * t)) in *. set (s := sin (2 * PI * t)) in *. set (c' := cos (2 * PI * t')) in *. set (s' := sin (2 * PI * t')) in *.
  clearbody c s c' s'. assert (0 < r + a * c) by nra. assert (0 < r + b * c') by nra.
  assert (E5 : a * c = b * c') by nra.
  assert (a * a * (s * s + c * c) = b * b * (s' * s' + c' * c')).
  { replace (a * a * (s * s + c * c)) with ((a * s) * (a * s) + (a * c) * (a * c)) by ring. rewrite E3, E5. ring. }
  rewrite S1, S2 in H3. nra.
Qed.

(** The coil surface: two points per turn (one per field period), starting at
    zero; the plasma surface: half its minor radius. *)
Definition turn (n : nat) : list R := equispaced 0 (/ (INR 2 * INR n)) (2 * n).
Definition coil_at (c : R) : surface := ring (c * 3) (c * 1) (0 + INR 0 * / (INR 2 * INR 1)) (0 + INR 1 * / (INR 2 * INR 1)) (0 + INR 0 * / INR 2) (0 + INR 1 * / INR 2).
Definition plasma_at (c : R) : surface := ring (c * 3) (c * / 2) 0 (1/4) 0 (1/2).
(** The parameter object on them: G, I, plasma field, symmetry; one poloidal
    and one toroidal harmonic; evaluation points given. *)
Definition device (c G I : R) (Bn : grid R) (st : bool) : params :=
  {| q_plasma := plasma_at c; q_winding := coil_at c; q_eval := ring (c * 3) (c * 1) 0 (1/8) (1/16) (1/3);
     q_G := G; q_I := I; q_Bnormal := Bn; q_qphi := [0; 1/8]; q_qtheta := [1/16; 1/3];
     q_stellsym := st; q_mpol := 1; q_ntor := 1; q_ndofs := if st then 4 else 9; q_ndofs_half := 4 |}.
Lemma device_constructed c G I Bn st : make_params (plasma_at c) (coil_at c) G I (Some Bn) 1 1 (Some (arr1 [0; 1/8])) (Some (arr1 [1/16; 1/3])) (Some st)
  = Ok (device c G I Bn st).
Proof. destruct st; reflexivity. Qed.
Lemma device_made c G I Bn st : made (device c G I Bn st).
Proof. split; [apply ring_built|]. split; [apply ring_built|]. repeat eexists. apply device_constructed. Qed.
Lemma device_legal c G I Bn st : legal (q_winding (device c G I Bn st)) /\ legal (q_plasma (device c G I Bn st)).
Proof. split; reflexivity. Qed.
Lemma device_well_posed G I Bn st : well_posed (device 1 G I Bn st).
Proof.
  destruct (made_facts _ (device_made 1 G I Bn st)) as (_ & _ & _ & _ & Ce & Cw & Cp).
  split; [eapply (ring_regular (1 * 3) (1 * / 2)); [lra|exact Cp]|]. split; [eapply (ring_regular (1 * 3) (1 * 1)); [lra|exact Cw]|].
  split; [eapply (ring_regular (1 * 3) (1 * 1)); [lra|exact Ce]|].
  intros gp gw v w E1 E2 I1 I2. unfold gamma in *.
  rewrite (gammadash_copy _ _ _ _ 0 0 (proj2 (device_legal 1 G I Bn st)) Cp) in E1.
  rewrite (gammadash_copy _ _ _ _ 0 0 (proj1 (device_legal 1 G I Bn st)) Cw) in E2.
  match type of E1 with Ok ?x = _ => assert (G1 : gp = x) by congruence end. match type of E2 with Ok ?x = _ => assert (G2 : gw = x) by congruence end.
  rewrite G1 in I1. rewrite G2 in I2.
  rewrite concat_sample in I1, I2. apply in_map_iff in I1 as (u & <- & _). apply in_map_iff in I2 as (u' & <- & _).
  apply rings_apart; lra.
Qed.
Lemma two_increasing a b : a <= b -> increasing [a; b].
Proof. intros H i j [H1 H2]. simpl in H2. destruct i as [|[|i]], j as [|[|j]]; simpl; try lra; lia. Qed.
Lemma device_increasing c G I Bn st : let q := device c G I Bn st in
  increasing (q_qphi q) /\ increasing (q_qtheta q) /\ increasing (s_qphi (q_plasma q)) /\ increasing (s_qtheta (q_plasma q)).
Proof. cbn. repeat split; apply two_increasing; lra. Qed.

Lemma device_superposed a b G1 G2 I1 I2 u1 u2 v1 v2 w1 w2 z1 z2 st :
  superposed a b (device 1 G1 I1 [[u1; v1]; [w1; z1]] st) (device 1 G2 I2 [[u2; v2]; [w2; z2]] st)
    (device 1 (a * G1 + b * G2) (a * I1 + b * I2) [[a * u1 + b * u2; a * v1 + b * v2]; [a * w1 + b * w2; a * z1 + b * z2]] st).
Proof. repeat split. Qed.
Lemma device_shaped c G I u v w z st : plasma_shaped (device c G I [[u; v]; [w; z]] st).
Proof. split; [reflexivity|]. repeat constructor. Qed.

(** A plasma field that leaves a unit normal field at the first grid point. *)
Definition unit_error : grid R := [[1 - bnval (device 1 2 1 [] true) [0; 0; 0; 0] 0 0; 0]; [0; 0]].
Lemma device_error : exists v0, f_B (device 1 2 1 unit_error true) (repeat 0 4) = Ok v0 /\ v0 <> 0.
Proof.
  set (q := device 1 2 1 unit_error true). assert (M := device_made 1 2 1 unit_error true). fold q in M.
  assert (Ps : plasma_shaped q) by apply device_shaped. destruct (device_legal 1 2 1 unit_error true) as [Lw Lp]. fold q in Lw, Lp.
  destruct (device_increasing 1 2 1 unit_error true) as (_ & _ & I3 & I4).
  destruct (f_B_made q (repeat 0 4) M Lw Lp Ps eq_refl) as (b & d & Eb & Ed & _ & Vb & Vd & Ev). eexists. split; [exact Ev|].
  intros Z. pose proof (f_B_zero q (repeat 0 4) b d _ M Lw Lp Ps I3 I4 eq_refl Eb Ed Ev) as [H _].
  specialize (H Z 0%nat 0%nat). rewrite Vb, Vd in H. cbn -[bnval nrm norm3 Rdiv] in H.
  assert (bnval q [0; 0; 0; 0] 0 0 = bnval (device 1 2 1 [] true) [0; 0; 0; 0] 0 0) as E by reflexivity.
  rewrite E in H. assert (0 < norm3 (nrm (plasma_at 1) 0 0)).
  { apply norm_pos. apply ring_normal. lra. }
  assert (HH : 0 < (1 / 4 - 0) * (1 / 2 - 0) * norm3 (nrm (plasma_at 1) 0 0)) by (apply Rmult_lt_0_compat; lra).
  specialize (H HH). lra.
Qed.
