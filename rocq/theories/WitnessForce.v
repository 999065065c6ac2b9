(** Concrete cases for the statements about the self-force: a circular torus
    carrying poloidal current. *)
From Coq Require Import String List Bool Arith ZArith Reals Lra Lia.
From Coquelicot Require Import Coquelicot.
From Verif Require Import Base ModelArray ModelMath SpecMath RDeriv ProofMath ModelSurface SpecSurface
  ProofSurface ProofSurface2 ProofSurface3 WitnessSurface SpecWinding ModelParams ModelField SpecField ProofField ProofField2 ProofField6 WitnessField
  ModelForce SpecForce ProofForce ProofForce2 ProofForce3.
Import ListNotations.
Open Scope R_scope.

Definition torus : surface := ring 3 1 0 (1/2) 0 (1/2).
Definition torus_eval (p : R) : surface :=
  {| s_nfp := 2; s_stellsym := true; s_mpol := 1; s_ntor := 0; s_dofs := [3; 1; 1];
     s_qphi := [p]; s_qtheta := [0; 1/2];
     s_theta_mesh := [[0; 1/2]]; s_phi_mesh := [[p; p]];
     s_dphi := p - p; s_dtheta := 1/2 - 0 |}.
Definition loops (G p : R) : params :=
  {| q_plasma := torus; q_winding := torus; q_eval := torus_eval p;
     q_G := G; q_I := 0; q_Bnormal := [[0; 0]; [0; 0]]; q_qphi := [p]; q_qtheta := [0; 1/2];
     q_stellsym := true; q_mpol := 1; q_ntor := 1; q_ndofs := 4; q_ndofs_half := 4 |}.
Lemma loops_constructed G p :
  make_params torus torus G 0 (Some [[0; 0]; [0; 0]]) 1 1 (Some (arr1 [p])) (Some (arr1 [0; 1/2])) (Some true) = Ok (loops G p).
Proof. reflexivity. Qed.
Lemma loops_made G p : made (loops G p).
Proof. split; [apply ring_built|]. split; [apply ring_built|]. repeat eexists. apply loops_constructed. Qed.
Lemma loops_legal G p : legal (q_winding (loops G p)).
Proof. reflexivity. Qed.

(** ** The torus in closed form *)
Definition rho (t : R) : R := 3 + cos (2 * PI * t).
Lemma rho_pos t : 0 < rho t.
Proof. unfold rho. pose proof (COS_bound (2 * PI * t)). lra. Qed.
Definition nhat (p t : R) : vec3 := V3 (cos (2 * PI * p) * cos (2 * PI * t)) (sin (2 * PI * p) * cos (2 * PI * t)) (sin (2 * PI * t)).
Definition that (p t : R) : vec3 := V3 (- cos (2 * PI * p) * sin (2 * PI * t)) (- sin (2 * PI * p) * sin (2 * PI * t)) (cos (2 * PI * t)).
Lemma torus_normal p t : nrm torus p t = scale3 (4 * PI * PI * rho t) (nhat p t).
Proof.
  unfold nrm, torus. rewrite ring_t1, ring_t2. unfold cross3, scale3, nhat, rho. cbn [vx vy vz]. apply v3_eq; try ring.
  pose proof (sin2_cos2 (2 * PI * p)) as H. unfold Rsqr in H.
  transitivity (4 * PI * PI * (3 + cos (2 * PI * t)) * sin (2 * PI * t) * (sin (2 * PI * p) * sin (2 * PI * p) + cos (2 * PI * p) * cos (2 * PI * p))); [ring|].
  rewrite H. ring.
Qed.
Lemma nhat_unit p t : vx (nhat p t) * vx (nhat p t) + vy (nhat p t) * vy (nhat p t) + vz (nhat p t) * vz (nhat p t) = 1.
Proof.
  unfold nhat. cbn [vx vy vz]. pose proof (sin2_cos2 (2 * PI * p)) as H1. pose proof (sin2_cos2 (2 * PI * t)) as H2. unfold Rsqr in *.
  transitivity ((sin (2 * PI * p) * sin (2 * PI * p) + cos (2 * PI * p) * cos (2 * PI * p)) * (cos (2 * PI * t) * cos (2 * PI * t)) + sin (2 * PI * t) * sin (2 * PI * t)); [ring|].
  rewrite H1. lra.
Qed.
Lemma torus_norm p t : norm3 (nrm torus p t) = 4 * PI * PI * rho t.
Proof.
  rewrite torus_normal. unfold norm3, scale3. cbn [vx vy vz]. pose proof (nhat_unit p t) as H. pose proof PI_RGT_0. pose proof (rho_pos t).
  set (c := 4 * PI * PI * rho t). assert (0 < c) by (unfold c; apply Rmult_lt_0_compat; [nra|lra]).
  match goal with |- sqrt ?e = _ => replace e with (c * c) end; [apply sqrt_square; lra|].
  rewrite <- (Rmult_1_r (c * c)), <- H. ring.
Qed.
Lemma torus_un G q p t : un (loops G q) p t = nhat p t.
Proof.
  unfold un, wn. change (q_winding (loops G q)) with torus. rewrite torus_norm, torus_normal. pose proof PI_RGT_0. pose proof (rho_pos t).
  unfold scale3. destruct (nhat p t). vecs. apply v3_eq; field; lra.
Qed.
Lemma torus_t2 p t : pt torus 0 1 p t = scale3 (2 * PI) (that p t).
Proof. unfold torus. rewrite ring_t2. unfold scale3, that; cbn [vx vy vz]. apply v3_eq; ring. Qed.
Definition idle : list R := [0; 0; 0; 0].
Lemma ldot_idle a : ldot a idle = 0.
Proof. unfold ldot, idle. destruct a as [|? [|? [|? [|? [|? ?]]]]]; cbn; ring. Qed.
Lemma torus_K G q p t : kval (loops G q) idle p t = scale3 (G / (2 * PI * rho t)) (that p t).
Proof.
  unfold kval, wn, w1, w2. change (q_winding (loops G q)) with torus. unfold phi1, phi2. rewrite !ldot_idle, torus_norm, torus_t2. cbn [q_G q_I loops].
  pose proof PI_RGT_0. pose proof (rho_pos t). destruct (pt torus 1 0 p t). destruct (that p t). unfold scale3, sub3. vecs. apply v3_eq; field; lra.
Qed.
Lemma torus_regular p t : nrm torus p t <> zero3.
Proof. apply ring_normal. lra. Qed.

Lemma torus_Kd1 G q p t : kd1 (loops G q) idle p t =
  scale3 (G / rho t) (V3 (sin (2 * PI * p) * sin (2 * PI * t)) (- cos (2 * PI * p) * sin (2 * PI * t)) 0).
Proof.
  eapply derives_unique; [apply kval_d1; apply torus_regular|]. pose proof (rho_pos t). pose proof PI_RGT_0. unfold derives; cbn [vx vy vz scale3].
  split; [|split]; (eapply dR_ext; [intros y; rewrite torus_K; reflexivity|]); unfold scale3, that; cbn [vx vy vz]; auto_derive; auto; field; lra.
Qed.
Lemma torus_Kd2 G q p t : kd2 (loops G q) idle p t =
  add3 (scale3 (G * sin (2 * PI * t) / (rho t * rho t)) (that p t)) (scale3 (- G / rho t) (nhat p t)).
Proof.
  eapply derives_unique; [apply kval_d2; apply torus_regular|]. pose proof (rho_pos t) as Hr. pose proof PI_RGT_0. unfold derives; cbn [vx vy vz scale3 add3].
  split; [|split]; (eapply dR_ext; [intros y; rewrite torus_K; reflexivity|]); unfold scale3, that, nhat, rho in *; cbn [vx vy vz];
    auto_derive; try (repeat split; auto; apply Rgt_not_eq, Rmult_lt_0_compat; lra); field; lra.
Qed.
Lemma torus_und G q p t : und (loops G q) p t =
  (V3 (- (2 * PI) * sin (2 * PI * p) * cos (2 * PI * t)) (2 * PI * cos (2 * PI * p) * cos (2 * PI * t)) 0, scale3 (2 * PI) (that p t)).
Proof.
  destruct (geometry_derivatives torus eq_refl) as (T1 & T2 & N & U & D & UD & _ & _ & RN & RU & _ & RUD & H).
  assert (EN : forall p t, N p t = nrm torus p t).
  { intros a b. apply (reports_unique _ _ _ _ RN). apply reports_of. intros. now apply normal_copy. }
  assert (EU : forall p t, U p t = nhat p t).
  { intros a b. rewrite <- (torus_un G q). apply (reports_unique _ _ _ _ RU). apply reports_of. intros. now apply unitnormal_copy. }
  assert (ED : UD p t = und (loops G q) p t).
  { apply (reports_unique _ _ _ _ RUD). apply reports_of. intros. now apply from_fields_copy. }
  destruct (H p t) as [H1 _]; [rewrite EN; apply torus_regular|]. rewrite ED in H1. destruct (und (loops G q) p t) as [u1 u2]. destruct H1 as [H1 H2].
  apply f_equal2.
  - eapply derives_unique; [exact H1|]. unfold derives; cbn [vx vy vz].
    split; [|split]; (eapply dR_ext; [intros y; rewrite EU; reflexivity|]); unfold nhat; cbn [vx vy vz]; auto_derive; auto; ring.
  - eapply derives_unique; [exact H2|]. unfold derives; cbn [vx vy vz].
    split; [|split]; (eapply dR_ext; [intros y; rewrite EU; reflexivity|]); unfold nhat, that, scale3; cbn [vx vy vz]; auto_derive; auto; ring.
Qed.
(** The two tensors in the plane phi = 0, on the equator. *)
Definition turn3 (c : R) : mat3 := M3 (V3 0 0 c) (V3 0 0 0) (V3 (- c) 0 0).
Lemma torus_tensors G q t c : sin (2 * PI * t) = 0 -> cos (2 * PI * t) = c -> c * c = 1 ->
  single_of (loops G q) idle 0 t = turn3 (fak * G * c / (2 * PI * rho t * rho t)) /\
  double_of (loops G q) idle 0 t = turn3 (fak * G / (2 * PI * rho t)).
Proof.
  intros Hs Hc Hcc. pose proof PI_RGT_0 as Hpi. pose proof (rho_pos t) as Hr.
  unfold single_of, double_of. rewrite torus_und, torus_un, torus_K, torus_Kd1, torus_Kd2. unfold w1, w2.
  change (q_winding (loops G q)) with torus. rewrite torus_t2. unfold torus. rewrite ring_t1.
  unfold nhat, that. rewrite Rmult_0_r, cos_0, sin_0, Hs, Hc. replace (3 + 1 * c) with (rho t) by (unfold rho; rewrite Hc; ring).
  set (r := rho t) in *. set (pi := PI) in *. clearbody r pi. clear Hs Hc.
  match goal with |- single_at _ _ _ (grad1_at ?u ?v) (grad2_at ?u ?v) _ _ _ = _ /\ _ =>
    assert (Dn : dot3 (cross3 u v) (cross3 u v) = 16 * pi * pi * pi * pi * r * r);
    [cbv [dot3 cross3 scale3 vx vy vz]; transitivity (16 * pi * pi * pi * pi * r * r * (c * c)); [ring|rewrite Hcc; ring]|];
    assert (G1 : grad1_at u v = V3 0 (/ (2 * pi * r)) 0);
    [unfold grad1_at; rewrite Dn; cbv [cross3 scale3 vx vy vz]; apply v3_eq; try (field; lra);
     transitivity ((c * c) / (2 * pi * r)); [field; lra|rewrite Hcc; field; lra]|];
    assert (G2 : grad2_at u v = V3 0 0 (c / (2 * pi)));
    [unfold grad2_at; rewrite Dn; cbv [cross3 scale3 vx vy vz]; apply v3_eq; field; lra|] end.
  rewrite G1, G2. clear G1 G2 Dn. unfold turn3. split.
  - cbv [single_at div_n_at div_pi_at dot3 mscale3 madd3 msub3 outer3 sub3 add3 scale3 vx vy vz m_x m_y m_z fst snd].
    assert (C3 : c * c * c = c) by (rewrite Hcc; ring).
    apply (f_equal3 M3); apply v3_eq; try (field; lra).
    + transitivity (fak * (G * (c * c * c + r * (c * c * c * c) - r * (c * c)) / (2 * pi * r * r))); [field; lra|rewrite C3, Hcc; field; lra].
    + transitivity (- (fak * (G * (c * c * c + r * (c * c * c * c) - r * (c * c)) / (2 * pi * r * r)))); [field; lra|rewrite C3, Hcc; field; lra].
  - cbv [double_at mscale3 msub3 outer3 sub3 scale3 vx vy vz m_x m_y m_z]. apply (f_equal3 M3); apply v3_eq; try (field; lra).
    + transitivity (fak * (c * c) * G / (2 * pi * r)); [field; lra|rewrite Hcc; field; lra].
    + transitivity (- (fak * (c * c) * G / (2 * pi * r))); [field; lra|rewrite Hcc; field; lra].
Qed.

(** ** The points *)
Lemma half_turn : 2 * PI * (1/2) = PI.
Proof. field. Qed.
Lemma quarter_turn : 2 * PI * (1/4) = PI / 2.
Proof. field. Qed.
Lemma torus_point p t : pt torus 0 0 p t = V3 (rho t * cos (2 * PI * p)) (rho t * sin (2 * PI * p)) (sin (2 * PI * t)).
Proof. unfold torus. rewrite ring_point. unfold cyl_point, rho. apply v3_eq; ring. Qed.
Lemma rho_0 : rho 0 = 4.
Proof. unfold rho. rewrite Rmult_0_r, cos_0. ring. Qed.
Lemma rho_h : rho (1/2) = 2.
Proof. unfold rho. rewrite half_turn, cos_PI. ring. Qed.
Lemma pt_00 : pt torus 0 0 0 0 = V3 4 0 0.
Proof. rewrite torus_point, rho_0, Rmult_0_r, cos_0, sin_0. apply v3_eq; ring. Qed.
Lemma pt_0h : pt torus 0 0 0 (1/2) = V3 2 0 0.
Proof. rewrite torus_point, rho_h, Rmult_0_r, half_turn, cos_0, sin_0, sin_PI. apply v3_eq; ring. Qed.
Lemma pt_h0 : pt torus 0 0 (1/2) 0 = V3 (-4) 0 0.
Proof. rewrite torus_point, rho_0, Rmult_0_r, half_turn, cos_PI, sin_0, sin_PI. apply v3_eq; ring. Qed.
Lemma pt_hh : pt torus 0 0 (1/2) (1/2) = V3 (-2) 0 0.
Proof. rewrite torus_point, rho_h, half_turn, cos_PI, sin_PI. apply v3_eq; ring. Qed.
Lemma pt_q0 : pt torus 0 0 (1/4) 0 = V3 0 4 0.
Proof. rewrite torus_point, rho_0, Rmult_0_r, quarter_turn, cos_PI2, sin_PI2, sin_0. apply v3_eq; ring. Qed.
Lemma pt_qh : pt torus 0 0 (1/4) (1/2) = V3 0 2 0.
Proof. rewrite torus_point, rho_h, quarter_turn, half_turn, cos_PI2, sin_PI2, sin_PI. apply v3_eq; ring. Qed.

Definition torus_nodes : grid vec3 := [[V3 4 0 0; V3 2 0 0]; [V3 (-4) 0 0; V3 (-2) 0 0]].
Lemma torus_gamma : gamma torus = Ok torus_nodes.
Proof.
  destruct (made_facts _ (loops_made 0 0)) as (_ & _ & _ & _ & _ & Cw & _).
  unfold gamma. change torus with (q_winding (loops 0 0)) at 1. rewrite (gammadash_copy _ _ _ _ 0 0 (loops_legal 0 0) Cw).
  cbn [loops q_winding torus ring s_qphi s_qtheta sample map]. fold torus. now rewrite pt_00, pt_0h, pt_h0, pt_hh.
Qed.
Lemma torus_distinct gx : gamma torus = Ok gx -> distinct_nodes 2 2 gx.
Proof.
  rewrite torus_gamma. intros E. injection E as <-. intros i j i' j' Hi Hj Hi' Hj' E.
  destruct i as [|[|i]], j as [|[|j]], i' as [|[|i']], j' as [|[|j']]; try lia; cbn in E; auto; injection E; intros; lra.
Qed.
Lemma loops_default G : default_eval (loops G 0).
Proof. split; reflexivity. Qed.

(** ** A pair that is left out although the points differ *)
Lemma add3_cancel_r u v w : add3 u w = add3 v w -> u = v.
Proof. destruct u, v, w. unfold add3. vecs. intros E. injection E as E1 E2 E3. apply v3_eq; lra. Qed.
Lemma vsum_2 f : vsum_upto 2 f = add3 (f 0%nat) (f 1%nat).
Proof. cbn [vsum_upto]. change (V3 0 0 0) with zero3. now rewrite add3_0_l. Qed.
Lemma vsum_1 f : vsum_upto 1 f = f 0%nat.
Proof. cbn [vsum_upto]. change (V3 0 0 0) with zero3. apply add3_0_l. Qed.
Lemma unless_false y k x n a S D : x <> y -> pair_force_unless false y k x n a S D = pair_force y k x n a S D.
Proof. intros H. unfold pair_force_unless, pair_force. destruct (same_point x y); [contradiction|reflexivity]. Qed.
Lemma turn_project c : project_both (V3 4 0 0) (turn3 c) = turn3 c.
Proof.
  unfold turn3. rewrite project_both_form. cbv zeta. assert (E : r_unit (V3 4 0 0) = V3 1 0 0).
  { unfold r_unit, norm3. cbn [vx vy vz]. replace (4 * 4 + 0 * 0 + 0 * 0) with (4 * 4) by ring. rewrite sqrt_square by lra. apply v3_eq; field. }
  rewrite E. unfold z_unit, cross3. vecs. apply (f_equal3 M3); apply v3_eq; ring.
Qed.
Lemma turn_contract k c : contract (V3 0 0 k) (turn3 c) = V3 (- (k * c)) 0 0.
Proof. unfold contract, turn3. vecs. apply v3_eq; ring. Qed.
Lemma area_pos G q t : 0 < area (loops G q) 0 t.
Proof.
  unfold area, wn. change (q_winding (loops G q)) with torus. rewrite torus_norm. cbn [torus ring s_dphi s_dtheta].
  pose proof PI_RGT_0. pose proof (rho_pos t). apply Rmult_lt_0_compat; [lra|]. apply Rmult_lt_0_compat; [nra|lra].
Qed.

Theorem dropped_pair : exists q x gx nx a S D gy k out,
  made q /\ legal (q_winding q) /\ length x = q_ndofs q /\
  gamma (q_winding q) = Ok gx /\ unitnormal (q_winding q) = Ok nx /\ da (q_winding q) = Ok a /\
  gamma (q_eval q) = Ok gy /\ K q x OnEval = Ok k /\ force_integrands_xyz q x OnDivide = Ok (S, D) /\
  force_cyl q x = Ok out /\
  (forall u v, In u (concat gx) -> In v (concat gy) -> u <> v) /\
  at2 zero3 out 0 0 <> pairwise_sum gx nx a S D gy k (s_nfp (q_winding q))
    (length (s_qphi (q_winding q)) / s_nfp (q_winding q)) (length (s_qtheta (q_winding q))) 0 0.
Proof.
  set (q := loops (2 * PI) (1/4)). assert (M : made q) by apply loops_made. assert (Lg : legal (q_winding q)) by reflexivity.
  assert (L : length idle = q_ndofs q) by reflexivity.
  destruct (force_form q idle M Lg L) as (out & E & _ & F).
  destruct (force_arrays q idle M Lg L) as (gx & nx & a & S & D & Egx & Enx & Ea & Ei & Egy & Ek & Gx & Nx & A & SS & DD).
  exists q, idle, gx, nx, a, S, D. eexists _, _. exists out.
  do 3 (split; [assumption|]). do 3 (split; [assumption|]). split; [exact Egy|]. split; [exact Ek|]. do 2 (split; [assumption|]).
  assert (Gx' : gx = torus_nodes). { pose proof torus_gamma as T. change torus with (q_winding q) in T. congruence. }
  split.
  - intros u v Hu Hv. rewrite Gx' in Hu. cbn [loops q q_qphi q_qtheta sample map concat app] in Hv. 
    change (pt (q_winding q) 0 0 (1/4) 0) with (pt torus 0 0 (1/4) 0) in Hv. change (pt (q_winding q) 0 0 (1/4) (1/2)) with (pt torus 0 0 (1/4) (1/2)) in Hv.
    rewrite pt_q0, pt_qh in Hv. cbn in Hu.
    destruct Hv as [<-|[<-|[]]]; destruct Hu as [<-|[<-|[<-|[<-|[]]]]]; intros C; injection C; intros; lra.
  - rewrite F by (cbn; lia). subst gx nx a S D. unfold force_total, pairwise_sum. change (s_nfp (q_winding q)) with 2%nat.
    change (length (s_qphi (q_winding q)) / 2)%nat with 1%nat. change (length (s_qtheta (q_winding q))) with 2%nat.
    rewrite !vsum_2, !vsum_1. unfold force_term.
    cbn [hit Nat.eqb andb at2 sample map nth firstn Nat.mul Nat.add Nat.div Nat.divmod fst q loops q_winding q_qphi q_qtheta torus ring s_qphi s_qtheta s_nfp length].
    fold torus. fold q.
    intros C. rewrite !vsum_2 in C. cbv beta iota in C.
    rewrite pt_q0, pt_00, pt_0h, pt_h0, pt_hh in C.
    rewrite !unless_false in C by (intros X; injection X; intros; lra).
    apply add3_cancel_r, add3_cancel_r in C. unfold pair_force_unless in C.
    assert (S0 : sin (2 * PI * 0) = 0) by (now rewrite Rmult_0_r, sin_0). assert (C0 : cos (2 * PI * 0) = 1) by (now rewrite Rmult_0_r, cos_0).
    destruct (torus_tensors (2 * PI) (1/4) 0 1 S0 C0 ltac:(ring)) as [T1 T2]. fold q in T1, T2.
    rewrite T1, T2, !turn_project in C. unfold q in C. rewrite torus_K, torus_un in C. fold q in C.
    unfold pair_force in C. destruct (same_point _ _) as [X|_]; [injection X; intros; lra|].
    apply (f_equal vx) in C. 
    replace (project_arr_cylindrical (V3 0 4 0) (scale3 (2 * PI / (2 * PI * rho 0)) (that (1/4) 0))) with (V3 0 0 (/4)) in C.
    2:{ unfold that, scale3. rewrite quarter_turn, Rmult_0_r, cos_PI2, sin_PI2, sin_0, cos_0, rho_0.
        unfold project_arr_cylindrical, project_arr_coord, r_unit, z_unit, cross3, dot3. cbn [vx vy vz]. apply v3_eq; try ring. field. apply Rgt_not_eq, PI_RGT_0. }
    rewrite !turn_contract, rho_0 in C. unfold nhat in C. rewrite !Rmult_0_r, cos_0, sin_0 in C.
    pose proof (area_pos (2 * PI) (1/4) 0) as Ha. fold q in Ha. set (ar := area q 0 0) in *. clearbody ar.
    unfold add3, sub3, scale3, dot3 in C. cbn [vx vy vz] in C.
    set (d := norm3 _) in C. assert (Hd : d * d = 32 /\ 0 < d).
    { unfold d, norm3. cbn [vx vy vz]. rewrite sqrt_sqrt by lra. split; [ring|apply sqrt_lt_R0; lra]. }
    destruct Hd as [Hd Hd0]. clearbody d. pose proof PI_RGT_0 as Hp. unfold fak in C.
    assert (C2 : - ar / (d * d * d) * (/ 10000000) * (/ 64) * (d * d - 16) = 0).
    { cbn [Nat.eqb vx] in C. match type of C with 0 = ?e => transitivity e end; [field; split; lra|now symmetry]. }
    rewrite Hd in C2. assert (0 < ar / (32 * d)) by (apply Rdiv_lt_0_compat; lra). unfold Rdiv in *. nra.
Qed.

(** ** Components in the wrong frame *)
Lemma turn_project2 c : project_both (V3 2 0 0) (turn3 c) = turn3 c.
Proof.
  unfold turn3. rewrite project_both_form. cbv zeta. assert (E : r_unit (V3 2 0 0) = V3 1 0 0).
  { unfold r_unit, norm3. cbn [vx vy vz]. replace (2 * 2 + 0 * 0 + 0 * 0) with (2 * 2) by ring. rewrite sqrt_square by lra. apply v3_eq; field. }
  rewrite E. unfold z_unit, cross3. vecs. apply (f_equal3 M3); apply v3_eq; ring.
Qed.
Lemma norm3_x u : 0 <= u -> norm3 (V3 u 0 0) = u.
Proof. intros H. unfold norm3. vecs. replace (u * u + 0 * 0 + 0 * 0) with (u * u) by ring. now apply sqrt_square. Qed.
Lemma pair_on_axis y k x n a c c' : x < y ->
  pair_force (V3 y 0 0) (V3 0 0 k) (V3 x 0 0) (V3 n 0 0) a (turn3 c) (turn3 c') =
  V3 (- (a * k * (c / (y - x) + n * c' / ((y - x) * (y - x))))) 0 0.
Proof.
  intros H. unfold pair_force. destruct (same_point _ _) as [X|_]; [injection X; intros; lra|].
  rewrite !turn_contract. unfold sub3, dot3. vecs. rewrite !Rminus_0_r. rewrite norm3_x by lra.
  unfold add3, scale3. vecs. apply v3_eq; field; lra.
Qed.
Lemma pair_off_axis y k x n a c c' : y < x ->
  pair_force (V3 y 0 0) (V3 0 0 k) (V3 x 0 0) (V3 n 0 0) a (turn3 c) (turn3 c') =
  V3 (- (a * k * (c / (x - y) - n * c' / ((x - y) * (x - y))))) 0 0.
Proof.
  intros H. unfold pair_force. destruct (same_point _ _) as [X|_]; [injection X; intros; lra|].
  rewrite !turn_contract. unfold sub3, dot3. vecs. rewrite !Rminus_0_r. 
  replace (norm3 (V3 (y - x) 0 0)) with (x - y).
  2:{ unfold norm3. vecs. replace ((y - x) * (y - x) + 0 * 0 + 0 * 0) with ((x - y) * (x - y)) by ring. rewrite sqrt_square; lra. }
  unfold add3, scale3. vecs. apply v3_eq; field; lra.
Qed.
Lemma pair_self y k n a S D : pair_force y k y n a S D = V3 0 0 0.
Proof. unfold pair_force. destruct (same_point y y); [reflexivity|contradiction]. Qed.
Lemma rotz_0 v : rotz 0 v = v.
Proof. destruct v. unfold rotz. vecs. rewrite cos_0, sin_0. apply v3_eq; ring. Qed.
Lemma rotz_PI v : rotz PI v = V3 (- vx v) (- vy v) (vz v).
Proof. destruct v. unfold rotz. vecs. rewrite cos_PI, sin_PI. apply v3_eq; ring. Qed.
Lemma rotz_mPI v : rotz (- PI) v = V3 (- vx v) (- vy v) (vz v).
Proof. destruct v. unfold rotz. vecs. rewrite cos_neg, sin_neg, cos_PI, sin_PI. apply v3_eq; ring. Qed.
Lemma V3_m0 a b : V3 a (- 0) b = V3 a 0 b.
Proof. apply v3_eq; ring. Qed.

Theorem wrong_frame : exists q x gx nx a S D gy k out,
  made q /\ legal (q_winding q) /\ length x = q_ndofs q /\ default_eval q /\
  gamma (q_winding q) = Ok gx /\ unitnormal (q_winding q) = Ok nx /\ da (q_winding q) = Ok a /\
  gamma (q_eval q) = Ok gy /\ K q x OnEval = Ok k /\ force_integrands_xyz q x OnDivide = Ok (S, D) /\
  force_cyl q x = Ok out /\
  distinct_nodes (length (s_qphi (q_winding q))) (length (s_qtheta (q_winding q))) gx /\
  at2 zero3 out 0 0 <> frame_components (at2 zero3 gy 0 0)
    (cartesian_force gx nx a S D (s_nfp (q_winding q)) (length (s_qphi (q_winding q)) / s_nfp (q_winding q))
       (length (s_qtheta (q_winding q))) (at2 zero3 gy 0 0) (at2 zero3 k 0 0)).
Proof.
  set (q := loops (2 * PI) 0). assert (M : made q) by apply loops_made. assert (Lg : legal (q_winding q)) by reflexivity.
  assert (L : length idle = q_ndofs q) by reflexivity.
  destruct (force_form q idle M Lg L) as (out & E & _ & F).
  destruct (force_arrays q idle M Lg L) as (gx & nx & a & S & D & Egx & Enx & Ea & Ei & Egy & Ek & Gx & Nx & A & SS & DD).
  exists q, idle, gx, nx, a, S, D. eexists _, _. exists out.
  do 3 (split; [assumption|]). split; [apply loops_default|]. do 3 (split; [assumption|]). split; [exact Egy|]. split; [exact Ek|]. do 2 (split; [assumption|]).
  split. { apply torus_distinct. exact Egx. }
  rewrite F by (cbn; lia). subst gx nx a S D. unfold force_total, cartesian_force. change (s_nfp (q_winding q)) with 2%nat.
  change (length (s_qphi (q_winding q)) / 2)%nat with 1%nat. change (length (s_qtheta (q_winding q))) with 2%nat.
  rewrite !vsum_2, !vsum_1. rewrite !vsum_2. unfold force_term.
  cbn [hit Nat.eqb andb at2 sample map nth firstn Nat.mul Nat.add Nat.div Nat.divmod fst q loops q_winding q_qphi q_qtheta torus ring s_qphi s_qtheta s_nfp length].
  fold torus. fold q. rewrite pt_00, pt_0h, pt_h0, pt_hh.
  rewrite !unless_false by (intros X; injection X; intros; lra). change (hit 0 0 0 0 0) with true. unfold pair_force_unless.
  replace (2 * PI * INR 0 / INR 2) with 0 by (cbn; field). replace (2 * PI * INR 1 / INR 2) with PI by (cbn; field).
  rewrite Ropp_0, !rotz_0.
  assert (S0 : sin (2 * PI * 0) = 0) by (now rewrite Rmult_0_r, sin_0). assert (C0 : cos (2 * PI * 0) = 1) by (now rewrite Rmult_0_r, cos_0).
  assert (S1 : sin (2 * PI * (1/2)) = 0) by (now rewrite half_turn, sin_PI). assert (C1 : cos (2 * PI * (1/2)) = -1) by (now rewrite half_turn, cos_PI).
  destruct (torus_tensors (2 * PI) 0 0 1 S0 C0 ltac:(ring)) as [T1 T2]. 
  destruct (torus_tensors (2 * PI) 0 (1/2) (-1) S1 C1 ltac:(ring)) as [T3 T4]. fold q in T1, T2, T3, T4.
  rewrite T1, T2, T3, T4, !turn_project, !turn_project2. unfold q. rewrite torus_K, !torus_un. fold q.
  replace (project_arr_cylindrical (V3 4 0 0) (scale3 (2 * PI / (2 * PI * rho 0)) (that 0 0))) with (V3 0 0 (/4)).
  2:{ unfold that, scale3. rewrite S0, C0, rho_0.
      unfold project_arr_cylindrical, project_arr_coord, r_unit, z_unit, cross3, dot3. cbn [vx vy vz]. apply v3_eq; try ring. field. apply Rgt_not_eq, PI_RGT_0. }
  replace (scale3 (2 * PI / (2 * PI * rho 0)) (that 0 0)) with (V3 0 0 (/4)).
  2:{ unfold that, scale3. rewrite S0, C0, rho_0. cbn [vx vy vz]. apply v3_eq; try ring. field. apply Rgt_not_eq, PI_RGT_0. }
  unfold nhat. rewrite S0, S1, C0, C1. rewrite !rotz_mPI. cbn [vx vy vz]. rewrite !Rmult_0_l, !V3_m0, !Rmult_1_l, !Ropp_0.
  assert (A0 : area q 0 0 = 4 * PI * PI). { unfold area, wn. change (q_winding q) with torus. rewrite torus_norm, rho_0. cbn [torus ring s_dphi s_dtheta]. field. }
  assert (A1 : area q 0 (1/2) = 2 * PI * PI). { unfold area, wn. change (q_winding q) with torus. rewrite torus_norm, rho_h. cbn [torus ring s_dphi s_dtheta]. field. }
  intros C. rewrite pair_self in C. rewrite !pair_on_axis in C by lra. rewrite !pair_off_axis in C by lra. rewrite rotz_PI, A0, A1, rho_0, rho_h in C.
  unfold frame_components, add3 in C. cbn [vx vy vz] in C. replace (4 * 4 + 0 * 0) with (4 * 4) in C by ring. rewrite sqrt_square in C by lra.
  apply (f_equal vx) in C. cbn [vx] in C. pose proof PI_RGT_0 as Hp.
  match type of C with ?l = ?r => assert (C2 : l - r = fak * PI * PI * (/ 4) * 2 * (4 * (- / 8 * / 16 + / 64 * / 4) + 2 * (/ 6 * / 4 - / 36 * / 2))) by (field; lra) end.
  rewrite C, Rminus_diag_eq in C2 by reflexivity. 
  assert (0 < fak) by (unfold fak; lra). assert (0 < fak * PI * PI) by (apply Rmult_lt_0_compat; [apply Rmult_lt_0_compat|]; assumption). set (z := fak * PI * PI) in *. lra.
Qed.
