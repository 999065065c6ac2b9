(** How the fields of ModelField and ModelForce change when all lengths are
    multiplied by [c], all fields by [b] and all currents by [c * b]. *)
From Coq Require Import String List Bool Arith ZArith Reals Lra Lia.
From Coquelicot Require Import Coquelicot.
From Verif Require Import Base ModelArray ModelMath SpecMath RDeriv ProofMath ModelSurface SpecSurface ProofSurface ProofSurface2 ProofSurface3
  SpecWinding ProofWinding4 ModelParams ModelField SpecField ProofField ProofField2 ProofField3 ProofField4 ProofField5
  ModelForce SpecForce ProofForce ProofForce2 ProofForce3 ModelPackage SpecPackage.
Import ListNotations.
Open Scope R_scope.

(** ** At one point *)
Lemma pow15_scale k y : 0 < k -> 0 <= y -> pow15 (k * k * y) = k * k * k * pow15 y.
Proof.
  intros Hk Hy. unfold pow15. rewrite sqrt_mult by nra. rewrite sqrt_square by lra. ring.
Qed.
Lemma dg_inv_scale c n nd g gd : 0 < c ->
  dg_inv_n_dash_at (scale3 (c * c) n) (scale3 (c * c) nd) (scale3 c g) (scale3 c gd) = scale3 (/ c) (dg_inv_n_dash_at n nd g gd).
Proof.
  intros Hc. unfold dg_inv_n_dash_at, norm_helper, inv_norm_dash. cbn [snd]. rewrite scale_norm by (apply Rmult_lt_0_compat; assumption).
  replace (dot3 (scale3 (c * c) n) (scale3 (c * c) nd)) with (c * c * (c * c) * dot3 n nd) by (unfold dot3, scale3; vecs; ring).
  replace (dot3 (scale3 (c * c) n) (scale3 (c * c) n)) with ((c * c) * (c * c) * dot3 n n) by (unfold dot3, scale3; vecs; ring).
  rewrite pow15_scale by (try nra; unfold dot3; nra). unfold Rdiv. rewrite !Rinv_mult.
  generalize (/ norm3 n). generalize (/ pow15 (dot3 n n)). intros u v.
  unfold add3, scale3; vecs. apply v3_eq; field; lra.
Qed.
Lemma dga_scale c N g1 g2 g11 g12 g22 : 0 < c ->
  dga_at (scale3 (c * c) N) (scale3 c g1) (scale3 c g2) (scale3 c g11) (scale3 c g12) (scale3 c g22) =
  let '(d11, d12, d21, d22) := dga_at N g1 g2 g11 g12 g22 in (scale3 (/ c) d11, scale3 (/ c) d12, scale3 (/ c) d21, scale3 (/ c) d22).
Proof.
  intros Hc. unfold dga_at.
  assert (E : forall a b u v, normaldash_at (scale3 c a) (scale3 c b) (scale3 c u) (scale3 c v) = scale3 (c * c) (normaldash_at a b u v)).
  { intros. unfold normaldash_at, cross3, add3, scale3; vecs. apply v3_eq; ring. }
  rewrite !E, !dg_inv_scale by auto. reflexivity.
Qed.
Lemma und_scale c N g1 g2 g11 g12 g22 : 0 < c ->
  unitnormaldash_at (scale3 (c * c) N) (scale3 c g1) (scale3 c g2) (scale3 c g11) (scale3 c g12) (scale3 c g22) =
  unitnormaldash_at N g1 g2 g11 g12 g22.
Proof.
  intros Hc. unfold unitnormaldash_at. rewrite dga_scale by auto. destruct (dga_at N g1 g2 g11 g12 g22) as [[[d11 d12] d21] d22].
  unfold norm_helper. cbn [snd]. rewrite scale_norm by (apply Rmult_lt_0_compat; assumption). rewrite !Rinv_mult. generalize (/ norm3 N). intros d.
  apply f_equal2; unfold cross3, add3, scale3; vecs; apply v3_eq; field; lra.
Qed.
Lemma grad1_scale c g1 g2 : 0 < c -> grad1_at (scale3 c g1) (scale3 c g2) = scale3 (/ c) (grad1_at g1 g2).
Proof.
  intros Hc. unfold grad1_at.
  replace (cross3 (scale3 c g1) (scale3 c g2)) with (scale3 (c * c) (cross3 g1 g2)) by (unfold cross3, scale3; vecs; apply v3_eq; ring).
  set (n := cross3 g1 g2).
  replace (dot3 (scale3 (c * c) n) (scale3 (c * c) n)) with ((c * c) * (c * c) * dot3 n n) by (unfold dot3, scale3; vecs; ring).
  rewrite !Rinv_mult. generalize (/ dot3 n n). intros d. unfold cross3, scale3; vecs. apply v3_eq; field; lra.
Qed.
Lemma grad2_scale c g1 g2 : 0 < c -> grad2_at (scale3 c g1) (scale3 c g2) = scale3 (/ c) (grad2_at g1 g2).
Proof.
  intros Hc. unfold grad2_at.
  replace (cross3 (scale3 c g1) (scale3 c g2)) with (scale3 (c * c) (cross3 g1 g2)) by (unfold cross3, scale3; vecs; apply v3_eq; ring).
  set (n := cross3 g1 g2).
  replace (dot3 (scale3 (c * c) n) (scale3 (c * c) n)) with ((c * c) * (c * c) * dot3 n n) by (unfold dot3, scale3; vecs; ring).
  rewrite !Rinv_mult. generalize (/ dot3 n n). intros d. unfold cross3, scale3; vecs. apply v3_eq; field; lra.
Qed.
Lemma single_shrink n n1 n2 g1 g2 k k1 k2 s t :
  single_at n n1 n2 (scale3 s g1) (scale3 s g2) (scale3 t k) (scale3 t k1) (scale3 t k2) = mscale3 (s * t) (single_at n n1 n2 g1 g2 k k1 k2).
Proof.
  destruct n, n1, n2, g1, g2, k, k1, k2. unfold single_at, div_pi_at, div_n_at, dot3. vall. f_equal; apply v3_eq; ring.
Qed.
Lemma r_unit_scale c g : 0 < c -> r_unit (scale3 c g) = r_unit g.
Proof.
  intros Hc. unfold r_unit. rewrite scale_norm by auto. unfold Rdiv. rewrite Rinv_mult. generalize (/ norm3 g). intros d.
  unfold scale3; vecs. apply v3_eq; try reflexivity; field; lra.
Qed.
Lemma project_point c g v : 0 < c -> project_arr_cylindrical (scale3 c g) v = project_arr_cylindrical g v.
Proof. intros Hc. unfold project_arr_cylindrical. now rewrite r_unit_scale. Qed.
Lemma project_both_point c g A : 0 < c -> project_both (scale3 c g) A = project_both g A.
Proof. intros Hc. unfold project_both, project_first. now rewrite !(project_point c). Qed.
Lemma pair_rescale c b skip y k x n a S D : 0 < c ->
  pair_force_unless skip (scale3 c y) (scale3 b k) (scale3 c x) n (c * c * a) (mscale3 (/ c * b) S) (mscale3 b D)
  = scale3 (b * b) (pair_force_unless skip y k x n a S D).
Proof.
  intros Hc. unfold pair_force_unless. destruct skip; [unfold scale3; vecs; apply v3_eq; ring|].
  replace (sub3 (scale3 c y) (scale3 c x)) with (scale3 c (sub3 y x)) by (unfold sub3, scale3; vecs; apply v3_eq; ring).
  set (d := sub3 y x). rewrite scale_norm by auto.
  replace (dot3 (scale3 c d) n) with (c * dot3 d n) by (unfold dot3, scale3; vecs; ring).
  rewrite !contract_scale, !contract_scale_k, scale3_add, !scale3_scale3. cbn [pow]. unfold Rdiv. rewrite !Rinv_mult.
  generalize (/ norm3 d). intros e. f_equal; f_equal; field; lra.
Qed.

Lemma K_theta_made q x : made q -> q_stellsym q = true -> length x = q_ndofs q ->
  K_theta q x = Ok (sample (fun p t => phi1 q x p t + q_G q) (q_qphi q) (q_qtheta q)).
Proof.
  intros M St L. unfold K_theta.
  destruct (make_mn_cols (q_stellsym q) (q_mpol q) (q_ntor q)) as [Em Ec]. cbv zeta in Em, Ec. rewrite Em.
  fold (qcols q) in *. rewrite map_length.
  replace (K_theta_choice (q_stellsym q) (length (qcols q))) with (trig_choice (q_stellsym q) (length (qcols q)))
    by (rewrite St; reflexivity).
  rewrite Ec, map_length, Nat.eqb_refl. cbn [negb]. rewrite map2_diag.
  rewrite diff_helper_cols. cbn [sel_quadpoints bind d_n d_trig_diff].
  change (map (fun x0 : Z * Z * Z => - IZR (snd (fst x0)) * IZR (snd x0) * INR (q_nfp q) * 2 * PI) (qcols q)) with (map (fphi q) (qcols q)).
  rewrite gmap_sample, apply_rows_sample by (now apply cols_len). cbn [bind]. rewrite gmap_sample. f_equal.
  apply sample_ext. intros p t. now rewrite row_diag_map.
Qed.

Lemma at2_gmap {A B} (f : A -> B) dA dB n m g i j : rect n m g -> (i < n)%nat -> (j < m)%nat ->
  at2 dB (map (map f) g) i j = f (at2 dA g i j).
Proof.
  intros [R1 R2] Hi Hj. rewrite Forall_forall in R2. unfold at2. 
  assert (E : nth i (map (map f) g) [] = map f (nth i g [])) by (change (@nil B) with (map f []); apply map_nth).
  rewrite E. rewrite (nth_indep _ dB (f dA)); [apply map_nth|]. rewrite map_length, R2; [exact Hj|apply nth_In; lia].
Qed.

(** ** The parameter objects *)
Section Rescale.
  Variables (c b : R) (q q' : params) (x : list R).
  Hypothesis Hc : 0 < c.
  Hypothesis H : rescaled c b q q'.
  Let x' := map (Rmult (c * b)) x.

  Lemma rescaled_cols : qcols q' = qcols q /\ q_nfp q' = q_nfp q.
  Proof using H. destruct H as (_ & (N & _) & _ & _ & E1 & E2 & E3 & _). unfold qcols, q_nfp. now rewrite N, E1, E2, E3. Qed.
  Lemma phis_rescaled p t :
    phi_of q' x' p t = c * b * phi_of q x p t /\
    phi1 q' x' p t = c * b * phi1 q x p t /\ phi2 q' x' p t = c * b * phi2 q x p t /\
    phi11 q' x' p t = c * b * phi11 q x p t /\ phi12 q' x' p t = c * b * phi12 q x p t /\ phi22 q' x' p t = c * b * phi22 q x p t.
  Proof using H.
    destruct rescaled_cols as [E N]. unfold phi_of, phi1, phi2, phi11, phi12, phi22, td, tr, fphi, fpp, fpt, targ, x'.
    rewrite E, N, !ldot_mapscal. repeat split.
  Qed.
  Lemma winding_rescaled a e p t : pt (q_winding q') a e p t = scale3 c (pt (q_winding q) a e p t).
  Proof using H. destruct H as (_ & W & _). now apply pt_resized. Qed.
  Lemma wn_rescaled p t : wn q' p t = scale3 (c * c) (wn q p t).
  Proof using H. destruct H as (_ & W & _). unfold wn. now apply nrm_resized. Qed.
  Lemma kval_rescaled p t : kval q' x' p t = scale3 b (kval q x p t).
  Proof using Hc H.
    destruct (phis_rescaled p t) as (_ & P1 & P2 & _). pose proof H as (_ & _ & G & I & _).
    unfold kval, w1, w2. rewrite P1, P2, G, I, wn_rescaled, !winding_rescaled, scale_norm by (apply Rmult_lt_0_compat; assumption). rewrite !Rinv_mult.
    generalize (/ norm3 (wn q p t)). intros d. unfold scale3, sub3; vecs. apply v3_eq; field; lra.
  Qed.
  Lemma dgw_rescaled p t : dgw q' p t = let '(d11, d12, d21, d22) := dgw q p t in (scale3 (/ c) d11, scale3 (/ c) d12, scale3 (/ c) d21, scale3 (/ c) d22).
  Proof using Hc H. unfold dgw, w1, w2. rewrite wn_rescaled, !winding_rescaled. now apply dga_scale. Qed.
  Lemma kd_at_rescaled d2 d1 g2 g1 n f1 f1' f2 f2' :
    kd_at (scale3 (/ c) d2) (scale3 (/ c) d1) (scale3 c g2) (scale3 c g1) (c * c * n) (c * b * f1) (c * b * f1') (c * b * f2) (c * b * f2')
    = scale3 b (kd_at d2 d1 g2 g1 n f1 f1' f2 f2').
  Proof using Hc.
    unfold kd_at. rewrite !Rinv_mult. generalize (/ n). intros e. unfold scale3, sub3, add3; vecs. apply v3_eq; field; lra.
  Qed.
  Lemma kd_rescaled p t : kd1 q' x' p t = scale3 b (kd1 q x p t) /\ kd2 q' x' p t = scale3 b (kd2 q x p t).
  Proof using Hc H.
    destruct (phis_rescaled p t) as (_ & P1 & P2 & P11 & P12 & P22). pose proof H as (_ & _ & G & I & _).
    unfold kd1, kd2, w1, w2. rewrite dgw_rescaled. destruct (dgw q p t) as [[[d11 d12] d21] d22].
    rewrite P1, P2, P11, P12, P22, G, I, wn_rescaled, !winding_rescaled, scale_norm by (apply Rmult_lt_0_compat; assumption).
    rewrite <- !Rmult_plus_distr_l. split; apply kd_at_rescaled.
  Qed.
  Lemma kkval_rescaled p t : kkval q' x' p t = scale3 (b * b / c) (kkval q x p t).
  Proof using Hc H.
    destruct (phis_rescaled p t) as (_ & P1 & P2 & _). destruct (kd_rescaled p t) as [K1 K2]. pose proof H as (_ & _ & G & I & _).
    unfold kkval. rewrite P1, P2, K1, K2, G, I, wn_rescaled, scale_norm by (apply Rmult_lt_0_compat; assumption). rewrite !Rinv_mult. unfold Rdiv.
    generalize (/ norm3 (wn q p t)). intros d. unfold scale3, sub3; vecs. apply v3_eq; field; lra.
  Qed.
  Lemma un_rescaled p t : un q' p t = un q p t.
  Proof using Hc H.
    unfold un. rewrite wn_rescaled, scale_norm by (apply Rmult_lt_0_compat; assumption). rewrite !Rinv_mult. generalize (/ norm3 (wn q p t)). intros d.
    unfold scale3; vecs. apply v3_eq; field; lra.
  Qed.
  Lemma und_rescaled p t : und q' p t = und q p t.
  Proof using Hc H. unfold und, w1, w2. rewrite wn_rescaled, !winding_rescaled. now apply und_scale. Qed.
  Lemma single_rescaled p t : single_of q' x' p t = mscale3 (/ c * b) (single_of q x p t).
  Proof using Hc H.
    unfold single_of, w1, w2. destruct (kd_rescaled p t) as [K1 K2].
    rewrite un_rescaled, und_rescaled, !winding_rescaled, grad1_scale, grad2_scale, kval_rescaled, K1, K2 by auto. apply single_shrink.
  Qed.
  Lemma double_rescaled p t : double_of q' x' p t = mscale3 b (double_of q x p t).
  Proof using Hc H. unfold double_of. rewrite un_rescaled, kval_rescaled. apply double_scale. Qed.
  Lemma contribution_rescaled P W n k :
    contribution (scale3 c P) (scale3 c W) (scale3 (c * c) n) (scale3 b k) = scale3 b (contribution P W n k).
  Proof using Hc.
    replace (scale3 b k) with (scale3 (/ c) (scale3 (c * b) k)).
    2:{ rewrite scale3_scale3. f_equal. field. lra. }
    rewrite contribution_resized by auto. unfold contribution. cbv zeta.
    set (r := sub3 P W). generalize (1 / sqrt (dot3 r r)) (sqrt (dot3 n n)). intros u v.
    unfold scale3, cross3; vecs. apply v3_eq; field; lra.
  Qed.
  Lemma bval_rescaled P : bval q' x' (scale3 c P) = scale3 b (bval q x P).
  Proof using Hc H.
    pose proof H as (_ & W & _). pose proof W as (_ & _ & _ & _ & Q1 & Q2 & _). unfold bval, wsum. rewrite Q1, Q2.
    assert (E : forall l, sum3 (map (fun u => contribution (scale3 c P) (pt (q_winding q') 0 0 (fst u) (snd u)) (wn q' (fst u) (snd u)) (kval q' x' (fst u) (snd u))) l)
      = scale3 b (sum3 (map (fun u => contribution P (pt (q_winding q) 0 0 (fst u) (snd u)) (wn q (fst u) (snd u)) (kval q x (fst u) (snd u))) l))).
    { intros l. rewrite sum3_scale. apply sum3_ext. intros u. rewrite winding_rescaled, wn_rescaled, kval_rescaled. apply contribution_rescaled. }
    rewrite E. unfold scale3; vecs. apply v3_eq; ring.
  Qed.

  (** ** The results *)
  Hypothesis M : made q.
  Hypothesis M' : made q'.
  Hypothesis Lw : legal (q_winding q).
  Hypothesis Lp : legal (q_plasma q).
  Hypothesis Ps : plasma_shaped q.
  Hypothesis L : length x = q_ndofs q.
  Lemma rescaled_ndofs : q_ndofs q' = q_ndofs q.
  Proof using M M' H. 
    destruct (made_facts q M) as (_ & _ & N & _). destruct (made_facts q' M') as (_ & _ & N' & _).
    destruct H as (_ & _ & _ & _ & E1 & E2 & E3 & _). now rewrite N, N', E1, E2, E3.
  Qed.
  Lemma rescaled_side : legal (q_winding q') /\ legal (q_plasma q') /\ plasma_shaped q' /\ length x' = q_ndofs q'.
  Proof using M M' H Lw Lp Ps L.
    pose proof H as (HP & HW & _ & _ & _ & _ & _ & _ & _ & EB). pose proof HP as (_ & _ & _ & _ & P1 & P2 & _).
    split; [eapply resized_legal; eauto|]. split; [eapply resized_legal; eauto|]. split.
    - destruct Ps as [S1 S2]. split; rewrite EB, ?P1, ?P2; [now rewrite map_length|]. apply Forall_forall. intros r Hr.
      apply in_map_iff in Hr as (r0 & <- & Hr). rewrite map_length. rewrite Forall_forall in S2. auto.
    - rewrite rescaled_ndofs. unfold x'. now rewrite map_length.
  Qed.
  Lemma rescaled_weights :
    s_dphi (q_eval q') = s_dphi (q_eval q) /\ s_dtheta (q_eval q') = s_dtheta (q_eval q) /\
    s_dphi (q_plasma q') = s_dphi (q_plasma q) /\ s_dtheta (q_plasma q') = s_dtheta (q_plasma q) /\
    s_dphi (q_winding q') = s_dphi (q_winding q) /\ s_dtheta (q_winding q') = s_dtheta (q_winding q).
  Proof using M M' H.
    destruct (made_facts q M) as (_ & _ & _ & _ & Ce & Cw & Cp). destruct (made_facts q' M') as (_ & _ & _ & _ & Ce' & Cw' & Cp').
    pose proof H as (P & W & _ & _ & _ & _ & _ & Q1 & Q2 & _). destruct P as (_ & _ & _ & _ & P1 & P2 & _). destruct W as (_ & _ & _ & _ & W1 & W2 & _).
    rewrite Q1, Q2 in Ce'. rewrite P1, P2 in Cp'. rewrite W1, W2 in Cw'.
    apply copy_fields in Ce as (_ & _ & _ & _ & _ & _ & _ & _ & _ & A1 & A2). apply copy_fields in Ce' as (_ & _ & _ & _ & _ & _ & _ & _ & _ & B1 & B2).
    apply copy_fields in Cp as (_ & _ & _ & _ & _ & _ & _ & _ & _ & A3 & A4). apply copy_fields in Cp' as (_ & _ & _ & _ & _ & _ & _ & _ & _ & B3 & B4).
    apply copy_fields in Cw as (_ & _ & _ & _ & _ & _ & _ & _ & _ & A5 & A6). apply copy_fields in Cw' as (_ & _ & _ & _ & _ & _ & _ & _ & _ & B5 & B6).
    repeat split; congruence.
  Qed.
  Lemma da_rescaled : exists F, da (q_eval q) = Ok (sample F (q_qphi q) (q_qtheta q)) /\
    da (q_eval q') = Ok (sample (fun p t => c * c * F p t) (q_qphi q) (q_qtheta q)).
  Proof using Hc H M M' Lw Lp Ps L.
    destruct (made_facts q M) as (_ & _ & _ & _ & Ce & _). destruct (made_facts q' M') as (_ & _ & _ & _ & Ce' & _).
    destruct rescaled_weights as (D1 & D2 & _). destruct rescaled_side as (Lw' & _).
    pose proof H as (_ & _ & _ & _ & _ & _ & _ & Q1 & Q2 & _). rewrite Q1, Q2 in Ce'.
    rewrite (da_copy _ _ _ _ Lw Ce), (da_copy _ _ _ _ Lw' Ce'). eexists. split; [reflexivity|]. f_equal. apply sample_ext. intros p t.
    fold (wn q' p t) (wn q p t). rewrite D1, D2, wn_rescaled, scale_norm by (apply Rmult_lt_0_compat; assumption). ring.
  Qed.
  Lemma K_rescaled : exists F, K q x OnEval = Ok (sample F (q_qphi q) (q_qtheta q)) /\
    K q' x' OnEval = Ok (sample (fun p t => scale3 b (F p t)) (q_qphi q) (q_qtheta q)).
  Proof using Hc H M M' Lw Lp Ps L.
    destruct rescaled_side as (Lw' & _ & _ & L'). pose proof H as (_ & _ & _ & _ & _ & _ & _ & Q1 & Q2 & _).
    rewrite !K_made by auto. cbn [sel_quadpoints]. rewrite Q1, Q2. eexists. split; [reflexivity|]. f_equal. apply sample_ext. intros. apply kval_rescaled.
  Qed.
  Lemma KK_rescaled : exists F, K_dot_grad_K q x = Ok (sample F (q_qphi q) (q_qtheta q)) /\
    K_dot_grad_K q' x' = Ok (sample (fun p t => scale3 (b * b / c) (F p t)) (q_qphi q) (q_qtheta q)).
  Proof using Hc H M M' Lw Lp Ps L.
    destruct rescaled_side as (Lw' & _ & _ & L'). pose proof H as (_ & _ & _ & _ & _ & _ & _ & Q1 & Q2 & _).
    rewrite !KK_made by auto. rewrite Q1, Q2. eexists. split; [reflexivity|]. f_equal. apply sample_ext. intros. apply kkval_rescaled.
  Qed.
  Lemma KKc_rescaled : exists F, K_dot_grad_K_cyl q x = Ok (sample F (q_qphi q) (q_qtheta q)) /\
    K_dot_grad_K_cyl q' x' = Ok (sample (fun p t => scale3 (b * b / c) (F p t)) (q_qphi q) (q_qtheta q)).
  Proof using Hc H M M' Lw Lp Ps L.
    destruct rescaled_side as (Lw' & _ & _ & L'). pose proof H as (_ & _ & _ & _ & _ & _ & _ & Q1 & Q2 & _).
    destruct (made_facts q M) as (_ & _ & _ & _ & Ce & _). destruct (made_facts q' M') as (_ & _ & _ & _ & Ce' & _).
    rewrite Q1, Q2 in Ce'.
    unfold K_dot_grad_K_cyl. rewrite !KK_made by auto. cbn [bind]. unfold gamma.
    rewrite (gammadash_copy _ _ _ _ 0 0 Lw Ce), (gammadash_copy _ _ _ _ 0 0 Lw' Ce'). cbn [bind]. rewrite Q1, Q2, !gmap2_sample.
    eexists. split; [reflexivity|]. f_equal. apply sample_ext. intros.
    rewrite winding_rescaled, project_point, kkval_rescaled by auto. apply project_scale.
  Qed.
  Lemma Phi_rescaled : exists F, Phi q x = Ok (sample F (q_qphi q) (q_qtheta q)) /\
    Phi q' x' = Ok (sample (fun p t => c * b * F p t) (q_qphi q) (q_qtheta q)).
  Proof using Hc H M M' Lw Lp Ps L.
    destruct rescaled_side as (Lw' & _ & _ & L'). pose proof H as (_ & _ & _ & _ & _ & _ & _ & Q1 & Q2 & _).
    rewrite !Phi_made by auto. rewrite Q1, Q2. eexists. split; [reflexivity|]. f_equal. apply sample_ext. intros p t. apply (phis_rescaled p t).
  Qed.
  Lemma Phi_net_rescaled : exists F, Phi_with_net_current q x = Ok (sample F (q_qphi q) (q_qtheta q)) /\
    Phi_with_net_current q' x' = Ok (sample (fun p t => c * b * F p t) (q_qphi q) (q_qtheta q)).
  Proof using Hc H M M' Lw Lp Ps L.
    destruct rescaled_side as (Lw' & _ & _ & L'). pose proof H as (_ & _ & G & I & _ & _ & _ & Q1 & Q2 & _).
    destruct (made_facts q M) as (_ & _ & _ & _ & Ce & _). destruct (made_facts q' M') as (_ & _ & _ & _ & Ce' & _).
    rewrite Q1, Q2 in Ce'. apply copy_fields in Ce as (_ & _ & _ & _ & _ & _ & _ & A1 & A2 & _). apply copy_fields in Ce' as (_ & _ & _ & _ & _ & _ & _ & B1 & B2 & _).
    unfold Phi_with_net_current. rewrite !Phi_made by auto. cbn [bind]. rewrite A1, A2, B1, B2, Q1, Q2, !gmap_sample, !gmap2_sample.
    eexists. split; [reflexivity|]. f_equal. apply sample_ext. intros p t. destruct (phis_rescaled p t) as (-> & _). rewrite G, I. ring.
  Qed.
  Lemma B_rescaled : exists F, winding_surface_B q x = Ok (sample F (s_qphi (q_plasma q)) (s_qtheta (q_plasma q))) /\
    winding_surface_B q' x' = Ok (sample (fun p t => scale3 b (F p t)) (s_qphi (q_plasma q)) (s_qtheta (q_plasma q))).
  Proof using Hc H M M' Lw Lp Ps L.
    destruct rescaled_side as (Lw' & Lp' & _ & L'). pose proof H as (HP & _). pose proof HP as (_ & _ & _ & _ & P1 & P2 & _).
    rewrite !B_made by auto. rewrite P1, P2. eexists. split; [reflexivity|]. f_equal. apply sample_ext. intros.
    rewrite (pt_resized c _ _ _ _ _ _ HP). apply bval_rescaled.
  Qed.
  Lemma Bnormal_rescaled : exists g, Bnormal q x = Ok g /\ Bnormal q' x' = Ok (map (map (Rmult b)) g) /\
    rect (length (s_qphi (q_plasma q))) (length (s_qtheta (q_plasma q))) g.
  Proof using Hc H M M' Lw Lp Ps L.
    destruct rescaled_side as (Lw' & Lp' & Ps' & L'). pose proof H as (HP & _ & _ & _ & _ & _ & _ & _ & _ & EB). pose proof HP as (_ & _ & _ & _ & P1 & P2 & _).
    rewrite !Bnormal_made by auto. eexists. split; [reflexivity|]. split.
    - rewrite EB, P1, P2, <- bn_grids. f_equal. f_equal. apply sample_ext. intros p t. unfold bnval.
      rewrite (unit_resized c _ _ p t Hc HP), (pt_resized c _ _ _ _ _ _ HP), bval_rescaled. unfold dot3, scale3; vecs. ring.
    - apply rect_gmap2; [apply rect_sample|]. exact Ps.
  Qed.
  Lemma wsq_rescaled g (F : R -> R -> R) ps ts k :
    Rsum (map2 (fun r s => Rsum (map2 wsq r s)) (map (map (Rmult b)) g) (sample (fun p t => k * (c * c * F p t)) ps ts))
    = b * b * (c * c) * Rsum (map2 (fun r s => Rsum (map2 wsq r s)) g (sample (fun p t => k * F p t) ps ts)).
  Proof using.
    unfold sample. revert ps; induction g as [|r g IH]; intros [|p ps]; try (unfold Rsum; cbn; ring). unfold Rsum in *. cbn [map map2 fold_right]. rewrite IH.
    rewrite Rmult_plus_distr_l. f_equal. clear. revert ts; induction r as [|y r IH]; intros [|t ts]; try (cbn; ring). cbn [map map2 fold_right]. rewrite IH.
    rewrite Rmult_plus_distr_l. f_equal. unfold wsq. field.
  Qed.
  Lemma f_B_rescaled : exists v, f_B q x = Ok v /\ f_B q' x' = Ok (b * b * (c * c) * v).
  Proof using Hc H M M' Lw Lp Ps L.
    destruct rescaled_side as (Lw' & Lp' & Ps' & L'). destruct rescaled_weights as (_ & _ & D3 & D4 & _). destruct Bnormal_rescaled as (g & E & E' & _).
    destruct rescaled_cols as [_ N]. pose proof H as (HP & _). pose proof HP as (_ & _ & _ & _ & P1 & P2 & _).
    destruct (f_B_made q x M Lw Lp Ps L) as (u & d & Eu & _ & _ & _ & Ed & ->).
    destruct (f_B_made q' x' M' Lw' Lp' Ps' L') as (u' & d' & Eu' & _ & _ & _ & Ed' & ->).
    eexists. split; [reflexivity|]. f_equal. rewrite !gsum_wsq_rows, N. assert (u = g) by congruence. assert (u' = map (map (Rmult b)) g) by congruence. subst u u'.
    rewrite Ed, Ed', P1, P2, D3, D4, <- Rmult_assoc. f_equal.
    rewrite <- (wsq_rescaled g (fun p t => norm3 (nrm (q_plasma q) p t))). f_equal. f_equal. apply sample_ext. intros.
    rewrite (nrm_resized c _ _ _ _ HP), scale_norm by (apply Rmult_lt_0_compat; assumption). reflexivity.
  Qed.
  Lemma f_K_rescaled : exists v, f_K q x = Ok v /\ f_K q' x' = Ok (b * b * (c * c) * v).
  Proof using Hc H M M' Lw Lp Ps L.
    destruct rescaled_side as (Lw' & Lp' & Ps' & L'). destruct rescaled_weights as (D1 & D2 & _). pose proof H as (_ & _ & _ & _ & _ & _ & _ & Q1 & Q2 & _).
    destruct rescaled_cols as [_ N]. rewrite !f_K_made by auto. eexists. split; [reflexivity|]. rewrite N, Q1, Q2, D1, D2. f_equal.
    rewrite <- Rmult_assoc, <- Rsum_scal. f_equal. apply Rsum_ext. intros p _. rewrite <- Rsum_scal. apply Rsum_ext. intros t _.
    rewrite kval_rescaled. fold (wn q' p t) (wn q p t). rewrite wn_rescaled, scale_norm by (apply Rmult_lt_0_compat; assumption). unfold dot3, scale3; vecs. field.
  Qed.
  Lemma f_Phi_rescaled : exists v, f_Phi q x = Ok v /\ f_Phi q' x' = Ok (c * b * (c * b) * (c * c) * v).
  Proof using Hc H M M' Lw Lp Ps L.
    destruct rescaled_side as (Lw' & Lp' & Ps' & L'). destruct rescaled_weights as (D1 & D2 & _). pose proof H as (_ & _ & _ & _ & _ & _ & _ & Q1 & Q2 & _).
    destruct rescaled_cols as [_ N]. rewrite !f_Phi_made by auto. eexists. split; [reflexivity|]. rewrite N, Q1, Q2, D1, D2. f_equal.
    rewrite <- Rmult_assoc, <- Rsum_scal. f_equal. apply Rsum_ext. intros p _. rewrite <- Rsum_scal. apply Rsum_ext. intros t _.
    destruct (phis_rescaled p t) as (-> & _). fold (wn q' p t) (wn q p t). rewrite wn_rescaled, scale_norm by (apply Rmult_lt_0_compat; assumption). field.
  Qed.
  Lemma force_rescaled : exists g g', force_cyl q x = Ok g /\ force_cyl q' x' = Ok g' /\
    rect (length (q_qphi q)) (length (q_qtheta q)) g /\ g' = map (map (scale3 (b * b))) g.
  Proof using Hc H M M' Lw Lp Ps L.
    destruct rescaled_side as (Lw' & Lp' & Ps' & L'). destruct rescaled_weights as (_ & _ & _ & _ & D1 & D2).
    pose proof H as (_ & (Wn & _ & _ & _ & W1 & W2 & _) & _ & _ & _ & _ & _ & Q1 & Q2 & _).
    destruct (force_form q x M Lw L) as (f & E & R & F). destruct (force_form q' x' M' Lw' L') as (f' & E' & R' & F').
    exists f, f'. split; [exact E|]. split; [exact E'|]. split; [exact R|]. rewrite Q1, Q2 in R', F'.
    assert (Rm : rect (length (q_qphi q)) (length (q_qtheta q)) (map (map (scale3 (b * b))) f)).
    { destruct R as [R1 R2]. split; [now rewrite map_length|]. rewrite Forall_forall in R2 |- *. intros r Hr. apply in_map_iff in Hr as (r0 & <- & Hr). rewrite map_length. auto. }
    apply (rect_ext zero3 _ _ _ _ R' Rm). intros i j Hi Hj. rewrite F' by auto.
    transitivity (scale3 (b * b) (at2 zero3 f i j)).
    2:{ symmetry. now apply (at2_gmap (scale3 (b * b)) zero3 zero3 (length (q_qphi q)) (length (q_qtheta q))). }
    rewrite F by auto. unfold force_total. rewrite Wn, W1, W2. rewrite scale3_vsum. apply vsum_upto_ext. intros fp _. rewrite scale3_vsum. apply vsum_upto_ext. intros p _.
    rewrite scale3_vsum. apply vsum_upto_ext. intros t _. unfold force_term, area. rewrite Wn, W1, W2, Q1, Q2, D1, D2.
    rewrite !winding_rescaled, !project_point, !project_both_point, kval_rescaled, project_scale, un_rescaled, single_rescaled, double_rescaled, !project_both_scale by auto.
    rewrite wn_rescaled, scale_norm by (apply Rmult_lt_0_compat; assumption).
    match goal with |- context [?a * ?d * (c * c * ?n)] => replace (a * d * (c * c * n)) with (c * c * (a * d * n)) by ring end.
    now apply pair_rescale.
  Qed.
  Lemma K_theta_rescaled : q_stellsym q = true -> exists F, K_theta q x = Ok (sample F (q_qphi q) (q_qtheta q)) /\
    K_theta q' x' = Ok (sample (fun p t => c * b * F p t) (q_qphi q) (q_qtheta q)).
  Proof using Hc H M M' Lw Lp Ps L.
    intros St. destruct rescaled_side as (_ & _ & _ & L'). pose proof H as (_ & _ & G & _ & S & _ & _ & Q1 & Q2 & _).
    rewrite !K_theta_made by congruence. rewrite Q1, Q2. eexists. split; [reflexivity|]. f_equal. apply sample_ext. intros p t.
    destruct (phis_rescaled p t) as (_ & -> & _). rewrite G. ring.
  Qed.
End Rescale.
