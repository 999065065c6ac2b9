(** Proofs about superposition, quadratic figures of merit, the field. *)
From Coq Require Import String List Bool Arith ZArith Reals Lra Lia FinFun.
From Coquelicot Require Import Coquelicot.
From Verif Require Import Base ModelArray ModelMath SpecMath RDeriv ProofMath ModelSurface SpecSurface ProofSurface ProofSurface2 ProofSurface3
  ModelParams ModelField SpecField ProofField ProofField2.
Import ListNotations.
Open Scope R_scope.

(** ** Linearity *)
Lemma length_lincomb a b x y : length x = length y -> length (lincomb a b x y) = length x.
Proof. apply length_map2. Qed.
Lemma ldot_lincomb a b l x y : length x = length y -> ldot l (lincomb a b x y) = a * ldot l x + b * ldot l y.
Proof.
  revert x y; induction l; intros x y H; [unfold ldot; simpl; ring|].
  destruct x, y; try discriminate; [rewrite !ldot_nil_r; ring|]. cbn [lincomb map2].
  rewrite !ldot_cons. fold (lincomb a b x y). rewrite IHl by (simpl in H; lia). ring.
Qed.

Lemma geo_same q q' : same_geometry q q' -> qcols q = qcols q' /\ q_nfp q = q_nfp q' /\ wn q = wn q' /\ w1 q = w1 q' /\ w2 q = w2 q' /\
  (forall mode, sel_quadpoints q mode = sel_quadpoints q' mode).
Proof.
  intros (E1 & E2 & E3 & E4 & E5 & E6 & E7 & E8 & _). unfold qcols, q_nfp, wn, w1, w2. rewrite E2, E6, E7, E8.
  repeat split. intros mode. unfold sel_quadpoints. now rewrite E2, E4, E5.
Qed.
Lemma geo_phi q q' x p t : same_geometry q q' -> phi_of q x p t = phi_of q' x p t /\ phi1 q x p t = phi1 q' x p t /\ phi2 q x p t = phi2 q' x p t.
Proof.
  intros H. destruct (geo_same _ _ H) as (E & N & _). unfold phi_of, phi1, phi2, tr, td, fphi, targ. rewrite E, N. repeat split.
Qed.

Lemma kval_superposed a b q1 q2 q x1 x2 p t : superposed a b q1 q2 q -> length x1 = length x2 ->
  kval q (lincomb a b x1 x2) p t = add3 (scale3 a (kval q1 x1 p t)) (scale3 b (kval q2 x2 p t)).
Proof.
  intros (S1 & S2 & HG & HI & _) Hl. unfold kval.
  destruct (geo_same _ _ S1) as (_ & _ & N1 & A1 & B1 & _). destruct (geo_same _ _ S2) as (_ & _ & N2 & A2 & B2 & _).
  rewrite <- N1, <- A1, <- B1, <- N2, <- A2, <- B2.
  destruct (geo_phi q q1 x1 p t S1) as (_ & <- & <-). destruct (geo_phi q q2 x2 p t S2) as (_ & <- & <-).
  unfold phi1, phi2. rewrite !ldot_lincomb by auto. rewrite HG, HI.
  unfold add3, sub3, scale3; cbn [vx vy vz]. f_equal; ring.
Qed.

Lemma glin3_sample a b F G ps ts : glincomb3 a b (sample F ps ts) (sample G ps ts)
  = sample (fun p t => add3 (scale3 a (F p t)) (scale3 b (G p t))) ps ts.
Proof. apply (gmap2_sample (fun u v => add3 (scale3 a u) (scale3 b v))). Qed.
Lemma glin_sample a b F G ps ts : glincomb a b (sample F ps ts) (sample G ps ts)
  = sample (fun p t => a * F p t + b * G p t) ps ts.
Proof. apply (gmap2_sample (fun u v => a * u + b * v)). Qed.

Lemma K_superposed a b q1 q2 q x1 x2 mode :
  made q1 -> made q2 -> made q -> superposed a b q1 q2 q -> legal (q_winding q) ->
  length x1 = q_ndofs q -> length x2 = q_ndofs q ->
  exists k1 k2, K q1 x1 mode = Ok k1 /\ K q2 x2 mode = Ok k2 /\
    K q (lincomb a b x1 x2) mode = Ok (glincomb3 a b k1 k2).
Proof.
  intros M1 M2 M S Lg L1 L2. pose proof S as (S1 & S2 & _).
  pose proof S1 as (_ & W1 & _ & _ & _ & _ & _ & _ & D1). pose proof S2 as (_ & W2 & _ & _ & _ & _ & _ & _ & D2).
  rewrite (K_made q1) by (auto; congruence). rewrite (K_made q2) by (auto; congruence).
  rewrite (K_made q) by (auto; rewrite length_lincomb; congruence).
  destruct (geo_same _ _ S1) as (_ & _ & _ & _ & _ & Q1). destruct (geo_same _ _ S2) as (_ & _ & _ & _ & _ & Q2).
  rewrite <- (Q1 mode), <- (Q2 mode). destruct (sel_quadpoints q mode) as [ps ts].
  eexists; eexists. split; [reflexivity|]. split; [reflexivity|]. rewrite glin3_sample. f_equal. apply sample_ext.
  intros. apply kval_superposed; auto. congruence.
Qed.

(** ** The field *)
Definition pairs (ps ts : list R) : list (R * R) := flat_map (fun p => map (pair p) ts) ps.
Lemma concat_sample {A} (F : R -> R -> A) ps ts : concat (sample F ps ts) = map (fun u => F (fst u) (snd u)) (pairs ps ts).
Proof.
  unfold sample, pairs. induction ps; simpl; auto. rewrite map_app, IHps, map_map. reflexivity.
Qed.
Definition wsum q x P : vec3 := sum3 (map (fun u =>
  contribution P (pt (q_winding q) 0 0 (fst u) (snd u)) (wn q (fst u) (snd u)) (kval q x (fst u) (snd u)))
  (pairs (s_qphi (q_winding q)) (s_qtheta (q_winding q)))).
Definition bval q x P : vec3 :=
  scale3 (/ INR (length (s_qtheta (q_winding q)))) (scale3 (/ INR (length (s_qphi (q_winding q)))) (scale3 fak (wsum q x P))).

Lemma sample_dims {A} (F : R -> R -> A) ps ts : ps <> [] -> length (sample F ps ts) = length ps /\ length (hd [] (sample F ps ts)) = length ts.
Proof. intros H. unfold sample. rewrite map_length. split; auto. destruct ps; [contradiction|]. simpl. apply map_length. Qed.

Lemma B_made q x : made q -> legal (q_winding q) -> legal (q_plasma q) -> length x = q_ndofs q ->
  winding_surface_B q x = Ok (sample (fun p t => bval q x (pt (q_plasma q) 0 0 p t)) (s_qphi (q_plasma q)) (s_qtheta (q_plasma q))).
Proof.
  intros M Lw Lp L. destruct (made_facts q M) as (_ & _ & _ & _ & _ & Cw & Cp).
  unfold winding_surface_B, gamma. rewrite (gammadash_copy (q_plasma q) _ _ _ 0 0 Lp Cp). cbn [bind].
  rewrite (gammadash_copy (q_winding q) _ _ _ 0 0 Lw Cw). cbn [bind]. rewrite (normal_copy (q_winding q) _ _ _ Lw Cw). cbn [bind].
  rewrite K_made by auto. cbn [sel_quadpoints bind]. rewrite gmap_sample. f_equal.
  destruct (sample_dims (pt (q_winding q) 0 0) (s_qphi (q_winding q)) (s_qtheta (q_winding q))) as [-> ->].
  { destruct M as (_ & B & _). now apply built_nonempty in B. }
  apply sample_ext. intros p t. unfold bval. f_equal. f_equal. f_equal.
  unfold compute_B, wsum. f_equal. rewrite !concat_sample, combine_map, map2_diag, map_map. reflexivity.
Qed.

Lemma contribution_lin a b P W n k1 k2 :
  contribution P W n (add3 (scale3 a k1) (scale3 b k2)) = add3 (scale3 a (contribution P W n k1)) (scale3 b (contribution P W n k2)).
Proof.
  unfold contribution. cbv zeta. generalize (sqrt (dot3 n n)). intros c.
  generalize (1 / sqrt (dot3 (sub3 P W) (sub3 P W))). intros d. generalize (sub3 P W). intros r.
  unfold scale3, add3, cross3; cbn [vx vy vz]. f_equal; ring.
Qed.
Lemma sum3_lin {A} a b (f g : A -> vec3) l :
  sum3 (map (fun u => add3 (scale3 a (f u)) (scale3 b (g u))) l) = add3 (scale3 a (sum3 (map f l))) (scale3 b (sum3 (map g l))).
Proof.
  induction l; simpl.
  - unfold zero3, add3, scale3; cbn [vx vy vz]. f_equal; ring.
  - rewrite IHl. unfold add3, scale3; cbn [vx vy vz]. f_equal; ring.
Qed.
Lemma sum3_ext {A} (f g : A -> vec3) l : (forall u, f u = g u) -> sum3 (map f l) = sum3 (map g l).
Proof. intros H. f_equal. now apply map_ext. Qed.

Lemma bval_superposed a b q1 q2 q x1 x2 P : superposed a b q1 q2 q -> length x1 = length x2 ->
  bval q (lincomb a b x1 x2) P = add3 (scale3 a (bval q1 x1 P)) (scale3 b (bval q2 x2 P)).
Proof.
  intros S Hl. pose proof S as (S1 & S2 & _).
  assert (E : wsum q (lincomb a b x1 x2) P = add3 (scale3 a (wsum q1 x1 P)) (scale3 b (wsum q2 x2 P))).
  { unfold wsum. pose proof S1 as (_ & W1 & _). pose proof S2 as (_ & W2 & _). rewrite <- W1, <- W2.
    destruct (geo_same _ _ S1) as (_ & _ & N1 & _). destruct (geo_same _ _ S2) as (_ & _ & N2 & _). rewrite <- N1, <- N2.
    rewrite <- sum3_lin. apply sum3_ext. intros u. rewrite <- contribution_lin. f_equal. now apply kval_superposed. }
  unfold bval. rewrite E. pose proof S1 as (_ & W1 & _). pose proof S2 as (_ & W2 & _). rewrite <- W1, <- W2.
  unfold add3, scale3; cbn [vx vy vz]. f_equal; ring.
Qed.

Lemma B_superposed a b q1 q2 q x1 x2 :
  made q1 -> made q2 -> made q -> superposed a b q1 q2 q -> legal (q_winding q) -> legal (q_plasma q) ->
  length x1 = q_ndofs q -> length x2 = q_ndofs q ->
  exists k1 k2, winding_surface_B q1 x1 = Ok k1 /\ winding_surface_B q2 x2 = Ok k2 /\
    winding_surface_B q (lincomb a b x1 x2) = Ok (glincomb3 a b k1 k2).
Proof.
  intros M1 M2 M S Lw Lp L1 L2. pose proof S as (S1 & S2 & _).
  pose proof S1 as (P1 & W1 & _ & _ & _ & _ & _ & _ & D1). pose proof S2 as (P2 & W2 & _ & _ & _ & _ & _ & _ & D2).
  rewrite (B_made q1) by (auto; congruence). rewrite (B_made q2) by (auto; congruence).
  rewrite (B_made q) by (auto; rewrite length_lincomb; congruence).
  rewrite <- P1, <- P2.
  eexists; eexists. split; [reflexivity|]. split; [reflexivity|]. rewrite glin3_sample. f_equal. apply sample_ext.
  intros. apply bval_superposed; auto. congruence.
Qed.

(** Normal component. *)
Definition unit_at s p t := scale3 (/ norm3 (nrm s p t)) (nrm s p t).
Definition bnval q x p t := dot3 (unit_at (q_plasma q) p t) (bval q x (pt (q_plasma q) 0 0 p t)).

Lemma gshape_plasma {A} q (F : R -> R -> A) : plasma_shaped q -> gshape (q_Bnormal q) = gshape (sample F (s_qphi (q_plasma q)) (s_qtheta (q_plasma q))).
Proof.
  intros [H1 H2]. unfold gshape, sample. rewrite map_map. revert H1 H2.
  generalize (s_qphi (q_plasma q)). generalize (q_Bnormal q). intros g. induction g as [|r g IH]; intros [|p ps] H1 H2; try discriminate; auto.
  simpl. inversion H2; subst. f_equal; [now rewrite map_length|]. apply IH; auto.
Qed.

Lemma Bnormal_made q x : made q -> legal (q_winding q) -> legal (q_plasma q) -> plasma_shaped q -> length x = q_ndofs q ->
  Bnormal q x = Ok (gmap2 Rplus (sample (bnval q x) (s_qphi (q_plasma q)) (s_qtheta (q_plasma q))) (q_Bnormal q)).
Proof.
  intros M Lw Lp Ps L. destruct (made_facts q M) as (_ & _ & _ & _ & _ & Cw & Cp).
  unfold Bnormal. rewrite (unitnormal_copy (q_plasma q) _ _ _ Lp Cp). cbn [bind]. rewrite B_made by auto. cbn [bind].
  rewrite gmap2_sample. destruct (list_eq_dec _ _ _) as [_|n]; [reflexivity|]. exfalso. apply n. now apply gshape_plasma.
Qed.

Lemma bnval_superposed a b q1 q2 q x1 x2 p t : superposed a b q1 q2 q -> length x1 = length x2 ->
  bnval q (lincomb a b x1 x2) p t = a * bnval q1 x1 p t + b * bnval q2 x2 p t.
Proof.
  intros S Hl. unfold bnval. rewrite (bval_superposed a b q1 q2) by auto.
  pose proof S as ((P1 & _) & (P2 & _) & _). rewrite <- P1, <- P2. unfold dot3, add3, scale3; cbn [vx vy vz]. ring.
Qed.

Lemma lin_rows a b (f g : R -> R) l u v : 
  map2 Rplus (map (fun t => a * f t + b * g t) l) (lincomb a b u v) = lincomb a b (map2 Rplus (map f l) u) (map2 Rplus (map g l) v).
Proof.
  revert u v; induction l; intros u v; simpl; auto. unfold lincomb in *. destruct u, v; simpl; auto. f_equal; [ring|auto].
Qed.
Lemma lin_grids a b (F G : R -> R -> R) ps ts u v :
  gmap2 Rplus (sample (fun p t => a * F p t + b * G p t) ps ts) (glincomb a b u v)
  = glincomb a b (gmap2 Rplus (sample F ps ts) u) (gmap2 Rplus (sample G ps ts) v).
Proof.
  unfold gmap2, glincomb, sample. revert u v; induction ps; intros u v; simpl; auto. destruct u, v; simpl; auto.
  - f_equal; [|apply IHps]. apply (lin_rows a b (F a0) (G a0)).
Qed.

Lemma superposed_shape a b q1 q2 q : superposed a b q1 q2 q -> plasma_shaped q1 -> plasma_shaped q2 -> plasma_shaped q.
Proof.
  intros (S1 & S2 & _ & _ & E) [A1 A2] [B1 B2]. destruct S1 as (P1 & _). destruct S2 as (P2 & _).
  unfold plasma_shaped. rewrite E, P1. rewrite <- P2, P1 in B1, B2. clear E P1 P2.
  unfold glincomb. split; [rewrite length_map2; congruence|].
  assert (LL : length (q_Bnormal q1) = length (q_Bnormal q2)) by congruence. clear A1 B1. revert LL A2 B2.
  generalize (q_Bnormal q1) (q_Bnormal q2). intros g. induction g as [|r g IH]; intros [|r' g'] LL A2 B2; simpl; constructor.
  - inversion A2; inversion B2; subst. rewrite length_lincomb; congruence.
  - inversion A2; inversion B2; subst. apply IH; auto.
Qed.

Lemma Bnormal_superposed a b q1 q2 q x1 x2 :
  made q1 -> made q2 -> made q -> superposed a b q1 q2 q -> legal (q_winding q) -> legal (q_plasma q) ->
  plasma_shaped q1 -> plasma_shaped q2 -> length x1 = q_ndofs q -> length x2 = q_ndofs q ->
  exists k1 k2, Bnormal q1 x1 = Ok k1 /\ Bnormal q2 x2 = Ok k2 /\
    Bnormal q (lincomb a b x1 x2) = Ok (glincomb a b k1 k2).
Proof.
  intros M1 M2 M S Lw Lp H1 H2 L1 L2. pose proof S as (S1 & S2 & _ & _ & EB).
  pose proof S1 as (P1 & W1 & _ & _ & _ & _ & _ & _ & D1). pose proof S2 as (P2 & W2 & _ & _ & _ & _ & _ & _ & D2).
  rewrite (Bnormal_made q1) by (auto; congruence). rewrite (Bnormal_made q2) by (auto; congruence).
  rewrite (Bnormal_made q) by (auto; first [now apply (superposed_shape a b q1 q2)|rewrite length_lincomb; congruence]).
  eexists; eexists. split; [reflexivity|]. split; [reflexivity|]. rewrite <- P1, <- P2, <- lin_grids, EB. f_equal. f_equal.
  apply sample_ext. intros. apply bnval_superposed; auto. congruence.
Qed.

(** Fixed net currents: affine. *)
Lemma superposed_self t q : superposed t (1 - t) q q q.
Proof.
  unfold superposed, same_geometry. repeat split; try ring.
  unfold glincomb, lincomb. induction (q_Bnormal q) as [|r g IH]; auto. simpl. rewrite <- IH. f_equal.
  clear. induction r; auto. simpl. rewrite <- IHr. f_equal. ring.
Qed.

(** ** Quadratic figures of merit *)
Lemma Rsum_le {A} (f g : A -> R) l : (forall u, In u l -> f u <= g u) -> Rsum (map f l) <= Rsum (map g l).
Proof.
  induction l; intros H; unfold Rsum in *; simpl; [lra|].
  apply Rplus_le_compat; [apply H; now left|apply IHl; intros; apply H; now right].
Qed.
Lemma Rsum_nonneg {A} (f : A -> R) l : (forall u, In u l -> 0 <= f u) -> 0 <= Rsum (map f l).
Proof.
  induction l; intros H; unfold Rsum in *; simpl; [lra|].
  apply Rplus_le_le_0_compat; [apply H; now left|apply IHl; intros; apply H; now right].
Qed.
Lemma Rsum_lin {A} a b (f g : A -> R) l : Rsum (map (fun u => a * f u + b * g u) l) = a * Rsum (map f l) + b * Rsum (map g l).
Proof. induction l; unfold Rsum in *; simpl; [ring|]. rewrite IHl. ring. Qed.

Lemma increasing_first l : increasing l -> 0 <= nth (Nat.min 1 (length l - 1)) l 0 - nth 0 l 0.
Proof.
  intros H. destruct l as [|a [|b l]]; simpl; try lra. specialize (H 0%nat 1%nat). simpl in H. 
  assert (a <= b) by (apply H; lia). lra.
Qed.
Lemma copy_weights s ps ts s' : resampled s ps ts s' -> increasing ps -> increasing ts -> 0 <= s_dphi s' * s_dtheta s'.
Proof.
  intros C Hp Ht. apply copy_fields in C as (_ & _ & _ & _ & _ & _ & _ & _ & _ & E1 & E2). rewrite E1, E2.
  apply Rmult_le_pos; now apply increasing_first.
Qed.

Lemma quad_sum (c : R) (w : R -> R -> R) (F G H : R -> R -> R) ps ts t :
  (forall p u, 0 <= w p u) -> 0 <= c -> (forall p u, 0 <= F p u) ->
  (forall p u, H p u <= t * F p u + (1 - t) * G p u) ->
  let S X := Rsum (map (fun p => Rsum (map (fun u => X p u / 2 * w p u) ts)) ps) * c in
  0 <= S F /\ S H <= t * S F + (1 - t) * S G.
Proof.
  intros Hw Hc HF HH S. unfold S. split.
  - apply Rmult_le_pos; auto. apply Rsum_nonneg. intros. apply Rsum_nonneg. intros.
    apply Rmult_le_pos; auto. specialize (HF u u0). lra.
  - replace (t * (Rsum (map (fun p => Rsum (map (fun u => F p u / 2 * w p u) ts)) ps) * c) +
      (1 - t) * (Rsum (map (fun p => Rsum (map (fun u => G p u / 2 * w p u) ts)) ps) * c))
    with ((t * Rsum (map (fun p => Rsum (map (fun u => F p u / 2 * w p u) ts)) ps) +
           (1 - t) * Rsum (map (fun p => Rsum (map (fun u => G p u / 2 * w p u) ts)) ps)) * c) by ring.
    apply Rmult_le_compat_r; auto. rewrite <- Rsum_lin. apply Rsum_le. intros p _. rewrite <- Rsum_lin. apply Rsum_le.
    intros u _. specialize (Hw p u). specialize (HH p u). apply Rle_trans with ((t * F p u + (1 - t) * G p u) / 2 * w p u).
    + apply Rmult_le_compat_r; lra.
    + right. field.
Qed.

Lemma dot_convex t u v : 0 <= t <= 1 ->
  dot3 (add3 (scale3 t u) (scale3 (1 - t) v)) (add3 (scale3 t u) (scale3 (1 - t) v)) <= t * dot3 u u + (1 - t) * dot3 v v.
Proof.
  intros H. destruct u as [a b c], v as [a' b' c']. unfold dot3, add3, scale3; cbn [vx vy vz].
  assert (forall x y, (t * x + (1 - t) * y) * (t * x + (1 - t) * y) <= t * (x * x) + (1 - t) * (y * y)).
  { intros. assert (0 <= t * (1 - t) * ((x - y) * (x - y))) by (apply Rmult_le_pos; [apply Rmult_le_pos; lra|pose proof (Rle_0_sqr (x - y)); unfold Rsqr in *; lra]). nra. }
  pose proof (H0 a a'). pose proof (H0 b b'). pose proof (H0 c c'). lra.
Qed.
Lemma sq_convex t x y : 0 <= t <= 1 -> (t * x + (1 - t) * y) * (t * x + (1 - t) * y) <= t * (x * x) + (1 - t) * (y * y).
Proof. intros. assert (0 <= t * (1 - t) * ((x - y) * (x - y))) by (apply Rmult_le_pos; [apply Rmult_le_pos; lra|pose proof (Rle_0_sqr (x - y)); unfold Rsqr in *; lra]). nra. Qed.

Lemma f_K_made q x : made q -> legal (q_winding q) -> length x = q_ndofs q ->
  f_K q x = Ok (Rsum (map (fun p => Rsum (map (fun u => dot3 (kval q x p u) (kval q x p u) / 2 *
     (s_dphi (q_eval q) * s_dtheta (q_eval q) * norm3 (nrm (q_winding q) p u))) (q_qtheta q))) (q_qphi q)) * INR (q_nfp q)).
Proof.
  intros M Lg L. destruct (made_facts q M) as (_ & _ & _ & _ & Ce & _).
  unfold f_K, K2. rewrite K_made by auto. cbn [sel_quadpoints bind]. rewrite !gmap_sample.
  rewrite (integrate_copy (q_winding q) _ _ _ _ Lg Ce). reflexivity.
Qed.
Lemma Phi_made q x : made q -> length x = q_ndofs q -> Phi q x = Ok (sample (phi_of q x) (q_qphi q) (q_qtheta q)).
Proof.
  intros M L. unfold Phi. rewrite diff_helper_cols. cbn [sel_quadpoints bind d_n d_trig]. apply apply_rows_sample, cols_len; auto.
Qed.
Lemma f_Phi_made q x : made q -> legal (q_winding q) -> length x = q_ndofs q ->
  f_Phi q x = Ok (Rsum (map (fun p => Rsum (map (fun u => phi_of q x p u * phi_of q x p u / 2 *
     (s_dphi (q_eval q) * s_dtheta (q_eval q) * norm3 (nrm (q_winding q) p u))) (q_qtheta q))) (q_qphi q)) * INR (q_nfp q)).
Proof.
  intros M Lg L. destruct (made_facts q M) as (_ & _ & _ & _ & Ce & _).
  unfold f_Phi, Phi2. rewrite Phi_made by auto. cbn [bind]. rewrite !gmap_sample.
  rewrite (integrate_copy (q_winding q) _ _ _ _ Lg Ce). reflexivity.
Qed.

Lemma norm3_nonneg v : 0 <= norm3 v.
Proof. apply sqrt_pos. Qed.

Lemma f_K_convex q : made q -> legal (q_winding q) -> increasing (q_qphi q) -> increasing (q_qtheta q) ->
  convex_on (q_ndofs q) (f_K q).
Proof.
  intros M Lg Ip It x y t Lx Ly Ht. destruct (made_facts q M) as (_ & _ & _ & _ & Ce & _).
  rewrite !f_K_made by (auto; rewrite length_lincomb; congruence).
  eexists; eexists; eexists. split; [reflexivity|]. split; [reflexivity|]. split; [reflexivity|].
  apply (quad_sum (INR (q_nfp q)) (fun p u => s_dphi (q_eval q) * s_dtheta (q_eval q) * norm3 (nrm (q_winding q) p u))
    (fun p u => dot3 (kval q x p u) (kval q x p u)) (fun p u => dot3 (kval q y p u) (kval q y p u))
    (fun p u => dot3 (kval q (lincomb t (1 - t) x y) p u) (kval q (lincomb t (1 - t) x y) p u))).
  - intros. apply Rmult_le_pos; [now apply (copy_weights (q_winding q) (q_qphi q) (q_qtheta q))|apply norm3_nonneg].
  - apply pos_INR.
  - intros. rewrite dot3_norm. pose proof (norm3_nonneg (kval q x p u)). nra.
  - intros. rewrite (kval_superposed t (1 - t) q q q x y) by (try apply superposed_self; congruence). now apply dot_convex.
Qed.
Lemma f_Phi_convex q : made q -> legal (q_winding q) -> increasing (q_qphi q) -> increasing (q_qtheta q) ->
  convex_on (q_ndofs q) (f_Phi q).
Proof.
  intros M Lg Ip It x y t Lx Ly Ht. destruct (made_facts q M) as (_ & _ & _ & _ & Ce & _).
  rewrite !f_Phi_made by (auto; rewrite length_lincomb; congruence).
  eexists; eexists; eexists. split; [reflexivity|]. split; [reflexivity|]. split; [reflexivity|].
  apply (quad_sum (INR (q_nfp q)) (fun p u => s_dphi (q_eval q) * s_dtheta (q_eval q) * norm3 (nrm (q_winding q) p u))
    (fun p u => phi_of q x p u * phi_of q x p u) (fun p u => phi_of q y p u * phi_of q y p u)
    (fun p u => phi_of q (lincomb t (1 - t) x y) p u * phi_of q (lincomb t (1 - t) x y) p u)).
  - intros. apply Rmult_le_pos; [now apply (copy_weights (q_winding q) (q_qphi q) (q_qtheta q))|apply norm3_nonneg].
  - apply pos_INR.
  - intros. nra.
  - intros. unfold phi_of. rewrite ldot_lincomb by congruence. now apply sq_convex.
Qed.

(** f_B as a sum over the plasma grid. *)
Lemma gmap_gmap {A B C} (f : B -> C) (g : A -> B) (G : grid A) : gmap f (gmap g G) = gmap (fun x => f (g x)) G.
Proof. unfold gmap. rewrite map_map. apply map_ext. intros. apply map_map. Qed.
Lemma gshape_gmap {A B} (f : A -> B) G : gshape (gmap f G) = gshape G.
Proof. unfold gshape, gmap. rewrite map_map. apply map_ext. intros. apply map_length. Qed.
Lemma gshape_gmap2 {A B C} (f : A -> B -> C) G H : gshape G = gshape H -> gshape (gmap2 f G H) = gshape G.
Proof.
  unfold gshape, gmap2. revert H; induction G; destruct H; simpl; intros E; try discriminate; auto.
  injection E as E1 E2. f_equal; [now apply length_map2|auto].
Qed.

Lemma f_B_made q x : made q -> legal (q_winding q) -> legal (q_plasma q) -> plasma_shaped q -> length x = q_ndofs q ->
  exists b d, Bnormal q x = Ok b /\ da (q_plasma q) = Ok d /\ gshape b = gshape d /\
    b = gmap2 Rplus (sample (bnval q x) (s_qphi (q_plasma q)) (s_qtheta (q_plasma q))) (q_Bnormal q) /\
    d = sample (fun p t => s_dphi (q_plasma q) * s_dtheta (q_plasma q) * norm3 (nrm (q_plasma q) p t)) (s_qphi (q_plasma q)) (s_qtheta (q_plasma q)) /\
    f_B q x = Ok (gsum (gmap2 Rmult (gmap (fun y => y * y / 2) b) d) * INR (q_nfp q)).
Proof.
  intros M Lw Lp Ps L. destruct (made_facts q M) as (_ & _ & _ & _ & _ & Cw & Cp).
  unfold f_B. rewrite Bnormal_made by auto. cbn [bind]. unfold integrate. rewrite (da_copy (q_plasma q) _ _ _ Lp Cp). cbn [bind].
  set (b := gmap2 Rplus _ _). set (d := sample _ _ _).
  assert (E : gshape b = gshape d).
  { unfold b. rewrite gshape_gmap2; [apply gshape_sample|]. symmetry. rewrite (gshape_plasma q (bnval q x) Ps). reflexivity. }
  exists b, d. repeat split; auto. rewrite gshape_gmap. destruct (list_eq_dec _ _ _) as [_|n]; [reflexivity|contradiction].
Qed.

Lemma gsum_cons r (g : grid R) : gsum (r :: g) = Rsum r + gsum g.
Proof. unfold gsum. simpl. rewrite fold_right_app. change (fold_right Rplus 0 (concat g)) with (gsum g).
  generalize (gsum g). intros s. induction r; simpl; unfold Rsum in *; simpl; [ring|]. rewrite IHr. ring. Qed.

Definition wsq (b d : R) : R := b * b / 2 * d.
Lemma gsum_wsq_rows (b d : grid R) : gsum (gmap2 Rmult (gmap (fun y => y * y / 2) b) d) = Rsum (map2 (fun r s => Rsum (map2 wsq r s)) b d).
Proof.
  revert d; induction b; destruct d; simpl; auto. unfold gmap2, gmap in *. cbn [map map2]. rewrite gsum_cons, IHb.
  unfold Rsum at 2. simpl. f_equal. f_equal. clear. revert l. induction a; destruct l; simpl; auto. now rewrite IHa.
Qed.

Lemma row_nonneg r s : List.Forall (fun w => 0 <= w) s -> 0 <= Rsum (map2 wsq r s).
Proof.
  intros H. revert r; induction H; intros [|a r]; unfold Rsum in *; simpl; try lra.
  specialize (IHForall r). assert (0 <= wsq a x) by (unfold wsq; apply Rmult_le_pos; nra). lra.
Qed.
Lemma row_convex t a b c s : 0 <= t <= 1 -> List.Forall (fun w => 0 <= w) s -> length a = length b -> c = lincomb t (1 - t) a b ->
  Rsum (map2 wsq c s) <= t * Rsum (map2 wsq a s) + (1 - t) * Rsum (map2 wsq b s).
Proof.
  intros Ht H. revert a b c; induction H; intros [|x0 a] [|y0 b] c Hl ->; try discriminate; unfold Rsum, lincomb in *; simpl; try lra.
  specialize (IHForall a b _ ltac:(simpl in Hl; lia) eq_refl). assert (wsq (t * x0 + (1 - t) * y0) x <= t * wsq x0 x + (1 - t) * wsq y0 x).
  { pose proof (sq_convex t x0 y0 Ht) as Hq. assert (Hm := Rmult_le_compat_r x _ _ H Hq). unfold wsq. lra. }
  lra.
Qed.
Lemma grid_convex t a b d : 0 <= t <= 1 -> List.Forall (List.Forall (fun w => 0 <= w)) d -> gshape a = gshape b -> 
  let S g := Rsum (map2 (fun r s => Rsum (map2 wsq r s)) g d) in
  0 <= S a /\ S (glincomb t (1 - t) a b) <= t * S a + (1 - t) * S b.
Proof.
  intros Ht H. revert a b; induction H; intros [|r a] [|r' b] E; try discriminate; unfold Rsum, glincomb in *; simpl; try lra.
  injection E as E1 E2. destruct (IHForall a b E2) as [I1 I2]. simpl in I1, I2.
  pose proof (row_nonneg r x H). pose proof (row_convex t r r' _ x Ht H E1 eq_refl). unfold Rsum in *.
  split; lra.
Qed.
Lemma weights_nonneg s ps ts s' : resampled s ps ts s' -> increasing ps -> increasing ts ->
  List.Forall (List.Forall (fun w => 0 <= w)) (sample (fun p t => s_dphi s' * s_dtheta s' * norm3 (nrm s p t)) ps ts).
Proof.
  intros C Ip It. pose proof (copy_weights s ps ts s' C Ip It). unfold sample. apply Forall_forall. intros r Hr.
  apply in_map_iff in Hr as (p & <- & _). apply Forall_forall. intros w Hw. apply in_map_iff in Hw as (u & <- & _).
  apply Rmult_le_pos; auto. apply norm3_nonneg.
Qed.

Lemma f_B_convex q : made q -> legal (q_winding q) -> legal (q_plasma q) -> plasma_shaped q ->
  increasing (s_qphi (q_plasma q)) -> increasing (s_qtheta (q_plasma q)) ->
  convex_on (q_ndofs q) (f_B q).
Proof.
  intros M Lw Lp Ps Ip It x y t Lx Ly Ht. destruct (made_facts q M) as (_ & _ & _ & _ & _ & _ & Cp).
  destruct (f_B_made q x M Lw Lp Ps Lx) as (bx & d & _ & _ & Sx & Ex & Ed & ->).
  destruct (f_B_made q y M Lw Lp Ps Ly) as (by' & d' & _ & _ & Sy & Ey & Ed' & ->).
  assert (Lz : length (lincomb t (1 - t) x y) = q_ndofs q) by (rewrite length_lincomb; congruence).
  destruct (f_B_made q _ M Lw Lp Ps Lz) as (bz & d'' & _ & _ & Sz & Ez & Ed'' & ->).
  assert (Q1 : d' = d) by congruence. assert (Q2 : d'' = d) by congruence. rewrite Q1, Q2.
  eexists; eexists; eexists. split; [reflexivity|]. split; [reflexivity|]. split; [reflexivity|].
  rewrite !gsum_wsq_rows.
  assert (Hz : bz = glincomb t (1 - t) bx by').
  { rewrite Ez, Ex, Ey, <- lin_grids. f_equal.
    - apply sample_ext. intros. apply bnval_superposed; [apply superposed_self|congruence].
    - apply (superposed_self t q). }
  rewrite Hz.
  destruct (grid_convex t bx by' d Ht) as [H1 H2]; [rewrite Ed; now apply weights_nonneg|congruence|].
  cbv zeta in H1, H2. pose proof (pos_INR (q_nfp q)). nra.
Qed.

(** Convex functions: local minima are global. *)
Lemma convex_local_global n f x : convex_on n f -> length x = n -> local_min n f x -> global_min n f x.
Proof.
  intros C Lx (e & He & Hl) y fx fy Ly Ex Ey.
  assert (Hb : exists B, 0 < B /\ forall i, Rabs (nth i x 0 - nth i y 0) <= B).
  { clear -Lx Ly. rewrite <- Ly in Lx. clear Ly. revert y Lx. induction x as [|a x IH]; intros [|b y] L; try discriminate.
    - exists 1. split; [lra|]. intros i. destruct i; simpl; rewrite Rminus_0_r, Rabs_R0; lra.
    - destruct (IH y) as (B & HB & H); [simpl in L; lia|]. exists (B + Rabs (a - b)). pose proof (Rabs_pos (a - b)). split; [lra|].
      intros [|i]; simpl; [lra|]. specialize (H i). lra. }
  destruct Hb as (B & HB & Hb).
  set (s := Rmin 1 (e / (2 * B))).
  assert (Hs : 0 < s <= 1).
  { unfold s. split; [|apply Rmin_l]. apply Rmin_pos; [lra|]. apply Rdiv_lt_0_compat; lra. }
  assert (Hs' : s * B < e).
  { assert (s <= e / (2 * B)) by apply Rmin_r. apply Rle_lt_trans with (e / (2 * B) * B).
    - apply Rmult_le_compat_r; lra. - replace (e / (2 * B) * B) with (e / 2) by (field; lra). lra. }
  destruct (C x y (1 - s) Lx Ly) as (fx' & fy' & fz & E1 & E2 & E3 & _ & Hc); [lra|].
  rewrite Ex in E1. injection E1 as <-. rewrite Ey in E2. injection E2 as <-.
  replace (1 - (1 - s)) with s in * by ring.
  assert (fx <= fz).
  { apply (Hl (lincomb (1 - s) s x y) fx fz); auto.
    - rewrite length_lincomb; congruence.
    - intros i. destruct (Nat.lt_ge_cases i (length x)) as [Hi|Hi].
      + assert (E : nth i (lincomb (1 - s) s x y) 0 = (1 - s) * nth i x 0 + s * nth i y 0).
        { clear -Lx Ly Hi. rewrite <- Ly in Lx. clear Ly. revert y i Lx Hi. induction x as [|a x IH]; intros [|b y] i L Hi; simpl in *; try discriminate; try lia.
          destruct i; auto. apply IH; lia. }
        rewrite E. replace (nth i x 0 - ((1 - s) * nth i x 0 + s * nth i y 0)) with (s * (nth i x 0 - nth i y 0)) by ring.
        rewrite Rabs_mult, (Rabs_right s) by lra. apply Rle_lt_trans with (s * B); auto. apply Rmult_le_compat_l; [lra|apply Hb].
      + rewrite !nth_overflow; [rewrite Rminus_0_r, Rabs_R0; lra| |auto]. rewrite length_lincomb; [auto|congruence]. }
  nra.
Qed.

Lemma figures_of_merit q : made q -> legal (q_winding q) -> legal (q_plasma q) -> plasma_shaped q -> 
  increasing (q_qphi q) -> increasing (q_qtheta q) -> increasing (s_qphi (q_plasma q)) -> increasing (s_qtheta (q_plasma q)) ->
  forall f, In f [f_B q; f_K q; f_Phi q] ->
    convex_on (q_ndofs q) f /\ forall x, length x = q_ndofs q -> local_min (q_ndofs q) f x -> global_min (q_ndofs q) f x.
Proof.
  intros M Lw Lp Ps I1 I2 I3 I4 f H.
  assert (convex_on (q_ndofs q) f).
  { destruct H as [<-|[<-|[<-|[]]]]; [now apply f_B_convex|now apply f_K_convex|now apply f_Phi_convex]. }
  split; auto. intros. now apply convex_local_global.
Qed.
