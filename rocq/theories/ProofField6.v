(** Proofs about stellarator symmetry of the current and the field. *)
From Coq Require Import String List Bool Arith ZArith Reals Lra Lia FinFun Permutation.
From Coquelicot Require Import Coquelicot.
From Verif Require Import Base ModelArray ModelMath SpecMath RDeriv ProofMath ModelSurface SpecSurface ProofSurface ProofSurface2 ProofSurface3
  ModelParams ModelField SpecField ProofField ProofField2 ProofField3 ProofField4 ProofField5.
Import ListNotations.
Open Scope R_scope.

Definition neg3 (v : vec3) : vec3 := scale3 (-1) v.
Lemma pt00_neg s p t : s_stellsym s = true -> legal s -> pt s 0 0 (- p) (- t) = flip (pt s 0 0 p t).
Proof.
  intros H L. unfold flip. apply (surface_stellsym s (pt s 0 0) H). apply reports_of. intros. now apply gammadash_copy.
Qed.
Lemma derives_unique f t a b : derives f t a -> derives f t b -> a = b.
Proof.
  intros (A1 & A2 & A3) (B1 & B2 & B3). destruct a as [a1 a2 a3], b as [b1 b2 b3]. cbn [vx vy vz] in *.
  f_equal; eapply dR_unique; eauto.
Qed.
Lemma derives_flip f t d : derives f t d -> derives (fun y => flip (f y)) t (flip d).
Proof. intros (A & B & C). unfold flip, derives; cbn [vx vy vz]. split; [auto|]. split; apply dR_opp; auto. Qed.
Lemma derives_neg f t d : derives f (- t) d -> derives (fun y => f (- y)) t (neg3 d).
Proof.
  intros (A & B & C). unfold neg3, scale3, derives; cbn [vx vy vz].
  assert (O : is_derive (fun y : R => - y) t (- 1)) by (apply dR_opp, dR_id).
  split; [|split].
  - eapply dR_eq; [|apply (dR_comp (fun y => vx (f y)) (fun y => - y) _ _ _ A O)]. ring.
  - eapply dR_eq; [|apply (dR_comp (fun y => vy (f y)) (fun y => - y) _ _ _ B O)]. ring.
  - eapply dR_eq; [|apply (dR_comp (fun y => vz (f y)) (fun y => - y) _ _ _ C O)]. ring.
Qed.
Lemma neg_neg v : neg3 (neg3 v) = v.
Proof. destruct v as [a b c]; unfold neg3, scale3; cbn [vx vy vz]. f_equal; ring. Qed.
Lemma pt_neg1 s (p t : R) : s_stellsym s = true -> legal s ->
  pt s 1 0 (- p) (- t) = neg3 (flip (pt s 1 0 p t)) /\ pt s 0 1 (- p) (- t) = neg3 (flip (pt s 0 1 p t)).
Proof.
  intros H L. split.
  - pose proof (derives_neg (fun y => pt s 0 0 y (- t)) p _ (pt_phi s 0 0 (- t) (- p))) as A.
    pose proof (derives_flip (fun y => pt s 0 0 y t) p _ (pt_phi s 0 0 t p)) as B.
    assert (E : neg3 (pt s 1 0 (- p) (- t)) = flip (pt s 1 0 p t)).
    { eapply derives_unique; [exact A|]. destruct B as (B1 & B2 & B3). split; [|split];
      (eapply dR_ext; [|eassumption]; intros y; cbv beta; now rewrite pt00_neg). }
    now rewrite <- E, neg_neg.
  - pose proof (derives_neg (fun y => pt s 0 0 (- p) y) t _ (pt_theta s 0 0 (- p) (- t))) as A.
    pose proof (derives_flip (fun y => pt s 0 0 p y) t _ (pt_theta s 0 0 p t)) as B.
    assert (E : neg3 (pt s 0 1 (- p) (- t)) = flip (pt s 0 1 p t)).
    { eapply derives_unique; [exact A|]. destruct B as (B1 & B2 & B3). split; [|split];
      (eapply dR_ext; [|eassumption]; intros y; cbv beta; now rewrite pt00_neg). }
    now rewrite <- E, neg_neg.
Qed.
Lemma nrm_neg s p t : s_stellsym s = true -> legal s -> nrm s (- p) (- t) = flip (nrm s p t).
Proof.
  intros H L. unfold nrm. destruct (pt_neg1 s p t H L) as [-> ->].
  unfold neg3, flip, scale3, cross3; cbn [vx vy vz]. f_equal; ring.
Qed.
Lemma flip_norm v : norm3 (flip v) = norm3 v.
Proof. unfold norm3, flip; cbn [vx vy vz]. f_equal. ring. Qed.

Lemma phi1_even q x p t : q_stellsym q = true -> phi1 q x (- p) (- t) = phi1 q x p t /\ phi2 q x (- p) (- t) = phi2 q x p t.
Proof.
  intros H. split; apply ldot_map_ext; intros c Hc; f_equal; unfold qcols in Hc; rewrite H in Hc; apply pcols_st in Hc;
  unfold td; rewrite Hc; unfold sin_or_cos; cbn [Z.mul Z.eqb Pos.eqb Pos.mul Z.opp];
  replace (targ q c (- p) (- t)) with (- targ q c p t) by (unfold targ, trig_arg; ring); now rewrite cos_neg.
Qed.
Lemma kval_neg q x p t : q_stellsym q = true -> s_stellsym (q_winding q) = true -> legal (q_winding q) ->
  kval q x (- p) (- t) = neg3 (flip (kval q x p t)).
Proof.
  intros H Hw L. unfold kval, wn, w1, w2. destruct (phi1_even q x p t H) as [-> ->]. rewrite nrm_neg, flip_norm by auto.
  destruct (pt_neg1 (q_winding q) p t Hw L) as [-> ->]. unfold neg3, flip, scale3, sub3; cbn [vx vy vz]. f_equal; ring.
Qed.
Lemma contribution_flip P W n k : contribution (flip P) (flip W) (flip n) (neg3 (flip k)) = neg3 (flip (contribution P W n k)).
Proof.
  unfold contribution. cbv zeta. replace (sub3 (flip P) (flip W)) with (flip (sub3 P W)) by (unfold sub3, flip; cbn [vx vy vz]; f_equal; ring).
  change (sqrt (dot3 (flip n) (flip n))) with (norm3 (flip n)). change (sqrt (dot3 n n)) with (norm3 n).
  change (sqrt (dot3 (flip (sub3 P W)) (flip (sub3 P W)))) with (norm3 (flip (sub3 P W))).
  change (sqrt (dot3 (sub3 P W) (sub3 P W))) with (norm3 (sub3 P W)). rewrite !flip_norm.
  generalize (1 / norm3 (sub3 P W)). generalize (sub3 P W). intros r d.
  unfold neg3, flip, scale3, cross3; cbn [vx vy vz]. f_equal; ring.
Qed.

Lemma sum3_perm l l' : Permutation l l' -> sum3 l = sum3 l'.
Proof.
  induction 1; simpl; auto; [now rewrite IHPermutation|unfold add3; cbn [vx vy vz]; f_equal; ring|congruence].
Qed.
Lemma vsum_neg g l : symmetric_turn l -> (forall p, g (p + 1) = g p) -> vsum (fun p => g (- p)) l = vsum g l.
Proof.
  intros (k & n & Hn & ->) Hg. assert (HN := not_0_INR _ Hn). set (h := / INR n). set (x0 := INR k / 2 * h).
  transitivity (vsum g (equispaced (- x0 - INR (n - 1) * h) h n)).
  - unfold vsum, equispaced. rewrite !map_map. rewrite (sum3_perm _ _ (Permutation_rev _)), <- map_rev.
    f_equal. assert (R1 : rev (seq 0 n) = map (fun i => (n - 1 - i)%nat) (seq 0 n)).
    { apply nth_ext with (d := 0%nat) (d' := (n - 1 - 0)%nat); [now rewrite map_length, rev_length|].
      intros i Hi. rewrite rev_length, seq_length in Hi. rewrite rev_nth by (rewrite seq_length; lia).
      rewrite (map_nth (fun i => (n - 1 - i)%nat)), seq_length, !seq_nth by lia. lia. }
    rewrite R1, map_map. apply map_ext_in. intros i Hi. apply in_seq in Hi. rewrite (minus_INR (n - 1) i) by lia. f_equal. ring.
  - rewrite <- (vsum_steps g _ h n (k + (n - 1))).
    + f_equal. f_equal. rewrite plus_INR. unfold x0. field.
    + intros p. replace (INR n * h) with 1 by (unfold h; field; auto). apply Hg.
Qed.

Lemma pt_theta_one s a b p t : pt s a b p (t + 1) = pt s a b p t.
Proof.
  assert (E := rz_shift s p t p (t + 1) ltac:(intros m n; exists m; unfold phase_even; ring)).
  unfold pt. f_equal; [apply Rsum_ext; intros k _; now rewrite (proj1 (E k b))..|apply (E a b)].
Qed.
Lemma phi1_theta q x p t : phi1 q x p (t + 1) = phi1 q x p t /\ phi2 q x p (t + 1) = phi2 q x p t.
Proof. split; apply ldot_map_ext; intros c _; destruct (tr_shift_theta q c p t) as [_ ->]; reflexivity. Qed.
Lemma kval_theta q x p t : kval q x p (t + 1) = kval q x p t.
Proof. unfold kval, wn, w1, w2, nrm. destruct (phi1_theta q x p t) as [-> ->]. now rewrite !pt_theta_one. Qed.

Lemma wsum_flip q x P : (q_nfp q <> 0)%nat -> q_stellsym q = true -> s_stellsym (q_winding q) = true -> legal (q_winding q) ->
  symmetric_turn (s_qphi (q_winding q)) -> symmetric_turn (s_qtheta (q_winding q)) ->
  wsum q x (flip P) = neg3 (flip (wsum q x P)).
Proof.
  intros Hn H Hw L Tp Tt. unfold wsum.
  set (g := fun P p t => contribution P (pt (q_winding q) 0 0 p t) (wn q p t) (kval q x p t)).
  change (sum3 (map (fun u => g (flip P) (fst u) (snd u)) (pairs (s_qphi (q_winding q)) (s_qtheta (q_winding q)))) =
          neg3 (flip (sum3 (map (fun u => g P (fst u) (snd u)) (pairs (s_qphi (q_winding q)) (s_qtheta (q_winding q))))))).
  rewrite !sum3_pairs.
  assert (G1 : forall P p t, g P (p + 1) t = g P p t).
  { intros. unfold g, wn, nrm. unfold q_nfp in Hn. now rewrite kval_one, !pt_one. }
  assert (G2 : forall P p t, g P p (t + 1) = g P p t).
  { intros. unfold g, wn, nrm. now rewrite kval_theta, !pt_theta_one. }
  assert (N : forall g l, vsum (fun p => neg3 (flip (g p))) l = neg3 (flip (vsum g l))).
  { clear. intros g l. induction l; unfold vsum in *; simpl; [unfold neg3, flip, scale3, zero3; cbn [vx vy vz]; f_equal; ring|].
    rewrite IHl. unfold neg3, flip, scale3, add3; cbn [vx vy vz]. f_equal; ring. }
  rewrite <- (vsum_neg (fun p => vsum (g (flip P) p) (s_qtheta (q_winding q)))); auto.
  2:{ intros p. apply vsum_ext. intros t. apply G1. }
  rewrite <- N. apply vsum_ext. intros p.
  rewrite <- (vsum_neg (g (flip P) (- p))); auto. rewrite <- N. apply vsum_ext. intros t.
  unfold g, wn. rewrite pt00_neg, nrm_neg, kval_neg by auto. apply contribution_flip.
Qed.
Lemma bval_flip q x P : (q_nfp q <> 0)%nat -> q_stellsym q = true -> s_stellsym (q_winding q) = true -> legal (q_winding q) ->
  symmetric_turn (s_qphi (q_winding q)) -> symmetric_turn (s_qtheta (q_winding q)) ->
  bval q x (flip P) = neg3 (flip (bval q x P)).
Proof.
  intros. unfold bval. rewrite wsum_flip by auto. unfold neg3, flip, scale3; cbn [vx vy vz]. f_equal; ring.
Qed.

(** The normal component as reported on any plasma grid, without a plasma
    contribution. *)
Lemma on_plasma_B0 q ps ts q' : made q -> on_plasma q ps ts = Ok q' -> q_Bnormal q' = gzeros (length ps) (length ts).
Proof.
  intros M E. destruct (on_plasma_fields q ps ts q' M E) as (_ & C & _). apply copy_fields in C as (_ & _ & _ & _ & _ & Q1 & Q2 & _).
  unfold on_plasma in E. destruct (copy_and_set_quadpoints (q_plasma q) (arr1 ps) (arr1 ts)) as [pl|] eqn:Ep; [|discriminate]. cbn [bind] in E.
  unfold make_params, make_base in E.
  destruct (s_nfp (q_winding q)) eqn:En; [discriminate|]. destruct (Nat.eqb _ 0); [|discriminate]. cbn [negb] in E.
  destruct (copy_and_set_quadpoints (q_winding q) _ _) eqn:Ec; [|discriminate]. cbn [bind] in E. injection E as <-.
  cbn in Q1, Q2 |- *. now rewrite Q1, Q2.
Qed.
Lemma shaped_zero q ps ts q' : made q -> on_plasma q ps ts = Ok q' -> plasma_shaped q'.
Proof.
  intros M E. pose proof (on_plasma_B0 _ _ _ _ M E) as Z. destruct (on_plasma_fields q ps ts q' M E) as (_ & C & _).
  apply copy_fields in C as (_ & _ & _ & _ & _ & Q1 & Q2 & _). unfold plasma_shaped. rewrite Z, Q1, Q2. unfold gzeros.
  split; [apply repeat_length|]. apply Forall_forall. intros r Hr. apply repeat_spec in Hr. subst. apply repeat_length.
Qed.
Lemma plus_zero F ps ts : gmap2 Rplus (sample F ps ts) (gzeros (length ps) (length ts)) = sample F ps ts.
Proof.
  unfold gmap2, gzeros, sample. induction ps; simpl; auto. rewrite IHps. f_equal. clear. induction ts; simpl; auto. rewrite IHts. f_equal. ring.
Qed.
Lemma Bn_reports q x : made q -> legal (q_winding q) -> legal (q_plasma q) -> length x = q_ndofs q ->
  preports (fun q => Bnormal q x) q (bnval q x).
Proof.
  intros M Lw Lp L ps ts Hp Ht. destruct (on_plasma_ok q ps ts M Hp Ht) as [q' E]. exists q'. split; auto.
  pose proof (on_plasma_B0 _ _ _ _ M E) as Z. pose proof (shaped_zero _ _ _ _ M E) as Sh.
  destruct (on_plasma_fields q ps ts q' M E) as (M' & C & E1 & E2 & E3 & E4 & E5 & E6 & E7).
  rewrite Bnormal_made; auto; [|now rewrite E1|eapply legal_copy; eauto|congruence].
  assert (C' := C). apply copy_fields in C as (_ & _ & _ & _ & _ & Q1 & Q2 & _). rewrite Q1, Q2, Z, plus_zero. f_equal. apply sample_ext. intros p t.
  unfold bnval, unit_at. rewrite (proj1 (pt_copy _ _ _ _ 0 0 p t C')), (proj2 (pt_copy _ _ _ _ 0 0 p t C')). now rewrite (bval_same q q').
Qed.

Lemma current_field_symmetry q x : made q -> legal (q_winding q) -> legal (q_plasma q) -> length x = q_ndofs q ->
  q_stellsym q = true -> s_stellsym (q_winding q) = true -> s_stellsym (q_plasma q) = true ->
  symmetric_turn (s_qphi (q_winding q)) -> symmetric_turn (s_qtheta (q_winding q)) ->
  exists (Kf : R -> R -> vec3) (B : R -> R -> vec3) (Bn : R -> R -> R),
    qreports (fun q => K q x OnEval) q Kf /\
    preports (fun q => winding_surface_B q x) q B /\ preports (fun q => Bnormal q x) q Bn /\
    forall p t,
      Kf (- p) (- t) = scale3 (-1) (flip (Kf p t)) /\ B (- p) (- t) = scale3 (-1) (flip (B p t)) /\
      Bn (- p) (- t) = - Bn p t.
Proof.
  intros M Lw Lp L H Hw Hp Tp Tt. destruct (made_facts q M) as (Hn & _).
  exists (kval q x), (fun p t => bval q x (pt (q_plasma q) 0 0 p t)), (bnval q x).
  split; [now apply K_reports|]. split; [now apply B_reports|]. split; [now apply Bn_reports|].
  intros p t.
  assert (HB : bval q x (pt (q_plasma q) 0 0 (- p) (- t)) = neg3 (flip (bval q x (pt (q_plasma q) 0 0 p t)))).
  { rewrite pt00_neg by auto. now apply bval_flip. }
  split; [now apply kval_neg|]. split; [exact HB|].
  unfold bnval. rewrite HB. unfold unit_at. rewrite nrm_neg, flip_norm by auto.
  unfold neg3, flip, scale3, dot3; cbn [vx vy vz]. ring.
Qed.

(** ** Rigid rotations *)
Lemma compute_B_rotz a ws P :
  compute_B (map (fun w => let '(p, n, k) := w in (rotz a p, rotz a n, rotz a k)) ws) (rotz a P) = rotz a (compute_B ws P).
Proof.
  unfold compute_B. induction ws as [|[[p n] k] ws IH]; simpl.
  - unfold rotz, zero3; cbn [vx vy vz]. f_equal; ring.
  - rewrite IH, (contribution_rotz a P p n) by apply rotz_norm. apply add_rotz.
Qed.

(** ** Superposition, collected *)
Lemma superposition a b q1 q2 q x1 x2 :
  made q1 -> made q2 -> made q -> superposed a b q1 q2 q -> legal (q_winding q) -> legal (q_plasma q) -> well_posed q ->
  plasma_shaped q1 -> plasma_shaped q2 -> length x1 = q_ndofs q -> length x2 = q_ndofs q ->
  (forall mode, exists k1 k2, K q1 x1 mode = Ok k1 /\ K q2 x2 mode = Ok k2 /\
     K q (lincomb a b x1 x2) mode = Ok (glincomb3 a b k1 k2)) /\
  (exists k1 k2, winding_surface_B q1 x1 = Ok k1 /\ winding_surface_B q2 x2 = Ok k2 /\
     winding_surface_B q (lincomb a b x1 x2) = Ok (glincomb3 a b k1 k2)) /\
  (exists k1 k2, Bnormal q1 x1 = Ok k1 /\ Bnormal q2 x2 = Ok k2 /\
     Bnormal q (lincomb a b x1 x2) = Ok (glincomb a b k1 k2)).
Proof.
  intros M1 M2 M S Lw Lp _ P1 P2 L1 L2. split; [intros; now apply K_superposed|].
  split; [now apply B_superposed|now apply Bnormal_superposed].
Qed.
Lemma affine t q x1 x2 :
  made q -> legal (q_winding q) -> legal (q_plasma q) -> well_posed q ->
  plasma_shaped q -> length x1 = q_ndofs q -> length x2 = q_ndofs q ->
  (forall mode, exists k1 k2, K q x1 mode = Ok k1 /\ K q x2 mode = Ok k2 /\
     K q (lincomb t (1 - t) x1 x2) mode = Ok (glincomb3 t (1 - t) k1 k2)) /\
  (exists k1 k2, winding_surface_B q x1 = Ok k1 /\ winding_surface_B q x2 = Ok k2 /\
     winding_surface_B q (lincomb t (1 - t) x1 x2) = Ok (glincomb3 t (1 - t) k1 k2)) /\
  (exists k1 k2, Bnormal q x1 = Ok k1 /\ Bnormal q x2 = Ok k2 /\
     Bnormal q (lincomb t (1 - t) x1 x2) = Ok (glincomb t (1 - t) k1 k2)).
Proof. intros. apply superposition; auto. apply superposed_self. Qed.
