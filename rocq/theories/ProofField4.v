(** Proofs about flattening, field periods of the field, normalised error. *)
From Coq Require Import String List Bool Arith ZArith Reals Lra Lia FinFun.
From Coquelicot Require Import Coquelicot.
From Verif Require Import Base ModelArray ModelMath SpecMath RDeriv ProofMath ModelSurface SpecSurface ProofSurface ProofSurface2 ProofSurface3
  ModelParams ModelField SpecField ProofField ProofField2 ProofField3.
Import ListNotations.
Open Scope R_scope.

(** ** Flattening (C08) *)
Lemma built_roundtrip s : built s -> surf_unflatten (snd (surf_flatten s)) (fst (surf_flatten s)) = Ok s.
Proof. intros (nfp & st & mpol & ntor & p & t & d & E). exact (surf_roundtrip _ _ _ _ _ _ _ _ E). Qed.
Lemma params_roundtrip q : made q -> params_unflatten (snd (params_flatten q)) (fst (params_flatten q)) = Ok q.
Proof.
  intros M. destruct (made_facts q M) as (Hn & Hm & N1 & N2 & Ce & _). destruct M as (B1 & B2 & _).
  unfold params_unflatten, params_flatten. cbn [fst snd child_surface child_real child_grid child_obj nth_error leaf_obj].
  pose proof (built_roundtrip _ B1) as E1. pose proof (built_roundtrip _ B2) as E2.
  destruct (surf_flatten (q_plasma q)) as [c1 a1]. destruct (surf_flatten (q_winding q)) as [c2 a2]. cbn [fst snd] in E1, E2.
  rewrite E1. cbn [bind]. rewrite E2. cbn [bind]. cbn [x_stellsym x_mpol x_ntor].
  unfold make_params, make_base. destruct (s_nfp (q_winding q)) eqn:En; [contradiction|]. rewrite Hm. cbn [Nat.eqb negb].
  unfold resampled in Ce. rewrite Ce. cbn [bind b_stellsym b_plasma b_winding b_eval b_G b_I b_Bnormal b_qphi b_qtheta].
  rewrite <- N1, <- N2. destruct q; reflexivity.
Qed.
Lemma fe_always_raises b : fe_flatten b = Raise AttributeError.
Proof. reflexivity. Qed.

(** ** Field periods of the field (C19) *)
Lemma sub_rotz a u v : sub3 (rotz a u) (rotz a v) = rotz a (sub3 u v).
Proof. unfold sub3, rotz; cbn [vx vy vz]. f_equal; ring. Qed.
Lemma add_rotz a u v : add3 (rotz a u) (rotz a v) = rotz a (add3 u v).
Proof. unfold add3, rotz; cbn [vx vy vz]. f_equal; ring. Qed.
Lemma scale_rotz a c u : scale3 c (rotz a u) = rotz a (scale3 c u).
Proof. unfold scale3, rotz; cbn [vx vy vz]. f_equal; ring. Qed.
Lemma contribution_rotz a P W n n' k : norm3 n' = norm3 n ->
  contribution (rotz a P) (rotz a W) n' (rotz a k) = rotz a (contribution P W n k).
Proof.
  intros H. unfold contribution. cbv zeta. rewrite sub_rotz, rotz_cross.
  change (sqrt (dot3 n' n')) with (norm3 n'). change (sqrt (dot3 n n)) with (norm3 n).
  change (sqrt (dot3 (rotz a (sub3 P W)) (rotz a (sub3 P W)))) with (norm3 (rotz a (sub3 P W))). rewrite rotz_norm.
  change (sqrt (dot3 (sub3 P W) (sub3 P W))) with (norm3 (sub3 P W)). now rewrite H, !scale_rotz.
Qed.

Lemma phi1_shift q x p t : (q_nfp q <> 0)%nat -> phi1 q x (p + / INR (q_nfp q)) t = phi1 q x p t /\ phi2 q x (p + / INR (q_nfp q)) t = phi2 q x p t.
Proof. intros H. split; apply ldot_map_ext; intros c _; destruct (tr_shift_phi q c p t H) as [_ ->]; reflexivity. Qed.
Lemma kval_shift q x p t : (q_nfp q <> 0)%nat ->
  kval q x (p + / INR (q_nfp q)) t = rotz (2 * PI * / INR (q_nfp q)) (kval q x p t).
Proof.
  intros H. destruct (phi1_shift q x p t H) as [E1 E2]. unfold kval. rewrite E1, E2. unfold wn, w1, w2, q_nfp in *.
  rewrite nrm_shift by auto. rewrite !pt_shift by (intros; eexists; now apply phase_shift_nfp).
  now rewrite !scale_rotz, sub_rotz, scale_rotz.
Qed.
Lemma iterate_shift {A} (f : R -> A) (g : A -> A) d : (forall p, f (p + d) = g (f p)) -> forall k p, f (p + INR k * d) = Nat.iter k g (f p).
Proof.
  intros H. induction k; intros p; [simpl; f_equal; ring|]. rewrite S_INR. simpl.
  replace (p + (INR k + 1) * d) with (p + INR k * d + d) by ring. now rewrite H, IHk.
Qed.
Lemma rotz_rotz a b v : rotz a (rotz b v) = rotz (a + b) v.
Proof. unfold rotz; cbn [vx vy vz]. rewrite cos_plus, sin_plus. f_equal; ring. Qed.
Lemma rotz_iter k a v : Nat.iter k (rotz a) v = rotz (INR k * a) v.
Proof.
  induction k; simpl Nat.iter; [simpl; unfold rotz; rewrite Rmult_0_l, cos_0, sin_0; destruct v; simpl; f_equal; ring|].
  rewrite IHk, rotz_rotz, S_INR. f_equal. ring.
Qed.
Lemma kval_one q x p t : (q_nfp q <> 0)%nat -> kval q x (p + 1) t = kval q x p t.
Proof.
  intros H. assert (HH : INR (q_nfp q) <> 0) by now apply not_0_INR.
  replace (p + 1) with (p + INR (q_nfp q) * / INR (q_nfp q)) by (field; auto).
  rewrite (iterate_shift (fun p => kval q x p t) (rotz (2 * PI * / INR (q_nfp q)))) by (intros; now apply kval_shift).
  rewrite rotz_iter. replace (INR (q_nfp q) * (2 * PI * / INR (q_nfp q))) with (2 * PI * 1) by (field; auto). apply rotz_full.
Qed.
Lemma pt_nfp s a b p t : (s_nfp s <> 0)%nat -> pt s a b (p + / INR (s_nfp s)) t = rotz (2 * PI * / INR (s_nfp s)) (pt s a b p t).
Proof. intros H. apply pt_shift. intros; eexists; now apply phase_shift_nfp. Qed.
Lemma pt_one s a b p t : (s_nfp s <> 0)%nat -> pt s a b (p + 1) t = pt s a b p t.
Proof.
  intros H. assert (HH : INR (s_nfp s) <> 0) by now apply not_0_INR.
  replace (p + 1) with (p + INR (s_nfp s) * / INR (s_nfp s)) by (field; auto).
  rewrite (iterate_shift (fun p => pt s a b p t) (rotz (2 * PI * / INR (s_nfp s)))) by (intros; now apply pt_nfp).
  rewrite rotz_iter. replace (INR (s_nfp s) * (2 * PI * / INR (s_nfp s))) with (2 * PI * 1) by (field; auto). apply rotz_full.
Qed.
Lemma nrm_rot s p t : (s_nfp s <> 0)%nat -> nrm s (p + / INR (s_nfp s)) t = rotz (2 * PI * / INR (s_nfp s)) (nrm s p t).
Proof. intros H. unfold nrm. now rewrite !pt_nfp, rotz_cross. Qed.

(** A periodic summand may be summed from any starting point of the grid. *)
Definition vsum (g : R -> vec3) (l : list R) : vec3 := sum3 (map g l).
Lemma sum3_app l l' : sum3 (l ++ l') = add3 (sum3 l) (sum3 l').
Proof. induction l; simpl; [destruct (sum3 l') as [a0 b0 c0]; unfold add3, zero3; cbn [vx vy vz]; f_equal; ring|].
  rewrite IHl. unfold add3; cbn [vx vy vz]. f_equal; ring. Qed.
Lemma vsum_step g x0 h n : (forall p, g (p + INR n * h) = g p) -> vsum g (equispaced (x0 + h) h n) = vsum g (equispaced x0 h n).
Proof.
  intros H. unfold vsum, equispaced. rewrite !map_map.
  assert (E : forall n, sum3 (map (fun i => g (x0 + INR i * h)) (seq 0 (S n)))
     = add3 (sum3 (map (fun i => g (x0 + h + INR i * h)) (seq 0 n))) (g x0)).
  { intros k. cbn [seq map sum3 fold_right]. replace (x0 + INR 0 * h) with x0 by (simpl; ring).
    rewrite <- seq_shift, map_map. unfold sum3. rewrite (map_ext (fun i => g (x0 + INR (S i) * h)) (fun i => g (x0 + h + INR i * h))).
    - unfold add3; f_equal; ring.
    - intros i. rewrite S_INR. f_equal. ring. }
  assert (E' : sum3 (map (fun i => g (x0 + INR i * h)) (seq 0 (S n)))
     = add3 (sum3 (map (fun i => g (x0 + INR i * h)) (seq 0 n))) (g x0)).
  { rewrite seq_S, map_app, sum3_app. cbn [map plus]. rewrite H. f_equal. unfold sum3, add3, zero3; cbn [fold_right vx vy vz].
    destruct (g x0) as [a0 b0 c0]; cbn [vx vy vz]; f_equal; ring. }
  rewrite E in E'. unfold add3 in E'. injection E' as E1 E2 E3.
  destruct (sum3 (map (fun i => g (x0 + h + INR i * h)) (seq 0 n))) as [a0 b0 c0], (sum3 (map (fun i => g (x0 + INR i * h)) (seq 0 n))) as [a1 b1 c1]; cbn [vx vy vz] in *.
  f_equal; lra.
Qed.
Lemma vsum_steps g x0 h n k : (forall p, g (p + INR n * h) = g p) -> vsum g (equispaced (x0 + INR k * h) h n) = vsum g (equispaced x0 h n).
Proof.
  intros H. induction k; [f_equal; f_equal; simpl; ring|]. rewrite S_INR.
  replace (x0 + (INR k + 1) * h) with (x0 + INR k * h + h) by ring. now rewrite vsum_step.
Qed.
Lemma vsum_ext g g' l : (forall p, g p = g' p) -> vsum g l = vsum g' l.
Proof. intros. unfold vsum. f_equal. now apply map_ext. Qed.
Lemma vsum_rotz a g l : vsum (fun p => rotz a (g p)) l = rotz a (vsum g l).
Proof.
  induction l; unfold vsum in *; simpl.
  - unfold rotz, zero3; cbn [vx vy vz]. f_equal; ring.
  - now rewrite IHl, add_rotz.
Qed.
Lemma sum3_pairs (g : R -> R -> vec3) ps ts : sum3 (map (fun u => g (fst u) (snd u)) (pairs ps ts)) = vsum (fun p => vsum (g p) ts) ps.
Proof. unfold pairs. induction ps; simpl; auto. rewrite map_app, sum3_app, IHps, map_map. reflexivity. Qed.

Lemma wsum_rot q x P x0 n : (q_nfp q <> 0)%nat -> (n <> 0)%nat ->
  s_qphi (q_winding q) = equispaced x0 (/ (INR (q_nfp q) * INR n)) (q_nfp q * n) ->
  wsum q x (rotz (2 * PI * / INR (q_nfp q)) P) = rotz (2 * PI * / INR (q_nfp q)) (wsum q x P).
Proof.
  intros H Hn E. unfold wsum.
  assert (H1 : INR (q_nfp q) <> 0) by now apply not_0_INR. assert (H2 : INR n <> 0) by now apply not_0_INR.
  set (a := 2 * PI * / INR (q_nfp q)).
  set (g := fun P p t => contribution P (pt (q_winding q) 0 0 p t) (wn q p t) (kval q x p t)).
  change (sum3 (map (fun u => g (rotz a P) (fst u) (snd u)) (pairs (s_qphi (q_winding q)) (s_qtheta (q_winding q)))) =
          rotz a (sum3 (map (fun u => g P (fst u) (snd u)) (pairs (s_qphi (q_winding q)) (s_qtheta (q_winding q)))))).
  rewrite !sum3_pairs, E. set (h := / (INR (q_nfp q) * INR n)).
  assert (Hg : forall P p, vsum (g P (p + INR (q_nfp q * n) * h)) (s_qtheta (q_winding q)) = vsum (g P p) (s_qtheta (q_winding q))).
  { intros P0 p. apply vsum_ext. intros t. rewrite mult_INR. replace (INR (q_nfp q) * INR n * h) with 1 by (unfold h; field; auto).
    unfold g, wn, nrm. now rewrite kval_one, !pt_one. }
  rewrite <- (vsum_steps (fun p => vsum (g (rotz a P) p) (s_qtheta (q_winding q))) x0 h (q_nfp q * n) n) by apply Hg.
  rewrite <- vsum_rotz.
  replace (equispaced (x0 + INR n * h) h (q_nfp q * n)) with (map (fun p => p + / INR (q_nfp q)) (equispaced x0 h (q_nfp q * n))).
  2:{ unfold equispaced. rewrite map_map. apply map_ext. intros i. unfold h. field. auto. }
  unfold vsum at 1. rewrite map_map. change (vsum (fun p => vsum (g (rotz a P) (p + / INR (q_nfp q))) (s_qtheta (q_winding q))) (equispaced x0 h (q_nfp q * n))
    = vsum (fun p => rotz a (vsum (g P p) (s_qtheta (q_winding q)))) (equispaced x0 h (q_nfp q * n))).
  apply vsum_ext. intros p. rewrite <- vsum_rotz. apply vsum_ext. intros t. unfold g. rewrite kval_shift by auto.
  unfold q_nfp in *. rewrite pt_nfp by auto. apply contribution_rotz. unfold wn. now apply nrm_shift.
Qed.

Lemma bval_rot q x P x0 n : (q_nfp q <> 0)%nat -> (n <> 0)%nat ->
  s_qphi (q_winding q) = equispaced x0 (/ (INR (q_nfp q) * INR n)) (q_nfp q * n) ->
  bval q x (rotz (2 * PI * / INR (q_nfp q)) P) = rotz (2 * PI * / INR (q_nfp q)) (bval q x P).
Proof. intros H Hn E. unfold bval. rewrite (wsum_rot q x P x0 n) by auto. now rewrite !scale_rotz. Qed.

(** Parameter objects with the plasma re-sampled. *)
Lemma built_resampled s ps ts s' : resampled s ps ts s' -> built s'.
Proof. intros H. unfold resampled, copy_and_set_quadpoints in H. unfold built. eauto 10. Qed.
Lemma on_plasma_ok q ps ts : made q -> ps <> [] -> ts <> [] -> exists q', on_plasma q ps ts = Ok q'.
Proof.
  intros M Hp Ht. destruct (made_facts q M) as (Hn & Hm & _ & _ & Ce & _). unfold on_plasma.
  destruct (copy_ok (q_plasma q) ps ts Hp Ht) as [s E]. unfold resampled in E. rewrite E. cbn [bind].
  unfold make_params, make_base. destruct (s_nfp (q_winding q)); [contradiction|]. rewrite Hm. cbn [Nat.eqb negb].
  unfold resampled in Ce. rewrite Ce. cbn [bind]. eauto.
Qed.
Lemma on_plasma_fields q ps ts q' : made q -> on_plasma q ps ts = Ok q' ->
  made q' /\ resampled (q_plasma q) ps ts (q_plasma q') /\ q_winding q' = q_winding q /\ q_G q' = q_G q /\ q_I q' = q_I q /\
  q_stellsym q' = q_stellsym q /\ q_mpol q' = q_mpol q /\ q_ntor q' = q_ntor q /\ q_ndofs q' = q_ndofs q.
Proof.
  intros M E. destruct (made_facts q M) as (_ & _ & N1 & _). destruct M as (B1 & B2 & _). unfold on_plasma in E.
  destruct (copy_and_set_quadpoints (q_plasma q) (arr1 ps) (arr1 ts)) as [pl|] eqn:Ep; [|discriminate]. cbn [bind] in E.
  assert (E0 := E). unfold make_params, make_base in E.
  destruct (s_nfp (q_winding q)) eqn:En; [discriminate|]. destruct (Nat.eqb _ 0); [|discriminate]. cbn [negb] in E.
  destruct (copy_and_set_quadpoints (q_winding q) _ _) eqn:Ec; [|discriminate]. cbn [bind] in E. injection E as E.
  assert (F : q_plasma q' = pl /\ q_winding q' = q_winding q) by (rewrite <- E; split; reflexivity). destruct F as [F1 F2].
  split. { split; [rewrite F1; eapply built_resampled; exact Ep|]. split; [now rewrite F2|]. repeat eexists. exact E0. }
  split; [rewrite F1; exact Ep|]. split; [exact F2|]. rewrite N1, <- E. cbn. repeat split.
Qed.
Lemma kval_same q q' x p t : q_winding q' = q_winding q -> q_G q' = q_G q -> q_I q' = q_I q ->
  q_stellsym q' = q_stellsym q -> q_mpol q' = q_mpol q -> q_ntor q' = q_ntor q -> kval q' x p t = kval q x p t.
Proof.
  intros E1 E2 E3 E4 E5 E6. unfold kval, wn, w1, w2, phi1, phi2, td, fphi, targ, qcols, q_nfp. now rewrite E1, E2, E3, E4, E5, E6.
Qed.
Lemma bval_same q q' x P : q_winding q' = q_winding q -> q_G q' = q_G q -> q_I q' = q_I q ->
  q_stellsym q' = q_stellsym q -> q_mpol q' = q_mpol q -> q_ntor q' = q_ntor q -> bval q' x P = bval q x P.
Proof.
  intros E1 E2 E3 E4 E5 E6. unfold bval, wsum, wn. rewrite E1. do 3 f_equal. apply sum3_ext. intros u. now rewrite (kval_same q q').
Qed.
Lemma pt_copy s ps ts s' a b p t : resampled s ps ts s' -> pt s' a b p t = pt s a b p t /\ nrm s' p t = nrm s p t.
Proof.
  intros C. apply copy_fields in C as (A1 & A2 & A3 & A4 & A5 & _).
  assert (E : forall a b, pt s' a b p t = pt s a b p t).
  { intros. unfold pt, rval, zval. now rewrite A1, A2, A3, A4, A5. }
  split; auto. unfold nrm. now rewrite !E.
Qed.
Lemma legal_copy s ps ts s' : resampled s ps ts s' -> legal s -> legal s'.
Proof. intros C. apply copy_fields in C as (A1 & A2 & A3 & A4 & A5 & _). unfold legal. now rewrite A2, A3, A4, A5. Qed.

Lemma B_reports q x : made q -> legal (q_winding q) -> legal (q_plasma q) -> length x = q_ndofs q ->
  preports (fun q => winding_surface_B q x) q (fun p t => bval q x (pt (q_plasma q) 0 0 p t)).
Proof.
  intros M Lw Lp L ps ts Hp Ht. destruct (on_plasma_ok q ps ts M Hp Ht) as [q' E]. exists q'. split; auto.
  destruct (on_plasma_fields q ps ts q' M E) as (M' & C & E1 & E2 & E3 & E4 & E5 & E6 & E7).
  rewrite B_made; auto; [|now rewrite E1|eapply legal_copy; eauto|congruence].
  assert (C' := C). apply copy_fields in C as (_ & _ & _ & _ & _ & Q1 & Q2 & _). rewrite Q1, Q2. f_equal. apply sample_ext. intros p t.
  rewrite (proj1 (pt_copy _ _ _ _ 0 0 p t C')). now apply bval_same.
Qed.

Lemma field_periods q x x0 n : made q -> legal (q_winding q) -> legal (q_plasma q) -> length x = q_ndofs q ->
  s_nfp (q_plasma q) = s_nfp (q_winding q) -> (n <> 0)%nat ->
  s_qphi (q_winding q) = equispaced x0 (/ (INR (q_nfp q) * INR n)) (q_nfp q * n) ->
  exists F, preports (fun q => winding_surface_B q x) q F /\
  forall p t, F (p + / INR (q_nfp q)) t = rotz (2 * PI / INR (q_nfp q)) (F p t) /\ F (p + 1) t = F p t /\ F p (t + 1) = F p t.
Proof.
  intros M Lw Lp L En Hn E. eexists. split; [now apply B_reports|]. destruct (made_facts q M) as (H0 & _).
  intros p t. cbv beta.
  assert (Hp : forall p t, bval q x (pt (q_plasma q) 0 0 (p + / INR (q_nfp q)) t) = rotz (2 * PI / INR (q_nfp q)) (bval q x (pt (q_plasma q) 0 0 p t))).
  { intros. unfold Rdiv. rewrite <- (bval_rot q x _ x0 n) by auto. f_equal. unfold q_nfp. rewrite <- En. apply pt_nfp. congruence. }
  split; [apply Hp|]. split; [rewrite pt_one by congruence; reflexivity|].
  f_equal. destruct (surface_periods (q_plasma q) 0 0 (pt (q_plasma q) 0 0) ltac:(congruence)) with (phi := p) (theta := t) as (_ & _ & <-); auto.
  apply reports_of. intros. now apply gammadash_copy.
Qed.

(** ** The normalised error (C70) *)
Lemma row_zero r s : List.Forall (fun w => 0 <= w) s -> length r = length s ->
  (Rsum (map2 wsq r s) = 0 <-> forall j, 0 < nth j s 0 -> nth j r 0 = 0).
Proof.
  intros H. revert r; induction H; intros [|a r] Hl; try discriminate; [split; auto; intros _ [|j]; simpl; lra|].
  injection Hl as Hl. pose proof (row_nonneg r l H0). specialize (IHForall r Hl). unfold Rsum in *. cbn [map2 fold_right].
  assert (0 <= wsq a x) by (unfold wsq; apply Rmult_le_pos; nra). split.
  - intros E. assert (E1 : wsq a x = 0) by lra. assert (E2 : fold_right Rplus 0 (map2 wsq r l) = 0) by lra.
    intros [|j] Hj; simpl in *; [unfold wsq in E1; apply Rmult_integral in E1 as [E1|E1]; [assert (E3 : a * a = 0) by lra; apply Rmult_integral in E3; tauto|lra]|]. now apply IHForall.
  - intros E. rewrite (proj2 IHForall); [|intros j Hj; exact (E (S j) Hj)].
    destruct (Rle_lt_or_eq_dec 0 x) as [Hx| <-]; auto.
    + specialize (E 0%nat Hx). simpl in E. subst. unfold wsq. field.
    + unfold wsq. field.
Qed.
Definition at2 (g : grid R) i j := nth j (nth i g []) 0.
Lemma grid_zero b d : List.Forall (List.Forall (fun w => 0 <= w)) d -> gshape b = gshape d ->
  (Rsum (map2 (fun r s => Rsum (map2 wsq r s)) b d) = 0 <-> forall i j, 0 < nth j (nth i d []) 0 -> nth j (nth i b []) 0 = 0).
Proof.
  intros H. revert b; induction H; intros [|r b] E; try discriminate.
  { split; auto. intros _ [|i] [|j]; simpl; lra. }
  injection E as E1 E2. specialize (IHForall b E2). pose proof (row_zero r x H E1) as RZ. pose proof (row_nonneg r x H).
  assert (0 <= Rsum (map2 (fun r s => Rsum (map2 wsq r s)) b l)).
  { clear -H0. revert b. induction H0; intros [|r b]; unfold Rsum; simpl; try lra. pose proof (row_nonneg r x H). specialize (IHForall b).
    unfold Rsum in *. lra. }
  unfold Rsum at 1. cbn [map2 fold_right].
  change (fold_right Rplus 0 (map2 (fun r0 s : list R => Rsum (map2 wsq r0 s)) b l)) with (Rsum (map2 (fun r0 s : list R => Rsum (map2 wsq r0 s)) b l)).
  split.
  - intros Z [|i] j; cbn [nth]; [apply RZ; lra|apply IHForall; lra].
  - intros Z. rewrite (proj2 RZ) by (exact (Z 0%nat)). rewrite (proj2 IHForall) by (intros i; exact (Z (S i))). ring.
Qed.

Lemma f_B_zero q x b d v : made q -> legal (q_winding q) -> legal (q_plasma q) -> plasma_shaped q ->
  increasing (s_qphi (q_plasma q)) -> increasing (s_qtheta (q_plasma q)) -> length x = q_ndofs q ->
  Bnormal q x = Ok b -> da (q_plasma q) = Ok d -> f_B q x = Ok v ->
  (v = 0 <-> forall i j, 0 < nth j (nth i d []) 0 -> nth j (nth i b []) 0 = 0).
Proof.
  intros M Lw Lp Ps Ip It L Eb Ed Ev. destruct (made_facts q M) as (H0 & _ & _ & _ & _ & _ & Cp).
  destruct (f_B_made q x M Lw Lp Ps L) as (b' & d' & Eb' & Ed' & Sh & _ & Dd & Ev').
  rewrite Eb in Eb'. injection Eb' as <-. rewrite Ed in Ed'. injection Ed' as <-. rewrite Ev in Ev'. injection Ev' as ->.
  assert (HH : INR (q_nfp q) <> 0) by (apply not_0_INR; exact H0).
  rewrite gsum_wsq_rows, <- (grid_zero b d); auto; [|rewrite Dd; now apply weights_nonneg].
  split; [|intros ->; ring]. intros Z. apply Rmult_integral in Z as [Z|Z]; [exact Z|contradiction].
Qed.

Lemma scaled_superposed c q q' : scaled c q q' -> superposed c 0 q q q'.
Proof.
  intros (S & EG & EI & EB). unfold superposed. repeat split; try apply S; try (rewrite ?EG, ?EI; ring).
  rewrite EB. unfold glincomb, lincomb. clear. induction (q_Bnormal q) as [|r g IH]; auto. simpl. rewrite <- IH. f_equal.
  clear. induction r; auto. simpl. rewrite <- IHr. f_equal. ring.
Qed.
Lemma lincomb_scale c x : lincomb c 0 x x = map (Rmult c) x.
Proof. induction x; auto. simpl. rewrite <- IHx. unfold lincomb. simpl. f_equal. ring. Qed.

Lemma sq_scale c b d : Rsum (map2 (fun r s => Rsum (map2 wsq r s)) (glincomb c 0 b b) d) = c * c * Rsum (map2 (fun r s => Rsum (map2 wsq r s)) b d).
Proof.
  revert d; induction b as [|r b IH]; intros [|s d]; unfold Rsum, glincomb in *; simpl; try ring. rewrite IH.
  assert (E : forall r s, fold_right Rplus 0 (map2 wsq (lincomb c 0 r r) s) = c * c * fold_right Rplus 0 (map2 wsq r s)).
  { clear. induction r; intros [|s0 s]; simpl; try ring. unfold lincomb in IHr. rewrite IHr. unfold wsq. field. }
  rewrite E. ring.
Qed.
Lemma f_B_scaled c q q' x : made q -> made q' -> legal (q_winding q) -> legal (q_plasma q) -> plasma_shaped q ->
  length x = q_ndofs q -> scaled c q q' ->
  exists v, f_B q x = Ok v /\ f_B q' (map (Rmult c) x) = Ok (c * c * v).
Proof.
  intros M M' Lw Lp Ps L S. pose proof (scaled_superposed c q q' S) as SP. pose proof SP as ((P1 & W1 & _ & _ & _ & _ & _ & _ & D1) & _ & _ & _ & EB).
  assert (Lw' : legal (q_winding q')) by congruence. assert (Lp' : legal (q_plasma q')) by congruence.
  assert (Ps' : plasma_shaped q') by (eapply superposed_shape; eauto).
  assert (L' : length (lincomb c 0 x x) = q_ndofs q') by (rewrite length_lincomb; congruence).
  destruct (f_B_made q x M Lw Lp Ps L) as (b & d & _ & _ & _ & Eb & Ed & ->).
  destruct (f_B_made q' (lincomb c 0 x x) M' Lw' Lp' Ps' L') as (b' & d' & _ & _ & _ & Eb' & Ed' & E).
  rewrite lincomb_scale in E. rewrite E. eexists. split; [reflexivity|]. rewrite !gsum_wsq_rows.
  assert (Q1 : d' = d) by (rewrite Ed, Ed', P1; reflexivity).
  assert (Q2 : b' = glincomb c 0 b b).
  { rewrite Eb, Eb', EB, <- lin_grids, P1. f_equal. apply sample_ext. intros. now apply bnval_superposed. }
  rewrite Q1, Q2, sq_scale. unfold q_nfp. rewrite W1. f_equal. ring.
Qed.

Lemma normalized_invariant c q q' x v0 : made q -> made q' -> legal (q_winding q) -> legal (q_plasma q) -> plasma_shaped q ->
  length x = q_ndofs q -> scaled c q q' -> c <> 0 -> f_B q (repeat 0 (q_ndofs q)) = Ok v0 -> v0 <> 0 ->
  exists v, f_B_normalized q x = Ok v /\ f_B_normalized q' (map (Rmult c) x) = Ok v.
Proof.
  intros M M' Lw Lp Ps L S Hc E0 Hv. destruct (f_B_scaled c q q' x M M' Lw Lp Ps L S) as (v & E1 & E2).
  destruct (f_B_scaled c q q' (repeat 0 (q_ndofs q)) M M' Lw Lp Ps (repeat_length _ _) S) as (w & E3 & E4).
  rewrite E0 in E3. injection E3 as <-. destruct S as ((_ & _ & _ & _ & _ & _ & _ & _ & D1) & _).
  replace (map (Rmult c) (repeat 0 (q_ndofs q))) with (repeat 0 (q_ndofs q')) in E4.
  2:{ rewrite D1. generalize (q_ndofs q). induction n; simpl; auto. rewrite <- IHn. f_equal. ring. }
  unfold f_B_normalized. rewrite E1, E2, E0, E4. cbn [bind]. eexists. split; [reflexivity|]. f_equal. field. auto.
Qed.
Lemma normalized_error q x v0 : made q -> legal (q_winding q) -> legal (q_plasma q) -> plasma_shaped q ->
  increasing (s_qphi (q_plasma q)) -> increasing (s_qtheta (q_plasma q)) -> length x = q_ndofs q ->
  f_B q (repeat 0 (q_ndofs q)) = Ok v0 -> v0 <> 0 ->
  exists b d v, Bnormal q x = Ok b /\ da (q_plasma q) = Ok d /\ f_B_normalized q x = Ok v /\ 0 <= v /\
    (v = 0 <-> forall i j, 0 < nth j (nth i d []) 0 -> nth j (nth i b []) 0 = 0).
Proof.
  intros M Lw Lp Ps Ip It L E0 Hv. destruct (f_B_made q x M Lw Lp Ps L) as (b & d & Eb & Ed & _ & _ & _ & Ev).
  set (v := gsum _ * _) in Ev. exists b, d, (v / v0). split; auto. split; auto.
  split; [unfold f_B_normalized; rewrite Ev, E0; reflexivity|].
  destruct (f_B_convex q M Lw Lp Ps Ip It x (repeat 0 (q_ndofs q)) 1 L (repeat_length _ _)) as (a1 & _ & _ & A1 & _ & _ & A2 & _); [lra|].
  destruct (f_B_convex q M Lw Lp Ps Ip It (repeat 0 (q_ndofs q)) x 1 (repeat_length _ _) L) as (a2 & _ & _ & B1 & _ & _ & B2 & _); [lra|].
  rewrite Ev in A1. injection A1 as <-. rewrite E0 in B1. injection B1 as <-.
  assert (0 < v0) by lra. split; [apply Rmult_le_pos; [auto|left; now apply Rinv_0_lt_compat]|].
  rewrite <- (f_B_zero q x b d v) by auto. split; [|intros ->; field; auto].
  intros Z. apply Rmult_integral in Z as [Z|Z]; auto. exfalso. apply (Rinv_neq_0_compat v0); auto.
Qed.
