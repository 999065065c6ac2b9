(** Recovery by the fit, segment intersection, contour weights, arc angles. *)
From Coq Require Import String List Bool Arith ZArith Reals Lra Lia.
From Verif Require Import Base ModelArray ModelMath SpecMath ProofMath ModelSurface SpecSurface ProofSurface ProofSurface2
  ModelQuadcoil ProofLinear ModelWinding SpecWinding ProofWinding ProofWinding2.
Import ListNotations.
Open Scope R_scope.

(** ** Recovery *)
Lemma rsum_nonneg l : (forall v, In v l -> 0 <= v) -> 0 <= Rsum l.
Proof. induction l; intros H; [unfold Rsum; cbn; lra|]. change (Rsum (a :: l)) with (a + Rsum l). pose proof (H a (or_introl eq_refl)). pose proof (IHl (fun v h => H v (or_intror h))). lra. Qed.
Lemma rsum_zero l : (forall v, In v l -> 0 <= v) -> Rsum l <= 0 -> forall v, In v l -> v = 0.
Proof.
  induction l; intros H S v Hv; [contradiction|]. change (Rsum (a :: l)) with (a + Rsum l) in S.
  pose proof (H a (or_introl eq_refl)). pose proof (rsum_nonneg l (fun v h => H v (or_intror h))).
  destruct Hv as [<-|Hv]; [lra|]. apply IHl; auto; [intros; apply H; right; auto|lra].
Qed.
Lemma misfit_pos f t : 0 <= misfit1 f t.
Proof. unfold misfit1. destruct f. apply Rplus_le_le_0_compat; apply pow2_ge_0. Qed.
Lemma coords_sub nfp st mpol ntor x y phi theta : length x = legal_length st mpol ntor -> length y = legal_length st mpol ntor ->
  coords nfp st (cmodes mpol ntor) (smodes mpol ntor) (lsub x y) phi theta
  = (fst (coords nfp st (cmodes mpol ntor) (smodes mpol ntor) x phi theta) - fst (coords nfp st (cmodes mpol ntor) (smodes mpol ntor) y phi theta),
     snd (coords nfp st (cmodes mpol ntor) (smodes mpol ntor) x phi theta) - snd (coords nfp st (cmodes mpol ntor) (smodes mpol ntor) y phi theta)).
Proof.
  intros Lx Ly. rewrite <- !row_coords by (rewrite ?lsub_length; congruence). cbn [fst snd].
  rewrite rz_cols. cbn [fst snd]. rewrite !ldot_sub_r by congruence. reflexivity.
Qed.
Theorem fit_recovers solve phi theta r z nfp st mpol ntor w x0 : honest_solver solve ->
  shape_as theta phi -> shape_as z r ->
  match w with Some w => shape_as w phi /\ shape_as r w | None => length (concat r) = length (concat phi) end ->
  let T := of_arrays phi theta r z (match w with Some w => w | None => gones phi end) in
  length x0 = legal_length st mpol ntor ->
  (forall t, In t T -> coords nfp st (cmodes mpol ntor) (smodes mpol ntor) x0 (tg_phi t) (tg_theta t) = (tg_r t, tg_z t)) ->
  determined nfp st mpol ntor (cmodes mpol ntor) (smodes mpol ntor) T ->
  fit_surfacerzfourier solve phi theta r z nfp st mpol ntor 0 w = Ok x0.
Proof.
  intros Hs S1 S2 Sw T L0 Hdata Hdet.
  destruct (fit_correct solve phi theta r z nfp st mpol ntor 0 w Hs (Rle_refl 0) S1 S2 Sw) as (x & -> & Lx & Hopt).
  f_equal. fold T in Hopt. specialize (Hopt x0 L0).
  unfold fit_cost in Hopt. rewrite !Rmult_0_l, !Rplus_0_r in Hopt.
  assert (Z0 : Rsum (map (misfit1 (coords nfp st (cmodes mpol ntor) (smodes mpol ntor) x0)) T) = 0).
  { clear -Hdata. induction T as [|t T IH]; [reflexivity|]. cbn [map]. change (Rsum (?a :: ?l)) with (a + Rsum l).
    rewrite IH by (intros; apply Hdata; right; auto). unfold misfit1. rewrite (Hdata t) by (left; auto). ring. }
  rewrite Z0 in Hopt.
  assert (P : forall t, In t T -> misfit1 (coords nfp st (cmodes mpol ntor) (smodes mpol ntor) x) t = 0).
  { intros t Ht. apply (rsum_zero (map (misfit1 (coords nfp st (cmodes mpol ntor) (smodes mpol ntor) x)) T)); auto.
    - intros v Hv. apply in_map_iff in Hv as (t' & <- & _). apply misfit_pos.
    - now apply in_map. }
  assert (V : forall v, In v (lsub x x0) -> v = 0).
  { apply Hdet; [rewrite lsub_length; congruence|]. intros t Ht Hw. rewrite coords_sub by auto.
    specialize (P t Ht). unfold misfit1 in P. rewrite (Hdata t Ht). cbn [fst snd].
    destruct (coords nfp st (cmodes mpol ntor) (smodes mpol ntor) x (tg_phi t) (tg_theta t)) as [a b]. cbn [fst snd].
    pose proof (pow2_ge_0 (tg_w t * (a - tg_r t))). pose proof (pow2_ge_0 (tg_w t * (b - tg_z t))).
    assert (E1 : (tg_w t * (a - tg_r t)) ^ 2 = 0) by lra. assert (E2 : (tg_w t * (b - tg_z t)) ^ 2 = 0) by lra.
    cbn in E1, E2. rewrite Rmult_1_r in E1, E2. apply Rsqr_0_uniq in E1. apply Rsqr_0_uniq in E2.
    apply Rmult_integral in E1. apply Rmult_integral in E2. f_equal; tauto. }
  rewrite <- L0 in Lx. clear -V Lx. revert x0 Lx V. induction x as [|a x IH]; intros [|b x0] Lx V; try discriminate; auto.
  unfold lsub in V. cbn in V. f_equal; [pose proof (V (a - b) (or_introl eq_refl)); lra|]. apply IH; auto.
Qed.

(** ** Segments *)
Theorem line_intersection_iff p0 p1 p2 p3 :
  get_line_intersection p0 p1 p2 p3 = true <-> (transverse p0 p1 p2 p3 /\ cross_at_point p0 p1 p2 p3).
Proof.
  destruct p0 as [x0 y0], p1 as [x1 y1], p2 as [x2 y2], p3 as [x3 y3].
  unfold get_line_intersection, transverse, cross_at_point, on_segment. cbn [fst snd].
  set (a := x1 - x0). set (b := y1 - y0). set (c := x3 - x2). set (d := y3 - y2). set (D := - c * b + a * d).
  set (u := x0 - x2). set (v := y0 - y2).
  destruct (Req_EM_T D 0) as [E|N].
  - split; [discriminate|]. intros [H _]. exfalso. apply H. unfold D in E. lra.
  - set (s := (- b * u + a * v) * (1 / D)). set (t := (c * v - d * u) * (1 / D)).
    assert (Es : s * D = - b * u + a * v) by (unfold s; field; auto).
    assert (Et : t * D = c * v - d * u) by (unfold t; field; auto).
    assert (Uniq : forall t' s', x0 + t' * a = x2 + s' * c -> y0 + t' * b = y2 + s' * d -> t' = t /\ s' = s).
    { intros t' s' H1 H2. assert (X : u = s' * c - t' * a) by (unfold u; lra). assert (Y : v = s' * d - t' * b) by (unfold v; lra).
      split; apply (Rmult_eq_reg_r D); auto.
      - rewrite Et, X, Y. unfold D. ring.
      - rewrite Es, X, Y. unfold D. ring. }
    assert (Sol : x0 + t * a = x2 + s * c /\ y0 + t * b = y2 + s * d).
    { assert (X : u = s * c - t * a) by (apply (Rmult_eq_reg_r D); auto; replace ((s * c - t * a) * D) with (c * (s * D) - a * (t * D)) by ring; rewrite Es, Et; unfold D; ring).
      assert (Y : v = s * d - t * b) by (apply (Rmult_eq_reg_r D); auto; replace ((s * d - t * b) * D) with (d * (s * D) - b * (t * D)) by ring; rewrite Es, Et; unfold D; ring).
      unfold u, v in *. lra. }
    split.
    + intros H. destruct (Rle_dec 0 s), (Rle_dec s 1), (Rle_dec 0 t), (Rle_dec t 1); try discriminate.
      split; [unfold D in N; lra|]. exists (x0 + t * a, y0 + t * b). split; [exists t; auto|]. exists s. split; auto. f_equal; apply Sol.
    + intros (_ & [px py] & (t' & T1 & T2) & (s' & S1 & S2)). injection T2 as T2 T3. injection S2 as S2 S3.
      destruct (Uniq t' s') as [-> ->]; try lra.
      destruct (Rle_dec 0 s), (Rle_dec s 1), (Rle_dec 0 t), (Rle_dec t 1); auto; lra.
Qed.

(** ** Contour weights *)
Lemma combine_fst_snd {A B} (p : list (A * B)) : combine (map fst p) (map snd p) = p.
Proof. induction p as [|[a b] p IH]; cbn; congruence. Qed.
Lemma length_roll_left {A} (l : list A) : length (roll_left l) = length l.
Proof. destruct l; cbn; auto. rewrite app_length. cbn. lia. Qed.
Lemma length_roll_right {A} (l : list A) : length (roll_right l) = length l.
Proof.
  destruct l as [|x l]; auto. unfold roll_right. cbn [length]. f_equal.
  destruct (exists_last (l := x :: l)) as (l' & y & E); [discriminate|]. rewrite E, removelast_last.
  apply (f_equal (@length A)) in E. rewrite app_length in E. cbn in E. lia.
Qed.
Lemma nth_roll_left {A} (l : list A) d i : (i < length l)%nat -> nth i (roll_left l) d = nth ((i + 1) mod length l) l d.
Proof.
  destruct l as [|x l]; cbn [length]; [lia|]. intros Hi. unfold roll_left.
  destruct (Nat.eq_dec i (length l)) as [->|N].
  - replace (length l + 1)%nat with (S (length l)) by lia. rewrite Nat.mod_same by lia. rewrite app_nth2, Nat.sub_diag by lia. reflexivity.
  - rewrite app_nth1 by lia. rewrite Nat.mod_small by lia. replace (i + 1)%nat with (S i) by lia. reflexivity.
Qed.
Lemma nth_roll_right_0 {A} (l : list A) d : (0 < length l)%nat -> nth 0 (roll_right l) d = nth (length l - 1) l d.
Proof.
  destruct l as [|x l]; cbn [length]; [lia|]. intros _. unfold roll_right. change (last (x :: l) x = nth (S (length l) - 1) (x :: l) d).
  destruct (exists_last (l := x :: l)) as (l' & y & E); [discriminate|]. rewrite E.
  assert (L : length l = length l') by (apply (f_equal (@length A)) in E; rewrite app_length in E; cbn in E; lia).
  rewrite last_last. rewrite app_nth2 by lia. replace (S (length l) - 1 - length l')%nat with 0%nat by lia. reflexivity.
Qed.
Lemma nth_roll_right_S {A} (l : list A) d k : (S k < length l)%nat -> nth (S k) (roll_right l) d = nth k l d.
Proof.
  destruct l as [|x l]; cbn [length]; [lia|]. intros Hk. unfold roll_right.
  destruct (exists_last (l := x :: l)) as (l' & y & E); [discriminate|]. rewrite E, removelast_last.
  assert (L : length l = length l') by (apply (f_equal (@length A)) in E; rewrite app_length in E; cbn in E; lia).
  cbn [nth]. rewrite app_nth1 by lia. reflexivity.
Qed.
Definition edges_of (p : list (R * R)) := combine p (roll_left p).
Lemma length_edges p : length (edges_of p) = length p.
Proof. unfold edges_of. rewrite combine_length, length_roll_left. lia. Qed.
Lemma nth_edges p i d : (i < length p)%nat -> nth i (edges_of p) d = (corner p i, corner p (i + 1)).
Proof.
  intros Hi. rewrite (nth_indep _ d ((0, 0), (0, 0))) by (now rewrite length_edges). unfold edges_of.
  rewrite combine_nth by (now rewrite length_roll_left). unfold corner. rewrite nth_roll_left by auto. now rewrite (Nat.mod_small i).
Qed.
Lemma overlapping_iff n a b : is_overlapping n a b = true <-> neighbours n a b.
Proof.
  unfold is_overlapping, neighbours. rewrite !orb_true_iff, !Nat.eqb_eq. split; intros; intuition auto.
Qed.
Lemma in_numbered {A} (l : list A) d i x : In (i, x) (combine (seq 0 (length l)) l) <-> (i < length l)%nat /\ x = nth i l d.
Proof.
  assert (G : forall s, In (i, x) (combine (seq s (length l)) l) <-> (s <= i < s + length l)%nat /\ x = nth (i - s) l d).
  { induction l as [|y l IH]; intros s; cbn [length seq combine]; [split; [intros []|lia]|].
    cbn [In]. rewrite IH. split.
    - intros [E|[H1 H2]].
      + injection E as <- <-. rewrite Nat.sub_diag. split; [lia|reflexivity].
      + split; [lia|]. replace (i - s)%nat with (S (i - S s)) by lia. exact H2.
    - intros [H1 H2]. destruct (Nat.eq_dec s i) as [->|N].
      + left. rewrite Nat.sub_diag in H2. cbn in H2. now subst.
      + right. split; [lia|]. replace (i - s)%nat with (S (i - S s)) in H2 by lia. exact H2. }
  rewrite G. rewrite Nat.sub_0_r. split; intros [H1 H2]; split; auto; lia.
Qed.
Lemma self_intersection_crossed p a : (a < length p)%nat ->
  has_self_intersection (edges_of p) a (corner p a, corner p (a + 1)) = true <-> crossed p a.
Proof.
  intros Ha. unfold has_self_intersection. rewrite existsb_exists. unfold crossed. split.
  - intros ([j e] & Hin & H). apply (in_numbered _ ((0, 0), (0, 0))) in Hin as [Hj ->]. rewrite length_edges in Hj.
    cbn [fst snd] in H. rewrite nth_edges in H by auto. cbn [fst snd] in H. apply andb_true_iff in H as [H1 H2].
    apply line_intersection_iff in H1. rewrite length_edges in H2. exists j. split; auto. split; auto.
    intros N. apply overlapping_iff in N. now rewrite N in H2.
  - intros (j & Hj & N & T & C). exists (j, (corner p j, corner p (j + 1))). split.
    + apply (in_numbered _ ((0, 0), (0, 0))). rewrite length_edges. split; auto. now rewrite nth_edges.
    + cbn [fst snd]. rewrite length_edges. apply andb_true_iff. split; [apply line_intersection_iff; auto|].
      destruct (is_overlapping (length p) a j) eqn:E; auto. apply overlapping_iff in E. contradiction.
Qed.
Lemma length_scan es a w l : length (scan_weights es a w l) = length l.
Proof. revert a w; induction l; intros; cbn; auto. Qed.
Definition sgn (c : nat) : R := if Nat.even c then 1 else -1.
Lemma sgn_S c : sgn (S c) = - sgn c.
Proof. unfold sgn. rewrite Nat.even_succ, <- Nat.negb_even. destruct (Nat.even c); cbn; lra. Qed.
Lemma scan_parity p w : forall m a l, (a + m = length p)%nat -> l = map (fun i => (corner p i, corner p (i + 1))) (seq a m) ->
  forall k c, (k < m)%nat -> count_crossed p (seq a (S k)) c -> nth k (scan_weights (edges_of p) a w l) 0 = w * sgn c.
Proof.
  intros m. revert w. induction m as [|m IH]; intros w a l Ha -> k c Hk Hc; [lia|].
  cbn [seq map scan_weights]. pose proof (self_intersection_crossed p a ltac:(lia)) as HX.
  cbn [seq] in Hc. destruct k as [|k].
  - cbn [nth seq] in *. inversion Hc as [|i l' k' C1 C2|i l' k' C1 C2]; subst; inversion C2; subst.
    + apply HX in C1. rewrite C1. unfold sgn; cbn. ring.
    + destruct (has_self_intersection _ _ _); [exfalso; apply C1, HX; auto|]. unfold sgn; cbn. ring.
  - cbn [nth]. inversion Hc as [|i l' k' C1 C2|i l' k' C1 C2]; subst.
    + apply HX in C1. rewrite C1. rewrite (IH (- w) (S a) _ ltac:(lia) eq_refl k k') by (auto; lia). rewrite sgn_S. ring.
    + destruct (has_self_intersection _ _ _); [exfalso; apply C1, HX; auto|].
      rewrite (IH w (S a) _ ltac:(lia) eq_refl k c) by (auto; lia). reflexivity.
Qed.
Lemma edges_map p : edges_of p = map (fun i => (corner p i, corner p (i + 1))) (seq 0 (length p)).
Proof.
  apply (nth_ext _ _ ((0, 0), (0, 0)) ((0, 0), (0, 0))); [now rewrite length_edges, map_length, seq_length|].
  intros i Hi. rewrite length_edges in Hi. rewrite nth_edges by auto.
  match goal with |- _ = nth _ (map ?F _) _ => rewrite (nth_indep _ _ (F 0%nat)) by (now rewrite map_length, seq_length); rewrite (map_nth F), seq_nth by auto end.
  reflexivity.
Qed.
Lemma weights_form p : polygon_self_intersection (map fst p) (map snd p)
  = map (fun w => if Req_EM_T w 0 then 0 else 1) (roll_right (map (fun w => (w + 1) / 2) (scan_weights (edges_of p) 0 1 (edges_of p)))).
Proof. unfold polygon_self_intersection. now rewrite combine_fst_snd. Qed.
Lemma length_weights p : length (polygon_self_intersection (map fst p) (map snd p)) = length p.
Proof. rewrite weights_form, map_length, length_roll_right, map_length, length_scan. apply length_edges. Qed.
Lemma weights_01 r z w : In w (polygon_self_intersection r z) -> w = 0 \/ w = 1.
Proof. unfold polygon_self_intersection. intros H. apply in_map_iff in H as (v & <- & _). destruct (Req_EM_T v 0); auto. Qed.
Lemma sel_sgn c : (if Req_EM_T ((1 * sgn c + 1) / 2) 0 then 0 else 1) = if Nat.even c then 1 else 0.
Proof. unfold sgn. destruct (Nat.even c); destruct Req_EM_T; lra. Qed.
Theorem weights_parity p k c : (k < length p)%nat ->
  count_crossed p (seq 0 (if Nat.eqb k 0 then length p else k)) c ->
  nth k (polygon_self_intersection (map fst p) (map snd p)) 0 = if Nat.even c then 1 else 0.
Proof.
  intros Hk Hc. rewrite weights_form. set (f := fun w => if Req_EM_T w 0 then 0 else 1).
  set (sw := scan_weights (edges_of p) 0 1 (edges_of p)).
  assert (Ls : length sw = length p) by (unfold sw; rewrite length_scan; apply length_edges).
  assert (Lm : length (map (fun w => (w + 1) / 2) sw) = length p) by (now rewrite map_length).
  assert (N : forall j c, (j < length p)%nat -> count_crossed p (seq 0 (S j)) c -> nth j sw 0 = 1 * sgn c).
  { intros j c' Hj Hc'. unfold sw. apply (scan_parity p 1 (length p) 0); auto. apply edges_map. }
  assert (M : forall j, (j < length p)%nat -> nth j (map (fun w => (w + 1) / 2) sw) ((0 + 1) / 2) = (nth j sw 0 + 1) / 2).
  { intros. now rewrite (map_nth (fun w => (w + 1) / 2)). }
  rewrite (nth_indep _ 0 (f ((0 + 1) / 2))) by (rewrite map_length, length_roll_right, Lm; auto). rewrite (map_nth f).
  unfold f. destruct k as [|k]; cbn [Nat.eqb] in Hc.
  - rewrite nth_roll_right_0 by lia. rewrite Lm, M by lia. rewrite (N (length p - 1)%nat c) by (try lia; now replace (S (length p - 1)) with (length p) by lia).
    apply sel_sgn.
  - rewrite nth_roll_right_S by lia. rewrite M by lia. rewrite (N k c) by (auto; lia). apply sel_sgn.
Qed.
Lemma count_none p l : (forall i, In i l -> ~ crossed p i) -> count_crossed p l 0.
Proof. induction l; intros H; constructor; [apply H; left; auto|apply IHl; intros; apply H; right; auto]. Qed.
Theorem weights_simple p w : (forall i, (i < length p)%nat -> ~ crossed p i) ->
  In w (polygon_self_intersection (map fst p) (map snd p)) -> w = 1.
Proof.
  intros H Hw. apply (In_nth _ _ 0) in Hw as (k & Hk & <-). rewrite length_weights in Hk.
  rewrite (weights_parity p k 0); auto. apply count_none. intros i Hi. apply in_seq in Hi. apply H. destruct (Nat.eqb k 0); lia.
Qed.

(** ** Arc-length angles *)
Definition seg (p : list (R * R)) (k : nat) : R := dist2 (corner p (k + 1)) (corner p k).
Lemma segment_map p : segment_lengths (map fst p) (map snd p) = map (seg p) (seq 0 (length p)).
Proof.
  apply (nth_ext _ _ 0 0).
  - unfold segment_lengths. rewrite !map2_len, !length_roll_left, !map_length, seq_length. lia.
  - unfold segment_lengths. rewrite !map2_len, !length_roll_left, !map_length. intros k Hk.
    assert (Hk' : (k < length p)%nat) by lia. clear Hk.
    assert (N : forall (f : R -> R -> R) l m i, (i < length l)%nat -> (i < length m)%nat -> nth i (map2 f l m) 0 = f (nth i l 0) (nth i m 0)).
    { clear. induction l; intros [|b m] i H1 H2; cbn in *; try lia. destruct i; auto. apply IHl; lia. }
    rewrite N by (rewrite map2_len, length_roll_left, map_length; lia).
    rewrite !N by (rewrite ?length_roll_left, map_length; lia).
    rewrite !nth_roll_left by (now rewrite map_length). rewrite !map_length.
    replace (nth k (map (seg p) (seq 0 (length p))) 0) with (seg p k)
      by (rewrite (nth_indep _ 0 (seg p 0)) by (now rewrite map_length, seq_length); now rewrite (map_nth (seg p)), seq_nth).
    assert (Nf : forall i, nth i (map fst p) 0 = fst (nth i p (0, 0))) by (intros; exact (map_nth (@fst R R) p (0, 0) i)).
    assert (Ns : forall i, nth i (map snd p) 0 = snd (nth i p (0, 0))) by (intros; exact (map_nth (@snd R R) p (0, 0) i)).
    rewrite !Nf, !Ns.
    unfold seg, dist2, corner. cbn [Nat.add]. rewrite (Nat.mod_small k) by auto. f_equal. ring.
Qed.
Lemma nth_cumsum acc l k : (k < length l)%nat -> nth k (cumsum acc l) 0 = acc + Rsum (firstn (S k) l).
Proof.
  revert acc k; induction l as [|a l IH]; intros acc k Hk; cbn in Hk; [lia|]. destruct k.
  - cbn. unfold Rsum; cbn. ring.
  - cbn [cumsum nth]. rewrite IH by lia. change (firstn (S (S k)) (a :: l)) with (a :: firstn (S k) l). unfold Rsum; cbn [fold_right]. ring.
Qed.
Lemma length_cumsum acc l : length (cumsum acc l) = length l.
Proof. revert acc; induction l; intros; cbn; auto. Qed.
Lemma last_nth {A} (l : list A) d : last l d = nth (length l - 1) l d.
Proof.
  induction l as [|a l IH]; auto. destruct l as [|b l]; auto. change (last (a :: b :: l) d) with (last (b :: l) d). rewrite IH.
  cbn [length]. replace (S (S (length l)) - 1)%nat with (S (S (length l) - 1)) by lia. reflexivity.
Qed.
(** Length of the contour from corner 1 to corner [k+1]. *)
Definition travelled (p : list (R * R)) (k : nat) : R := Rsum (map (seg p) (seq 1 k)).
Lemma firstn_seq_map (f : nat -> R) n k : (k <= n)%nat -> firstn k (map f (seq 0 n)) = map f (seq 0 k).
Proof.
  intros H. rewrite firstn_map. f_equal. replace n with (k + (n - k))%nat by lia. rewrite seq_app, firstn_app, seq_length, Nat.sub_diag.
  cbn. rewrite app_nil_r. apply firstn_all2. now rewrite seq_length.
Qed.
Theorem arc_angle_value p k : (k < length p)%nat ->
  nth k (arc_angles (map fst p) (map snd p)) 0 = travelled p k / Rsum (map (seg p) (seq 0 (length p))).
Proof.
  intros Hk. unfold arc_angles. rewrite segment_map. set (l := map (seg p) (seq 0 (length p))). assert (Ll : length l = length p) by (unfold l; now rewrite map_length, seq_length).
  match goal with |- nth k (map ?F _) _ = _ => set (f := F) end.
  rewrite (nth_indep _ 0 (f 0)) by (now rewrite map_length, length_cumsum, Ll). rewrite (map_nth f). unfold f.
  rewrite nth_cumsum by lia. rewrite last_nth, length_cumsum, nth_cumsum by lia.
  replace (hd 0 (cumsum 0 l)) with (nth 0 (cumsum 0 l) 0) by (destruct (cumsum 0 l); reflexivity).
  rewrite nth_cumsum by lia. rewrite Ll. replace (S (length p - 1)) with (length l) by lia. rewrite firstn_all.
  rewrite !Rplus_0_l. f_equal. unfold l. rewrite !firstn_seq_map by lia. unfold travelled.
  cbn [seq map]. unfold Rsum; cbn [fold_right]. ring.
Qed.
Lemma seg_nonneg p k : 0 <= seg p k.
Proof. apply sqrt_pos. Qed.
Lemma rsum_app a b : Rsum (a ++ b) = Rsum a + Rsum b.
Proof. unfold Rsum. induction a; cbn; [ring|]. rewrite IHa. ring. Qed.
Lemma travelled_S p k : travelled p (S k) = travelled p k + seg p (S k).
Proof. unfold travelled. rewrite seq_S, map_app, rsum_app. cbn [map]. unfold Rsum at 2; cbn. ring. Qed.
Lemma total_travelled p : (0 < length p)%nat -> Rsum (map (seg p) (seq 0 (length p))) = seg p 0 + travelled p (length p - 1).
Proof. intros H. unfold travelled. replace (length p) with (S (length p - 1)) at 1 by lia. reflexivity. Qed.
Lemma travelled_nonneg p k : 0 <= travelled p k.
Proof. apply rsum_nonneg. intros v Hv. apply in_map_iff in Hv as (j & <- & _). apply seg_nonneg. Qed.
Lemma travelled_mono p j k : (j <= k)%nat -> travelled p j <= travelled p k.
Proof. induction 1; [lra|]. rewrite travelled_S. pose proof (seg_nonneg p (S m)). lra. Qed.
Theorem arc_angles_valid p : (0 < length p)%nat -> 0 < seg p 0 ->
  let th := arc_angles (map fst p) (map snd p) in
  length th = length p /\ nth 0 th 0 = 0 /\ (forall k, (k < length p)%nat -> 0 <= nth k th 0 < 1) /\
  (forall k, (S k < length p)%nat -> nth (S k) th 0 = nth k th 0 + seg p (S k) / Rsum (map (seg p) (seq 0 (length p)))).
Proof.
  intros Hn H0 th. assert (HT : 0 < Rsum (map (seg p) (seq 0 (length p)))) by (rewrite total_travelled by auto; pose proof (travelled_nonneg p (length p - 1)); lra).
  split; [|split; [|split]].
  - unfold th, arc_angles. rewrite map_length, length_cumsum, segment_map, map_length, seq_length. reflexivity.
  - unfold th. rewrite arc_angle_value by auto. unfold travelled, Rsum at 1. cbn. unfold Rdiv. ring.
  - intros k Hk. unfold th. rewrite arc_angle_value by auto. split.
    + apply Rmult_le_pos; [apply travelled_nonneg|]. left. now apply Rinv_0_lt_compat.
    + apply (Rmult_lt_reg_r (Rsum (map (seg p) (seq 0 (length p))))); auto. unfold Rdiv. rewrite Rmult_assoc, Rinv_l, Rmult_1_r, Rmult_1_l by lra.
      rewrite total_travelled by auto. pose proof (travelled_mono p k (length p - 1) ltac:(lia)). lra.
  - intros k Hk. unfold th. rewrite !arc_angle_value by lia. rewrite travelled_S. unfold Rdiv. ring.
Qed.

(** ** Rejected shapes *)
Theorem fit_rejects solve phi theta r z nfp st mpol ntor lam w :
  ~ shape_as theta phi \/ ~ shape_as z r \/ (exists v, w = Some v /\ (~ shape_as v phi \/ ~ shape_as r v)) \/
    (w = None /\ length (concat r) <> length (concat phi)) ->
  exists e, fit_surfacerzfourier solve phi theta r z nfp st mpol ntor lam w = Raise e /\ (e = TypeError \/ e = ValueError).
Proof.
  intros H. unfold fit_surfacerzfourier.
  destruct (same_shape phi theta) eqn:E1; cbn [negb]; [|eauto]. apply shape_same in E1.
  destruct (same_shape r z) eqn:E2; cbn [negb]; [|eauto]. apply shape_same in E2.
  destruct H as [H|[H|[(v & -> & H)|[-> H]]]]; [exfalso; apply H; symmetry; exact E1|exfalso; apply H; symmetry; exact E2| |].
  - destruct (same_shape v phi) eqn:E3; cbn [negb]; [|eauto]. destruct (same_shape r v) eqn:E4; cbn [negb]; [|eauto].
    apply shape_same in E3. apply shape_same in E4. exfalso. tauto.
  - cbv zeta. assert (L : forall X (l : list (R * R)) (ws : list R) (f : R * R -> R -> list X), (forall p w, length (f p w) = 2%nat) -> length (concat (map2 f l ws)) = (2 * Nat.min (length l) (length ws))%nat).
    { intros A l ws f Hf. revert ws; induction l; intros [|b ws]; auto. cbn [map2 concat length]. rewrite app_length, IHl, Hf. cbn [Nat.min]. lia. }
    rewrite !concat_ones.
    rewrite (L _ _ _ (fun pt w => point_rows nfp st mpol ntor (fst pt) (snd pt) w)) by (intros; apply (point_mat nfp st mpol ntor (fst p) (snd p) w)).
    rewrite (L _ _ _ (fun rz w => point_rhs (fst rz) (snd rz) w)) by reflexivity.
    rewrite !combine_length, !repeat_length, (shape_concat _ _ E1), (shape_concat _ _ E2).
    destruct (Nat.eqb_spec (2 * Nat.min (Nat.min (length (concat theta)) (length (concat theta))) (length (concat theta)))
      (2 * Nat.min (Nat.min (length (concat z)) (length (concat z))) (length (concat z)))) as [Q|Q]; [|eauto].
    exfalso. rewrite !Nat.min_id in Q. apply H. rewrite (shape_concat _ _ E1), (shape_concat _ _ E2). lia.
Qed.
