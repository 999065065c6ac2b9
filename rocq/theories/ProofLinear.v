(** Lists of reals as vectors and matrices: linear algebra used by the
    statements about gradients and preconditioning. *)
From Coq Require Import List Bool Arith Reals Lra Lia.
From Verif Require Import Base ModelArray ModelMath SpecMath ProofMath ModelQuadcoil.
Import ListNotations.
Open Scope R_scope.

Lemma map2_len {A B C} (f : A -> B -> C) l l' : length (map2 f l l') = Nat.min (length l) (length l').
Proof. revert l'. induction l; intros [|b l']; simpl; auto. Qed.
Lemma ladd_length a b : length a = length b -> length (ladd a b) = length a.
Proof. intros H. unfold ladd. rewrite map2_len. lia. Qed.
Lemma lsub_length a b : length a = length b -> length (lsub a b) = length a.
Proof. intros H. unfold lsub. rewrite map2_len. lia. Qed.
Lemma lscale_length c a : length (lscale c a) = length a.
Proof. apply map_length. Qed.
Lemma nth_ladd a b i : length a = length b -> nth i (ladd a b) 0 = nth i a 0 + nth i b 0.
Proof. revert b i. induction a; intros [|y b] [|i] H; simpl in *; try discriminate; try lra; auto. Qed.
Lemma nth_lsub a b i : length a = length b -> nth i (lsub a b) 0 = nth i a 0 - nth i b 0.
Proof. revert b i. induction a; intros [|y b] [|i] H; simpl in *; try discriminate; try lra; auto. Qed.
Lemma nth_lscale c a i : nth i (lscale c a) 0 = c * nth i a 0.
Proof. revert i. induction a; intros [|i]; simpl; auto; lra. Qed.

Lemma ldot_nil_r a : ldot a [] = 0.
Proof. destruct a; reflexivity. Qed.
Lemma ldot_cons x a y b : ldot (x :: a) (y :: b) = x * y + ldot a b.
Proof. reflexivity. Qed.
Lemma ldot_comm a b : ldot a b = ldot b a.
Proof. revert b. induction a; intros [|y b]; auto. rewrite !ldot_cons, IHa. ring. Qed.
Lemma ldot_add_r a b c : length b = length c -> ldot a (ladd b c) = ldot a b + ldot a c.
Proof.
  revert b c. induction a as [|x a IH]; intros [|y b] [|z c] H; try discriminate; cbn [ladd map2]; try (unfold ldot; simpl; lra).
  change (ldot (x :: a) (y + z :: ladd b c) = ldot (x :: a) (y :: b) + ldot (x :: a) (z :: c)).
  rewrite !ldot_cons, IH by (simpl in H; lia). ring.
Qed.
Lemma ldot_add_l a b c : length a = length b -> ldot (ladd a b) c = ldot a c + ldot b c.
Proof. intros H. rewrite ldot_comm, ldot_add_r by auto. now rewrite !(ldot_comm c). Qed.
Lemma ldot_scale_r c a b : ldot a (lscale c b) = c * ldot a b.
Proof.
  revert b. induction a as [|x a IH]; intros [|y b]; try (unfold ldot; simpl; lra).
  change (ldot (x :: a) (c * y :: lscale c b) = c * ldot (x :: a) (y :: b)). rewrite !ldot_cons, IH. ring.
Qed.
Lemma ldot_scale_l c a b : ldot (lscale c a) b = c * ldot a b.
Proof. now rewrite ldot_comm, ldot_scale_r, ldot_comm. Qed.
Lemma ldot_opp_l a b : ldot (map Ropp a) b = - ldot a b.
Proof.
  revert b. induction a as [|x a IH]; intros [|y b]; try (unfold ldot; simpl; lra).
  cbn [map]. rewrite !ldot_cons, IH. ring.
Qed.
Lemma lsub_ladd a b : length a = length b -> lsub a b = ladd a (lscale (-1) b).
Proof. unfold lsub, ladd, lscale. revert b. induction a as [|x a IH]; intros [|y b] H; simpl in *; try discriminate; auto. f_equal; [ring|auto]. Qed.
Lemma ldot_sub_r a b c : length b = length c -> ldot a (lsub b c) = ldot a b - ldot a c.
Proof. intros H. rewrite lsub_ladd, ldot_add_r, ldot_scale_r by (auto; now rewrite lscale_length). ring. Qed.
Lemma ldot_zero_l a b : (forall x, In x a -> x = 0) -> ldot a b = 0.
Proof.
  revert b. induction a as [|x a IH]; intros [|y b] H; auto. rewrite ldot_cons, (H x), IH by (simpl; auto; intros; apply H; simpl; auto). ring.
Qed.
Lemma ldot_self_nonneg a : 0 <= ldot a a.
Proof. induction a as [|x a IH]; [apply Rle_refl|]. rewrite ldot_cons. nra. Qed.
Lemma ldot_self_zero a : ldot a a = 0 -> forall x, In x a -> x = 0.
Proof.
  induction a as [|y a IH]; intros H x []; rewrite ldot_cons in H; pose proof (ldot_self_nonneg a).
  - subst. nra.
  - apply IH; auto. nra.
Qed.
Lemma zero_vec a : (forall x, In x a -> x = 0) -> a = repeat 0 (length a).
Proof. induction a as [|x a IH]; intros H; simpl; auto. rewrite (H x) by (simpl; auto). f_equal. apply IH. intros; apply H; simpl; auto. Qed.
Lemma ldot_repeat0 n b : ldot (repeat 0 n) b = 0.
Proof. apply ldot_zero_l. intros x H. now apply repeat_spec in H. Qed.

(** An m by n matrix. *)
Definition mat (m n : nat) (A : matrix) : Prop := length A = m /\ forall r, In r A -> length r = n.

Lemma mat_cons m n r A : mat (S m) n (r :: A) <-> length r = n /\ mat m n A.
Proof. unfold mat. simpl. split; [intros [H K]|intros (H & K & J)]; repeat split; try lia; auto. intros r' [<-|I]; auto. Qed.
Lemma matvec_length A x : length (matvec A x) = length A.
Proof. apply map_length. Qed.
Lemma matvec_add m n A x y : mat m n A -> length x = n -> length y = n -> matvec A (ladd x y) = ladd (matvec A x) (matvec A y).
Proof.
  intros [_ H] Hx Hy. clear m. induction A as [|r A IH]; auto.
  unfold matvec, ladd in *. cbn [map map2]. f_equal; [apply ldot_add_r; lia|]. apply IH. intros; apply H; simpl; auto.
Qed.
Lemma matvec_scale A c x : matvec A (lscale c x) = lscale c (matvec A x).
Proof. unfold matvec, lscale. rewrite map_map. apply map_ext. intros r. apply ldot_scale_r. Qed.
Lemma matvec_sub m n A x y : mat m n A -> length x = n -> length y = n -> matvec A (lsub x y) = lsub (matvec A x) (matvec A y).
Proof.
  intros H Hx Hy. rewrite !lsub_ladd, (matvec_add m n), matvec_scale by (rewrite ?matvec_length, ?lscale_length; auto; lia). reflexivity.
Qed.
Lemma matvec_zero A n : matvec A (repeat 0 n) = repeat 0 (length A).
Proof. unfold matvec. induction A; simpl; auto. rewrite ldot_comm, ldot_repeat0. f_equal. auto. Qed.

Lemma col_length A j : length (col A j) = length A.
Proof. apply map_length. Qed.
Lemma transpose_mat m n A : length A = m -> mat n m (transpose n A).
Proof.
  intros H. split; [unfold transpose; now rewrite map_length, seq_length|].
  intros r I. unfold transpose in I. apply in_map_iff in I as (j & <- & _). now rewrite col_length.
Qed.
Lemma map_nth_id (r : list R) : map (fun j => nth j r 0) (seq 0 (length r)) = r.
Proof. induction r; simpl; auto. f_equal. rewrite <- seq_shift, map_map. auto. Qed.
Lemma matvec_transpose_cons n r A b y : length r = n ->
  matvec (transpose n (r :: A)) (b :: y) = ladd (lscale b r) (matvec (transpose n A) y).
Proof.
  intros <-. replace (lscale b r) with (lscale b (map (fun j => nth j r 0) (seq 0 (length r)))) by now rewrite map_nth_id.
  unfold matvec, transpose, ladd, lscale. rewrite !map_map.
  generalize (seq 0 (length r)) as js. induction js as [|j js IH]; cbn [map map2]; auto. f_equal; [|exact IH].
  change (col (r :: A) j) with (nth j r 0 :: col A j). rewrite ldot_cons. ring.
Qed.
Lemma ldot_matvec m n A x y : mat m n A -> length x = n -> length y = m ->
  ldot (matvec A x) y = ldot x (matvec (transpose n A) y).
Proof.
  revert m y. induction A as [|r A IH]; intros m [|b y] H Hx Hy.
  - destruct H; simpl in *; subst. change (matvec [] x) with (@nil R). change (ldot [] []) with 0. symmetry. rewrite ldot_comm. apply ldot_zero_l. intros z I.
    unfold matvec in I. apply in_map_iff in I as (c & <- & I). apply ldot_nil_r.
  - destruct H as [H _]; simpl in *. lia.
  - destruct H as [H _]; simpl in *. lia.
  - destruct m; [destruct H; simpl in *; lia|]. apply mat_cons in H as [Hr HA]. simpl in Hy.
    rewrite (matvec_transpose_cons n) by auto. rewrite ldot_add_r.
    2: { rewrite lscale_length, matvec_length. destruct (transpose_mat m n A (proj1 HA)) as [E _]. lia. }
    change (matvec (r :: A) x) with (ldot r x :: matvec A x). rewrite ldot_cons, (IH m) by (auto; lia). rewrite ldot_scale_r, (ldot_comm x r). ring.
Qed.
Lemma transpose_row n B r : map (fun j => ldot r (col B j)) (seq 0 n) = matvec (transpose n B) r.
Proof. unfold matvec, transpose. rewrite map_map. apply map_ext. intros j. apply ldot_comm. Qed.
Lemma matmul_mat p n A B : length A = p -> mat p n (matmul n A B).
Proof.
  intros H. unfold matmul. split; [now rewrite map_length|]. intros r I. apply in_map_iff in I as (s & <- & _). now rewrite map_length, seq_length.
Qed.
Lemma matvec_matmul q n A B x : mat q n B -> (forall r, In r A -> length r = q) -> length x = n ->
  matvec (matmul n A B) x = matvec A (matvec B x).
Proof.
  intros HB HA Hx. unfold matmul. unfold matvec at 1 2. rewrite map_map. apply map_ext_in. intros r I.
  rewrite transpose_row. rewrite (ldot_comm r). rewrite (ldot_matvec q n B x r) by auto. apply ldot_comm.
Qed.
Lemma matadd_mat m n A B : mat m n A -> mat m n B -> mat m n (matadd A B).
Proof.
  revert m B. induction A as [|r A IH]; intros m [|s B] HA HB; try (destruct HA, HB; simpl in *; subst; discriminate).
  - exact HA.
  - destruct m; [destruct HA; simpl in *; lia|]. apply mat_cons in HA as [H1 H2]. apply mat_cons in HB as [H3 H4].
    cbn [matadd map2]. apply mat_cons. split; [rewrite map2_len; lia|apply IH; auto].
Qed.
Lemma matvec_matadd m n A B x : mat m n A -> mat m n B -> matvec (matadd A B) x = ladd (matvec A x) (matvec B x).
Proof.
  revert m B. induction A as [|r A IH]; intros m [|s B] HA HB; try (destruct HA, HB; simpl in *; subst; discriminate); auto.
  destruct m; [destruct HA; simpl in *; lia|]. apply mat_cons in HA as [H1 H2]. apply mat_cons in HB as [H3 H4].
  cbn [matadd map2 matvec map]. unfold ladd. cbn [map2]. f_equal; [|apply (IH m); auto].
  change (map2 Rplus r s) with (ladd r s). apply ldot_add_l. lia.
Qed.
Lemma matscale_mat m n c A : mat m n A -> mat m n (matscale c A).
Proof. intros [H K]. unfold matscale. split; [now rewrite map_length|]. intros r I. apply in_map_iff in I as (s & <- & I). rewrite map_length. auto. Qed.
Lemma matvec_matscale c A x : matvec (matscale c A) x = lscale c (matvec A x).
Proof. unfold matscale, matvec, lscale. rewrite !map_map. apply map_ext. intros r. apply (ldot_scale_l c r x). Qed.
Lemma ladd_0_r a n : length a = n -> ladd a (repeat 0 n) = a.
Proof. intros <-. unfold ladd. induction a; simpl; auto. f_equal; auto. ring. Qed.
Lemma ladd_0_l a n : length a = n -> ladd (repeat 0 n) a = a.
Proof. intros <-. unfold ladd. induction a; simpl; auto. f_equal; auto. ring. Qed.
Lemma vec_ext (a b : list R) n : length a = n -> length b = n -> (forall i, (i < n)%nat -> nth i a 0 = nth i b 0) -> a = b.
Proof. intros Ha Hb H. apply (nth_ext a b 0 0); [lia|]. intros i Hi. apply H. lia. Qed.

(** ** The l1 norm *)
Definition l1 (a : list R) : R := fold_right Rplus 0 (map Rabs a).
Lemma l1_nonneg a : 0 <= l1 a.
Proof. unfold l1. induction a; simpl; [lra|]. pose proof (Rabs_pos a). lra. Qed.
Lemma l1_scale c a : l1 (lscale c a) = Rabs c * l1 a.
Proof. unfold l1, lscale. induction a; simpl; [ring|]. rewrite Rabs_mult, IHa. ring. Qed.
Lemma l1_add a b : length a = length b -> l1 (ladd a b) <= l1 a + l1 b.
Proof.
  unfold l1, ladd. revert b. induction a as [|x a IH]; intros [|y b] H; try discriminate; simpl; [lra|].
  specialize (IH b ltac:(simpl in H; lia)). pose proof (Rabs_triang x y). lra.
Qed.
Lemma ldot_bound a b : Rabs (ldot a b) <= l1 a * l1 b.
Proof.
  revert b. induction a as [|x a IH]; intros [|y b]; try (rewrite ?ldot_nil_r, Rabs_R0; apply Rmult_le_pos; apply l1_nonneg); try (unfold ldot; simpl; rewrite Rabs_R0; apply Rmult_le_pos; apply l1_nonneg).
  rewrite ldot_cons. unfold l1 in *. simpl. pose proof (l1_nonneg a) as Pa. pose proof (l1_nonneg b) as Pb. unfold l1 in *.
  specialize (IH b). pose proof (Rabs_triang (x * y) (ldot a b)). rewrite Rabs_mult in H. pose proof (Rabs_pos x). pose proof (Rabs_pos y). nra.
Qed.
(** Sum of the absolute values of all entries. *)
Definition m1 (A : matrix) : R := fold_right Rplus 0 (map l1 A).
Lemma m1_nonneg A : 0 <= m1 A.
Proof. unfold m1. induction A; simpl; [lra|]. pose proof (l1_nonneg a). lra. Qed.
Lemma matvec_bound A x : l1 (matvec A x) <= m1 A * l1 x.
Proof.
  unfold m1, matvec. induction A as [|r A IH]; simpl; [unfold l1; simpl; lra|]. unfold l1 at 1. simpl. fold (l1 (map (fun row => ldot row x) A)).
  pose proof (ldot_bound r x). lra.
Qed.
Lemma l1_bound a b : (forall i, (i < length a)%nat -> Rabs (nth i a 0) <= b) -> l1 a <= INR (length a) * b.
Proof.
  induction a as [|x a IH]; intros H; [unfold l1; simpl; lra|]. unfold l1. cbn [length map fold_right]. rewrite S_INR. fold (l1 a).
  pose proof (H 0%nat ltac:(simpl; lia)). simpl in H0. assert (l1 a <= INR (length a) * b); [|lra]. apply IH. intros i Hi. apply (H (S i)). simpl. lia.
Qed.
