(** Lemmas about the array operations of ModelArray. *)
From Coq Require Import String List Bool Arith ZArith Reals Lra Lia.
From Verif Require Import Base ModelArray.
Import ListNotations.
Open Scope R_scope.

Lemma fold_mul_app s t : size (s ++ t) = (size s * size t)%nat.
Proof. induction s; simpl; [lia|]. unfold size in *. simpl. rewrite IHs. lia. Qed.

Lemma size_ones n : size (repeat 1%nat n) = 1%nat.
Proof. induction n; simpl; auto. unfold size in *. simpl. lia. Qed.

Lemma length_indices s : length (indices s) = size s.
Proof.
  induction s as [|n s IH]; simpl; auto.
  assert (H : forall l, length (flat_map (fun i => map (cons i) (indices s)) l)
                    = (length l * size s)%nat).
  { induction l; simpl; auto. rewrite app_length, map_length, IH, IHl. reflexivity. }
  rewrite H, seq_length. reflexivity.
Qed.

Lemma seq_blocks k n a : 
  flat_map (fun i => map (fun r => (i * k + r)%nat) (seq 0 k)) (seq a n) = seq (a * k) (n * k).
Proof.
  revert a. induction n; intros; simpl; auto.
  rewrite IHn.
  replace (k + n * k)%nat with (k + n * k)%nat by lia.
  rewrite seq_app. f_equal.
  - clear. 
    assert (G : forall m b c, map (fun r => (c + r)%nat) (seq b m) = seq (c + b) m).
    { induction m; intros; simpl; auto. f_equal. rewrite IHm. f_equal. lia. }
    rewrite G. f_equal. lia.
  - f_equal. lia.
Qed.

Lemma ravel_indices s : map (ravel_index s) (indices s) = seq 0 (size s).
Proof.
  induction s as [|n s IH]; simpl; auto.
  rewrite flat_map_concat_map, concat_map, map_map.
  transitivity (flat_map (fun i => map (fun r => (i * size s + r)%nat) (seq 0 (size s))) (seq 0 n)).
  - rewrite flat_map_concat_map. f_equal. apply map_ext. intros i.
    rewrite map_map. simpl. rewrite <- IH, map_map. reflexivity.
  - rewrite seq_blocks. reflexivity.
Qed.

Lemma in_indices s idx : In idx (indices s) -> Forall2 (fun i n => (i < n)%nat) idx s.
Proof.
  revert idx. induction s as [|n s IH]; simpl; intros idx H.
  - destruct H as [<-|[]]. constructor.
  - apply in_flat_map in H as [i [Hi H]]. apply in_map_iff in H as [x [<- Hx]].
    apply in_seq in Hi. constructor; [lia|auto].
Qed.

Lemma mask_id s idx : Forall2 (fun i n => (i < n)%nat) idx s ->
  map2 (fun n i => if Nat.eqb n 1 then 0%nat else i) s idx = idx.
Proof.
  induction 1 as [|i n idx s Hin H IH]; simpl; auto.
  rewrite IH. f_equal. destruct (Nat.eqb_spec n 1); auto. subst. lia.
Qed.

Lemma pad_same s : pad_shape (length s) s = s.
Proof. unfold pad_shape. rewrite Nat.sub_diag. reflexivity. Qed.

Lemma fits_refl s : fits s s = true.
Proof.
  unfold fits. rewrite Nat.eqb_refl. simpl.
  induction s; simpl; auto. rewrite Nat.eqb_refl. simpl. auto.
Qed.

Lemma map_nth_seq (l : list R) : map (fun i => nth i l 0) (seq 0 (length l)) = l.
Proof.
  induction l; simpl; auto. f_equal.
  rewrite <- seq_shift, map_map. exact IHl.
Qed.

Lemma broadcast_same a : wf a -> broadcast_to a (sh a) = Ok a.
Proof.
  intros W. unfold broadcast_to. rewrite pad_same, fits_refl. f_equal.
  destruct a as [s e]; simpl in *. f_equal.
  transitivity (map (fun i => nth i e 0) (map (ravel_index s) (indices s))).
  - rewrite map_map. apply map_ext_in. intros idx H.
    rewrite mask_id; auto. apply in_indices; auto.
  - rewrite ravel_indices. red in W. simpl in W. rewrite <- W. apply map_nth_seq.
Qed.

Lemma fits_ones n t : length t = n -> fits (repeat 1%nat n) t = true.
Proof.
  intros <-. unfold fits. rewrite repeat_length, Nat.eqb_refl. simpl.
  induction t; simpl; auto. rewrite orb_true_r. auto.
Qed.

Lemma ravel_ones n idx : 
  ravel_index (repeat 1%nat n) (map2 (fun n i => if Nat.eqb n 1 then 0%nat else i) (repeat 1%nat n) idx) = 0%nat.
Proof. revert idx. induction n; intros [|i idx]; simpl; auto. Qed.

Lemma map_const {A B} (f : A -> B) b l : (forall x, In x l -> f x = b) -> map f l = repeat b (length l).
Proof. induction l; simpl; intros H; auto. rewrite H by auto. f_equal; auto. Qed.

Lemma broadcast_scal x t : broadcast_to (scal x) t = Ok (Arr t (repeat x (size t))).
Proof.
  unfold broadcast_to, scal. simpl.
  assert (E : pad_shape (length t) [] = repeat 1%nat (length t)).
  { unfold pad_shape. simpl. rewrite Nat.sub_0_r, app_nil_r. reflexivity. }
  rewrite E, fits_ones by auto. do 2 f_equal.
  rewrite (map_const _ x).
  - rewrite length_indices. reflexivity.
  - intros idx _. rewrite ravel_ones. reflexivity.
Qed.

Lemma bshape_nil_r s : bshape_rev s [] = Some s.
Proof. destruct s; reflexivity. Qed.

Lemma bshape_same s : bshape_rev s s = Some s.
Proof. induction s; simpl; auto. rewrite IHs, Nat.eqb_refl. reflexivity. Qed.

Lemma map2_repeat_r {A B C} (f : A -> B -> C) l x n :
  length l = n -> map2 f l (repeat x n) = map (fun y => f y x) l.
Proof. revert n. induction l; intros [|n] H; simpl in *; try discriminate; auto. f_equal; auto. Qed.

Lemma map2_repeat_l {A B C} (f : A -> B -> C) l x n :
  length l = n -> map2 f (repeat x n) l = map (fun y => f x y) l.
Proof. revert n. induction l; intros [|n] H; simpl in *; try discriminate; auto. f_equal; auto. Qed.

Lemma op2_scal_r f a x : wf a -> op2 f a (scal x) = Ok (Arr (sh a) (map (fun y => f y x) (el a))).
Proof.
  intros W. unfold op2.
  assert (E : rev (sh (scal x)) = []) by reflexivity. rewrite E, bshape_nil_r.
  rewrite rev_involutive, broadcast_same by auto. cbn [bind].
  rewrite broadcast_scal. cbn [bind sh el]. do 2 f_equal. apply map2_repeat_r. exact W.
Qed.

Lemma op2_scal_l f a x : wf a -> op2 f (scal x) a = Ok (Arr (sh a) (map (fun y => f x y) (el a))).
Proof.
  intros W. unfold op2. simpl (rev (sh (scal x))). cbn [bshape_rev].
  rewrite rev_involutive, broadcast_scal. cbn [bind]. rewrite broadcast_same by auto.
  cbn [bind sh el]. do 2 f_equal. apply map2_repeat_l. exact W.
Qed.

Lemma op2_same f a b : wf a -> wf b -> sh a = sh b -> op2 f a b = Ok (Arr (sh a) (map2 f (el a) (el b))).
Proof.
  intros Wa Wb E. unfold op2. rewrite <- E, bshape_same, rev_involutive.
  rewrite broadcast_same by auto. rewrite E, broadcast_same by auto.
  reflexivity.
Qed.

Lemma op2_scal f x y : op2 f (scal x) (scal y) = Ok (scal (f x y)).
Proof. reflexivity. Qed.

Lemma wf_scal x : wf (scal x). Proof. reflexivity. Qed.
Lemma wf_amap f a : wf a -> wf (amap f a).
Proof. unfold wf, amap. simpl. rewrite map_length. auto. Qed.
Lemma wf_flatten a : wf (flatten a).
Proof. unfold wf, flatten, size. simpl. lia. Qed.

(** Maximum of a non-empty list. *)
Lemma lmax_ub x l y : In y (x :: l) -> y <= lmax x l.
Proof.
  revert x y. induction l as [|z l IH]; simpl; intros x y H.
  - destruct H as [->|[]]. lra.
  - destruct H as [->|H].
    + apply Rmax_l.
    + eapply Rle_trans; [apply (IH z y); exact H|apply Rmax_r].
Qed.

Lemma lmax_in x l : In (lmax x l) (x :: l).
Proof.
  revert x. induction l as [|z l IH]; intros x; simpl; auto.
  unfold Rmax. destruct (Rle_dec x (lmax z l)); auto.
  right. apply IH.
Qed.

Lemma lmax_le x l b : lmax x l <= b <-> (forall y, In y (x :: l) -> y <= b).
Proof.
  split; intros H.
  - intros y Hy. apply lmax_ub in Hy. lra.
  - apply H, lmax_in.
Qed.

Lemma lmax_map_mono (f : R -> R) x l :
  (forall a b, In a (x :: l) -> In b (x :: l) -> a <= b -> f a <= f b) ->
  lmax (f x) (map f l) = f (lmax x l).
Proof.
  intros H. apply Rle_antisym.
  - apply lmax_le. intros y Hy. change (In y (map f (x :: l))) in Hy.
    apply in_map_iff in Hy as [z [<- Hz]]. apply H; auto using lmax_in, lmax_ub.
  - apply lmax_ub. change (In (f (lmax x l)) (map f (x :: l))). apply in_map, lmax_in.
Qed.

(** dictionaries *)
Lemma lookup_union {A} k (d e : dict A) :
  lookup k (dict_union d e) = match lookup k e with Some v => Some v | None => lookup k d end.
Proof.
  unfold dict_union.
  assert (H : forall l, lookup k (map (fun kv => (fst kv, match lookup (fst kv) e with Some v => v | None => snd kv end)) d ++ l)
      = match lookup k d with Some v => Some (match lookup k e with Some w => w | None => v end) | None => lookup k l end).
  { clear. induction d as [|[k' v] d IH]; simpl; intros l; auto.
    destruct (String.eqb_spec k k'); auto. subst. reflexivity. }
  rewrite H. destruct (lookup k d) eqn:Ed.
  - destruct (lookup k e); reflexivity.
  - assert (G : forall e' : dict A, lookup k (filter (fun kv => match lookup (fst kv) d with Some _ => false | None => true end) e') = lookup k e').
    { induction e' as [|[k' v] e' IH]; simpl; auto.
      destruct (lookup k' d) eqn:E'; simpl.
      - destruct (String.eqb_spec k k'); auto. subst. congruence.
      - destruct (String.eqb_spec k k'); auto. }
    rewrite G. destruct (lookup k e); reflexivity.
Qed.
