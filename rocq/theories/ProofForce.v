(** The self-force as a pairwise sum. *)
From Coq Require Import String List Bool Arith ZArith Reals Lra Lia.
From Verif Require Import Base ModelArray ModelMath SpecMath ProofMath ModelSurface SpecSurface ProofSurface
  ProofLinear SpecWinding ProofWinding4 ModelParams ModelField ModelForce SpecForce.
Import ListNotations.
Open Scope R_scope.

(** ** Vector algebra *)
Lemma v3_eq a b c a' b' c' : a = a' -> b = b' -> c = c' -> V3 a b c = V3 a' b' c'.
Proof. congruence. Qed.
Ltac v3 := unfold contract, vecmat, madd3, msub3, mscale3, mzero3, outer3, add3, sub3, scale3, zero3; cbn [vx vy vz m_x m_y m_z]; apply v3_eq; ring.
Lemma vecmat_contract k T : vecmat k T = contract k T.
Proof. destruct k, T as [[] [] []]. v3. Qed.
Lemma contract_scale k c T : contract k (mscale3 c T) = scale3 c (contract k T).
Proof. destruct k, T as [[] [] []]. v3. Qed.
Lemma contract_add k A B : contract k (madd3 A B) = add3 (contract k A) (contract k B).
Proof. destruct k, A as [[] [] []], B as [[] [] []]. v3. Qed.
Lemma contract_zero k : contract k mzero3 = zero3.
Proof. destruct k. v3. Qed.
Lemma add3_0_l v : add3 zero3 v = v.
Proof. destruct v. v3. Qed.
Lemma add3_0_r v : add3 v zero3 = v.
Proof. destruct v. v3. Qed.
Lemma add3_assoc u v w : add3 (add3 u v) w = add3 u (add3 v w).
Proof. destruct u, v, w. v3. Qed.
Lemma add3_swap a b c d : add3 (add3 a b) (add3 c d) = add3 (add3 a c) (add3 b d).
Proof. destruct a, b, c, d. v3. Qed.
Lemma scale3_0 v : scale3 0 v = zero3.
Proof. destruct v. v3. Qed.
Lemma contract_sum k l : contract k (msum3 l) = sum3 (map (contract k) l).
Proof. induction l as [|T l IH]; cbn [msum3 sum3 fold_right map]; [apply contract_zero|].
  rewrite contract_add. fold (msum3 l) (sum3 (map (contract k) l)). now rewrite IH.
Qed.
Lemma sum3_app l l' : sum3 (l ++ l') = add3 (sum3 l) (sum3 l').
Proof. induction l as [|v l IH]; cbn; [now rewrite add3_0_l|]. fold (sum3 (l ++ l')) (sum3 l). rewrite IH. now rewrite add3_assoc. Qed.
Lemma sum3_plus {A} (f g : A -> vec3) l : sum3 (map (fun a => add3 (f a) (g a)) l) = add3 (sum3 (map f l)) (sum3 (map g l)).
Proof. induction l as [|a l IH]; cbn; [now rewrite add3_0_l|]. fold (sum3 (map (fun a => add3 (f a) (g a)) l)) (sum3 (map f l)) (sum3 (map g l)).
  rewrite IH. apply add3_swap. Qed.
Lemma vsum_upto_seq n f : vsum_upto n f = sum3 (map f (seq 0 n)).
Proof.
  induction n as [|n IH]; [reflexivity|]. cbn [vsum_upto]. rewrite seq_S, map_app, sum3_app, <- IH. cbn [map sum3 fold_right].
  rewrite Nat.add_0_l, add3_0_r. reflexivity.
Qed.
Lemma vsum_upto_ext n f g : (forall k, (k < n)%nat -> f k = g k) -> vsum_upto n f = vsum_upto n g.
Proof. induction n as [|n IH]; intros H; cbn; [reflexivity|]. rewrite IH, H; auto. Qed.

(** ** Index form of the arrays *)
Lemma enumerate_nth {A} (d : A) l : enumerate l = map (fun i => (i, nth i l d)) (seq 0 (length l)).
Proof.
  unfold enumerate. assert (G : forall k, combine (seq k (length l)) l = map (fun i => (i, nth (i - k) l d)) (seq k (length l))).
  { induction l as [|a l IH]; intros k; cbn [length seq combine map]; auto. rewrite Nat.sub_diag. cbn [nth]. f_equal.
    rewrite IH. apply map_ext_in. intros i Hi. apply in_seq in Hi. replace (i - k)%nat with (S (i - S k)) by lia. reflexivity. }
  rewrite G. apply map_ext. intros i. now rewrite Nat.sub_0_r.
Qed.
Lemma rect_row {A} n m (g : grid A) i : rect n m g -> (i < n)%nat -> length (nth i g []) = m.
Proof. intros [L H] Hi. rewrite List.Forall_forall in H. apply H, nth_In. lia. Qed.
Lemma genum_form {A} (d : A) n m g : rect n m g ->
  genum g = flat_map (fun i => map (fun j => (i, j, at2 d g i j)) (seq 0 m)) (seq 0 n).
Proof.
  intros Hg. unfold genum. rewrite (enumerate_nth []), map_map, <- flat_map_concat_map. destruct Hg as [L H]. rewrite L.
  rewrite !flat_map_concat_map. f_equal. apply map_ext_in. intros i Hi. apply in_seq in Hi. cbn [fst snd].
  rewrite (enumerate_nth d), map_map, (rect_row n m) by (try split; auto; lia). reflexivity.
Qed.
Lemma nth_map2' {A B C} (f : A -> B -> C) l l' i d d' e : (i < length l)%nat -> (i < length l')%nat ->
  nth i (map2 f l l') e = f (nth i l d) (nth i l' d').
Proof.
  revert l' i. induction l as [|a l IH]; intros [|b l'] [|i] H H'; cbn in *; try lia; auto. apply IH; lia.
Qed.
Lemma at2_gmap2 {A B C} (f : A -> B -> C) dA dB dC n m g h i j : rect n m g -> rect n m h -> (i < n)%nat -> (j < m)%nat ->
  at2 dC (gmap2 f g h) i j = f (at2 dA g i j) (at2 dB h i j).
Proof.
  intros Hg Hh Hi Hj. unfold at2, gmap2. destruct Hg as [L H] eqn:E, Hh as [L' H'] eqn:E'.
  rewrite (nth_map2' (map2 f) g h i [] []) by lia. apply nth_map2'; rewrite (rect_row n m); try split; auto.
Qed.
Lemma at2_gmap {A B} (f : A -> B) dA dB n m g i j : rect n m g -> (i < n)%nat -> (j < m)%nat ->
  at2 dB (gmap f g) i j = f (at2 dA g i j).
Proof.
  intros Hg Hi Hj. unfold at2, gmap. pose proof Hg as [L H].
  rewrite (nth_indep (map (map f) g) [] (map f [])) by (rewrite map_length; lia). rewrite map_nth.
  rewrite (nth_indep _ dB (f dA)) by (rewrite map_length, (rect_row n m); auto). apply map_nth.
Qed.
Lemma nth_firstn' {A} (l : list A) k i d : (i < k)%nat -> nth i (firstn k l) d = nth i l d.
Proof. revert k i. induction l as [|a l IH]; intros [|k] [|i] H; cbn; auto; try lia. apply IH. lia. Qed.
Lemma nth_skipn' {A} (l : list A) k i d : nth i (skipn k l) d = nth (k + i) l d.
Proof. revert k. induction l as [|a l IH]; intros [|k]; cbn; auto. now destruct i. Qed.
Lemma at2_period {A} (d : A) n fp g i j : (i < n)%nat -> at2 d (period n fp g) i j = at2 d g (fp * n + i) j.
Proof. intros Hi. unfold at2, period. now rewrite nth_firstn', nth_skipn' by auto. Qed.
Lemma rect_period {A} nfp n m fp (g : grid A) : rect (nfp * n) m g -> (fp < nfp)%nat -> rect n m (period n fp g).
Proof.
  intros [L H] Hf. unfold period. split.
  - rewrite firstn_length, skipn_length, L. nia.
  - rewrite List.Forall_forall in *. intros r Hr. apply H. rewrite <- (firstn_skipn (fp * n) g). apply in_or_app. right.
    rewrite <- (firstn_skipn n (skipn (fp * n) g)). apply in_or_app. now left.
Qed.

Section Arrays.
  Variables (nfp n m : nat) (gx nx : grid vec3) (a : grid R) (S D : grid mat3).
  Hypothesis Hx : rect (nfp * n) m gx.
  Hypothesis Hn : rect (nfp * n) m nx.
  Hypothesis Ha : rect n m a.
  Hypothesis HS : rect n m S.
  Hypothesis HD : rect n m D.

  Definition src (fp p t : nat) : source :=
    Source fp p t (at2 zero3 gx (fp * n + p) t) (at2 zero3 nx (fp * n + p) t) (at2 0 a p t) (at2 mzero3 S p t) (at2 mzero3 D p t).
  Lemma sources_form : sources gx nx a S D nfp =
    flat_map (fun fp => flat_map (fun p => map (fun t => src fp p t) (seq 0 m)) (seq 0 n)) (seq 0 nfp).
  Proof.
    unfold sources. rewrite <- flat_map_concat_map, !flat_map_concat_map. f_equal. apply map_ext_in. intros fp Hf.
    apply in_seq in Hf. replace (length S) with n by (symmetry; apply HS).
    pose proof (rect_period nfp n m fp gx Hx ltac:(lia)) as Px. pose proof (rect_period nfp n m fp nx Hn ltac:(lia)) as Pn.
    pose proof (rect_gmap2 pair n m _ _ Px Pn) as P1. pose proof (rect_gmap2 pair n m _ _ HS HD) as P2.
    pose proof (rect_gmap2 pair n m _ _ Ha P2) as P3. pose proof (rect_gmap2 pair n m _ _ P1 P3) as P4.
    rewrite (genum_form (zero3, zero3, (0, (mzero3, mzero3))) n m _ P4). rewrite !flat_map_concat_map, concat_map, !map_map. f_equal.
    apply map_ext_in. intros p Hp. apply in_seq in Hp. rewrite map_map. apply map_ext_in. intros t Ht. apply in_seq in Ht.
    rewrite (at2_gmap2 pair (zero3, zero3) (0, (mzero3, mzero3)) _ n m _ _ p t P1 P3) by lia.
    rewrite (at2_gmap2 pair zero3 zero3 _ n m _ _ p t Px Pn) by lia.
    rewrite (at2_gmap2 pair 0 (mzero3, mzero3) _ n m _ _ p t Ha P2) by lia.
    rewrite (at2_gmap2 pair mzero3 mzero3 _ n m _ _ p t HS HD) by lia.
    rewrite !at2_period by lia. reflexivity.
  Qed.
  Lemma sum_sources (f : source -> vec3) : sum3 (map f (sources gx nx a S D nfp)) =
    vsum_upto nfp (fun fp => vsum_upto n (fun p => vsum_upto m (fun t => f (src fp p t)))).
  Proof.
    rewrite sources_form. 
    assert (G : forall B (l : list nat) (h : nat -> list B) (f : B -> vec3), sum3 (map f (flat_map h l)) = sum3 (map (fun k => sum3 (map f (h k))) l)).
    { intros B l h f0. induction l as [|k l IH]; cbn [flat_map map]; [reflexivity|]. rewrite map_app, sum3_app, IH. reflexivity. }
    rewrite G, vsum_upto_seq. f_equal. apply map_ext. intros fp. rewrite G, vsum_upto_seq. f_equal. apply map_ext. intros p.
    rewrite map_map, vsum_upto_seq. reflexivity.
  Qed.

  (** ** The two versions of the integral *)
  Lemma norm3_0 v : norm3 v = 0 <-> v = zero3.
  Proof.
    split.
    - intros H. destruct v as [x y z]. unfold norm3 in H. cbn in H. apply sqrt_eq_0 in H; [|nra].
      assert (x = 0) by nra. assert (y = 0) by nra. assert (z = 0) by nra. subst. reflexivity.
    - intros ->. unfold norm3, zero3. cbn. replace (0 * 0 + 0 * 0 + 0 * 0) with 0 by ring. apply sqrt_0.
  Qed.
  Lemma sub3_0 u v : sub3 u v = zero3 <-> u = v.
  Proof.
    destruct u, v; unfold sub3, zero3; cbn; split; intros H; injection H; intros; [f_equal; lra|f_equal; lra].
  Qed.
  Lemma masked_plain y x : masked_dist false y x = norm3 (sub3 y x).
  Proof. unfold masked_dist, norm3, dot3. f_equal. ring. Qed.

  Definition force_at (y k : vec3) (mask : source -> bool) : vec3 :=
    add3 (contract k (msum3 (map (fun s => mscale3 (single_kernel (mask s) y s) (so_single s)) (sources gx nx a S D nfp))))
         (contract k (msum3 (map (fun s => mscale3 (double_kernel (mask s) y s) (so_double s)) (sources gx nx a S D nfp)))).
  Lemma force_at_direct y k mask :
    (forall fp p t, (fp < nfp)%nat -> (p < n)%nat -> (t < m)%nat ->
       mask (src fp p t) = true <-> at2 zero3 gx (fp * n + p) t = y) ->
    force_at y k mask = direct_force gx nx a S D nfp n m y k.
  Proof.
    intros Hm. unfold force_at. rewrite !contract_sum, !map_map, <- sum3_plus.
    rewrite (sum_sources (fun s => add3 (contract k (mscale3 (single_kernel (mask s) y s) (so_single s)))
      (contract k (mscale3 (double_kernel (mask s) y s) (so_double s))))).
    unfold direct_force. apply vsum_upto_ext. intros fp Hf. apply vsum_upto_ext. intros p Hp. apply vsum_upto_ext. intros t Ht.
    rewrite !contract_scale. unfold pair_force, single_kernel, double_kernel. specialize (Hm fp p t Hf Hp Ht).
    cbn [so_x so_n so_da so_single so_double src].
    destruct (same_point (at2 zero3 gx (fp * n + p) t) y) as [E|N].
    - rewrite (proj2 Hm E). rewrite !scale3_0. apply add3_0_l.
    - destruct (mask (src fp p t)) eqn:Em; [exfalso; apply N, Hm; reflexivity|]. rewrite masked_plain. reflexivity.
  Qed.
  Lemma legacy_direct y k :
    add3 (sum3 (map (fun s => vecmat k (mscale3 (legacy_single_kernel y s * so_da s) (so_single s))) (sources gx nx a S D nfp)))
         (sum3 (map (fun s => vecmat k (mscale3 (legacy_double_kernel y s * so_da s) (so_double s))) (sources gx nx a S D nfp)))
    = direct_force gx nx a S D nfp n m y k.
  Proof.
    rewrite <- sum3_plus.
    rewrite (sum_sources (fun s => add3 (vecmat k (mscale3 (legacy_single_kernel y s * so_da s) (so_single s)))
      (vecmat k (mscale3 (legacy_double_kernel y s * so_da s) (so_double s))))).
    unfold direct_force. apply vsum_upto_ext. intros fp Hf. apply vsum_upto_ext. intros p Hp. apply vsum_upto_ext. intros t Ht.
    rewrite !vecmat_contract, !contract_scale. unfold pair_force, legacy_single_kernel, legacy_double_kernel.
    cbn [so_x so_n so_da so_single so_double src]. set (x := at2 zero3 gx (fp * n + p) t).
    destruct (same_point x y) as [E|N].
    - destruct (Req_EM_T (norm3 (sub3 y x)) 0) as [Z|Z].
      + rewrite !Rmult_0_l, !scale3_0. apply add3_0_l.
      + exfalso. apply Z. apply (proj2 (norm3_0 _)), (proj2 (sub3_0 _ _)). congruence.
    - destruct (Req_EM_T (norm3 (sub3 y x)) 0) as [Z|Z].
      + exfalso. apply N. apply (proj1 (norm3_0 _)), (proj1 (sub3_0 _ _)) in Z. congruence.
      + f_equal; f_equal; field; auto.
  Qed.
End Arrays.

Lemma enumerate_grid {A B} (f : nat -> nat -> A -> B) dA dB n m (g : grid A) i j : rect n m g -> (i < n)%nat -> (j < m)%nat ->
  at2 dB (gmapi f g) i j
  = f i j (at2 dA g i j).
Proof.
  intros Hg Hi Hj. pose proof Hg as [L H]. unfold at2, gmapi. rewrite (enumerate_nth []), map_map, L. cbn [fst snd].
  match goal with |- nth j (nth i (map ?F _) _) _ = _ =>
    rewrite (nth_indep _ [] (F 0%nat)) by (rewrite map_length, seq_length; lia); rewrite (map_nth F) end.
  rewrite seq_nth by lia. cbn [plus]. rewrite (enumerate_nth dA), map_map, (rect_row n m) by auto. cbn [fst snd].
  match goal with |- nth j (map ?F _) _ = _ =>
    rewrite (nth_indep _ dB (F 0%nat)) by (rewrite map_length, seq_length; lia); rewrite (map_nth F) end.
  rewrite seq_nth by lia. reflexivity.
Qed.

Lemma rect_enumerate {A B} (f : nat -> nat -> A -> B) n m (g : grid A) : rect n m g ->
  rect n m (gmapi f g).
Proof.
  intros [L H]. unfold gmapi. split.
  - rewrite map_length. unfold enumerate. rewrite combine_length, seq_length. lia.
  - rewrite List.Forall_forall in *. intros r Hr. apply in_map_iff in Hr as ((i & row) & <- & Hr). rewrite map_length.
    unfold enumerate in *. apply in_combine_r in Hr. cbn [snd]. rewrite combine_length, seq_length, (H _ Hr). lia.
Qed.

(** The masked integral is the direct sum when the mask marks the coinciding
    pairs. *)
Theorem masked_integral nfp n m ny my gy gx nx k a S D : 
  rect (nfp * n) m gx -> rect (nfp * n) m nx -> rect n m a -> rect n m S -> rect n m D ->
  rect ny my gy -> rect ny my k ->
  (forall i j fp p t, (i < ny)%nat -> (j < my)%nat -> (fp < nfp)%nat -> (p < n)%nat -> (t < m)%nat ->
     at2 zero3 gx (fp * n + p) t = at2 zero3 gy i j <-> fp = 0%nat /\ p = i /\ t = j) ->
  exists s d, integrate_force gy gx nx k a S D nfp = Ok (s, d) /\ rect ny my s /\ rect ny my d /\
    forall i j, (i < ny)%nat -> (j < my)%nat ->
      add3 (at2 zero3 s i j) (at2 zero3 d i j) = direct_force gx nx a S D nfp n m (at2 zero3 gy i j) (at2 zero3 k i j).
Proof.
  intros Hx Hn Ha HS HD Hy Hk Hm. unfold integrate_force, reshape_ok. 
  replace (length S) with n by (symmetry; apply HS). replace (length gx) with (nfp * n)%nat by (symmetry; apply Hx).
  rewrite Nat.eqb_refl. pose proof (rect_gmap2 pair ny my _ _ Hy Hk) as Hp.
  eexists _, _. split; [reflexivity|]. split; [|split].
  - apply (rect_enumerate _ ny my _ Hp).
  - apply (rect_enumerate _ ny my _ Hp).
  - intros i j Hi Hj. rewrite !(enumerate_grid _ (zero3, zero3) zero3 ny my _ i j Hp Hi Hj).
    rewrite (at2_gmap2 pair zero3 zero3 _ ny my) by auto. unfold contracted. cbn [fst snd]. rewrite !vecmat_contract.
    apply (force_at_direct nfp n m gx nx a S D Hx Hn Ha HS HD _ _ (self_mask i j)).
    intros fp p t Hf Hpp Ht. rewrite (Hm i j fp p t) by auto. unfold self_mask, src. cbn.
    rewrite !andb_true_iff, !Nat.eqb_eq. tauto.
Qed.
(** The legacy integral is the direct sum for every grid. *)
Theorem legacy_integral nfp n m ny my gy gx nx k a S D : 
  rect (nfp * n) m gx -> rect (nfp * n) m nx -> rect n m a -> rect n m S -> rect n m D ->
  rect ny my gy -> rect ny my k ->
  exists s d, integrate_force_legacy gy gx nx k a S D nfp = Ok (s, d) /\ rect ny my s /\ rect ny my d /\
    forall i j, (i < ny)%nat -> (j < my)%nat ->
      add3 (at2 zero3 s i j) (at2 zero3 d i j) = direct_force gx nx a S D nfp n m (at2 zero3 gy i j) (at2 zero3 k i j).
Proof.
  intros Hx Hn Ha HS HD Hy Hk. unfold integrate_force_legacy, reshape_ok. 
  replace (length S) with n by (symmetry; apply HS). replace (length gx) with (nfp * n)%nat by (symmetry; apply Hx).
  rewrite Nat.eqb_refl. pose proof (rect_gmap2 pair ny my _ _ Hy Hk) as Hp.
  eexists _, _. split; [reflexivity|]. split; [|split]; try (apply rect_gmap; exact Hp).
  intros i j Hi Hj. rewrite !(at2_gmap _ (zero3, zero3) zero3 ny my) by auto.
  rewrite (at2_gmap2 pair zero3 zero3 _ ny my) by auto. cbn [fst snd].
  apply (legacy_direct nfp n m gx nx a S D Hx Hn Ha HS HD).
Qed.
Lemma rect_ext {A} (d : A) n m g h : rect n m g -> rect n m h ->
  (forall i j, (i < n)%nat -> (j < m)%nat -> at2 d g i j = at2 d h i j) -> g = h.
Proof.
  intros Hg Hh H. apply (nth_ext _ _ [] []); [destruct Hg, Hh; congruence|]. intros i Hi.
  assert (Hi' : (i < n)%nat) by (destruct Hg; lia).
  apply (nth_ext _ _ d d); [rewrite !(rect_row n m); auto|]. intros j Hj. rewrite (rect_row n m) in Hj by auto. now apply H.
Qed.
