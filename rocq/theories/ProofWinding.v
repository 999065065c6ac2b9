(** Least-squares fitting of surfaces. *)
From Coq Require Import String List Bool Arith ZArith Reals Lra Lia.
From Verif Require Import Base ModelArray ModelMath SpecMath ProofMath ModelSurface SpecSurface ProofSurface ProofSurface2
  ModelQuadcoil ProofLinear ModelWinding SpecWinding.
Import ListNotations.
Open Scope R_scope.

(** ** Orthogonal projection *)
Fixpoint lincomb (m : nat) (x : list R) (cs : list (list R)) : list R :=
  match x, cs with
  | a :: x', c :: cs' => ladd (lscale a c) (lincomb m x' cs')
  | _, _ => repeat 0 m
  end.
Lemma lincomb_length m x cs : (forall c, In c cs -> length c = m) -> length (lincomb m x cs) = m.
Proof.
  revert x; induction cs as [|c cs IH]; intros [|a x] H; cbn [lincomb]; try apply repeat_length.
  rewrite ladd_length; rewrite lscale_length; [apply H; now left|]. rewrite IH; [apply H; now left|]. intros; apply H; now right.
Qed.
Lemma ldot_lincomb m x cs v : (forall c, In c cs -> length c = m) -> (forall c, In c cs -> ldot c v = 0) -> ldot (lincomb m x cs) v = 0.
Proof.
  revert x; induction cs as [|c cs IH]; intros [|a x] H H'; cbn [lincomb]; try apply ldot_repeat0.
  rewrite ldot_add_l. 2:{ rewrite lscale_length, lincomb_length; [apply H; now left|]. intros; apply H; now right. }
  rewrite ldot_scale_l, H' by (now left). rewrite IH; [ring| |]; intros; [apply H|apply H']; now right.
Qed.
Lemma lincomb_lin m cs : (forall c, In c cs -> length c = m) -> forall z y t, length z = length cs -> length y = length cs ->
  lincomb m (ladd z (lscale t y)) cs = ladd (lincomb m z cs) (lscale t (lincomb m y cs)).
Proof.
  induction cs as [|c cs IH]; intros H z y t Lz Ly; destruct z as [|z0 z], y as [|y0 y]; try discriminate; cbn [lincomb].
  - cbn. apply (vec_ext _ _ m); rewrite ?ladd_length, ?lscale_length, ?repeat_length; auto.
    + unfold lscale. rewrite map_length, repeat_length; auto.
    + intros i Hi. rewrite nth_ladd, nth_lscale by (rewrite lscale_length; auto). rewrite !nth_repeat. ring.
  - change (ladd (z0 :: z) (lscale t (y0 :: y))) with ((z0 + t * y0) :: ladd z (lscale t y)). cbn [lincomb]. cbn in Lz, Ly.
    assert (H' : forall c, In c cs -> length c = m) by (intros; apply H; now right). assert (Lc : length c = m) by (apply H; now left).
    rewrite IH by (auto; lia).
    apply (vec_ext _ _ m).
    + rewrite !ladd_length; rewrite ?lscale_length, ?ladd_length, ?lscale_length, ?lincomb_length; auto; rewrite ?lscale_length, ?lincomb_length; auto.
    + rewrite !ladd_length; rewrite ?lscale_length, ?ladd_length, ?lscale_length, ?lincomb_length; auto; rewrite ?lscale_length, ?lincomb_length; auto.
    + intros i Hi.
      repeat (rewrite nth_ladd by (rewrite ?ladd_length, ?lscale_length, ?ladd_length, ?lscale_length, ?lincomb_length; auto; rewrite ?lscale_length, ?lincomb_length; auto)).
      rewrite !nth_lscale.
      repeat (rewrite nth_ladd by (rewrite ?ladd_length, ?lscale_length, ?ladd_length, ?lscale_length, ?lincomb_length; auto; rewrite ?lscale_length, ?lincomb_length; auto)).
      rewrite !nth_lscale. ring.
Qed.
Lemma lincomb_zero m x cs : length x = length cs -> (forall c, In c cs -> length c = m) -> (forall a, In a x -> a = 0) -> lincomb m x cs = repeat 0 m.
Proof.
  revert x; induction cs as [|c cs IH]; intros [|a x] L H H'; try discriminate; cbn [lincomb]; auto.
  rewrite IH; [| |intros; apply H; now right|intros; apply H'; now right]; [|cbn in L; lia].
  rewrite (H' a) by now left. apply (vec_ext _ _ m).
  - rewrite ladd_length; rewrite lscale_length; [apply H; now left|]. rewrite repeat_length. apply H; now left.
  - apply repeat_length.
  - intros i Hi. rewrite nth_ladd, nth_lscale, nth_repeat; [ring|]. rewrite lscale_length, repeat_length. apply H. now left.
Qed.
Lemma ldot_self_pos a : ldot a a = 0 -> a = repeat 0 (length a).
Proof. intros H. apply zero_vec. intros x Hx. exact (ldot_self_zero a H x Hx). Qed.

Lemma projection m cs : (forall c, In c cs -> length c = m) -> forall b, length b = m ->
  exists x, length x = length cs /\ forall c, In c cs -> ldot c (lsub b (lincomb m x cs)) = 0.
Proof.
  induction cs as [|c cs IH]; intros H b Lb; [exists []; split; [reflexivity|intros ? []]|].
  assert (H' : forall c, In c cs -> length c = m) by (intros; apply H; now right). assert (Lc : length c = m) by (apply H; now left).
  destruct (IH H' c Lc) as (y & Ly & Hy). destruct (IH H' b Lb) as (z & Lz & Hz).
  set (e := lsub c (lincomb m y cs)) in *. set (f := lsub b (lincomb m z cs)) in *.
  assert (Le : length e = m) by (unfold e; rewrite lsub_length; rewrite ?lincomb_length; auto).
  assert (Lf : length f = m) by (unfold f; rewrite lsub_length; rewrite ?lincomb_length; auto).
  assert (Ec : c = ladd e (lincomb m y cs)).
  { apply (vec_ext _ _ m); auto; [rewrite ladd_length; rewrite ?lincomb_length; auto|]. intros i Hi.
    rewrite nth_ladd by (rewrite lincomb_length; auto). unfold e. rewrite nth_lsub by (rewrite lincomb_length; auto). ring. }
  destruct (Req_EM_T (ldot e e) 0) as [Z|Z].
  - exists (0 :: z). split; [cbn; lia|]. cbn [lincomb].
    assert (E0 : lsub b (ladd (lscale 0 c) (lincomb m z cs)) = f).
    { apply (vec_ext _ _ m).
      - rewrite lsub_length; auto. rewrite ladd_length; rewrite ?lscale_length, ?lincomb_length; auto; congruence.
      - auto.
      - intros i Hi. rewrite nth_lsub by (rewrite ladd_length; rewrite ?lscale_length, ?lincomb_length; auto; congruence).
        rewrite nth_ladd, nth_lscale by (rewrite lscale_length, lincomb_length; auto). unfold f. rewrite nth_lsub by (rewrite lincomb_length; auto). ring. }
    rewrite E0. intros c' [<-|I]; [|apply Hz; auto].
    rewrite Ec, ldot_add_l by (rewrite lincomb_length; auto). rewrite (ldot_lincomb m y cs f H' Hz).
    rewrite (ldot_self_pos e Z), ldot_repeat0. ring.
  - set (t := ldot e f / ldot e e). exists (t :: ladd z (lscale (- t) y)).
    split; [cbn; rewrite ladd_length; rewrite ?lscale_length; lia|]. cbn [lincomb].
    rewrite lincomb_lin by auto.
    assert (E0 : lsub b (ladd (lscale t c) (ladd (lincomb m z cs) (lscale (- t) (lincomb m y cs)))) = lsub f (lscale t e)).
    { assert (L1 : length (ladd (lincomb m z cs) (lscale (- t) (lincomb m y cs))) = m) by (rewrite ladd_length; rewrite ?lscale_length, ?lincomb_length; auto).
      assert (L2 : length (ladd (lscale t c) (ladd (lincomb m z cs) (lscale (- t) (lincomb m y cs)))) = m) by (rewrite ladd_length; rewrite ?lscale_length; auto; congruence).
      apply (vec_ext _ _ m).
      - rewrite lsub_length; congruence.
      - rewrite lsub_length; rewrite ?lscale_length; congruence.
      - intros i Hi. rewrite nth_lsub, nth_ladd, nth_lscale, nth_ladd, nth_lscale by (rewrite ?lscale_length, ?lincomb_length; auto; congruence).
        rewrite nth_lsub, nth_lscale by (rewrite ?lscale_length; congruence). unfold e, f.
        rewrite !nth_lsub by (rewrite lincomb_length; auto). ring. }
    rewrite E0.
    assert (Q : forall c', In c' cs -> ldot c' (lsub f (lscale t e)) = 0).
    { intros c' I. rewrite ldot_sub_r, ldot_scale_r, (Hz c' I), (Hy c' I) by (rewrite lscale_length; congruence). ring. }
    intros c' [<-|I]; auto. rewrite Ec, ldot_add_l by (rewrite lincomb_length; auto). rewrite (ldot_lincomb m y cs _ H' Q).
    rewrite ldot_sub_r, ldot_scale_r by (rewrite lscale_length; congruence). unfold t. field. auto.
Qed.

(** ** The normal equations *)
Lemma nth_lincomb m k cs : (forall c, In c cs -> length c = m) -> forall x, length x = length cs ->
  nth k (lincomb m x cs) 0 = ldot (map (fun c => nth k c 0) cs) x.
Proof.
  induction cs as [|c cs IH]; intros H [|a x] L; try discriminate; cbn [lincomb map].
  - rewrite nth_repeat. reflexivity.
  - assert (H' : forall c, In c cs -> length c = m) by (intros; apply H; now right).
    rewrite nth_ladd by (rewrite lscale_length, lincomb_length; auto; apply H; now left).
    rewrite nth_lscale, IH by (auto; cbn in L; lia). rewrite ProofLinear.ldot_cons. ring.
Qed.
Lemma nth_col A i k : nth k (col A i) 0 = nth i (nth k A []) 0.
Proof.
  unfold col. destruct (Nat.lt_ge_cases k (length A)) as [h|h].
  - rewrite (nth_indep _ 0 (nth i [] 0)) by now rewrite map_length. now rewrite (map_nth (fun row => nth i row 0)).
  - rewrite !nth_overflow with (n := k); rewrite ?map_length; auto. now destruct i.
Qed.
Lemma lincomb_matvec m n A x : mat m n A -> length x = n -> lincomb m x (transpose n A) = matvec A x.
Proof.
  intros [HA1 HA2] Lx. assert (HC : forall c, In c (transpose n A) -> length c = m).
  { intros c Hc. unfold transpose in Hc. apply in_map_iff in Hc as (i & <- & _). rewrite col_length. auto. }
  assert (LT : length (transpose n A) = n) by (unfold transpose; now rewrite map_length, seq_length).
  apply (vec_ext _ _ m); [now apply lincomb_length|now rewrite matvec_length|].
  intros k Hk. rewrite nth_lincomb by (auto; congruence). unfold transpose. rewrite map_map.
  rewrite (map_ext (fun i => nth k (col A i) 0) (fun i => nth i (nth k A []) 0)) by (intros; apply nth_col).
  assert (L : length (nth k A []) = n) by (apply HA2, nth_In; lia).
  rewrite <- L, map_nth_id. unfold matvec.
  rewrite (nth_indep _ 0 (ldot [] x)) by (rewrite map_length; lia). rewrite (map_nth (fun row => ldot row x)). reflexivity.
Qed.
Lemma tdotv_eq n A b : tdotv n A b = matvec (transpose n A) b.
Proof. unfold tdotv, transpose, matvec. now rewrite map_map. Qed.
Lemma tdot_eq n A B : tdot n n A B = matmul n (transpose n A) B.
Proof. unfold tdot, matmul, transpose. now rewrite map_map. Qed.
Lemma ldot_unit n a i v : (i < n)%nat -> length v = n -> ldot (map (fun j => if Nat.eqb i j then a else 0) (seq 0 n)) v = a * nth i v 0.
Proof.
  intros Hi Lv. subst n. assert (G : forall k, (k <= i)%nat ->
    ldot (map (fun j => if Nat.eqb i j then a else 0) (seq k (length v))) v = if Nat.ltb i (k + length v) then a * nth (i - k) v 0 else 0).
  { clear Hi. induction v as [|x v IH]; intros k Hk.
    - cbn [length seq map]. destruct (Nat.ltb_spec i (k + 0)); [lia|reflexivity].
    - cbn [length seq map]. rewrite ProofLinear.ldot_cons.
      destruct (Nat.eqb_spec i k) as [->|Ne].
      + replace (k - k)%nat with 0%nat by lia. cbn [nth]. destruct (Nat.ltb_spec k (k + S (length v))); [|lia].
        rewrite ldot_zero_l; [ring|]. intros y Hy. apply in_map_iff in Hy as (j & <- & Hj). apply in_seq in Hj.
        destruct (Nat.eqb_spec k j); [lia|reflexivity].
      + rewrite IH by lia. replace (i - k)%nat with (S (i - S k)) by lia. cbn [nth].
        replace (S k + length v)%nat with (k + S (length v))%nat by lia. destruct (Nat.ltb _ _); ring. }
  rewrite (G 0%nat) by lia. cbn [Nat.add]. destruct (Nat.ltb_spec i (length v)); [|lia]. now rewrite Nat.sub_0_r.
Qed.
Lemma diag_mat lam d : mat (length d) (length d) (scaled_diag lam d).
Proof.
  unfold scaled_diag. split; [now rewrite map_length, seq_length|]. intros r Hr. apply in_map_iff in Hr as (i & <- & _).
  now rewrite map_length, seq_length.
Qed.
Lemma diag_matvec lam d v : length v = length d -> matvec (scaled_diag lam d) v = map2 (fun a b => lam * a * b) d v.
Proof.
  intros L. apply (vec_ext _ _ (length d)).
  - rewrite matvec_length. apply diag_mat.
  - rewrite map2_len. lia.
  - intros i Hi. unfold matvec, scaled_diag. rewrite map_map.
    match goal with |- nth _ (map ?F _) _ = _ => rewrite (nth_indep _ 0 (F 0%nat)) by (rewrite map_length, seq_length; lia); rewrite (map_nth F) end.
    rewrite seq_nth by lia. cbn [Nat.add]. rewrite ldot_unit by auto.
    clear -Hi L. revert v i L Hi. induction d as [|a d IH]; intros [|b v] i L Hi; try discriminate; cbn in Hi; [lia|].
    destruct i as [|i]; cbn [nth map2]; [reflexivity|]. apply IH; cbn in L; lia.
Qed.
Lemma diag_sym lam d x y : length x = length d -> length y = length d ->
  ldot x (matvec (scaled_diag lam d) y) = ldot y (matvec (scaled_diag lam d) x).
Proof.
  intros Lx Ly. rewrite !diag_matvec by auto. revert x y Lx Ly. induction d as [|a d IH]; intros [|b x] [|c y] Lx Ly; try discriminate; [reflexivity|].
  cbn [map2]. rewrite !ProofLinear.ldot_cons, IH by (cbn in *; lia). ring.
Qed.
Lemma diag_pos lam d x : 0 <= lam -> (forall v, In v d -> 0 <= v) -> length x = length d -> 0 <= ldot x (matvec (scaled_diag lam d) x).
Proof.
  intros Hl Hd Lx. rewrite diag_matvec by auto. revert x Lx. induction d as [|a d IH]; intros [|b x] Lx; try discriminate; [cbn; lra|].
  cbn [map2]. rewrite ProofLinear.ldot_cons. assert (0 <= ldot x (map2 (fun a b => lam * a * b) d x)) by (apply IH; [intros; apply Hd; now right|cbn in Lx; lia]).
  assert (0 <= a) by (apply Hd; now left). assert (0 <= lam * a) by (apply Rmult_le_pos; auto).
  replace (b * (lam * a * b)) with (lam * a * (b * b)) by ring.
  assert (0 <= b * b) by apply Rle_0_sqr. assert (0 <= lam * a * (b * b)) by (apply Rmult_le_pos; auto). lra.
Qed.
Lemma ldot_app2 a b c d : length a = length c -> ldot (a ++ b) (c ++ d) = ldot a c + ldot b d.
Proof.
  revert c; induction a as [|x a IH]; intros [|y c] L; try discriminate; cbn [app]; [unfold ldot at 2; cbn; ring|].
  rewrite !ProofLinear.ldot_cons, IH by (cbn in L; lia). ring.
Qed.
Lemma lsub_app a b c d : length a = length c -> lsub (a ++ b) (c ++ d) = lsub a c ++ lsub b d.
Proof. revert c; induction a as [|x a IH]; intros [|y c] L; try discriminate; cbn; auto. f_equal. apply IH. cbn in L; lia. Qed.
Lemma matvec_app A B x : matvec (A ++ B) x = matvec A x ++ matvec B x.
Proof. apply map_app. Qed.
Lemma col_app A B i : col (A ++ B) i = col A i ++ col B i.
Proof. apply map_app. Qed.
Lemma diag_col lam d i : (i < length d)%nat -> col (scaled_diag lam d) i = map (fun j => if Nat.eqb i j then lam * nth i d 0 else 0) (seq 0 (length d)).
Proof.
  intros Hi. unfold col, scaled_diag. rewrite map_map. apply map_ext_in. intros j Hj. apply in_seq in Hj.
  rewrite (nth_indep _ 0 ((fun k => if Nat.eqb j k then lam * nth j d 0 else 0) 0%nat)) by (rewrite map_length, seq_length; lia).
  rewrite (map_nth (fun k => if Nat.eqb j k then lam * nth j d 0 else 0)), seq_nth by lia. cbn [Nat.add].
  destruct (Nat.eqb_spec j i), (Nat.eqb_spec i j); try congruence.
Qed.
Definition normal_mat n A lam d := add_mat (tdot n n A A) (scaled_diag lam d).
Lemma normal_matvec m n A lam d x : mat m n A -> length d = n -> length x = n ->
  matvec (normal_mat n A lam d) x = ladd (tdotv n A (matvec A x)) (matvec (scaled_diag lam d) x).
Proof.
  intros HA Ld Lx. unfold normal_mat. change (add_mat (tdot n n A A) (scaled_diag lam d)) with (matadd (tdot n n A A) (scaled_diag lam d)).
  assert (HT : mat n m (transpose n A)) by (apply transpose_mat, HA).
  rewrite (matvec_matadd n n); [|rewrite tdot_eq; apply matmul_mat; apply HT|rewrite <- Ld; apply diag_mat].
  f_equal. rewrite tdot_eq, tdotv_eq. apply (matvec_matmul m n); auto. apply HT.
Qed.
Lemma normal_solvable m n A b lam d : mat m n A -> length b = m -> length d = n -> 0 <= lam -> (forall v, In v d -> 0 <= v) ->
  exists x, length x = n /\ matvec (normal_mat n A lam d) x = tdotv n A b.
Proof.
  intros HA Lb Ld Hl Hd. set (e := map (fun v => sqrt (lam * v)) d). assert (Le : length e = n) by (unfold e; now rewrite map_length).
  set (A' := A ++ scaled_diag 1 e). set (b' := b ++ repeat 0 n).
  assert (HE : mat n n (scaled_diag 1 e)) by (rewrite <- Le; apply diag_mat).
  assert (HA' : mat (m + n) n A').
  { split; [unfold A'; rewrite app_length; now rewrite (proj1 HA), (proj1 HE)|].
    intros r Hr. apply in_app_or in Hr as [Hr|Hr]; [now apply HA|now apply HE]. }
  destruct (projection (m + n) (transpose n A')) with (b := b') as (x & Lx & Hx).
  - apply transpose_mat, HA'.
  - unfold b'. rewrite app_length, repeat_length. congruence.
  - assert (Lx' : length x = n) by (rewrite Lx; unfold transpose; now rewrite map_length, seq_length).
    exists x. split; auto. rewrite (normal_matvec m) by auto.
    rewrite (lincomb_matvec (m + n) n A' x HA' Lx') in Hx.
    apply (vec_ext _ _ n).
    + rewrite ladd_length; unfold tdotv; rewrite ?map_length, ?seq_length; auto. rewrite matvec_length, (proj1 (diag_mat lam d)). auto.
    + unfold tdotv; now rewrite map_length, seq_length.
    + intros i Hi. rewrite nth_ladd by (unfold tdotv; rewrite map_length, seq_length, matvec_length, (proj1 (diag_mat lam d)); auto).
      assert (NT : forall v, nth i (tdotv n A v) 0 = ldot (col A i) v).
      { intros v. unfold tdotv. rewrite (nth_indep _ 0 (ldot (col A 0) v)) by (now rewrite map_length, seq_length).
        rewrite (map_nth (fun j => ldot (col A j) v)), seq_nth by auto. reflexivity. }
      rewrite !NT.
      assert (HI : In (col A' i) (transpose n A')) by (unfold transpose; apply in_map, in_seq; lia).
      specialize (Hx _ HI). unfold A', b' in Hx. rewrite col_app, matvec_app in Hx.
      rewrite lsub_app in Hx by (rewrite matvec_length, (proj1 HA); auto).
      rewrite ldot_app2 in Hx by (rewrite col_length, lsub_length; rewrite ?matvec_length, ?(proj1 HA); auto).
      rewrite ldot_sub_r in Hx by (rewrite matvec_length, (proj1 HA); auto).
      rewrite diag_col in Hx by lia. rewrite ldot_unit in Hx.
      2: lia. 2:{ rewrite lsub_length; rewrite repeat_length, ?matvec_length, ?(proj1 HE); congruence. }
      rewrite nth_lsub in Hx by (rewrite repeat_length, matvec_length; symmetry; apply HE).
      rewrite nth_repeat, diag_matvec in Hx by congruence. rewrite diag_matvec by congruence.
      assert (N2 : forall (c : R) u, length u = n -> nth i (map2 (fun a b => c * a * b) u x) 0 = c * nth i u 0 * nth i x 0).
      { intros c u Lu. clear -Lu Lx' Hi. rewrite <- Lu in Lx', Hi. clear Lu. revert x i Lx' Hi. induction u as [|a u IH]; intros [|y x] i L Hi; try discriminate; cbn in Hi; [lia|].
        destruct i; cbn [nth map2]; auto. apply IH; cbn in L; lia. }
      rewrite N2 in Hx by auto. rewrite N2 by auto.
      assert (Ee : nth i e 0 = sqrt (lam * nth i d 0)).
      { unfold e. rewrite (nth_indep _ 0 (sqrt (lam * 0))) by (rewrite map_length; lia). now rewrite (map_nth (fun v => sqrt (lam * v))). }
      rewrite Ee in Hx. assert (S2 : sqrt (lam * nth i d 0) * sqrt (lam * nth i d 0) = lam * nth i d 0).
      { apply sqrt_sqrt. apply Rmult_le_pos; auto. apply Hd, nth_In. lia. }
      set (q := sqrt (lam * nth i d 0)) in *.
      assert (K : 1 * q * (0 - 1 * q * nth i x 0) = - (lam * nth i d 0 * nth i x 0)) by (rewrite <- S2; ring).
      rewrite K in Hx. lra.
Qed.
Definition quad_cost A b lam d x := ldot (lsub (matvec A x) b) (lsub (matvec A x) b) + ldot x (matvec (scaled_diag lam d) x).
Lemma normal_optimal m n A b lam d x y : mat m n A -> length b = m -> length d = n -> 0 <= lam -> (forall v, In v d -> 0 <= v) ->
  length x = n -> length y = n -> matvec (normal_mat n A lam d) x = tdotv n A b ->
  quad_cost A b lam d x <= quad_cost A b lam d y.
Proof.
  intros HA Lb Ld Hl Hd Lx Ly Hn. set (h := lsub y x). assert (Lh : length h = n) by (unfold h; rewrite lsub_length; congruence).
  assert (Ey : y = ladd x h).
  { apply (vec_ext _ _ n); auto; [rewrite ladd_length; congruence|]. intros i Hi. rewrite nth_ladd by congruence. unfold h. rewrite nth_lsub by congruence. ring. }
  assert (LA : forall v, length (matvec A v) = m) by (intros; rewrite matvec_length; apply HA).
  assert (LD : forall v, length (matvec (scaled_diag lam d) v) = n) by (intros; rewrite matvec_length, (proj1 (diag_mat lam d)); auto).
  rewrite Ey. unfold quad_cost. rewrite (matvec_add m n) by auto. rewrite (matvec_add n n) by (auto; rewrite <- Ld; apply diag_mat).
  set (r := lsub (matvec A x) b). set (q := matvec A h).
  assert (Lr : length r = m) by (unfold r; rewrite lsub_length; rewrite ?LA; auto).
  assert (Lq : length q = m) by apply LA.
  assert (Er : lsub (ladd (matvec A x) q) b = ladd r q).
  { assert (L1 : length (ladd (matvec A x) q) = m) by (rewrite ladd_length; rewrite ?LA; congruence).
    apply (vec_ext _ _ m); [rewrite lsub_length; congruence|rewrite ladd_length; congruence|].
    intros i Hi. rewrite nth_lsub, nth_ladd, nth_ladd by (rewrite ?LA; congruence). unfold r. rewrite nth_lsub by (rewrite LA; congruence). ring. }
  rewrite Er. rewrite (ldot_add_r (ladd x h)) by (rewrite !LD; auto). rewrite !(ldot_add_l x h) by congruence.
  rewrite (ldot_add_r (ladd r q)), !(ldot_add_l r q) by congruence.
  rewrite (diag_sym lam d x h) by congruence.
  assert (Z : ldot h (tdotv n A (matvec A x)) + ldot h (matvec (scaled_diag lam d) x) = ldot h (tdotv n A b)).
  { rewrite <- Hn, (normal_matvec m) by auto. rewrite ldot_add_r; auto. unfold tdotv. rewrite map_length, seq_length, LD. auto. }
  assert (Q : ldot q r = ldot h (tdotv n A (matvec A x)) - ldot h (tdotv n A b)).
  { unfold q, r. rewrite ldot_sub_r by (rewrite LA; auto). rewrite !tdotv_eq.
    rewrite !(ldot_matvec m n) by auto. reflexivity. }
  pose proof (diag_pos lam d h Hl Hd (eq_trans Lh (eq_sym Ld))) as P1. pose proof (ldot_self_nonneg q) as P2. rewrite (ldot_comm r q). lra.
Qed.
