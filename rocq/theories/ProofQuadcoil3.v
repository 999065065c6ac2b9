(** The implicit gradient: derivative of a metric along stationary points. *)
From Coq Require Import String List Bool Arith ZArith Reals Lra Lia.
From Coquelicot Require Import Coquelicot.
From Verif Require Import Base ModelArray ModelMath ModelQuantity ModelWrapper ModelSurface ModelParams
  ModelSolver SpecSolver ModelQuadcoil SpecMath SpecSurface SpecQuadcoil RDeriv ProofLinear ProofQuadcoil ProofQuadcoil2.
Import ListNotations.
Open Scope R_scope.
Open Scope list_scope.

(** ** The vocabulary of the statements in terms of the model's vectors *)
Lemma minus_lsub a b : SpecQuadcoil.minus a b = lsub a b.
Proof. unfold SpecQuadcoil.minus, lsub. revert b. induction a; intros [|y b]; simpl; auto. now rewrite IHa. Qed.
Lemma inner_ldot a b : inner a b = ldot a b.
Proof. unfold inner, ldot, Rsum. revert b. induction a; intros [|y b]; simpl; auto. now rewrite IHa. Qed.
Lemma size1_l1 a : size1 a = l1 a.
Proof. reflexivity. Qed.
Lemma apply_matvec A x : apply_mat A x = matvec A x.
Proof. unfold apply_mat, matvec. apply map_ext. intros r. apply inner_ldot. Qed.
Lemma shift_ladd y e t : length y = length e -> shift y e t = ladd y (lscale t e).
Proof. unfold shift, ladd, lscale. revert e. induction y; intros [|b e] H; simpl in *; try discriminate; auto. rewrite IHy by lia. reflexivity. Qed.
Lemma shift_length y e t : length y = length e -> length (shift y e t) = length y.
Proof. intros H. unfold shift. rewrite map_length, combine_length. lia. Qed.
Lemma lsub_shift y e t : length y = length e -> lsub (shift y e t) y = lscale t e.
Proof.
  unfold shift, lsub, lscale. revert e. induction y; intros [|b e] H; simpl in *; try discriminate; auto. rewrite IHy by lia. f_equal. ring.
Qed.
Lemma shift_0 y e : length y = length e -> shift y e 0 = y.
Proof. unfold shift. revert e. induction y; intros [|b e] H; simpl in *; try discriminate; auto. rewrite IHy by lia. f_equal. ring. Qed.
Lemma l1_self a : l1 (lsub a a) = 0.
Proof. unfold l1, lsub. induction a; simpl; auto. rewrite Rminus_eq_0, Rabs_R0. lra. Qed.

(** The rows of [J] applied to a vector approximate the components of a vector
    function. *)
Lemma jacobian_bound F x y Jx Jy : jacobian2 F x y Jx Jy -> forall eps, 0 < eps ->
  exists delta, 0 < delta /\ forall x' y', length x' = length x -> length y' = length y ->
    l1 (lsub x' x) + l1 (lsub y' y) < delta ->
    forall i, (i < length Jx)%nat ->
    Rabs (nth i (F x' y') 0 - nth i (F x y) 0 - ldot (nth i Jx []) (lsub x' x) - ldot (nth i Jy []) (lsub y' y))
      <= eps * (l1 (lsub x' x) + l1 (lsub y' y)).
Proof.
  intros (HL & HF & HD) eps He.
  assert (K : forall k, (k <= length Jx)%nat -> exists delta, 0 < delta /\ forall x' y', length x' = length x -> length y' = length y ->
    l1 (lsub x' x) + l1 (lsub y' y) < delta ->
    forall i, (i < k)%nat ->
    Rabs (nth i (F x' y') 0 - nth i (F x y) 0 - ldot (nth i Jx []) (lsub x' x) - ldot (nth i Jy []) (lsub y' y))
      <= eps * (l1 (lsub x' x) + l1 (lsub y' y))).
  { induction k as [|k IH]; intros Hk.
    - exists 1. split; [lra|]. intros. lia.
    - destruct (IH ltac:(lia)) as (d1 & P1 & H1). destruct (HD k ltac:(lia)) as (_ & _ & HDk). destruct (HDk eps He) as (d2 & P2 & H2).
      exists (Rmin d1 d2). split; [apply Rmin_pos; auto|]. intros x' y' Lx Ly Hs i Hi.
      destruct (Nat.eq_dec i k) as [->|Ne].
      + specialize (H2 x' y' Lx Ly). rewrite !minus_lsub, !inner_ldot, !size1_l1 in H2. apply H2.
        eapply Rlt_le_trans; [exact Hs|apply Rmin_r].
      + apply H1; auto; [|lia]. eapply Rlt_le_trans; [exact Hs|apply Rmin_l]. }
  destruct (K (length Jx) (le_n _)) as (d & P & H). exists d. auto.
Qed.

Lemma nth_matvec A x i : (i < length A)%nat -> nth i (matvec A x) 0 = ldot (nth i A []) x.
Proof. intros H. unfold matvec. rewrite (nth_indep _ 0 (ldot [] x)) by (rewrite map_length; exact H). apply (map_nth (fun r => ldot r x)). Qed.

Lemma nth_zero (l : list R) i : (forall v, In v l -> v = 0) -> nth i l 0 = 0.
Proof. intros H. destruct (Nat.lt_ge_cases i (length l)); [apply H, nth_In; auto|apply nth_overflow; auto]. Qed.

Lemma sym_transpose n H : mat n n H -> (forall i j, (i < n)%nat -> (j < n)%nat -> nth j (nth i H []) 0 = nth i (nth j H []) 0) ->
  transpose n H = H.
Proof.
  intros [HL HR] S. apply (nth_ext _ _ [] []); [unfold transpose; rewrite map_length, seq_length; auto|].
  intros i Hi. unfold transpose in *. rewrite map_length, seq_length in Hi.
  rewrite (nth_indep _ [] (col H 0)) by (rewrite map_length, seq_length; exact Hi). rewrite map_nth, seq_nth by exact Hi. cbn [Nat.add].
  apply (nth_ext _ _ 0 0). { rewrite col_length, HL, HR; auto. apply nth_In. lia. }
  intros j Hj. rewrite col_length in Hj. unfold col. rewrite (nth_indep _ 0 (nth i [] 0)) by (rewrite map_length; exact Hj).
  rewrite (map_nth (fun r => nth i r 0)). apply S; lia.
Qed.

Section Implicit.
  Variables (F : list R -> list R -> R) (Gx : list R -> list R -> list R).
  Variables (x y gx gy v e : list R) (H M K : matrix) (X : R -> list R).
  Notation n := (length x).
  Hypothesis HF : differentiable2 F x y gx gy.
  Hypothesis HG : jacobian2 Gx x y H M.
  Hypothesis HH : mat n n H.
  Hypothesis HM : mat n (length y) M.
  Hypothesis HK : mat n n K.
  Hypothesis Hsym : forall i j, (i < n)%nat -> (j < n)%nat -> nth j (nth i H []) 0 = nth i (nth j H []) 0.
  Hypothesis Hinv : forall h, length h = n -> matvec K (matvec H h) = h.
  Hypothesis Hv : length v = n.
  Hypothesis Hsolve : matvec H v = gx.
  Hypothesis He : length e = length y.
  Hypothesis HX : stationary_path Gx x y e X.

  (** The remainder H hx + M hy along the path. *)
  Lemma path_remainder eps : 0 < eps -> exists delta, 0 < delta /\ forall t, Rabs t < delta ->
    length (X t) = n /\
    l1 (ladd (matvec H (lsub (X t) x)) (matvec M (lscale t e))) <= INR n * (eps * (l1 (lsub (X t) x) + Rabs t * l1 e)).
  Proof.
    intros Hp. destruct HX as (H0 & Hc & d3 & P3 & Hs).
    destruct (jacobian_bound _ _ _ _ _ HG eps Hp) as (d1 & P1 & H1).
    destruct (Hc (d1 / 2)) as (d2 & P2 & H2); [lra|].
    pose proof (l1_nonneg e) as Pe.
    exists (Rmin d3 (Rmin d2 (d1 / 2 / (l1 e + 1)))).
    assert (P4 : 0 < d1 / 2 / (l1 e + 1)) by (apply Rdiv_lt_0_compat; lra).
    split; [repeat apply Rmin_pos; auto|].
    intros t Ht. pose proof (Rmin_l d3 (Rmin d2 (d1 / 2 / (l1 e + 1)))). pose proof (Rmin_r d3 (Rmin d2 (d1 / 2 / (l1 e + 1)))).
    pose proof (Rmin_l d2 (d1 / 2 / (l1 e + 1))). pose proof (Rmin_r d2 (d1 / 2 / (l1 e + 1))).
    destruct (H2 t ltac:(lra)) as [Lx Sx]. split; auto. rewrite minus_lsub, size1_l1 in Sx.
    assert (Ht2 : Rabs t * l1 e <= d1 / 2).
    { assert (Rabs t * (l1 e + 1) <= d1 / 2 / (l1 e + 1) * (l1 e + 1)) by (apply Rmult_le_compat_r; lra).
      replace (d1 / 2 / (l1 e + 1) * (l1 e + 1)) with (d1 / 2) in H7 by (field; lra). pose proof (Rabs_pos t). nra. }
    set (r := ladd (matvec H (lsub (X t) x)) (matvec M (lscale t e))).
    assert (Lr : length r = n).
    { unfold r. rewrite ladd_length; rewrite !matvec_length; destruct HH, HM; lia. }
    rewrite <- Lr. apply l1_bound. intros i Hi. rewrite Lr in Hi.
    assert (Hi' : (i < length H)%nat) by (destruct HH; lia).
    specialize (H1 (X t) (shift y e t) Lx (shift_length _ _ _ (eq_sym He))).
    rewrite lsub_shift, l1_scale in H1 by auto. specialize (H1 ltac:(lra) i Hi').
    rewrite (nth_zero (Gx (X t) (shift y e t))) in H1 by (apply Hs; lra).
    rewrite (nth_zero (Gx x y)) in H1.
    2: { assert (Z : forall u, In u (Gx (X 0) (shift y e 0)) -> u = 0) by (apply Hs; rewrite Rabs_R0; lra).
         rewrite H0, shift_0 in Z by auto. exact Z. }
    unfold r. rewrite nth_ladd by (rewrite !matvec_length; destruct HH, HM; lia).
    rewrite !nth_matvec by (destruct HH, HM; lia).
    replace (0 - 0 - ldot (nth i H []) (lsub (X t) x) - ldot (nth i M []) (lscale t e))
      with (- (ldot (nth i H []) (lsub (X t) x) + ldot (nth i M []) (lscale t e))) in H1 by ring.
    rewrite Rabs_Ropp in H1. exact H1.
  Qed.

  (** The unknowns move at most proportionally to the inputs. *)
  Lemma path_lipschitz : exists B delta, 0 <= B /\ 0 < delta /\ forall t, Rabs t < delta -> l1 (lsub (X t) x) <= B * Rabs t.
  Proof.
    pose proof (m1_nonneg K) as PK. pose proof (m1_nonneg M) as PM. pose proof (l1_nonneg e) as Pe. pose proof (pos_INR n) as Pn.
    set (eps := / (2 * (m1 K * INR n + 1))).
    assert (Pp : 0 < m1 K * INR n + 1) by (assert (0 <= m1 K * INR n) by (apply Rmult_le_pos; auto); lra).
    assert (Peps : 0 < eps) by (unfold eps; apply Rinv_0_lt_compat; lra).
    destruct (path_remainder eps Peps) as (d & Pd & Hd).
    exists (2 * (m1 K * (m1 M * l1 e)) + l1 e), d.
    assert (0 <= m1 K * (m1 M * l1 e)) by (apply Rmult_le_pos; auto; apply Rmult_le_pos; auto).
    split; [lra|]. split; auto. intros t Ht. destruct (Hd t Ht) as [Lx Hr].
    set (hx := lsub (X t) x) in *. set (r := ladd (matvec H hx) (matvec M (lscale t e))) in *.
    assert (Lhx : length hx = n) by (unfold hx; rewrite lsub_length; lia).
    assert (LH : length (matvec H hx) = n) by (rewrite matvec_length; destruct HH; auto).
    assert (LM : length (matvec M (lscale t e)) = n) by (rewrite matvec_length; destruct HM; auto).
    assert (E : matvec H hx = ladd r (lscale (-1) (matvec M (lscale t e)))).
    { apply (vec_ext _ _ n); auto. { rewrite ladd_length; unfold r; rewrite ?ladd_length, ?lscale_length; lia. }
      intros i Hi. rewrite nth_ladd, nth_lscale by (unfold r; rewrite ladd_length, lscale_length; lia). unfold r. rewrite nth_ladd by lia. ring. }
    assert (B1 : l1 hx <= m1 K * l1 (matvec H hx)) by (rewrite <- (Hinv hx Lhx) at 1; apply matvec_bound).
    assert (B2 : l1 (matvec H hx) <= l1 r + Rabs t * (m1 M * l1 e)).
    { rewrite E. eapply Rle_trans; [apply l1_add; unfold r; rewrite ladd_length, lscale_length; lia|].
      rewrite l1_scale, matvec_scale, l1_scale. rewrite Rabs_left by lra. pose proof (matvec_bound M e). pose proof (Rabs_pos t). nra. }
    assert (Pt := Rabs_pos t). assert (Phx := l1_nonneg hx).
    assert (B3 : m1 K * l1 r <= / 2 * (l1 hx + Rabs t * l1 e)).
    { assert (m1 K * l1 r <= m1 K * (INR n * (eps * (l1 hx + Rabs t * l1 e)))) by (apply Rmult_le_compat_l; auto).
      assert (m1 K * INR n * eps <= / 2).
      { unfold eps. rewrite Rinv_mult. apply Rmult_le_reg_r with (2 * (m1 K * INR n + 1)); [lra|]. field_simplify; lra. }
      assert (0 <= l1 hx + Rabs t * l1 e) by nra.
      replace (m1 K * (INR n * (eps * (l1 hx + Rabs t * l1 e)))) with (m1 K * INR n * eps * (l1 hx + Rabs t * l1 e)) in H1 by ring.
      nra. }
    assert (m1 K * l1 (matvec H hx) <= m1 K * l1 r + Rabs t * (m1 K * (m1 M * l1 e))) by nra.
    nra.
  Qed.

  Lemma implicit_derivative :
    is_derive (fun t => F (X t) (shift y e t) : R) (0:R) (ldot (ladd (map Ropp (matvec (transpose (length y) M) v)) gy) e).
  Proof.
    apply is_derive_Reals. intros eps Heps.
    destruct path_lipschitz as (B & d1 & PB & Pd1 & HB).
    destruct HF as (Lgx & Lgy & HFd).
    pose proof (l1_nonneg e) as Pe. pose proof (l1_nonneg v) as Pv. pose proof (pos_INR n) as Pn.
    set (c1 := B + l1 e + 1). assert (Pc1 : 0 < c1) by (unfold c1; lra).
    set (c2 := l1 v * INR n). assert (Pc2 : 0 <= c2) by (unfold c2; apply Rmult_le_pos; auto).
    set (ep := eps / 2 / ((c2 + 1) * c1)).
    assert (Pcc : 0 < (c2 + 1) * c1) by (apply Rmult_lt_0_compat; lra).
    assert (Pep : 0 < ep) by (unfold ep; apply Rdiv_lt_0_compat; lra).
    destruct (path_remainder ep Pep) as (d2 & Pd2 & Hr).
    destruct (HFd ep Pep) as (d3 & Pd3 & HF3).
    assert (Pd : 0 < Rmin (Rmin d1 d2) (d3 / c1)) by (repeat apply Rmin_pos; auto; apply Rdiv_lt_0_compat; lra).
    exists (mkposreal _ Pd). intros t Ht Htd. cbn [pos] in Htd.
    pose proof (Rmin_l (Rmin d1 d2) (d3 / c1)). pose proof (Rmin_r (Rmin d1 d2) (d3 / c1)).
    pose proof (Rmin_l d1 d2). pose proof (Rmin_r d1 d2).
    rewrite Rplus_0_l. destruct (Hr t ltac:(lra)) as [Lx Hrt]. pose proof (HB t ltac:(lra)) as HBt.
    destruct HX as (X0 & _). rewrite X0, shift_0 by auto.
    set (hx := lsub (X t) x) in *.
    assert (Lhx : length hx = n) by (unfold hx; rewrite lsub_length; lia).
    set (r := ladd (matvec H hx) (matvec M (lscale t e))) in *.
    assert (Pt : 0 < Rabs t) by (apply Rabs_pos_lt; auto).
    assert (S : l1 hx + Rabs t * l1 e <= Rabs t * c1) by (unfold c1; nra).
    specialize (HF3 (X t) (shift y e t) Lx (shift_length _ _ _ (eq_sym He))).
    rewrite !minus_lsub, !inner_ldot, !size1_l1, lsub_shift, l1_scale in HF3 by auto. fold hx in HF3.
    assert (Sm : l1 hx + Rabs t * l1 e < d3).
    { eapply Rle_lt_trans; [exact S|]. apply Rlt_le_trans with (d3 / c1 * c1); [apply Rmult_lt_compat_r; lra|]. right. field. lra. }
    specialize (HF3 Sm).
    assert (LH : length (matvec H hx) = n) by (rewrite matvec_length; destruct HH; auto).
    assert (LM : length (matvec M (lscale t e)) = n) by (rewrite matvec_length; destruct HM; auto).
    assert (E1 : ldot gx hx = ldot v r - t * ldot (matvec (transpose (length y) M) v) e).
    { rewrite <- Hsolve. rewrite (ldot_matvec n n H v hx HH Hv Lhx). rewrite (sym_transpose n H HH Hsym).
      unfold r. rewrite ldot_add_r by lia. rewrite matvec_scale, ldot_scale_r.
      rewrite (ldot_comm v (matvec M e)), (ldot_matvec n (length y) M e v HM He Hv), (ldot_comm e). ring. }
    assert (E2 : ldot (ladd (map Ropp (matvec (transpose (length y) M) v)) gy) e
       = - ldot (matvec (transpose (length y) M) v) e + ldot gy e).
    { rewrite ldot_add_l. 2: { rewrite map_length, matvec_length. unfold transpose. rewrite map_length, seq_length. auto. }
      rewrite ldot_opp_l. reflexivity. }
    rewrite E2. rewrite ldot_scale_r, E1 in HF3.
    set (D := F (X t) (shift y e t) - F x y) in *. set (a := ldot (matvec (transpose (length y) M) v) e) in *. set (b := ldot gy e) in *.
    assert (Bv : Rabs (ldot v r) <= c2 * (ep * (Rabs t * c1))).
    { eapply Rle_trans; [apply ldot_bound|]. unfold c2. rewrite Rmult_assoc. apply Rmult_le_compat_l; auto.
      eapply Rle_trans; [exact Hrt|]. apply Rmult_le_compat_l; auto. apply Rmult_le_compat_l; lra. }
    assert (BD : Rabs (D - t * (- a + b)) <= eps / 2 * Rabs t).
    { replace (D - t * (- a + b)) with ((D - (ldot v r - t * a) - t * b) + ldot v r) by ring.
      eapply Rle_trans; [apply Rabs_triang|].
      assert (ep * (l1 hx + Rabs t * l1 e) <= ep * (Rabs t * c1)) by (apply Rmult_le_compat_l; lra).
      assert (ep * (Rabs t * c1) + c2 * (ep * (Rabs t * c1)) = eps / 2 * Rabs t).
      { unfold ep. field. split; lra. }
      lra. }
    replace (D / t - (- a + b)) with ((D - t * (- a + b)) / t) by (field; auto).
    unfold Rdiv at 1. rewrite Rabs_mult, Rabs_inv. apply Rle_lt_trans with (eps / 2); [|lra].
    apply Rmult_le_reg_r with (Rabs t); auto. rewrite Rmult_assoc, Rinv_l by lra. lra.
  Qed.
End Implicit.
