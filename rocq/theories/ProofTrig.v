(** Finite trigonometric sums and the Fourier coefficients of sampled curves. *)
From Coq Require Import String List Bool Arith ZArith Reals Lra Lia.
From Verif Require Import Base ModelArray ModelMath SpecMath ModelSurface SpecSurface ModelSimsopt ModelCut SpecIo
  ProofSimsopt.
Import ListNotations.
Open Scope R_scope.

Lemma Rsum_app l l' : Rsum (l ++ l') = Rsum l + Rsum l'.
Proof. induction l; simpl; [unfold Rsum; simpl; ring|]. unfold Rsum in *. simpl. rewrite IHl. ring. Qed.
Lemma Rsum_map_scal {A} c (f : A -> R) l : Rsum (map (fun x => c * f x) l) = c * Rsum (map f l).
Proof. induction l; cbn [map]; rewrite ?Rsum_cons; [unfold Rsum; simpl; ring|]. rewrite IHl. ring. Qed.
Lemma Rsum_map_ext {A} (f g : A -> R) l : (forall x, In x l -> f x = g x) -> Rsum (map f l) = Rsum (map g l).
Proof. intros H. f_equal. now apply map_ext_in. Qed.
Lemma Rsum_swap {A B} (f : A -> B -> R) l m :
  Rsum (map (fun x => Rsum (map (fun y => f x y) m)) l) = Rsum (map (fun y => Rsum (map (fun x => f x y) l)) m).
Proof.
  induction l; cbn [map].
  - symmetry. apply Rsum_map_zero. reflexivity.
  - rewrite Rsum_cons, IHl, <- Rsum_map_plus. reflexivity.
Qed.
Lemma Rsum_const {A} c (l : list A) : Rsum (map (fun _ => c) l) = INR (length l) * c.
Proof.
  induction l; [unfold Rsum; simpl; ring|]. cbn [map length]. rewrite Rsum_cons, IHl, S_INR. ring.
Qed.
Lemma Rsum_pick (v : nat -> R) i n : (i < n)%nat ->
  Rsum (map (fun k => if Nat.eqb k i then v k else 0) (seq 0 n)) = v i.
Proof.
  induction n; intros H; [lia|]. rewrite seq_S, map_app, Rsum_app. cbn [map Nat.add]. rewrite Rsum_cons.
  change (Rsum []) with 0. destruct (Nat.eqb n i) eqn:E.
  - apply Nat.eqb_eq in E. subst. rewrite Rsum_map_zero; [ring|]. intros x Hx. apply in_seq in Hx.
    destruct (Nat.eqb x i) eqn:E; auto. apply Nat.eqb_eq in E. lia.
  - apply Nat.eqb_neq in E. rewrite IHn by lia. ring.
Qed.
Lemma Rsum_pick1 (v : nat -> R) i n : (1 <= i <= n)%nat ->
  Rsum (map (fun k => if Nat.eqb k i then v k else 0) (seq 1 n)) = v i.
Proof.
  intros H. assert (seq 0 (S n) = 0%nat :: seq 1 n) as E by reflexivity.
  rewrite <- (Rsum_pick v i (S n)) by lia. rewrite E. cbn [map]. rewrite Rsum_cons.
  destruct (Nat.eqb 0 i) eqn:B; [apply Nat.eqb_eq in B; lia|]. ring.
Qed.

(** ** Sums of cosines *)
Lemma cos_sum a h n :
  Rsum (map (fun j => cos (a + 2 * INR j * h)) (seq 0 n)) * (2 * sin h)
  = sin (a + (2 * INR n - 1) * h) - sin (a - h).
Proof.
  induction n.
  - simpl. unfold Rsum. simpl. replace (a + (2 * 0 - 1) * h) with (a - h) by ring. ring.
  - rewrite seq_S, map_app, Rsum_app. cbn [map Nat.add]. rewrite Rsum_cons. change (Rsum []) with 0.
    rewrite Rmult_plus_distr_r, IHn. rewrite S_INR.
    replace (a + (2 * (INR n + 1) - 1) * h) with ((a + 2 * INR n * h) + h) by ring.
    replace (a + (2 * INR n - 1) * h) with ((a + 2 * INR n * h) - h) by ring.
    rewrite sin_plus, sin_minus. ring.
Qed.
Lemma kernel_sum h n :
  (1 + 2 * Rsum (map (fun k => cos (2 * INR k * h)) (seq 1 n))) * sin h = sin ((2 * INR n + 1) * h).
Proof.
  induction n.
  - simpl. unfold Rsum. simpl. replace ((2 * 0 + 1) * h) with h by ring. ring.
  - rewrite seq_S, map_app, Rsum_app. cbn [map]. rewrite Rsum_cons. change (Rsum []) with 0.
    replace (1 + n)%nat with (S n) by lia. rewrite S_INR.
    replace ((2 * (INR n + 1) + 1) * h) with (2 * (INR n + 1) * h + h) by ring.
    replace ((2 * INR n + 1) * h) with (2 * (INR n + 1) * h - h) in IHn by ring.
    rewrite sin_plus. rewrite sin_minus in IHn. lra.
Qed.

Lemma sin_frac z N : (z <> 0)%Z -> (- Z.of_nat N < z < Z.of_nat N)%Z -> sin (PI * IZR z / INR N) <> 0.
Proof.
  intros Hz H. assert (0 < INR N) as P by (apply lt_0_INR; lia).
  assert (INR N = IZR (Z.of_nat N)) as E by apply INR_IZR_INZ.
  assert (forall y, (0 < y < Z.of_nat N)%Z -> 0 < sin (PI * IZR y / INR N)) as S.
  { intros y Hy. assert (0 < IZR y < INR N) as [Y1 Y2] by (rewrite E; split; apply IZR_lt; lia).
    assert (0 < IZR y / INR N < 1) as [Q1 Q2].
    { split; [apply Rdiv_lt_0_compat; lra|]. apply (Rmult_lt_reg_r (INR N)); auto. field_simplify; lra. }
    replace (PI * IZR y / INR N) with (PI * (IZR y / INR N)) by (field; lra).
    assert (0 < PI) by apply PI_RGT_0. apply sin_gt_0.
    - apply Rmult_lt_0_compat; lra.
    - rewrite <- (Rmult_1_r PI) at 2. apply Rmult_lt_compat_l; lra. }
  destruct (Z_lt_le_dec 0 z).
  - specialize (S z). intros X. assert (0 < sin (PI * IZR z / INR N)) by (apply S; lia). lra.
  - specialize (S (- z)%Z). intros X. assert (0 < sin (PI * IZR (- z) / INR N)) as Y by (apply S; lia).
    rewrite opp_IZR in Y. replace (PI * - IZR z / INR N) with (- (PI * IZR z / INR N)) in Y by (field; lra).
    rewrite sin_neg in Y. lra.
Qed.

Lemma dft_zero a z N : (z <> 0)%Z -> (- Z.of_nat N < z < Z.of_nat N)%Z ->
  Rsum (map (fun j => cos (a + 2 * PI * INR j * IZR z / INR N)) (seq 0 N)) = 0.
Proof.
  intros Hz H. pose proof (sin_frac z N Hz H) as S.
  assert (0 < INR N) as P by (apply lt_0_INR; lia).
  pose proof (cos_sum a (PI * IZR z / INR N) N) as C.
  assert (a + (2 * INR N - 1) * (PI * IZR z / INR N) = (a - PI * IZR z / INR N) + IZR z * (2 * PI)) as E by (field; lra).
  rewrite E, ProofSurface2.sin_Zperiod in C.
  apply (Rmult_eq_reg_r (2 * sin (PI * IZR z / INR N))); [|lra].
  rewrite Rmult_0_l. etransitivity; [|etransitivity; [exact C|ring]].
  f_equal. apply Rsum_map_ext. intros j _. f_equal. field. lra.
Qed.
Lemma dft_zero_sin a z N : (z <> 0)%Z -> (- Z.of_nat N < z < Z.of_nat N)%Z ->
  Rsum (map (fun j => sin (a + 2 * PI * INR j * IZR z / INR N)) (seq 0 N)) = 0.
Proof.
  intros Hz H. rewrite <- (dft_zero (a - PI / 2) z N Hz H). apply Rsum_map_ext. intros j _.
  replace (a - PI / 2 + 2 * PI * INR j * IZR z / INR N) with (- (PI / 2 - (a + 2 * PI * INR j * IZR z / INR N))) by lra.
  rewrite cos_neg. now rewrite cos_shift.
Qed.

(** ** Orthogonality on the grid *)
Section Grid.
Variable N : nat.
Definition th (j k : nat) : R := 2 * PI * INR j * INR k / INR N.
Hypothesis HN : (0 < N)%nat.
Local Lemma PN : INR N <> 0.
Proof using HN. assert (0 < INR N) by (apply lt_0_INR; auto). lra. Qed.

Lemma Rsum_ones : Rsum (map (fun j : nat => 1) (seq 0 N)) = INR N.
Proof. rewrite Rsum_const, seq_length. ring. Qed.

Lemma cosdiff k l : (k < N)%nat -> (l < N)%nat ->
  Rsum (map (fun j => cos (th j k - th j l)) (seq 0 N)) = if Nat.eqb k l then INR N else 0.
Proof using HN.
  intros Hk Hl. pose proof PN. destruct (Nat.eqb k l) eqn:E.
  - apply Nat.eqb_eq in E. subst. rewrite <- Rsum_ones. apply Rsum_map_ext. intros.
    rewrite Rminus_diag_eq by auto. apply cos_0.
  - apply Nat.eqb_neq in E. rewrite <- (dft_zero 0 (Z.of_nat k - Z.of_nat l) N) by lia.
    apply Rsum_map_ext. intros j _. f_equal. unfold th. rewrite minus_IZR, <- !INR_IZR_INZ. field. auto.
Qed.
Lemma cosplus k l : (0 < k + l < N)%nat ->
  Rsum (map (fun j => cos (th j k + th j l)) (seq 0 N)) = 0.
Proof using HN.
  intros H. pose proof PN. rewrite <- (dft_zero 0 (Z.of_nat k + Z.of_nat l) N) by lia.
  apply Rsum_map_ext. intros j _. f_equal. unfold th. rewrite plus_IZR, <- !INR_IZR_INZ. field. auto.
Qed.
Lemma sinplus k l : (0 < k + l < N)%nat ->
  Rsum (map (fun j => sin (th j k + th j l)) (seq 0 N)) = 0.
Proof using HN.
  intros H. pose proof PN. rewrite <- (dft_zero_sin 0 (Z.of_nat k + Z.of_nat l) N) by lia.
  apply Rsum_map_ext. intros j _. f_equal. unfold th. rewrite plus_IZR, <- !INR_IZR_INZ. field. auto.
Qed.
Lemma sindiff k l : (k < N)%nat -> (l < N)%nat ->
  Rsum (map (fun j => sin (th j k - th j l)) (seq 0 N)) = 0.
Proof using HN.
  intros Hk Hl. pose proof PN. destruct (Nat.eq_dec k l).
  - subst. apply Rsum_map_zero. intros. rewrite Rminus_diag_eq by auto. apply sin_0.
  - rewrite <- (dft_zero_sin 0 (Z.of_nat k - Z.of_nat l) N) by lia.
    apply Rsum_map_ext. intros j _. f_equal. unfold th. rewrite minus_IZR, <- !INR_IZR_INZ. field. auto.
Qed.

Lemma ortho_cc k l : (0 < k + l < N)%nat ->
  Rsum (map (fun j => cos (th j k) * cos (th j l)) (seq 0 N)) = if Nat.eqb k l then INR N / 2 else 0.
Proof using HN.
  intros H. 
  rewrite (Rsum_map_ext _ (fun j => / 2 * cos (th j k - th j l) + / 2 * cos (th j k + th j l)))
    by (intros; rewrite cos_minus, cos_plus; field).
  rewrite Rsum_map_plus, !Rsum_map_scal, cosdiff, cosplus by lia. destruct (Nat.eqb k l); lra.
Qed.
Lemma ortho_ss k l : (0 < k + l < N)%nat ->
  Rsum (map (fun j => sin (th j k) * sin (th j l)) (seq 0 N)) = if Nat.eqb k l then INR N / 2 else 0.
Proof using HN.
  intros H. 
  rewrite (Rsum_map_ext _ (fun j => / 2 * cos (th j k - th j l) + (- / 2) * cos (th j k + th j l)))
    by (intros; rewrite cos_minus, cos_plus; field).
  rewrite Rsum_map_plus, !Rsum_map_scal, cosdiff, cosplus by lia. destruct (Nat.eqb k l); lra.
Qed.
Lemma ortho_sc k l : (0 < k + l < N)%nat ->
  Rsum (map (fun j => sin (th j k) * cos (th j l)) (seq 0 N)) = 0.
Proof using HN.
  intros H. 
  rewrite (Rsum_map_ext _ (fun j => / 2 * sin (th j k - th j l) + / 2 * sin (th j k + th j l)))
    by (intros; rewrite sin_minus, sin_plus; field).
  rewrite Rsum_map_plus, !Rsum_map_scal, sindiff, sinplus by lia. lra.
Qed.
End Grid.

(** ** Transform of a trigonometric polynomial *)
Lemma map2_map_seq {A} (f : A -> nat -> R) (g : nat -> A) l :
  map2 f (map g l) l = map (fun j => f (g j) j) l.
Proof. induction l; simpl; auto. now f_equal. Qed.
Lemma map2_nth_seq (f : R -> nat -> R) x :
  map2 f x (seq 0 (length x)) = map (fun j => f (nth j x 0) j) (seq 0 (length x)).
Proof.
  rewrite <- map2_map_seq. f_equal. clear f. induction x using rev_ind; [reflexivity|].
  rewrite app_length. cbn [length]. rewrite Nat.add_1_r, seq_S, map_app. cbn [map Nat.add]. f_equal.
  - rewrite IHx at 1. apply map_ext_in. intros j Hj. apply in_seq in Hj. now rewrite app_nth1 by lia.
  - rewrite app_nth2, Nat.sub_diag by lia. reflexivity.
Qed.
Lemma samples_length N f : length (samples N f) = N.
Proof. unfold samples. now rewrite map_length, seq_length. Qed.
Lemma samples_nth N f j : (j < N)%nat -> nth j (samples N f) 0 = f (INR j / INR N).
Proof.
  intros H. unfold samples. rewrite nth_indep with (d' := (fun j => f (INR j / INR N)) 0%nat)
    by now rewrite map_length, seq_length.
  rewrite (map_nth (fun j => f (INR j / INR N))), seq_nth by auto. reflexivity.
Qed.

Lemma rfft_re_sum x k : rfft_re x k = Rsum (map (fun j => nth j x 0 * cos (th (length x) j k)) (seq 0 (length x))).
Proof. unfold rfft_re. rewrite map2_nth_seq. reflexivity. Qed.
Lemma rfft_im_sum x k : rfft_im x k = - Rsum (map (fun j => nth j x 0 * sin (th (length x) j k)) (seq 0 (length x))).
Proof. unfold rfft_im. rewrite map2_nth_seq. reflexivity. Qed.

Lemma poly_sample a N j : (0 < N)%nat -> trig_poly a (INR j / INR N) =
  nth 0 a 0 + Rsum (map (fun k => nth (2 * k - 1) a 0 * sin (th N j k) + nth (2 * k) a 0 * cos (th N j k))
    (seq 1 (length a / 2))).
Proof.
  intros H. unfold trig_poly. f_equal. apply Rsum_map_ext. intros k _. unfold th.
  assert (0 < INR N) by (apply lt_0_INR; auto).
  replace (2 * PI * INR k * (INR j / INR N)) with (2 * PI * INR j * INR k / INR N) by (field; lra). reflexivity.
Qed.

Lemma if_mul (b : bool) (x y : R) : x * (if b then y else 0) = if b then x * y else 0.
Proof. destruct b; ring. Qed.

Lemma re_poly a N l : (length a / 2 + l < N)%nat ->
  rfft_re (samples N (trig_poly a)) l =
  if Nat.eqb l 0 then INR N * nth 0 a 0 else if Nat.leb l (length a / 2) then INR N / 2 * nth (2 * l) a 0 else 0.
Proof.
  intros H. assert (0 < N)%nat as HN by lia. rewrite rfft_re_sum, samples_length.
  rewrite (Rsum_map_ext _ (fun j => nth 0 a 0 * cos (th N j l) +
     Rsum (map (fun k => nth (2 * k - 1) a 0 * (sin (th N j k) * cos (th N j l))
                       + nth (2 * k) a 0 * (cos (th N j k) * cos (th N j l))) (seq 1 (length a / 2))))).
  2:{ intros j Hj. apply in_seq in Hj. rewrite samples_nth, poly_sample by lia.
      rewrite Rmult_plus_distr_r. f_equal. rewrite Rmult_comm, <- Rsum_map_scal.
      apply Rsum_map_ext. intros. ring. }
  rewrite Rsum_map_plus, Rsum_map_scal, Rsum_swap.
  rewrite (Rsum_map_ext _ (fun k => if Nat.eqb k l then nth (2 * k) a 0 * (INR N / 2) else 0) (seq 1 _)).
  2:{ intros k Hk. apply in_seq in Hk. cbv beta. rewrite Rsum_map_plus, !Rsum_map_scal.
      rewrite ortho_sc, ortho_cc by lia. rewrite if_mul. destruct (Nat.eqb k l); ring. }
  rewrite (Rsum_map_ext _ (fun j => cos (th N j 0 - th N j l)) (seq 0 N)).
  2:{ intros. replace (th N x 0 - th N x l) with (- th N x l) by (unfold th, Rdiv; change (INR 0) with 0; ring).
      now rewrite cos_neg. }
  rewrite cosdiff by lia.
  destruct (Nat.eqb l 0) eqn:E.
  - apply Nat.eqb_eq in E. subst l. simpl Nat.eqb at 1. rewrite Rsum_map_zero; [cbn [Nat.eqb]; ring|]. intros k Hk. apply in_seq in Hk.
    destruct (Nat.eqb k 0) eqn:B; auto. apply Nat.eqb_eq in B. lia.
  - apply Nat.eqb_neq in E. assert (Nat.eqb 0 l = false) as -> by (apply Nat.eqb_neq; lia).
    destruct (Nat.leb l (length a / 2)) eqn:B.
    + apply Nat.leb_le in B. rewrite (Rsum_pick1 (fun k => nth (2 * k) a 0 * (INR N / 2))) by lia. ring.
    + apply Nat.leb_gt in B. rewrite Rsum_map_zero; [ring|]. intros k Hk. apply in_seq in Hk.
      destruct (Nat.eqb k l) eqn:C; auto. apply Nat.eqb_eq in C. lia.
Qed.
Lemma im_poly a N l : (0 < l <= length a / 2)%nat -> (length a / 2 + l < N)%nat ->
  rfft_im (samples N (trig_poly a)) l = - (INR N / 2 * nth (2 * l - 1) a 0).
Proof.
  intros Hl H. assert (0 < N)%nat as HN by lia. rewrite rfft_im_sum, samples_length. f_equal.
  rewrite (Rsum_map_ext _ (fun j => nth 0 a 0 * sin (th N j l) +
     Rsum (map (fun k => nth (2 * k - 1) a 0 * (sin (th N j k) * sin (th N j l))
                       + nth (2 * k) a 0 * (sin (th N j l) * cos (th N j k))) (seq 1 (length a / 2))))).
  2:{ intros j Hj. apply in_seq in Hj. rewrite samples_nth, poly_sample by lia.
      rewrite Rmult_plus_distr_r. f_equal. rewrite Rmult_comm, <- Rsum_map_scal.
      apply Rsum_map_ext. intros. ring. }
  rewrite Rsum_map_plus, Rsum_map_scal, Rsum_swap.
  rewrite (Rsum_map_ext _ (fun k => if Nat.eqb k l then nth (2 * k - 1) a 0 * (INR N / 2) else 0) (seq 1 _)).
  2:{ intros k Hk. apply in_seq in Hk. cbv beta. rewrite Rsum_map_plus, !Rsum_map_scal.
      rewrite ortho_sc, ortho_ss by lia. rewrite if_mul. destruct (Nat.eqb k l); ring. }
  rewrite (Rsum_map_ext _ (fun j => sin (th N j l - th N j 0)) (seq 0 N)).
  2:{ intros. f_equal. unfold th, Rdiv. change (INR 0) with 0. ring. }
  rewrite sindiff by lia. rewrite (Rsum_pick1 (fun k => nth (2 * k - 1) a 0 * (INR N / 2))) by lia. ring.
Qed.

Lemma list_pairs K a : length a = (2 * K + 1)%nat ->
  a = nth 0 a 0 :: flat_map (fun k => [nth (2 * k - 1) a 0; nth (2 * k) a 0]) (seq 1 K).
Proof.
  revert a. induction K; intros a L.
  - destruct a as [|x [|y a]]; simpl in L; try lia. reflexivity.
  - destruct (exists_last (l := a)) as (a1 & v & E1); [intros ->; simpl in L; lia|].
    destruct (exists_last (l := a1)) as (a2 & u & E2); [intros ->; subst; simpl in L; lia|].
    assert (length a2 = 2 * K + 1)%nat as L2 by (subst; rewrite !app_length in L; simpl in L; lia).
    rewrite seq_S, flat_map_concat_map, map_app, concat_app, <- flat_map_concat_map.
    cbn [map concat app]. subst a. subst a1. rewrite <- app_assoc. cbn [app].
    specialize (IHK a2 L2).
    assert (nth 0 (a2 ++ [u; v]) 0 = nth 0 a2 0) as -> by (apply app_nth1; lia).
    rewrite IHK at 1. rewrite <- app_comm_cons. f_equal. f_equal.
    + rewrite !flat_map_concat_map. f_equal. apply map_ext_in. intros k Hk. apply in_seq in Hk.
      rewrite !app_nth1 by lia. reflexivity.
    + rewrite !app_nth2 by lia. rewrite L2.
      replace (2 * (1 + K) - 1 - (2 * K + 1))%nat with 0%nat by lia.
      replace (2 * (1 + K) - (2 * K + 1))%nat with 1%nat by lia. reflexivity.
Qed.

Lemma ifft_poly a N order : length a = (2 * order + 1)%nat -> (2 * order < N)%nat ->
  ifft_simsopt (samples N (trig_poly a)) order = Ok a.
Proof.
  intros L H. unfold ifft_simsopt. rewrite samples_length.
  assert (length a / 2 = order)%nat as HO by (rewrite L; replace (2 * order + 1)%nat with (1 + order * 2)%nat by lia;
    rewrite Nat.div_add by lia; reflexivity).
  assert (Nat.ltb N (2 * order) = false) as -> by (apply Nat.ltb_ge; lia).
  assert (Nat.eqb N 0 = false) as -> by (apply Nat.eqb_neq; lia). cbv zeta. f_equal.
  assert (0 < INR N) by (apply lt_0_INR; lia).
  etransitivity; [|symmetry; apply (list_pairs order a L)]. f_equal.
  - rewrite re_poly by lia. cbn [Nat.eqb]. field. lra.
  - rewrite !flat_map_concat_map. f_equal. apply map_ext_in. intros k Hk. apply in_seq in Hk.
    rewrite re_poly, im_poly by lia. rewrite HO.
    assert (Nat.eqb k 0 = false) as -> by (apply Nat.eqb_neq; lia).
    assert (Nat.leb k order = true) as -> by (apply Nat.leb_le; lia).
    f_equal; [field; lra|]. f_equal. field; lra.
Qed.

(** ** The curve through the samples *)
Lemma length_pairs (f g : nat -> R) K : length (flat_map (fun k => [f k; g k]) (seq 1 K)) = (2 * K)%nat.
Proof.
  assert (forall i, length (flat_map (fun k => [f k; g k]) (seq i K)) = (2 * K)%nat) as H; [|apply H].
  induction K as [|K IH]; intros i; [reflexivity|]. cbn [seq flat_map app length]. rewrite IH. lia.
Qed.
Lemma nth_pairs f g K k : (1 <= k <= K)%nat ->
  nth (2 * k - 2) (flat_map (fun k => [f k; g k]) (seq 1 K)) 0 = f k /\
  nth (2 * k - 1) (flat_map (fun k => [f k; g k]) (seq 1 K)) 0 = g k.
Proof.
  intros H. revert k H. induction K; intros k H; [lia|].
  rewrite seq_S, flat_map_concat_map, map_app, concat_app, <- flat_map_concat_map. cbn [map concat app].
  assert (length (flat_map (fun k => [f k; g k]) (seq 1 K)) = 2 * K)%nat as L.
  { apply length_pairs. }
  destruct (Nat.eq_dec k (S K)) as [->|].
  - rewrite !app_nth2 by lia. rewrite L. replace (2 * S K - 2 - 2 * K)%nat with 0%nat by lia.
    replace (2 * S K - 1 - 2 * K)%nat with 1%nat by lia. replace (1 + K)%nat with (S K) by lia. split; reflexivity.
  - rewrite !app_nth1 by lia. apply IHK. lia.
Qed.
Definition kernel (N order : nat) (z : Z) : R :=
  1 + 2 * Rsum (map (fun k => cos (2 * INR k * (PI * IZR z / INR N))) (seq 1 order)).

Lemma curve_kernel x order dofs j : ifft_simsopt x order = Ok dofs -> 
  trig_poly dofs (INR j / INR (length x)) =
  / INR (length x) * Rsum (map (fun i => nth i x 0 * kernel (length x) order (Z.of_nat j - Z.of_nat i)) (seq 0 (length x))).
Proof.
  unfold ifft_simsopt. destruct (Nat.ltb _ _); [discriminate|]. destruct (Nat.eqb (length x) 0) eqn:E0; [discriminate|].
  apply Nat.eqb_neq in E0. assert (0 < INR (length x)) as P by (apply lt_0_INR; lia).
  cbv zeta. intros E. injection E as <-. rewrite poly_sample by lia.
  set (N := length x) in *.
  assert (S (length (flat_map (fun k => [(- 2 * (rfft_im x k / INR N))%R; (2 * (rfft_re x k / INR N))%R]) (seq 1 order))) / 2 = order)%nat as HL.
  { rewrite (length_pairs (fun k => - 2 * (rfft_im x k / INR N)) (fun k => 2 * (rfft_re x k / INR N))).
    replace (S (2 * order)) with (1 + order * 2)%nat by lia. now rewrite Nat.div_add by lia. }
  cbn [length]. rewrite HL. change (nth 0 (?a :: ?l) 0) with a.
  assert (forall i, kernel N order (Z.of_nat j - Z.of_nat i) = 1 + Rsum (map (fun k => 2 * (sin (th N i k) * sin (th N j k) + cos (th N i k) * cos (th N j k))) (seq 1 order))) as HK.
  { intros i. unfold kernel. rewrite Rsum_map_scal. f_equal. f_equal. apply Rsum_map_ext. intros k _.
    replace (sin (th N i k) * sin (th N j k) + cos (th N i k) * cos (th N j k)) with (cos (th N j k - th N i k))
      by (rewrite cos_minus; ring).
    f_equal. unfold th. rewrite minus_IZR, <- !INR_IZR_INZ. field. lra. }
  rewrite (Rsum_map_ext _ (fun i => nth i x 0 * cos (th N i 0) + Rsum (map (fun k => nth i x 0 * (2 * (sin (th N i k) * sin (th N j k) + cos (th N i k) * cos (th N j k)))) (seq 1 order))) (seq 0 N)).
  2:{ intros i _. rewrite HK, Rmult_plus_distr_l. f_equal.
      - f_equal. unfold th. change (INR 0) with 0. unfold Rdiv. replace (2 * PI * INR i * 0 * / INR N) with 0 by ring. now rewrite cos_0.
      - symmetry. apply Rsum_map_scal. }
  match goal with |- _ + Rsum ?M = _ => set (tail := Rsum M) end.
  rewrite Rsum_map_plus, Rmult_plus_distr_l. unfold tail; clear tail. f_equal.
  - rewrite rfft_re_sum. fold N. unfold Rdiv. ring.
  - rewrite Rsum_swap, <- Rsum_map_scal. apply Rsum_map_ext. intros k Hk. apply in_seq in Hk.
    destruct (nth_pairs (fun k => - 2 * (rfft_im x k / INR N)) (fun k => 2 * (rfft_re x k / INR N)) order k) as [H1 H2]; [lia|].
    match goal with |- nth _ (?c :: ?l) 0 * _ + _ = _ =>
      assert (nth (2 * k - 1) (c :: l) 0 = - 2 * (rfft_im x k / INR N)) as G1
        by (replace (2 * k - 1)%nat with (S (2 * k - 2)) by lia; exact H1);
      assert (nth (2 * k) (c :: l) 0 = 2 * (rfft_re x k / INR N)) as G2
        by (replace (2 * k)%nat with (S (2 * k - 1)) by lia; exact H2) end.
    rewrite G1, G2, rfft_re_sum, rfft_im_sum. fold N. clear G1 G2 H1 H2.
    rewrite (Rsum_map_ext (fun i => nth i x 0 * (2 * (sin (th N i k) * sin (th N j k) + cos (th N i k) * cos (th N j k))))
      (fun i => (2 * sin (th N j k)) * (nth i x 0 * sin (th N i k)) + (2 * cos (th N j k)) * (nth i x 0 * cos (th N i k))))
      by (intros; ring).
    rewrite Rsum_map_plus, !Rsum_map_scal. field. lra.
Qed.
