(** Strongly convex functions on closed sets of R^n attain their least value. *)
From Coq Require Import List Bool Arith Reals Lra Lia.
From Verif Require Import Base ModelArray SpecMath SpecField ProofField3 ProofSquares ProofBest.
Import ListNotations.
Open Scope R_scope.

Definition within (d : R) (x y : list R) : Prop := forall j, Rabs (nth j y 0 - nth j x 0) <= d.
Definition convexn (n : nat) (g : list R -> R) : Prop :=
  forall x y t, length x = n -> length y = n -> 0 <= t <= 1 -> g (lincomb t (1 - t) x y) <= t * g x + (1 - t) * g y.

Lemma lincomb_cons a b x y u v : lincomb a b (x :: u) (y :: v) = (a * x + b * y) :: lincomb a b u v.
Proof. reflexivity. Qed.
Lemma lincomb_same t u : lincomb t (1 - t) u u = u.
Proof. unfold lincomb. induction u; cbn; [reflexivity|]. f_equal; [ring|assumption]. Qed.

(** Bounded above on a box. *)
Lemma box_bound n : forall g, convexn n g -> forall x, length x = n -> exists M, forall y, length y = n -> within 1 x y -> g y <= M.
Proof.
  induction n as [|n IH]; intros g C x L.
  - exists (g []). intros [|] Ly _; [lra|discriminate].
  - destruct x as [|a x]; [discriminate|]. injection L as L.
    assert (Cc : forall b, convexn n (fun r => g (b :: r))).
    { intros b u v t Lu Lv Ht. specialize (C (b :: u) (b :: v) t ltac:(cbn; lia) ltac:(cbn; lia) Ht). rewrite lincomb_cons in C.
      replace (t * b + (1 - t) * b) with b in C by ring. exact C. }
    destruct (IH _ (Cc (a + 1)) x L) as (M1 & B1). destruct (IH _ (Cc (a - 1)) x L) as (M2 & B2). exists (Rmax M1 M2).
    intros [|b y] Ly W; [discriminate|]. injection Ly as Ly. assert (Wy : within 1 x y) by (intros j; exact (W (S j))). specialize (B1 y Ly Wy). specialize (B2 y Ly Wy).
    pose proof (W 0%nat) as Wb. cbn in Wb. apply Rabs_le_between in Wb || (unfold Rabs in Wb; destruct (Rcase_abs (b - a))).
    all: pose proof (C ((a + 1) :: y) ((a - 1) :: y) ((b - a + 1) / 2) ltac:(cbn; lia) ltac:(cbn; lia) ltac:(lra)) as H; rewrite lincomb_cons, lincomb_same in H;
      replace ((b - a + 1) / 2 * (a + 1) + (1 - (b - a + 1) / 2) * (a - 1)) with b in H by field;
      pose proof (Rmax_l M1 M2); pose proof (Rmax_r M1 M2); set (t := (b - a + 1) / 2) in *; assert (0 <= t <= 1) by (unfold t; lra); nra.
Qed.

(** Continuity. *)
Lemma convex_continuous n g : convexn n g -> forall x, length x = n -> forall e, 0 < e ->
  exists d, 0 < d /\ forall y, length y = n -> within d x y -> Rabs (g y - g x) <= e.
Proof.
  intros C x L e Pe. destruct (box_bound n g C x L) as (M & B).
  assert (BM : g x <= M). { apply B; [exact L|]. intros j. unfold Rminus. rewrite Rplus_opp_r, Rabs_R0. lra. }
  set (d := Rmin 1 (e / (M - g x + 1))). assert (Pd : 0 < e / (M - g x + 1)) by (apply Rdiv_lt_0_compat; lra).
  assert (D : 0 < d <= 1 /\ d * (M - g x) <= e).
  { assert (D1 : 0 < d) by (apply Rmin_pos; lra). assert (D2 : d <= 1) by apply Rmin_l. assert (D3 : d <= e / (M - g x + 1)) by apply Rmin_r.
    split; [lra|]. apply Rle_trans with (e / (M - g x + 1) * (M - g x)); [apply Rmult_le_compat_r; lra|].
    apply Rle_trans with (e / (M - g x + 1) * (M - g x + 1)); [apply Rmult_le_compat_l; lra|]. right. field. lra. }
  destruct D as (Dp & De). clearbody d. exists d. split; [lra|].
  assert (Up : forall y, length y = n -> within d x y -> g y - g x <= e).
  { intros y Ly W. pose (w := lincomb (/ d) (1 - / d) y x). assert (Lw : length w = n) by (unfold w; rewrite length_lincomb; congruence).
    assert (Ew : y = lincomb d (1 - d) w x).
    { unfold w. clear - Ly L Dp. subst n. revert y Ly. induction x as [|a x IH]; intros [|b y] Ly; try discriminate; [reflexivity|]. rewrite !lincomb_cons. f_equal; [field; lra|]. apply IH. now injection Ly. }
    assert (Ww : within 1 x w).
    { intros j. unfold w. rewrite lincomb_nth by congruence. replace (/ d * nth j y 0 + (1 - / d) * nth j x 0 - nth j x 0) with (/ d * (nth j y 0 - nth j x 0)) by ring.
      rewrite Rabs_mult, (Rabs_right (/ d)) by (apply Rle_ge, Rlt_le, Rinv_0_lt_compat; lra). apply Rmult_le_reg_l with d; [lra|]. rewrite <- Rmult_assoc, Rinv_r by lra. specialize (W j). lra. }
    specialize (B w Lw Ww). pose proof (C w x d Lw L ltac:(lra)) as H. rewrite <- Ew in H. assert (d * g w <= d * M) by (apply Rmult_le_compat_l; lra). lra. }
  intros y Ly W. pose proof (Up y Ly W) as U. pose (y' := lincomb (-1) 2 y x). assert (Ly' : length y' = n) by (unfold y'; rewrite length_lincomb; congruence).
  assert (W' : within d x y').
  { intros j. unfold y'. rewrite lincomb_nth by congruence. replace (-1 * nth j y 0 + 2 * nth j x 0 - nth j x 0) with (- (nth j y 0 - nth j x 0)) by ring. rewrite Rabs_Ropp. apply W. }
  pose proof (Up y' Ly' W') as U'. pose proof (C y y' (1/2) Ly Ly' ltac:(lra)) as H.
  replace (lincomb (1 / 2) (1 - 1 / 2) y y') with x in H.
  - apply Rabs_le. lra.
  - unfold y'. clear - Ly L. subst n. revert y Ly. induction x as [|a x IH]; intros [|b y] Ly; try discriminate; [reflexivity|]. rewrite !lincomb_cons. f_equal; [field|]. apply IH. now injection Ly.
Qed.

Definition taxi (x y : list R) : R := Rsum (map2 (fun a b => Rabs (b - a)) x y).
Lemma taxi_nonneg x y : 0 <= taxi x y.
Proof. unfold taxi, Rsum. revert y; induction x as [|a x IH]; intros [|b y]; cbn; try lra. specialize (IH y). pose proof (Rabs_pos (b - a)). lra. Qed.
Lemma taxi_within x y : length x = length y -> within (taxi x y) x y.
Proof.
  unfold taxi, Rsum. revert y; induction x as [|a x IH]; intros [|b y] L j; try discriminate.
  - destruct j; cbn; rewrite Rminus_0_r, Rabs_R0; lra.
  - cbn [map2 fold_right]. pose proof (Rabs_pos (b - a)). pose proof (taxi_nonneg x y) as P. unfold taxi, Rsum in P. destruct j; cbn [nth]; [lra|]. specialize (IH y ltac:(now injection L) j). lra.
Qed.
Lemma taxi_bound x y s : length x = length y -> 0 <= s -> within s x y -> taxi x y <= INR (length x) * s.
Proof.
  unfold taxi, Rsum. revert y; induction x as [|a x IH]; intros [|b y] L Ps W; try discriminate; [cbn; lra|].
  cbn [map2 fold_right]. rewrite (S_INR (length x)) || (cbn [length]; rewrite S_INR). specialize (IH y ltac:(now injection L) Ps (fun j => W (S j))). pose proof (W 0%nat) as W0. cbn in W0. lra.
Qed.
Lemma taxi_toward t x y : length x = length y -> 0 <= t -> taxi y (lincomb t (1 - t) x y) = t * taxi y x.
Proof.
  unfold taxi, Rsum. intros L Pt. revert y L; induction x as [|a x IH]; intros [|b y] L; try discriminate; [cbn; ring|].
  rewrite lincomb_cons. cbn [map2 fold_right]. rewrite IH by (now injection L). replace (t * a + (1 - t) * b - b) with (t * (a - b)) by ring. rewrite Rabs_mult, (Rabs_right t) by lra. ring.
Qed.

Section Attained.
  Variables (n : nat) (F : list R -> R) (G : list R -> list R -> R) (C : list R -> Prop) (m : R).
  Hypothesis Strong : forall x y t, length x = n -> length y = n -> 0 <= t <= 1 -> F (lincomb t (1 - t) x y) <= t * F x + (1 - t) * F y - t * (1 - t) * G x y.
  Hypothesis Pm : 0 < m.
  Hypothesis Gm : forall x y j, length x = n -> length y = n -> m * (nth j y 0 - nth j x 0) ^ 2 <= G x y.
  Hypothesis Conv : forall x y, length x = n -> length y = n -> C x -> C y -> C (lincomb (1/2) (1 - 1/2) x y).
  Hypothesis Closed : forall x, length x = n -> (forall d, 0 < d -> exists y, length y = n /\ C y /\ within d x y) -> C x.
  Variable z : list R.
  Hypothesis Lz : length z = n.
  Hypothesis Cz : C z.

  Lemma G_nonneg x y : length x = n -> length y = n -> 0 <= G x y.
  Proof using Pm Gm. intros Lx Ly. eapply Rle_trans; [|apply (Gm x y 0%nat Lx Ly)]. apply Rmult_le_pos; [lra|]. apply pow2_ge_0. Qed.
  Lemma F_convex : convexn n F.
  Proof using Strong Pm Gm.
    intros x y t Lx Ly Ht. pose proof (Strong x y t Lx Ly Ht). pose proof (G_nonneg x y Lx Ly). assert (0 <= t * (1 - t) * G x y) by (apply Rmult_le_pos; [|assumption]; apply Rmult_le_pos; lra). lra.
  Qed.
  Lemma G_within x y : length x = n -> length y = n -> within (sqrt (G x y / m)) x y.
  Proof using Pm Gm.
    intros Lx Ly j. rewrite <- sqrt_Rsqr_abs. apply sqrt_le_1_alt. unfold Rsqr. pose proof (Gm x y j Lx Ly) as H. apply Rmult_le_reg_l with m; [exact Pm|].
    replace (m * (G x y / m)) with (G x y) by (field; lra). lra.
  Qed.
  Lemma G_taxi x y : length x = n -> length y = n -> m / (INR n + 1) ^ 2 * taxi x y ^ 2 <= G x y.
  Proof using Pm Gm.
    intros Lx Ly. set (s := sqrt (G x y / m)). assert (Ps : 0 <= s) by apply sqrt_pos. pose proof (taxi_bound x y s ltac:(congruence) Ps (G_within x y Lx Ly)) as B. rewrite Lx in B.
    pose proof (taxi_nonneg x y) as T. pose proof (pos_INR n) as Pn. assert (Es : s * s = G x y / m).
    { apply sqrt_def. apply Rmult_le_pos; [now apply G_nonneg|]. apply Rlt_le, Rinv_0_lt_compat, Pm. }
    assert (Q : taxi x y ^ 2 <= (INR n + 1) ^ 2 * (s * s)).
    { replace ((INR n + 1) ^ 2 * (s * s)) with (((INR n + 1) * s) ^ 2) by ring. apply pow_incr. split; [exact T|]. lra. }
    rewrite Es in Q. apply Rmult_le_reg_l with ((INR n + 1) ^ 2); [apply pow_lt; lra|]. replace ((INR n + 1) ^ 2 * (m / (INR n + 1) ^ 2 * taxi x y ^ 2)) with (m * taxi x y ^ 2) by (field; lra).
    apply Rle_trans with (m * ((INR n + 1) ^ 2 * (G x y / m))); [apply Rmult_le_compat_l; lra|]. right. field. lra.
  Qed.
  Lemma bounded_below : exists B, forall x, length x = n -> B <= F x.
  Proof using Strong Pm Gm Lz.
    destruct (convex_continuous n F F_convex z Lz 1 ltac:(lra)) as (d & Pd & Hd).
    set (k := m / (INR n + 1) ^ 2). assert (Pk : 0 < k) by (apply Rdiv_lt_0_compat; [exact Pm|]; apply pow_lt; pose proof (pos_INR n); lra).
    set (a := / d + k * d). exists (F z - 1 - a ^ 2 / (4 * k)). intros x Lx. set (D := taxi z x). assert (PD : 0 <= D) by apply taxi_nonneg.
    assert (Sq : 0 <= a ^ 2 / (4 * k)) by (apply Rmult_le_pos; [apply pow2_ge_0|]; apply Rlt_le, Rinv_0_lt_compat; lra).
    destruct (Rle_dec D d) as [H|H].
    - specialize (Hd x Lx). assert (W : within d z x) by (intros j; pose proof (taxi_within z x ltac:(congruence) j) as W; fold D in W; lra). specialize (Hd W). apply Rabs_le_between in Hd || (unfold Rabs in Hd; destruct (Rcase_abs (F x - F z))); lra.
    - set (t := d / D). assert (Ht : 0 < t <= 1). { split; [apply Rdiv_lt_0_compat; lra|]. apply Rmult_le_reg_r with D; [lra|]. unfold t. replace (d / D * D) with d by (field; lra). lra. }
      set (p := lincomb t (1 - t) x z). assert (Lp : length p = n) by (unfold p; rewrite length_lincomb; congruence).
      assert (Wp : within d z p).
      { intros j. pose proof (taxi_within z p ltac:(congruence) j) as W. assert (Ep : taxi z p = t * D) by (apply taxi_toward; [congruence|lra]). rewrite Ep in W. replace (t * D) with d in W by (unfold t; field; lra). exact W. }
      specialize (Hd p Lp Wp). pose proof (Strong x z t Lx Lz ltac:(lra)) as S. fold p in S. pose proof (G_taxi x z Lx Lz) as Gt. fold k in Gt.
      assert (Et : taxi x z = D).
      { unfold D, taxi, Rsum. clear. revert z. induction x as [|u x IH]; intros [|v z]; cbn; try reflexivity. rewrite IH, (Rabs_minus_sym u v). reflexivity. }
      rewrite Et in Gt.
      assert (S1 : F z - 1 <= t * F x + (1 - t) * F z - t * (1 - t) * (k * D ^ 2)).
      { assert (t * (1 - t) * (k * D ^ 2) <= t * (1 - t) * G x z) by (apply Rmult_le_compat_l; [apply Rmult_le_pos; lra|exact Gt]). apply Rabs_le_between in Hd || (unfold Rabs in Hd; destruct (Rcase_abs (F p - F z))); lra. }
      assert (S2 : F z - D / d + (1 - t) * (k * D ^ 2) <= F x).
      { apply Rmult_le_reg_l with t; [lra|]. replace (t * (F z - D / d + (1 - t) * (k * D ^ 2))) with (t * F z - t * D / d + t * (1 - t) * (k * D ^ 2)) by (field; lra).
        replace (t * D / d) with 1 by (unfold t; field; lra). lra. }
      replace ((1 - t) * (k * D ^ 2)) with (k * D ^ 2 - k * d * D) in S2 by (unfold t; field; lra).
      assert (E : 0 <= (2 * k * D - a) ^ 2 / (4 * k)) by (apply Rmult_le_pos; [apply pow2_ge_0|]; apply Rlt_le, Rinv_0_lt_compat; lra).
      replace ((2 * k * D - a) ^ 2 / (4 * k)) with (k * D ^ 2 - a * D + a ^ 2 / (4 * k)) in E by (field; lra). unfold a in E at 1. replace ((/ d + k * d) * D) with (D / d + k * d * D) in E by (field; lra). lra.
  Qed.

  (** The infimum. *)
  Lemma infimum : exists I, (forall x, length x = n -> C x -> I <= F x) /\ forall e, 0 < e -> exists x, length x = n /\ C x /\ F x <= I + e.
  Proof using Strong Pm Gm Lz Cz.
    destruct bounded_below as (B & HB). set (E := fun r => exists x, length x = n /\ C x /\ r = - F x).
    destruct (completeness E) as (s & Ub & Lub).
    - exists (- B). intros r (x & Lx & _ & ->). specialize (HB x Lx). lra.
    - exists (- F z), z. auto.
    - exists (- s). split.
      + intros x Lx Cx. assert (- F x <= s) by (apply Ub; exists x; auto). lra.
      + intros e Pe. destruct (Classical_Prop.classic (exists x, length x = n /\ C x /\ F x <= - s + e)) as [|N]; [assumption|exfalso].
        assert (s <= s - e); [|lra]. apply Lub. intros r (x & Lx & Cx & ->). destruct (Rle_dec (F x) (- s + e)) as [Hx|Hx]; [|lra]. exfalso. apply N. exists x. auto.
  Qed.
  Lemma attained : exists x, length x = n /\ C x /\ forall y, length y = n -> C y -> F x <= F y.
  Proof using All.
    destruct infimum as (I & Low & Near).
    assert (Diam : forall e x y j, 0 < e -> length x = n -> length y = n -> C x -> C y -> F x <= I + e -> F y <= I + e -> m * (nth j y 0 - nth j x 0) ^ 2 <= 4 * e).
    { intros e x y j Pe Lx Ly Cx Cy Fx Fy. pose proof (Strong x y (1/2) Lx Ly ltac:(lra)) as S. assert (Lh : length (lincomb (1/2) (1 - 1/2) x y) = n) by (rewrite length_lincomb; congruence). pose proof (Low _ Lh (Conv x y Lx Ly Cx Cy)) as L.
      pose proof (Gm x y j Lx Ly). lra. }
    (* the limit, coordinate by coordinate *)
    assert (Lim : forall j, exists a, forall e x, 0 < e -> length x = n -> C x -> F x <= I + e -> m * (nth j x 0 - a) ^ 2 <= 4 * e).
    { intros j. set (E := fun r => exists e, 0 < e /\ forall x, length x = n -> C x -> F x <= I + e -> r <= nth j x 0).
      destruct (completeness E) as (a & Ub & Lub).
      - destruct (Near 1 ltac:(lra)) as (x1 & L1 & C1 & F1). exists (nth j x1 0 + sqrt (4 / m)). intros r (e & Pe & H). set (e1 := Rmin e 1). assert (0 < e1) by (apply Rmin_pos; lra).
        assert (e1 <= 1) by apply Rmin_r. assert (e1 <= e) by apply Rmin_l. destruct (Near e1 ltac:(assumption)) as (x2 & L2 & C2 & F2). pose proof (H x2 L2 C2 ltac:(lra)) as Hr.
        pose proof (Diam 1 x1 x2 j ltac:(lra) L1 L2 C1 C2 ltac:(lra) ltac:(lra)) as D. assert (nth j x2 0 - nth j x1 0 <= sqrt (4 / m)); [|lra].
        apply Rle_trans with (Rabs (nth j x2 0 - nth j x1 0)); [apply Rle_abs|]. rewrite <- sqrt_Rsqr_abs. apply sqrt_le_1_alt. unfold Rsqr. apply Rmult_le_reg_l with m; [exact Pm|]. replace (m * (4 / m)) with 4 by (field; lra). lra.
      - destruct (Near 1 ltac:(lra)) as (x1 & L1 & C1 & F1). exists (nth j x1 0 - sqrt (4 / m)), 1. split; [lra|]. intros x Lx Cx Fx. pose proof (Diam 1 x1 x j ltac:(lra) L1 Lx C1 Cx F1 Fx) as D.
        assert (nth j x1 0 - nth j x 0 <= sqrt (4 / m)); [|lra]. apply Rle_trans with (Rabs (nth j x1 0 - nth j x 0)); [apply Rle_abs|]. rewrite <- sqrt_Rsqr_abs. apply sqrt_le_1_alt. unfold Rsqr.
        apply Rmult_le_reg_l with m; [exact Pm|]. replace (m * (4 / m)) with 4 by (field; lra). lra.
      - exists a. intros e x Pe Lx Cx Fx. set (w := sqrt (4 * e / m)).
        assert (Pw : 0 <= w) by apply sqrt_pos. assert (Ew : w * w = 4 * e / m) by (apply sqrt_def; apply Rmult_le_pos; [lra|apply Rlt_le, Rinv_0_lt_compat, Pm]).
        assert (Dw : forall y, length y = n -> C y -> F y <= I + e -> Rabs (nth j y 0 - nth j x 0) <= w).
        { intros y Ly Cy Fy. rewrite <- sqrt_Rsqr_abs. apply sqrt_le_1_alt. unfold Rsqr. pose proof (Diam e x y j Pe Lx Ly Cx Cy Fx Fy). apply Rmult_le_reg_l with m; [exact Pm|]. replace (m * (4 * e / m)) with (4 * e) by (field; lra). lra. }
        assert (A1 : nth j x 0 - w <= a). { apply Ub. exists e. split; [exact Pe|]. intros y Ly Cy Fy. specialize (Dw y Ly Cy Fy). unfold Rabs in Dw. destruct (Rcase_abs _) in Dw; lra. }
        assert (A2 : a <= nth j x 0 + w).
        { apply Lub. intros r (e' & Pe' & H). set (e1 := Rmin e' e). assert (0 < e1) by (apply Rmin_pos; lra). assert (e1 <= e') by apply Rmin_l. assert (e1 <= e) by apply Rmin_r.
          destruct (Near e1 ltac:(assumption)) as (y & Ly & Cy & Fy). pose proof (H y Ly Cy ltac:(lra)). pose proof (Dw y Ly Cy ltac:(lra)) as D. unfold Rabs in D. destruct (Rcase_abs _) in D; lra. }
        assert ((nth j x 0 - a) ^ 2 <= w * w) by (replace (w * w) with (w ^ 2) by ring; rewrite <- (pow2_abs (nth j x 0 - a)); apply pow_incr; split; [apply Rabs_pos|apply Rabs_le; lra]).
        apply Rle_trans with (m * (w * w)); [apply Rmult_le_compat_l; lra|]. rewrite Ew. right. field. lra. }
    assert (Vec : forall k, exists x, length x = k /\ forall j, (j < k)%nat -> forall e y, 0 < e -> length y = n -> C y -> F y <= I + e -> m * (nth j y 0 - nth j x 0) ^ 2 <= 4 * e).
    { induction k as [|k (x & L & H)]; [exists []; split; [reflexivity|]; intros; lia|]. destruct (Lim k) as (a & Ha). exists (x ++ [a]). split; [rewrite app_length; cbn; lia|].
      intros j Hj e y. destruct (Nat.eq_dec j k) as [->|Hne].
      - rewrite (app_nth2 x) by lia. rewrite L, Nat.sub_diag. cbn [nth]. apply Ha.
      - rewrite (app_nth1 x) by lia. apply H. lia. }
    destruct (Vec n) as (x & Lx & H). 
    assert (App : forall d e, 0 < d -> 0 < e -> exists y, length y = n /\ C y /\ within d x y /\ F y <= I + e).
    { intros d e Pd Pe. set (e1 := Rmin e (m * d ^ 2 / 4)). assert (P1 : 0 < e1). { apply Rmin_pos; [exact Pe|]. apply Rdiv_lt_0_compat; [|lra]. apply Rmult_lt_0_compat; [exact Pm|]. apply pow_lt, Pd. }
      assert (E1 : e1 <= e) by apply Rmin_l. assert (E2 : e1 <= m * d ^ 2 / 4) by apply Rmin_r. destruct (Near e1 P1) as (y & Ly & Cy & Fy). exists y. split; [exact Ly|]. split; [exact Cy|]. split; [|lra].
      intros j. destruct (lt_dec j n) as [Hj|Hj].
      - pose proof (H j Hj e1 y P1 Ly Cy Fy) as D. rewrite <- sqrt_Rsqr_abs. rewrite <- (sqrt_Rsqr d) by lra. apply sqrt_le_1_alt. unfold Rsqr. apply Rmult_le_reg_l with m; [exact Pm|]. lra.
      - rewrite !nth_overflow by lia. rewrite Rminus_0_r, Rabs_R0. lra. }
    assert (Cx : C x). { apply Closed; [exact Lx|]. intros d Pd. destruct (App d 1 Pd ltac:(lra)) as (y & A & B & D & _). exists y. auto. }
    exists x. split; [exact Lx|]. split; [exact Cx|]. intros y Ly Cy. apply Rle_trans with I; [|now apply Low].
    apply le_epsilon. intros e Pe. destruct (convex_continuous n F F_convex x Lx (e / 2) ltac:(lra)) as (d & Pd & Hd). destruct (App d (e / 2) Pd ltac:(lra)) as (w & Lw & Cw & Ww & Fw).
    specialize (Hd w Lw Ww). unfold Rabs in Hd. destruct (Rcase_abs _) in Hd; lra.
  Qed.
End Attained.
