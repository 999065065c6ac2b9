(** Minimisers of convex functions that converge pointwise to a strongly convex
    function converge to its minimiser, for C130. *)
From Coq Require Import List Bool Arith ZArith Reals Lra Lia.
From Verif Require Import Base ModelArray SpecMath SpecField ProofField3 ProofSquares ProofBest ProofAttained.
Import ListNotations.
Open Scope R_scope.

(** For all sufficiently fine grids. *)
Definition eventually (P : nat -> nat -> Prop) : Prop := exists N0, forall i j, (N0 <= i)%nat -> (N0 <= j)%nat -> P i j.
Lemma eventually_and P Q : eventually P -> eventually Q -> eventually (fun i j => P i j /\ Q i j).
Proof. intros (a & A) (b & B). exists (Nat.max a b). intros i j Hi Hj. split; [apply A|apply B]; lia. Qed.
Lemma eventually_imp (P Q : nat -> nat -> Prop) : (forall i j, P i j -> Q i j) -> eventually P -> eventually Q.
Proof. intros H (a & A). exists a. auto. Qed.
Lemma eventually_all {A} (P : A -> nat -> nat -> Prop) l : (forall a, In a l -> eventually (P a)) -> eventually (fun i j => forall a, In a l -> P a i j).
Proof.
  induction l as [|a l IH]; intros H; [exists 0%nat; intros i j _ _ a []|]. destruct (eventually_and _ _ (H a (or_introl eq_refl)) (IH (fun b Hb => H b (or_intror Hb)))) as (N & HN).
  exists N. intros i j Hi Hj b Hb. destruct (HN i j Hi Hj) as (H1 & H2). destruct Hb as [<-|Hb]; auto.
Qed.

(** The corners of a box bound a convex function on it. *)
Lemma corners n : forall x r, length x = n -> 0 < r -> exists V, (forall v, In v V -> length v = n) /\
  forall g M, convexn n g -> (forall v, In v V -> g v <= M) -> forall y, length y = n -> within r x y -> g y <= M.
Proof.
  induction n as [|n IH]; intros x r L Pr.
  - exists [[]]. split; [intros v [<-|[]]; reflexivity|]. intros g M _ H [|] Ly _; [apply H; now left|discriminate].
  - destruct x as [|a x]; [discriminate|]. injection L as L. destruct (IH x r L Pr) as (V & LV & HV). exists (map (cons (a + r)) V ++ map (cons (a - r)) V). split.
    { intros v Hv. apply in_app_iff in Hv as [Hv|Hv]; apply in_map_iff in Hv as (w & <- & Hw); cbn; now rewrite LV. }
    intros g M C H.
    assert (Cc : forall b, convexn n (fun y => g (b :: y))).
    { intros b u v t Lu Lv Ht. specialize (C (b :: u) (b :: v) t ltac:(cbn; lia) ltac:(cbn; lia) Ht). rewrite lincomb_cons in C. replace (t * b + (1 - t) * b) with b in C by ring. exact C. }
    intros [|b y] Ly W; [discriminate|]. injection Ly as Ly. assert (Wy : within r x y) by (intros j; exact (W (S j))).
    assert (B1 : g (a + r :: y) <= M). { apply (HV (fun y => g (a + r :: y)) M (Cc _)); auto. intros v Hv. apply H, in_app_iff. left. now apply in_map. }
    assert (B2 : g (a - r :: y) <= M). { apply (HV (fun y => g (a - r :: y)) M (Cc _)); auto. intros v Hv. apply H, in_app_iff. right. now apply in_map. }
    pose proof (W 0%nat) as Wb. cbn in Wb. assert (Wb' : - r <= b - a <= r) by (unfold Rabs in Wb; destruct (Rcase_abs (b - a)); lra).
    set (t := (b - a + r) / (2 * r)). assert (Et : t * (2 * r) = b - a + r) by (unfold t; field; lra). assert (Ht : 0 <= t <= 1) by nra.
    pose proof (C ((a + r) :: y) ((a - r) :: y) t ltac:(cbn; lia) ltac:(cbn; lia) Ht) as K. rewrite lincomb_cons, lincomb_same in K.
    replace (t * (a + r) + (1 - t) * (a - r)) with b in K by lra. nra.
Qed.

(** A finite set of points near every point of a box. *)
Lemma net n : forall x r d, length x = n -> 0 < r -> 0 < d -> exists P, (forall p, In p P -> length p = n) /\
  forall y, length y = n -> within r x y -> exists p, In p P /\ within d p y.
Proof.
  induction n as [|n IH]; intros x r d L Pr Pd.
  - exists [[]]. split; [intros v [<-|[]]; reflexivity|]. intros [|] Ly _; [|discriminate]. exists []. split; [now left|]. intros j. rewrite Rminus_eq_0, Rabs_R0. lra.
  - destruct x as [|a x]; [discriminate|]. injection L as L. destruct (IH x r d L Pr Pd) as (P & LP & HP).
    set (K := Z.to_nat (up (2 * r / d))). exists (flat_map (fun k => map (cons (a - r + INR k * d)) P) (seq 0 (S K))). split.
    { intros p Hp. apply in_flat_map in Hp as (k & _ & Hp). apply in_map_iff in Hp as (w & <- & Hw). cbn. now rewrite LP. }
    intros [|b y] Ly W; [discriminate|]. injection Ly as Ly. destruct (HP y Ly ltac:(intros j; exact (W (S j)))) as (p & Ip & Wp).
    pose proof (W 0%nat) as Wb. cbn in Wb. assert (Wb' : - r <= b - a <= r) by (unfold Rabs in Wb; destruct (Rcase_abs (b - a)); lra).
    set (s := (b - a + r) / d). assert (Es : s * d = b - a + r) by (unfold s; field; lra). assert (Ps : 0 <= s) by (apply Rmult_le_reg_r with d; lra).
    destruct (archimed s) as (A1 & A2). destruct (archimed (2 * r / d)) as (A3 & _).
    assert (Up : (0 < up s)%Z) by (apply lt_IZR; lra).
    assert (Sl : s <= 2 * r / d). { apply Rmult_le_reg_r with d; [lra|]. replace (2 * r / d * d) with (2 * r) by (field; lra). lra. }
    assert (Ku : (up s - 1 <= up (2 * r / d))%Z). { apply le_IZR. rewrite minus_IZR. lra. }
    exists ((a - r + INR (Z.to_nat (up s - 1)) * d) :: p). split.
    + apply in_flat_map. exists (Z.to_nat (up s - 1)). split; [apply in_seq; unfold K; lia|]. now apply in_map.
    + intros [|j]; cbn [nth]; [|apply Wp]. rewrite INR_IZR_INZ, Z2Nat.id by lia. rewrite minus_IZR. apply Rabs_le.
      replace (b - (a - r + (IZR (up s) - 1) * d)) with ((s - (IZR (up s) - 1)) * d) by (ring_simplify; rewrite Es; ring). split; nra.
Qed.

Lemma taxi_near n x p y d : length x = n -> length p = n -> length y = n -> 0 <= d -> within d p y -> taxi x y - INR n * d <= taxi x p.
Proof.
  intros Lx Lp Ly Pd W. subst n. revert p y Lp Ly W. unfold taxi, Rsum. induction x as [|a x IH]; intros [|b p] [|c y] Lp Ly W; try discriminate; [cbn; lra|].
  cbn [map2 fold_right]. change (length (a :: x)) with (S (length x)). rewrite S_INR. specialize (IH p y ltac:(now injection Lp) ltac:(now injection Ly) (fun j => W (S j))).
  pose proof (W 0%nat) as W0. cbn in W0. pose proof (Rabs_triang (c - b) (b - a)) as T. replace (c - b + (b - a)) with (c - a) in T by ring. lra.
Qed.

(** A lower bound for a convex function near a point where its value is known. *)
Lemma near_below n g p y d M : convexn n g -> length p = n -> length y = n -> 0 < d -> within d p y -> (forall z, length z = n -> within 1 p z -> g z <= M) ->
  g p - d * (M - g p) <= g y.
Proof.
  intros C Lp Ly Pd W B. set (z := lincomb (1 + / d) (- / d) p y). assert (Lz : length z = n) by (unfold z; rewrite length_lincomb; congruence).
  assert (Wz : within 1 p z).
  { intros j. unfold z. rewrite lincomb_nth by congruence. replace ((1 + / d) * nth j p 0 + - / d * nth j y 0 - nth j p 0) with (- (/ d * (nth j y 0 - nth j p 0))) by ring.
    rewrite Rabs_Ropp, Rabs_mult, (Rabs_right (/ d)) by (apply Rle_ge, Rlt_le, Rinv_0_lt_compat; lra). apply Rmult_le_reg_l with d; [lra|]. rewrite <- Rmult_assoc, Rinv_r by lra. specialize (W j). lra. }
  specialize (B z Lz Wz). set (t := d / (1 + d)). assert (Ht : 0 <= t <= 1).
  { unfold t. split; [apply Rmult_le_pos; [lra|apply Rlt_le, Rinv_0_lt_compat; lra]|]. apply Rmult_le_reg_r with (1 + d); [lra|]. unfold Rdiv. rewrite Rmult_assoc, Rinv_l by lra. lra. }
  pose proof (C z y t Lz Ly Ht) as K. replace (lincomb t (1 - t) z y) with p in K.
  - assert (E1 : t * (1 + d) = d) by (unfold t; field; lra). assert (K2 : (1 + d) * g p <= d * g z + g y).
    { apply Rle_trans with ((1 + d) * (t * g z + (1 - t) * g y)); [apply Rmult_le_compat_l; lra|]. right. replace ((1 + d) * (t * g z + (1 - t) * g y)) with ((t * (1 + d)) * g z + ((1 + d) - t * (1 + d)) * g y) by ring. rewrite E1. ring. }
    assert (d * g z <= d * M) by (apply Rmult_le_compat_l; lra). lra.
  - unfold z, t. clear - Lp Ly Pd. subst n. revert y Ly. induction p as [|a p IH]; intros [|b y] Ly; try discriminate; [reflexivity|]. rewrite !lincomb_cons. f_equal; [field; lra|]. apply IH. now injection Ly.
Qed.

Section Minimisers.
  Variables (n : nat) (F : list R -> R) (G : list R -> list R -> R) (m : R) (Fs : nat -> nat -> list R -> R) (X : list R).
  Hypothesis Pm : 0 < m.
  Hypothesis Gm : forall x y j, length x = n -> length y = n -> m * (nth j y 0 - nth j x 0) ^ 2 <= G x y.
  Hypothesis LX : length X = n.
  Hypothesis Grow : forall y, length y = n -> F X + G X y <= F y.
  Hypothesis Cv : eventually (fun i j => convexn n (Fs i j)).
  Hypothesis Lim : forall x, length x = n -> forall e, 0 < e -> eventually (fun i j => Rabs (Fs i j x - F x) <= e).
  Let k := m / (INR n + 1) ^ 2.
  Lemma k_pos : 0 < k.
  Proof using Pm. unfold k. apply Rdiv_lt_0_compat; [exact Pm|]. apply pow_lt. pose proof (pos_INR n). lra. Qed.
  Lemma grow_taxi y : length y = n -> F X + k * taxi X y ^ 2 <= F y.
  Proof using Pm Gm LX Grow. intros Ly. pose proof (Grow y Ly). pose proof (G_taxi n G m Pm Gm X y LX Ly). unfold k. lra. Qed.

  Lemma lim_list e l : 0 < e -> (forall x, In x l -> length x = n) -> eventually (fun i j => forall x, In x l -> Rabs (Fs i j x - F x) <= e).
  Proof using Lim. intros Pe H. apply (eventually_all (fun x i j => Rabs (Fs i j x - F x) <= e)). intros x Hx. apply Lim; auto. Qed.

  (** Below, uniformly on a box. *)
  Lemma uniform_below r e : 0 < r -> 0 < e -> exists d, 0 < d /\ (INR n * d <= e) /\
    eventually (fun i j => convexn n (Fs i j) /\ Rabs (Fs i j X - F X) <= e /\ forall y, length y = n -> within r X y ->
      exists p, length p = n /\ within d p y /\ F p - e <= Fs i j y).
  Proof using Pm Gm LX Grow Cv Lim.
    intros Pr Pe. destruct (corners n X (r + 2) LX ltac:(lra)) as (V & LV & HV).
    assert (BM : exists M, forall v, In v V -> F v + 1 <= M).
    { clear. induction V as [|v V (M & H)]; [exists 0; intros v []|]. exists (Rmax M (F v + 1)). intros w [<-|Hw]; [apply Rmax_r|]. eapply Rle_trans; [now apply H|apply Rmax_l]. }
    destruct BM as (M0 & HM0). set (M := Rmax M0 (F X)). assert (M1 : M0 <= M) by apply Rmax_l. assert (M2 : F X <= M) by apply Rmax_r.
    set (D := M - F X + 1). assert (PD : 1 <= D) by (unfold D; lra). pose proof (pos_INR n) as Pn.
    set (d := Rmin 1 (Rmin (e / 2 / D) (e / (INR n + 1)))).
    assert (P1 : 0 < e / 2 / D) by (apply Rdiv_lt_0_compat; lra). assert (P2 : 0 < e / (INR n + 1)) by (apply Rdiv_lt_0_compat; lra).
    assert (Pd : 0 < d) by (unfold d; repeat apply Rmin_pos; lra). assert (D1 : d <= 1) by apply Rmin_l. assert (D23 : d <= Rmin (e / 2 / D) (e / (INR n + 1))) by apply Rmin_r.
    assert (D2 : d <= e / 2 / D) by (eapply Rle_trans; [exact D23|apply Rmin_l]). assert (D3 : d <= e / (INR n + 1)) by (eapply Rle_trans; [exact D23|apply Rmin_r]). clear D23. clearbody d.
    assert (D4 : d * D <= e / 2). { apply Rle_trans with (e / 2 / D * D); [apply Rmult_le_compat_r; lra|]. right. field. lra. }
    assert (D5 : INR n * d <= e). { apply Rle_trans with ((INR n + 1) * (e / (INR n + 1))); [|right; field; lra]. apply Rmult_le_compat; lra. }
    destruct (net n X r d LX Pr Pd) as (P & LP & HP). exists d. split; [exact Pd|]. split; [exact D5|].
    set (u := Rmin 1 (e / 4)). assert (Pu : 0 < u) by (apply Rmin_pos; lra). assert (U1 : u <= 1) by apply Rmin_l. assert (U2 : u <= e / 4) by apply Rmin_r. clearbody u.
    pose proof (lim_list u (X :: V ++ P) Pu) as Ev.
    assert (LL : forall x, In x (X :: V ++ P) -> length x = n) by (intros x [<-|Hx]; [exact LX|]; apply in_app_iff in Hx as [Hx|Hx]; auto).
    apply (eventually_imp (fun i j => convexn n (Fs i j) /\ forall x, In x (X :: V ++ P) -> Rabs (Fs i j x - F x) <= u)); [|apply eventually_and; auto].
    intros i j (C & H). split; [exact C|]. assert (HX : Rabs (Fs i j X - F X) <= u) by (apply H; now left). split; [lra|].
    intros y Ly W. destruct (HP y Ly W) as (p & Ip & Wp). exists p. specialize (LP p Ip). split; [exact LP|]. split; [exact Wp|].
    assert (Up : forall z, length z = n -> within 1 p z -> Fs i j z <= M).
    { intros z Lz Wz. apply (HV (Fs i j) M C); [|exact Lz|].
      - intros v Hv. specialize (HM0 v Hv). assert (Hv' : Rabs (Fs i j v - F v) <= u) by (apply H; right; apply in_app_iff; auto). unfold Rabs in Hv'. destruct (Rcase_abs _) in Hv'; lra.
      - intros l. specialize (W l). specialize (Wp l). specialize (Wz l). replace (nth l z 0 - nth l X 0) with ((nth l z 0 - nth l p 0) + (- (nth l y 0 - nth l p 0) + (nth l y 0 - nth l X 0))) by ring.
        eapply Rle_trans; [apply Rabs_triang|]. pose proof (Rabs_triang (- (nth l y 0 - nth l p 0)) (nth l y 0 - nth l X 0)) as T. rewrite Rabs_Ropp in T. lra. }
    pose proof (near_below n (Fs i j) p y d M C LP Ly Pd Wp Up) as B. assert (Hp : Rabs (Fs i j p - F p) <= u) by (apply H; right; apply in_app_iff; auto).
    assert (Gp : F X <= F p). { pose proof (grow_taxi p LP). pose proof k_pos. pose proof (pow2_ge_0 (taxi X p)). assert (0 <= k * taxi X p ^ 2) by (apply Rmult_le_pos; lra). lra. }
    assert (L1 : F p - u <= Fs i j p) by (unfold Rabs in Hp; destruct (Rcase_abs _) in Hp; lra).
    assert (L2 : d * (M - Fs i j p) <= d * D). { apply Rmult_le_compat_l; [lra|]. unfold D. lra. } lra.
  Qed.

  Lemma sphere s : 0 < s -> exists c, 0 < c /\ eventually (fun i j => convexn n (Fs i j) /\ forall y, length y = n -> taxi X y = s -> Fs i j X + c <= Fs i j y).
  Proof using Pm Gm LX Grow Cv Lim.
    intros Ps. pose proof k_pos as Pk. set (c := k * s ^ 2 / 16). assert (Pc : 0 < c) by (unfold c; apply Rdiv_lt_0_compat; [|lra]; apply Rmult_lt_0_compat; [lra|now apply pow_lt]).
    exists c. split; [exact Pc|]. destruct (uniform_below s (Rmin c (s / 2)) Ps ltac:(apply Rmin_pos; lra)) as (d & Pd & Dn & Ev). assert (R1 : Rmin c (s / 2) <= c) by apply Rmin_l. assert (R2 : Rmin c (s / 2) <= s / 2) by apply Rmin_r.
    revert Ev. apply eventually_imp. intros i j (C & HX & H). split; [exact C|]. intros y Ly T. destruct (H y Ly) as (p & Lp & Wp & B).
    { rewrite <- T. apply taxi_within. congruence. }
    pose proof (taxi_near n X p y d LX Lp Ly ltac:(lra) Wp) as N. pose proof (grow_taxi p Lp) as Gp. assert (Q : (s / 2) ^ 2 <= taxi X p ^ 2) by (apply pow_incr; lra).
    assert (Q2 : k * (s / 2) ^ 2 <= k * taxi X p ^ 2) by (apply Rmult_le_compat_l; lra). assert (E : k * (s / 2) ^ 2 = 4 * c) by (unfold c; field). unfold Rabs in HX. destruct (Rcase_abs _) in HX; lra.
  Qed.

  Theorem minimisers_converge e : 0 < e -> exists c, 0 < c /\ eventually (fun i j => forall x, length x = n -> Fs i j x <= Fs i j X + c -> within e X x /\ Rabs (Fs i j x - F X) <= e).
  Proof using Pm Gm LX Grow Cv Lim.
    intros Pe. destruct (sphere e Pe) as (c & Pc & E1). destruct (uniform_below e (e / 2) Pe ltac:(lra)) as (d & _ & _ & E2). exists (Rmin (c / 2) (e / 2)). split; [apply Rmin_pos; lra|].
    assert (R1 : Rmin (c / 2) (e / 2) <= c / 2) by apply Rmin_l. assert (R2 : Rmin (c / 2) (e / 2) <= e / 2) by apply Rmin_r.
    generalize (eventually_and _ _ E1 E2). apply eventually_imp. intros i j ((C & H1) & (_ & HX & H2)) x Lx Hx.
    assert (T : taxi X x <= e).
    { apply Rnot_lt_le. intros Gt. set (t := e / taxi X x). assert (Et : t * taxi X x = e) by (unfold t; field; lra).
      assert (Ht : 0 <= t <= 1). { split; [unfold t; apply Rmult_le_pos; [lra|apply Rlt_le, Rinv_0_lt_compat; lra]|]. apply Rmult_le_reg_r with (taxi X x); lra. }
      pose proof (taxi_toward t x X ltac:(congruence) ltac:(lra)) as Ty. rewrite Et in Ty. pose proof (H1 (lincomb t (1 - t) x X) ltac:(rewrite length_lincomb; congruence) Ty) as Low.
      pose proof (C x X t Lx LX Ht) as Up. assert (t * Fs i j x <= t * (Fs i j X + c / 2)) by (apply Rmult_le_compat_l; lra). nra. }
    assert (W : within e X x). { intros l. eapply Rle_trans; [apply taxi_within; congruence|exact T]. }
    split; [exact W|]. destruct (H2 x Lx W) as (p & Lp & _ & Lo). pose proof (grow_taxi p Lp). pose proof k_pos. pose proof (pow2_ge_0 (taxi X p)). assert (0 <= k * taxi X p ^ 2) by (apply Rmult_le_pos; lra).
    apply Rabs_le. unfold Rabs in HX. destruct (Rcase_abs _) in HX; lra.
  Qed.
End Minimisers.
