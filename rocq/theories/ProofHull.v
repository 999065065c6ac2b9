(** The hull scan keeps the corners of the hull (positive part of C82). *)
From Coq Require Import List Bool Arith Lia Reals Lra Permutation Sorted.
From Coquelicot Require Import Coquelicot.
From Verif Require Import Base ModelWinding SpecWinding ProofWinding4.
Import ListNotations.
Open Scope R_scope.

(** ** The sort *)
Lemma lex_le_total p q : lex_le p q = false -> lex_le q p = true.
Proof.
  unfold lex_le. destruct (Rlt_dec (fst p) (fst q)), (Rlt_dec (fst q) (fst p)); try discriminate; try lra; auto.
  destruct (Rle_dec (snd p) (snd q)), (Rle_dec (snd q) (snd p)); try discriminate; auto; lra.
Qed.
Lemma lex_le_trans p q s : lex_le p q = true -> lex_le q s = true -> lex_le p s = true.
Proof.
  unfold lex_le.
  repeat match goal with |- context [Rlt_dec ?a ?b] => destruct (Rlt_dec a b) | |- context [Rle_dec ?a ?b] => destruct (Rle_dec a b) end;
    try discriminate; try reflexivity; intros; lra.
Qed.
Lemma lex_le_means p q : lex_le p q = true -> fst p < fst q \/ fst p = fst q /\ snd p <= snd q.
Proof.
  unfold lex_le. destruct (Rlt_dec (fst p) (fst q)); [auto|]. destruct (Rlt_dec (fst q) (fst p)); [discriminate|].
  destruct (Rle_dec (snd p) (snd q)); [|discriminate]. intros _. right. split; lra.
Qed.

Definition before (key : nat -> R * R) (i j : nat) : Prop := lex_le (key i) (key j) = true.

Lemma insert_perm key i l : Permutation (insert_idx key i l) (i :: l).
Proof.
  induction l as [|j l IH]; simpl; [reflexivity|]. destruct (lex_le _ _); [reflexivity|].
  rewrite IH. apply perm_swap.
Qed.
Lemma insert_sorted key i l : StronglySorted (before key) l -> StronglySorted (before key) (insert_idx key i l).
Proof.
  induction 1 as [|j l Hs IH Hf]; simpl; [repeat constructor|].
  destruct (lex_le (key i) (key j)) eqn:E.
  - constructor; [constructor; assumption|]. constructor; [exact E|].
    eapply Forall_impl; [|exact Hf]. intros a Ha. exact (lex_le_trans _ _ _ E Ha).
  - constructor; [exact IH|]. apply Forall_forall. intros a Ha.
    apply (Permutation_in _ (insert_perm key i l)) in Ha. destruct Ha as [<-|Ha].
    + exact (lex_le_total _ _ E).
    + rewrite Forall_forall in Hf. apply Hf. exact Ha.
Qed.
Lemma lexsort_perm key n : Permutation (lexsort key n) (seq 0 n).
Proof.
  unfold lexsort. induction (seq 0 n) as [|i l IH]; simpl; [reflexivity|]. rewrite insert_perm, IH. reflexivity.
Qed.
Lemma lexsort_sorted key n : StronglySorted (before key) (lexsort key n).
Proof.
  unfold lexsort. induction (seq 0 n) as [|i l IH]; simpl; [constructor|]. apply insert_sorted. exact IH.
Qed.

(** ** One index per angle *)
Lemma keep_incl angle a l i : In i (keep_unique angle a l) -> In i l.
Proof.
  revert a. induction l as [|j l IH]; intros a; simpl; [auto|]. destruct (Req_EM_T _ _).
  - intros H. right. exact (IH _ H).
  - intros [->|H]; [auto|]. right. exact (IH _ H).
Qed.
(** What is left out has the angle of something that comes before it. *)
Lemma keep_missing key angle l : (forall i, fst (key i) = angle i) ->
  forall first, StronglySorted (before key) (first :: l) ->
  forall i, In i l -> ~ In i (first :: keep_unique angle (angle first) l) ->
  exists j, In j (first :: l) /\ j <> i /\ angle j = angle i /\ snd (key j) <= snd (key i).
Proof.
  intros Hk. induction l as [|j l IH]; intros first Hs i Hi Hn; [contradiction|].
  inversion Hs as [|? ? Hs' Hf]; subst. inversion Hs' as [|? ? Hs'' Hf']; subst.
  simpl in Hn. destruct (Req_EM_T (angle j) (angle first)) as [E|E].
  - assert (Hs1 : StronglySorted (before key) (first :: l)).
    { constructor; [exact Hs''|]. inversion Hf; assumption. }
    destruct (Nat.eq_dec i j) as [->|Hij].
    + exists first. split; [left; reflexivity|]. split; [intros ->; apply Hn; left; reflexivity|].
      split; [symmetry; exact E|]. inversion Hf as [|? ? Hb _]; subst.
      apply lex_le_means in Hb. rewrite !Hk in Hb. destruct Hb as [Hb|[_ Hb]]; [lra|exact Hb].
    + destruct Hi as [->|Hi]; [contradiction|].
      destruct (IH first Hs1 i Hi Hn) as (k & K1 & K2 & K3). exists k. split; [|auto].
      destruct K1 as [->|K1]; [left; reflexivity|right; right; exact K1].
  - destruct (Nat.eq_dec i j) as [->|Hij]; [exfalso; apply Hn; right; left; reflexivity|].
    destruct Hi as [->|Hi]; [contradiction|].
    destruct (IH j Hs' i Hi) as (k & K1 & K2 & K3).
    + intros [H|H]; [congruence|]. apply Hn. right. right. exact H.
    + exists k. split; [right; exact K1|auto].
Qed.
(** The kept angles increase. *)
Lemma keep_increasing key angle l : (forall i, fst (key i) = angle i) ->
  forall first, StronglySorted (before key) (first :: l) ->
  StronglySorted (fun i j => angle i < angle j) (first :: keep_unique angle (angle first) l).
Proof.
  intros Hk. induction l as [|j l IH]; intros first Hs; [repeat constructor|].
  inversion Hs as [|? ? Hs' Hf]; subst. inversion Hs' as [|? ? Hs'' Hf']; subst. simpl.
  destruct (Req_EM_T (angle j) (angle first)) as [E|E].
  - apply IH. constructor; [exact Hs''|]. inversion Hf; assumption.
  - specialize (IH j Hs').
    assert (Hlt : angle first < angle j).
    { inversion Hf as [|? ? Hb _]; subst. apply lex_le_means in Hb. rewrite !Hk in Hb. destruct Hb as [Hb|[Hb _]]; [exact Hb|].
      exfalso. apply E. symmetry. exact Hb. }
    constructor; [exact IH|]. inversion IH as [|? ? _ Hj]; subst.
    constructor; [exact Hlt|]. eapply Forall_impl; [|exact Hj]. intros a Ha. cbv beta in Ha. lra.
Qed.

(** ** The scan *)
Section Scan.
  Variable p : nat -> R * R.
  Variables (ox oy : R) (M star : nat).
  (** Vector from the pivot (ox, oy) to point k. *)
  Let X k := fst (p k) - ox.
  Let Y k := snd (p k) - oy.
  Hypothesis turn : forall k l, (0 < k)%nat -> (k < l)%nat -> (l < M)%nat -> 0 < X k * Y l - X l * Y k.
  Hypothesis turn0 : (X 0%nat = 0 /\ Y 0%nat = 0) \/ forall l, (0 < l)%nat -> (l < M)%nat -> 0 < X 0%nat * Y l - X l * Y 0%nat.
  Hypothesis out : star = 0%nat \/ exists a b, 0 < a * X star + b * Y star /\
    forall k, (k < M)%nat -> k <> star -> a * X k + b * Y k < a * X star + b * Y star.

  Lemma star_stays k i : (k < star)%nat -> (star < i)%nat -> (i < M)%nat -> 0 < ccw p k star i.
  Proof.
    intros H1 H2 H3. unfold ccw.
    set (c := _ - _).
    assert (E : c = (X star - X k) * (Y i - Y k) - (X i - X k) * (Y star - Y k)) by (unfold c, X, Y; ring).
    rewrite E. clearbody c. clear c E.
    assert (T1 : 0 < X star * Y i - X i * Y star) by (apply turn; lia).
    destruct out as [->|(a & b & Hp & Ho)]; [lia|].
    assert (Ok : a * X k + b * Y k < a * X star + b * Y star) by (apply Ho; lia).
    assert (Oi : a * X i + b * Y i < a * X star + b * Y star) by (apply Ho; lia).
    assert (C : (X k = 0 /\ Y k = 0) \/ 0 < X k * Y star - X star * Y k /\ 0 < X k * Y i - X i * Y k).
    { destruct (Nat.eq_dec k 0) as [->|Hk].
      - destruct turn0 as [T|T]; [left; exact T|right; split; apply T; lia].
      - right; split; apply turn; lia. }
    destruct C as [[C1 C2]|[C1 C2]].
    { rewrite C1, C2. lra. }
    destruct (Rlt_dec 0 ((X star - X k) * (Y i - Y k) - (X i - X k) * (Y star - Y k))) as [H|H]; [exact H|exfalso].
    set (u := X star * Y i - X i * Y star) in *. set (v := X k * Y star - X star * Y k) in *.
    set (w := X k * Y i - X i * Y k) in *.
    assert (Hs : u + v <= w) by (unfold u, v, w; lra).
    set (s := a * X star + b * Y star) in *. set (fk := a * X k + b * Y k) in *. set (fi := a * X i + b * Y i) in *.
    assert (Id : w * s = u * fk + v * fi) by (unfold w, s, u, v, fk, fi; ring).
    assert (u * fk < u * s) by (apply Rmult_lt_compat_l; assumption).
    assert (v * fi < v * s) by (apply Rmult_lt_compat_l; assumption).
    assert ((u + v) * s <= w * s) by (apply Rmult_le_compat_r; lra).
    lra.
  Qed.

  Definition good (i : nat) (st : list nat) : Prop :=
    StronglySorted gt st /\ List.Forall (fun k => (k < i)%nat) st /\ ((star < i)%nat -> In star st) /\ (exists st', st = st' ++ [0%nat]).

  Lemma pop_good i st : (i < M)%nat -> good i st ->
    good i (pop_stack p i st).
  Proof.
    intros Hi. induction st as [|b st IH]; intros (Hs & Hf & Hin & (st' & Hl)); [destruct st'; discriminate|].
    destruct st as [|a rest]; [repeat split; try assumption; exists st'; exact Hl|].
    cbn [pop_stack]. destruct (Rle_dec (ccw p a b i) 0) as [H|H]; [|repeat split; try assumption; exists st'; exact Hl].
    apply IH. inversion Hs as [|? ? Hs' Hf']; subst. inversion Hf as [|? ? Hb Hr]; subst. inversion Hf' as [|? ? Hab _]; subst.
    split; [exact Hs'|]. split; [exact Hr|]. split.
    - intros Hlt. destruct (Hin Hlt) as [E|E]; [|exact E]. exfalso.
      pose proof (star_stays a i) as P1. rewrite <- E in P1. specialize (P1 ltac:(lia) ltac:(lia) Hi). lra.
    - destruct st' as [|c st'']; [discriminate|]. injection Hl as -> Hl. exists st''. exact Hl.
  Qed.

  Lemma push_good i st : (0 < i)%nat -> (i < M)%nat -> good i st -> good (S i) (i :: pop_stack p i st).
  Proof.
    intros H0 Hi Hg. destruct (pop_good i st Hi Hg) as (Hs & Hf & Hin & (st' & Hl)).
    split; [constructor; [exact Hs|]|split; [constructor; [lia|]|split]].
    - eapply Forall_impl; [|exact Hf]. intros k Hk. cbv beta in Hk. lia.
    - eapply Forall_impl; [|exact Hf]. intros k Hk. cbv beta in Hk. lia.
    - intros Hlt. destruct (Nat.eq_dec star i) as [->|Hn]; [left; reflexivity|right; apply Hin; lia].
    - exists (i :: st'). rewrite Hl. reflexivity.
  Qed.

  Lemma scan_keeps : (2 <= M)%nat -> (star < M)%nat ->
    In star (fold_left (fun stack i => i :: pop_stack p i stack) (seq 2 (M - 2)) [1%nat; 0%nat]).
  Proof.
    intros HM Hst.
    assert (G : forall n i st, (0 < i)%nat -> (i + n <= M)%nat -> good i st ->
      good (i + n) (fold_left (fun stack i => i :: pop_stack p i stack) (seq i n) st)).
    { induction n as [|n IH]; intros i st H0 Hn Hg; simpl; [rewrite Nat.add_0_r; exact Hg|].
      rewrite Nat.add_succ_r, <- Nat.add_succ_l. apply IH; [lia|lia|]. apply push_good; [lia|lia|exact Hg]. }
    destruct (G (M - 2)%nat 2%nat [1%nat; 0%nat]) as (_ & _ & H & _); [lia|lia| |].
    - split; [repeat constructor; lia|]. split; [repeat constructor; lia|]. split.
      + intros Hlt. destruct star as [|[|k]]; simpl; auto; lia.
      + exists [1%nat]. reflexivity.
    - apply H. lia.
  Qed.
End Scan.

(** ** Angles of the upper half plane *)
Lemma upper_angle x y : 0 < y \/ y = 0 /\ 0 < x -> 0 <= atan2 y x < PI.
Proof.
  intros H. pose proof PI_RGT_0 as HP. unfold atan2.
  destruct (Rlt_dec 0 x) as [Hx|Hx].
  - assert (0 <= y / x) by (apply Rmult_le_pos; [lra|left; apply Rinv_0_lt_compat; lra]).
    pose proof (atan_bound (y / x)) as [_ B].
    assert (0 <= atan (y / x)).
    { rewrite <- atan_0. destruct (Req_dec (y / x) 0) as [->|Hne]; [lra|]. left. apply atan_increasing. lra. }
    lra.
  - destruct (Rlt_dec x 0) as [Hx'|Hx'].
    + destruct (Rle_dec 0 y) as [Hy|Hy]; [|lra]. assert (0 < y) by lra.
      pose proof (atan_bound (y / x)) as [B _].
      assert (y / x < 0) by (unfold Rdiv; assert (/ x < 0) by (apply Rinv_lt_0_compat; lra); nra).
      assert (atan (y / x) < 0) by (rewrite <- atan_0; apply atan_increasing; lra). lra.
    + destruct (Rlt_dec 0 y); [lra|]. lra.
Qed.
Lemma upper_turn x y x' y' : 0 < x * x + y * y -> 0 < x' * x' + y' * y' ->
  0 <= atan2 y x -> atan2 y x < atan2 y' x' -> atan2 y' x' < PI -> 0 < x * y' - x' * y.
Proof.
  intros H1 H2 A1 A2 A3.
  destruct (atan2_polar y x H1) as [E1 E2]. destruct (atan2_polar y' x' H2) as [E3 E4]. cbv zeta in *.
  set (r := sqrt (x * x + y * y)) in *. set (r' := sqrt (x' * x' + y' * y')) in *.
  set (t := atan2 y x) in *. set (t' := atan2 y' x') in *.
  assert (Hr : 0 < r) by (apply sqrt_lt_R0; exact H1). assert (Hr' : 0 < r') by (apply sqrt_lt_R0; exact H2).
  assert (Hs : 0 < sin (t' - t)) by (apply sin_gt_0; lra). rewrite sin_minus in Hs.
  replace (x * y' - x' * y) with (r * r' * (sin t' * cos t - cos t' * sin t)).
  - apply Rmult_lt_0_compat; [apply Rmult_lt_0_compat|]; assumption.
  - rewrite <- E1 at 1. rewrite <- E2 at 1. rewrite <- E3 at 1. rewrite <- E4 at 1. ring.
Qed.
Lemma same_direction x y x' y' : 0 < x * x + y * y -> 0 < x' * x' + y' * y' -> atan2 y x = atan2 y' x' ->
  x * x + y * y <= x' * x' + y' * y' -> exists k, 1 <= k /\ x' = k * x /\ y' = k * y.
Proof.
  intros H1 H2 A Hd.
  destruct (atan2_polar y x H1) as [E1 E2]. destruct (atan2_polar y' x' H2) as [E3 E4]. cbv zeta in *.
  rewrite <- A in E3, E4.
  set (r := sqrt (x * x + y * y)) in *. set (r' := sqrt (x' * x' + y' * y')) in *.
  assert (Hr : 0 < r) by (apply sqrt_lt_R0; exact H1).
  assert (Hrr : r <= r') by (apply sqrt_le_1_alt; exact Hd).
  exists (r' / r). split.
  - apply Rmult_le_reg_r with r; [exact Hr|]. replace (r' / r * r) with r' by (field; lra). lra.
  - split; [rewrite <- E1, <- E3|rewrite <- E2, <- E4]; field; lra.
Qed.
Lemma zero_angle x y : 0 < y -> atan2 y x <> 0.
Proof.
  intros Hy E. pose proof PI_RGT_0.
  assert (H1 : 0 < x * x + y * y) by (pose proof (Rle_0_sqr x) as Q; unfold Rsqr in Q; nra).
  destruct (atan2_polar y x H1) as [_ E2]. cbv zeta in E2. rewrite E, sin_0 in E2. lra.
Qed.
Lemma atan2_origin : atan2 0 0 = 0.
Proof. unfold atan2. destruct (Rlt_dec 0 0); [lra|reflexivity]. Qed.

Lemma sorted_nth {A} (Rel : A -> A -> Prop) l d : StronglySorted Rel l -> forall k j, (k < j)%nat -> (j < length l)%nat -> Rel (nth k l d) (nth j l d).
Proof.
  induction 1 as [|a l Hs IH Hf]; intros k j Hk Hj; simpl in *; [lia|].
  destruct j as [|j]; [lia|]. destruct k as [|k].
  - rewrite Forall_forall in Hf. apply Hf. apply nth_In. lia.
  - apply IH; lia.
Qed.

(** ** The scan as a whole *)
Theorem hull_corner r z marks i : graham_scan r z = Ok marks -> extreme r z i ->
  (exists j, (j < length r)%nat /\ nth j z 0 < nth i z 0) \/
  (exists j, (j < length r)%nat /\ nth j z 0 = nth i z 0 /\ nth j r 0 < nth i r 0) \/
  (forall j, (j < length r)%nat -> j <> i -> nth i z 0 < nth j z 0) ->
  nth i marks false = true.
Proof.
  unfold graham_scan. set (N := length r). intros Hg [HiN (a & b & Hex)] Hcase.
  fold N in HiN, Hex, Hcase.
  pose proof (lexsort_perm (fun i => (nth i z 0, nth i r 0)) N) as Hp1.
  pose proof (lexsort_sorted (fun i => (nth i z 0, nth i r 0)) N) as Hs1.
  destruct (lexsort (fun i => (nth i z 0, nth i r 0)) N) as [|m others1]; [discriminate|].
  cbv zeta in Hg.
  set (dr := fun i => nth i r 0 - nth m r 0) in *. set (dz := fun i => nth i z 0 - nth m z 0) in *.
  set (angle := fun i => atan2 (dz i) (dr i)) in *.
  set (dist := fun i => dr i * dr i + dz i * dz i) in *.
  change (lexsort _ N) with (lexsort (fun i => (angle i, - dist i)) N) in Hg.
  set (key := fun i => (angle i, - dist i)) in *.
  pose proof (lexsort_perm key N) as Hp2. pose proof (lexsort_sorted key N) as Hs2.
  destruct (lexsort key N) as [|first others2]; [discriminate|].
  pose proof (keep_increasing key angle others2 (fun _ => eq_refl) first Hs2) as Hinc.
  pose proof (keep_missing key angle others2 (fun _ => eq_refl) first Hs2) as Hmiss.
  set (kept := first :: keep_unique angle (angle first) others2) in *.
  set (p := fun k => (nth (nth k kept 0%nat) r 0, nth (nth k kept 0%nat) z 0)) in *.
  change (match length kept with
          | O | 1%nat => Raise ValueError
          | M => Ok (map (fun i => existsb (Nat.eqb i) (map (fun k => nth k kept 0%nat)
                   (fold_left (fun stack i => i :: pop_stack p i stack) (seq 2 (M - 2)) [1%nat; 0%nat]))) (seq 0 N))
          end = Ok marks) in Hg.
  assert (HmN : (m < N)%nat).
  { assert (In m (seq 0 N)) as H by (apply (Permutation_in _ Hp1); left; reflexivity). apply in_seq in H. lia. }
  assert (Hall : forall j, (j < N)%nat -> In j (first :: others2)).
  { intros j Hj. apply (Permutation_in _ (Permutation_sym Hp2)). apply in_seq. lia. }
  assert (Hin : forall j, In j (first :: others2) -> (j < N)%nat).
  { intros j Hj. apply (Permutation_in _ Hp2) in Hj. apply in_seq in Hj. lia. }
  assert (Hkin : forall j, In j kept -> (j < N)%nat).
  { intros j [<-|Hj]; apply Hin; [left; reflexivity|right; exact (keep_incl _ _ _ _ Hj)]. }
  (* everything is above the pivot *)
  assert (Hup : forall j, (j < N)%nat -> 0 < dz j \/ dz j = 0 /\ 0 <= dr j).
  { intros j Hj. assert (In j (m :: others1)) as H by (apply (Permutation_in _ (Permutation_sym Hp1)); apply in_seq; lia).
    destruct H as [->|H]; [right; unfold dz, dr; split; lra|].
    inversion Hs1 as [|? ? _ Hf]; subst. rewrite Forall_forall in Hf. specialize (Hf _ H). apply lex_le_means in Hf.
    cbn [fst snd] in Hf. unfold dz, dr. destruct Hf as [Hf|[Hf1 Hf2]]; [left; lra|right; split; lra]. }
  assert (Hzero : forall j, (j < N)%nat -> (dr j = 0 /\ dz j = 0) \/ (0 < dist j /\ (0 < dz j \/ dz j = 0 /\ 0 < dr j))).
  { intros j Hj. pose proof (Rle_0_sqr (dr j)) as Q. pose proof (Rle_0_sqr (dz j)) as Q'. unfold Rsqr in Q, Q'. unfold dist.
    destruct (Hup j Hj) as [H|[H1 H2]].
    - right. split; [|left; exact H]. assert (0 < dz j * dz j) by (apply Rmult_lt_0_compat; exact H). lra.
    - destruct (Rle_lt_or_eq_dec _ _ H2) as [H3|H3]; [right|left; split; [symmetry; exact H3|exact H1]].
      split; [|right; split; assumption]. assert (0 < dr j * dr j) by (apply Rmult_lt_0_compat; exact H3). lra. }
  assert (Hang : forall j, (j < N)%nat -> 0 <= angle j < PI).
  { intros j Hj. unfold angle. destruct (Hzero j Hj) as [[-> ->]|[_ H]].
    - rewrite atan2_origin. pose proof PI_RGT_0. lra.
    - apply upper_angle. exact H. }
  assert (Hpivot : dr m = 0 /\ dz m = 0) by (unfold dr, dz; split; lra).
  assert (Hpos : i <> m -> 0 < a * dr i + b * dz i).
  { intros Hne. specialize (Hex m HmN (not_eq_sym Hne)). unfold dr, dz. lra. }
  assert (Hbeat : forall j, (j < N)%nat -> j <> i -> a * dr j + b * dz j < a * dr i + b * dz i).
  { intros j Hj Hne. specialize (Hex j Hj Hne). unfold dr, dz. lra. }
  (* a pivot that is a corner is the only lowest point *)
  assert (Hlow : i = m -> forall j, (j < N)%nat -> j <> i -> 0 < dz j).
  { intros -> j Hj Hne. destruct Hcase as [(l & Hl & H)|[(l & Hl & H & H')|H]].
    - exfalso. pose proof (Hup l Hl) as U. unfold dz, dr in U. lra.
    - exfalso. pose proof (Hup l Hl) as U. unfold dz, dr in U. lra.
    - specialize (H j Hj Hne). unfold dz. lra. }
  (* the corner is kept *)
  assert (Hkept : In i kept).
  { destruct (in_dec Nat.eq_dec i kept) as [H|H]; [exact H|exfalso].
    assert (Ho : In i others2).
    { destruct (Hall i HiN) as [E|E]; [|exact E]. exfalso. apply H. left. exact E. }
    destruct (Hmiss i Ho H) as (j & J1 & J2 & J3 & J4). apply Hin in J1.
    unfold key in J4. cbn [snd] in J4.
    destruct (Nat.eq_dec i m) as [Eim|Hne].
    - specialize (Hlow Eim j J1 J2). apply (zero_angle (dr j) (dz j) Hlow). change (angle j = 0). rewrite J3.
      unfold angle. rewrite Eim. destruct Hpivot as [-> ->]. apply atan2_origin.
    - specialize (Hpos Hne). destruct (Hzero i HiN) as [[Z1 Z2]|[Hi _]]; [rewrite Z1, Z2 in Hpos; lra|].
      assert (Hj : 0 < dist j) by lra.
      destruct (same_direction (dr i) (dz i) (dr j) (dz j) Hi Hj) as (k & K1 & K2 & K3).
      + exact (eq_sym J3).
      + unfold dist in J4. lra.
      + specialize (Hbeat j J1 J2). rewrite K2, K3 in Hbeat.
        assert (1 * (a * dr i + b * dz i) <= k * (a * dr i + b * dz i)) by (apply Rmult_le_compat_r; lra). lra. }
  destruct (In_nth _ _ 0%nat Hkept) as (star & Hstar & Estar).
  assert (HM : (2 <= length kept)%nat).
  { destruct (length kept) as [|[|n]] in Hg |- *; [discriminate|discriminate|lia]. }
  assert (Hstay : In star (fold_left (fun stack i => i :: pop_stack p i stack) (seq 2 (length kept - 2)) [1%nat; 0%nat])).
  { assert (Hkd : forall k, (k < length kept)%nat -> (nth k kept 0%nat < N)%nat) by (intros k Hk; apply Hkin, nth_In, Hk).
    assert (Hord : forall k l, (k < l)%nat -> (l < length kept)%nat -> angle (nth k kept 0%nat) < angle (nth l kept 0%nat)).
    { intros k l Hk Hl. exact (sorted_nth _ _ 0%nat Hinc k l Hk Hl). }
    assert (Hnz : forall k, (0 < k)%nat -> (k < length kept)%nat -> 0 < dist (nth k kept 0%nat)).
    { intros k H0 Hk. destruct (Hzero _ (Hkd k Hk)) as [[Z1 Z2]|[H _]]; [|exact H]. exfalso.
      pose proof (Hord 0%nat k H0 Hk) as A. pose proof (Hang _ (Hkd 0%nat ltac:(lia))) as B.
      unfold angle at 2 in A. rewrite Z1, Z2, atan2_origin in A. lra. }
    apply (scan_keeps p (nth m r 0) (nth m z 0)); [| | |exact HM|exact Hstar].
    - intros k l H0 Hk Hl. unfold p. cbn [fst snd].
      apply (upper_turn (dr (nth k kept 0%nat)) (dz (nth k kept 0%nat)) (dr (nth l kept 0%nat)) (dz (nth l kept 0%nat))).
      + apply (Hnz k); lia. + apply (Hnz l); lia.
      + apply (Hang _ (Hkd k ltac:(lia))). + apply (Hord k l Hk Hl). + apply (Hang _ (Hkd l Hl)).
    - destruct (Hzero _ (Hkd 0%nat ltac:(lia))) as [[Z1 Z2]|[H _]]; [left; split; assumption|right].
      intros l H0 Hl. unfold p. cbn [fst snd].
      apply (upper_turn (dr (nth 0 kept 0%nat)) (dz (nth 0 kept 0%nat)) (dr (nth l kept 0%nat)) (dz (nth l kept 0%nat))).
      + exact H. + apply (Hnz l); lia.
      + apply (Hang _ (Hkd 0%nat ltac:(lia))). + apply (Hord 0%nat l H0 Hl). + apply (Hang _ (Hkd l Hl)).
    - destruct (Nat.eq_dec i m) as [Eim|Hne].
      + left. destruct star as [|s]; [reflexivity|exfalso].
        pose proof (Hord 0%nat (S s) ltac:(lia) Hstar) as A. rewrite Estar in A.
        pose proof (Hang _ (Hkd 0%nat ltac:(lia))) as B. unfold angle at 2 in A. rewrite Eim in A.
        destruct Hpivot as [P1 P2]. rewrite P1, P2, atan2_origin in A. lra.
      + right. exists a, b. unfold p. cbn [fst snd]. rewrite Estar. split; [exact (Hpos Hne)|].
        intros k Hk Hks. apply (Hbeat (nth k kept 0%nat) (Hkd k Hk)). intros E.
        destruct (Nat.lt_total k star) as [H|[H|H]]; [|contradiction|].
        * pose proof (Hord k star H Hstar) as A. rewrite E, Estar in A. lra.
        * pose proof (Hord star k H Hk) as A. rewrite E, Estar in A. lra. }
  destruct (length kept) as [|[|n]] in Hg, Hstay; [discriminate|discriminate|].
  injection Hg as <-.
  rewrite (nth_indep _ false (existsb (Nat.eqb 0) [])) by (rewrite map_length, seq_length; exact HiN).
  match goal with |- nth i (map ?f (seq 0 N)) _ = true => rewrite (nth_indep _ _ (f 0%nat)) by (rewrite map_length, seq_length; exact HiN); rewrite (map_nth f (seq 0 N) 0%nat i) end.
  rewrite seq_nth by exact HiN. rewrite Nat.add_0_l. apply existsb_exists. exists i. split; [|apply Nat.eqb_refl].
  apply in_map_iff. exists star. split; [exact Estar|exact Hstay].
Qed.
