(** A solver satisfying the hypotheses, and concrete contours. *)
From Coq Require Import String List Bool Arith ZArith Reals Lra Lia.
From Verif Require Import Base ModelArray ModelMath SpecMath ProofMath ModelSurface SpecSurface ProofSurface ProofSurface2
  ModelQuadcoil ProofLinear ModelWinding SpecWinding ProofWinding ProofWinding2 ProofWinding3 ProofWinding4 ProofWinding5.
Import ListNotations.
Open Scope R_scope.

(** ** A least-squares solver by Gram-Schmidt *)
Fixpoint proj (m : nat) (cs : list (list R)) (b : list R) : list R :=
  match cs with
  | [] => []
  | c :: cs' =>
      let y := proj m cs' c in
      let z := proj m cs' b in
      let e := lsub c (lincomb m y cs') in
      let f := lsub b (lincomb m z cs') in
      if Req_EM_T (ldot e e) 0 then 0 :: z
      else let t := ldot e f / ldot e e in t :: ladd z (lscale (- t) y)
  end.
Lemma proj_ok m cs : (forall c, In c cs -> length c = m) -> forall b, length b = m ->
  length (proj m cs b) = length cs /\ forall c, In c cs -> ldot c (lsub b (lincomb m (proj m cs b) cs)) = 0.
Proof.
  induction cs as [|c cs IH]; intros H b Lb; [split; [reflexivity|intros ? []]|].
  assert (H' : forall c, In c cs -> length c = m) by (intros; apply H; now right). assert (Lc : length c = m) by (apply H; now left).
  destruct (IH H' c Lc) as (Ly & Hy). destruct (IH H' b Lb) as (Lz & Hz).
  cbn [proj]. cbv zeta. set (y := proj m cs c) in *. set (z := proj m cs b) in *.
  set (e := lsub c (lincomb m y cs)) in *. set (f := lsub b (lincomb m z cs)) in *.
  assert (Le : length e = m) by (unfold e; rewrite lsub_length; rewrite ?lincomb_length; auto).
  assert (Lf : length f = m) by (unfold f; rewrite lsub_length; rewrite ?lincomb_length; auto).
  assert (Ec : c = ladd e (lincomb m y cs)).
  { apply (vec_ext _ _ m); auto; [rewrite ladd_length; rewrite ?lincomb_length; auto|]. intros i Hi.
    rewrite nth_ladd by (rewrite lincomb_length; auto). unfold e. rewrite nth_lsub by (rewrite lincomb_length; auto). ring. }
  destruct (Req_EM_T (ldot e e) 0) as [Z|Z].
  - split; [cbn; lia|]. cbn [lincomb].
    assert (E0 : lsub b (ladd (lscale 0 c) (lincomb m z cs)) = f).
    { apply (vec_ext _ _ m).
      - rewrite lsub_length; auto. rewrite ladd_length; rewrite ?lscale_length, ?lincomb_length; auto; congruence.
      - auto.
      - intros i Hi. rewrite nth_lsub by (rewrite ladd_length; rewrite ?lscale_length, ?lincomb_length; auto; congruence).
        rewrite nth_ladd, nth_lscale by (rewrite lscale_length, lincomb_length; auto). unfold f. rewrite nth_lsub by (rewrite lincomb_length; auto). ring. }
    rewrite E0. intros c' [<-|I]; [|apply Hz; auto].
    rewrite Ec, ldot_add_l by (rewrite lincomb_length; auto). rewrite (ldot_lincomb m y cs f H' Hz).
    rewrite (ldot_self_pos e Z), ldot_repeat0. ring.
  - set (t := ldot e f / ldot e e).
    split; [cbn; rewrite ladd_length; rewrite ?lscale_length; lia|]. cbn [lincomb].
    rewrite lincomb_lin by auto.
    assert (E0 : lsub b (ladd (lscale t c) (ladd (lincomb m z cs) (lscale (- t) (lincomb m y cs)))) = lsub f (lscale t e)).
    { assert (L1 : length (ladd (lincomb m z cs) (lscale (- t) (lincomb m y cs))) = m) by (rewrite ladd_length; rewrite ?lscale_length, ?lincomb_length; auto).
      assert (L2 : length (ladd (lscale t c) (ladd (lincomb m z cs) (lscale (- t) (lincomb m y cs)))) = m) by (rewrite ladd_length; rewrite ?lscale_length; auto; congruence).
      apply (vec_ext _ _ m).
      - rewrite lsub_length; congruence.
      - rewrite lsub_length; rewrite ?lscale_length; congruence.
      - intros i Hi. rewrite nth_lsub, nth_ladd, nth_lscale, nth_ladd, nth_lscale by (rewrite ?lscale_length, ?lincomb_length; auto; congruence).
        rewrite nth_lsub, nth_lscale by (rewrite ?lscale_length; congruence). unfold e, f.
        rewrite !nth_lsub by (rewrite lincomb_length; auto). ring. }
    rewrite E0.
    assert (Q : forall c', In c' cs -> ldot c' (lsub f (lscale t e)) = 0).
    { intros c' I. rewrite ldot_sub_r, ldot_scale_r, (Hz c' I), (Hy c' I) by (rewrite lscale_length; congruence). ring. }
    intros c' [<-|I]; auto. rewrite Ec, ldot_add_l by (rewrite lincomb_length; auto). rewrite (ldot_lincomb m y cs _ H' Q).
    rewrite ldot_sub_r, ldot_scale_r by (rewrite lscale_length; congruence). unfold t. field. auto.
Qed.
(** Least squares by projection on the columns. *)
Definition ls_solve (M : matrix) (b : list R) : list R := proj (length M) (transpose (length M) M) b.
Lemma ls_honest : honest_solver ls_solve.
Proof.
  intros n M b HS Lb. pose proof HS as [LM HM]. rewrite List.Forall_forall in HM. unfold ls_solve. rewrite LM.
  assert (HC : forall c, In c (transpose n M) -> length c = n).
  { intros c Hc. unfold transpose in Hc. apply in_map_iff in Hc as (i & <- & _). rewrite col_length. auto. }
  assert (LT : length (transpose n M) = n) by (unfold transpose; now rewrite map_length, seq_length).
  destruct (proj_ok n (transpose n M) HC b Lb) as [L H]. rewrite LT in L. split; auto.
  intros [x0 Hx]. apply solves_matvec in Hx as [L0 E0]; auto. apply solves_matvec; auto. split; auto.
  set (x := proj n (transpose n M) b) in *. assert (HA : mat n n M) by (split; auto).
  rewrite (lincomb_matvec n n M x HA L) in H. set (r := lsub b (matvec M x)) in *.
  assert (Lmx : length (matvec M x) = n) by (now rewrite matvec_length).
  assert (Er : r = lincomb n (lsub x0 x) (transpose n M)).
  { rewrite (lincomb_matvec n n) by (auto; rewrite lsub_length; congruence). unfold r. rewrite <- E0.
    apply (vec_ext _ _ n); rewrite ?lsub_length, ?matvec_length; auto; rewrite ?matvec_length; auto.
    intros i Hi. rewrite nth_lsub by (rewrite !matvec_length; auto). rewrite !nth_matvec by lia. rewrite ldot_sub_r by congruence. reflexivity. }
  assert (Z : ldot r r = 0) by (rewrite Er at 1; apply ldot_lincomb; auto).
  assert (Lr : length r = n) by (unfold r; rewrite lsub_length; congruence).
  apply ldot_self_pos in Z. rewrite Lr in Z. apply (vec_ext _ _ n); auto. intros i Hi.
  assert (Q : nth i r 0 = 0) by (rewrite Z; apply nth_repeat). unfold r in Q. rewrite nth_lsub in Q by congruence. lra.
Qed.
Lemma lincomb_hom m c x cs : lincomb m (map (Rmult c) x) cs = map (Rmult c) (lincomb m x cs).
Proof.
  assert (Z : repeat 0 m = map (Rmult c) (repeat 0 m)) by (clear; induction m as [|m IHm]; cbn; [reflexivity|]; now rewrite Rmult_0_r, <- IHm).
  revert cs; induction x as [|a x IH]; intros [|k cs]; cbn [lincomb map]; try exact Z.
  rewrite IH. unfold ladd. rewrite map_map2, map2_mapr. unfold lscale. rewrite !map2_mapl. apply map2_ext'. intros. ring.
Qed.
Lemma lsub_hom c a b : lsub (map (Rmult c) a) (map (Rmult c) b) = map (Rmult c) (lsub a b).
Proof. unfold lsub. rewrite map_map2, map2_mapl, map2_mapr. apply map2_ext'. intros. ring. Qed.
Lemma proj_hom m cs c b : proj m cs (map (Rmult c) b) = map (Rmult c) (proj m cs b).
Proof.
  revert b; induction cs as [|k cs IH]; intros b; auto. cbn [proj]. cbv zeta. rewrite !IH, lincomb_hom, lsub_hom.
  destruct (Req_EM_T _ 0); [cbn; now rewrite Rmult_0_r|]. rewrite ldot_scale_dofs. cbn [map]. 
  set (e := lsub k _). set (f := lsub b _). replace (c * ldot e f / ldot e e) with (c * (ldot e f / ldot e e)) by (unfold Rdiv; ring).
  f_equal. unfold ladd, lscale. rewrite map_map2, !map2_mapl, !map2_mapr. apply map2_ext'. intros. ring.
Qed.
Lemma ls_homogeneous : homogeneous_solver ls_solve.
Proof. intros M b c. apply proj_hom. Qed.

(** ** A small fit *)
Lemma cmodes10 : cmodes 1 0 = [(0, 0); (1, 0)]%Z. Proof. reflexivity. Qed.
Lemma smodes10 : smodes 1 0 = [(1, 0)]%Z. Proof. reflexivity. Qed.
Lemma ring_coords a b c phi t :
  coords 1 true (cmodes 1 0) (smodes 1 0) [a; b; c] phi t = (a + b * cos (2 * PI * t), c * sin (2 * PI * t)).
Proof.
  rewrite cmodes10, smodes10. unfold coords, series, Rsum. cbn [length firstn skipn combine map fst snd fold_right INR].
  rewrite !Rmult_0_l, !Rmult_1_l, Rminus_0_r, !Rplus_0_r, !Rmult_0_r, cos_0, Rminus_0_r. f_equal; ring.
Qed.
Lemma trig_quarter : cos (2 * PI * (1 / 4)) = 0 /\ sin (2 * PI * (1 / 4)) = 1 /\ cos (2 * PI * 0) = 1 /\ sin (2 * PI * 0) = 0 /\
  cos (2 * PI * (1 / 2)) = -1 /\ sin (2 * PI * (1 / 2)) = 0 /\ cos (2 * PI * (3 / 4)) = 0 /\ sin (2 * PI * (3 / 4)) = -1.
Proof.
  replace (2 * PI * (1 / 4)) with (PI / 2) by field. replace (2 * PI * 0) with 0 by ring. replace (2 * PI * (1 / 2)) with PI by field.
  replace (2 * PI * (3 / 4)) with (3 * (PI / 2)) by field. rewrite cos_PI2, sin_PI2, cos_0, sin_0, cos_PI, sin_PI, cos_3PI2, sin_3PI2. repeat split.
Qed.
Lemma small_fit_data : let T := of_arrays [[0; 0]] [[0; 1/4]] [[3; 2]] [[0; 1]] [[1; 1]] in
  (forall t, In t T -> coords 1 true (cmodes 1 0) (smodes 1 0) [2; 1; 1] (tg_phi t) (tg_theta t) = (tg_r t, tg_z t)) /\
  determined 1 true 1 0 (cmodes 1 0) (smodes 1 0) T.
Proof.
  destruct trig_quarter as (C1 & S1 & C0 & S0 & _). split.
  - intros t [<-|[<-|[]]]; cbn [tg_phi tg_theta tg_r tg_z fst snd]; rewrite ring_coords, ?C1, ?S1, ?C0, ?S0; f_equal; ring.
  - intros x Lx H. cbn in Lx. destruct x as [|a [|b [|c [|]]]]; try discriminate.
    pose proof (H (Target 0 0 3 0 1) (or_introl eq_refl)) as H0. pose proof (H (Target 0 (1/4) 2 1 1) (or_intror (or_introl eq_refl))) as H1.
    cbn [tg_phi tg_theta tg_w] in H0, H1. rewrite ring_coords in H0, H1. rewrite C0, S0 in H0. rewrite C1, S1 in H1.
    specialize (H0 ltac:(lra)). specialize (H1 ltac:(lra)). injection H0 as H0 _. injection H1 as H1 H2.
    intros v [<-|[<-|[<-|[]]]]; lra.
Qed.

(** ** Contours *)
(** A contour whose first edge is crossed twice. *)
Definition spike : list (R * R) := [(0, 0); (4, 0); (3, 1); (2, -1); (1, 1)].
Ltac seg_facts H :=
  let x := fresh "x" in let t := fresh "t" in let s := fresh "s" in
  destruct H as (x & (t & ? & ?) & (s & ? & ?)).
Lemma spike_crossed i : (i < 5)%nat -> (crossed spike i <-> (i = 0 \/ i = 2 \/ i = 3)%nat).
Proof.
  intros Hi. split.
  - intros (j & Hj & N & T & x & (t & Ht & ->) & (s & Hs & E)). cbn [length spike] in Hj.
    unfold neighbours in N. cbn [length spike] in N.
    destruct i as [|[|[|[|[|i]]]]]; auto; try lia; exfalso;
    destruct j as [|[|[|[|[|j]]]]]; try lia; try (apply N; cbn; auto; fail);
    unfold corner, spike in E; cbn in E; injection E as E1 E2; lra.
  - assert (P : forall i j t s, (j < 5)%nat -> ~ neighbours 5 i j -> transverse (corner spike i) (corner spike (i + 1)) (corner spike j) (corner spike (j + 1)) ->
      0 <= t <= 1 -> 0 <= s <= 1 ->
      fst (corner spike i) + t * (fst (corner spike (i + 1)) - fst (corner spike i)) = fst (corner spike j) + s * (fst (corner spike (j + 1)) - fst (corner spike j)) ->
      snd (corner spike i) + t * (snd (corner spike (i + 1)) - snd (corner spike i)) = snd (corner spike j) + s * (snd (corner spike (j + 1)) - snd (corner spike j)) ->
      crossed spike i).
    { intros i0 j t s Hj N T Ht Hs E1 E2. exists j. split; auto. split; auto. split; auto. eexists. split; [exists t; split; auto; reflexivity|].
      exists s. split; auto. f_equal; auto. }
    intros [-> | [-> | ->]].
    + apply (P 0%nat 2%nat (5/8) (1/2)); try lia; try lra; [unfold neighbours; cbn; lia|unfold transverse; cbn; lra|cbn; lra|cbn; lra].
    + apply (P 2%nat 0%nat (1/2) (5/8)); try lia; try lra; [unfold neighbours; cbn; lia|unfold transverse; cbn; lra|cbn; lra|cbn; lra].
    + apply (P 3%nat 0%nat (1/2) (3/8)); try lia; try lra; [unfold neighbours; cbn; lia|unfold transverse; cbn; lra|cbn; lra|cbn; lra].
Qed.
Lemma spike_count : count_crossed spike (seq 0 5) 3.
Proof.
  cbn. assert (C : forall i, (i < 5)%nat -> crossed spike i <-> (i = 0 \/ i = 2 \/ i = 3)%nat) by apply spike_crossed.
  apply CC_yes; [apply C; lia|]. apply CC_no; [rewrite C; lia|]. apply CC_yes; [apply C; lia|]. apply CC_yes; [apply C; lia|].
  apply CC_no; [rewrite C; lia|]. constructor.
Qed.
(** A simple triangle with sides 3, 4, 5. *)
Definition triangle : list (R * R) := [(0, 0); (3, 0); (3, 4)].
Lemma triangle_simple i : (i < 3)%nat -> ~ crossed triangle i.
Proof.
  intros Hi (j & Hj & N & _). cbn in Hj, N. apply N. unfold neighbours.
  destruct i as [|[|[|i]]]; try lia; destruct j as [|[|[|j]]]; try lia; cbn; auto.
Qed.
Lemma triangle_sides : seg triangle 0 = 3 /\ seg triangle 1 = 4 /\ seg triangle 2 = 5.
Proof.
  unfold seg, dist2, triangle, corner. cbn. repeat split.
  - replace (_ + _) with (3 * 3) by ring. apply sqrt_square; lra.
  - replace (_ + _) with (4 * 4) by ring. apply sqrt_square; lra.
  - replace (_ + _) with (5 * 5) by ring. apply sqrt_square; lra.
Qed.

(** ** The hull of the unit square *)
Ltac decide_lt :=
  repeat match goal with
  | |- context [Rlt_dec ?a ?b] => destruct (Rlt_dec a b); try (exfalso; lra)
  | |- context [Rle_dec ?a ?b] => destruct (Rle_dec a b); try (exfalso; lra)
  | |- context [Req_EM_T ?a ?b] => destruct (Req_EM_T a b); try (exfalso; lra)
  end.
Lemma at_origin : atan2 0 0 = 0.
Proof. unfold atan2. decide_lt. reflexivity. Qed.
Lemma at_east : atan2 0 1 = 0.
Proof. unfold atan2. decide_lt. unfold Rdiv. rewrite Rmult_0_l. apply atan_0. Qed.
Lemma at_diag : atan2 1 1 = PI / 4.
Proof. unfold atan2. decide_lt. replace (1 / 1) with 1 by field. apply atan_1. Qed.
Lemma at_north : atan2 1 0 = PI / 2.
Proof. unfold atan2. decide_lt. reflexivity. Qed.
Lemma square_hull : graham_scan [0; 1; 1; 0] [0; 0; 1; 1] = Ok [false; true; true; true].
Proof.
  unfold graham_scan. change (length [0; 1; 1; 0]) with 4%nat. cbv zeta.
  assert (E1 : lexsort (fun i => (nth i [0; 0; 1; 1] 0, nth i [0; 1; 1; 0] 0)) 4 = [0; 1; 3; 2]%nat).
  { unfold lexsort. cbn [seq fold_right]. do 4 (cbn [insert_idx]; unfold lex_le; cbn [nth fst snd]; decide_lt). reflexivity. }
  rewrite E1. cbv beta iota. change (nth 0 [0; 1; 1; 0] 0) with 0. change (nth 0 [0; 0; 1; 1] 0) with 0. set (ang := fun i => atan2 (nth i [0; 0; 1; 1] 0 - 0) (nth i [0; 1; 1; 0] 0 - 0)).
  assert (A0 : ang 0%nat = 0) by (unfold ang; cbn [nth]; rewrite Rminus_0_r; apply at_origin).
  assert (A1 : ang 1%nat = 0) by (unfold ang; cbn [nth]; rewrite !Rminus_0_r; apply at_east).
  assert (A2 : ang 2%nat = PI / 4) by (unfold ang; cbn [nth]; rewrite !Rminus_0_r; apply at_diag).
  assert (A3 : ang 3%nat = PI / 2) by (unfold ang; cbn [nth]; rewrite !Rminus_0_r; apply at_north).
  pose proof PI_RGT_0 as HP.
  change (fun i => (atan2 (nth i [0; 0; 1; 1] 0 - 0) (nth i [0; 1; 1; 0] 0 - 0), - ((nth i [0; 1; 1; 0] 0 - 0) * (nth i [0; 1; 1; 0] 0 - 0) + (nth i [0; 0; 1; 1] 0 - 0) * (nth i [0; 0; 1; 1] 0 - 0))))
    with (fun i => (ang i, - ((nth i [0; 1; 1; 0] 0 - 0) * (nth i [0; 1; 1; 0] 0 - 0) + (nth i [0; 0; 1; 1] 0 - 0) * (nth i [0; 0; 1; 1] 0 - 0)))).
  assert (E2 : lexsort (fun i => (ang i, - ((nth i [0; 1; 1; 0] 0 - 0) * (nth i [0; 1; 1; 0] 0 - 0) + (nth i [0; 0; 1; 1] 0 - 0) * (nth i [0; 0; 1; 1] 0 - 0)))) 4 = [1; 0; 2; 3]%nat).
  { unfold lexsort. cbn [seq fold_right]. do 5 (cbn [insert_idx]; unfold lex_le; cbn [fst snd]; rewrite ?A0, ?A1, ?A2, ?A3; cbn [nth]; decide_lt). reflexivity. }
  rewrite E2. cbv beta iota.
  change (fun i => atan2 (nth i [0; 0; 1; 1] 0 - 0) (nth i [0; 1; 1; 0] 0 - 0)) with ang.
  change (atan2 (nth 1 [0; 0; 1; 1] 0 - 0) (nth 1 [0; 1; 1; 0] 0 - 0)) with (ang 1%nat).
  assert (E3 : keep_unique ang (ang 1%nat) [0; 2; 3]%nat = [2; 3]%nat).
  { cbn [keep_unique]. rewrite A0, A1, A2, A3. decide_lt. reflexivity. }
  rewrite E3. cbn [length Nat.sub seq fold_left pop_stack]. unfold ccw. cbn [nth fst snd]. decide_lt. reflexivity.
Qed.

(** ** A circular torus, given with its normals *)
Definition quarter_gamma : grid vec3 :=
  [[V3 4 0 0; V3 3 0 1; V3 2 0 0; V3 3 0 (-1)]; [V3 4 0 0; V3 3 0 1; V3 2 0 0; V3 3 0 (-1)]].
Definition quarter_normals : grid vec3 :=
  [[V3 1 0 0; V3 0 0 1; V3 (-1) 0 0; V3 0 0 (-1)]; [V3 1 0 0; V3 0 0 1; V3 (-1) 0 0; V3 0 0 (-1)]].
Lemma quarter_rect : rect 2 4 quarter_gamma /\ rect 2 4 quarter_normals.
Proof. split; split; auto; repeat constructor. Qed.
Lemma quarter_data : forall i j, (i < 1)%nat -> (j < 4)%nat ->
  let rz := coords 1 true (cmodes 1 0) (smodes 1 0) [3; 3/2; 3/2] 0 (INR j / INR 4) in
  0 < fst rz /\ add3 (node i j quarter_gamma) (scale3 (1/2) (node i j quarter_normals)) = cyl_point 0 (fst rz) (snd rz).
Proof.
  intros i j Hi Hj. assert (i = 0)%nat by lia. subst i. cbv zeta. rewrite ring_coords. cbn [fst snd].
  unfold cyl_point. destruct trig_quarter as (C1 & S1 & C0 & S0 & C2 & S2 & C3 & S3).
  destruct j as [|[|[|[|j]]]]; try lia; unfold node, quarter_gamma, quarter_normals; cbn [nth]; unfold add3, scale3; cbn [vx vy vz INR].
  - replace (0 / (1 + 1 + 1 + 1)) with 0 by field. rewrite C0, S0. split; [lra|f_equal; lra].
  - replace (1 / (1 + 1 + 1 + 1)) with (1 / 4) by field. rewrite C1, S1, C0, S0. split; [lra|f_equal; lra].
  - replace ((1 + 1) / (1 + 1 + 1 + 1)) with (1 / 2) by field. rewrite C2, S2, C0, S0. split; [lra|f_equal; lra].
  - replace ((1 + 1 + 1) / (1 + 1 + 1 + 1)) with (3 / 4) by field. rewrite C3, S3, C0, S0. split; [lra|f_equal; lra].
Qed.
Lemma quarter_determined : forall x, length x = legal_length true 1 0 ->
  (forall i j, (i < 1)%nat -> (j < 4)%nat -> coords 1 true (cmodes 1 0) (smodes 1 0) x 0 (INR j / INR 4) = (0, 0)) ->
  forall v, In v x -> v = 0.
Proof.
  intros x Lx H. cbn in Lx. destruct x as [|a [|b [|c [|]]]]; try discriminate.
  pose proof (H 0%nat 0%nat ltac:(lia) ltac:(lia)) as H0. pose proof (H 0%nat 1%nat ltac:(lia) ltac:(lia)) as H1.
  rewrite ring_coords in H0, H1. destruct trig_quarter as (C1 & S1 & C0 & S0 & _).
  cbn [INR] in H0, H1. replace (0 / (1 + 1 + 1 + 1)) with 0 in H0 by field. replace (1 / (1 + 1 + 1 + 1)) with (1 / 4) in H1 by field.
  rewrite C0, S0 in H0. rewrite C1, S1 in H1. injection H0 as H0 _. injection H1 as H1 H2.
  intros v [<-|[<-|[<-|[]]]]; lra.
Qed.
