(** Proofs about coil cutting. *)
From Coq Require Import String List Bool Arith ZArith Reals Lra Lia.
From Verif Require Import Base ModelArray ModelMath SpecMath ModelSurface SpecSurface ProofSurface ProofSurface2
  ModelParams ModelField SpecField ProofField ProofField2 ModelSimsopt ModelCut SpecIo ProofSimsopt ProofTrig.
Import ListNotations.
Open Scope R_scope.

(** ** The kernel *)
Lemma kernel_zero N order : kernel N order 0 = 1 + 2 * INR order.
Proof.
  unfold kernel. rewrite (Rsum_map_ext _ (fun _ => 1)).
  - rewrite Rsum_const, seq_length. ring.
  - intros k _. replace (2 * INR k * (PI * 0 / INR N)) with 0 by (unfold Rdiv; ring). apply cos_0.
Qed.
Lemma sin_pi_nat x n : sin (x + INR n * PI) = (-1) ^ n * sin x.
Proof.
  induction n.
  - simpl. replace (x + 0 * PI) with x by ring. ring.
  - rewrite S_INR. replace (x + (INR n + 1) * PI) with ((x + INR n * PI) + PI) by ring.
    rewrite neg_sin, IHn. simpl. ring.
Qed.
Lemma pow_m1_sq n : (-1) ^ n * (-1) ^ n = 1.
Proof. rewrite <- Rpow_mult_distr. replace (-1 * -1) with 1 by ring. apply pow1. Qed.
Lemma sin_pi_diff x i j : sin (x + (INR j - INR i) * PI) = (-1) ^ (i + j) * sin x.
Proof.
  replace (x + (INR j - INR i) * PI) with ((x - INR i * PI) + INR j * PI) by ring.
  rewrite sin_pi_nat. assert (sin x = (-1) ^ i * sin (x - INR i * PI)) as E.
  { rewrite <- sin_pi_nat. f_equal. ring. }
  rewrite E, pow_add. transitivity ((-1) ^ j * (((-1) ^ i * (-1) ^ i) * sin (x - INR i * PI))); [|ring].
  rewrite pow_m1_sq. ring.
Qed.
Lemma kernel_odd N order i j : N = (2 * order + 1)%nat -> (i < N)%nat -> (j < N)%nat ->
  kernel N order (Z.of_nat j - Z.of_nat i) = if Nat.eqb i j then INR N else 0.
Proof.
  intros E Hi Hj. destruct (Nat.eqb i j) eqn:B.
  - apply Nat.eqb_eq in B. subst i. rewrite Z.sub_diag, kernel_zero, E, plus_INR, mult_INR. simpl. ring.
  - apply Nat.eqb_neq in B. pose proof (sin_frac (Z.of_nat j - Z.of_nat i) N) as S.
    assert (0 < INR N) by (apply lt_0_INR; lia).
    apply (Rmult_eq_reg_r (sin (PI * IZR (Z.of_nat j - Z.of_nat i) / INR N))); [|apply S; lia].
    unfold kernel. rewrite kernel_sum, Rmult_0_l.
    replace ((2 * INR order + 1) * (PI * IZR (Z.of_nat j - Z.of_nat i) / INR N)) with (0 + (INR j - INR i) * PI).
    + rewrite sin_pi_diff, sin_0. ring.
    + rewrite minus_IZR, <- !INR_IZR_INZ. replace (2 * INR order + 1) with (INR N); [field; lra|].
      rewrite E, plus_INR, mult_INR. simpl. ring.
Qed.
Lemma kernel_even N order i j : N = (2 * order)%nat -> (i < N)%nat -> (j < N)%nat ->
  kernel N order (Z.of_nat j - Z.of_nat i) = (if Nat.eqb i j then INR N else 0) + (-1) ^ (i + j).
Proof.
  intros E Hi Hj. destruct (Nat.eqb i j) eqn:B.
  - apply Nat.eqb_eq in B. subst i. rewrite Z.sub_diag, kernel_zero, E, mult_INR, pow_add, pow_m1_sq. simpl. ring.
  - apply Nat.eqb_neq in B. pose proof (sin_frac (Z.of_nat j - Z.of_nat i) N) as S.
    assert (0 < INR N) by (apply lt_0_INR; lia).
    apply (Rmult_eq_reg_r (sin (PI * IZR (Z.of_nat j - Z.of_nat i) / INR N))); [|apply S; lia].
    unfold kernel. rewrite kernel_sum, Rplus_0_l, <- sin_pi_diff. f_equal.
    rewrite minus_IZR, <- !INR_IZR_INZ. replace (2 * INR order + 1) with (INR N + 1); [field; lra|].
    rewrite E, mult_INR. simpl. ring.
Qed.

Lemma through_odd x order dofs : ifft_simsopt x order = Ok dofs -> length x = (2 * order + 1)%nat ->
  forall j, (j < length x)%nat -> trig_poly dofs (INR j / INR (length x)) = nth j x 0.
Proof.
  intros E L j Hj. rewrite (curve_kernel x order dofs j E).
  assert (0 < INR (length x)) by (apply lt_0_INR; lia).
  rewrite (Rsum_map_ext _ (fun i => if Nat.eqb i j then nth i x 0 * INR (length x) else 0)).
  - rewrite (Rsum_pick (fun i => nth i x 0 * INR (length x))) by auto. field. lra.
  - intros i Hi. apply in_seq in Hi. rewrite kernel_odd by (auto; lia). destruct (Nat.eqb i j); ring.
Qed.
Lemma value_even x order dofs : ifft_simsopt x order = Ok dofs -> length x = (2 * order)%nat ->
  forall j, (j < length x)%nat ->
  trig_poly dofs (INR j / INR (length x)) = nth j x 0 + (-1) ^ j * alternating x / INR (length x).
Proof.
  intros E L j Hj. rewrite (curve_kernel x order dofs j E).
  assert (0 < INR (length x)) by (apply lt_0_INR; lia).
  rewrite (Rsum_map_ext _ (fun i => (if Nat.eqb i j then nth i x 0 * INR (length x) else 0) + (-1) ^ j * ((-1) ^ i * nth i x 0))).
  - rewrite Rsum_map_plus, (Rsum_pick (fun i => nth i x 0 * INR (length x))) by auto.
    rewrite Rsum_map_scal. unfold alternating. field. lra.
  - intros i Hi. apply in_seq in Hi. rewrite kernel_even by (auto; lia). rewrite pow_add. destruct (Nat.eqb i j); ring.
Qed.
Lemma through_even x order dofs : ifft_simsopt x order = Ok dofs -> length x = (2 * order)%nat ->
  ((forall j, (j < length x)%nat -> trig_poly dofs (INR j / INR (length x)) = nth j x 0) <-> alternating x = 0).
Proof.
  intros E L. assert (0 < length x)%nat as P.
  { unfold ifft_simsopt in E. destruct (Nat.ltb _ _); [discriminate|]. destruct (Nat.eqb (length x) 0) eqn:B; [discriminate|].
    apply Nat.eqb_neq in B. lia. }
  assert (0 < INR (length x)) by (apply lt_0_INR; lia). split.
  - intros H'. specialize (H' 0%nat P). rewrite (value_even x order dofs E L 0 P) in H'.
    assert ((-1) ^ 0 * alternating x / INR (length x) = 0) as Q by lra. simpl in Q.
    apply (Rmult_eq_reg_r (/ INR (length x))); [|apply Rinv_neq_0_compat; lra]. unfold Rdiv in Q. lra.
  - intros A j Hj. rewrite (value_even x order dofs E L j Hj), A. unfold Rdiv. ring.
Qed.
Lemma ifft_short x order : (length x < 2 * order)%nat -> ifft_simsopt x order = Raise AssertionError.
Proof. intros H. unfold ifft_simsopt. assert (Nat.ltb (length x) (2 * order) = true) as -> by now apply Nat.ltb_lt. reflexivity. Qed.
Lemma ifft_ok x order : x <> [] -> (2 * order <= length x)%nat -> exists d, ifft_simsopt x order = Ok d /\ length d = (2 * order + 1)%nat.
Proof.
  intros H L. unfold ifft_simsopt. assert (Nat.ltb (length x) (2 * order) = false) as -> by now apply Nat.ltb_ge.
  destruct x; [contradiction|]. cbn [length Nat.eqb]. cbv zeta. eexists. split; [reflexivity|]. cbn [length].
  rewrite (length_pairs (fun k => - 2 * (rfft_im (r :: x) k / INR (S (length x)))) (fun k => 2 * (rfft_re (r :: x) k / INR (S (length x))))). lia.
Qed.

(** ** Curves *)
Lemma curves_forall order coils curves : curves_of order coils = Ok curves ->
  Forall2 (fun c v => curve_of order c = Ok v) coils curves.
Proof.
  revert curves. induction coils as [|c coils IH]; intros curves E; cbn [curves_of] in E.
  - injection E as <-. constructor.
  - destruct (curve_of order c) eqn:C; [|discriminate]. cbn [bind] in E.
    destruct (curves_of order coils) eqn:D; [|discriminate]. cbn [bind] in E. injection E as <-. constructor; auto.
Qed.
Lemma curves_chosen coils order curves : simsopt_curves_from_xyz coils order = Ok curves ->
  exists k, Forall2 (fun c v => curve_of k c = Ok v) coils curves.
Proof.
  unfold simsopt_curves_from_xyz. destruct order as [[|k]|].
  - destruct (default_order coils) eqn:E.
    + intros H. exists n. now apply curves_forall.
    + intros H; injection H as <-. exists 0%nat. destruct coils; [constructor|]. exfalso.
      unfold default_order in E. cbn [fold_left] in E.
      assert (forall l o, fold_left (fun (o : option nat) (c : list vec3) => match o with
        | None => Some (length c / 2)%nat
        | Some k => Some (if Nat.ltb (length c / 2) k then (length c / 2)%nat else k) end) l (Some o) <> None) as X.
      { induction l0; cbn [fold_left]; intros; [discriminate|apply IHl0]. }
      eapply X. exact E.
  - intros H. exists (S k). now apply curves_forall.
  - destruct (default_order coils) eqn:E.
    + intros H. exists n. now apply curves_forall.
    + intros H; injection H as <-. exists 0%nat. destruct coils; [constructor|]. exfalso.
      unfold default_order in E. cbn [fold_left] in E.
      assert (forall l o, fold_left (fun (o : option nat) (c : list vec3) => match o with
        | None => Some (length c / 2)%nat
        | Some k => Some (if Nat.ltb (length c / 2) k then (length c / 2)%nat else k) end) l (Some o) <> None) as X.
      { induction l0; cbn [fold_left]; intros; [discriminate|apply IHl0]. }
      eapply X. exact E.
Qed.
Lemma curve_of_parts order c v : curve_of order c = Ok v -> cv_order v = order /\
  ifft_simsopt (map vx c) order = Ok (cv_x v) /\ ifft_simsopt (map vy c) order = Ok (cv_y v) /\
  ifft_simsopt (map vz c) order = Ok (cv_z v).
Proof.
  unfold curve_of. destruct (ifft_simsopt (map vx c) order); [|discriminate]. cbn [bind].
  destruct (ifft_simsopt (map vy c) order); [|discriminate]. cbn [bind].
  destruct (ifft_simsopt (map vz c) order); [|discriminate]. cbn [bind]. intros E; injection E as <-. auto.
Qed.
Lemma nth_map0 (f : vec3 -> R) c j : f zero3 = 0 -> nth j (map f c) 0 = f (nth j c zero3).
Proof. intros E. rewrite <- E at 1. apply map_nth. Qed.
Lemma curve_through k c v : curve_of k c = Ok v -> length c = (2 * cv_order v + 1)%nat ->
  forall j, (j < length c)%nat -> curve_point v (INR j / INR (length c)) = nth j c zero3.
Proof.
  intros E. destruct (curve_of_parts k c v E) as (E0 & E1 & E2 & E3). rewrite E0. intros L j Hj.
  unfold curve_point. 
  pose proof (through_odd _ _ _ E1) as T1. pose proof (through_odd _ _ _ E2) as T2. pose proof (through_odd _ _ _ E3) as T3.
  rewrite map_length in T1, T2, T3. rewrite T1, T2, T3 by auto.
  rewrite !nth_map0 by reflexivity. now destruct (nth j c zero3).
Qed.
Lemma curves_through coils order curves : simsopt_curves_from_xyz coils order = Ok curves ->
  Forall2 (fun c v => length c = (2 * cv_order v + 1)%nat ->
    forall j, (j < length c)%nat -> curve_point v (INR j / INR (length c)) = nth j c zero3) coils curves.
Proof.
  intros H. destruct (curves_chosen _ _ _ H) as (k & F). clear H.
  induction F; constructor; auto. eapply curve_through; eauto.
Qed.

(** ** Levels and the data handed to the contour finder *)
Lemma mod1_spec x : 0 <= mod1 x < 1 /\ exists z, x = IZR z + mod1 x.
Proof.
  unfold mod1. destruct (base_Int_part x). split; [lra|]. exists (Int_part x). ring.
Qed.
Lemma levels_sym n shift : (n <> 0)%nat ->
  cut_levels true n shift = Ok (map (fun k => (INR k + 1 / 2) / (2 * INR n)) (seq 0 n)).
Proof.
  intros H. destruct n as [|n']; [contradiction|]. unfold cut_levels. cbv zeta. remember (S n') as n eqn:En.
  assert (0 < INR n) by (apply lt_0_INR; lia).
  f_equal. unfold linspace_open. rewrite map_map. apply map_ext. intros k. field. lra.
Qed.
Lemma levels_gen n shift : (n <> 0)%nat ->
  cut_levels false n shift = Ok (map (fun k => (INR k + 1 / 2 + mod1 shift) / (2 * INR n)) (seq 0 (2 * n))).
Proof.
  intros H. destruct n as [|n']; [contradiction|]. unfold cut_levels. cbv zeta. remember (S n') as n eqn:En.
  assert (0 < INR n) by (apply lt_0_INR; lia).
  f_equal. unfold linspace_open. rewrite !map_map. rewrite (Nat.mul_comm n 2). apply map_ext. intros k.
  rewrite mult_INR. change (INR 2) with 2. field. lra.
Qed.
Lemma cut_levels_shape q n shift : (n <> 0)%nat -> exists f, 0 <= f < 1 /\ (exists z, shift = IZR z + f) /\
  cut_levels (q_stellsym q) n shift
  = Ok (if q_stellsym q then map (fun k => (INR k + 1 / 2) / (2 * INR n)) (seq 0 n)
        else map (fun k => (INR k + 1 / 2 + f) / (2 * INR n)) (seq 0 (2 * n))).
Proof.
  intros H. destruct (mod1_spec shift) as [B Z]. exists (mod1 shift). split; auto. split; auto.
  destruct (q_stellsym q); [now apply levels_sym|now apply levels_gen].
Qed.
Lemma mod1_plus x z : mod1 (x + IZR z) = mod1 x.
Proof.
  unfold mod1. assert (Int_part (x + IZR z) = (Int_part x + z)%Z) as ->; [|rewrite plus_IZR; ring].
  destruct (base_Int_part x) as [H1 H2]. symmetry. unfold Int_part at 2.
  assert ((Int_part x + z + 1)%Z = up (x + IZR z)); [|lia]. apply tech_up; rewrite !plus_IZR; lra.
Qed.

Lemma half_levels n : (n <> 0)%nat ->
  map (fun k => (INR k + 1 / 2) / (2 * INR n)) (seq 0 (2 * n))
  = map (fun k => (INR k + 1 / 2) / (2 * INR n)) (seq 0 n)
    ++ rev (map (fun l => 1 - l) (map (fun k => (INR k + 1 / 2) / (2 * INR n)) (seq 0 n))).
Proof.
  intros H. assert (0 < INR n) by (apply lt_0_INR; lia).
  replace (2 * n)%nat with (n + n)%nat by lia. rewrite seq_app, map_app. f_equal.
  rewrite map_map. rewrite <- map_rev. rewrite Nat.add_0_l.
  assert (rev (seq 0 n) = map (fun i => (n - 1 - i)%nat) (seq 0 n)) as R.
  { clear. induction n; [reflexivity|]. rewrite seq_S at 1. rewrite rev_app_distr, IHn. cbn [rev app seq map Nat.add].
    f_equal; [lia|]. rewrite <- seq_shift, map_map. apply map_ext. intros; lia. }
  rewrite R, map_map. 
  assert (seq n n = map (fun i => (n + i)%nat) (seq 0 n)) as ->.
  { clear. generalize n at 1 3. intros m. induction n; [reflexivity|]. rewrite !seq_S, map_app, IHn. reflexivity. }
  rewrite map_map. apply map_ext_in. intros k Hk. apply in_seq in Hk.
  rewrite plus_INR, !minus_INR by lia. change (INR 1) with 1. field. lra.
Qed.

Lemma transpose_sample (F : R -> R -> R) ps ts : 
  transpose (length ts) (sample F ps ts) = map (fun t => map (fun p => F p t) ps) ts.
Proof.
  unfold transpose, sample. induction ts using rev_ind.
  - reflexivity.
  - rewrite app_length. cbn [length]. rewrite Nat.add_1_r, seq_S, map_app, map_app. cbn [map Nat.add]. f_equal.
    + rewrite <- IHts. apply map_ext_in. intros j Hj. apply in_seq in Hj. rewrite !map_map. apply map_ext. intros p.
      rewrite map_app, app_nth1 by (rewrite map_length; lia). reflexivity.
    + f_equal. rewrite map_map. apply map_ext. intros p. rewrite map_app. cbn [map].
      rewrite app_nth2 by (rewrite map_length; lia). rewrite map_length, Nat.sub_diag. reflexivity.
Qed.

Lemma tot_shift q x p t : made q -> length x = q_ndofs q ->
  phi_tot q x (p + / INR (q_nfp q)) t = phi_tot q x p t + q_G q / INR (q_nfp q) /\
  phi_tot q x (p - / INR (q_nfp q)) t = phi_tot q x p t - q_G q / INR (q_nfp q).
Proof.
  intros M L. destruct (made_facts q M) as (Hn & _). unfold phi_tot. split.
  - rewrite phi_shift_phi by auto. unfold Rdiv. ring.
  - rewrite <- (phi_shift_phi q x (p - / INR (q_nfp q)) t) by auto.
    replace (p - / INR (q_nfp q) + / INR (q_nfp q)) with p by ring. unfold Rdiv. ring.
Qed.

Lemma cut_call find q ps ts q' x n shift F t0 N :
  made q -> length x = q_ndofs q -> qreports (fun q => Phi_with_net_current q x) q F ->
  ps <> [] -> N <> 0%nat -> ts = equispaced t0 (/ INR N) N -> on_points q ps ts = Ok q' ->
  / 2 ^ 52 < Rabs (q_G q) ->
  let zeta := map (fun p => 2 * PI * (p - / INR (q_nfp q))) ps ++ map (fun p => 2 * PI * p) ps
              ++ map (fun p => 2 * PI * (p + / INR (q_nfp q))) ps in
  coil_zeta_theta_from_qp find q' x n shift =
  bind (cut_levels (q_stellsym q) n shift) (fun levels =>
  bind (find zeta (map (fun t => 2 * PI * t) ts)
     (map (fun t => map (fun z => F (z / (2 * PI)) t / (q_G q / INR (q_nfp q))) zeta) ts) levels)
     (fun segs => Ok (concat segs))).
Proof.
  intros M L H Hp HN Et P HG zeta.
  assert (ts <> []) as Ht by (subst ts; destruct N; [contradiction|discriminate]).
  pose proof (qreports_unique _ _ _ _ H (tot_reports q x M L)) as EF.
  unfold coil_zeta_theta_from_qp. rewrite (Phi_net_placed q x M L ps ts q' P). cbn [bind].
  destruct (made_facts q M) as (Hn & _).
  assert (q_nfp q' = q_nfp q) as En by apply (proj2 (placed_cols q ps ts q' P)).
  pose proof (placed_fields q ps ts q' P) as (_ & _ & _ & E1 & E2 & E3 & E4 & E5 & E6 & _).
  assert (0 < INR (q_nfp q)) as Pn by (apply lt_0_INR; unfold q_nfp; lia).
  assert (0 < INR N) as PN by (apply lt_0_INR; lia).
  assert (q_G q <> 0) as G0 by (intros E; rewrite E, Rabs_R0 in HG; assert (0 < / 2 ^ 52) by (apply Rinv_0_lt_compat, pow_lt; lra); lra).
  assert (2 * PI <> 0) as Pi0 by (pose proof PI_RGT_0; lra).
  assert (cut_theta q' = Ok (map (fun t => 2 * PI * t) ts)) as ET.
  { unfold cut_theta. replace (q_qtheta q') with ts by congruence.
    assert (length ts = N) as LT by (rewrite Et; unfold equispaced; now rewrite map_length, seq_length).
    assert (exists tl, ts = t0 :: tl) as (tl & Etl).
    { rewrite Et. destruct N; [contradiction|]. unfold equispaced. cbn [seq map]. eexists. f_equal. change (INR 0) with 0. ring. }
    rewrite Etl at 1. f_equal. rewrite LT, Et. unfold linspace_open, equispaced. rewrite !map_map. apply map_ext.
    intros i. field. lra. }
  rewrite ET. cbn [bind].
  assert (cut_zeta q' = zeta) as EZ.
  { unfold cut_zeta, zeta. rewrite En. replace (q_qphi q') with ps by congruence. rewrite !map_map. f_equal; [|f_equal];
      apply map_ext; intros p; field; lra. }
  assert (cut_data q' (sample (phi_tot q x) ps ts) = Ok (sample (fun z t => F (z / (2 * PI)) t / (q_G q / INR (q_nfp q))) zeta ts)) as ED.
  { unfold cut_data. replace (q_G q') with (q_G q) by congruence. rewrite En.
    destruct (Rlt_dec finfo_eps (Rabs (q_G q))) as [_|X]; [|elim X; exact HG]. apply f_equal.
    rewrite !gmap_sample. unfold sample, zeta. rewrite !map_app, !map_map. apply (f_equal2 (@app (list R))); [|apply (f_equal2 (@app (list R)))];
      apply map_ext; intros p; apply map_ext; intros t; rewrite EF.
    - replace (2 * PI * (p - / INR (q_nfp q)) / (2 * PI)) with (p - / INR (q_nfp q)) by (field; lra).
      rewrite (proj2 (tot_shift q x p t M L)). field. lra.
    - replace (2 * PI * p / (2 * PI)) with p by (field; lra). field. lra.
    - replace (2 * PI * (p + / INR (q_nfp q)) / (2 * PI)) with (p + / INR (q_nfp q)) by (field; lra).
      rewrite (proj1 (tot_shift q x p t M L)). field. lra. }
  rewrite ED. cbn [bind]. rewrite map_length, transpose_sample, EZ.
  replace (q_stellsym q') with (q_stellsym q) by congruence. reflexivity.
Qed.

(** ** Points *)
Lemma fold_pairs {A} (f g : A -> R) l a b :
  fold_left (fun acc x => (fst acc + f x, snd acc + g x)) l (a, b) = (a + Rsum (map f l), b + Rsum (map g l)).
Proof.
  revert a b. induction l; intros a' b'; cbn [fold_left map].
  - unfold Rsum; simpl. f_equal; ring.
  - rewrite IHl, !Rsum_cons. cbn [fst snd]. f_equal; ring.
Qed.
Lemma fold_left_ext {A B} (f g : A -> B -> A) l a : (forall x y, f x y = g x y) -> fold_left f l a = fold_left g l a.
Proof. intros H. revert a. induction l; intros; cbn [fold_left]; auto. rewrite H. apply IHl. Qed.
Lemma box_index mpol ntor :
  map (fun mi => (fst mi, (Z.of_nat (snd mi) - Z.of_nat ntor)%Z))
    (flat_map (fun m => map (fun i => (m, i)) (seq 0 (2 * ntor + 1))) (arange 0 (mpol + 1))) = box mpol ntor.
Proof.
  unfold box. rewrite !flat_map_concat_map, concat_map, map_map. f_equal. apply map_ext. intros m.
  unfold arange. rewrite !map_map. apply map_ext. intros i. cbn [fst snd]. f_equal. lia.
Qed.
Lemma cut_RZ_sum ss zeta theta :
  (ss_stellsym ss = true -> ss_rs ss = (fun _ _ => 0) /\ ss_zc ss = (fun _ _ => 0)) ->
  cut_RZ ss zeta theta =
  (Rsum (map (fun mn => ss_rc ss (fst mn) (snd mn) * cos (IZR (fst mn) * theta - IZR (snd mn) * zeta * INR (ss_nfp ss))
                      + ss_rs ss (fst mn) (snd mn) * sin (IZR (fst mn) * theta - IZR (snd mn) * zeta * INR (ss_nfp ss))) (box (ss_mpol ss) (ss_ntor ss))),
   Rsum (map (fun mn => ss_zs ss (fst mn) (snd mn) * sin (IZR (fst mn) * theta - IZR (snd mn) * zeta * INR (ss_nfp ss))
                      + ss_zc ss (fst mn) (snd mn) * cos (IZR (fst mn) * theta - IZR (snd mn) * zeta * INR (ss_nfp ss))) (box (ss_mpol ss) (ss_ntor ss)))).
Proof.
  intros H. unfold cut_RZ. rewrite <- box_index, !map_map. cbn [fst snd].
  match goal with |- fold_left _ ?l _ = _ => set (L := l) end. clearbody L.
  set (A := fun mi : Z * nat => (Z.of_nat (snd mi) - Z.of_nat (ss_ntor ss))%Z).
  rewrite (fold_left_ext _ (fun acc mi => (fst acc + (ss_rc ss (fst mi) (A mi) * cos (IZR (fst mi) * theta - IZR (A mi) * zeta * INR (ss_nfp ss))
     + ss_rs ss (fst mi) (A mi) * sin (IZR (fst mi) * theta - IZR (A mi) * zeta * INR (ss_nfp ss))),
     snd acc + (ss_zs ss (fst mi) (A mi) * sin (IZR (fst mi) * theta - IZR (A mi) * zeta * INR (ss_nfp ss))
     + ss_zc ss (fst mi) (A mi) * cos (IZR (fst mi) * theta - IZR (A mi) * zeta * INR (ss_nfp ss)))))).
  - rewrite (fold_pairs (fun mi => ss_rc ss (fst mi) (A mi) * cos (IZR (fst mi) * theta - IZR (A mi) * zeta * INR (ss_nfp ss))
     + ss_rs ss (fst mi) (A mi) * sin (IZR (fst mi) * theta - IZR (A mi) * zeta * INR (ss_nfp ss)))).
    rewrite !Rplus_0_l. reflexivity.
  - intros acc mi. unfold cut_step. fold (A mi). cbv zeta. destruct (ss_stellsym ss).
    + destruct H as [-> ->]; auto. f_equal; ring.
    + f_equal; ring.
Qed.
Lemma cut_point_is ss zt :
  (ss_stellsym ss = true -> ss_rs ss = (fun _ _ => 0) /\ ss_zc ss = (fun _ _ => 0)) ->
  cut_point ss zt = table_point ss (fst zt / (2 * PI)) (snd zt / (2 * PI)).
Proof.
  intros H. assert (PI <> 0) by (pose proof PI_RGT_0; lra).
  unfold cut_point. rewrite cut_RZ_sum by auto. destruct zt as [z t]. cbn [fst snd]. unfold table_point, cyl_point.
  replace (2 * PI * (z / (2 * PI))) with z by (field; auto).
  rewrite <- !Rsum_map_plus. 
  assert (forall mn : Z * Z, 2 * PI * (IZR (fst mn) * (t / (2 * PI)) - IZR (snd mn) * INR (ss_nfp ss) * (z / (2 * PI)))
    = IZR (fst mn) * t - IZR (snd mn) * z * INR (ss_nfp ss)) as E by (intros; field; auto).
  match goal with |- V3 (Rsum ?a * _) (Rsum ?a * _) (Rsum ?b) = V3 (Rsum ?c * _) (Rsum ?c * _) (Rsum ?d) =>
    replace c with a; [replace d with b; [reflexivity|]|] end.
  - apply map_ext. intros mn. rewrite E. ring.
  - apply map_ext. intros mn. rewrite E. reflexivity.
Qed.

Lemma cut_on_surface find q x n shift save coils current file F :
  coil_xyz_from_qp find q x n shift save = Ok (coils, current, file) -> reports gamma (q_winding q) F ->
  exists paths, coil_zeta_theta_from_qp find q x n shift = Ok paths /\
    coils = map (map (fun zt => F (fst zt / (2 * PI)) (snd zt / (2 * PI)))) paths.
Proof.
  unfold coil_xyz_from_qp. destruct (coil_zeta_theta_from_qp find q x n shift) as [paths|]; [|discriminate]. cbn [bind].
  destruct (to_simsopt (q_winding q)) eqn:E; [|discriminate]. cbn [bind].
  destruct (coil_currents q (length paths)); [|discriminate]. cbn [bind]. intros H R. exists paths. split; auto.
  destruct (to_simsopt_point _ _ E) as (_ & E2 & _ & _ & _ & _ & _ & Z & _).
  assert (coils = map (map (cut_point a)) paths) as ->.
  { destruct save; [destruct (filaments _ _); [|discriminate]|]; cbn [bind] in H; congruence. }
  apply map_ext. intros l. apply map_ext. intros zt. rewrite cut_point_is by (rewrite E2; auto).
  now apply (table_point_is (q_winding q)).
Qed.

(** ** Currents *)
Lemma currents_value q n c : coil_currents q n = Ok c -> (n <> 0)%nat /\
  c = q_G q / INR n / INR (q_nfp q) / (if q_stellsym q then 2 else 1).
Proof.
  unfold coil_currents. destruct n; [discriminate|]. cbv zeta. intros E. apply ok_inj in E. split; [discriminate|]. rewrite E. clear E.
  destruct (q_stellsym q); [reflexivity|]. unfold Rdiv. rewrite Rinv_1. ring.
Qed.
Lemma xyz_parts find q x n shift save coils current file :
  coil_xyz_from_qp find q x n shift save = Ok (coils, current, file) ->
  coil_currents q (length coils) = Ok current /\
  (save = true -> exists fs, filaments current coils = Ok fs /\ file = Some {| cf_periods := q_nfp q; cf_filaments := fs |}).
Proof.
  unfold coil_xyz_from_qp. destruct (coil_zeta_theta_from_qp find q x n shift) as [paths|]; [|discriminate]. cbn [bind].
  destruct (to_simsopt (q_winding q)) eqn:E; [|discriminate]. cbn [bind].
  destruct (coil_currents q (length paths)) eqn:C; [|discriminate]. cbn [bind].
  destruct save.
  - destruct (filaments _ _) eqn:F; [|discriminate]. cbn [bind]. intros H.
    assert (coils = map (map (cut_point a)) paths /\ current = a0 /\ file = Some {| cf_periods := q_nfp q; cf_filaments := a1 |}) as (-> & -> & ->)
      by (injection H; auto). rewrite map_length. split; auto. intros _. exists a1. auto.
  - intros H. assert (coils = map (map (cut_point a)) paths /\ current = a0) as (-> & ->) by (injection H; auto).
    rewrite map_length. split; auto. discriminate.
Qed.

Lemma filaments_current c coils fs : filaments c coils = Ok fs ->
  Rsum (map (fun fil : list (vec3 * R) => match fil with [] => 0 | pc :: _ => snd pc end) fs) = INR (length coils) * c.
Proof.
  revert fs. induction coils as [|l coils IH]; intros fs E; cbn [filaments] in E.
  - injection E as <-. unfold Rsum. simpl. ring.
  - destruct (filament c l) eqn:F; [|discriminate]. cbn [bind] in E. destruct (filaments c coils); [|discriminate].
    cbn [bind] in E. injection E as <-. cbn [map length]. rewrite Rsum_cons, IH by auto. rewrite S_INR.
    unfold filament in F. destruct l; [discriminate|]. injection F as <-. simpl. ring.
Qed.

Lemma file_current_value find q x n shift coils current f : q_nfp q <> 0%nat ->
  coil_xyz_from_qp find q x n shift true = Ok (coils, current, Some f) ->
  file_current f = if q_stellsym q then q_G q / 2 else q_G q.
Proof.
  intros Hn H. destruct (xyz_parts _ _ _ _ _ _ _ _ _ H) as [C F]. destruct (F eq_refl) as (fs & E1 & E2). injection E2 as ->.
  unfold file_current. cbn [cf_periods cf_filaments]. rewrite (filaments_current _ _ _ E1).
  destruct (currents_value _ _ _ C) as [H0 ->].
  assert (0 < INR (length coils)) by (apply lt_0_INR; lia). assert (0 < INR (q_nfp q)) by (apply lt_0_INR; lia).
  destruct (q_stellsym q); field; lra.
Qed.

Lemma Rsum_flat {A} (f : A -> list R) l : Rsum (flat_map f l) = Rsum (map (fun x => Rsum (f x)) l).
Proof. induction l; [reflexivity|]. cbn [flat_map map]. now rewrite Rsum_app, Rsum_cons, IHl. Qed.
Lemma map_flat_map {A B C} (g : B -> C) (f : A -> list B) l : map g (flat_map f l) = flat_map (fun x => map g (f x)) l.
Proof. induction l; simpl; auto. now rewrite map_app, IHl. Qed.
Lemma symmetries_current base nfp st c : (forall v, In v base -> snd v = c) ->
  poloidal_current (coils_via_symmetries base nfp st) = INR nfp * (if st then 2 else 1) * INR (length base) * c.
Proof.
  intros H. unfold poloidal_current, coils_via_symmetries. rewrite map_flat_map, Rsum_flat.
  set (P := if st then 2 else 1).
  rewrite (Rsum_map_ext _ (fun _ => P * INR (length base) * c)).
  - rewrite Rsum_const, seq_length. ring.
  - intros k _. rewrite map_flat_map, Rsum_flat.
    assert (forall f : bool, Rsum (map (fun c0 => if cl_flip c0 then - cl_current c0 else cl_current c0)
       (map (fun ci : curve * R => {| cl_curve := fst ci; cl_period := k; cl_flip := f; cl_current := if f then - snd ci else snd ci |}) base))
       = INR (length base) * c) as X.
    { intros f. rewrite map_map. cbn [cl_flip cl_current]. rewrite <- Rsum_const. apply Rsum_map_ext. intros v Hv. rewrite (H v Hv). destruct f; ring. }
    unfold P. destruct st; cbn [map]; rewrite !Rsum_cons, !X; change (Rsum []) with 0; ring.
Qed.
Lemma coils_current find q x n shift order l : q_nfp q <> 0%nat ->
  simsopt_coil_from_qp find q x n shift order = Ok l -> poloidal_current l = q_G q.
Proof.
  intros Hn. unfold simsopt_coil_from_qp. destruct (coil_xyz_from_qp find q x n shift false) as [[[coils current] file]|] eqn:E; [|discriminate].
  cbn [bind]. destruct (simsopt_curves_from_xyz coils order) eqn:C; [|discriminate]. cbn [bind]. intros H; injection H as <-.
  destruct (xyz_parts _ _ _ _ _ _ _ _ _ E) as [CC _]. destruct (currents_value _ _ _ CC) as [H0 HC].
  destruct (curves_chosen _ _ _ C) as (k & F). assert (length coils = length a) as FL by (clear - F; induction F; simpl; congruence). clear F; rename FL into F.
  rewrite (symmetries_current _ _ _ current) by (intros v Hv; apply in_map_iff in Hv as (w & <- & _); reflexivity).
  rewrite map_length, <- F, HC.
  assert (0 < INR (length coils)) by (apply lt_0_INR; lia). assert (0 < INR (q_nfp q)) by (apply lt_0_INR; lia).
  destruct (q_stellsym q); field; lra.
Qed.

(** The current of a coil against the current between neighbouring levels. *)
Lemma level_current find q x n shift save coils current file : q_nfp q <> 0%nat -> q_G q <> 0 ->
  coil_xyz_from_qp find q x n shift save = Ok (coils, current, file) ->
  (n <> 0)%nat /\
  (current = q_G q / INR (q_nfp q) * (1 / (2 * INR n)) <-> length coils = if q_stellsym q then n else (2 * n)%nat).
Proof.
  intros Hn HG H. destruct (xyz_parts _ _ _ _ _ _ _ _ _ H) as [C _]. destruct (currents_value _ _ _ C) as [H0 HC].
  assert (n <> 0%nat) as N0.
  { intros ->. unfold coil_xyz_from_qp, coil_zeta_theta_from_qp in H. 
    destruct (Phi_with_net_current q x); [|discriminate]. cbn [bind] in H. destruct (cut_theta q); [|discriminate]. cbn [bind] in H.
    destruct (cut_data q a); [|discriminate]. cbn [bind cut_levels] in H. discriminate. }
  split; auto. 
  assert (0 < INR (length coils)) by (apply lt_0_INR; lia). assert (0 < INR (q_nfp q)) by (apply lt_0_INR; lia).
  assert (0 < INR n) by (apply lt_0_INR; lia).
  set (m := if q_stellsym q then n else (2 * n)%nat).
  assert (q_G q / INR (q_nfp q) * (1 / (2 * INR n)) = q_G q / INR m / INR (q_nfp q) / (if q_stellsym q then 2 else 1)) as E.
  { unfold m. destruct (q_stellsym q); rewrite ?mult_INR; change (INR 2) with 2; field; lra. }
  assert (0 < INR m) by (unfold m; destruct (q_stellsym q); apply lt_0_INR; lia).
  rewrite E, HC. split; [|intros ->; reflexivity].
  intros X. apply INR_eq.
  assert ((if q_stellsym q then 2 else 1) <> 0) by (destruct (q_stellsym q); lra).
  assert (/ INR (length coils) = / INR m) as Y.
  { apply (Rmult_eq_reg_l (q_G q / INR (q_nfp q) / (if q_stellsym q then 2 else 1))).
    - transitivity (q_G q / INR (length coils) / INR (q_nfp q) / (if q_stellsym q then 2 else 1)); [field; lra|].
      rewrite X. field. lra.
    - unfold Rdiv. repeat apply Rmult_integral_contrapositive_currified; auto; apply Rinv_neq_0_compat; lra. }
  rewrite <- (Rinv_inv (INR (length coils))), Y. apply Rinv_inv.
Qed.
