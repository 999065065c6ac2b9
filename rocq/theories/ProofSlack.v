(** Proofs about the slack and smoothed forms of quantities. *)
From Coq Require Import String List Bool Arith ZArith Reals Lra Lia.
From Coquelicot Require Import Coquelicot.
From Verif Require Import Base ModelArray ModelMath ModelQuantity ModelWrapper ModelShipped
  SpecMath SpecQuantity ProofArray ProofMath ProofQuantity.
Import ListNotations.
Open Scope R_scope.
Open Scope string_scope.
Open Scope list_scope.

(** ** What the constructors build *)
Lemma linf_built P ss func aux pd sqr au reg reg' q :
  init_quantity reg (generate_linf_norm P ss func aux pd sqr au) = (reg', Ok q) ->
  q = {| q_raw := linf_raw func sqr; q_approx := linf_approx func sqr;
         q_slack_f := linf_slack_f aux sqr;
         q_slack_g := Some (linf_slack_g P ss func aux pd sqr au);
         q_slack_h := None; q_slack_init := Some [(aux, linf_init func sqr)];
         q_compat := ["f"; "<="] |}.
Proof.
  unfold init_quantity. cbn [a_slack_f a_raw a_slack_g a_slack_h a_init generate_linf_norm].
  cbv zeta. destruct (existsb _ _); [discriminate|]. cbn. intros H; inversion H; reflexivity.
Qed.

Lemma linf4_built P func aux reg reg' (q : quantity P) :
  init_quantity reg (generate_linf_norm_4 func aux) = (reg', Ok q) ->
  q = {| q_raw := linf4_raw func; q_approx := linf4_approx func;
         q_slack_f := linf_slack_f aux true;
         q_slack_g := Some (linf4_slack_g func aux);
         q_slack_h := None; q_slack_init := Some [(aux, linf4_init func)];
         q_compat := ["f"; "<="] |}.
Proof.
  unfold init_quantity. cbn [a_slack_f a_raw a_slack_g a_slack_h a_init generate_linf_norm_4].
  cbv zeta. destruct (existsb _ _); [discriminate|]. cbn. intros H; inversion H; reflexivity.
Qed.

Lemma l1_built P da nfp ss func aux pd sqr au reg reg' q :
  init_quantity reg (generate_l1_norm P da nfp ss func aux pd sqr au) = (reg', Ok q) ->
  q = {| q_raw := l1_raw P da nfp func; q_approx := l1_approx P da nfp func;
         q_slack_f := l1_slack_f P da nfp ss func aux au;
         q_slack_g := Some (l1_slack_g P ss func aux pd au);
         q_slack_h := None; q_slack_init := Some [(aux, l1_init P ss func au)];
         q_compat := ["f"; "<="] |}.
Proof.
  unfold init_quantity. cbn [a_slack_f a_raw a_slack_g a_slack_h a_init generate_l1_norm].
  cbv zeta. destruct (existsb _ _); [discriminate|]. cbn. intros H; inversion H; reflexivity.
Qed.

Lemma lookup_state_aux phi aux p : aux <> "phi" -> lookup aux (state phi aux p) = Some p.
Proof.
  intros H. simpl. destruct (String.eqb_spec aux "phi"); [contradiction|].
  rewrite String.eqb_refl. reflexivity.
Qed.

Lemma phi_state {P} (func : field P) qp phi aux p : phi_only func ->
  func qp (state phi aux p) = func qp [("phi", phi)].
Proof. intros H. apply H. reflexivity. Qed.

Lemma linf_raw_value {P} (func : field P) sqr qp d fld M :
  func qp d = Ok fld -> is_max M (map Rabs (el fld)) ->
  linf_raw func sqr qp d = Ok (scal (if sqr then sq M else M)).
Proof.
  intros E HM. unfold linf_raw. rewrite E. cbn [bind].
  destruct (amax_spec (amap Rabs fld)) as [M' [E' H']].
  - simpl. intros C. destruct HM as [H _]. rewrite C in H. easy.
  - rewrite E'. cbn [bind]. simpl in H'. rewrite (is_max_unique _ _ _ H' HM). reflexivity.
Qed.

Lemma exists_max l : l <> [] -> exists M : R, is_max M l.
Proof. intros H. destruct l as [|x l]; [easy|]. exists (lmax x l). split; [apply lmax_in|apply lmax_ub]. Qed.

Lemma map_nonempty {A B} (f : A -> B) l : l <> [] -> map f l <> [].
Proof. destruct l; simpl; congruence. Qed.

(** ** C23 *)
Lemma linf_slack_exact P ss func aux pd sqr au reg reg' q :
  init_quantity reg (generate_linf_norm P ss func aux pd sqr au) = (reg', Ok q) ->
  aux <> "phi" -> phi_only func ->
  forall qp phi fld u, func qp [("phi", phi)] = Ok fld -> el fld <> [] -> 0 < u ->
  (pd = true -> forall x, In x (el fld) -> 0 <= x) ->
  exists M, is_max M (map Rabs (el fld)) /\
    call q qp [("phi", phi)] = Ok (scal (if sqr then M * M else M)) /\
    slack_exact q qp phi aux u ((if sqr then M * M else M) / u) (fun p => exists t, p = scal t).
Proof.
  intros I Ha Hphi qp phi fld u E Hne Hu Hpd. rewrite (linf_built _ _ _ _ _ _ _ _ _ _ I).
  destruct (exists_max (map Rabs (el fld))) as [M HM]; [apply map_nonempty; auto|].
  exists M. split; auto. split.
  - unfold call, getitem. cbn [lookup String.eqb Ascii.eqb Bool.eqb bind q_raw].
    change (String.eqb "phi" "phi") with true. cbn [bind].
    rewrite (linf_raw_value func sqr qp _ fld M E HM). destruct sqr; reflexivity.
  - intros sp.
    exists (linf_slack_f aux sqr), (linf_slack_g P ss func aux pd sqr au).
    split; [reflexivity|]. split; [reflexivity|]. split; [reflexivity|].
    set (ue := if sqr then sqrt u else u).
    assert (Hue : 0 < ue) by (unfold ue; destruct sqr; auto; apply sqrt_lt_R0; auto).
    assert (HM0 := is_max_abs_nonneg _ _ HM).
    assert (HL : (if sqr then M * M else M) / u = if sqr then sq (M / ue) else M / ue).
    { unfold ue. destruct sqr; auto. rewrite sqrt_div_sq by auto. reflexivity. }
    assert (Hq : 0 <= M / ue) by (apply Rmult_le_pos; auto; left; apply Rinv_0_lt_compat; auto).
    split.
    + intros p [t ->].
      destruct (linf_g_value P ss func aux pd sqr au qp (state phi aux (scal t)) fld u t)
        as [gv [Eg El]]; [rewrite phi_state; auto|apply lookup_state_aux; auto|].
      exists (if sqr then sq t else t), gv. split; [|split; auto].
      * unfold linf_slack_f, getitem. rewrite lookup_state_aux by auto. cbn [bind].
        destruct sqr; reflexivity.
      * intros Hle. unfold all_le0 in Hle. rewrite El in Hle. fold ue in Hle.
        rewrite linf_g_le0 in Hle by auto.
        assert (Hb : M / ue <= t).
        { destruct HM as [Hin _]. apply in_map_iff in Hin as [x [<- Hx]]. auto. }
        rewrite HL. destruct sqr; auto. unfold sq. nra.
    + exists (scal (M / ue)).
      destruct (linf_g_value P ss func aux pd sqr au qp (state phi aux (scal (M / ue))) fld u (M / ue))
        as [gv [Eg El]]; [rewrite phi_state; auto|apply lookup_state_aux; auto|].
      exists gv. split; [eauto|]. split; auto. split.
      * unfold all_le0. rewrite El. fold ue. rewrite linf_g_le0 by auto.
        intros x Hx. apply div_mono; auto. destruct HM as [_ H]. apply H, in_map; auto.
      * unfold linf_slack_f, getitem. rewrite lookup_state_aux by auto. cbn [bind].
        rewrite HL. destruct sqr; reflexivity.
Qed.

Lemma linf4_g_value {P} (func : field P) aux qp d fld u t :
  func qp d = Ok fld -> wf fld -> lookup aux d = Some (scal t) ->
  exists gv, linf4_slack_g func aux qp d (scal u) = Ok gv /\
    el gv = map (fun x => sq x / sqrt u - t) (el fld).
Proof.
  intros E W L. unfold linf4_slack_g. rewrite E. cbn [bind]. unfold getitem. rewrite L. cbn [bind].
  change (amap sqrt (scal u)) with (scal (sqrt u)).
  rewrite op2_scal_r by (apply wf_amap; auto). cbn [bind].
  rewrite op2_scal_r by (red; simpl; rewrite !map_length; auto).
  eexists. split; [reflexivity|]. simpl. rewrite !map_map. reflexivity.
Qed.

Lemma is_max_map_mono (f : R -> R) (g : R -> R) M l : 
  (forall a b, 0 <= a -> a <= b -> f a <= f b) -> (forall x, g x = f (Rabs x)) ->
  is_max M (map Rabs l) -> is_max (f M) (map g l).
Proof.
  intros Hf Hg [H1 H2]. split.
  - apply in_map_iff in H1 as [x [<- Hx]]. apply in_map_iff. exists x. auto.
  - intros y Hy. apply in_map_iff in Hy as [x [<- Hx]]. rewrite Hg. apply Hf; [apply Rabs_pos|].
    apply H2, in_map; auto.
Qed.

Lemma sq_abs x : sq x = sq (Rabs x).
Proof. unfold sq. unfold Rabs. destruct (Rcase_abs x); ring. Qed.
Lemma sq_mono a b : 0 <= a -> a <= b -> sq a <= sq b.
Proof. unfold sq. intros. nra. Qed.
Lemma sq_pos a : 0 <= sq a.
Proof. unfold sq. nra. Qed.

Lemma linf4_max M l : is_max M (map Rabs l) -> is_max (sq (sq M)) (map (fun x => sq (sq x)) l).
Proof.
  apply is_max_map_mono with (f := fun x => sq (sq x)).
  - intros a b Ha Hab. apply sq_mono; [apply sq_pos|apply sq_mono; auto].
  - intros x. rewrite (sq_abs x). reflexivity.
Qed.

Lemma linf4_slack_exact P (func : field P) aux reg reg' q :
  init_quantity reg (generate_linf_norm_4 func aux) = (reg', Ok q) ->
  aux <> "phi" -> phi_only func ->
  forall qp phi fld u, func qp [("phi", phi)] = Ok fld -> wf fld -> el fld <> [] -> 0 < u ->
  exists M, is_max M (map Rabs (el fld)) /\
    call q qp [("phi", phi)] = Ok (scal (M * M * (M * M))) /\
    slack_exact q qp phi aux u (M * M * (M * M) / u) (fun p => exists t, p = scal t).
Proof.
  intros I Ha Hphi qp phi fld u E W Hne Hu. rewrite (linf4_built _ _ _ _ _ _ I).
  destruct (exists_max (map Rabs (el fld))) as [M HM]; [apply map_nonempty; auto|].
  exists M. split; auto. split.
  - unfold call, getitem. cbn [lookup q_raw].
    change (String.eqb "phi" "phi") with true. cbn [bind].
    unfold linf4_raw. rewrite E. cbn [bind].
    destruct (amax_spec (amap (fun x => sq (sq x)) fld)) as [M' [E' H']]; [apply map_nonempty; auto|].
    rewrite E'. cbn [bind]. simpl in H'. rewrite (is_max_unique _ _ _ H' (linf4_max _ _ HM)). reflexivity.
  - intros sp. exists (linf_slack_f aux true), (linf4_slack_g func aux).
    split; [reflexivity|]. split; [reflexivity|]. split; [reflexivity|].
    pose proof (sqrt_lt_R0 u Hu) as Hue.
    assert (HL : M * M * (M * M) / u = sq (sq M / sqrt u)) by (rewrite sqrt_div_sq; auto).
    assert (Hmax : is_max (sq M) (map sq (el fld))).
    { apply (is_max_map_mono sq sq M); auto; [intros; apply sq_mono; auto|intros; apply sq_abs]. }
    assert (Hq : 0 <= sq M / sqrt u) by (apply Rmult_le_pos; [apply sq_pos|left; apply Rinv_0_lt_compat; auto]).
    split.
    + intros p [t ->].
      destruct (linf4_g_value func aux qp (state phi aux (scal t)) fld u t) as [gv [Eg El]];
        [rewrite phi_state; auto|auto|apply lookup_state_aux; auto|].
      exists (sq t), gv. split; [|split; auto].
      * unfold linf_slack_f, getitem. rewrite lookup_state_aux by auto. reflexivity.
      * intros Hle. unfold all_le0 in Hle. rewrite El in Hle.
        assert (Hb : sq M / sqrt u <= t).
        { destruct Hmax as [Hin _]. apply in_map_iff in Hin as [x [<- Hx]].
          assert (sq x / sqrt u - t <= 0) by (apply Hle, in_map_iff; eauto). lra. }
        rewrite HL. apply sq_mono; auto.
    + exists (scal (sq M / sqrt u)).
      destruct (linf4_g_value func aux qp (state phi aux (scal (sq M / sqrt u))) fld u (sq M / sqrt u))
        as [gv [Eg El]]; [rewrite phi_state; auto|auto|apply lookup_state_aux; auto|].
      exists gv. split; [eauto|]. split; auto. split.
      * unfold all_le0. rewrite El. intros y Hy. apply in_map_iff in Hy as [x [<- Hx]].
        assert (sq x / sqrt u <= sq M / sqrt u)
          by (apply div_mono; auto; destruct Hmax as [_ H]; apply H, in_map; auto). lra.
      * unfold linf_slack_f, getitem. rewrite lookup_state_aux by auto. cbn [bind].
        rewrite HL. reflexivity.
Qed.

(** ** C24 *)
Lemma size_single n : size [n] = n.
Proof. unfold size. simpl. lia. Qed.

Lemma map2_map_r {A B C D} (f : A -> B -> C) (g : D -> B) l m :
  map2 f l (map g m) = map2 (fun a d => f a (g d)) l m.
Proof. revert m. induction l; intros [|y m]; simpl; auto. f_equal; auto. Qed.
Lemma map2_map_l {A B C D} (f : A -> B -> C) (g : D -> A) l m :
  map2 f (map g l) m = map2 (fun d b => f (g d) b) l m.
Proof. revert m. induction l; intros [|y m]; simpl; auto. f_equal; auto. Qed.
Lemma map2_length {A B C} (f : A -> B -> C) l m : length l = length m -> length (map2 f l m) = length m.
Proof. revert m. induction l; intros [|y m]; simpl; intros; try discriminate; auto. Qed.

(** Weighted sum of absolute values. *)
Definition wsum (w l : list R) : R := Rsum (map2 (fun a x => a * Rabs x) w l).

Lemma expand_da_same P (da : P -> arr) qp fld : ndim fld = ndim (da qp) -> expand_da P da qp fld = da qp.
Proof.
  intros H. unfold expand_da. rewrite H, Nat.sub_diag. simpl. rewrite app_nil_r.
  destruct (da qp); reflexivity.
Qed.

Lemma l1_raw_value P da nfp (func : field P) qp d fld :
  func qp d = Ok fld -> wf fld -> wf (da qp) -> sh (da qp) = sh fld ->
  l1_raw P da nfp func qp d = Ok (scal (wsum (el (da qp)) (el fld) * nfp qp)).
Proof.
  intros E W Wd Es. unfold l1_raw. rewrite E. cbn [bind].
  rewrite expand_da_same by (unfold ndim; congruence).
  rewrite op2_same by (auto; apply wf_amap; auto). cbn [bind]. unfold asum. cbn [el amap].
  rewrite map2_map_r. reflexivity.
Qed.

Lemma l1_f_value P da nfp ss (func : field P) aux au qp d fld u p :
  func qp d = Ok fld -> wf fld -> wf (da qp) -> sh (da qp) = sh fld ->
  lookup aux d = Some (Arr [length (el fld)] p) -> length p = length (el fld) ->
  l1_slack_f P da nfp ss func aux au qp d u = Ok (scal (wsum (el (da qp)) p * nfp qp)).
Proof.
  intros E W Wd Es L Lp. unfold l1_slack_f. rewrite E. cbn [bind].
  unfold getitem. rewrite L. cbn [bind].
  assert (R1 : reshape (Arr [length (el fld)] p) (sh fld) = Ok (Arr (sh fld) p)).
  { unfold reshape. cbn [el]. red in W. rewrite <- W, Lp, Nat.eqb_refl. reflexivity. }
  unfold expand_by_stellsym. rewrite R1.
  replace (if au && ss qp then Ok (Arr (sh fld) p) else Ok (Arr (sh fld) p))
    with (Ok (Arr (sh fld) p)) by (destruct (au && ss qp); reflexivity).
  cbn [bind sh]. rewrite <- Es, broadcast_same by auto. cbn [bind].
  rewrite op2_same; auto.
  - cbn [bind]. unfold asum. cbn [el amap]. rewrite map2_map_r. reflexivity.
  - apply wf_amap. red. cbn [el sh]. rewrite Lp, Es. exact W.
Qed.

Lemma op2_minus_same1 (a b : list R) n : length a = n -> length b = n ->
  op2 Rminus (Arr [n] a) (Arr [n] b) = Ok (Arr [n] (map2 Rminus a b)).
Proof. intros Ha Hb. rewrite op2_same; auto; red; cbn [el sh]; rewrite size_single; auto. Qed.

Lemma l1_g_value P ss (func : field P) aux pd au qp d fld u p :
  func qp d = Ok fld -> lookup aux d = Some (Arr [length (el fld)] p) -> length p = length (el fld) ->
  exists gv, l1_slack_g P ss func aux pd au qp d (scal u) = Ok gv /\
    el gv = map2 (fun x t => x / u - t) (el fld) p ++
            (if pd then [] else map2 (fun x t => - x / u - t) (el fld) p).
Proof.
  intros E L Lp. unfold l1_slack_g, linf_slack_g. rewrite E. cbn [bind].
  unfold getitem. rewrite L. cbn [bind].
  replace (if au && ss qp then compress_by_stellsym fld else flatten fld) with (flatten fld)
    by (unfold compress_by_stellsym; destruct (au && ss qp); reflexivity).
  rewrite op2_scal_r by apply wf_flatten. cbn [bind].
  cbn [flatten sh el amap]. rewrite op2_minus_same1 by (rewrite ?map_length; auto). cbn [bind].
  destruct pd.
  - eexists. split; [reflexivity|]. cbn [el]. rewrite app_nil_r, map2_map_l. reflexivity.
  - rewrite op2_scal_r by (apply wf_amap, wf_flatten). cbn [bind sh el amap flatten].
    rewrite op2_minus_same1 by (rewrite ?map_length; auto). cbn [bind].
    unfold stack2. cbn [sh]. destruct (list_eq_dec _ _ _) as [_|N]; [|exfalso; apply N; reflexivity].
    eexists. split; [reflexivity|]. cbn [el]. rewrite !map2_map_l. reflexivity.
Qed.

Lemma in_map2 {A B C} (f : A -> B -> C) l m z :
  In z (map2 f l m) -> exists a b, In (a, b) (combine l m) /\ z = f a b.
Proof.
  revert m. induction l as [|x l IH]; intros [|y m]; simpl; try easy.
  intros [<-|H]; [exists x, y; auto|]. destruct (IH _ H) as [a [b [H1 H2]]]. exists a, b. auto.
Qed.
Lemma in_combine_map2 {A B C} (f : A -> B -> C) l m a b :
  In (a, b) (combine l m) -> In (f a b) (map2 f l m).
Proof.
  revert m. induction l as [|x l IH]; intros [|y m]; simpl; try easy.
  intros [H|H]; [left; congruence|right; auto].
Qed.

Lemma l1_g_le0 pd u p l : 0 < u -> (pd = true -> forall x, In x l -> 0 <= x) ->
  (forall y, In y (map2 (fun x t => x / u - t) l p ++
            (if pd then [] else map2 (fun x t => - x / u - t) l p)) -> y <= 0) <->
  (forall x t, In (x, t) (combine l p) -> Rabs x / u <= t).
Proof.
  intros Hu Hpd. split.
  - intros H x t Hx.
    assert (H1 : x / u - t <= 0)
      by (apply H, in_app_iff; left; apply (in_combine_map2 (fun x t => x / u - t)); auto).
    destruct pd.
    + rewrite Rabs_right; [lra|]. apply Rle_ge, Hpd; auto. eapply in_combine_l; eauto.
    + assert (H2 : - x / u - t <= 0)
        by (apply H, in_app_iff; right; apply (in_combine_map2 (fun x t => - x / u - t)); auto).
      unfold Rabs. destruct (Rcase_abs x); lra.
  - intros H y Hy. apply in_app_iff in Hy as [Hy|Hy].
    + apply in_map2 in Hy as [x [t [Hx ->]]]. specialize (H x t Hx).
      pose proof (div_mono x (Rabs x) u Hu (RRle_abs x)). lra.
    + destruct pd; [easy|]. apply in_map2 in Hy as [x [t [Hx ->]]]. specialize (H x t Hx).
      assert (- x <= Rabs x) by (rewrite <- Rabs_Ropp; apply RRle_abs).
      pose proof (div_mono (- x) (Rabs x) u Hu H0). lra.
Qed.

Lemma wsum_bound w l p u : 0 < u -> length w = length l -> length p = length l ->
  (forall a, In a w -> 0 <= a) -> (forall x t, In (x, t) (combine l p) -> Rabs x / u <= t) ->
  wsum w l / u <= wsum w p.
Proof.
  intros Hu. revert l p. induction w as [|a w IH]; intros [|x l] [|t p] L1 L2 Hw H; try discriminate.
  - unfold wsum, Rsum. simpl. lra.
  - unfold wsum, Rsum in *. cbn [map2 fold_right].
    assert (H0 : Rabs x / u <= t) by (apply H; simpl; auto).
    assert (H1 : 0 <= a) by (apply Hw; simpl; auto).
    pose proof (RRle_abs t).
    specialize (IH l p ltac:(simpl in *; lia) ltac:(simpl in *; lia)
       (fun b Hb => Hw b (or_intror Hb)) (fun y s Hy => H y s (or_intror Hy))).
    assert (a * (Rabs x / u) <= a * Rabs t) by (apply Rmult_le_compat_l; lra).
    unfold Rdiv in *. lra.
Qed.

Lemma wsum_scaled_abs w l u : 0 < u -> wsum w (map (fun x => Rabs x / u) l) = wsum w l / u.
Proof.
  intros Hu. unfold wsum, Rsum. revert l. induction w as [|a w IH]; intros [|x l]; simpl; try lra.
  rewrite IH.
  rewrite (Rabs_right (Rabs x / u)).
  - unfold Rdiv. ring.
  - apply Rle_ge, Rmult_le_pos; [apply Rabs_pos|left; apply Rinv_0_lt_compat; auto].
Qed.

Lemma in_combine_map {A B} (f : A -> B) l x t : In (x, t) (combine l (map f l)) -> t = f x.
Proof. induction l; simpl; [easy|]. intros [H|H]; [congruence|auto]. Qed.

Lemma l1_slack_exact P da nfp ss (func : field P) aux pd sqr au reg reg' q :
  init_quantity reg (generate_l1_norm P da nfp ss func aux pd sqr au) = (reg', Ok q) ->
  aux <> "phi" -> phi_only func ->
  forall qp phi fld u, func qp [("phi", phi)] = Ok fld -> wf fld ->
  wf (da qp) -> sh (da qp) = sh fld -> (forall a, In a (el (da qp)) -> 0 <= a) -> 0 <= nfp qp -> 0 < u ->
  (pd = true -> forall x, In x (el fld) -> 0 <= x) ->
  let n := length (el fld) in
  let L1 := Rsum (map (fun p => fst p * Rabs (snd p)) (combine (el (da qp)) (el fld))) * nfp qp in
  call q qp [("phi", phi)] = Ok (scal L1) /\
  slack_exact q qp phi aux u (L1 / u) (fun p => exists l, length l = n /\ p = Arr [n] l) /\
  forall l, length l = n -> exists G gv,
    scaled_g_ineq_impl q (Some "slack") = Ok (Some G) /\
    G qp (state phi aux (Arr [n] l)) (scal u) = Ok gv /\
    (all_le0 gv <-> forall x t, In (x, t) (combine (el fld) l) -> Rabs x / u <= t).
Proof.
  intros I Ha Hphi qp phi fld u E W Wd Es Hda Hn Hu Hpd n L1.
  rewrite (l1_built _ _ _ _ _ _ _ _ _ _ _ _ I).
  assert (EL : L1 = wsum (el (da qp)) (el fld) * nfp qp).
  { unfold L1, wsum. f_equal. f_equal.
    generalize (el (da qp)), (el fld). clear.
    induction l; intros [|y m]; simpl; auto. f_equal; auto. }
  assert (Ld : length (el (da qp)) = length (el fld)) by (red in W, Wd; congruence).
  split; [|split].
  - unfold call, getitem. cbn [lookup q_raw]. change (String.eqb "phi" "phi") with true. cbn [bind].
    rewrite (l1_raw_value P da nfp func qp _ fld) by auto. rewrite EL. reflexivity.
  - intros sp. exists (l1_slack_f P da nfp ss func aux au), (l1_slack_g P ss func aux pd au).
    split; [reflexivity|]. split; [reflexivity|]. split; [reflexivity|]. split.
    + intros p [l [Ll ->]].
      destruct (l1_g_value P ss func aux pd au qp (state phi aux (Arr [n] l)) fld u l)
        as [gv [Eg El]]; [rewrite phi_state; auto|apply lookup_state_aux; auto|auto|].
      exists (wsum (el (da qp)) l * nfp qp), gv. split; [|split; auto].
      * apply (l1_f_value P da nfp ss func aux au qp _ fld); auto;
          [rewrite phi_state; auto|apply lookup_state_aux; auto].
      * intros Hle. unfold all_le0 in Hle. rewrite El in Hle. rewrite l1_g_le0 in Hle by auto.
        rewrite EL. 
        pose proof (wsum_bound (el (da qp)) (el fld) l u Hu Ld Ll Hda Hle).
        unfold Rdiv in *. rewrite Rmult_assoc, (Rmult_comm (nfp qp)), <- Rmult_assoc.
        apply Rmult_le_compat_r; auto.
    + set (l := map (fun x => Rabs x / u) (el fld)).
      assert (Ll : length l = n) by (unfold l; apply map_length).
      destruct (l1_g_value P ss func aux pd au qp (state phi aux (Arr [n] l)) fld u l)
        as [gv [Eg El]]; [rewrite phi_state; auto|apply lookup_state_aux; auto|auto|].
      exists (Arr [n] l), gv. split; [eauto|]. split; auto. split.
      * unfold all_le0. rewrite El. rewrite l1_g_le0 by auto.
        intros x t Hx. unfold l in Hx. rewrite (in_combine_map _ _ _ _ Hx). lra.
      * rewrite (l1_f_value P da nfp ss func aux au qp _ fld (scal u) l); auto;
          [|rewrite phi_state; auto|apply lookup_state_aux; auto].
        unfold l. rewrite wsum_scaled_abs by auto. rewrite EL. do 2 f_equal. field. lra.
  - intros l Ll.
    destruct (l1_g_value P ss func aux pd au qp (state phi aux (Arr [n] l)) fld u l)
        as [gv [Eg El]]; [rewrite phi_state; auto|apply lookup_state_aux; auto|auto|].
    exists (l1_slack_g P ss func aux pd au), gv. split; [reflexivity|]. split; auto.
    unfold all_le0. rewrite El. apply l1_g_le0; auto.
Qed.

Lemma linf4_feasible P (func : field P) aux reg reg' q :
  init_quantity reg (generate_linf_norm_4 func aux) = (reg', Ok q) ->
  aux <> "phi" ->
  forall qp phi fld u t, func qp (state phi aux (scal t)) = Ok fld -> wf fld ->
  exists G gv, scaled_g_ineq_impl q (Some "slack") = Ok (Some G) /\
    G qp (state phi aux (scal t)) (scal u) = Ok gv /\
    (all_le0 gv <-> forall x, In x (el fld) -> x * x / sqrt u <= t).
Proof.
  intros I Ha qp phi fld u t Hf W. apply linf4_built in I. subst q.
  destruct (linf4_g_value func aux qp (state phi aux (scal t)) fld u t Hf W) as [gv [E1 E2]].
  { apply lookup_state_aux; auto. }
  exists (linf4_slack_g func aux), gv. split; [reflexivity|]. split; auto.
  unfold all_le0. rewrite E2. split.
  - intros H x Hx. specialize (H _ (in_map _ _ _ Hx)). unfold sq in H. cbv beta in H. lra.
  - intros H y Hy. apply in_map_iff in Hy as [x [<- Hx]]. specialize (H x Hx). unfold sq. lra.
Qed.
