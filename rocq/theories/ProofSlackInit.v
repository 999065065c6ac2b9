(** Proofs: initial slack values, smoothing limits, the slack-name registry. *)
From Coq Require Import String List Bool Arith ZArith Reals Lra Lia.
From Coquelicot Require Import Coquelicot.
From Verif Require Import Base ModelArray ModelMath ModelQuantity ModelWrapper ModelShipped
  SpecMath SpecQuantity ProofArray ProofMath ProofQuantity ProofSlack.
Import ListNotations.
Open Scope R_scope.
Open Scope string_scope.
Open Scope list_scope.

(** ** C25 *)
Lemma linf_init_ok P ss func aux pd au reg reg' q :
  init_quantity reg (generate_linf_norm P ss func aux pd false au) = (reg', Ok q) ->
  aux <> "phi" -> phi_only func ->
  forall qp phi fld u raw, func qp [("phi", phi)] = Ok fld -> el fld <> [] -> 0 < u ->
  (pd = true -> forall x, In x (el fld) -> 0 <= x) ->
  call q qp [("phi", phi)] = Ok (scal raw) ->
  init_feasible_tight q qp phi aux u (raw / u).
Proof.
  intros I Ha Hphi qp phi fld u raw E Hne Hu Hpd Hraw.
  rewrite (linf_built _ _ _ _ _ _ _ _ _ _ I) in *. clear I.
  destruct (exists_max (map Rabs (el fld))) as [M HM]; [apply map_nonempty; auto|].
  assert (EM : raw = M).
  { unfold call, getitem in Hraw. cbn [lookup q_raw] in Hraw.
    change (String.eqb "phi" "phi") with true in Hraw. cbn [bind] in Hraw.
    rewrite (linf_raw_value func false qp _ fld M E HM) in Hraw. inversion Hraw; auto. }
  subst raw. intros sp.
  destruct (linf_g_value P ss func aux pd false au qp (state phi aux (scal (M / u))) fld u (M / u))
    as [gv [Eg El]]; [rewrite phi_state; auto|apply lookup_state_aux; auto|].
  exists (linf_slack_f aux false), (linf_slack_g P ss func aux pd false au), (linf_init func false),
    (scal (M / u)), gv.
  split; [reflexivity|]. split; [reflexivity|]. split; [reflexivity|]. split.
  { unfold linf_init. rewrite (linf_raw_value func false qp _ fld M E HM). reflexivity. }
  split; auto. split.
  - unfold all_le0. rewrite El. rewrite linf_g_le0 by auto.
    intros x Hx. apply div_mono; auto. destruct HM as [_ H]. apply H, in_map; auto.
  - unfold linf_slack_f, getitem. rewrite lookup_state_aux by auto. reflexivity.
Qed.

Lemma linf4_init_ok P (func : field P) aux reg reg' q :
  init_quantity reg (generate_linf_norm_4 func aux) = (reg', Ok q) ->
  aux <> "phi" -> phi_only func ->
  forall qp phi fld u raw, func qp [("phi", phi)] = Ok fld -> wf fld -> el fld <> [] -> 0 < u ->
  call q qp [("phi", phi)] = Ok (scal raw) ->
  init_feasible_tight q qp phi aux u (raw / u).
Proof.
  intros I Ha Hphi qp phi fld u raw E W Hne Hu Hraw.
  rewrite (linf4_built _ _ _ _ _ _ I) in *. clear I.
  destruct (exists_max (map Rabs (el fld))) as [M HM]; [apply map_nonempty; auto|].
  assert (EM : raw = sq (sq M)).
  { unfold call, getitem in Hraw. cbn [lookup q_raw] in Hraw.
    change (String.eqb "phi" "phi") with true in Hraw. cbn [bind] in Hraw.
    unfold linf4_raw in Hraw. rewrite E in Hraw. cbn [bind] in Hraw.
    destruct (amax_spec (amap (fun x => sq (sq x)) fld)) as [M' [E' H']]; [apply map_nonempty; auto|].
    rewrite E' in Hraw. cbn [bind] in Hraw. simpl in H'.
    rewrite (is_max_unique _ _ _ H' (linf4_max _ _ HM)) in Hraw. inversion Hraw; auto. }
  assert (Hmax : is_max (sq M) (map sq (el fld))).
  { apply (is_max_map_mono sq sq M); auto; [intros; apply sq_mono; auto|intros; apply sq_abs]. }
  pose proof (sqrt_lt_R0 u Hu) as Hue.
  subst raw. intros sp.
  destruct (linf4_g_value func aux qp (state phi aux (scal (sq M / sqrt u))) fld u (sq M / sqrt u))
    as [gv [Eg El]]; [rewrite phi_state; auto|auto|apply lookup_state_aux; auto|].
  exists (linf_slack_f aux true), (linf4_slack_g func aux), (linf4_init func), (scal (sq M / sqrt u)), gv.
  split; [reflexivity|]. split; [reflexivity|]. split; [reflexivity|]. split.
  { unfold linf4_init. rewrite E. cbn [bind].
    destruct (amax_spec (amap sq fld)) as [M' [E' H']]; [apply map_nonempty; auto|].
    rewrite E'. cbn [bind]. simpl in H'. rewrite (is_max_unique _ _ _ H' Hmax). reflexivity. }
  split; auto. split.
  - unfold all_le0. rewrite El. intros y Hy. apply in_map_iff in Hy as [x [<- Hx]].
    assert (sq x / sqrt u <= sq M / sqrt u)
      by (apply div_mono; auto; destruct Hmax as [_ H]; apply H, in_map; auto). lra.
  - unfold linf_slack_f, getitem. rewrite lookup_state_aux by auto. cbn [bind].
    rewrite <- (sqrt_div_sq u (sq M)) by auto. reflexivity.
Qed.

Lemma l1_init_ok P da nfp ss (func : field P) aux pd sqr au reg reg' q :
  init_quantity reg (generate_l1_norm P da nfp ss func aux pd sqr au) = (reg', Ok q) ->
  aux <> "phi" -> phi_only func ->
  forall qp phi fld u raw, func qp [("phi", phi)] = Ok fld -> wf fld ->
  wf (da qp) -> sh (da qp) = sh fld -> 0 < u ->
  (pd = true -> forall x, In x (el fld) -> 0 <= x) ->
  call q qp [("phi", phi)] = Ok (scal raw) ->
  init_feasible_tight q qp phi aux u (raw / u).
Proof.
  intros I Ha Hphi qp phi fld u raw E W Wd Es Hu Hpd Hraw.
  rewrite (l1_built _ _ _ _ _ _ _ _ _ _ _ _ I) in *. clear I.
  assert (EM : raw = wsum (el (da qp)) (el fld) * nfp qp).
  { unfold call, getitem in Hraw. cbn [lookup q_raw] in Hraw.
    change (String.eqb "phi" "phi") with true in Hraw. cbn [bind] in Hraw.
    rewrite (l1_raw_value P da nfp func qp _ fld) in Hraw by auto. inversion Hraw; auto. }
  subst raw. intros sp.
  set (l := map (fun x => Rabs x / u) (el fld)). set (n := length (el fld)).
  assert (Ll : length l = n) by (unfold l; apply map_length).
  destruct (l1_g_value P ss func aux pd au qp (state phi aux (Arr [n] l)) fld u l)
    as [gv [Eg El]]; [rewrite phi_state; auto|apply lookup_state_aux; auto|auto|].
  exists (l1_slack_f P da nfp ss func aux au), (l1_slack_g P ss func aux pd au), (l1_init P ss func au),
    (Arr [n] l), gv.
  split; [reflexivity|]. split; [reflexivity|]. split; [reflexivity|]. split.
  { unfold l1_init. rewrite E. cbn [bind].
    replace (if au && ss qp then compress_by_stellsym fld else flatten fld) with (flatten fld)
      by (unfold compress_by_stellsym; destruct (au && ss qp); reflexivity).
    rewrite op2_scal_r by (apply wf_amap, wf_flatten). cbn [sh el amap flatten]. rewrite map_map. reflexivity. }
  split; auto. split.
  - unfold all_le0. rewrite El. rewrite l1_g_le0 by auto.
    intros x t Hx. unfold l in Hx. rewrite (in_combine_map _ _ _ _ Hx). lra.
  - rewrite (l1_f_value P da nfp ss func aux au qp _ fld (scal u) l); auto;
      [|rewrite phi_state; auto|apply lookup_state_aux; auto].
    unfold l. rewrite wsum_scaled_abs by auto. do 2 f_equal. field. lra.
Qed.

(** The squared variant: exactly when the initial value is feasible / tight. *)
Lemma linf_sq_init P ss func aux pd au reg reg' q :
  init_quantity reg (generate_linf_norm P ss func aux pd true au) = (reg', Ok q) ->
  aux <> "phi" -> phi_only func ->
  forall qp phi fld u M, func qp [("phi", phi)] = Ok fld -> 0 < u ->
  (pd = true -> forall x, In x (el fld) -> 0 <= x) ->
  is_max M (map Rabs (el fld)) ->
  (init_feasible_tight q qp phi aux u (M * M / u) <-> M = 0 \/ M = 1) /\
  exists I G p gv, scaled_slack_dofs_init q (Some "slack") = Ok (Some [(aux, I)]) /\
    scaled_g_ineq_impl q (Some "slack") = Ok (Some G) /\
    I qp [("phi", phi)] (scal u) = Ok p /\
    G qp (state phi aux p) (scal u) = Ok gv /\ (all_le0 gv <-> M = 0 \/ 1 <= M).
Proof.
  intros I Ha Hphi qp phi fld u M E Hu Hpd HM.
  rewrite (linf_built _ _ _ _ _ _ _ _ _ _ I) in *. clear I.
  pose proof (sqrt_lt_R0 u Hu) as Hs.
  pose proof (is_max_abs_nonneg _ _ HM) as HM0.
  set (t := sq M / sqrt u).
  destruct (linf_g_value P ss func aux pd true au qp (state phi aux (scal t)) fld u t)
    as [gv [Eg El]]; [rewrite phi_state; auto|apply lookup_state_aux; auto|].
  assert (EI : linf_init func true qp [("phi", phi)] (scal u) = Ok (scal t)).
  { unfold linf_init. rewrite (linf_raw_value func true qp _ fld M E HM). reflexivity. }
  assert (Hfeas : all_le0 gv <-> M = 0 \/ 1 <= M).
  { unfold all_le0. rewrite El, linf_g_le0 by auto. unfold t. split.
    - intros H. destruct HM as [Hin _]. apply in_map_iff in Hin as [x [<- Hx]]. specialize (H x Hx).
      assert (Rabs x <= sq (Rabs x)).
      { apply Rmult_le_reg_r with (/ sqrt u); [apply Rinv_0_lt_compat; auto|exact H]. }
      unfold sq in *. destruct (Req_dec (Rabs x) 0); [left; auto|right]. nra.
    - intros H x Hx. apply div_mono; auto.
      assert (Rabs x <= M) by (destruct HM as [_ HH]; apply HH, in_map; auto).
      unfold sq. destruct H as [-> |H]; [|nra]. pose proof (Rabs_pos x). nra. }
  split.
  - split.
    + intros H. destruct (H []) as [F [G [I [p [gv' [E1 [E2 [E3 [E4 [E5 [E6 E7]]]]]]]]]]].
      cbn in E1, E2, E3. inversion E1; subst F. inversion E2; subst G. inversion E3; subst I.
      rewrite EI in E4. inversion E4; subst p. rewrite Eg in E5. inversion E5; subst gv'.
      unfold linf_slack_f, getitem in E7. rewrite lookup_state_aux in E7 by auto. cbn [bind] in E7.
      assert (E8 : sq t = M * M / u) by (inversion E7; auto).
      unfold t in E8. rewrite sqrt_div_sq in E8 by auto.
      assert (sq (sq M) = M * M).
      { apply Rmult_eq_reg_r with (/ u); [exact E8|]. apply Rinv_neq_0_compat. lra. }
      unfold sq in *. destruct (Req_dec M 0); [left; auto|right].
      assert (M * M = 1). { apply Rmult_eq_reg_r with (M * M); [lra|nra]. }
      nra.
    + intros H sp.
      exists (linf_slack_f aux true), (linf_slack_g P ss func aux pd true au), (linf_init func true), (scal t), gv.
      split; [reflexivity|]. split; [reflexivity|]. split; [reflexivity|]. split; auto. split; auto.
      split; [apply Hfeas; destruct H; [left|right]; lra|].
      unfold linf_slack_f, getitem. rewrite lookup_state_aux by auto. cbn [bind].
      change (Ok (scal (sq t)) = Ok (scal (M * M / u))). do 2 f_equal.
      unfold t. rewrite sqrt_div_sq by auto.
      unfold sq. destruct H as [-> | ->]; field; lra.
  - exists (linf_init func true), (linf_slack_g P ss func aux pd true au), (scal t), gv.
    repeat (split; auto).
Qed.

(** ** C26 *)
Lemma tends_squeeze v L K : 0 <= K ->
  (forall eps, 0 < eps -> exists x, v eps = Ok x /\ Rabs (x - L) <= K * eps) ->
  tends_to_0plus v L.
Proof.
  intros HK H e He. exists (e / (K + 1)). split; [apply Rdiv_lt_0_compat; lra|].
  intros eps [H1 H2]. destruct (H eps H1) as [x [Ex Hx]]. exists x. split; auto.
  eapply Rle_lt_trans; [exact Hx|].
  assert (K * eps <= (K + 1) * eps) by nra.
  assert ((K + 1) * eps < e).
  { replace e with ((K + 1) * (e / (K + 1))) by (field; lra). apply Rmult_lt_compat_l; lra. }
  lra.
Qed.

Lemma tends_cont v L (h : R -> R) : continuity_pt h 0 -> h 0 = L ->
  (forall eps, 0 < eps -> v eps = Ok (h eps)) -> tends_to_0plus v L.
Proof.
  intros C <- H e He. destruct (C e He) as [d [Hd HC]].
  exists d. split; auto. intros eps [H1 H2]. exists (h eps). split; auto.
  apply HC. split.
  - split; [exact Logic.I|lra].
  - simpl. unfold R_dist. rewrite Rabs_right; lra.
Qed.

Lemma tends_unique v L L' : tends_to_0plus v L -> tends_to_0plus v L' -> L = L'.
Proof.
  intros H H'. destruct (Req_dec L L') as [|N]; auto. exfalso.
  set (e := Rabs (L - L') / 2).
  assert (He : 0 < e) by (unfold e; assert (0 < Rabs (L - L')) by (apply Rabs_pos_lt; lra); lra).
  destruct (H e He) as [d [Hd A]]. destruct (H' e He) as [d' [Hd' A']].
  set (eps := Rmin d d' / 2).
  assert (Hm : 0 < Rmin d d') by (apply Rmin_glb_lt; auto).
  pose proof (Rmin_l d d'). pose proof (Rmin_r d d').
  destruct (A eps) as [x [Ex Hx]]; [unfold eps; lra|].
  destruct (A' eps) as [x' [Ex' Hx']]; [unfold eps; lra|].
  rewrite Ex in Ex'. inversion Ex'; subst x'.
  pose proof (Rabs_triang (L - x) (x - L')) as T.
  replace (L - x + (x - L')) with (L - L') in T by ring.
  rewrite <- (Rabs_Ropp (L - x)) in T. replace (- (L - x)) with (x - L) in T by ring.
  unfold e in *. lra.
Qed.

Lemma is_max_div M l u : 0 < u -> is_max M (map Rabs l) -> is_max (M / u) (map Rabs (map (fun x => x / u) l)).
Proof.
  intros Hu [H1 H2].
  assert (G : forall x, Rabs (x / u) = Rabs x / u).
  { intros x. unfold Rdiv. rewrite Rabs_mult, (Rabs_right (/ u)); auto.
    apply Rle_ge. left. apply Rinv_0_lt_compat; auto. }
  split.
  - apply in_map_iff in H1 as [x [<- Hx]]. apply in_map_iff. exists (x / u). split; auto.
    apply in_map_iff. eauto.
  - intros y Hy. apply in_map_iff in Hy as [z [<- Hz]]. apply in_map_iff in Hz as [x [<- Hx]].
    rewrite G. apply div_mono; auto. apply H2, in_map; auto.
Qed.

Lemma tends_sq v L : tends_to_0plus v L ->
  tends_to_0plus (fun eps => match v eps with Ok x => Ok (sq x) | Raise e => Raise e end) (sq L).
Proof.
  intros H e He.
  assert (C : continuity_pt sq L) by (unfold sq; apply derivable_continuous_pt; reg).
  destruct (C e He) as [d [Hd HC]].
  destruct (H d Hd) as [d' [Hd' H']].
  exists d'. split; auto. intros eps Heps. destruct (H' eps Heps) as [x [Ex Hx]].
  rewrite Ex. exists (sq x). split; auto.
  destruct (Req_dec x L) as [-> |N]; [rewrite Rminus_eq_0, Rabs_R0; auto|].
  apply HC. split; [split; [exact Logic.I|auto]|exact Hx].
Qed.

Lemma linf_lse_tends l M (f : R -> result R) : is_max M (map Rabs l) ->
  (forall eps, 0 < eps -> f eps = Ok (linf_lse l eps)) -> tends_to_0plus f M.
Proof.
  intros HM Hf.
  assert (Hn : 1 <= INR (length l)).
  { destruct HM as [H _]. destruct l; [easy|]. apply (le_INR 1). simpl. lia. }
  assert (HK : 0 <= ln (2 * INR (length l))).
  { rewrite <- ln_1. apply ln_mono; lra. }
  apply (tends_squeeze f M (ln (2 * INR (length l))) HK).
  intros eps He. rewrite Hf by auto. eexists. split; [reflexivity|].
  pose proof (linf_lse_bounds l eps M He HM). rewrite Rabs_right; lra.
Qed.

Lemma approx_linf_limit P ss func aux pd sqr au reg reg' q :
  init_quantity reg (generate_linf_norm P ss func aux pd sqr au) = (reg', Ok q) ->
  forall qp phi fld u M, func qp [("phi", phi)] = Ok fld -> wf fld -> 0 < u ->
  is_max M (map Rabs (el fld)) ->
  approx_converges q qp phi u (if sqr then (M / u) * (M / u) else M / u).
Proof.
  intros I qp phi fld u M E W Hu HM. rewrite (linf_built _ _ _ _ _ _ _ _ _ _ I).
  assert (V : forall eps, 0 < eps -> 
    bind (scaled_f_impl (P:=P) {| q_raw := linf_raw func sqr; q_approx := linf_approx func sqr;
         q_slack_f := linf_slack_f aux sqr;
         q_slack_g := Some (linf_slack_g P ss func aux pd sqr au);
         q_slack_h := None; q_slack_init := Some [(aux, linf_init func sqr)];
         q_compat := ["f"; "<="] |} (Some "approx") [("lse_epsilon", eps)])
      (fun F => scalar_value (F qp [("phi", phi)] (scal u)))
    = Ok (let v := linf_lse (map (fun x => x / u) (el fld)) eps in if sqr then sq v else v)).
  { intros eps He. unfold scaled_f_impl. cbn [String.eqb Ascii.eqb Bool.eqb bind q_approx].
    unfold linf_approx. rewrite E. cbn [bind]. rewrite op2_scal_r by auto. cbn [bind].
    unfold getitem. cbn [lookup]. change (String.eqb "lse_epsilon" "lse_epsilon") with true.
    cbn [bind el]. destruct sqr; reflexivity. }
  unfold approx_converges.
  pose proof (is_max_div M (el fld) u Hu HM) as HM'.
  destruct sqr.
  - change (M / u * (M / u)) with (sq (M / u)).
    intros e He. 
    destruct (tends_sq (fun eps => Ok (linf_lse (map (fun x => x / u) (el fld)) eps)) (M / u)) with (e := e)
      as [d [Hd H]]; auto.
    + apply (linf_lse_tends _ _ _ HM'). auto.
    + exists d. split; auto. intros eps Heps. destruct (H eps Heps) as [x [Ex Hx]].
      exists x. split; auto. rewrite V by lra. exact Ex.
  - apply (linf_lse_tends _ _ _ HM'). exact V.
Qed.

Lemma approx_linf4_limit P (func : field P) aux reg reg' q :
  init_quantity reg (generate_linf_norm_4 func aux) = (reg', Ok q) ->
  forall qp phi fld u M, func qp [("phi", phi)] = Ok fld -> wf fld -> 0 < u ->
  is_max M (map Rabs (el fld)) ->
  approx_converges q qp phi u (sq (M * M / (u * u))).
Proof.
  intros I qp phi fld u M E W Hu HM. rewrite (linf4_built _ _ _ _ _ _ I).
  assert (V : forall eps, 0 < eps -> 
    bind (scaled_f_impl (P:=P) {| q_raw := linf4_raw func; q_approx := linf4_approx func;
         q_slack_f := linf_slack_f aux true;
         q_slack_g := Some (linf4_slack_g func aux);
         q_slack_h := None; q_slack_init := Some [(aux, linf4_init func)];
         q_compat := ["f"; "<="] |} (Some "approx") [("lse_epsilon", eps)])
      (fun F => scalar_value (F qp [("phi", phi)] (scal u)))
    = Ok (sq (linf_lse (map (fun x => sq x / sq u) (el fld)) eps))).
  { intros eps He. unfold scaled_f_impl. cbn [String.eqb Ascii.eqb Bool.eqb bind q_approx].
    unfold linf4_approx. rewrite E. cbn [bind].
    change (amap sq (scal u)) with (scal (sq u)).
    rewrite op2_scal_r by (apply wf_amap; auto). cbn [bind].
    unfold getitem. cbn [lookup]. change (String.eqb "lse_epsilon" "lse_epsilon") with true.
    cbn [bind el amap]. rewrite map_map. reflexivity. }
  unfold approx_converges.
  assert (HM' : is_max (sq M / sq u) (map Rabs (map (fun x => sq x / sq u) (el fld)))).
  { rewrite map_map. apply (is_max_map_mono (fun x => sq x / sq u)); auto.
    - intros a b Ha Hab. apply div_mono; [unfold sq; nra|apply sq_mono; auto].
    - intros x. rewrite <- sq_abs. rewrite Rabs_right; auto.
      apply Rle_ge, Rmult_le_pos; [apply sq_pos|left; apply Rinv_0_lt_compat; unfold sq; nra]. }
  intros e He. 
  destruct (tends_sq (fun eps => Ok (linf_lse (map (fun x => sq x / sq u) (el fld)) eps)) (sq M / sq u)) with (e := e)
    as [d [Hd H]]; auto.
  - apply (linf_lse_tends _ _ _ HM'). auto.
  - exists d. split; auto. intros eps Heps. destruct (H eps Heps) as [x [Ex Hx]].
    exists x. split; auto. rewrite V by lra. exact Ex.
Qed.

(** ** C28 *)

Lemma mem_In s l : mem s l = true <-> In s l.
Proof.
  unfold mem. rewrite existsb_exists. split.
  - intros [x [Hx E]]. apply String.eqb_eq in E. subst; auto.
  - intros H. exists s. split; auto. apply String.eqb_refl.
Qed.

Lemma init_registry P reg (a : quantity_args P) reg' r : init_quantity reg a = (reg', r) ->
  match r with
  | Ok q => reg' = reg ++ slack_names q /\ (forall n, In n (slack_names q) -> ~ In n reg) /\
            a_compat a = q_compat q
  | Raise _ => reg' = reg
  end.
Proof.
  unfold init_quantity. intros H.
  destruct (a_slack_f a), (a_raw a), (a_slack_g a), (a_slack_h a);
    try (inversion H; subst; reflexivity).
  destruct (a_init a) as [| |d].
  - inversion H; subst. unfold slack_names. simpl. rewrite app_nil_r. auto.
  - inversion H; subst; reflexivity.
  - cbv zeta in H. destruct (existsb _ (map fst d)) eqn:X; [inversion H; subst; reflexivity|].
    destruct (forallb _ _); inversion H; subst; [|reflexivity].
    unfold slack_names. simpl. split; auto. split; auto.
    intros n Hn Hr. assert (existsb (fun n => mem n reg) (map fst d) = true).
    { apply existsb_exists. exists n. split; auto. apply mem_In; auto. }
    congruence.
Qed.

Lemma registry_invariant P (defs : list (string * quantity_args P)) reg reg' rs :
  define_all reg defs = (reg', rs) ->
  reg' = reg ++ concat (owned_names rs) /\
  (forall i l n, nth_error (owned_names rs) i = Some l -> In n l -> ~ In n reg) /\
  (forall i j l m n, i <> j -> nth_error (owned_names rs) i = Some l ->
     nth_error (owned_names rs) j = Some m -> In n l -> In n m -> False).
Proof.
  revert reg reg' rs. induction defs as [|[nm a] defs IH]; simpl; intros reg reg' rs H.
  - inversion H; subst. simpl. rewrite app_nil_r. split; auto. split.
    + intros [|i] ? ? E; discriminate E.
    + intros [|i] j ? ? ? _ E; discriminate E.
  - destruct (init_quantity reg a) as [reg1 r] eqn:E1.
    destruct (define_all reg1 defs) as [reg2 rs'] eqn:E2. inversion H; subst.
    apply init_registry in E1. destruct (IH _ _ _ E2) as [H1 [H2 H3]].
    assert (G : reg1 = reg ++ match r with Ok q => slack_names q | Raise _ => [] end /\
      (forall n, In n match r with Ok q => slack_names q | Raise _ => [] end -> ~ In n reg)).
    { destruct r; [tauto|]. rewrite app_nil_r. split; auto. }
    destruct G as [G1 G2]. simpl. split; [|split].
    + rewrite H1, G1, app_assoc. reflexivity.
    + intros [|i] l n; simpl; intros E Hn.
      * inversion E; subst l. auto.
      * intros Hr. apply (H2 i l n E Hn). rewrite G1, in_app_iff. auto.
    + intros [|i] [|j] l m n Hij; simpl; intros El Em Hl Hm; try lia.
      * inversion El; subst l. apply (H2 j m n Em Hm). rewrite G1, in_app_iff. auto.
      * inversion Em; subst m. apply (H2 i l n El Hl). rewrite G1, in_app_iff. auto.
      * apply (H3 i j l m n); auto.
Qed.
