(** The problem handed to the solver is convex when the user's problem is, and
    only convex slack forms are used. *)
From Coq Require Import String List Bool Arith ZArith Reals Lra Lia.
From Verif Require Import Base ModelArray ProofArray ModelMath SpecMath ProofMath ModelSurface SpecSurface ModelParams ModelField SpecField
  ModelQuantity SpecQuantity ProofQuantity ProofSlack ModelWrapper SpecWrapper ProofWrapper ProofWrapper2 ModelShipped ModelPackage SpecPackage
  SpecConvex ProofPackage ProofPackage2 ProofPackage3 ProofPackage4 ProofConvex SpecProblem ProofProblem ProofProblem2 ProofEnd ProofEnd2
  SpecBest SpecSolver SpecCert SpecCertify ProofCertify.
Import ListNotations.
Open Scope R_scope.
Open Scope string_scope.
Open Scope list_scope.

(** ** Lists *)
Lemma F2_comb (rel rel' : R -> R -> Prop) (g : R -> R) t : (forall p q r, rel r (t * p + (1 - t) * q) -> rel' (g r) (t * g p + (1 - t) * g q)) ->
  forall a b c, Forall2 rel c (lincomb t (1 - t) a b) -> Forall2 rel' (map g c) (lincomb t (1 - t) (map g a) (map g b)).
Proof.
  intros H a. induction a as [|p a IH]; intros [|q b] c F; inversion F; subst; cbn; constructor; auto. apply IH. assumption.
Qed.
Lemma F2_comb2 (rel rel' : R -> R -> Prop) (g : R -> R -> R) t :
  (forall p q r p' q', rel r (t * p + (1 - t) * q) -> rel' (g r (t * p' + (1 - t) * q')) (t * g p p' + (1 - t) * g q q')) ->
  forall a b c a' b', length a = length c -> length b = length c -> length a' = length c -> length b' = length c -> Forall2 rel c (lincomb t (1 - t) a b) ->
    Forall2 rel' (map2 g c (lincomb t (1 - t) a' b')) (lincomb t (1 - t) (map2 g a a') (map2 g b b')).
Proof.
  intros H a. induction a as [|p a IH]; intros [|q b] [|r c] [|p' a'] [|q' b'] L1 L2 L3 L4 F; try discriminate; [constructor|].
  inversion F; subst. cbn. constructor; auto. apply IH; auto.
Qed.
Lemma lincomb_app s t a : forall b a' b', length a = length b -> lincomb s t (a ++ a') (b ++ b') = lincomb s t a b ++ lincomb s t a' b'.
Proof. induction a as [|p a IH]; intros [|q b] a' b' L; try discriminate; [reflexivity|]. cbn. f_equal. apply IH. now injection L. Qed.
Lemma F2_app {A B} (rel : A -> B -> Prop) a b c e : Forall2 rel a b -> Forall2 rel c e -> Forall2 rel (a ++ c) (b ++ e).
Proof. apply Forall2_app. Qed.
Lemma lincomb_map s t u a : forall b, lincomb s t (map (fun v => v * u) a) (map (fun v => v * u) b) = map (fun v => v * u) (lincomb s t a b).
Proof. induction a as [|p a IH]; intros [|q b]; try reflexivity. cbn. f_equal; [ring|apply IH]. Qed.
Lemma wsum_comb t w : 0 <= t <= 1 -> (forall k, In k w -> 0 <= k) -> forall a b, wsum w (lincomb t (1 - t) a b) <= t * wsum w a + (1 - t) * wsum w b \/ length a <> length b.
Proof.
  intros Ht Hw a b. destruct (Nat.eq_dec (length a) (length b)) as [L|L]; [left|now right].
  revert a b L. unfold wsum. induction w as [|k w IH]; intros [|p a] [|q b] L; try discriminate; cbn; try (unfold Rsum; cbn; lra).
  assert (Hk : 0 <= k) by (apply Hw; now left). specialize (IH (fun j J => Hw j (or_intror J)) a b ltac:(now injection L)). unfold Rsum, lincomb in *. cbn [fold_right].
  assert (Rabs (t * p + (1 - t) * q) <= t * Rabs p + (1 - t) * Rabs q).
  { eapply Rle_trans; [apply Rabs_triang|]. rewrite !Rabs_mult, (Rabs_right t), (Rabs_right (1 - t)) by lra. lra. }
  pose proof (Rmult_le_compat_l k _ _ Hk H). lra.
Qed.

Section Bowl.
  Variables (other : list string) (q : params) (U : string -> R) (os : list objective) (cs : list user_constraint) (sp : smoothing_params).
  Variables (f : callable params) (po pc : parsed params).
  Hypothesis O : ordered q.
  Hypothesis Uo : forall o, In o os -> 0 <= ob_weight o /\ scaled_use U q (ob_name o) (ob_unit o).
  Hypothesis Uc : forall c, In c cs -> scaled_use U q (uc_name c) (uc_unit c).
  Hypothesis Eo : parse_objectives q_ndofs (package other) (Objectives (map ob_name os) (map (fun o => UScalar (ob_unit o)) os)) (map ob_weight os) (Some "slack") sp = Ok (f, po).
  Hypothesis Ec : parse_constraints q_ndofs (package other) (map uc_name cs) (map (fun c => op_string (uc_cmp c)) cs) (map (fun c => UScalar (uc_unit c)) cs) (map uc_val cs) (Some "slack") sp = Ok pc.
  Hypothesis Some_sound : exists x, sound q x.
  Hypothesis Cv : nearly_convex_call other q os cs.
  Notation aux := (dict_union (p_slack po) (p_slack pc)).
  (** Two states and the one between them. *)
  Variables (t : R) (x y : list R) (d e k : dofs).
  Notation w := (lincomb t (1 - t) x y).
  Hypothesis Ht : 0 <= t <= 1.
  Hypothesis Sd : state q po pc x d.
  Hypothesis Se : state q po pc y e.
  Hypothesis Sk : state q po pc w k.
  Hypothesis Hk : forall key init, lookup key aux = Some init -> exists a b c, lookup key d = Some a /\ lookup key e = Some b /\ lookup key k = Some c /\
    el c = lincomb t (1 - t) (el a) (el b).
  (** How far the rows of f_max_K2 may bend. *)
  Variable bend : R.
  Hypothesis HE : 0 <= bend.
  Hypothesis HB : forall un, used os cs "f_max_K2" un -> forall vx vy, implementation "_K2" q (at_phi x) = Ok vx -> implementation "_K2" q (at_phi y) = Ok vy ->
    Forall2 (fun p r => 2 * (p + r) <= bend * Rabs un) (el vx) (el vy).
  Definition near (r s : R) : Prop := r <= s + t * (1 - t) * bend.
  Lemma Rle_near r s : r <= s -> near r s.
  Proof using Ht HE. intros H. unfold near. assert (0 <= t * (1 - t) * bend) by (apply Rmult_le_pos; [nra|exact HE]). lra. Qed.

  Definition bowl (rel : R -> R -> Prop) (g : callable params) : Prop :=
    exists a b c, g q d = Ok a /\ g q e = Ok b /\ g q k = Ok c /\ length (el a) = length (el c) /\ length (el b) = length (el c) /\
      Forall2 rel (el c) (lincomb t (1 - t) (el a) (el b)).

  (** A quantity handed over as it is. *)
  Lemma bowl_direct (rel : R -> R -> Prop) n un use a : (rel = Rle \/ rel = eq) -> un <> 0 -> In n direct_quantities -> (n = "K_theta" -> q_stellsym q = true) ->
    add_quantity q_ndofs (package other) n (UScalar un) use (Some "slack") sp = Ok a -> on_chord rel other n q -> bowl rel (ad_f a).
  Proof using Sd Se Sk Ht.
    intros Hrel Nz I St A Ch. pose proof (Rabs_pos_lt un Nz) as Pu.
    assert (One : forall x d, state q po pc x d -> forall v, reads other n q x v -> ad_f a q d = Ok (Arr (sh v) (map (fun r => r / Rabs un) (el v)))).
    { clear - A I St Nz. intros x d (S & Sd) v (Q & G & V). apply get_package in G.
      destruct (direct_use other q x S n I St) as (Q1 & v1 & Ep1 & Ev & D). assert (Q1 = Q) by congruence. subst Q1.
      unfold value_of in V. assert (v1 = v) by congruence. subst v1.
      destruct (use_direct _ _ _ _ _ _ _ _ _ _ _ _ A Ep1 D Nz) as (_ & _ & _ & W & Hf). apply Hf, Sd. }
    destruct (Ch x y t) as (vx & vy & vz & R1 & R2 & R3 & _ & _ & L1 & L2 & F); [apply Sd|apply Se|exact Ht|].
    exists (Arr (sh vx) (map (fun r => r / Rabs un) (el vx))), (Arr (sh vy) (map (fun r => r / Rabs un) (el vy))), (Arr (sh vz) (map (fun r => r / Rabs un) (el vz))).
    split; [exact (One x d Sd vx R1)|]. split; [exact (One y e Se vy R2)|]. split; [exact (One w k Sk vz R3)|]. cbn [el]. rewrite !map_length.
    split; [exact L1|]. split; [exact L2|]. apply (F2_comb rel); [|exact F]. intros p0 q0 r Hr.
    assert (Hi : 0 < / Rabs un) by (apply Rinv_0_lt_compat; exact Pu).
    destruct Hrel as [-> | ->]; unfold Rdiv; [pose proof (Rmult_le_compat_r _ _ _ (Rlt_le _ _ Hi) Hr); lra|rewrite Hr; ring].
  Qed.

  (** The slack array of one use. *)
  Lemma slack_at n un use a Q x' d' : state q po pc x' d' -> used os cs n un -> In n slack_quantities ->
    add_quantity q_ndofs (package other) n (UScalar un) use (Some "slack") sp = Ok a -> package other n = Some (AQuantity Q) ->
    (forall key, lookup key (ad_slack a) <> None -> lookup key aux <> None) ->
    exists I i b, q_slack_init Q = Some [(slack_name n, I)] /\ I q [("phi", vec x')] (scal (Rabs un)) = Ok i /\
      lookup (slack_name n) d' = Some b /\ sh b = sh i /\ wf b /\ exists init, lookup (slack_name n) aux = Some init.
  Proof using O Uo Uc Eo Ec.
    intros (S & St) Un I A Ep Ha. destruct (scaled_used q U os cs Uo Uc n un Un) as (Nz & _). pose proof (Rabs_pos_lt un Nz) as Pu.
    destruct (slack_use other q x' S O n I) as (Q1 & v & Ep1 & Ev & T). assert (Q1 = Q) by congruence. subst Q1.
    destruct (use_slack _ _ _ _ _ _ _ _ _ _ _ _ _ A Ep T Nz) as (G1 & I1 & M & s1 & -> & _ & _ & _ & _ & As1 & Na & Eg1 & Ei1 & HI & HL & _).
    destruct (HI (Rabs un) Pu) as (i & Eii & Si).
    assert (NN : lookup (slack_name n) aux <> None) by (apply Ha; rewrite As1; cbn [lookup]; rewrite String.eqb_refl; discriminate).
    destruct (state_lookup params q_ndofs (package other) q (vec x') U slack_name (fun n => In n slack_quantities) os cs sp f po pc
      (uses_ok other q U os cs O Uo Uc x' S) slack_name_inj Eo Ec d' n un use a Q (scal M) St Un A Ep T I) with (I := I1) (i := i) (u := Rabs un) as (b & Lb & Sb & Wb); auto.
    { exists s1. exact HI. }
    exists I1, i, b. do 5 (split; [assumption|]). destruct (lookup (slack_name n) aux) as [init|]; [eauto|contradiction].
  Qed.
  Lemma field_of im n Q x' v : package other n = Some (AQuantity Q) -> (forall d, call Q q d = bind (getitem d "phi") (fun phi => implementation im q [("phi", phi)])) ->
    reads other n q x' v -> implementation im q (at_phi x') = Ok v.
  Proof using.
    intros Ep Ecl (Q1 & G & V). apply get_package in G. assert (Q1 = Q) by congruence. subst Q1. unfold value_of in V. rewrite Ecl in V. exact V.
  Qed.
  Lemma field_in im x' d' v : state q po pc x' d' -> implementation im q (at_phi x') = Ok v -> implementation im q d' = Ok v.
  Proof using. intros (_ & L & _) V. rewrite (implementation_phi im q d' (at_phi x')); [exact V|]. unfold at_phi. cbn [lookup]. rewrite L. reflexivity. Qed.

  (** The field under the maximum, in the three states. *)
  Definition fields (rel : R -> R -> Prop) (im : string) (vx vy vz : arr) : Prop :=
    implementation im q (at_phi x) = Ok vx /\ implementation im q (at_phi y) = Ok vy /\ implementation im q (at_phi w) = Ok vz /\
    length (el vx) = length (el vz) /\ length (el vy) = length (el vz) /\ Forall2 rel (el vz) (lincomb t (1 - t) (el vx) (el vy)).

  Lemma fields_of rel im n Q : package other n = Some (AQuantity Q) -> (forall d, call Q q d = bind (getitem d "phi") (fun phi => implementation im q [("phi", phi)])) ->
    on_chord rel other n q -> exists vx vy vz, fields rel im vx vy vz.
  Proof using Sd Se Ht.
    intros Ep Ecl Ch. destruct (Ch x y t) as (vx & vy & vz & R1 & R2 & R3 & _ & _ & L1 & L2 & F); [apply Sd|apply Se|exact Ht|].
    exists vx, vy, vz. do 3 (split; [eapply field_of; eassumption|]). auto.
  Qed.

  Lemma sq_comb p r : sq (t * p + (1 - t) * r) <= t * sq p + (1 - t) * sq r.
  Proof using Ht. unfold sq. assert (0 <= t * (1 - t) * ((p - r) * (p - r))) by (apply Rmult_le_pos; [nra|apply Rle_0_sqr]). nra. Qed.

  Lemma bowl_linf im n Q pd sqr au un use a vx vy vz : used os cs n un -> In n slack_quantities ->
    package other n = Some (AQuantity Q) -> (exists reg reg', init_quantity reg (generate_linf_norm params q_stellsym (implementation im) (slack_name n) pd sqr au) = (reg', Ok Q)) ->
    add_quantity q_ndofs (package other) n (UScalar un) use (Some "slack") sp = Ok a -> (forall key, lookup key (ad_slack a) <> None -> lookup key aux <> None) ->
    fields (if pd then Rle else eq) im vx vy vz -> el vx <> [] -> el vy <> [] -> el vz <> [] -> bowl Rle (ad_f a) /\ forall g, In g (ad_g a) -> bowl Rle g.
  Proof using O Uo Uc Eo Ec Sd Se Sk Ht Hk.
    intros Un I Ep (reg & reg' & Ei) A Ha (V1 & V2 & V3 & L1 & L2 & F) N1 N2 N3. destruct (scaled_used q U os cs Uo Uc n un Un) as (Nz & _). pose proof (Rabs_pos_lt un Nz) as Pu.
    pose proof (linf_built _ _ _ _ _ _ _ _ _ _ Ei) as EQ.
    assert (One : forall x' d' v, state q po pc x' d' -> implementation im q (at_phi x') = Ok v -> el v <> [] -> exists s, lookup (slack_name n) d' = Some (scal s)).
    { intros x' d' v S' V N. destruct (slack_at n un use a Q x' d' S' Un I A Ep Ha) as (I0 & i & b & EI & Ei0 & Lb & Sb & Wb & _).
      rewrite EQ in EI. cbn [q_slack_init] in EI. injection EI as <-. unfold linf_init in Ei0.
      destruct (exists_max (map Rabs (el v))) as [M HM]; [now apply map_nonempty|].
      rewrite (linf_raw_value (implementation im) sqr q [("phi", vec x')] v M V HM) in Ei0. cbn [bind] in Ei0.
      replace (if sqr then amap sqrt (scal (Rabs un)) else scal (Rabs un)) with (scal (if sqr then sqrt (Rabs un) else Rabs un)) in Ei0 by (destruct sqr; reflexivity).
      rewrite op2_scal_r in Ei0 by (destruct sqr; reflexivity). injection Ei0 as <-. destruct (sh_nil b) as (s & ->); [rewrite Sb; destruct sqr; reflexivity|exact Wb|]. eauto. }
    destruct (One _ _ _ Sd V1 N1) as (s1 & E1). destruct (One _ _ _ Se V2 N2) as (s2 & E2). destruct (One _ _ _ Sk V3 N3) as (s3 & E3).
    destruct (slack_at n un use a Q x d Sd Un I A Ep Ha) as (_ & _ & _ & _ & _ & _ & _ & _ & init & Lin).
    destruct (Hk _ _ Lin) as (a1 & b1 & c1 & K1 & K2 & K3 & K4). assert (a1 = scal s1) by congruence. assert (b1 = scal s2) by congruence. assert (c1 = scal s3) by congruence. subst a1 b1 c1.
    cbn in K4. injection K4 as K4.
    destruct (add_slack params q_ndofs (package other) q _ _ _ _ _ _ A Ep) as (Af & _ & Ag & _). rewrite EQ in Af, Ag. cbn [q_slack_f q_slack_g] in Af, Ag. split.
    - assert (Fv : forall d' s, lookup (slack_name n) d' = Some (scal s) -> ad_f a q d' = Ok (scal (if sqr then sq s else s))).
      { intros d' s L. rewrite Af. unfold linf_slack_f, getitem. rewrite L. cbn [bind]. destruct sqr; reflexivity. }
      eexists. eexists. eexists. split; [exact (Fv _ _ E1)|]. split; [exact (Fv _ _ E2)|]. split; [exact (Fv _ _ E3)|]. split; [reflexivity|]. split; [reflexivity|].
      cbn. constructor; [|constructor]. rewrite K4. destruct sqr; [apply sq_comb|lra].
    - rewrite Ag. intros g [<-|[]]. set (ue := if sqr then sqrt (Rabs un) else Rabs un).
      assert (Hue : 0 < ue) by (unfold ue; destruct sqr; auto; apply sqrt_lt_R0; auto).
      assert (Hi : 0 < / ue) by (apply Rinv_0_lt_compat; exact Hue).
      destruct (linf_g_value params q_stellsym (implementation im) (slack_name n) pd sqr au q d vx (Rabs un) s1 (field_in _ _ _ _ Sd V1) E1) as (g1 & G1 & Z1).
      destruct (linf_g_value params q_stellsym (implementation im) (slack_name n) pd sqr au q e vy (Rabs un) s2 (field_in _ _ _ _ Se V2) E2) as (g2 & G2 & Z2).
      destruct (linf_g_value params q_stellsym (implementation im) (slack_name n) pd sqr au q k vz (Rabs un) s3 (field_in _ _ _ _ Sk V3) E3) as (g3 & G3 & Z3).
      exists g1, g2, g3. split; [exact G1|]. split; [exact G2|]. split; [exact G3|]. rewrite Z1, Z2, Z3. fold ue. unfold linf_g_els. rewrite !app_length.
      assert (Row : forall sg : R, (sg = 1 \/ pd = false) -> Forall2 Rle (map (fun r => sg * r / ue - s3) (el vz)) (lincomb t (1 - t) (map (fun r => sg * r / ue - s1) (el vx)) (map (fun r => sg * r / ue - s2) (el vy)))).
      { intros sg Hsg. revert F L1 L2. generalize (el vx), (el vy), (el vz). intros l1 l2 l3. revert l2 l3. induction l1 as [|p1 l1 IH]; intros [|p2 l2] [|p3 l3] F L1 L2; try discriminate; [constructor|].
        inversion F as [|? ? ? ? H F']; subst. cbn [map]. unfold lincomb. cbn [map2]. constructor; [|apply (IH l2 l3 F'); [now injection L1|now injection L2]].
        replace (t * (sg * p1 / ue - s1) + (1 - t) * (sg * p2 / ue - s2)) with (sg * (t * p1 + (1 - t) * p2) / ue - (t * s1 + (1 - t) * s2)) by (field; lra).
        apply Rplus_le_compat_r, Rmult_le_compat_r; [lra|]. destruct pd; [|right; f_equal; exact H]. destruct Hsg as [-> | Hf]; [lra|discriminate]. }
      assert (M1 : forall s l, map (fun r => r / ue - s) l = map (fun r => 1 * r / ue - s) l) by (intros; apply map_ext; intros; f_equal; f_equal; ring).
      assert (M2 : forall s l, map (fun r => - r / ue - s) l = map (fun r => (-1) * r / ue - s) l) by (intros; apply map_ext; intros; f_equal; f_equal; ring).
      split; [destruct pd; rewrite ?map_length; cbn [length]; lia|]. split; [destruct pd; rewrite ?map_length; cbn [length]; lia|].
      rewrite lincomb_app by (rewrite !map_length; congruence). apply F2_app.
      + rewrite !M1. apply Row. now left.
      + destruct pd; [constructor|]. rewrite !M2. apply Row. now right.
  Qed.

  Lemma bowl_near g : bowl Rle g -> bowl near g.
  Proof using Ht HE.
    intros (a & b & c & A & B & C & L1 & L2 & F). exists a, b, c. do 5 (split; [assumption|]). clear - F Ht HE. induction F; constructor; auto. now apply Rle_near.
  Qed.
  (** The square of the current density along a chord. *)
  Lemma K2_fields : (forall x, length x = q_ndofs q -> sound q x) -> exists vx vy vz, fields Rle "_K2" vx vy vz /\
    forall sg ue s1 s2 s3, 0 < ue -> (sg = 1 \/ sg = -1) -> s3 = t * s1 + (1 - t) * s2 -> Forall2 (fun p r => 2 * (p + r) <= bend * ue) (el vx) (el vy) ->
      Forall2 near (map (fun r => sg * r / ue - s3) (el vz)) (lincomb t (1 - t) (map (fun r => sg * r / ue - s1) (el vx)) (map (fun r => sg * r / ue - s2) (el vy))).
  Proof using other Sd Se Ht HE.
    intros Sa. assert (Lx : length x = q_ndofs q) by apply Sd. assert (Ly : length y = q_ndofs q) by apply Se.
    destruct (derived_K2 other q Sa x y t Lx Ly Ht) as (ax & ay & vx & vy & vz & R1 & R2 & R3 & S1 & S2 & L & E1 & E2 & E3).
    exists vx, vy, vz. split.
    - do 3 (split; [eapply (field_of "_K2" "K2"); [reflexivity|reflexivity|eassumption]|]). rewrite E1, E2, E3, !map_length, map2_len by auto.
      split; [reflexivity|]. split; [auto|]. clear - L Ht. revert ay L. induction ax as [|u ax IH]; intros [|v ay] L; try discriminate; cbn; constructor.
      + assert (P : 0 <= t * (1 - t)) by nra. unfold cmb3, dot3, add3, scale3. destruct u as [u1 u2 u3], v as [v1 v2 v3]. cbn.
        pose proof (Rmult_le_pos _ _ P (Rle_0_sqr (u1 - v1))). pose proof (Rmult_le_pos _ _ P (Rle_0_sqr (u2 - v2))). pose proof (Rmult_le_pos _ _ P (Rle_0_sqr (u3 - v3))). unfold Rsqr in *. lra.
      + apply IH. now injection L.
    - intros sg ue s1 s2 s3 Hue Hsg -> HF. rewrite E1, E2 in HF. rewrite E1, E2, E3. clear - L Ht Hue Hsg HF HE. revert ay L HF.
      induction ax as [|u ax IH]; intros [|v ay] L HF; try discriminate; [constructor|]. inversion HF as [|? ? ? ? H HF']; subst. cbn [map]. unfold lincomb. cbn [map2 map].
      constructor; [|apply IH; [now injection L|exact HF']]. unfold near.
      set (A := dot3 u u) in *. set (B := dot3 v v) in *. set (C := dot3 (cmb3 t u v) (cmb3 t u v)).
      assert (Hi : 0 < / ue) by (apply Rinv_0_lt_compat; exact Hue).
      assert (K : C <= t * A + (1 - t) * B /\ t * A + (1 - t) * B <= C + t * (1 - t) * (2 * (A + B))).
      { unfold C, A, B, cmb3, dot3, add3, scale3. destruct u as [u1 u2 u3], v as [v1 v2 v3]. cbn.
        assert (P : 0 <= t * (1 - t)) by nra. split.
        - pose proof (Rmult_le_pos _ _ P (Rle_0_sqr (u1 - v1))). pose proof (Rmult_le_pos _ _ P (Rle_0_sqr (u2 - v2))). pose proof (Rmult_le_pos _ _ P (Rle_0_sqr (u3 - v3))). unfold Rsqr in *. lra.
        - pose proof (Rmult_le_pos _ _ P (Rle_0_sqr (u1 + v1))). pose proof (Rmult_le_pos _ _ P (Rle_0_sqr (u2 + v2))). pose proof (Rmult_le_pos _ _ P (Rle_0_sqr (u3 + v3))). unfold Rsqr in *. lra. }
      assert (P : 0 <= t * (1 - t)) by nra. clearbody A B C.
      assert (G : sg * C <= sg * (t * A + (1 - t) * B) + t * (1 - t) * (bend * ue)).
      { assert (P2 : t * (1 - t) * (2 * (A + B)) <= t * (1 - t) * (bend * ue)) by (apply Rmult_le_compat_l; assumption).
        assert (P3 : 0 <= t * (1 - t) * (bend * ue)) by (apply Rmult_le_pos; [exact P|apply Rmult_le_pos; lra]). destruct Hsg as [-> | ->]; lra. }
      apply (Rmult_le_compat_r (/ ue)) in G; [|lra]. replace ((sg * (t * A + (1 - t) * B) + t * (1 - t) * (bend * ue)) * / ue) with (sg * (t * A + (1 - t) * B) / ue + t * (1 - t) * bend) in G by (field; lra).
      unfold Rdiv in *. lra.
  Qed.
  Lemma bowl_k2 un use a : (forall x, length x = q_ndofs q -> sound q x) -> used os cs "f_max_K2" un ->
    add_quantity q_ndofs (package other) "f_max_K2" (UScalar un) use (Some "slack") sp = Ok a -> (forall key, lookup key (ad_slack a) <> None -> lookup key aux <> None) ->
    (forall vx vy vz, fields Rle "_K2" vx vy vz -> el vx <> [] /\ el vy <> [] /\ el vz <> []) -> bowl Rle (ad_f a) /\ forall g, In g (ad_g a) -> bowl near g.
  Proof using O Uo Uc Eo Ec Sd Se Sk Ht Hk HE HB.
    intros Sa Un A Ha Ne. destruct (scaled_used q U os cs Uo Uc _ un Un) as (Nz & _). pose proof (Rabs_pos_lt un Nz) as Pu.
    destruct (K2_fields Sa) as (vx & vy & vz & (V1 & V2 & V3 & L1 & L2 & F) & Row). destruct (Ne vx vy vz ltac:(repeat split; assumption)) as (N1 & N2 & N3).
    specialize (HB un Un vx vy V1 V2). set (n := "f_max_K2") in *. assert (I : In n slack_quantities) by (cbn; tauto).
    assert (Ex : exists Q, package other n = Some (AQuantity Q) /\ exists reg reg', init_quantity reg (generate_linf_norm params q_stellsym (implementation "_K2") (slack_name n) false false true) = (reg', Ok Q)).
    { eexists. split; [reflexivity|]. exists []. eexists. reflexivity. }
    destruct Ex as (Q & Ep & reg & reg' & Ei). pose proof (linf_built _ _ _ _ _ _ _ _ _ _ Ei) as EQ. clearbody n.
    assert (One : forall x' d' v, state q po pc x' d' -> implementation "_K2" q (at_phi x') = Ok v -> el v <> [] -> exists s, lookup (slack_name n) d' = Some (scal s)).
    { intros x' d' v S' V N. destruct (slack_at n un use a Q x' d' S' Un I A Ep Ha) as (I0 & i & b & EI & Ei0 & Lb & Sb & Wb & _).
      rewrite EQ in EI. cbn [q_slack_init] in EI. injection EI as <-. unfold linf_init in Ei0.
      destruct (exists_max (map Rabs (el v))) as [M HM]; [now apply map_nonempty|].
      rewrite (linf_raw_value (implementation "_K2") false q [("phi", vec x')] v M V HM) in Ei0. cbn [bind] in Ei0.
      rewrite op2_scal_r in Ei0 by reflexivity. injection Ei0 as <-. destruct (sh_nil b) as (s & ->); [rewrite Sb; reflexivity|exact Wb|]. eauto. }
    destruct (One _ _ _ Sd V1 N1) as (s1 & E1). destruct (One _ _ _ Se V2 N2) as (s2 & E2). destruct (One _ _ _ Sk V3 N3) as (s3 & E3).
    destruct (slack_at n un use a Q x d Sd Un I A Ep Ha) as (_ & _ & _ & _ & _ & _ & _ & _ & init & Lin).
    destruct (Hk _ _ Lin) as (a1 & b1 & c1 & K1 & K2 & K3 & K4). assert (a1 = scal s1) by congruence. assert (b1 = scal s2) by congruence. assert (c1 = scal s3) by congruence. subst a1 b1 c1.
    cbn in K4. injection K4 as K4.
    destruct (add_slack params q_ndofs (package other) q _ _ _ _ _ _ A Ep) as (Af & _ & Ag & _). rewrite EQ in Af, Ag. cbn [q_slack_f q_slack_g] in Af, Ag. split.
    - assert (Fv : forall d' s, lookup (slack_name n) d' = Some (scal s) -> ad_f a q d' = Ok (scal s)).
      { intros d' s L. rewrite Af. unfold linf_slack_f, getitem. rewrite L. reflexivity. }
      eexists. eexists. eexists. split; [exact (Fv _ _ E1)|]. split; [exact (Fv _ _ E2)|]. split; [exact (Fv _ _ E3)|]. split; [reflexivity|]. split; [reflexivity|].
      cbn. constructor; [|constructor]. rewrite K4. lra.
    - rewrite Ag. intros g [<-|[]].
      destruct (linf_g_value params q_stellsym (implementation "_K2") (slack_name n) false false true q d vx (Rabs un) s1 (field_in _ _ _ _ Sd V1) E1) as (g1 & G1 & Z1).
      destruct (linf_g_value params q_stellsym (implementation "_K2") (slack_name n) false false true q e vy (Rabs un) s2 (field_in _ _ _ _ Se V2) E2) as (g2 & G2 & Z2).
      destruct (linf_g_value params q_stellsym (implementation "_K2") (slack_name n) false false true q k vz (Rabs un) s3 (field_in _ _ _ _ Sk V3) E3) as (g3 & G3 & Z3).
      exists g1, g2, g3. split; [exact G1|]. split; [exact G2|]. split; [exact G3|]. rewrite Z1, Z2, Z3. cbv iota. set (ue := Rabs un) in *. unfold linf_g_els. rewrite !app_length, !map_length.
      assert (M1 : forall s l, map (fun r => r / ue - s) l = map (fun r => 1 * r / ue - s) l) by (intros; apply map_ext; intros; f_equal; f_equal; ring).
      assert (M2 : forall s l, map (fun r => - r / ue - s) l = map (fun r => (-1) * r / ue - s) l) by (intros; apply map_ext; intros; f_equal; f_equal; ring).
      split; [lia|]. split; [lia|]. rewrite lincomb_app by (rewrite !map_length; congruence). rewrite !M1, !M2.
      apply F2_app; apply Row; auto.
  Qed.

  Lemma bowl_linf4 im n Q un use a vx vy vz : used os cs n un -> In n slack_quantities ->
    package other n = Some (AQuantity Q) -> (exists reg reg', init_quantity reg (generate_linf_norm_4 (implementation im) (slack_name n)) = (reg', Ok Q)) ->
    add_quantity q_ndofs (package other) n (UScalar un) use (Some "slack") sp = Ok a -> (forall key, lookup key (ad_slack a) <> None -> lookup key aux <> None) ->
    fields eq im vx vy vz -> el vx <> [] -> el vy <> [] -> el vz <> [] -> wf vx -> wf vy -> wf vz -> bowl Rle (ad_f a) /\ forall g, In g (ad_g a) -> bowl Rle g.
  Proof using O Uo Uc Eo Ec Sd Se Sk Ht Hk.
    intros Un I Ep (reg & reg' & Ei) A Ha (V1 & V2 & V3 & L1 & L2 & F) N1 N2 N3 W1 W2 W3. destruct (scaled_used q U os cs Uo Uc n un Un) as (Nz & _). pose proof (Rabs_pos_lt un Nz) as Pu.
    pose proof (linf4_built _ _ _ _ _ _ Ei) as EQ.
    assert (One : forall x' d' v, state q po pc x' d' -> implementation im q (at_phi x') = Ok v -> el v <> [] -> exists s, lookup (slack_name n) d' = Some (scal s)).
    { intros x' d' v S' V N. destruct (slack_at n un use a Q x' d' S' Un I A Ep Ha) as (I0 & i & b & EI & Ei0 & Lb & Sb & Wb & _).
      rewrite EQ in EI. cbn [q_slack_init] in EI. injection EI as <-. unfold linf4_init in Ei0.
      change [("phi", vec x')] with (at_phi x') in Ei0. rewrite V in Ei0. cbn [bind] in Ei0.
      destruct (amax_spec (amap sq v)) as [M' [E' H']]; [now apply map_nonempty|]. rewrite E' in Ei0. cbn [bind] in Ei0.
      change (amap sqrt (scal (Rabs un))) with (scal (sqrt (Rabs un))) in Ei0.
      rewrite op2_scal_r in Ei0 by reflexivity. injection Ei0 as <-. destruct (sh_nil b) as (s & ->); [rewrite Sb; reflexivity|exact Wb|]. eauto. }
    destruct (One _ _ _ Sd V1 N1) as (s1 & E1). destruct (One _ _ _ Se V2 N2) as (s2 & E2). destruct (One _ _ _ Sk V3 N3) as (s3 & E3).
    destruct (slack_at n un use a Q x d Sd Un I A Ep Ha) as (_ & _ & _ & _ & _ & _ & _ & _ & init & Lin).
    destruct (Hk _ _ Lin) as (a1 & b1 & c1 & K1 & K2 & K3 & K4). assert (a1 = scal s1) by congruence. assert (b1 = scal s2) by congruence. assert (c1 = scal s3) by congruence. subst a1 b1 c1.
    cbn in K4. injection K4 as K4.
    destruct (add_slack params q_ndofs (package other) q _ _ _ _ _ _ A Ep) as (Af & _ & Ag & _). rewrite EQ in Af, Ag. cbn [q_slack_f q_slack_g] in Af, Ag. split.
    - assert (Fv : forall d' s, lookup (slack_name n) d' = Some (scal s) -> ad_f a q d' = Ok (scal (sq s))).
      { intros d' s L. rewrite Af. unfold linf_slack_f, getitem. rewrite L. reflexivity. }
      eexists. eexists. eexists. split; [exact (Fv _ _ E1)|]. split; [exact (Fv _ _ E2)|]. split; [exact (Fv _ _ E3)|]. split; [reflexivity|]. split; [reflexivity|].
      cbn. constructor; [|constructor]. rewrite K4. apply sq_comb.
    - rewrite Ag. intros g [<-|[]]. set (ue := sqrt (Rabs un)).
      assert (Hi : 0 < / ue) by (apply Rinv_0_lt_compat, sqrt_lt_R0; exact Pu).
      destruct (linf4_g_value (implementation im) (slack_name n) q d vx (Rabs un) s1 (field_in _ _ _ _ Sd V1) W1 E1) as (g1 & G1 & Z1).
      destruct (linf4_g_value (implementation im) (slack_name n) q e vy (Rabs un) s2 (field_in _ _ _ _ Se V2) W2 E2) as (g2 & G2 & Z2).
      destruct (linf4_g_value (implementation im) (slack_name n) q k vz (Rabs un) s3 (field_in _ _ _ _ Sk V3) W3 E3) as (g3 & G3 & Z3).
      exists g1, g2, g3. split; [exact G1|]. split; [exact G2|]. split; [exact G3|]. rewrite Z1, Z2, Z3, !map_length. fold ue. split; [exact L1|]. split; [exact L2|].
      revert F L1 L2. generalize (el vx), (el vy), (el vz). intros l1 l2 l3. revert l2 l3. induction l1 as [|p1 l1 IH]; intros [|p2 l2] [|p3 l3] F L1 L2; try discriminate; [constructor|].
      inversion F as [|? ? ? ? H F']; subst. cbn [map]. unfold lincomb. cbn [map2]. constructor; [|apply (IH l2 l3 F'); [now injection L1|now injection L2]].
      unfold Rdiv. pose proof (Rmult_le_compat_r (/ ue) _ _ (Rlt_le _ _ Hi) (sq_comb p1 p2)). lra.
  Qed.

  Lemma bowl_l1 im n Q pd sqr au un use a vx vy vz s0 : used os cs n un -> In n slack_quantities ->
    package other n = Some (AQuantity Q) -> (exists reg reg', init_quantity reg (generate_l1_norm params params_da (fun q => INR (q_nfp q)) q_stellsym (implementation im) (slack_name n) pd sqr au) = (reg', Ok Q)) ->
    add_quantity q_ndofs (package other) n (UScalar un) use (Some "slack") sp = Ok a -> (forall key, lookup key (ad_slack a) <> None -> lookup key aux <> None) ->
    fields eq im vx vy vz -> wf vx -> wf vy -> wf vz -> sh vx = s0 -> sh vy = s0 -> sh vz = s0 -> wf (params_da q) -> sh (params_da q) = s0 ->
    (forall k, In k (el (params_da q)) -> 0 <= k) -> bowl Rle (ad_f a) /\ forall g, In g (ad_g a) -> bowl Rle g.
  Proof using O Uo Uc Eo Ec Sd Se Sk Ht Hk.
    intros Un I Ep (reg & reg' & Ei) A Ha (V1 & V2 & V3 & L1 & L2 & F) W1 W2 W3 H1 H2 H3 Wd Hd Pd. destruct (scaled_used q U os cs Uo Uc n un Un) as (Nz & _). pose proof (Rabs_pos_lt un Nz) as Pu.
    pose proof (l1_built _ _ _ _ _ _ _ _ _ _ _ _ Ei) as EQ.
    assert (One : forall x' d' v, state q po pc x' d' -> implementation im q (at_phi x') = Ok v -> exists l, lookup (slack_name n) d' = Some (Arr [length (el v)] l) /\ length l = length (el v)).
    { intros x' d' v S' V. destruct (slack_at n un use a Q x' d' S' Un I A Ep Ha) as (I0 & i & b & EI & Ei0 & Lb & Sb & Wb & _).
      rewrite EQ in EI. cbn [q_slack_init] in EI. injection EI as <-. unfold l1_init in Ei0.
      change [("phi", vec x')] with (at_phi x') in Ei0. rewrite V in Ei0. cbn [bind] in Ei0.
      replace (if au && q_stellsym q then compress_by_stellsym v else flatten v) with (flatten v) in Ei0 by (unfold compress_by_stellsym; destruct (au && q_stellsym q); reflexivity).
      rewrite op2_scal_r in Ei0 by (apply wf_amap, wf_flatten). injection Ei0 as <-. destruct b as [sb l]. cbn in Sb. subst sb. exists l. split; [exact Lb|].
      unfold wf in Wb. cbn [sh el] in Wb. rewrite size_single in Wb. exact Wb. }
    destruct (One _ _ _ Sd V1) as (s1 & E1 & Q1). destruct (One _ _ _ Se V2) as (s2 & E2 & Q2). destruct (One _ _ _ Sk V3) as (s3 & E3 & Q3).
    destruct (slack_at n un use a Q x d Sd Un I A Ep Ha) as (_ & _ & _ & _ & _ & _ & _ & _ & init & Lin).
    destruct (Hk _ _ Lin) as (a1 & b1 & c1 & K1 & K2 & K3 & K4).
    assert (K5 : s3 = lincomb t (1 - t) s1 s2).
    { assert (X1 : Some a1 = Some (Arr [length (el vx)] s1)) by congruence. assert (X2 : Some b1 = Some (Arr [length (el vy)] s2)) by congruence.
      assert (X3 : Some c1 = Some (Arr [length (el vz)] s3)) by congruence. injection X1 as ->. injection X2 as ->. injection X3 as ->. exact K4. }
    destruct (add_slack params q_ndofs (package other) q _ _ _ _ _ _ A Ep) as (Af & _ & Ag & _). rewrite EQ in Af, Ag. cbn [q_slack_f q_slack_g] in Af, Ag. split.
    - assert (Fv : forall x' d' v l, state q po pc x' d' -> implementation im q (at_phi x') = Ok v -> wf v -> sh v = s0 -> lookup (slack_name n) d' = Some (Arr [length (el v)] l) -> length l = length (el v) ->
        ad_f a q d' = Ok (scal (wsum (el (params_da q)) l * INR (q_nfp q)))).
      { intros x' d' v l S' V W Hs L Ll. rewrite Af. apply (l1_f_value params params_da (fun q => INR (q_nfp q)) q_stellsym (implementation im) _ au q _ v); auto; [now apply (field_in im x')|congruence]. }
      eexists. eexists. eexists. split; [exact (Fv _ _ _ _ Sd V1 W1 H1 E1 Q1)|]. split; [exact (Fv _ _ _ _ Se V2 W2 H2 E2 Q2)|]. split; [exact (Fv _ _ _ _ Sk V3 W3 H3 E3 Q3)|]. split; [reflexivity|]. split; [reflexivity|].
      cbn. constructor; [|constructor]. rewrite K5. destruct (wsum_comb t (el (params_da q)) Ht Pd s1 s2) as [Hw|Hw]; [|exfalso; congruence].
      pose proof (Rmult_le_compat_r (INR (q_nfp q)) _ _ (pos_INR _) Hw). lra.
    - rewrite Ag. intros g [<-|[]].
      assert (Hi : 0 < / Rabs un) by (apply Rinv_0_lt_compat; exact Pu).
      destruct (l1_g_value params q_stellsym (implementation im) (slack_name n) pd au q d vx (Rabs un) s1 (field_in _ _ _ _ Sd V1) E1 Q1) as (g1 & G1 & Z1).
      destruct (l1_g_value params q_stellsym (implementation im) (slack_name n) pd au q e vy (Rabs un) s2 (field_in _ _ _ _ Se V2) E2 Q2) as (g2 & G2 & Z2).
      destruct (l1_g_value params q_stellsym (implementation im) (slack_name n) pd au q k vz (Rabs un) s3 (field_in _ _ _ _ Sk V3) E3 Q3) as (g3 & G3 & Z3).
      exists g1, g2, g3. split; [exact G1|]. split; [exact G2|]. split; [exact G3|]. rewrite Z1, Z2, Z3, !app_length.
      split; [destruct pd; rewrite !map2_len by congruence; cbn [length]; lia|]. split; [destruct pd; rewrite !map2_len by congruence; cbn [length]; lia|].
      rewrite lincomb_app by (rewrite !map2_len by congruence; congruence). rewrite K5. apply F2_app; [|destruct pd; [constructor|]]; apply (F2_comb2 eq); try congruence;
        intros p0 q0 r p' q' ->; right; field; lra.
  Qed.
  (** ** Every use *)
  Hypothesis Sa : forall x, length x = q_ndofs q -> sound q x.

  Lemma fields_shaped rel im vx vy vz : one_shape q im -> fields rel im vx vy vz ->
    exists s, (size s <> 0)%nat /\ (sh vx = s /\ wf vx /\ el vx <> []) /\ (sh vy = s /\ wf vy /\ el vy <> []) /\ (sh vz = s /\ wf vz /\ el vz <> []).
  Proof using Some_sound Sd Se Sk.
    intros (s & Hs) (V1 & V2 & V3 & _). destruct (Hs Some_sound) as (Z & H). exists s. split; [exact Z|].
    assert (One : forall x' v, sound q x' -> implementation im q (at_phi x') = Ok v -> sh v = s /\ wf v /\ el v <> []).
    { intros x' v S V. destruct (H x' S) as (v' & V' & Sv & W). assert (v' = v) by congruence. subst v'. split; [exact Sv|]. split; [exact W|]. exact (nonempty v s Sv W Z). }
    split; [exact (One x vx (proj1 Sd) V1)|]. split; [exact (One y vy (proj1 Se) V2)|exact (One w vz (proj1 Sk) V3)].
  Qed.

  Lemma bowl_convex n un use a : used os cs n un -> In n convex_slacks ->
    add_quantity q_ndofs (package other) n (UScalar un) use (Some "slack") sp = Ok a -> (forall key, lookup key (ad_slack a) <> None -> lookup key aux <> None) ->
    bowl Rle (ad_f a) /\ forall g, In g (ad_g a) -> bowl Rle g.
  Proof using O Uo Uc Eo Ec Some_sound Sd Se Sk Ht Hk Sa.
    intros Un I A Ha.
    assert (AB : exists vx vy vz, fields eq "_Bnormal" vx vy vz).
    { eapply (fields_of eq "_Bnormal" "Bnormal"); [reflexivity|reflexivity|]. apply (affine_quantities other q Sa). cbn. tauto. }
    assert (AP : exists vx vy vz, fields eq "_Phi" vx vy vz).
    { eapply (fields_of eq "_Phi" "Phi"); [reflexivity|reflexivity|]. apply (affine_quantities other q Sa). cbn. tauto. }
    assert (AB2 : exists vx vy vz, fields Rle "_Bnormal2" vx vy vz).
    { eapply (fields_of Rle "_Bnormal2" "Bnormal2"); [reflexivity|reflexivity|]. apply (convex_quantities other q Sa O). cbn. tauto. }
    destruct AB as (bx & by_ & bz & FB). destruct AP as (px & py & pz & FP). destruct AB2 as (cx & cy & cz & FC).
    destruct (fields_shaped _ _ _ _ _ (shape_Bnormal q) FB) as (sb & _ & (_ & _ & NB1) & (_ & _ & NB2) & (_ & _ & NB3)).
    destruct (fields_shaped _ _ _ _ _ (shape_Bnormal2 q) FC) as (sc & _ & (_ & _ & NC1) & (_ & _ & NC2) & (_ & _ & NC3)).
    destruct (fields_shaped _ _ _ _ _ (shape_Phi q) FP) as (s & Z & (S1 & W1 & N1) & (S2 & W2 & N2) & (S3 & W3 & N3)).
    unfold convex_slacks in I. cbn [In] in I. repeat destruct I as [<-|I]; try contradiction.
    - eapply (bowl_linf "_Bnormal" "f_max_Bnormal" _ false); [eassumption|cbn; tauto|reflexivity|exists []; eexists; reflexivity|eassumption|eassumption|exact FB|assumption|assumption|assumption].
    - eapply (bowl_linf "_Bnormal2" "f_max_Bnormal2" _ true); [eassumption|cbn; tauto|reflexivity|exists []; eexists; reflexivity|eassumption|eassumption|exact FC|assumption|assumption|assumption].
    - eapply (bowl_linf "_Phi" "f_max_Phi" _ false); [eassumption|cbn; tauto|reflexivity|exists []; eexists; reflexivity|eassumption|eassumption|exact FP|assumption|assumption|assumption].
    - eapply (bowl_linf "_Phi" "f_max_Phi2" _ false); [eassumption|cbn; tauto|reflexivity|exists []; eexists; reflexivity|eassumption|eassumption|exact FP|assumption|assumption|assumption].
    - eapply (bowl_linf4 "_Phi" "f_max_Phi4"); [eassumption|cbn; tauto|reflexivity|exists []; eexists; reflexivity|eassumption|eassumption|exact FP|assumption..].
    - assert (S : sound q x) by apply Sd. destruct (both_da 1 1 q q x Rlt_0_1 (rescaled_self q) S ltac:(apply S)) as (da0 & Vd & _ & Sv0 & Wd).
      assert (params_da q = da0) as Ed by congruence.
      assert (HS : sh da0 = s).
      { destruct (both_Phi 1 1 q q x Rlt_0_1 (rescaled_self q) S ltac:(apply S)) as (v & V & _ & Sv & _). destruct FP as (V1 & _). assert (v = px) by congruence. subst v. rewrite <- S1. rewrite Sv0. symmetry. exact Sv. }
      eapply (bowl_l1 "_Phi" "f_l1_Phi") with (s0 := s); [eassumption|cbn; tauto|reflexivity|exists []; eexists; reflexivity|eassumption|eassumption|exact FP|try assumption..].
      + now rewrite Ed.
      + now rewrite Ed.
      + intros k0 Hk0. unfold params_da in Hk0. destruct (da (q_eval q)) as [g|] eqn:D; [|contradiction]. unfold of_grid in Hk0. cbn [el] in Hk0.
        refine (eval_weights q _ O g D k0 Hk0). exact Sa.
  Qed.

  Lemma bowl_slack n un use a : used os cs n un -> In n ("f_max_K2" :: convex_slacks) ->
    add_quantity q_ndofs (package other) n (UScalar un) use (Some "slack") sp = Ok a -> (forall key, lookup key (ad_slack a) <> None -> lookup key aux <> None) ->
    bowl Rle (ad_f a) /\ forall g, In g (ad_g a) -> bowl near g.
  Proof using O Uo Uc Eo Ec Some_sound Sd Se Sk Ht Hk Sa HE HB.
    intros Un [<-|I] A Ha.
    - apply (bowl_k2 un use a Sa Un A Ha). intros vx vy vz FK. destruct (fields_shaped _ _ _ _ _ (shape_K2 q) FK) as (s & _ & (_ & _ & N1) & (_ & _ & N2) & (_ & _ & N3)). auto.
    - destruct (bowl_convex n un use a Un I A Ha) as (B1 & B2). split; [exact B1|]. intros g Ig. apply bowl_near, B2, Ig.
  Qed.

  Lemma convex_name n un : used os cs n un -> In n slack_quantities -> In n ("f_max_K2" :: convex_slacks).
  Proof using Cv.
    intros Un I. destruct Cv as (_ & _ & C3 & C4).
    assert (H : In n (("f_max_K2" :: convex_slacks) ++ direct_quantities)) by (destruct Un as [(o & Io & <- & _)|(c & Io & <- & _)]; auto).
    apply in_app_iff in H as [H|H]; [exact H|exfalso]. clear - I H. unfold slack_quantities, direct_quantities in *. cbn [In] in I, H.
    repeat destruct I as [<-|I]; try contradiction; repeat destruct H as [H|H]; try discriminate H; contradiction.
  Qed.

  Lemma use_bowl n un use a : used os cs n un -> add_quantity q_ndofs (package other) n (UScalar un) use (Some "slack") sp = Ok a ->
    (forall key, lookup key (ad_slack a) <> None -> lookup key aux <> None) ->
    (forall g, In g (ad_g a) -> bowl near g) /\ (convex_quantity other n q -> bowl Rle (ad_f a)) /\
    (affine_quantity other n q -> use = ">=" \/ use = "==" -> bowl eq (ad_f a)).
  Proof using O Uo Uc Eo Ec Some_sound Sd Se Sk Ht Hk Sa Cv HE HB.
    intros Un A Ha. destruct (scaled_used q U os cs Uo Uc n un Un) as (Nz & [(I & EU)|(I & St)]).
    - destruct (bowl_slack n un use a Un (convex_name n un Un I) A Ha) as (B1 & B2). split; [exact B2|]. split; [intros _; exact B1|]. intros _ Hu. exfalso.
      destruct (slack_use other q x (proj1 Sd) O n I) as (Q1 & v & Ep1 & Ev & T).
      destruct (use_slack _ _ _ _ _ _ _ _ _ _ _ _ _ A Ep1 T Nz) as (_ & _ & _ & _ & _ & _ & _ & U1 & U2 & _). tauto.
    - destruct (direct_use other q x (proj1 Sd) n I St) as (Q1 & v & Ep1 & Ev & D).
      destruct (use_direct _ _ _ _ _ _ _ _ _ _ _ _ A Ep1 D Nz) as (Ag & _). split; [rewrite Ag; intros g []|].
      split; [intros Ch; exact (bowl_direct Rle n un use a (or_introl eq_refl) Nz I St A Ch)|intros Ch _; exact (bowl_direct eq n un use a (or_intror eq_refl) Nz I St A Ch)].
  Qed.

  Lemma all_bowl : (forall g, In g (ModelWrapper.p_g po ++ ModelWrapper.p_g pc) -> bowl near g) /\ (forall h, In h (ModelWrapper.p_h po ++ ModelWrapper.p_h pc) -> bowl eq h).
  Proof using O Uo Uc Eo Ec Some_sound Sd Se Sk Ht Hk Sa Cv HE HB.
    destruct (objective_parts params q_ndofs (package other) os sp f po Eo) as (lo & Fo & Ef & Gg & Gh & Go).
    assert (Gc := constraint_parts params q_ndofs (package other) q cs sp pc Ec). destruct Gc as (lc & Fc & Gc & _).
    assert (UO : forall a, In a lo -> (forall g, In g (ad_g a) -> bowl near g) /\ ad_h a = []).
    { intros a Ia. destruct (F2_in_r _ _ _ _ Fo Ia) as (o & Io & A).
      assert (Un : used os cs (ob_name o) (ob_unit o)) by (left; exists o; split; [eapply in_combine_l; exact Io|auto]).
      pose proof (in_union_o po pc lo a Go Ia) as Ha.
      destruct (use_bowl (ob_name o) (ob_unit o) "f" a Un A Ha) as (H1 & _).
      destruct (fixed_use other q U os cs sp f po pc O Uo Uc Eo Ec Some_sound (ob_name o) (ob_unit o) "f" a Un A Ha) as (H2 & _). auto. }
    set (rc := fun c => RC (uc_name c) (op_string (uc_cmp c)) (UScalar (uc_unit c)) (uc_val c)).
    assert (H1 : parse_constraints q_ndofs (package other) (map rc_name (map rc cs)) (map rc_type (map rc cs)) (map rc_unit (map rc cs)) (map rc_val (map rc cs)) (Some "slack") sp = Ok pc).
    { rewrite !map_map. exact Ec. }
    destruct (parse_constraints_val params q_ndofs (package other) (map rc cs) (Some "slack") sp pc H1) as (l' & F' & Cg & Ch).
    rewrite F2_map_l in F'. assert (l' = lc) as -> by (eapply F2_fun; [|exact F'|exact Fc]; cbn; intros ? ? ? A B; congruence).
    assert (UC : forall c a, In (c, a) (combine (map rc cs) lc) -> (forall g, In g (ad_g a) -> bowl near g) /\ ad_h a = [] /\
      (rc_type c <> "==" -> bowl Rle (cf params c a (Some "slack") sp)) /\ (rc_type c = "==" -> bowl eq (cf params c a (Some "slack") sp))).
    { intros c a Ia.
      assert (CM' : exists c0, c = rc c0 /\ In (c0, a) (combine cs lc)).
      { revert Ia. clear. revert cs. induction lc as [|b l IH]; intros [|k cs]; cbn; try tauto. intros [E|E]; [injection E as <- <-; eauto|].
        destruct (IH _ E) as (c0 & -> & I). eauto. }
      destruct CM' as (c0 & -> & I0). pose proof (F2_combine _ _ _ _ _ Fc I0) as A.
      assert (Ic0 : In c0 cs) by (eapply in_combine_l; exact I0).
      assert (Un : used os cs (uc_name c0) (uc_unit c0)) by (right; exists c0; auto).
      assert (Ha : forall key, lookup key (ad_slack a) <> None -> lookup key aux <> None) by (apply (in_union_c po pc lc); [exact Gc|eapply in_combine_r; exact I0]).
      destruct (fixed_use other q U os cs sp f po pc O Uo Uc Eo Ec Some_sound _ _ _ a Un A Ha) as (K1 & _ & L & K3).
      destruct (use_bowl _ _ _ a Un A Ha) as (B1 & B2 & B3). split; [exact B1|]. split; [exact K1|].
      assert (exists Q, package other (uc_name c0) = Some (AQuantity Q)) as (Q & EQ).
      { destruct (uses_ok other q U os cs O Uo Uc x (proj1 Sd) _ _ Un) as (_ & Q & _ & E & _). eauto. }
      destruct (add_slack params q_ndofs (package other) q _ _ _ _ _ _ A EQ) as (_ & Au & _).
      assert (Nz : uc_unit c0 <> 0) by (apply (Uc c0 Ic0)).
      assert (Cen : forall (rel : R -> R -> Prop) (sgn : R), bowl rel (ad_f a) -> (rel = eq \/ rel = Rle /\ sgn = 1) ->
        forall rel' : R -> R -> Prop, (rel' = Rle \/ rel = eq /\ rel' = eq) -> bowl rel' (cons_func_centered (ad_f a) (uc_val c0) (ad_unit a) sgn (Some "slack") sp)).
      { intros rel sgn (o1 & o2 & o3 & E1 & E2 & E3 & L1 & L2 & Fr) Hrel rel' Hr'.
        assert (Wf : forall x' d' o, state q po pc x' d' -> ad_f a q d' = Ok o -> wf o).
        { intros x' d' o S' E'. destruct (K3 x' d' S') as (o' & E'' & W' & _). congruence. }
        eexists. eexists. eexists. split; [exact (centred params q sp sgn d a _ _ o1 E1 (Wf _ _ _ Sd E1) Au)|]. split; [exact (centred params q sp sgn e a _ _ o2 E2 (Wf _ _ _ Se E2) Au)|].
        split; [exact (centred params q sp sgn k a _ _ o3 E3 (Wf _ _ _ Sk E3) Au)|]. cbn [el]. rewrite !map_length. split; [exact L1|]. split; [exact L2|].
        apply (F2_comb rel); [|exact Fr]. intros p0 q0 r Hr. destruct Hrel as [-> | (-> & ->)]; destruct Hr' as [-> | (X & ->)]; try discriminate X; [right; rewrite Hr; ring|rewrite Hr; ring|lra|].
        exfalso. assert (Y : Rle 0 1 = (0 = 1)) by now rewrite X. assert (Y' : 0 = 1) by (rewrite <- Y; lra). lra. }
      destruct Cv as (_ & C2 & _). assert (Cc : match uc_cmp c0 with LE => convex_quantity other (uc_name c0) q | _ => affine_quantity other (uc_name c0) q end).
      { apply (C2 (uc_name c0) (uc_cmp c0) (uc_val c0)). apply in_map_iff. exists c0. auto. }
      unfold rc, cf. cbn [rc_type rc_val rc_name rc_unit]. destruct (uc_cmp c0) eqn:Ecmp; cbn [op_string] in *.
      - split; [|discriminate]. intros _. apply (Cen Rle); [now apply B2|right; split; reflexivity|now left].
      - split; [|discriminate]. intros _. apply (Cen eq); [apply B3; auto|now left|now left].
      - split; [intros X; now contradiction X|]. intros _. apply (Cen eq); [apply B3; auto|now left|right; split; reflexivity]. }
    split; intros g I; apply in_app_iff in I as [I|I].
    - rewrite Gg in I. apply in_concat in I as (l & Il & Ig). apply in_map_iff in Il as (a & <- & Ia). now apply (UO a Ia).
    - apply Cg in I as (c & a & Ia & [Ig|[Ty ->]]); destruct (UC c a Ia) as (K1 & K2 & K3 & _); [now apply K1|apply bowl_near; now apply K3].
    - rewrite Gh in I. apply in_concat in I as (l & Il & Ig). apply in_map_iff in Il as (a & <- & Ia). destruct (UO a Ia) as (_ & E). rewrite E in Ig. destruct Ig.
    - apply Ch in I as (c & a & Ia & [Ig|[Ty ->]]); destruct (UC c a Ia) as (K1 & K2 & _ & K3); [rewrite K2 in Ig; destruct Ig|now apply K3].
  Qed.

  Lemma merged_bowl rel gs mode sp' : (forall g, In g gs -> bowl rel g) -> bowl rel (merge_callables (map Some gs) false mode sp').
  Proof using.
    intros H.
    assert (K : exists la lb lc, map (fun g : callable params => g q d) gs = map Ok la /\ map (fun g : callable params => g q e) gs = map Ok lb /\ map (fun g : callable params => g q k) gs = map Ok lc /\
      length (concat (map el la)) = length (concat (map el lc)) /\ length (concat (map el lb)) = length (concat (map el lc)) /\
      Forall2 rel (concat (map el lc)) (lincomb t (1 - t) (concat (map el la)) (concat (map el lb)))).
    { induction gs as [|g gs IH]; [exists [], [], []; repeat split; constructor|].
      destruct IH as (la & lb & lc & A1 & A2 & A3 & A4 & A5 & A6); [intros; apply H; now right|]. destruct (H g (or_introl eq_refl)) as (a & b & c & B1 & B2 & B3 & B4 & B5 & B6).
      exists (a :: la), (b :: lb), (c :: lc). cbn [map concat]. split; [congruence|]. split; [congruence|]. split; [congruence|]. rewrite !app_length. split; [lia|]. split; [lia|].
      rewrite lincomb_app by lia. now apply F2_app. }
    destruct K as (la & lb & lc & A1 & A2 & A3 & A4 & A5 & A6).
    destruct (merge_els gs la mode sp' q d A1) as (o1 & E1 & Z1). destruct (merge_els gs lb mode sp' q e A2) as (o2 & E2 & Z2). destruct (merge_els gs lc mode sp' q k A3) as (o3 & E3 & Z3).
    exists o1, o2, o3. rewrite Z1, Z2, Z3. auto 10.
  Qed.

  Lemma term_number x' d' o a lo : state q po pc x' d' -> p_slack po = fold_left (fun s a => dict_union s (ad_slack a)) lo [] -> In a lo -> In o os ->
    add_quantity q_ndofs (package other) (ob_name o) (UScalar (ob_unit o)) "f" (Some "slack") sp = Ok a -> exists m, ad_f a q d' = Ok (scal m).
  Proof using O Uo Uc Eo Ec.
    intros S' Go Ia Io A. assert (Un : used os cs (ob_name o) (ob_unit o)) by (left; exists o; auto).
    destruct (scaled_used q U os cs Uo Uc _ _ Un) as (Nz & [(I & EU)|(I & St)]).
    - destruct (slack_use other q x' (proj1 S') O _ I) as (Q & v & Ep & Ev & T).
      destruct (use_slack _ _ _ _ _ _ _ _ _ _ _ _ _ A Ep T Nz) as (G1 & I1 & M & s1 & -> & _ & _ & _ & _ & As1 & Na & Eg1 & Ei1 & HI & HL1 & _). pose proof (Rabs_pos_lt _ Nz) as Pu.
      destruct (HI (Rabs (ob_unit o)) Pu) as (i & Eii & Si).
      destruct (slack_at (ob_name o) (ob_unit o) "f" a Q x' d' S' Un I A Ep (in_union_o po pc lo a Go Ia)) as (I2 & i2 & b & X1 & X2 & Lb & Sb & Wb & _).
      assert (I2 = I1) by congruence. subst I2. assert (i2 = i) by congruence. subst i2.
      destruct (HL1 d' b (proj1 (proj2 S')) Lb ltac:(congruence) Wb) as (m & gv & Em & _). exists m. exact Em.
    - destruct (direct_use other q x' (proj1 S') _ I St) as (Q & v & Ep & Ev & D). destruct (use_direct _ _ _ _ _ _ _ _ _ _ _ _ A Ep D Nz) as (_ & _ & _ & W & Hf).
      destruct (objective_scalar other q U os cs sp f po O Uo Uc Eo x' (proj1 S') o Q v Io Ep Ev) as (m & ->).
      exists (m / Rabs (ob_unit o)). exact (Hf d' (proj1 (proj2 S'))).
  Qed.

  Lemma objective_bowl : exists yd ye yk, f q d = Ok (scal yd) /\ f q e = Ok (scal ye) /\ f q k = Ok (scal yk) /\ yk <= t * yd + (1 - t) * ye.
  Proof using O Uo Uc Eo Ec Some_sound Sd Se Sk Ht Hk Sa Cv HE HB.
    destruct (objective_parts params q_ndofs (package other) os sp f po Eo) as (lo & Fo & Ef & Gg & Gh & Go).
    assert (One : forall o a, In (o, a) (combine os lo) -> exists md me mk, ad_f a q d = Ok (scal md) /\ ad_f a q e = Ok (scal me) /\ ad_f a q k = Ok (scal mk) /\ ob_weight o * mk <= t * (ob_weight o * md) + (1 - t) * (ob_weight o * me)).
    { intros o a I. pose proof (F2_combine _ _ _ _ _ Fo I) as A. assert (Io : In o os) by (eapply in_combine_l; exact I). assert (Ia : In a lo) by (eapply in_combine_r; exact I).
      assert (Un : used os cs (ob_name o) (ob_unit o)) by (left; exists o; auto).
      destruct (term_number x d o a lo Sd Go Ia Io A) as (m1 & E1). destruct (term_number y e o a lo Se Go Ia Io A) as (m2 & E2). destruct (term_number _ k o a lo Sk Go Ia Io A) as (m3 & E3).
      exists m1, m2, m3. do 3 (split; [assumption|]). destruct (use_bowl _ _ _ a Un A (in_union_o po pc lo a Go Ia)) as (_ & B & _).
      destruct B as (o1 & o2 & o3 & X1 & X2 & X3 & _ & _ & F).
      { destruct Cv as (C1 & _). destruct (C1 (ob_name o) (ob_weight o / Rabs (ob_unit o))) as (_ & H); [|exact H]. apply in_map_iff. exists o. auto. }
      assert (o1 = scal m1) by congruence. assert (o2 = scal m2) by congruence. assert (o3 = scal m3) by congruence. subst. cbn in F. inversion F as [|? ? ? ? H _]; subst.
      destruct (Uo o Io) as (Hw & _). pose proof (Rmult_le_compat_l _ _ _ Hw H). lra. }
    assert (K : exists vd ve vk, Forall2 (fun (g : callable params) v => g q d = Ok (scal v)) (map ad_f lo) vd /\ Forall2 (fun (g : callable params) v => g q e = Ok (scal v)) (map ad_f lo) ve /\
      Forall2 (fun (g : callable params) v => g q k = Ok (scal v)) (map ad_f lo) vk /\
      Rsum (map (fun p => fst p * snd p) (combine (map ob_weight os) vk)) <= t * Rsum (map (fun p => fst p * snd p) (combine (map ob_weight os) vd)) + (1 - t) * Rsum (map (fun p => fst p * snd p) (combine (map ob_weight os) ve))).
    { clear - Fo One. revert One. induction Fo as [|o a os' lo' H F IH]; intros One; [exists [], [], []; repeat split; try constructor; cbn; unfold Rsum; cbn; lra|].
      destruct IH as (vd & ve & vk & A1 & A2 & A3 & A4); [intros; apply One; now right|]. destruct (One o a (or_introl eq_refl)) as (m1 & m2 & m3 & B1 & B2 & B3 & B4).
      exists (m1 :: vd), (m2 :: ve), (m3 :: vk). cbn [map combine]. do 3 (split; [constructor; assumption|]). unfold Rsum in *. cbn [map fst snd fold_right]. lra. }
    destruct K as (vd & ve & vk & F1 & F2 & F3 & H).
    assert (Ln : length (map ob_weight os) = length (map ad_f lo)) by (rewrite !map_length; exact (F2_len _ _ _ Fo)).
    eexists. eexists. eexists. rewrite Ef. split; [apply (f_tot_value params _ _ vd q d 0 Ln F1)|]. split; [apply (f_tot_value params _ _ ve q e 0 Ln F2)|]. split; [apply (f_tot_value params _ _ vk q k 0 Ln F3)|]. lra.
  Qed.
End Bowl.
