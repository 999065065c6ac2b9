(** From the flat unknowns of the solver to the designs of the user and back. *)
From Coq Require Import String List Bool Arith ZArith Reals Lra Lia Permutation.
From Verif Require Import Base ModelArray ProofArray ModelMath SpecMath ProofMath ModelSurface SpecSurface ModelParams ModelField SpecField
  ModelQuantity SpecQuantity ProofQuantity ProofSlack ModelWrapper SpecWrapper ProofWrapper ProofWrapper2 ModelShipped ModelPackage SpecPackage
  SpecConvex ProofPackage ProofPackage2 ProofPackage3 ProofPackage4 ProofConvex ModelSolver SpecSolver ProofSolver ModelQuadcoil SpecQuadcoil ProofQuadcoil ProofQuadcoil2
  SpecProblem ProofProblem ProofProblem2 ProofEnd ProofEnd2 SpecEnd.
Import ListNotations.
Open Scope R_scope.
Open Scope string_scope.
Open Scope list_scope.
Notation total := ProofQuadcoil.total.

(** ** Packing and unpacking *)
Lemma in_structure (x : ModelArray.dict arr) k v : NoDup (map fst x) -> lookup k x = Some v -> In (k, sh v) (structure x).
Proof.
  intros N L. apply lookup_in in L; auto. unfold structure. apply in_map_iff. exists (k, v). split; [reflexivity|].
  eapply Permutation_in; [apply Permutation_sym, sort_perm|exact L].
Qed.
Lemma structure_in (x : ModelArray.dict arr) k s : NoDup (map fst x) -> In (k, s) (structure x) -> exists v, lookup k x = Some v /\ sh v = s.
Proof.
  intros N I. unfold structure in I. apply in_map_iff in I as ((k' & v) & E & I). cbn in E. injection E as <- <-.
  exists v. split; [|reflexivity]. apply lookup_in; auto. eapply Permutation_in; [apply sort_perm|exact I].
Qed.
Lemma structure_nodup (x : ModelArray.dict arr) : NoDup (map fst x) -> NoDup (map fst (structure x)).
Proof. intros N. unfold structure. rewrite map_map. cbn [fst]. now apply sort_nodup. Qed.
Lemma unravel_lookup s z k shp : NoDup (map fst s) -> length z = total s -> In (k, shp) s ->
  exists b, lookup k (unravel s z) = Some b /\ sh b = shp /\ wf b.
Proof.
  intros N Lz I. rewrite <- (unravel_keys s z) in I. apply in_map_iff in I as ((k' & b) & E & I). cbn in E. injection E as -> <-.
  exists b. split; [|split; [reflexivity|exact (unravel_wf s z _ Lz I)]]. apply lookup_in; [rewrite unravel_fst; exact N|exact I].
Qed.
Lemma pack s (val : string -> arr) : NoDup (map fst s) -> (forall k shp, In (k, shp) s -> sh (val k) = shp /\ wf (val k)) ->
  exists z, length z = total s /\ forall k shp, In (k, shp) s -> lookup k (unravel s z) = Some (val k).
Proof.
  intros N H. set (d := map (fun kv : string * list nat => (fst kv, val (fst kv))) s).
  assert (Es : map (fun kv : string * arr => (fst kv, sh (snd kv))) d = s).
  { unfold d. rewrite map_map. cbn [fst snd]. rewrite <- (map_id s) at 2. apply map_ext_in. intros [k shp] I. cbn [fst]. now rewrite (proj1 (H k shp I)). }
  assert (Wd : forall kv, In kv d -> wf (snd kv)).
  { intros kv I. unfold d in I. apply in_map_iff in I as ((k & shp) & <- & I). exact (proj2 (H k shp I)). }
  pose proof (unravel_ravel_list d Wd) as U. rewrite Es in U. exists (concat (map (fun kv => el (snd kv)) d)). split.
  - rewrite <- Es. clear - Wd. induction d as [|kv d IH]; [reflexivity|]. cbn [map concat ProofQuadcoil.total fold_right snd]. rewrite app_length.
    rewrite IH by (intros; apply Wd; now right). rewrite (Wd kv) by (now left). reflexivity.
  - intros k shp I. rewrite U. apply lookup_in.
    + unfold d. rewrite map_map. exact N.
    + unfold d. apply in_map_iff. exists (k, shp). auto.
Qed.

(** ** Keys of the slack variables *)
Lemma filter_fst_nodup {A} (g : string * A -> bool) d : NoDup (map fst d) -> NoDup (map fst (filter g d)).
Proof.
  induction d as [|kv d IH]; intros N; [constructor|]. cbn [map] in N. inversion N; subst. cbn [filter]. destruct (g kv); [|now apply IH].
  cbn [map]. constructor; [|now apply IH]. intros I. apply H1. apply in_map_iff in I as (kv' & E & I). apply filter_In in I as (I & _). apply in_map_iff. eauto.
Qed.
Lemma union_nodup {A} (d e : ModelArray.dict A) : NoDup (map fst d) -> NoDup (map fst e) -> NoDup (map fst (dict_union d e)).
Proof.
  intros Nd Ne. unfold dict_union. rewrite map_app, map_map. cbn [fst]. apply NoDup_app_disj; [exact Nd|now apply filter_fst_nodup|].
  intros k Ik Ik'. apply in_map_iff in Ik' as (kv & <- & I). apply filter_In in I as (_ & Hf).
  destruct (lookup (fst kv) d) eqn:L; [discriminate|]. apply in_map_iff in Ik as (kv' & E & I').
  assert (K : lookup (fst kv') d = Some (snd kv')) by (apply lookup_in; [exact Nd|destruct kv'; exact I']). rewrite E in K. congruence.
Qed.
Lemma fold_union_nodup {P} (l : list (added P)) s : NoDup (map fst s) -> (forall a, In a l -> NoDup (map fst (ad_slack a))) ->
  NoDup (map fst (fold_left (fun s a => dict_union s (ad_slack a)) l s)).
Proof.
  revert s. induction l as [|a l IH]; intros s N H; [exact N|]. cbn [fold_left]. apply IH; [|intros; apply H; now right].
  apply union_nodup; [exact N|apply H; now left].
Qed.

Lemma slack_name_plain n : In n slack_quantities -> slack_name n <> "phi" /\ slack_name n <> "phi_scaled".
Proof. intros I. unfold slack_quantities in I. cbn [In] in I. repeat destruct I as [<-|I]; try contradiction; split; discriminate. Qed.

Section Flat.
  Variables (other : list string) (q : params) (U : string -> R) (os : list objective) (cs : list user_constraint) (sp : smoothing_params).
  Variables (f : callable params) (po pc : parsed params).
  Hypothesis O : ordered q.
  Hypothesis Uo : forall o, In o os -> 0 <= ob_weight o /\ scaled_use U q (ob_name o) (ob_unit o).
  Hypothesis Uc : forall c, In c cs -> scaled_use U q (uc_name c) (uc_unit c).
  Hypothesis Eo : parse_objectives q_ndofs (package other) (Objectives (map ob_name os) (map (fun o => UScalar (ob_unit o)) os)) (map ob_weight os) (Some "slack") sp = Ok (f, po).
  Hypothesis Ec : parse_constraints q_ndofs (package other) (map uc_name cs) (map (fun c => op_string (uc_cmp c)) cs) (map (fun c => UScalar (uc_unit c)) cs) (map uc_val cs) (Some "slack") sp = Ok pc.
  Notation aux := (dict_union (p_slack po) (p_slack pc)).
  Hypothesis Sa : forall x, length x = q_ndofs q -> sound q x.

  Lemma some_sound : exists x, sound q x.
  Proof using Sa. exists (repeat 0 (q_ndofs q)). apply Sa, repeat_length. Qed.

  (** One slack variable. *)
  Lemma slack_key k init : lookup k aux = Some init ->
    k <> "phi" /\ k <> "phi_scaled" /\ exists s, forall x, length x = q_ndofs q -> exists i, init q [("phi", vec x)] = Ok i /\ sh i = s /\ wf i.
  Proof using O Uo Uc Eo Ec Sa.
    intros L. destruct (origin params q_ndofs (package other) q os cs sp f po pc Eo Ec k init L) as (n & un & use & a & Un & A & La).
    destruct (scaled_used q U os cs Uo Uc n un Un) as (Nz & [(I & EU)|(I & St)]).
    - destruct (slack_lengths other q some_sound n I) as (Q & G & In_ & s & Ln & Ep & Eg & Ei & H).
      destruct (add_slack params q_ndofs (package other) q _ _ _ _ _ _ A Ep) as (_ & _ & _ & _ & As). rewrite Ei in As. cbn [map fst snd] in As.
      rewrite As in La. cbn [lookup] in La. destruct (String.eqb_spec k (slack_name n)) as [->|]; [|discriminate La]. injection La as <-.
      destruct (slack_name_plain n I). split; [assumption|]. split; [assumption|]. exists s. intros x Lx.
      destruct (H x (Sa x Lx)) as (HI & _). exact (HI (Rabs un) (Rabs_pos_lt _ Nz)).
    - destruct (direct_use other q _ (Sa (repeat 0 (q_ndofs q)) (repeat_length _ _)) n I St) as (Q & v & Ep & Ev & D).
      destruct (use_direct _ _ _ _ _ _ _ _ _ _ _ _ A Ep D Nz) as (_ & _ & Z & _). rewrite Z in La. discriminate La.
  Qed.
  Lemma slack_single n un use a : used os cs n un -> add_quantity q_ndofs (package other) n (UScalar un) use (Some "slack") sp = Ok a -> NoDup (map fst (ad_slack a)).
  Proof using O Uo Uc Sa.
    intros Un A. destruct (scaled_used q U os cs Uo Uc n un Un) as (Nz & [(I & EU)|(I & St)]).
    - destruct (slack_lengths other q some_sound n I) as (Q & G & In_ & s & Ln & Ep & Eg & Ei & H).
      destruct (add_slack params q_ndofs (package other) q _ _ _ _ _ _ A Ep) as (_ & _ & _ & _ & As). rewrite Ei in As. rewrite As. cbn. repeat constructor. intros [].
    - destruct (direct_use other q _ (Sa (repeat 0 (q_ndofs q)) (repeat_length _ _)) n I St) as (Q & v & Ep & Ev & D).
      destruct (use_direct _ _ _ _ _ _ _ _ _ _ _ _ A Ep D Nz) as (_ & _ & Z & _). rewrite Z. constructor.
  Qed.
  Lemma aux_nodup : NoDup (map fst aux).
  Proof using O Uo Uc Eo Ec Sa.
    destruct (objective_parts params q_ndofs (package other) os sp f po Eo) as (lo & Fo & Ef & Gg & Gh & Go).
    destruct (constraint_parts params q_ndofs (package other) q cs sp pc Ec) as (lc & Fc & Gc & _).
    apply union_nodup; [rewrite Go|rewrite Gc]; apply fold_union_nodup; try constructor; intros a Ia.
    - destruct (F2_in_r _ _ _ _ Fo Ia) as (o & Io & A). eapply slack_single; [|exact A]. left. exists o. split; [eapply in_combine_l; exact Io|auto].
    - destruct (F2_in_r _ _ _ _ Fc Ia) as (c & Ic & A). eapply slack_single; [|exact A]. right. exists c. split; [eapply in_combine_l; exact Ic|auto].
  Qed.

  Variables (phi : list R) (u : R) (x0 : ModelArray.dict arr).
  Hypothesis Lphi : length phi = q_ndofs q.
  Hypothesis Hx : x_dict aux q phi u = Ok x0.
  Hypothesis Hu : u <> 0.

  Lemma x0_facts : NoDup (map fst x0) /\ lookup "phi_scaled" x0 = Some (vec_arr (map (fun p => p / u) phi)) /\
    (forall k init, lookup k aux = Some init -> exists v, init q [("phi", vec_arr phi)] = Ok v /\ lookup k x0 = Some v) /\
    (forall k v, lookup k x0 = Some v -> wf v /\ (k = "phi_scaled" \/ exists init, lookup k aux = Some init)).
  Proof using O Uo Uc Eo Ec Sa Hx Lphi.
    pose proof aux_nodup as N. unfold x_dict in Hx. destruct (add_aux_ok _ _ _ _ _ Hx N) as (A & B & C).
    assert (Nk : forall k, In k (map fst aux) -> exists init, lookup k aux = Some init).
    { intros k J. apply in_map_iff in J as ((k' & i) & <- & J). exists i. now apply lookup_in. }
    assert (B' : forall k init, lookup k aux = Some init -> exists v, init q [("phi", vec_arr phi)] = Ok v /\ lookup k x0 = Some v).
    { intros k init L. apply B. now apply lookup_in. }
    split; [apply A; cbn; repeat constructor; intros []|]. split; [|split; [exact B'|]].
    - rewrite C; [reflexivity|]. intros J. destruct (Nk _ J) as (i & L). now destruct (slack_key _ _ L) as (_ & D & _).
    - intros k v Lk. destruct (in_dec string_dec k (map fst aux)) as [J|J].
      + destruct (Nk _ J) as (i & L). split; [|right; eauto]. destruct (B' _ _ L) as (v' & Ev & L'). destruct (slack_key _ _ L) as (_ & _ & s & Hs).
        destruct (Hs phi Lphi) as (i' & Ei & _ & W). assert (v' = v) by congruence. subst v'. change (vec_arr phi) with (vec phi) in Ev. congruence.
      + rewrite C in Lk by exact J. cbn [lookup] in Lk. destruct (String.eqb_spec k "phi_scaled"); [|discriminate]. injection Lk as <-. split; [|now left].
        red. cbn. lia.
  Qed.

  (** Every flat vector of the right length is a state. *)
  Lemma unpack z : length z = total (structure x0) ->
    exists d x, unscale (structure x0) u z = Ok d /\ length x = q_ndofs q /\ solver_state po pc q (vec x) d.
  Proof using O Uo Uc Eo Ec Sa Hx Lphi.
    intros Lz. destruct x0_facts as (N & Ps & B & W). pose proof (structure_nodup _ N) as Ns.
    pose proof (in_structure _ _ _ N Ps) as Ips. destruct (unravel_lookup _ z _ _ Ns Lz Ips) as (b & Lb & Sb & Wb).
    destruct b as [s l]. cbn [sh vec_arr] in Sb. subst s. red in Wb. cbn [sh el] in Wb. rewrite size_single in Wb. rewrite map_length in Wb.
    destruct (unscale (structure x0) u z) as [d|e] eqn:Ed.
    2: { unfold unscale, getitem in Ed. rewrite Lb in Ed. discriminate. }
    exists d, (map (fun v => v * u) l). split; [reflexivity|]. split; [rewrite map_length; congruence|].
    pose proof (unscale_lookup _ _ _ _ Ed) as LL. split.
    - rewrite LL. cbn [String.eqb Ascii.eqb Bool.eqb]. rewrite Lb. cbn [option_map]. unfold amap. cbn [sh el]. now rewrite !map_length, Wb.
    - intros k init L. destruct (slack_key _ _ L) as (K1 & K2 & s & Hs). destruct (B _ _ L) as (v & Ev & Lv).
      destruct (Hs phi Lphi) as (i & Ei & Si & _). destruct (Hs (map (fun v => v * u) l)) as (i' & Ei' & Si' & _); [rewrite map_length; congruence|].
      assert (v = i) by (change (vec_arr phi) with (vec phi) in Ev; congruence). subst v.
      destruct (unravel_lookup _ z _ _ Ns Lz (in_structure _ _ _ N Lv)) as (b & Lb' & Sb' & Wb'). exists i', b. split; [exact Ei'|]. split; [|split; [congruence|exact Wb']].
      rewrite LL. destruct (String.eqb_spec k "phi_scaled"); [contradiction|]. destruct (String.eqb_spec k "phi"); [contradiction|]. exact Lb'.
  Qed.
  (** Every state of the user is reached by a flat vector. *)
  Lemma repack x D : length x = q_ndofs q -> solver_state po pc q (vec x) D ->
    exists z d, length z = total (structure x0) /\ unscale (structure x0) u z = Ok d /\
      forall k, k = "phi" \/ lookup k aux <> None -> lookup k d = lookup k D.
  Proof using O Uo Uc Eo Ec Sa Hx Lphi Hu.
    intros Lx (Lp & St). destruct x0_facts as (N & Ps & B & W). pose proof (structure_nodup _ N) as Ns.
    set (val := fun k => if String.eqb k "phi_scaled" then vec (map (fun p => p / u) x) else match lookup k D with Some b => b | None => scal 0 end).
    destruct (pack (structure x0) val Ns) as (z & Lz & Hz).
    { intros k shp I. destruct (structure_in _ _ _ N I) as (v & Lv & <-). destruct (W k v Lv) as (_ & [->|(init & L)]).
      - assert (v = vec_arr (map (fun p => p / u) phi)) as -> by congruence. unfold val. change (String.eqb "phi_scaled" "phi_scaled") with true.
        cbv iota. cbn [sh vec_arr]. rewrite !map_length. split; [congruence|]. red. cbn. rewrite !map_length. lia.
      - destruct (slack_key _ _ L) as (K1 & K2 & s & Hs). unfold val. destruct (String.eqb_spec k "phi_scaled"); [contradiction|].
        destruct (St _ _ L) as (i & b & Ei & Lb & Sb & Wb). rewrite Lb. split; [|exact Wb]. destruct (B _ _ L) as (v' & Ev & Lv'). assert (v' = v) by congruence. subst v'.
        destruct (Hs phi Lphi) as (i1 & E1 & S1 & _). destruct (Hs x Lx) as (i2 & E2 & S2 & _). change (vec_arr phi) with (vec phi) in Ev. congruence. }
    destruct (unscale (structure x0) u z) as [d|e] eqn:Ed.
    2: { unfold unscale, getitem in Ed. rewrite (Hz _ _ (in_structure _ _ _ N Ps)) in Ed. discriminate. }
    exists z, d. split; [exact Lz|]. split; [exact Ed|]. pose proof (unscale_lookup _ _ _ _ Ed) as LL. intros k [->|Hk].
    - rewrite LL, Lp. cbn [String.eqb Ascii.eqb Bool.eqb]. rewrite (Hz _ _ (in_structure _ _ _ N Ps)). unfold val. change (String.eqb "phi_scaled" "phi_scaled") with true.
      cbn [option_map]. unfold amap. cbn [sh el]. rewrite map_map, map_length. do 2 f_equal. rewrite <- (map_id x) at 2. apply map_ext. intros v. field. exact Hu.
    - destruct (lookup k aux) as [init|] eqn:L; [|contradiction]. destruct (slack_key _ _ L) as (K1 & K2 & s & Hs).
      destruct (B _ _ L) as (v' & Ev & Lv'). rewrite LL. destruct (String.eqb_spec k "phi_scaled"); [contradiction|]. destruct (String.eqb_spec k "phi"); [contradiction|].
      rewrite (Hz _ _ (in_structure _ _ _ N Lv')). unfold val. destruct (String.eqb_spec k "phi_scaled"); [contradiction|]. destruct (St _ _ L) as (i & b & Ei & Lb & _). now rewrite Lb.
  Qed.
End Flat.
