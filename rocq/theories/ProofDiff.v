(** Lemmas behind the properties of the differentiable wrapper and the DESC
    interface. *)
From Coq Require Import String List Bool Arith ZArith Reals Lra Lia.
From Verif Require Import Base ModelArray ModelMath ModelQuantity ModelWrapper ModelSurface ModelParams
  ModelField ModelSolver ModelQuadcoil ModelDiff SpecMath SpecSurface SpecQuadcoil SpecDiff
  ProofArray ProofMath ProofQuadcoil ProofQuadcoil2.
Import ListNotations.
Open Scope R_scope.
Open Scope string_scope.
Open Scope list_scope.

(** ** Products of arrays *)
Lemma broadcast_nth a : broadcast_to a (sh a) = Ok (Arr (sh a) (map (fun i => nth i (el a) 0) (seq 0 (size (sh a))))).
Proof.
  unfold broadcast_to. rewrite pad_same, fits_refl. f_equal. f_equal.
  rewrite <- ravel_indices, map_map. apply map_ext_in. intros idx H.
  rewrite mask_id; auto. apply in_indices; auto.
Qed.
Lemma map2_map_same {A B C D} (f : B -> C -> D) (g : A -> B) (h : A -> C) l :
  map2 f (map g l) (map h l) = map (fun x => f (g x) (h x)) l.
Proof. induction l; cbn; auto. f_equal. auto. Qed.
Lemma op2_pairing a b : sh a = sh b -> exists p, op2 Rmult a b = Ok p /\ asum p = pairing a b.
Proof.
  intros E. unfold op2. rewrite <- E, bshape_same, rev_involutive, broadcast_nth. cbn [bind].
  rewrite E, broadcast_nth, <- E. cbn [bind]. eexists. split; [reflexivity|].
  cbn [el]. rewrite map2_map_same. reflexivity.
Qed.
Lemma pairing_combination x a b v v' : sh v = sh x -> sh v' = sh x ->
  pairing x (Arr (sh v) (map (fun i => a * nth i (el v) 0 + b * nth i (el v') 0) (seq 0 (size (sh v)))))
  = a * pairing x v + b * pairing x v'.
Proof.
  intros E E'. unfold pairing. rewrite <- !Rsum_scal, <- Rsum_plus. apply Rsum_ext. intros i Hi. apply in_seq in Hi.
  cbn [el]. rewrite E.
  set (f := fun i0 : nat => a * nth i0 (el v) 0 + b * nth i0 (el v') 0).
  replace (nth i (map f (seq 0 (size (sh x)))) 0) with (f i).
  - unfold f. ring.
  - rewrite (nth_indep _ 0 (f 0%nat)) by (rewrite map_length, seq_length; lia).
    rewrite map_nth, seq_nth by lia. reflexivity.
Qed.

(** ** Sums over a dictionary *)
Lemma Rsum_one (F : string -> R) k K : NoDup K -> In k K ->
  Rsum (map (fun k' => if String.eqb k' k then F k' else 0) K) = F k.
Proof.
  induction K as [|k1 K IH]; intros N I; [destruct I|]. inversion N; subst. cbn [map].
  change (Rsum (?x :: ?l)) with (x + Rsum l). destruct I as [->|I].
  - rewrite String.eqb_refl. rewrite (Rsum_ext _ (fun _ => 0 * 0)).
    + rewrite Rsum_scal. ring.
    + intros k' Hk'. destruct (String.eqb_spec k' k); [subst; contradiction|ring].
  - rewrite IH by auto. destruct (String.eqb_spec k1 k); [subst; contradiction|ring].
Qed.
Lemma Rsum_dict {A} (F : string -> A -> R) K (g : ModelArray.dict A) : NoDup K -> NoDup (map fst g) ->
  (forall k, In k (map fst g) -> In k K) ->
  Rsum (map (fun kv => F (fst kv) (snd kv)) g)
  = Rsum (map (fun k => match lookup k g with Some v => F k v | None => 0 end) K).
Proof.
  intros NK. induction g as [|[k v] g IH]; cbn [map fst snd]; intros N Hin.
  - cbn [lookup]. rewrite (Rsum_ext _ (fun _ => 0 * 0)) by (intros; ring). rewrite Rsum_scal. cbn. ring.
  - inversion N; subst. change (Rsum (?x :: ?l)) with (x + Rsum l).
    rewrite IH by (auto; intros; apply Hin; right; auto).
    rewrite <- (Rsum_one (fun k' => F k' v) k K) by (auto; apply Hin; left; auto).
    rewrite <- Rsum_plus. apply Rsum_ext. intros k' _. cbn [lookup].
    destruct (String.eqb_spec k' k) as [->|Ne]; [|ring].
    destruct (lookup k g) eqn:El; [|ring]. exfalso. apply H1.
    clear - El. induction g as [|[k1 v1] g IH]; [discriminate|]. cbn [lookup] in El. cbn [map fst].
    destruct (String.eqb_spec k k1); [left; auto|right; auto].
Qed.
Definition all_keys : list string :=
  ["df_dplasma_dofs"; "df_dnet_poloidal_current_amperes"; "df_dnet_toroidal_current_amperes"; "df_dBnormal_plasma";
   "df_dplasma_coil_distance"; "df_dwinding_dofs"; "df_dobjective_weight"; "df_dconstraint_value"].
Lemma all_keys_nodup : NoDup all_keys.
Proof. unfold all_keys. repeat (constructor; [cbn; intuition congruence|]). constructor. Qed.

Definition term (g : ModelArray.dict arr) (t : tangents) (key : string) : R :=
  match lookup key g with
  | Some v => match tangent_for t key with Some x => pairing v x | None => 0 end
  | None => 0
  end.

Section Entry.
  Context {L : Type}.
  Variable a : args L.
  Variable i : diff_inputs.
  Variable g : ModelArray.dict arr.
  Variable e : ModelQuadcoil.entry.
  Hypothesis Inp : has_inputs a i.
  Hypothesis Grad : e_grad e = Some g.
  Hypothesis Nod : NoDup (map fst g).
  Hypothesis Keys : forall key shp, (exists v, In (key, v) g /\ sh v = shp) <->
                      (exists k, key = String.append "df_d" k /\ in_use a k shp).

  Lemma key_lookup k shp : in_use a k shp -> exists v, lookup (String.append "df_d" k) g = Some v /\ sh v = shp.
  Proof.
    intros H. destruct (proj2 (Keys (String.append "df_d" k) shp)) as (v & I & S); [eauto|].
    exists v. split; auto. apply lookup_in; auto.
  Qed.
  Lemma lookup_key k v : lookup (String.append "df_d" k) g = Some v -> in_use a k (sh v).
  Proof.
    intros H. apply lookup_in in H; auto. destruct (proj1 (Keys (String.append "df_d" k) (sh v))) as (k' & E & U); [eauto|].
    apply append_inj in E. subst. exact U.
  Qed.
  Lemma keys_known k : In k (map fst g) -> In k all_keys.
  Proof.
    intros H. apply in_map_iff in H. destruct H as ([k1 v] & <- & I). cbn [fst].
    destruct (proj1 (Keys k1 (sh v))) as (k & -> & U); [eauto|]. destruct U; cbn; tauto.
  Qed.

  (** A term whose tangent, when present, fits the gradient. *)
  Lemma term_ok t k : (forall v, tangent_for t (String.append "df_d" k) = Some v -> in_use a k (sh v)) ->
    jvp_term e (String.append "df_d" k) (tangent_for t (String.append "df_d" k)) = Ok (term g t (String.append "df_d" k)).
  Proof.
    intros H. unfold jvp_term, term. destruct (tangent_for t (String.append "df_d" k)) as [v|] eqn:Et.
    - destruct (key_lookup _ _ (H v eq_refl)) as (x & Hx & Sx). rewrite Grad. cbn [bind]. unfold getitem. rewrite Hx. cbn [bind].
      destruct (op2_pairing x v Sx) as (p & -> & Ep). cbn [bind]. rewrite Ep. reflexivity.
    - destruct (lookup _ g); reflexivity.
  Qed.

  Lemma six_terms t : matching i t -> one_winding a ->
    jvp_term e "df_dplasma_dofs" (dt_plasma_dofs t) = Ok (term g t "df_dplasma_dofs") /\
    jvp_term e "df_dnet_poloidal_current_amperes" (dt_G t) = Ok (term g t "df_dnet_poloidal_current_amperes") /\
    jvp_term e "df_dnet_toroidal_current_amperes" (dt_I t) = Ok (term g t "df_dnet_toroidal_current_amperes") /\
    jvp_term e "df_dBnormal_plasma" (dt_Bnormal t) = Ok (term g t "df_dBnormal_plasma") /\
    jvp_term e "df_dplasma_coil_distance" (dt_distance t) = Ok (term g t "df_dplasma_coil_distance") /\
    jvp_term e "df_dwinding_dofs" (dt_winding_dofs t) = Ok (term g t "df_dwinding_dofs").
  Proof.
    intros (M1 & M2 & M3 & M4 & M5 & M6 & M7 & M8) OW.
    destruct Inp as (I1 & I2 & I3 & I4 & I5 & I6 & I7 & I8).
    pose proof (term_ok t "plasma_dofs") as T1. pose proof (term_ok t "net_poloidal_current_amperes") as T2.
    pose proof (term_ok t "net_toroidal_current_amperes") as T3. pose proof (term_ok t "Bnormal_plasma") as T4.
    pose proof (term_ok t "plasma_coil_distance") as T5. pose proof (term_ok t "winding_dofs") as T6.
    split; [apply T1|]. { intros v E. destruct M1 as (v' & E' & Sv). change (dt_plasma_dofs t = Some v) in E. rewrite E in E'. injection E' as <-.
      rewrite Sv, <- I1. constructor. }
    split; [apply T2|]. { intros v E. destruct M2 as (v' & E' & Sv). change (dt_G t = Some v) in E. rewrite E in E'. injection E' as <-. rewrite Sv. constructor. }
    split; [apply T3|]. { intros v E. destruct M3 as (v' & E' & Sv). change (dt_I t = Some v) in E. rewrite E in E'. injection E' as <-. rewrite Sv. constructor. }
    split; [apply T4|]. { intros v E. change (dt_Bnormal t = Some v) in E. destruct (di_Bnormal i) as [b|]; [|congruence]. destruct M4 as (v' & E' & Sv).
      rewrite E in E'. injection E' as <-. rewrite Sv. constructor. exact I4. }
    split; [apply T5|apply T6].
    { intros v E. change (dt_distance t = Some v) in E. destruct (di_distance i) as [b|]; [|congruence]. destruct M5 as (v' & E' & Sv).
      rewrite E in E'. injection E' as <-. rewrite Sv. econstructor. exact I5. }
    { intros v E. change (dt_winding_dofs t = Some v) in E. destruct (di_winding_dofs i) as [w|]; [|congruence]. destruct M6 as (v' & E' & Sv).
      rewrite E in E'. injection E' as <-. rewrite Sv. apply use_winding; [|exact I6].
      destruct OW as [[Hd _]|[Hw _]]; [exact Hd|congruence]. }
  Qed.

  Lemma entry_ok t : matching i t -> usable_weight (qc_objective_name a) (di_weight i) -> one_winding a ->
    good_objective (qc_objective_name a) (qc_objective_weight a) (qc_objective_unit a) ->
    good_constraints (qc_constraint_name a) (qc_constraint_type a) (qc_constraint_unit a) (qc_constraint_value a) ->
    jvp_entry e t = Ok (directional g t).
  Proof.
    intros Mt UW OW GO GC. destruct (six_terms t Mt OW) as (T1 & T2 & T3 & T4 & T5 & T6).
    destruct Mt as (M1 & M2 & M3 & M4 & M5 & M6 & M7 & M8).
    destruct Inp as (I1 & I2 & I3 & I4 & I5 & I6 & I7 & I8). unfold jvp_entry.
    pose proof (term_ok t "objective_weight") as T7. pose proof (term_ok t "constraint_value") as T8.
    cbn [String.append] in T7, T8.
    change (tangent_for t "df_dobjective_weight") with (dt_weight t) in T7.
    change (tangent_for t "df_dconstraint_value") with (dt_value t) in T8.
    rewrite T1. cbn [bind]. rewrite T2. cbn [bind]. rewrite T3. cbn [bind]. rewrite T4. cbn [bind]. rewrite T5. cbn [bind]. rewrite T6. cbn [bind].
    assert (T7' : jvp_weight e (dt_weight t) = Ok (term g t "df_dobjective_weight")).
    { unfold jvp_weight. destruct (dt_weight t) as [v|] eqn:Ew.
      - destruct (isscalar v) eqn:Sc.
        + unfold isscalar in Sc. unfold term. destruct (lookup "df_dobjective_weight" g) as [x|] eqn:El; [|reflexivity].
          exfalso. pose proof (lookup_key "objective_weight" x El) as U. inversion U as [| | | |names w Hn Hw| | |]; subst.
          rewrite <- I7, Hw in M7. destruct M7 as (v' & E' & Sv). injection E' as <-.
          destruct GO as [(s & Hs)|(n' & w' & us & Hn' & Hw' & Lw & _)]; [congruence|].
          rewrite Hw in Hw'. injection Hw' as <-. rewrite Sv in Sc. destruct (sh w); [discriminate Lw|discriminate Sc].
        + apply T7. intros x [= <-]. rewrite <- I7 in M7, UW. destruct (qc_objective_weight a) as [r|w|] eqn:Hw.
          * destruct M7 as (v' & E' & Sv). injection E' as <-. unfold isscalar in Sc. rewrite Sv in Sc. discriminate.
          * destruct M7 as (v' & E' & Sv). injection E' as <-. destruct (UW w eq_refl) as (W & [S0|(l & Hl)]).
            { unfold isscalar in Sc. rewrite Sv, S0 in Sc. discriminate. }
            destruct GO as [(s & Hs)|(n' & w' & us & Hn' & Hw' & Lw & _)]; [congruence|]. injection Hw' as <-.
            rewrite Sv. red in W. destruct (sh w) as [|n [|n2 s]] eqn:Esh; [discriminate Lw| |discriminate Lw].
            cbn in W. rewrite Nat.mul_1_r in W. rewrite <- W. apply (use_weight a l); auto.
          * discriminate.
      - unfold term. change (tangent_for t "df_dobjective_weight") with (dt_weight t). rewrite Ew. destruct (lookup _ g); reflexivity. }
    rewrite T7'. cbn [bind].
    assert (T8' : jvp_value e (dt_value t) = Ok (term g t "df_dconstraint_value")).
    { destruct GC as (names & types & us & vs & Hn & Ht & Hu & Hv & L1 & L2 & L3).
      rewrite <- I8, Hv in M8. destruct M8 as (v & Ev & Sv). rewrite Ev in T8 |- *. unfold jvp_value. rewrite Sv.
      destruct (length vs) as [|n] eqn:Evs.
      - unfold term. destruct (lookup "df_dconstraint_value" g) as [x|] eqn:El; [|reflexivity].
        exfalso. pose proof (lookup_key "constraint_value" x El) as U. inversion U as [| | | | |names' vs' Hn' Nn Hv'| |]; subst.
        rewrite Hn in Hn'. injection Hn' as <-. destruct names; [congruence|discriminate L3].
      - apply T8. intros x [= <-]. rewrite Sv. rewrite <- Evs. apply (use_value a names); auto. intros ->. cbn in L3. congruence. }
    rewrite T8'. cbn [bind]. f_equal.
    unfold directional. rewrite (Rsum_dict (fun k v => match tangent_for t k with Some x => pairing v x | None => 0 end) all_keys g all_keys_nodup Nod keys_known).
    unfold all_keys. cbn [map]. unfold Rsum. cbn [fold_right]. unfold term. ring.
  Qed.
  (** A single objective with an array of weights. *)
  Lemma entry_weight_missing t w s : matching i t -> one_winding a -> qc_objective_name a = NStr s ->
    di_weight i = WArr w -> sh w <> [] -> jvp_entry e t = Raise KeyError.
  Proof.
    intros Mt OW Hs Hw Nw. destruct (six_terms t Mt OW) as (T1 & T2 & T3 & T4 & T5 & T6).
    destruct Mt as (M1 & M2 & M3 & M4 & M5 & M6 & M7 & M8). unfold jvp_entry.
    rewrite T1. cbn [bind]. rewrite T2. cbn [bind]. rewrite T3. cbn [bind]. rewrite T4. cbn [bind]. rewrite T5. cbn [bind]. rewrite T6. cbn [bind].
    rewrite Hw in M7. destruct M7 as (v & -> & Sv). unfold jvp_weight, isscalar. rewrite Sv. destruct (sh w); [congruence|].
    unfold jvp_term. rewrite Grad. cbn [bind]. unfold getitem. destruct (lookup "df_dobjective_weight" g) as [x|] eqn:El; [|reflexivity].
    exfalso. pose proof (lookup_key "objective_weight" x El) as U. inversion U. congruence.
  Qed.
End Entry.

Lemma lookup_in_pair {A} k (v : A) d : lookup k d = Some v -> In (k, v) d.
Proof.
  induction d as [|[k' v'] d IH]; [discriminate|]. cbn [lookup]. destruct (String.eqb_spec k k') as [->|]; [|right; auto].
  intros H. injection H as ->. left. reflexivity.
Qed.

(** ** The loop over the metrics *)
Lemma jvp_loop_ok t out : (forall k e, In (k, e) out -> exists v s, entry_value e = Ok v /\ jvp_entry e t = Ok s) ->
  exists vs ds, jvp_loop out t = Ok (vs, ds) /\
    forall m, match lookup m out with
              | Some e => exists v s, entry_value e = Ok v /\ jvp_entry e t = Ok s /\ lookup m vs = Some v /\ lookup m ds = Some s
              | None => lookup m vs = None /\ lookup m ds = None
              end.
Proof.
  induction out as [|[k e] out IH]; intros H; cbn [jvp_loop].
  - exists [], []. split; [reflexivity|]. intros m. cbn. auto.
  - destruct (H k e (or_introl eq_refl)) as (v & s & Hv & Hs).
    destruct IH as (vs & ds & E & Hm); [intros; apply (H k0); right; auto|].
    rewrite Hv, Hs, E. cbn [bind fst snd]. do 2 eexists. split; [reflexivity|]. intros m. cbn [lookup].
    destruct (String.eqb m k); [|apply Hm]. exists v, s. auto.
Qed.
Lemma simple_values_ok out : (forall k e, In (k, e) out -> e_value e <> None) ->
  exists vs, simple_values out = Ok vs /\
    forall m, lookup m vs = match lookup m out with Some e => e_value e | None => None end.
Proof.
  induction out as [|[k e] out IH]; intros H; cbn [simple_values].
  - exists []. split; reflexivity.
  - destruct (e_value e) as [v|] eqn:Ev; [|exfalso; apply (H k e); auto; left; auto].
    destruct IH as (vs & E & Hm); [intros; apply (H k0); right; auto|].
    unfold entry_value. rewrite Ev, E. cbn [bind]. eexists. split; [reflexivity|]. intros m. cbn [lookup].
    destruct (String.eqb m k); [auto|apply Hm].
Qed.
Lemma in_dict_set {A} (d : ModelArray.dict A) k v k' v' : In (k, v) (dict_set d k' v') -> (k = k' /\ v = v') \/ In (k, v) d.
Proof.
  induction d as [|[k1 v1] d IH]; cbn [dict_set].
  - intros [[= <- <-]|[]]. auto.
  - destruct (String.eqb k' k1).
    + intros [[= <- <-]|H]; [auto|right; right; auto].
    + intros [H|H]; [right; left; auto|]. destruct (IH H) as [K|K]; [auto|right; right; auto].
Qed.

Section Whole.
  Variable ns : namespace params.
  Variable E : library.
  Notation L := (x_solver E).

  Lemma grad_metrics_entries names (a : args L) p r : forall out out', grad_metrics ns E names a p r out = Ok out' ->
    forall k e, In (k, e) out' -> In (k, e) out \/ (In k names /\ exists v, e = made_entry ns E a p r k v).
  Proof.
    induction names as [|n names IH]; intros out out' H k e I; cbn [grad_metrics] in H.
    - injection H as <-. auto.
    - destruct (f_metric ns E a p n (optimum E r) (ravel (pr_y p))) as [v|] eqn:Ev; [|discriminate]. cbn [bind] in H.
      destruct (isscalar v) eqn:Es; [|discriminate].
      destruct (IH _ _ H k e I) as [K|(K1 & K2)]; [|right; split; [right; auto|auto]].
      apply in_dict_set in K. destruct K as [[-> ->]|K]; [|auto]. right. split; [left; auto|]. exists v. reflexivity.
  Qed.
  Lemma value_metrics_entries names fn d : forall out out', value_metrics ns names fn d out = Ok out' ->
    forall k e, In (k, e) out' -> In (k, e) out \/ e_value e <> None.
  Proof.
    induction names as [|n names IH]; intros out out' H k e I; cbn [value_metrics] in H.
    - injection H as <-. auto.
    - destruct (String.eqb n "f_obj").
      + destruct (fn_f fn (fn_qp fn) d); [|discriminate]. cbn [bind] in H. eapply IH; eauto.
      + destruct (get_quantity ns n) as [q|]; [|discriminate]. cbn [bind] in H.
        destruct (call q (fn_qp fn) d) as [v|]; [|discriminate]. cbn [bind] in H.
        destruct (IH _ _ H k e I) as [K|K]; auto. apply in_dict_set in K. destruct K as [[_ ->]|K]; [right; discriminate|auto].
  Qed.

  Lemma call_is (a b : args L) i v : same_but_inputs a b -> has_inputs b i -> qc_value_only b = v -> b = with_inputs a i v.
  Proof.
    intros H (I1 & I2 & I3 & I4 & I5 & I6 & I7 & I8) V. red in H. rewrite H. unfold with_inputs.
    rewrite I1, I2, I3, I4, I5, I6, I7, I8, V. reflexivity.
  Qed.
  Lemma with_inputs_has (a : args L) i v : has_inputs (with_inputs a i v) i.
  Proof. unfold has_inputs. cbn. tauto. Qed.

  (** Every entry of the gradient call is differentiated. *)
  Lemma jvp_ok (a : args L) i t o : quadcoil ns E (with_inputs a i false) = Some (Ok o) ->
    (qc_verbose a = false \/ exists d, o_results E o = Constrained E d) ->
    matching i t -> usable_weight (qc_objective_name a) (di_weight i) ->
    exists vs ds, quadcoil_for_diff_jvp ns E a i t = Some (Ok (vs, ds)) /\
      forall m, (requested a m -> exists e g v, lookup m (o_out E o) = Some e /\ e_grad e = Some g /\ e_value e = Some v /\
                   lookup m vs = Some v /\ lookup m ds = Some (directional g t)) /\
                (~ requested a m -> lookup m vs = None /\ lookup m ds = None).
  Proof.
    intros H Hv Mt UW. set (b := with_inputs a i false) in *.
    assert (Hi : has_inputs b i) by apply with_inputs_has.
    assert (V : qc_value_only b = false) by reflexivity.
    pose proof (gradient_keys ns E b o H V) as GK.
    pose proof (output_keys_gradient ns E b o H V) as OK.
    destruct (quadcoil_ok ns E b o H) as (p & r & d & Hp & Hr & Hf & Hd & Eqp & Edofs & Eres).
    destruct (prepare_fields ns b p Hp) as (OW & GO & GC & _).
    destruct (finish_gradient ns E _ _ _ _ Hf V) as (out0 & Hg & E0).
    assert (Z : out0 = []).
    { rewrite E0. destruct Hv as [Hv|(d' & Hv)].
      - destruct r; [|reflexivity]. change (qc_verbose b) with (qc_verbose a). rewrite Hv. reflexivity.
      - rewrite Eres in Hv. rewrite Hv. reflexivity. }
    destruct (grad_metrics_ok ns E _ _ _ _ _ _ Hg) as [G1 _].
    assert (ENT : forall m, requested b m -> exists g, (forall v, e_grad (made_entry ns E b p r m v) = Some g /\
                jvp_entry (made_entry ns E b p r m v) t = Ok (directional g t))).
    { intros m Hm. destruct (GK m Hm) as (e & g & El & Eg & Nd & Ks). exists g. intros v.
      apply requested_iff in Hm. destruct (G1 m Hm) as (v' & _ & _ & El'). rewrite El in El'. injection El' as ->.
      assert (Eg' : e_grad (made_entry ns E b p r m v) = Some g) by exact Eg. split; [exact Eg'|].
      apply (entry_ok b i g _ Hi Eg' Nd Ks t Mt UW OW GO GC). }
    destruct (jvp_loop_ok t (o_out E o)) as (vs & ds & EL & Hm).
    { intros k e I. destruct (grad_metrics_entries _ _ _ _ _ _ Hg k e I) as [K|(K & v & ->)].
      - rewrite Z in K. destruct K.
      - apply requested_iff in K. destruct (ENT k K) as (g & Hg'). exists v, (directional g t). split; [reflexivity|apply Hg']. }
    exists vs, ds. split.
    { unfold quadcoil_for_diff_jvp. fold b. rewrite H. cbn [option_map bind]. rewrite EL. reflexivity. }
    intros m. specialize (Hm m). split.
    - intros Rm. assert (Rb : requested b m) by exact Rm. destruct (ENT m Rb) as (g & Hg').
      apply requested_iff in Rb. destruct (G1 m Rb) as (v & _ & _ & El). rewrite El in Hm.
      destruct Hm as (v' & s & Ev & Es & L1 & L2). destruct (Hg' v) as (Eg & Ej).
      exists (made_entry ns E b p r m v), g, v. split; [exact El|]. split; [exact Eg|]. split; [reflexivity|].
      rewrite Ej in Es. injection Es as <-. injection Ev as <-. auto.
    - intros Nm. destruct (lookup m (o_out E o)) eqn:El; [|exact Hm]. exfalso.
      destruct (proj1 (OK m)) as [K|(-> & K1 & r' & K2)]; [congruence|exact (Nm K)|].
      destruct Hv as [Hv|(d' & Hv)]; [change (qc_verbose b) with (qc_verbose a) in K1; congruence|congruence].
  Qed.

  (** The values do not depend on the tangents. *)
  Lemma loop_values out s t v v' d d' : jvp_loop out s = Ok (v, d) -> jvp_loop out t = Ok (v', d') -> v = v'.
  Proof.
    revert v v' d d'. induction out as [|[k e] out IH]; intros v v' d d'; cbn [jvp_loop]; [congruence|].
    destruct (entry_value e) as [x|]; [|discriminate]. cbn [bind].
    destruct (jvp_entry e s); [|discriminate]. destruct (jvp_entry e t); [|discriminate]. cbn [bind].
    destruct (jvp_loop out s) as [[v1 d1]|] eqn:E1; [|discriminate]. destruct (jvp_loop out t) as [[v2 d2]|] eqn:E2; [|discriminate].
    cbn [bind fst snd]. intros [= <- _] [= <- _]. rewrite (IH v1 v2 d1 d2 eq_refl eq_refl). reflexivity.
  Qed.
  Lemma jvp_values (a : args L) i s t v v' d d' : quadcoil_for_diff_jvp ns E a i s = Some (Ok (v, d)) ->
    quadcoil_for_diff_jvp ns E a i t = Some (Ok (v', d')) -> v = v'.
  Proof.
    unfold quadcoil_for_diff_jvp. destruct (quadcoil ns E (with_inputs a i false)) as [[o|]|]; cbn [option_map bind]; try discriminate.
    intros H1 H2. apply (loop_values (o_out E o) s t v v' d d'); congruence.
  Qed.

  Lemma weight_missing (a : args L) i t o w s m : quadcoil ns E (with_inputs a i false) = Some (Ok o) ->
    matching i t -> (qc_verbose a = false \/ exists d, o_results E o = Constrained E d) -> requested a m ->
    qc_objective_name a = NStr s -> di_weight i = WArr w -> sh w <> [] ->
    quadcoil_for_diff_jvp ns E a i t = Some (Raise KeyError).
  Proof.
    intros H Mt Hv Rm Hs Hw Nw. set (b := with_inputs a i false) in *.
    assert (Hi : has_inputs b i) by apply with_inputs_has.
    assert (V : qc_value_only b = false) by reflexivity.
    pose proof (gradient_keys ns E b o H V) as GK.
    destruct (quadcoil_ok ns E b o H) as (p & r & d & Hp & Hr & Hf & Hd & Eqp & Edofs & Eres).
    destruct (prepare_fields ns b p Hp) as (OW & GO & GC & _).
    destruct (finish_gradient ns E _ _ _ _ Hf V) as (out0 & Hg & E0).
    assert (Z : out0 = []).
    { rewrite E0. destruct Hv as [Hv|(d' & Hv)].
      - destruct r; [|reflexivity]. change (qc_verbose b) with (qc_verbose a). rewrite Hv. reflexivity.
      - rewrite Eres in Hv. rewrite Hv. reflexivity. }
    destruct (grad_metrics_ok ns E _ _ _ _ _ _ Hg) as [G1 _].
    unfold quadcoil_for_diff_jvp. fold b. rewrite H. cbn [option_map bind]. apply f_equal.
    assert (Hm : In m (metrics b)) by (apply requested_iff; exact Rm).
    destruct (G1 m Hm) as (v & _ & _ & El).
    destruct (o_out E o) as [|[k1 e1] out] eqn:Eo; [discriminate El|].
    destruct (grad_metrics_entries _ _ _ _ _ _ Hg k1 e1 (or_introl eq_refl)) as [K|(K & v1 & ->)]; [rewrite Z in K; destruct K|].
    destruct (G1 k1 K) as (v2 & _ & _ & El2).
    destruct (GK k1 (proj2 (requested_iff b k1) K)) as (e2 & g & El3 & Eg & Nd & Ks). rewrite El2 in El3. injection El3 as <-.
    assert (Eg' : e_grad (made_entry ns E b p r k1 v1) = Some g) by exact Eg.
    cbn [jvp_loop]. change (entry_value (made_entry ns E b p r k1 v1)) with (Ok v1). cbn [bind].
    rewrite (entry_weight_missing b i g _ Hi Eg' Nd Ks t w s Mt OW Hs Hw Nw). reflexivity.
  Qed.

  (** A loop that returns has gone through every entry. *)
  Lemma jvp_loop_returns t out : forall r, jvp_loop out t = Ok r -> forall k e, In (k, e) out -> exists v s, entry_value e = Ok v /\ jvp_entry e t = Ok s.
  Proof.
    induction out as [|[k1 e1] out IH]; intros r H k e I; [destruct I|]. cbn [jvp_loop] in H.
    destruct (entry_value e1) as [v|] eqn:Ev; [|discriminate H]. cbn [bind] in H.
    destruct (jvp_entry e1 t) as [s|] eqn:Es; [|discriminate H]. cbn [bind] in H.
    destruct (jvp_loop out t) as [r'|] eqn:El; [|discriminate H]. destruct I as [I|I]; [injection I as <- <-; eauto|]. apply (IH r' eq_refl k e I).
  Qed.
  (** Where the derivative exists for one tangent it exists for all, and is the
      gradient contracted with the tangent. *)
  Lemma jvp_returns (a : args L) i s o r : quadcoil ns E (with_inputs a i false) = Some (Ok o) ->
    matching i s -> (forall w, di_weight i = WArr w -> wf w) -> quadcoil_for_diff_jvp ns E a i s = Some (Ok r) ->
    (forall m, requested a m -> usable_weight (qc_objective_name a) (di_weight i)) /\
    forall t, matching i t -> exists vs ds, quadcoil_for_diff_jvp ns E a i t = Some (Ok (vs, ds)) /\
      forall m, (requested a m -> exists e g v, lookup m (o_out E o) = Some e /\ e_grad e = Some g /\ e_value e = Some v /\
                   lookup m vs = Some v /\ lookup m ds = Some (directional g t)) /\
                (~ requested a m -> lookup m vs = None /\ lookup m ds = None).
  Proof.
    intros H Ms Wf J. set (b := with_inputs a i false) in *.
    assert (Hi : has_inputs b i) by apply with_inputs_has.
    assert (V : qc_value_only b = false) by reflexivity.
    pose proof (gradient_keys ns E b o H V) as GK.
    destruct (quadcoil_ok ns E b o H) as (p & r0 & d & Hp & Hr & Hf & Hd & Eqp & Edofs & Eres).
    destruct (prepare_fields ns b p Hp) as (OW & GO & GC & _).
    destruct (finish_gradient ns E _ _ _ _ Hf V) as (out0 & Hg & E0).
    destruct (grad_metrics_ok ns E _ _ _ _ _ _ Hg) as [G1 G2].
    unfold quadcoil_for_diff_jvp in J. fold b in J. rewrite H in J. cbn [option_map bind] in J.
    destruct (jvp_loop (o_out E o) s) as [r'|] eqn:EJ; [|discriminate J].
    pose proof (jvp_loop_returns s _ _ EJ) as All.
    assert (Made : forall k e, In (k, e) (o_out E o) -> requested b k /\ exists v, e = made_entry ns E b p r0 k v).
    { intros k e I. destruct (grad_metrics_entries _ _ _ _ _ _ Hg k e I) as [K|(K & v & ->)].
      - exfalso. destruct (All k e I) as (v & s' & Ev & _). rewrite E0 in K. destruct r0; [|destruct K].
        destruct (qc_verbose b); [|destruct K]. destruct K as [K|[]]. injection K as <- <-. discriminate Ev.
      - split; [apply requested_iff; exact K|eauto]. }
    assert (UW : forall m, requested a m -> usable_weight (qc_objective_name a) (di_weight i)).
    { intros m Rm w Hw. split; [apply (Wf w Hw)|]. destruct (sh w) as [|n l] eqn:Sw; [left; reflexivity|right].
      destruct GO as [(s0 & Hs)|(n' & w' & us & Hn' & _)]; [|exists n'; exact Hn']. exfalso.
      assert (Rb : requested b m) by exact Rm. pose proof Rb as Rb'. apply requested_iff in Rb'. destruct (G1 m Rb') as (v & _ & _ & El).
      destruct (GK m Rb) as (e & g & El' & Eg & Nd & Ks). rewrite El in El'. injection El' as <-.
      destruct (All m _ (lookup_in_pair _ _ _ El)) as (v1 & s1 & _ & Es).
      rewrite (entry_weight_missing b i g _ Hi Eg Nd Ks s w s0 Ms OW Hs Hw) in Es; [discriminate Es|]. rewrite Sw. discriminate. }
    split; [exact UW|]. intros t Mt.
    assert (ENT : forall m, requested b m -> exists g, (forall v, e_grad (made_entry ns E b p r0 m v) = Some g /\
                jvp_entry (made_entry ns E b p r0 m v) t = Ok (directional g t))).
    { intros m Hm. pose proof (UW m Hm) as U. destruct (GK m Hm) as (e & g & El & Eg & Nd & Ks). exists g. intros v.
      apply requested_iff in Hm. destruct (G1 m Hm) as (v' & _ & _ & El'). rewrite El in El'. injection El' as ->.
      assert (Eg' : e_grad (made_entry ns E b p r0 m v) = Some g) by exact Eg. split; [exact Eg'|].
      apply (entry_ok b i g _ Hi Eg' Nd Ks t Mt U OW GO GC). }
    destruct (jvp_loop_ok t (o_out E o)) as (vs & ds & EL & Hm).
    { intros k e I. destruct (Made k e I) as (K & v & ->). destruct (ENT k K) as (g & Hg'). exists v, (directional g t). split; [reflexivity|apply Hg']. }
    exists vs, ds. split.
    { unfold quadcoil_for_diff_jvp. fold b. rewrite H. cbn [option_map bind]. rewrite EL. reflexivity. }
    intros m. specialize (Hm m). split.
    - intros Rm. assert (Rb : requested b m) by exact Rm. destruct (ENT m Rb) as (g & Hg').
      apply requested_iff in Rb. destruct (G1 m Rb) as (v & _ & _ & El). rewrite El in Hm.
      destruct Hm as (v' & s' & Ev & Es & L1 & L2). destruct (Hg' v) as (Eg & Ej).
      exists (made_entry ns E b p r0 m v), g, v. split; [exact El|]. split; [exact Eg|]. split; [reflexivity|].
      rewrite Ej in Es. injection Es as <-. injection Ev as <-. auto.
    - intros Nm. destruct (lookup m (o_out E o)) eqn:El; [|exact Hm]. exfalso.
      destruct (Made m _ (lookup_in_pair _ _ _ El)) as (K & _). exact (Nm K).
  Qed.

  Lemma matching_key (b : args L) i t k shp : has_inputs b i -> matching i t -> usable_weight (qc_objective_name b) (di_weight i) ->
    good_objective (qc_objective_name b) (qc_objective_weight b) (qc_objective_unit b) -> in_use b k shp ->
    exists x, tangent_for t (String.append "df_d" k) = Some x /\ sh x = shp.
  Proof.
    intros (I1 & I2 & I3 & I4 & I5 & I6 & I7 & I8) (M1 & M2 & M3 & M4 & M5 & M6 & M7 & M8) UW GO U.
    destruct U as [| | |b' Hb|names w Hn Hw|names vs Hn Nn Hvs|w Hd Hw|d Hd].
    - rewrite I1. exact M1.
    - exact M2.
    - exact M3.
    - rewrite <- I4, Hb in M4. exact M4.
    - rewrite <- I7, Hw in M7, UW. destruct (UW w eq_refl) as (W & _). red in W.
      destruct GO as [(s & Hs)|(n' & w' & us & Hn' & Hw' & Lw & _)]; [congruence|]. rewrite Hw in Hw'. injection Hw' as <-.
      destruct (sh w) as [|n [|n2 s]] eqn:Esh; [discriminate Lw| |discriminate Lw]. cbn in W. rewrite Nat.mul_1_r in W.
      rewrite W. exact M7.
    - rewrite <- I8, Hvs in M8. exact M8.
    - rewrite <- I6, Hw in M6. exact M6.
    - rewrite <- I5, Hd in M5. exact M5.
  Qed.
  Lemma combine_shape x y s a b : of_shape x s -> of_shape y s -> of_shape (combine_arr a b x y) s.
  Proof. intros (v & -> & Sv) (w & -> & Sw). unfold combine_arr. eexists. split; [reflexivity|exact Sv]. Qed.
  Lemma matching_combination i s t a b : matching i s -> matching i t -> matching i (combination a b s t).
  Proof.
    intros (M1 & M2 & M3 & M4 & M5 & M6 & M7 & M8) (N1 & N2 & N3 & N4 & N5 & N6 & N7 & N8). unfold matching, combination. cbn.
    repeat split; try (apply combine_shape; assumption).
    - destruct (di_Bnormal i); [apply combine_shape; assumption|]. rewrite M4. reflexivity.
    - destruct (di_distance i); [apply combine_shape; assumption|]. rewrite M5. reflexivity.
    - destruct (di_winding_dofs i); [apply combine_shape; assumption|]. rewrite M6. reflexivity.
    - destruct (di_weight i); try (apply combine_shape; assumption). rewrite M7. reflexivity.
    - destruct (di_value i); [apply combine_shape; assumption|]. rewrite M8. reflexivity.
  Qed.
  Lemma tangent_combination s t a b k : tangent_for (combination a b s t) k = combine_arr a b (tangent_for s k) (tangent_for t k).
  Proof.
    unfold tangent_for. cbn [lookup combination dt_plasma_dofs dt_G dt_I dt_Bnormal dt_distance dt_winding_dofs dt_weight dt_value].
    repeat (match goal with |- context [String.eqb k ?x] => destruct (String.eqb k x) end; [reflexivity|]). reflexivity.
  Qed.
  Lemma directional_linear (b : args L) i s t x y o m g e : quadcoil ns E b = Some (Ok o) -> qc_value_only b = false -> has_inputs b i ->
    matching i s -> matching i t -> usable_weight (qc_objective_name b) (di_weight i) ->
    requested b m -> lookup m (o_out E o) = Some e -> e_grad e = Some g ->
    directional g (combination x y s t) = x * directional g s + y * directional g t.
  Proof.
    intros H V Hi Ms Mt UW Rm El Eg. destruct (gradient_keys ns E b o H V m Rm) as (e' & g' & El' & Eg' & Nd & Ks).
    rewrite El in El'. injection El' as <-. rewrite Eg in Eg'. injection Eg' as <-.
    destruct (quadcoil_ok ns E b o H) as (p & r & d & Hp & _). destruct (prepare_fields ns b p Hp) as (OW & GO & GC & _).
    unfold directional. rewrite <- !Rsum_scal, <- Rsum_plus. apply Rsum_ext. intros [k v] I. cbn [fst snd].
    destruct (proj1 (Ks k (sh v))) as (k' & -> & U); [eauto|].
    destruct (matching_key b i s _ _ Hi Ms UW GO U) as (xs & E1 & S1).
    destruct (matching_key b i t _ _ Hi Mt UW GO U) as (xt & E2 & S2).
    rewrite tangent_combination, E1, E2. cbn [combine_arr]. apply pairing_combination; auto.
  Qed.

  (** The values of both functions. *)
  Lemma for_diff_ok (a : args L) i o : (forall b, di_Bnormal i = Some b -> wf b) ->
    quadcoil ns E (with_inputs a i false) = Some (Ok o) ->
    exists vs, quadcoil_for_diff ns E a i = Some (Ok vs) /\
      forall m, (requested a m -> m <> "f_obj" -> exists e v, lookup m (o_out E o) = Some e /\ e_value e = Some v /\ lookup m vs = Some v) /\
                (~ (requested a m /\ m <> "f_obj") -> lookup m vs = None).
  Proof.
    intros W H. set (b := with_inputs a i false) in *.
    destruct (value_only_same ns E b o) as (o' & H' & _ & _ & _ & Hm).
    { intros x Hx. apply W. exact Hx. }
    { exact H. }
    change (with_value_only b true) with (with_inputs a i true) in H'.
    pose proof (output_keys_value ns E _ o' H' eq_refl) as OK.
    destruct (quadcoil_ok ns E _ o' H') as (p & r & d & Hp & Hr & Hf & _).
    pose proof (finish_value ns E _ _ _ _ Hf eq_refl) as Hv.
    destruct (simple_values_ok (o_out E o')) as (vs & Ev & Hl).
    { intros k e I. destruct (value_metrics_entries _ _ _ _ _ Hv k e I) as [[]|K]; exact K. }
    exists vs. split.
    { unfold quadcoil_for_diff. rewrite H'. cbn [option_map bind]. rewrite Ev. reflexivity. }
    intros m. rewrite Hl. split.
    - intros Rm Nf. destruct (Hm m Rm Nf) as (v & e & e' & L1 & L2 & V1 & V2 & _). exists e, v. rewrite L2. auto.
    - intros N. destruct (lookup m (o_out E o')) eqn:El; [|reflexivity]. exfalso. apply N. apply (proj1 (OK m)). congruence.
  Qed.
End Whole.

(** ** DESC *)
Lemma units_from_ok unit_of names us : units_from unit_of names = Ok us <-> Forall2 (fun n u => unit_of n = Ok u) names us.
Proof.
  revert us. induction names as [|n names IH]; intros us; cbn [units_from].
  - split; [intros [= <-]; constructor|]. intros H. inversion H. reflexivity.
  - split.
    + destruct (unit_of n) as [u|] eqn:Eu; [|discriminate]. cbn [bind].
      destruct (units_from unit_of names) as [us'|]; [|discriminate]. cbn [bind]. intros [= <-]. constructor; auto. apply IH. reflexivity.
    + intros H. inversion H as [|? u ? us' Hu Hl]; subst. rewrite Hu. cbn [bind]. rewrite (proj2 (IH us') Hl). reflexivity.
Qed.
Lemma scaling_ok unit_of o c ou cu : generate_desc_scaling unit_of o c = Ok (ou, cu) <->
  (exists names us, c = NTuple names /\ cu = UsSeq (map UScalar us) /\ Forall2 (fun n u => unit_of n = Ok u) names us) /\
  ((exists n u, o = NStr n /\ ou = UsNum u /\ unit_of n = Ok u) \/
   (exists names us, o = NTuple names /\ ou = UsSeq (map UScalar us) /\ Forall2 (fun n u => unit_of n = Ok u) names us)).
Proof.
  unfold generate_desc_scaling. split.
  - intros H.
    assert (C : forall x, bind (match c with NTuple l => bind (units_from unit_of l) (fun us => Ok (UsSeq (map UScalar us))) | _ => Raise TypeError end)
        (fun c => Ok (x, c)) = Ok (ou, cu) -> ou = x /\ exists names us, c = NTuple names /\ cu = UsSeq (map UScalar us) /\ Forall2 (fun n u => unit_of n = Ok u) names us).
    { intros x K. destruct c as [s|l|]; try discriminate K. destruct (units_from unit_of l) as [us|] eqn:Eu; [|discriminate K].
      cbn [bind] in K. injection K as <- <-. apply units_from_ok in Eu. split; [reflexivity|]. exists l, us. auto. }
    destruct o as [s|l|]; try discriminate H.
    + destruct (unit_of s) as [u|] eqn:Eu; [|discriminate H]. cbn [bind] in H. apply C in H. destruct H as [-> H]. split; [exact H|].
      left. exists s, u. auto.
    + destruct (units_from unit_of l) as [us|] eqn:Eu; [|discriminate H]. cbn [bind] in H. apply C in H. destruct H as [-> H]. split; [exact H|].
      right. exists l, us. apply units_from_ok in Eu. auto.
  - intros ((names & us & -> & -> & F) & [(n & u & -> & -> & Hu)|(names' & us' & -> & -> & F')]).
    + rewrite Hu. cbn [bind]. apply units_from_ok in F. rewrite F. reflexivity.
    + apply units_from_ok in F. apply units_from_ok in F'. rewrite F'. cbn [bind]. rewrite F. reflexivity.
Qed.
Lemma resolve_missing names n : ~ In n names -> resolve names n = Raise NameError.
Proof.
  intros H. unfold resolve. destruct (mem n names) eqn:Em; [|reflexivity]. exfalso. apply H.
  unfold mem in Em. apply existsb_exists in Em. destruct Em as (x & I & Ex). apply String.eqb_eq in Ex. subst. exact I.
Qed.
Lemma resolve_found names n : In n names -> resolve names n = Ok tt.
Proof.
  intros H. unfold resolve. replace (mem n names) with true; [reflexivity|]. symmetry. unfold mem. apply existsb_exists.
  exists n. split; [exact H|apply String.eqb_refl].
Qed.
Lemma desc_missing n : n = "_DESC_DERIVED_ARGNAMES" \/ n = "warnings" \/ n = "quadpoints_phi" -> ~ In n desc_names.
Proof. intros [->|[->| ->]]; cbn; intuition discriminate. Qed.
