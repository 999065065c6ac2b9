(** Well-formed calls run to their end, for C121. *)
From Coq Require Import String List Bool Arith ZArith Reals Lra Lia Permutation.
From Verif Require Import Base ModelArray ProofArray ModelMath SpecMath ProofMath ModelSurface SpecSurface ModelParams ModelField SpecField
  ModelQuantity SpecQuantity ProofQuantity ProofSlack ModelWrapper SpecWrapper ProofWrapper ProofWrapper2 ModelShipped ModelPackage SpecPackage
  SpecConvex ProofPackage ProofPackage2 ProofPackage3 ProofPackage4 ProofConvex ModelSolver SpecSolver ProofSolver ModelQuadcoil SpecQuadcoil ProofQuadcoil ProofQuadcoil2
  SpecProblem ProofProblem ProofProblem2 ProofEnd ProofEnd2 SpecEnd ProofEnd3 SpecCert ProofCert PropConvex ProofEnd4 PropPackage.
Import ListNotations.
Open Scope R_scope.
Open Scope string_scope.
Open Scope list_scope.

Lemma asks_weights {L} (a : args L) os cs : asks a os cs ->
  good_objective (qc_objective_name a) (qc_objective_weight a) (qc_objective_unit a) /\
  good_constraints (qc_constraint_name a) (qc_constraint_type a) (qc_constraint_unit a) (qc_constraint_value a).
Proof.
  intros (Ao & N1 & N2 & N3 & N4). split.
  - destruct Ao as [(n & u & _ & On & _)|(On & Ow & Ou)]; [left; eauto|]. right. rewrite On, Ow, Ou. do 3 eexists. do 4 (split; [reflexivity|]). cbn [el].
    now rewrite !map_length.
  - rewrite N1, N2, N3, N4. do 4 eexists. do 4 (split; [reflexivity|]). now rewrite !map_length.
Qed.

Section Building.
  Context {L : Type}.
  Variables (other : list string) (a : args L) (q : params) (U : string -> R) (os : list objective) (cs : list user_constraint).
  Hypothesis Bq : builds a q.
  Hypothesis As : asks a os cs.
  Hypothesis Hs : qc_smoothing a = Some "slack".
  Hypothesis Hm : qc_merge a = false.
  Hypothesis O : ordered q.
  Hypothesis Sx : exists x, sound q x.
  Hypothesis Uo : forall o, In o os -> 0 <= ob_weight o /\ scaled_use U q (ob_name o) (ob_unit o).
  Hypothesis Uc : forall c, In c cs -> scaled_use U q (uc_name c) (uc_unit c).
  Hypothesis So : forall o, In o os -> supported (package other) (ob_name o) "f" (UScalar (ob_unit o)).
  Hypothesis Sc : forall c, In c cs -> supported (package other) (uc_name c) (op_string (uc_cmp c)) (UScalar (uc_unit c)).
  Hypothesis Hphi : forall x, qc_phi_init a = Some x -> length x = q_ndofs q.
  Hypothesis Hunit : qc_phi_unit a = None -> qc_distance a = None -> qc_plasma_dofs a <> [] /\ qc_winding_dofs a <> Some [].

  Lemma functions_ok : exists f po pc qd fn,
    default_quadpoints a = Ok qd /\ f_g_h_from_y (package other) a qd (y_dict a) = Ok fn /\
    parse_objectives q_ndofs (package other) (Objectives (map ob_name os) (map (fun o => UScalar (ob_unit o)) os)) (map ob_weight os) (Some "slack") (qc_smoothing_params a) = Ok (f, po) /\
    parse_constraints q_ndofs (package other) (map uc_name cs) (map (fun c => op_string (uc_cmp c)) cs) (map (fun c => UScalar (uc_unit c)) cs) (map uc_val cs) (Some "slack") (qc_smoothing_params a) = Ok pc /\
    fn_qp fn = q /\ fn_f fn = f /\
    fn_g fn = merge_callables (map Some (ModelWrapper.p_g po ++ ModelWrapper.p_g pc)) false (Some "slack") (qc_smoothing_params a) /\
    fn_h fn = merge_callables (map Some (ModelWrapper.p_h po ++ ModelWrapper.p_h pc)) false None [] /\
    fn_aux fn = dict_union (p_slack po) (p_slack pc).
  Proof using Bq As Hs Hm So Sc Uo Uc Hunit.
    destruct Bq as (Ow & qd & Eqd & Eq). destruct (asks_weights a os cs As) as (Go & Gc). destruct As as (Ao & N1 & N2 & N3 & N4).
    assert (Po : exists r, parse_objectives q_ndofs (package other) (Objectives (map ob_name os) (map (fun o => UScalar (ob_unit o)) os)) (map ob_weight os) (Some "slack") (qc_smoothing_params a) = Ok r).
    { apply parse_objectives_ok. rewrite !map_length. split; [reflexivity|]. split; [lia|]. split; [right; right; left; reflexivity|].
      intros n u I. clear - I So. revert I. induction os as [|o l IH]; cbn [map combine In]; [intros []|]. intros [E|I]; [injection E as <- <-; apply So; now left|].
      apply IH; [intros; apply So; now right|exact I]. }
    assert (Pc : exists r, parse_constraints q_ndofs (package other) (map uc_name cs) (map (fun c => op_string (uc_cmp c)) cs) (map (fun c => UScalar (uc_unit c)) cs) (map uc_val cs) (Some "slack") (qc_smoothing_params a) = Ok r).
    { apply parse_constraints_ok. rewrite !map_length. do 3 (split; [reflexivity|]). split; [right; right; left; reflexivity|].
      intros n t u I. clear - I Sc. revert I. induction cs as [|o l IH]; cbn [map combine In]; [intros []|]. intros [E|I].
      - injection E as <- <- <-. split; [apply Sc; now left|]. destruct (uc_cmp o); cbn; tauto.
      - apply IH; [intros; apply Sc; now right|exact I]. }
    destruct Po as ([f po] & Eo). destruct Pc as (pc & Ec). exists f, po, pc, qd.
    assert (Vals : (match lookup "constraint_value" (y_dict a) with Some v => el v | None => [] end) = map uc_val cs).
    { destruct cs as [|c0 cs'].
      - cbn [map]. destruct (lookup "constraint_value" (y_dict a)) as [v|] eqn:El; [|reflexivity].
        exfalso. assert (X : in_use a "constraint_value" (sh v)) by (apply (y_lookup a Ow Go Gc); eauto).
        inversion X as [| | | | |names vs X1 X2 X3| |]. rewrite N1 in X1. injection X1 as <-. cbn in X2. congruence.
      - unfold y_dict. rewrite N1, N4. cbn [names_of values_of map].
        destruct (qc_Bnormal a), (qc_distance a); repeat rewrite lookup_set; cbn [String.eqb Ascii.eqb Bool.eqb]; reflexivity. }
    unfold f_g_h_from_y. rewrite Eq. cbn [bind]. rewrite Vals, N1, N2, N3, Hs, Hm. cbn [names_of units_of].
    assert (Po : parse_objectives q_ndofs (package other) (objective_of a) (match lookup "objective_weight" (y_dict a) with Some w => el w | None => [1] end) (Some "slack") (qc_smoothing_params a) = Ok (f, po)).
    { rewrite <- Eo. unfold objective_of. destruct Ao as [(n & u & -> & On & Ou)|(On & Ow' & Ou)].
      - rewrite On, Ou. reflexivity.
      - rewrite On, Ou. cbn [names_of units_of].
        assert (Wt : (match lookup "objective_weight" (y_dict a) with Some w => el w | None => [1] end) = map ob_weight os).
        { unfold y_dict. rewrite On, Ow', N1, N4. cbn [names_of values_of weights_of].
          destruct cs, (qc_Bnormal a), (qc_distance a); cbn [map]; repeat rewrite lookup_set; cbn [String.eqb Ascii.eqb Bool.eqb]; reflexivity. }
        now rewrite Wt. }
    rewrite Po, Ec. cbn [bind]. eexists. split; [exact Eqd|]. split; [reflexivity|]. repeat (split; [first [reflexivity|assumption]|]). reflexivity.
  Qed.

  Lemma unit_ok phi : length phi = q_ndofs q -> exists u, phi_unit_of a q phi = Ok u.
  Proof using Bq Sx Hunit.
    intros Lp. destruct Sx as (x0 & S0). pose proof (sound_all q x0 S0 phi Lp) as S. unfold phi_unit_of. destruct (qc_phi_unit a) as [u|] eqn:Eu; [eauto|].
    destruct (value_sound [] q phi S "Bnormal" PlasmaField) as (Q & v & G & V & _); [cbn; tauto|cbn; intuition discriminate|discriminate|].
    assert (EB : exists b, Bnormal q phi = Ok b).
    { cbn in G. injection G as <-. change (bind (Bnormal q phi) (fun v => Ok (of_grid v)) = Ok v) in V. destruct (Bnormal q phi); [eauto|discriminate V]. }
    destruct EB as (b & ->). cbn [bind]. destruct (qc_distance a) as [d|] eqn:Ed; [eauto|]. destruct (Hunit eq_refl eq_refl) as (H1 & H2).
    assert (Gc : forall (l : list R) i, l <> [] -> exists v, getclamp l i = Ok v).
    { intros l i H. unfold getclamp. destruct l; [contradiction|eauto]. }
    destruct (Gc (qc_plasma_dofs a) (qc_plasma_ntor a * 2 + 1)%nat H1) as (pm & ->). cbn [bind].
    destruct Bq as ([(_ & w & Ew)|(_ & d & Ed')] & _); [|congruence]. rewrite Ew in *.
    destruct (Gc w (qc_winding_ntor a * 2 + 1)%nat) as (wm & ->); [congruence|]. cbn [bind]. eauto.
  Qed.

  Lemma prepare_ok : exists p, prepare (package other) a = Ok p /\ fn_qp (pr_fn p) = q.
  Proof using Bq As Hs Hm O Sx Uo Uc So Sc Hphi Hunit.
    destruct functions_ok as (f & po & pc & qd & fn & Eqd & Efn & Eo & Ec & Fq & Ff & Fg & Fh & Fa).
    assert (Sa : forall x, length x = q_ndofs q -> sound q x) by (intros x Lx; destruct Sx as (x0 & S0); exact (sound_all q x0 S0 x Lx)).
    set (phi := match qc_phi_init a with Some x => x | None => repeat 0 (q_ndofs q) end).
    assert (Lphi : length phi = q_ndofs q) by (unfold phi; destruct (qc_phi_init a) as [v|] eqn:Ev; [now apply Hphi|apply repeat_length]).
    destruct (unit_ok phi Lphi) as (u & Eu).
    assert (Ex : exists x0, x_dict (fn_aux fn) q phi u = Ok x0).
    { rewrite Fa. pose proof (aux_nodup other q U os cs (qc_smoothing_params a) f po pc O Uo Uc Eo Ec Sa) as Nd.
      unfold x_dict. generalize [("phi_scaled", vec_arr (map (fun p => p / u) phi))].
      assert (H : forall kv, In kv (dict_union (p_slack po) (p_slack pc)) -> exists i, snd kv q [("phi", vec_arr phi)] = Ok i).
      { intros [k init] I. apply lookup_in in I; [|exact Nd]. cbn [snd].
        destruct (slack_key other q U os cs (qc_smoothing_params a) f po pc O Uo Uc Eo Ec Sa k init I) as (_ & _ & s & H). destruct (H phi Lphi) as (i & Ei & _). eauto. }
      clear - H. induction (dict_union (p_slack po) (p_slack pc)) as [|[k init] l IH]; intros x; [cbn; eauto|]. cbn [add_aux].
      destruct (H (k, init) (or_introl eq_refl)) as (i & Ei). cbn [snd] in Ei. rewrite Ei. cbn [bind]. apply IH. intros; apply H. now right. }
    destruct Ex as (x0 & Ex). rewrite Fa in Ex.
    destruct (x0_facts other q U os cs (qc_smoothing_params a) f po pc O Uo Uc Eo Ec Sa phi u x0 Lphi Ex) as (N0 & _ & _ & W0).
    assert (Ltot : length (ravel x0) = total (structure x0)).
    { apply ravel_length. intros [k v] I. cbn. apply lookup_in in I; [|exact N0]. exact (proj1 (W0 k v I)). }
    destruct (unpack other q U os cs (qc_smoothing_params a) f po pc O Uo Uc Eo Ec Sa phi u x0 Lphi Ex (ravel x0) Ltot) as (d & x & Ed & Lx & St).
    pose proof (conj (Sa x Lx) St : ProofEnd2.state q po pc x d) as Sd.
    pose proof (all_steady other q U os cs (qc_smoothing_params a) f po pc O Uo Uc Eo Ec Sx) as Ast.
    destruct (merged_steady q po pc (ModelWrapper.p_g po ++ ModelWrapper.p_g pc) (Some "slack") (qc_smoothing_params a)) as (ng & Hg); [auto|].
    destruct (merged_steady q po pc (ModelWrapper.p_h po ++ ModelWrapper.p_h pc) None []) as (nh & Hh); [auto|].
    destruct (Hg x d Sd) as (og & Eg & _). destruct (Hh x d Sd) as (oh & Eh & _).
    destruct (objective_value other q U os cs (qc_smoothing_params a) f po pc O Uo Uc Eo Ec Sx x d Sd) as (y & Ey).
    unfold prepare. rewrite Eqd. cbn [bind]. destruct Bq as (Ow & _). rewrite (proj2 (one_surface_iff a) Ow). cbn [bind].
    rewrite (proj2 (input_checking_iff _ _ _ _ _ _ _) (asks_weights a os cs As)). cbn [bind]. rewrite Efn. cbn [bind]. rewrite Fq. fold phi. rewrite Eu. cbn [bind].
    rewrite Fa, Ex. cbn [bind]. unfold g_scaled, h_scaled, f_scaled. cbn [pr_structure pr_unit pr_fn]. rewrite Ed. cbn [bind]. rewrite Fq, Fg, Fh, Ff, Eg, Eh. cbn [bind].
    rewrite Ey. cbn [bind isscalar]. eexists. split; [reflexivity|]. exact Fq.
  Qed.
End Building.
