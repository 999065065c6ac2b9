(** The problem a call of quadcoil hands to its solver, for C120. *)
From Coq Require Import String List Bool Arith ZArith Reals Lra Lia Permutation.
From Verif Require Import Base ModelArray ProofArray ModelMath SpecMath ProofMath ModelSurface SpecSurface ModelParams ModelField SpecField
  ModelQuantity SpecQuantity ProofQuantity ProofSlack ModelWrapper SpecWrapper ProofWrapper ProofWrapper2 ModelShipped ModelPackage SpecPackage
  SpecConvex ProofPackage ProofPackage2 ProofPackage3 ProofPackage4 ProofConvex ModelSolver SpecSolver ProofSolver ModelQuadcoil SpecQuadcoil ProofQuadcoil ProofQuadcoil2
  SpecProblem ProofProblem ProofProblem2 ProofEnd ProofEnd2 SpecEnd ProofEnd3 SpecCert ProofCert PropConvex.
Import ListNotations.
Open Scope R_scope.
Open Scope string_scope.
Open Scope list_scope.

Section Handed.
  Context {L : Type}.
  Variables (ns : namespace params) (a : args L) (p : prepared) (os : list objective) (cs : list user_constraint).
  Hypothesis Hp : prepare ns a = Ok p.
  Hypothesis As : asks a os cs.
  Hypothesis Hs : qc_smoothing a = Some "slack".
  Hypothesis Hm : qc_merge a = false.

  Lemma handed_problem : exists f po pc,
    parse_objectives q_ndofs ns (Objectives (map ob_name os) (map (fun o => UScalar (ob_unit o)) os)) (map ob_weight os) (Some "slack") (qc_smoothing_params a) = Ok (f, po) /\
    parse_constraints q_ndofs ns (map uc_name cs) (map (fun c => op_string (uc_cmp c)) cs) (map (fun c => UScalar (uc_unit c)) cs) (map uc_val cs) (Some "slack") (qc_smoothing_params a) = Ok pc /\
    fn_f (pr_fn p) = f /\
    fn_g (pr_fn p) = merge_callables (map Some (ModelWrapper.p_g po ++ ModelWrapper.p_g pc)) false (Some "slack") (qc_smoothing_params a) /\
    fn_h (pr_fn p) = merge_callables (map Some (ModelWrapper.p_h po ++ ModelWrapper.p_h pc)) false None [] /\
    fn_ng (pr_fn p) = length (ModelWrapper.p_g po ++ ModelWrapper.p_g pc) /\ fn_nh (pr_fn p) = length (ModelWrapper.p_h po ++ ModelWrapper.p_h pc) /\
    fn_aux (pr_fn p) = dict_union (p_slack po) (p_slack pc).
  Proof using Hp As Hs Hm.
    destruct (prepare_fields ns a p Hp) as (Ow & Go & Gc & Ey & Ef & _). destruct As as (Ao & N1 & N2 & N3 & N4).
    unfold f_g_h_from_y in Ef. destruct (y_to_qp a (pr_qd p) (y_dict a)) as [qp|]; [|discriminate]. cbn [bind] in Ef.
    destruct (parse_objectives _ _ _ _ _ _) as [[f po]|] eqn:Epo; [|discriminate]. cbn [bind] in Ef.
    destruct (parse_constraints _ _ _ _ _ _ _ _) as [pc|] eqn:Epc; [|discriminate]. cbn [bind] in Ef.
    assert (Vals : (match lookup "constraint_value" (y_dict a) with Some v => el v | None => [] end) = map uc_val cs).
    { destruct cs as [|c0 cs'].
      - cbn [map]. destruct (lookup "constraint_value" (y_dict a)) as [v|] eqn:El; [|reflexivity].
        exfalso. assert (U : in_use a "constraint_value" (sh v)) by (apply (y_lookup a Ow Go Gc); eauto).
        inversion U as [| | | | |names vs X1 X2 X3| |]. rewrite N1 in X1. injection X1 as <-. cbn in X2. congruence.
      - unfold y_dict. rewrite N1, N4. cbn [names_of values_of map].
        destruct (qc_Bnormal a), (qc_distance a); repeat rewrite lookup_set; cbn [String.eqb Ascii.eqb Bool.eqb]; reflexivity. }
    rewrite Vals in Epc. clear Vals. rewrite N1, N2, N3, Hs in Epc. cbn [names_of units_of] in Epc.
    exists f, po, pc. rewrite Hs, Hm in Ef. split; [|split; [exact Epc|]].
    2: { injection Ef as <-. repeat split. }
    rewrite <- Epo, Hs. unfold objective_of. destruct Ao as [(n & u & -> & On & Ou)|(On & Ow' & Ou)].
    - rewrite On, Ou. reflexivity.
    - rewrite On, Ou. cbn [names_of units_of].
      assert (Wt : (match lookup "objective_weight" (y_dict a) with Some w => el w | None => [1] end) = map ob_weight os).
      { unfold y_dict. rewrite On, Ow', N1, N4. cbn [names_of values_of weights_of].
        destruct cs, (qc_Bnormal a), (qc_distance a); cbn [map]; repeat rewrite lookup_set; cbn [String.eqb Ascii.eqb Bool.eqb]; reflexivity. }
      now rewrite Wt.
  Qed.

  Lemma prepare_multipliers : exists g0 h0, g_scaled p (pr_x0 p) = Ok g0 /\ h_scaled p (pr_x0 p) = Ok h0 /\
    pr_mu0 p = map (fun _ => 0) (el g0) /\ pr_lam0 p = map (fun _ => 0) (el h0).
  Proof using Hp.
    revert Hp. unfold prepare. destruct (default_quadpoints a) as [qd|]; [|discriminate]. cbn [bind].
    destruct (one_surface a) as [[]|]; [|discriminate]. cbn [bind].
    destruct (input_checking _ _ _ _ _ _ _) as [[]|]; [|discriminate]. cbn [bind].
    destruct (f_g_h_from_y ns a qd (y_dict a)) as [fn|]; [|discriminate]. cbn [bind].
    set (phi := match qc_phi_init a with Some x => x | None => _ end).
    destruct (phi_unit_of a (fn_qp fn) phi) as [u|]; [|discriminate]. cbn [bind].
    destruct (x_dict (fn_aux fn) (fn_qp fn) phi u) as [x|]; [|discriminate]. cbn [bind].
    match goal with |- bind ?A _ = _ -> _ => destruct A as [g0|] eqn:Eg; [|discriminate] end. cbn [bind].
    match goal with |- bind ?A _ = _ -> _ => destruct A as [h0|] eqn:Eh; [|discriminate] end. cbn [bind].
    match goal with |- bind ?A _ = _ -> _ => destruct A as [f0|]; [|discriminate] end. cbn [bind].
    destruct (isscalar f0); [|discriminate]. intros [= <-]. exists g0, h0. cbn. auto.
  Qed.
End Handed.

Section Call.
  Variables (other : list string) (E : library) (a : args (x_solver E)) (p : prepared) (U : string -> R) (os : list objective) (cs : list user_constraint).
  Notation q := (fn_qp (pr_fn p)).
  Notation P := (solver_problem E a p).
  Hypothesis Hp : prepare (package other) a = Ok p.
  Hypothesis As : asks a os cs.
  Hypothesis Hs : qc_smoothing a = Some "slack".
  Hypothesis Hm : qc_merge a = false.
  Hypothesis O : ordered q.
  Hypothesis Sx : exists x, sound q x.
  Hypothesis Uo : forall o, In o os -> 0 <= ob_weight o /\ scaled_use U q (ob_name o) (ob_unit o).
  Hypothesis Uc : forall c, In c cs -> scaled_use U q (uc_name c) (uc_unit c).
  Hypothesis Hu : pr_unit p <> 0.
  Hypothesis Hphi : forall x, qc_phi_init a = Some x -> length x = q_ndofs q.

  Lemma all_sound x : length x = q_ndofs q -> sound q x.
  Proof using Sx. destruct Sx as (x0 & S). exact (sound_all _ x0 S x). Qed.

  (** What a flat vector stands for. *)
  Definition stands_for (z : list R) (d : ModelArray.dict arr) (x : list R) : Prop :=
    unscale (pr_structure p) (pr_unit p) z = Ok d /\ length x = q_ndofs q /\ lookup "phi" d = Some (vec x).

  Lemma problem_facts : exists ng nh,
    (forall z, length z = length (pr_x0 p) -> length (list_of (g_scaled p z)) = ng /\ length (list_of (h_scaled p z)) = nh /\
       (exists y, f_scaled p z = Ok (scal y)) /\ exists d x, stands_for z d x /\
       (admissible P z -> SpecConvex.feasible other q (asked_bounds cs) x /\ exists r, weighted other q (asked_terms os) x r /\ r <= p_f _ P z)) /\
    (forall x r, length x = q_ndofs q -> SpecConvex.feasible other q (asked_bounds cs) x -> weighted other q (asked_terms os) x r ->
       exists z, length z = length (pr_x0 p) /\ admissible P z /\ p_f _ P z = r) /\
    length (pr_mu0 p) = ng /\ length (pr_lam0 p) = nh /\ (unconstrained (pr_fn p) = true -> forall z, admissible P z).
  Proof using Hp As Hs Hm O Sx Uo Uc Hu Hphi.
    destruct (handed_problem (package other) a p os cs Hp As Hs Hm) as (f & po & pc & Eo & Ec & Ff & Fg & Fh & Ng & Nh & Fa).
    destruct (prepare_fields (package other) a p Hp) as (_ & _ & _ & _ & _ & _ & phi & x0 & Ephi & _ & Ex & Ex0 & Est).
    rewrite Fa in Ex. pose proof all_sound as Sa.
    assert (Lphi : length phi = q_ndofs q).
    { rewrite Ephi. destruct (qc_phi_init a) as [v|] eqn:Ev; [now apply Hphi|apply repeat_length]. }
    destruct (x0_facts other q U os cs (qc_smoothing_params a) f po pc O Uo Uc Eo Ec Sa phi (pr_unit p) x0 Lphi Ex) as (N0 & _ & _ & W0).
    assert (Ltot : length (pr_x0 p) = total (structure x0)).
    { rewrite Ex0. apply ravel_length. intros [k v] I. cbn. apply lookup_in in I; [|exact N0]. exact (proj1 (W0 k v I)). }
    pose proof (all_steady other q U os cs (qc_smoothing_params a) f po pc O Uo Uc Eo Ec Sx) as Ast.
    destruct (merged_steady q po pc (ModelWrapper.p_g po ++ ModelWrapper.p_g pc) (Some "slack") (qc_smoothing_params a)) as (ng & Hg); [auto|].
    destruct (merged_steady q po pc (ModelWrapper.p_h po ++ ModelWrapper.p_h pc) None []) as (nh & Hh); [auto|].
    assert (Unp : forall z, length z = length (pr_x0 p) -> exists d x, unscale (pr_structure p) (pr_unit p) z = Ok d /\ length x = q_ndofs q /\ solver_state po pc q (vec x) d).
    { intros z Lz. rewrite Est. apply (unpack other q U os cs (qc_smoothing_params a) f po pc O Uo Uc Eo Ec Sa phi (pr_unit p) x0 Lphi Ex). congruence. }
    assert (Adm : forall z d x, unscale (pr_structure p) (pr_unit p) z = Ok d -> length x = q_ndofs q -> solver_state po pc q (vec x) d ->
      (admissible P z <-> system_holds po q d /\ system_holds pc q d)).
    { intros z d x Ed Lx St. pose proof (conj (Sa x Lx) St : state q po pc x d) as Sd. unfold admissible. cbn [solver_problem ModelSolver.p_g ModelSolver.p_h].
      assert (Ev : forall g, In g (ModelWrapper.p_g po ++ ModelWrapper.p_g pc) \/ In g (ModelWrapper.p_h po ++ ModelWrapper.p_h pc) -> exists o, g q d = Ok o).
      { intros g I. destruct (Ast g I) as (Lg & HL). destruct (HL x d Sd) as (o & Eo' & _). eauto. }
      destruct (merge_plain _ (map Some (ModelWrapper.p_g po ++ ModelWrapper.p_g pc)) (Some "slack") (qc_smoothing_params a) q d) as (og & Eg & Mg & _).
      { intros g I. apply in_map_iff in I as (g1 & [= <-] & I). auto. }
      destruct (merge_plain _ (map Some (ModelWrapper.p_h po ++ ModelWrapper.p_h pc)) None [] q d) as (oh & Eh & _ & Mh).
      { intros g I. apply in_map_iff in I as (g1 & [= <-] & I). auto. }
      unfold g_scaled, h_scaled. rewrite Ed. cbn [bind]. rewrite Fg, Fh, Eg, Eh. cbn [list_of]. rewrite !List.Forall_forall.
      change ((all_le0 og /\ all_eq0 oh) <-> system_holds po q d /\ system_holds pc q d). rewrite Mg, Mh. clear Mg Mh Eg Eh. split.
      - intros (A & B).
        assert (KG : forall g, In g (ModelWrapper.p_g po ++ ModelWrapper.p_g pc) -> exists o, g q d = Ok o /\ all_le0 o).
        { intros g I. destruct (Ev g (or_introl I)) as (o & Eo'). exists o. split; [exact Eo'|]. apply (A g); [now apply in_map|exact Eo']. }
        assert (KH : forall g, In g (ModelWrapper.p_h po ++ ModelWrapper.p_h pc) -> exists o, g q d = Ok o /\ all_eq0 o).
        { intros g I. destruct (Ev g (or_intror I)) as (o & Eo'). exists o. split; [exact Eo'|]. apply (B g); [now apply in_map|exact Eo']. }
        repeat split; intros g I; [apply KG|apply KH|apply KG|apply KH]; apply in_app_iff; auto.
      - intros ((A1 & A2) & (B1 & B2)). split; intros g o I Eg; apply in_map_iff in I as (g1 & [= <-] & I); apply in_app_iff in I as [I|I].
        + destruct (A1 _ I) as (o' & E' & H). assert (o' = o) by congruence. now subst o'.
        + destruct (B1 _ I) as (o' & E' & H). assert (o' = o) by congruence. now subst o'.
        + destruct (A2 _ I) as (o' & E' & H). assert (o' = o) by congruence. now subst o'.
        + destruct (B2 _ I) as (o' & E' & H). assert (o' = o) by congruence. now subst o'. }
    assert (Val : forall z d x, unscale (pr_structure p) (pr_unit p) z = Ok d -> length x = q_ndofs q -> solver_state po pc q (vec x) d ->
      exists y, f q d = Ok (scal y) /\ f_scaled p z = Ok (scal y)).
    { intros z d x Ed Lx St. destruct (objective_value other q U os cs (qc_smoothing_params a) f po pc O Uo Uc Eo Ec Sx x d (conj (Sa x Lx) St)) as (y & Ey).
      exists y. split; [exact Ey|]. unfold f_scaled. rewrite Ed. cbn [bind]. rewrite Ff. exact Ey. }
    assert (Len : forall z, length z = length (pr_x0 p) -> length (list_of (g_scaled p z)) = ng /\ length (list_of (h_scaled p z)) = nh).
    { intros z Lz. destruct (Unp z Lz) as (d & x & Ed & Lx & St). pose proof (conj (Sa x Lx) St : state q po pc x d) as Sd.
      destruct (Hg x d Sd) as (og & Eg & Lg). destruct (Hh x d Sd) as (oh & Eh & Lh). unfold g_scaled, h_scaled. rewrite Ed. cbn [bind]. rewrite Fg, Fh, Eg, Eh. split; assumption. }
    exists ng, nh. split; [|split; [|split; [|split]]].
    - intros z Lz. destruct (Len z Lz) as (L1 & L2). split; [exact L1|]. split; [exact L2|]. destruct (Unp z Lz) as (d & x & Ed & Lx & St).
      destruct (Val z d x Ed Lx St) as (y & Ey & Fy). split; [eauto|]. exists d, x. split; [exact (conj Ed (conj Lx (proj1 St)))|]. intros A.
      apply (Adm z d x Ed Lx St) in A as (A1 & A2).
      assert (Pf : p_f _ P z = y) by (cbn [solver_problem ModelSolver.p_f]; rewrite Fy; reflexivity). rewrite Pf.
      exact (to_user other q U os cs (qc_smoothing_params a) f po pc O Uo Uc Eo Ec x (Sa x Lx) d y (conj St (conj A1 (conj A2 Ey)))).
    - intros x r Lx Fx Wx. destruct (from_user_ext other q U os cs (qc_smoothing_params a) f po pc O Uo Uc Eo Ec x (Sa x Lx) r Fx Wx) as (D & _ & HD).
      destruct (HD D) as (St & _); [auto|].
      destruct (repack other q U os cs (qc_smoothing_params a) f po pc O Uo Uc Eo Ec Sa phi (pr_unit p) x0 Lphi Ex Hu x D Lx St) as (z & d & Lz & Ed & Hd).
      rewrite <- Est in Ed. destruct (HD d Hd) as (St' & S1 & S2 & Ey). exists z. split; [congruence|]. split; [apply (Adm z d x Ed Lx St'); auto|].
      destruct (Val z d x Ed Lx St') as (y & Ey' & Fy). cbn [solver_problem ModelSolver.p_f]. rewrite Fy. cbn. rewrite Ey in Ey'. now injection Ey'.
    - destruct (prepare_multipliers (package other) a p Hp) as (g0 & h0 & Eg & Eh & -> & _). rewrite map_length. destruct (Len (pr_x0 p) eq_refl) as (L1 & _). rewrite Eg in L1. exact L1.
    - destruct (prepare_multipliers (package other) a p Hp) as (g0 & h0 & Eg & Eh & _ & ->). rewrite map_length. destruct (Len (pr_x0 p) eq_refl) as (_ & L1). rewrite Eh in L1. exact L1.
    - unfold unconstrained. rewrite Ng, Nh. intros H z. apply andb_true_iff in H as (H1 & H2). apply Nat.eqb_eq, length_zero_iff_nil in H1, H2.
      unfold admissible. cbn [solver_problem ModelSolver.p_g ModelSolver.p_h]. unfold g_scaled, h_scaled.
      destruct (unscale (pr_structure p) (pr_unit p) z) as [d|e]; cbn [bind list_of]; [|split; constructor].
      rewrite Fg, Fh, H1, H2. split; constructor.
  Qed.
End Call.
