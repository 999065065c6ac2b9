(** The rows of a call whose only constraint bounds the largest current density. *)
From Coq Require Import String List Bool Arith ZArith Reals Lra Lia Permutation.
From Verif Require Import Base ModelArray ProofArray ModelMath SpecMath ProofMath ModelSurface SpecSurface ModelParams ModelField SpecField
  ModelQuantity SpecQuantity ProofQuantity ProofSlack ModelWrapper SpecWrapper ProofWrapper ProofWrapper2 ModelShipped ModelPackage SpecPackage
  SpecConvex ProofPackage ProofPackage2 ProofPackage3 ProofPackage4 ProofConvex ModelSolver SpecSolver ProofSolver ModelQuadcoil SpecQuadcoil ProofQuadcoil ProofQuadcoil2
  SpecProblem ProofProblem ProofProblem2 ProofEnd ProofEnd2 SpecEnd ProofEnd3 ProofEnd4 SpecCert ProofCert PropConvex SpecBest SpecCertify ProofCertify ProofCertify2 ProofCertify3 ProofCertify4.
Import ListNotations.
Open Scope R_scope.
Open Scope string_scope.
Open Scope list_scope.

Lemma unscale_comb S u z1 z2 t d e k key a b c : length z1 = length z2 ->
  unscale S u z1 = Ok d -> unscale S u z2 = Ok e -> unscale S u (lincomb t (1 - t) z1 z2) = Ok k ->
  lookup key d = Some a -> lookup key e = Some b -> lookup key k = Some c -> el c = lincomb t (1 - t) (el a) (el b).
Proof.
  intros L Ed Ee Ek. rewrite (unscale_lookup _ _ _ _ Ed), (unscale_lookup _ _ _ _ Ee), (unscale_lookup _ _ _ _ Ek).
  destruct (String.eqb key "phi_scaled"); [discriminate|]. destruct (String.eqb key "phi").
  - destruct (lookup "phi_scaled" (unravel S z1)) as [c1|] eqn:E1; [|discriminate]. destruct (lookup "phi_scaled" (unravel S z2)) as [c2|] eqn:E2; [|discriminate].
    destruct (lookup "phi_scaled" (unravel S (lincomb t (1 - t) z1 z2))) as [c3|] eqn:E3; [|discriminate].
    cbn [option_map]. intros [= <-] [= <-] [= <-]. unfold amap. cbn [el]. rewrite lincomb_map. f_equal. exact (unravel_comb t (1 - t) _ z1 z2 _ _ _ _ L E1 E2 E3).
  - intros A B C. exact (unravel_comb t (1 - t) _ z1 z2 _ _ _ _ L A B C).
Qed.

Section Bound.
  Variables (other : list string) (E : library) (a : args (x_solver E)) (p : prepared) (U : string -> R) (os : list objective) (un b : R).
  Notation q := (fn_qp (pr_fn p)).
  Notation P := (solver_problem E a p).
  Notation cs := [UC "f_max_K2" LE un b].
  Hypothesis Hp : prepare (package other) a = Ok p.
  Hypothesis As : asks a os cs.
  Hypothesis Hs : qc_smoothing a = Some "slack".
  Hypothesis Hm : qc_merge a = false.
  Hypothesis O : ordered q.
  Hypothesis Sx : exists x, sound q x.
  Hypothesis Uo : forall o, In o os -> 0 <= ob_weight o /\ scaled_use U q (ob_name o) (ob_unit o).
  Hypothesis Uc : forall c, In c cs -> scaled_use U q (uc_name c) (uc_unit c).
  Hypothesis Hu : pr_unit p <> 0.
  Hypothesis Hphi : forall x, qc_phi_init a = Some x -> length x = q_ndofs q.
  Hypothesis Dir : forall o, In o os -> In (ob_name o) direct_quantities.

  Lemma bound_rows z : length z = length (pr_x0 p) ->
    exists dz y v s, unscale (pr_structure p) (pr_unit p) z = Ok dz /\ lookup "phi" dz = Some (vec y) /\ length y = q_ndofs q /\ reads other "K2" q y v /\
      lookup "scaled_max_K2_f_max_K2" dz = Some (scal s) /\
      p_g _ P z = map (fun k => k / Rabs un - s) (el v) ++ map (fun k => - k / Rabs un - s) (el v) ++ [s - b / Rabs un] /\
      (z = pr_x0 p -> y = match qc_phi_init a with Some x => x | None => repeat 0 (q_ndofs q) end /\ exists m, is_max m (map Rabs (el v)) /\ s = m / Rabs un).
  Proof using Hp As Hs Hm O Sx Uo Uc Hu Hphi Dir.
    intros Lz.
    destruct (handed_problem (package other) a p os cs Hp As Hs Hm) as (f & po & pc & Eo & Ec & Ff & Fg & Fh & Ng & Nh & Fa).
    destruct (prepare_fields (package other) a p Hp) as (_ & _ & _ & _ & _ & _ & phi & x0 & Ephi & _ & Ex & Ex0 & Est).
    rewrite Fa in Ex. pose proof (all_sound p Sx) as Sa.
    assert (Lphi : length phi = q_ndofs q).
    { rewrite Ephi. destruct (qc_phi_init a) as [v|] eqn:Ev; [now apply Hphi|apply repeat_length]. }
    destruct (x0_facts other q U os cs (qc_smoothing_params a) f po pc O Uo Uc Eo Ec Sa phi (pr_unit p) x0 Lphi Ex) as (N0 & Ps0 & B0 & W0).
    assert (Ltot : length (pr_x0 p) = total (structure x0)).
    { rewrite Ex0. apply ravel_length. intros [k v] I. cbn. apply lookup_in in I; [|exact N0]. exact (proj1 (W0 k v I)). }
    destruct (unpack other q U os cs (qc_smoothing_params a) f po pc O Uo Uc Eo Ec Sa phi (pr_unit p) x0 Lphi Ex z ltac:(congruence)) as (d & y & Ed & Ly & Sd).
    rewrite <- Est in Ed. pose proof (conj (Sa y Ly) Sd : state q po pc y d) as TD.
    assert (Un : used os cs "f_max_K2" un) by (right; eexists; split; [now left|split; reflexivity]).
    destruct (scaled_used q U os cs Uo Uc _ un Un) as (Nz & _). pose proof (Rabs_pos_lt un Nz) as Pu.
    (* the objective contributes no rows *)
    destruct (objective_parts params q_ndofs (package other) os (qc_smoothing_params a) f po Eo) as (lo & Fo & _ & Gg & _ & Gs).
    assert (Go : ModelWrapper.p_g po = [] /\ p_slack po = []).
    { rewrite Gg, Gs. clear Gg Gs Ng Nh Fa Fg Fh Eo Sd TD Ex N0 W0. assert (H : forall o0 a0, In (o0, a0) (combine os lo) -> ad_g a0 = [] /\ ad_slack a0 = []).
      { intros o0 a0 I. pose proof (F2_combine _ _ _ _ _ Fo I) as A. assert (Io : In o0 os) by (eapply in_combine_l; exact I).
        destruct (Uo o0 Io) as (_ & Nzo & Su). assert (St : ob_name o0 = "K_theta" -> q_stellsym q = true).
        { destruct Su as [(I1 & _)|(_ & St)]; [|exact St]. intros En. exfalso. rewrite En in I1. clear - I1. cbn in I1. intuition discriminate. }
        destruct (direct_use other q y (Sa y Ly) _ (Dir o0 Io) St) as (Q & v & Ep & Ev & D).
        destruct (use_direct _ _ _ _ _ _ _ _ _ _ _ _ A Ep D Nzo) as (X1 & _ & X2 & _). auto. }
      clear - Fo H. revert H. induction Fo as [|o0 a0 os' lo' A F IH]; intros H; [split; reflexivity|]. cbn [map concat fold_left].
      destruct (H o0 a0 (or_introl eq_refl)) as (X1 & X2). rewrite X1, X2. apply IH. intros o1 a1 I. apply (H o1 a1). now right. }
    destruct Go as (Go & Gs0).
    (* the constraint *)
    assert (Ec' := Ec). unfold parse_constraints in Ec'. cbn [map length Nat.eqb andb parse_cons_loop uc_name uc_cmp uc_unit uc_val op_string] in Ec'.
    destruct (add_quantity q_ndofs (package other) "f_max_K2" (UScalar un) "<=" (Some "slack") (qc_smoothing_params a)) as [ac|] eqn:A; [|discriminate Ec'].
    cbn [bind] in Ec'. change (String.eqb "<=" "==") with false in Ec'. change (mem "<=" ["<="; ">="]) with true in Ec'. cbv iota in Ec'. injection Ec' as Epc.
    assert (Gp : ModelWrapper.p_g pc = ad_g ac ++ [cons_func_centered (ad_f ac) b (ad_unit ac) (sign_of "<=") (Some "slack") (qc_smoothing_params a)]) by (rewrite <- Epc; reflexivity).
    assert (Ha : forall key, lookup key (ad_slack ac) <> None -> lookup key (dict_union (p_slack po) (p_slack pc)) <> None).
    { destruct (constraint_parts params q_ndofs (package other) q cs (qc_smoothing_params a) pc Ec) as (lc & Fc & Gc & _).
      inversion Fc as [|? a1 ? ? A1 F1]; subst. inversion F1; subst. cbn [uc_name uc_cmp uc_unit op_string] in A1. assert (a1 = ac) by congruence. subst a1.
      apply (in_union_c po _ [ac]); [exact Gc|now left]. }
    set (n := "f_max_K2") in *.
    assert (Exq : exists Q, package other n = Some (AQuantity Q) /\ exists reg reg', init_quantity reg (generate_linf_norm params q_stellsym (implementation "_K2") (slack_name n) false false true) = (reg', Ok Q)).
    { eexists. split; [reflexivity|]. exists []. eexists. reflexivity. }
    destruct Exq as (Q & Ep & reg & reg' & Ei). pose proof (linf_built _ _ _ _ _ _ _ _ _ _ Ei) as EQ.
    pose proof (reads_K2 other q y (Sa y Ly)) as Rv. match type of Rv with reads _ _ _ _ ?v0 => set (v := v0) in * end. clearbody v.
    assert (V : implementation "_K2" q (at_phi y) = Ok v) by (eapply (field_of other q "_K2" "K2"); [reflexivity|reflexivity|exact Rv]).
    assert (Nv : el v <> []).
    { destruct (shape_K2 q) as (s & H0). destruct (H0 Sx) as (Z & H). destruct (H y (Sa y Ly)) as (v' & V' & Sv & W). assert (v' = v) by congruence. subst v'. exact (nonempty v s Sv W Z). }
    destruct (slack_at other q U os cs (qc_smoothing_params a) f po pc O Uo Uc Eo Ec n un "<=" ac Q y d TD Un ltac:(cbn; tauto) A Ep Ha) as (I0 & i & b0 & EI & Ei0 & Lb & Sb & Wb & init0 & Lin0).
    rewrite EQ in EI. cbn [q_slack_init] in EI. injection EI as <-. pose proof Ei0 as Ei1. unfold linf_init in Ei0.
    destruct (exists_max (map Rabs (el v))) as [M HM]; [now apply map_nonempty|].
    rewrite (linf_raw_value (implementation "_K2") false q [("phi", vec y)] v M V HM) in Ei0. cbn [bind] in Ei0.
    rewrite op2_scal_r in Ei0 by reflexivity. injection Ei0 as Ei0. assert (Ei2 : i = scal (M / Rabs un)) by (rewrite <- Ei0; reflexivity). destruct (sh_nil b0) as (s & ->); [rewrite Sb, Ei2; reflexivity|exact Wb|].
    destruct (add_slack params q_ndofs (package other) q _ _ _ _ _ _ A Ep) as (Af & Au & Ag & _). rewrite EQ in Af, Ag. cbn [q_slack_f q_slack_g] in Af, Ag.
    assert (Fv : ad_f ac q d = Ok (scal s)). { rewrite Af. unfold linf_slack_f, getitem. rewrite Lb. reflexivity. }
    destruct (linf_g_value params q_stellsym (implementation "_K2") (slack_name n) false false true q d v (Rabs un) s (field_in q po pc _ _ _ _ TD V) Lb) as (g1 & G1 & Z1).
    pose proof (centred params q (qc_smoothing_params a) (sign_of "<=") d ac b _ _ Fv eq_refl Au) as G2.
    exists d, y, v, s. split; [exact Ed|]. split; [exact (proj1 Sd)|]. split; [exact Ly|]. split; [exact Rv|]. split; [exact Lb|].
    split.
    2:{ intros Ez.
        assert (Wx : forall kv : string * arr, In kv x0 -> wf (snd kv)). { intros [k0 v0] I. apply lookup_in in I; [|exact N0]. exact (proj1 (W0 k0 v0 I)). }
        pose proof (unravel_ravel x0 Wx) as UR.
        assert (Lk : forall k0, lookup k0 (unravel (pr_structure p) z) = lookup k0 x0) by (intros k0; rewrite Ez, Est, Ex0, UR; apply lookup_sort; exact N0).
        assert (Ey : y = phi).
        { pose proof (proj1 Sd) as Pd. rewrite (unscale_lookup _ _ _ _ Ed) in Pd. cbn [String.eqb Ascii.eqb Bool.eqb] in Pd. rewrite Lk, Ps0 in Pd. cbn [option_map] in Pd. injection Pd as _ Pd.
          cbn [vec_arr el] in Pd. rewrite map_map in Pd. rewrite <- Pd. rewrite <- (map_id phi) at 2. apply map_ext. intros r. field. exact Hu. }
        split; [rewrite Ey, Ephi; reflexivity|]. exists M. split; [exact HM|].
        destruct (B0 _ _ Lin0) as (v0 & Ev0 & Lv0). rewrite (unscale_lookup _ _ _ _ Ed) in Lb. change (String.eqb (slack_name n) "phi_scaled") with false in Lb. change (String.eqb (slack_name n) "phi") with false in Lb.
        cbv iota in Lb. rewrite Lk, Lv0 in Lb. injection Lb as ->.
        destruct (add_slack params q_ndofs (package other) q _ _ _ _ _ _ A Ep) as (_ & _ & _ & _ & Asl). rewrite EQ in Asl. cbn [q_slack_init map fst snd] in Asl.
        rewrite Gs0, <- Epc in Lin0. cbn [p_slack empty_parsed] in Lin0. rewrite Asl in Lin0. unfold dict_union in Lin0. cbn [map app filter lookup fst snd] in Lin0. rewrite String.eqb_refl in Lin0.
        injection Lin0 as <-. rewrite <- Ey in Ev0. pose proof (eq_trans (eq_sym Ev0) Ei1) as X. rewrite Ei2 in X. injection X as X. exact X. }
    cbn [solver_problem ModelSolver.p_g]. unfold g_scaled. rewrite Ed. cbn [bind]. rewrite Fg, Go, Gp, Ag. cbn [app].
    match goal with |- context [merge_callables (map Some ?gs) _ _ _ _ _] => destruct (merge_els gs [g1; Arr [] [sign_of "<=" * (s - b / Rabs un)]] (Some "slack") (qc_smoothing_params a) q d) as (o1 & E1 & Zo) end.
    { cbn [map]. f_equal; [exact G1|]. f_equal. exact G2. }
    rewrite E1. cbn [list_of]. rewrite Zo. cbn [map concat]. rewrite Z1. cbv iota. unfold linf_g_els. cbn [el]. rewrite app_nil_r, <- app_assoc. do 2 f_equal. unfold sign_of. cbn. f_equal. ring.
  Qed.
End Bound.
