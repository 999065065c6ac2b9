(** The problem a call in approx mode hands to its solver, for C149. *)
From Coq Require Import String List Bool Arith ZArith Reals Lra Lia.
From Verif Require Import Base ModelArray ProofArray ModelMath SpecMath ProofMath ModelSurface SpecSurface ModelParams ModelField SpecField
  ModelQuantity SpecQuantity ModelWrapper SpecWrapper ProofWrapper ProofWrapper2 ModelShipped ModelPackage SpecPackage
  SpecConvex ModelSolver SpecSolver ProofSolver ModelQuadcoil SpecQuadcoil ProofQuadcoil ProofQuadcoil2
  SpecProblem SpecEnd SpecCert ProofCert PropConvex ProofEnd4 ProofEnd5 SpecApprox ProofApprox3 SpecApproxCall ProofApprox4.
Import ListNotations.
Open Scope R_scope.
Open Scope string_scope.
Open Scope list_scope.

Section Handed.
  Context {L : Type}.
  Variables (ns : namespace params) (a : args L) (os : list objective) (cs : list user_constraint).
  Hypothesis Ow : one_winding a.
  Hypothesis As : asks a os cs.

  Lemma generated qd : f_g_h_from_y ns a qd (y_dict a) =
    bind (y_to_qp a qd (y_dict a)) (fun qp =>
    bind (parse_objectives q_ndofs ns (Objectives (map ob_name os) (map (fun o => UScalar (ob_unit o)) os)) (map ob_weight os) (qc_smoothing a) (qc_smoothing_params a)) (fun '(f, po) =>
    bind (parse_constraints q_ndofs ns (map uc_name cs) (map (fun c => op_string (uc_cmp c)) cs) (map (fun c => UScalar (uc_unit c)) cs) (map uc_val cs) (qc_smoothing a) (qc_smoothing_params a)) (fun pc =>
    Ok {| fn_qp := qp; fn_f := f;
          fn_g := merge_callables (map Some (ModelWrapper.p_g po ++ ModelWrapper.p_g pc)) (qc_merge a) (qc_smoothing a) (qc_smoothing_params a);
          fn_h := merge_callables (map Some (ModelWrapper.p_h po ++ ModelWrapper.p_h pc)) false None [];
          fn_ng := if qc_merge a then 1%nat else length (ModelWrapper.p_g po ++ ModelWrapper.p_g pc);
          fn_nh := length (ModelWrapper.p_h po ++ ModelWrapper.p_h pc);
          fn_aux := dict_union (p_slack po) (p_slack pc) |}))).
  Proof using Ow As.
    destruct (asks_weights a os cs As) as (Go & Gc). destruct As as (Ao & N1 & N2 & N3 & N4).
    assert (Vals : (match lookup "constraint_value" (y_dict a) with Some v => el v | None => [] end) = map uc_val cs).
    { destruct cs as [|c0 cs'].
      - cbn [map]. destruct (lookup "constraint_value" (y_dict a)) as [v|] eqn:El; [|reflexivity].
        exfalso. assert (X : in_use a "constraint_value" (sh v)) by (apply (y_lookup a Ow Go Gc); eauto).
        inversion X as [| | | | |names vs X1 X2 X3| |]. rewrite N1 in X1. injection X1 as <-. cbn in X2. congruence.
      - unfold y_dict. rewrite N1, N4. cbn [names_of values_of map].
        destruct (qc_Bnormal a), (qc_distance a); repeat rewrite lookup_set; cbn [String.eqb Ascii.eqb Bool.eqb]; reflexivity. }
    unfold f_g_h_from_y. destruct (y_to_qp a qd (y_dict a)) as [qp|]; [|reflexivity]. cbn [bind]. rewrite Vals, N1, N2, N3. cbn [names_of units_of].
    replace (parse_objectives q_ndofs ns (objective_of a) (match lookup "objective_weight" (y_dict a) with Some w => el w | None => [1] end) (qc_smoothing a) (qc_smoothing_params a))
      with (parse_objectives q_ndofs ns (Objectives (map ob_name os) (map (fun o => UScalar (ob_unit o)) os)) (map ob_weight os) (qc_smoothing a) (qc_smoothing_params a)); [reflexivity|].
    unfold objective_of. destruct Ao as [(n & u & -> & On & Ou)|(On & Ow' & Ou)].
    - rewrite On, Ou. reflexivity.
    - rewrite On, Ou. cbn [names_of units_of].
      assert (Wt : (match lookup "objective_weight" (y_dict a) with Some w => el w | None => [1] end) = map ob_weight os).
      { unfold y_dict. rewrite On, Ow', N1, N4. cbn [names_of values_of weights_of].
        destruct cs, (qc_Bnormal a), (qc_distance a); cbn [map]; repeat rewrite lookup_set; cbn [String.eqb Ascii.eqb Bool.eqb]; reflexivity. }
      now rewrite Wt.
  Qed.
End Handed.

(** The only unknowns are the coefficients. *)
Lemma alone n u z : length z = n -> unscale [("phi_scaled", [n])] u z = Ok [("phi", vec_arr (map (fun v => v * u) z))].
Proof.
  intros <-. unfold unscale. cbn [unravel size fold_right]. rewrite Nat.mul_1_r, firstn_all.
  cbn [getitem lookup String.eqb Ascii.eqb Bool.eqb bind]. cbn. unfold amap. cbn [sh el]. unfold vec_arr. now rewrite map_length.
Qed.

Section Call.
  Variables (other : list string) (E : library) (a : args (x_solver E)) (p : prepared) (eps : R) (os : list objective) (cs : list user_constraint).
  Notation q := (fn_qp (pr_fn p)).
  Notation P := (solver_problem E a p).
  Hypothesis Hp : prepare (package other) a = Ok p.
  Hypothesis As : asks a os cs.
  Hypothesis Hs : qc_smoothing a = Some "approx".
  Hypothesis Hsp : qc_smoothing_params a = [("lse_epsilon", eps)].
  Hypothesis He : 0 < eps.
  Hypothesis O : ordered q.
  Hypothesis Sx : exists x, sound q x.
  Hypothesis Uo : forall o, In o os -> 0 <= ob_weight o /\ smooth_use q (ob_name o) (ob_unit o).
  Hypothesis Uc : forall c, In c cs -> uc_cmp c <> EQ /\ smooth_use q (uc_name c) (uc_unit c).
  Hypothesis Hphi : forall x, qc_phi_init a = Some x -> length x = q_ndofs q.

  Lemma smooth_facts :
    length (pr_x0 p) = q_ndofs q /\ pr_lam0 p = [] /\ (unconstrained (pr_fn p) = true -> cs = []) /\
    exists ng, length (pr_mu0 p) = ng /\
    forall z, length z = q_ndofs q ->
      let x := map (fun v => v * pr_unit p) z in
      unscale (pr_structure p) (pr_unit p) z = Ok [("phi", vec_arr x)] /\
      length (list_of (g_scaled p z)) = ng /\ list_of (h_scaled p z) = [] /\
      (exists y r, f_scaled p z = Ok (scal y) /\ weighted other q (asked_terms os) x r /\ r <= y <= r + eps * objective_loss q os) /\
      (forall k, (forall v, In v (list_of (g_scaled p z)) -> v <= k) -> SpecConvex.feasible other q (asked_bounds (relaxed k cs)) x) /\
      (SpecConvex.feasible other q (asked_bounds (cautious q eps (qc_merge a) cs)) x -> forall v, In v (list_of (g_scaled p z)) -> v <= 0).
  Proof using Hp As Hs Hsp He O Sx Uo Uc Hphi.
    destruct (prepare_fields (package other) a p Hp) as (Ow & _ & _ & _ & Ef & Eqp & phi & x0 & Ephi & _ & Ex & Ex0 & Est).
    rewrite (generated (package other) a os cs Ow As), Eqp in Ef. cbn [bind] in Ef. rewrite Hs, Hsp in Ef.
    destruct (parse_objectives _ _ _ _ _ _) as [[f po]|] eqn:Eo; [|discriminate Ef]. cbn [bind] in Ef.
    destruct (parse_constraints _ _ _ _ _ _ _ _) as [pc|] eqn:Ec; [|discriminate Ef]. cbn [bind] in Ef.
    assert (Sm : smoothed_problem other os cs eps f po pc) by (split; assumption).
    destruct (objective_lists other eps os cs f po pc Sm) as (G1 & H1 & S1).
    destruct (constraint_lists other q eps os cs f po pc Uc Sm) as (lc & Fc & G2 & H2 & S2).
    rewrite G1, H1, S1, H2, S2 in Ef. cbn [app dict_union map filter] in Ef.
    assert (Fg : fn_g (pr_fn p) = merge_callables (map Some (ModelWrapper.p_g pc)) (qc_merge a) (Some "approx") [("lse_epsilon", eps)]) by (assert (I : forall a b : functions, Ok a = Ok b -> a = b) by congruence; apply I in Ef; rewrite <- Ef; reflexivity).
    assert (Fh : fn_h (pr_fn p) = merge_callables [] false None []) by (assert (I : forall a b : functions, Ok a = Ok b -> a = b) by congruence; apply I in Ef; rewrite <- Ef; reflexivity).
    assert (Ff : fn_f (pr_fn p) = f) by (assert (I : forall a b : functions, Ok a = Ok b -> a = b) by congruence; apply I in Ef; rewrite <- Ef; reflexivity).
    assert (Fa : fn_aux (pr_fn p) = []) by (assert (I : forall a b : functions, Ok a = Ok b -> a = b) by congruence; apply I in Ef; rewrite <- Ef; reflexivity).
    assert (Fn : fn_ng (pr_fn p) = if qc_merge a then 1%nat else length (ModelWrapper.p_g pc)) by (assert (I : forall a b : functions, Ok a = Ok b -> a = b) by congruence; apply I in Ef; rewrite <- Ef; reflexivity).
    clear Ef. rewrite Fa in Ex. cbn [x_dict add_aux] in Ex. injection Ex as <-.
    assert (Lphi : length phi = q_ndofs q).
    { rewrite Ephi. destruct (qc_phi_init a) as [v|] eqn:Ev; [now apply Hphi|apply repeat_length]. }
    assert (Lx0 : length (pr_x0 p) = q_ndofs q) by (rewrite Ex0; cbn; rewrite app_nil_r, map_length; exact Lphi).
    assert (Est' : pr_structure p = [("phi_scaled", [q_ndofs q])]) by (rewrite Est; cbn; rewrite map_length, Lphi; reflexivity).
    assert (Sa : forall x, length x = q_ndofs q -> sound q x) by (intros x Lx; destruct Sx as (x1 & S0); exact (sound_all q x1 S0 x Lx)).
    assert (Facts : forall z, length z = q_ndofs q ->
      let x := map (fun v => v * pr_unit p) z in
      unscale (pr_structure p) (pr_unit p) z = Ok [("phi", vec_arr x)] /\
      length (list_of (g_scaled p z)) = (if qc_merge a then Nat.min 1 (length cs) else length cs) /\ h_scaled p z = Ok (Arr [0%nat] []) /\
      (exists y r, f_scaled p z = Ok (scal y) /\ weighted other q (asked_terms os) x r /\ r <= y <= r + eps * objective_loss q os) /\
      (forall k, (forall v, In v (list_of (g_scaled p z)) -> v <= k) -> SpecConvex.feasible other q (asked_bounds (relaxed k cs)) x) /\
      (SpecConvex.feasible other q (asked_bounds (cautious q eps (qc_merge a) cs)) x -> forall v, In v (list_of (g_scaled p z)) -> v <= 0)).
    { intros z Lz x. assert (Ez : unscale (pr_structure p) (pr_unit p) z = Ok [("phi", vec_arr x)]) by (rewrite Est'; now apply alone).
      assert (Lx : length x = q_ndofs q) by (unfold x; now rewrite map_length). pose proof (Sa x Lx) as S.
      destruct (bounded_values other q eps os cs f po pc He O Uo Uc Sm x S) as (vs & Fv & Lv & K1 & K2).
      destruct (merged_value q eps x (qc_merge a) _ _ Fv) as (o & Eg & Lo).
      assert (Egs : list_of (g_scaled p z) = as_merged eps (qc_merge a) vs).
      { unfold g_scaled. rewrite Ez. cbn [bind]. rewrite Fg. unfold vec_arr. rewrite Eg. cbn [list_of]. exact Lo. }
      split; [exact Ez|]. rewrite Egs. split; [rewrite merged_length, Lv; reflexivity|].
      split; [unfold h_scaled; rewrite Ez; cbn [bind]; rewrite Fh; reflexivity|]. split; [|split].
      - destruct (objective_value other q eps os cs f po pc He O Uo Uc Sm x S) as (r & y & W & F & B). exists y, r.
        split; [unfold f_scaled; rewrite Ez; cbn [bind]; rewrite Ff; exact F|]. split; [exact W|exact B].
      - intros k Hk. apply K1. exact (merged_below eps He (qc_merge a) vs k Hk).
      - intros Fx. apply (merged_above eps He). rewrite Lv. apply K2.
        replace (map (fun c => moved (eps * loss q (uc_name c) (uc_unit c) - (0 - eps * merging (qc_merge a) (length cs))) c) cs) with (cautious q eps (qc_merge a) cs); [exact Fx|].
        unfold cautious. apply map_ext. intros c. f_equal. ring. }
    split; [exact Lx0|]. destruct (prepare_multipliers (package other) a p Hp) as (g0 & h0 & Eg & Eh & -> & ->).
    destruct (Facts (pr_x0 p) Lx0) as (_ & L1 & Eh' & _). rewrite Eg in L1. cbn [list_of] in L1. rewrite Eh in Eh'. injection Eh' as ->. split; [reflexivity|]. split.
    - unfold unconstrained. intros H. apply andb_true_iff in H as (H & _). apply Nat.eqb_eq in H. rewrite Fn in H. destruct (qc_merge a); [discriminate H|].
      rewrite G2 in H. clear - Fc H. destruct cs as [|c cs']; [reflexivity|]. inversion Fc; subst. discriminate H.
    - eexists. split; [rewrite map_length; exact L1|]. intros z Lz x. destruct (Facts z Lz) as (A & B & C & D & F & G). split; [exact A|]. split; [exact B|].
      split; [rewrite C; reflexivity|]. split; [exact D|]. split; [exact F|exact G].
  Qed.
End Call.
