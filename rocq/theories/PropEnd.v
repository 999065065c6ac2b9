(** Properties C120 and C121: what a whole call returns and what it is worth. *)
From Coq Require Import String List Bool Arith ZArith Reals Lra Lia.
From Verif Require Import Base ModelArray ProofArray ModelMath SpecMath ModelSurface SpecSurface ModelParams SpecField
  ModelQuantity ModelWrapper SpecWrapper ModelPackage SpecPackage
  SpecConvex ModelSolver SpecSolver ProofSolver ModelQuadcoil SpecQuadcoil ProofQuadcoil
  SpecProblem ProofEnd SpecEnd ProofEnd4 ProofEnd5 SpecCert ProofCert ProofPackage ProofPackage2 ProofPackage3 ProofPackage4 PropConvex
  WitnessField WitnessSolver WitnessQuadcoil PropPackage WitnessEnd.
Import ListNotations.
Open Scope R_scope.
Open Scope string_scope.
Open Scope list_scope.

(** ** C120 *)
(** The call asks for the terms [os] and the constraints [cs], in slack mode,
    on a legal configuration.  [d] is what the solver returned, [d1] its state
    when the last pass began; the last pass minimised its augmented Lagrangian
    to within [eps].  Then the returned coefficients [x] have the right number;
    the reported objective is, up to [eps] and the squared multipliers over
    twice the penalty weight, no more than what any design that meets the
    user's constraints has; the reported violations are bounded likewise; and
    when nothing is reported violated, the design meets the user's constraints
    and is no worse than reported. *)
Theorem C120_near_optimal_design :
  forall other (E : library) (a : args (x_solver E)) U os cs o p d d1 eps,
  counted (x_opt E) -> shaped (x_opt E) ->
  asks a os cs -> qc_smoothing a = Some "slack" -> qc_merge a = false -> 0 < qc_c_init a -> 0 < qc_c_growth a ->
  quadcoil (package other) E a = Some (Ok o) -> o_results E o = Constrained E d ->
  let q := o_qp E o in
  ordered q -> (exists x, sound q x) -> (forall x, qc_phi_init a = Some x -> length x = q_ndofs q) ->
  (forall t, In t os -> 0 <= ob_weight t /\ scaled_use U q (ob_name t) (ob_unit t)) ->
  (forall c, In c cs -> scaled_use U q (uc_name c) (uc_unit c)) ->
  prepare (package other) a = Ok p -> pr_unit p <> 0 ->
  let P := solver_problem E a p in
  main_loop _ (x_opt E) (x_autograd E) P (x_fuel_out E) (x_fuel_in E)
    (init_dict _ P (pr_x0 p) (qc_c_init a) (pr_lam0 p) (pr_mu0 p)) = Some d1 ->
  let c := d_c _ d1 in
  let W := squares (d_lam _ d1) + squares (d_mu _ d1) in
  let A := augmented (p_f _ P) (p_g _ P) (p_h _ P) c (d_lam _ d1) (d_mu _ d1) in
  (forall z : list R, length z = length (pr_x0 p) -> A (d_x _ d) <= A z + eps) ->
  0 < c /\
  exists x, lookup "phi" (o_dofs E o) = Some (Arr [length x] x) /\ length x = q_ndofs q /\
    (forall y r, length y = q_ndofs q -> SpecConvex.feasible other q (asked_bounds cs) y -> weighted other q (asked_terms os) y r ->
       d_f _ d <= r + eps + W / (2 * c) /\
       (forall v, In v (d_g _ d) -> 0 <= v -> c * v <= sqrt (W + 2 * c * (r + eps - d_f _ d))) /\
       (forall v, In v (d_h _ d) -> c * Rabs v <= normR (d_lam _ d1) + sqrt (W + 2 * c * (r + eps - d_f _ d)))) /\
    ((forall v, In v (d_g _ d) -> v <= 0) -> (forall v, In v (d_h _ d) -> v = 0) ->
       SpecConvex.feasible other q (asked_bounds cs) x /\ exists r, weighted other q (asked_terms os) x r /\ r <= d_f _ d).
Proof.
  intros other E a U os cs o p d d1 eps Hcnt Hsh As Hs Hm Hc Hg Hq Hr q O Sx Hphi Uo Uc Hp Hu P Hml c W A Hrel.
  destruct (quadcoil_ok _ E a o Hq) as (p' & r' & dofs & Hp' & Hso & _ & Hd & E1 & E2 & E3).
  assert (p' = p) by congruence. subst p'. rewrite Hr in E3. subst r'. subst q. rewrite E1 in *. rewrite E2. clear E1 E2 Hr Hq Hp'.
  destruct (problem_facts other E a p U os cs Hp As Hs Hm O Sx Uo Uc Hu Hphi) as (ng & nh & FZ & FX & Lm & Ll & _).
  unfold solve in Hso. destruct (unconstrained (pr_fn p)).
  { destruct (run_opt _ _ _ _ _ _ _ _ _ _); discriminate. }
  destruct (solve_constrained _ _ _ _ _ _ _ _ _ _) as [d'|] eqn:Hsol; [|discriminate]. injection Hso as ->. cbn [optimum] in Hd.
  fold P in Hsol. set (n := length (pr_x0 p)) in *.
  assert (Sz : sized P n (length (pr_mu0 p)) (length (pr_lam0 p))).
  { intros z Lz. destruct (FZ z Lz) as (L1 & L2 & _). rewrite Lm, Ll. split; assumption. }
  destruct (prepare_multipliers _ a p Hp) as (g0 & h0 & _ & _ & Em & _).
  assert (Pm : List.Forall (fun m => 0 <= m) (pr_mu0 p)).
  { rewrite Em. apply List.Forall_forall. intros m I. apply in_map_iff in I as (? & <- & _). lra. }
  destruct (solve_inv _ _ _ Hcnt P _ _ _ _ _ _ _ Hsol) as (d1' & Hml' & Hlast & _).
  assert (d1' = d1) by (cbn [T R_num] in *; congruence). subst d1'.
  pose proof (proj1 (main_inv _ _ _ Hcnt P _ _ _ _ _ _ _ Hml)) as Hps.
  assert (S0 : sound_state (x_fin E) n (length (pr_mu0 p)) (length (pr_lam0 p)) (init_dict (R_num (x_fin E)) P (pr_x0 p) (qc_c_init a) (pr_lam0 p) (pr_mu0 p))).
  { repeat split; try assumption; simpl; try reflexivity; try lra. }
  assert (Hmask : p_mask _ P = gplus_hard (R_num (x_fin E))) by reflexivity.
  assert (Hgr : 0 < p_growth _ P) by exact Hg.
  pose proof (passes_sound _ _ _ Hcnt P Hmask n _ _ Sz Hsh Hgr _ _ Hps S0) as S1.
  pose proof (pass_sound _ _ _ Hcnt P Hmask n _ _ Sz Hsh Hgr _ _ _ _ _ _ S1 Hlast) as S2.
  pose proof S1 as (_ & _ & _ & Hc1 & _ & _). fold c in Hc1. split; [exact Hc1|].
  destruct (FZ (d_x _ d)) as (_ & _ & _ & dd & x & (Ed & Lx & Lp) & Hto); [apply S2|].
  assert (dd = dofs) by congruence. subst dd. exists x. split; [exact Lp|]. split; [exact Lx|].
  destruct (body_inv _ _ _ Hcnt P _ _ _ _ _ _ Hlast) as (r0 & _ & _ & _ & _ & Ef & Eg & Eh & _). split.
  - intros y r Ly Fy Wy. destruct (FX y r Ly Fy Wy) as (z & Lz & Az & Pz).
    pose proof (Hrel z Lz) as D. pose proof (admissible_value (x_fin E) P n _ _ Sz d1 z S1 Lz Az) as D2.
    change (A z <= p_f (R_num (x_fin E)) P z) in D2. change (p_f (R_num (x_fin E)) P z = r) in Pz. rewrite Pz in D2.
    assert (D3 : aug (x_fin E) P d1 (d_x _ d) <= r + eps) by (change (aug (x_fin E) P d1 (d_x _ d)) with (A (d_x _ d)); lra).
    pose proof (violations (x_fin E) _ _ Hcnt P Hmask n _ _ Sz Hsh _ _ _ _ _ _ _ S1 Hlast D3) as (_ & V1 & V2).
    rewrite Ef, Eg, Eh. split; [|split; [exact V1|exact V2]].
    rewrite (reported_squares (x_fin E) _ _ Hcnt P Hmask n _ _ Sz Hsh _ _ _ _ _ _ S1 Hlast) in D3.
    pose proof (squares_pos (d_lam _ d)). pose proof (squares_pos (d_mu _ d)). fold c in D3. unfold W.
    set (a1 := squares (d_lam _ d)) in *. set (b1 := squares (d_mu _ d)) in *.
    set (a2 := squares (d_lam _ d1)) in *. set (b2 := squares (d_mu _ d1)) in *.
    assert (0 <= (a1 + b1) / (2 * c)) by (apply Rmult_le_pos; [lra|left; apply Rinv_0_lt_compat; lra]).
    replace ((a1 + b1 - a2 - b2) / (2 * c)) with ((a1 + b1) / (2 * c) - (a2 + b2) / (2 * c)) in D3 by (field; lra). lra.
  - intros Gv Hv. rewrite Ef. apply Hto. split; apply List.Forall_forall; intros v I; [apply Gv; rewrite Eg|apply Hv; rewrite Eh]; exact I.
Qed.
Print Assumptions C120_near_optimal_design.

(** Without constraints, and without terms that need a slack variable, the
    design is within [eps] of the best one when the optimiser came within [eps]
    of the smallest value of what it was given. *)
Theorem C120_near_optimal_unconstrained :
  forall other (E : library) (a : args (x_solver E)) U os cs o p r eps,
  counted (x_opt E) -> shaped (x_opt E) ->
  asks a os cs -> qc_smoothing a = Some "slack" -> qc_merge a = false ->
  quadcoil (package other) E a = Some (Ok o) -> o_results E o = Direct E r ->
  let q := o_qp E o in
  ordered q -> (exists x, sound q x) -> (forall x, qc_phi_init a = Some x -> length x = q_ndofs q) ->
  (forall t, In t os -> 0 <= ob_weight t /\ scaled_use U q (ob_name t) (ob_unit t)) ->
  (forall c, In c cs -> scaled_use U q (uc_name c) (uc_unit c)) ->
  prepare (package other) a = Ok p -> pr_unit p <> 0 ->
  (forall z, length z = length (pr_x0 p) -> real_of (f_scaled p (r_x _ r)) <= real_of (f_scaled p z) + eps) ->
  exists x, lookup "phi" (o_dofs E o) = Some (Arr [length x] x) /\ length x = q_ndofs q /\
    exists v, weighted other q (asked_terms os) x v /\
      forall y w, length y = q_ndofs q -> SpecConvex.feasible other q (asked_bounds cs) y -> weighted other q (asked_terms os) y w -> v <= w + eps.
Proof.
  intros other E a U os cs o p r eps Hcnt Hsh As Hs Hm Hq Hr q O Sx Hphi Uo Uc Hp Hu Hrel.
  destruct (quadcoil_ok _ E a o Hq) as (p' & r' & dofs & Hp' & Hso & _ & Hd & E1 & E2 & E3).
  assert (p' = p) by congruence. subst p'. rewrite Hr in E3. subst r'. subst q. rewrite E1 in *. rewrite E2. clear E1 E2 Hr Hq Hp'.
  destruct (problem_facts other E a p U os cs Hp As Hs Hm O Sx Uo Uc Hu Hphi) as (ng & nh & FZ & FX & _ & _ & Fu).
  unfold solve in Hso. destruct (unconstrained (pr_fn p)).
  2: { destruct (solve_constrained _ _ _ _ _ _ _ _ _ _); discriminate. }
  destruct (run_opt _ _ _ _ _ _ _ _ _ _) as [r''|] eqn:Hrun; [|discriminate]. injection Hso as ->. cbn [optimum] in Hd.
  assert (Lr : length (r_x _ r : list R) = length (pr_x0 p)).
  { eapply run_length; eassumption. }
  destruct (FZ _ Lr) as (_ & _ & _ & dd & x & (Ed & Lx & Lp) & Hto). assert (dd = dofs) by congruence. subst dd.
  exists x. split; [exact Lp|]. split; [exact Lx|]. destruct (Hto (Fu eq_refl _)) as (_ & v & Wv & Hv). exists v. split; [exact Wv|].
  intros y w Ly Fy Wy. destruct (FX y w Ly Fy Wy) as (z & Lz & _ & Pz). pose proof (Hrel z Lz) as D.
  cbn [solver_problem ModelSolver.p_f] in Hv, Pz. lra.
Qed.
Print Assumptions C120_near_optimal_unconstrained.

(** ** C121 *)
(** A call whose surfaces can be built, whose quantities exist and are used as
    they may be, and whose metrics exist (numbers, if gradients are wanted),
    returns; it returns coefficients of the right number and, under the name
    of every metric other than f_obj, the value of that quantity at them.  The
    fuel is what the iteration limits of the call ask for. *)
Theorem C121_valid_calls_return :
  forall other (E : library) (a : args (x_solver E)) q U os cs,
  counted (x_opt E) -> shaped (x_opt E) ->
  builds a q -> asks a os cs -> qc_smoothing a = Some "slack" -> qc_merge a = false -> 0 < qc_c_init a -> 0 < qc_c_growth a ->
  ordered q -> (exists x, sound q x) -> (forall x, qc_phi_init a = Some x -> length x = q_ndofs q) ->
  (forall b, qc_Bnormal a = Some b -> wf b) ->
  (qc_phi_unit a = None -> qc_distance a = None -> qc_plasma_dofs a <> [] /\ qc_winding_dofs a <> Some []) ->
  (forall p, prepare (package other) a = Ok p -> pr_unit p <> 0) ->
  (forall t, In t os -> 0 <= ob_weight t /\ scaled_use U q (ob_name t) (ob_unit t) /\ supported (package other) (ob_name t) "f" (UScalar (ob_unit t))) ->
  (forall c, In c cs -> scaled_use U q (uc_name c) (uc_unit c) /\ supported (package other) (uc_name c) (op_string (uc_cmp c)) (UScalar (uc_unit c))) ->
  (forall m, In m (metrics a) -> reportable q (negb (qc_value_only a)) m) ->
  (Nat.max 1 (qc_maxiter_tot a) <= x_fuel_out E)%nat -> (Nat.max 1 (Nat.max (qc_maxiter_tot a) (qc_maxiter_inner a)) <= x_fuel_in E)%nat ->
  exists o, quadcoil (package other) E a = Some (Ok o) /\ o_qp E o = q /\
    exists x, lookup "phi" (o_dofs E o) = Some (Arr [length x] x) /\ length x = q_ndofs q /\
      forall m, In m (metrics a) -> m <> "f_obj" ->
        exists e v, lookup m (o_out E o) = Some e /\ e_value e = Some v /\ reads other m q x v.
Proof.
  intros other E a q U os cs Hcnt Hsh Bq As Hs Hm Hc Hg O Sx Hphi Hwf Hun Hnz Uo' Uc' Hmet Fo Fi.
  assert (Uo : forall t, In t os -> 0 <= ob_weight t /\ scaled_use U q (ob_name t) (ob_unit t)) by (intros t I; destruct (Uo' t I) as (? & ? & _); auto).
  assert (Uc : forall c, In c cs -> scaled_use U q (uc_name c) (uc_unit c)) by (intros c I; apply (Uc' c I)).
  destruct (prepare_ok other a q U os cs Bq As Hs Hm O Sx Uo Uc ltac:(intros t I; apply (Uo' t I)) ltac:(intros c I; apply (Uc' c I)) Hphi Hun) as (p & Hp & Fq).
  pose proof (Hnz p Hp) as Hu. subst q.
  destruct (problem_facts other E a p U os cs Hp As Hs Hm O Sx Uo Uc Hu Hphi) as (ng & nh & FZ & _ & Lm & Ll & _).
  assert (Sol : exists r, solve E a p = Some r /\ length (optimum E r) = length (pr_x0 p)).
  { unfold solve. destruct (unconstrained (pr_fn p)).
    - destruct (run_opt_terminates _ (x_opt E) (x_autograd E) Hcnt (fun x => real_of (f_scaled p x)) (pr_x0 p) (x_fuel_in E) (qc_maxiter_tot a)
        (fstop_inner_last (qc_tol a)) (xstop_inner_last (qc_tol a)) (gtol_inner (qc_tol a))) as (r & Hr); [lia|].
      rewrite Hr. exists (Direct E r). split; [reflexivity|]. cbn [optimum]. eapply run_length; eassumption.
    - destruct (outer_terminates _ (x_opt E) (x_autograd E) Hcnt (solver_problem E a p) (pr_x0 p) (qc_c_init a) (pr_lam0 p) (pr_mu0 p) (x_fuel_out E) (x_fuel_in E)) as (d & Hd & _);
        [cbn [solver_problem p_maxiter_inner p_maxiter_tot]; lia|cbn [solver_problem p_maxiter_inner p_maxiter_tot]; lia|].
      rewrite Hd. exists (Constrained E d). split; [reflexivity|]. cbn [optimum].
      destruct (prepare_multipliers _ a p Hp) as (g0 & h0 & _ & _ & Em & _).
      assert (Pm : List.Forall (fun m => 0 <= m) (pr_mu0 p)).
      { rewrite Em. apply List.Forall_forall. intros m I. apply in_map_iff in I as (? & <- & _). lra. }
      set (P := solver_problem E a p) in *.
      assert (Sz : sized P (length (pr_x0 p)) (length (pr_mu0 p)) (length (pr_lam0 p))).
      { intros z Lz. destruct (FZ z Lz) as (L1 & L2 & _). rewrite Lm, Ll. split; assumption. }
      destruct (solve_inv _ _ _ Hcnt P _ _ _ _ _ _ _ Hd) as (d1 & Hml & Hlast & _).
      pose proof (proj1 (main_inv _ _ _ Hcnt P _ _ _ _ _ _ _ Hml)) as Hps.
      assert (S0 : sound_state (x_fin E) (length (pr_x0 p)) (length (pr_mu0 p)) (length (pr_lam0 p)) (init_dict (R_num (x_fin E)) P (pr_x0 p) (qc_c_init a) (pr_lam0 p) (pr_mu0 p))).
      { repeat split; try assumption; simpl; try reflexivity; try lra. }
      pose proof (passes_sound _ _ _ Hcnt P eq_refl _ _ _ Sz Hsh Hg _ _ Hps S0) as S1.
      apply (pass_sound _ _ _ Hcnt P eq_refl _ _ _ Sz Hsh Hg _ _ _ _ _ _ S1 Hlast). }
  destruct Sol as (r & Hr & Lr). destruct (FZ _ Lr) as (_ & _ & (y & Ey) & d & x & (Ed & Lx & Lp) & _).
  destruct Sx as (x0 & S0). pose proof (PropConvex.sound_all _ x0 S0 x Lx) as S.
  assert (Call : forall Q, call Q (fn_qp (pr_fn p)) d = value_of Q (fn_qp (pr_fn p)) x).
  { intros Q. unfold value_of, call, getitem. rewrite Lp. reflexivity. }
  assert (Val : forall m, In m (metrics a) -> m <> "f_obj" -> exists Q v, get_quantity (package other) m = Ok Q /\ call Q (fn_qp (pr_fn p)) d = Ok v /\
    (qc_value_only a = false -> isscalar v = true)).
  { intros m I Hn. destruct (Hmet m I) as [->|(k & Ik & Ne & Kt & Nu)]; [contradiction|].
    destruct (value_sound other _ x S m k Ik Ne Kt) as (Q & v & G & V & Sv & W). exists Q, v. split; [exact G|]. split; [now rewrite Call|].
    intros Hv. rewrite Hv in Nu. specialize (Nu eq_refl). subst k. unfold isscalar. cbn [shape_of] in Sv. unfold ndim. now rewrite Sv. }
  assert (Mt : forall m v, m <> "f_obj" -> (forall Q, get_quantity (package other) m = Ok Q -> call Q (fn_qp (pr_fn p)) d = Ok v) ->
    (exists Q, get_quantity (package other) m = Ok Q) -> reads other m (fn_qp (pr_fn p)) x v).
  { intros m v _ H (Q & G). exists Q. split; [exact G|]. rewrite <- Call. now apply H. }
  unfold quadcoil. rewrite Hp, Hr. unfold finish. rewrite Ed. cbn [bind].
  assert (Fobj : fn_f (pr_fn p) (fn_qp (pr_fn p)) d = Ok (scal y)).
  { unfold f_scaled in Ey. rewrite Ed in Ey. exact Ey. }
  destruct (qc_value_only a) eqn:Ev.
  - destruct (value_metrics_ex (package other) (metrics a) (pr_fn p) d []) as (out & Eout).
    { intros m I. destruct (String.eqb_spec m "f_obj"); [eauto|]. destruct (Val m I n) as (Q & v & G & V & _). eauto. }
    rewrite Eout. cbn [bind]. eexists. split; [reflexivity|]. cbn [o_qp o_dofs o_out]. split; [reflexivity|]. exists x. split; [exact Lp|]. split; [exact Lx|].
    intros m I Hn. destruct (value_metrics_ok _ _ _ _ _ _ Eout) as (K & _). destruct (K m I Hn) as (Q & v & G & V & L). do 2 eexists. split; [exact L|]. split; [reflexivity|].
    exists Q. split; [exact G|]. now rewrite <- Call.
  - assert (Yq : y_to_qp a (pr_qd p) (unravel (structure (pr_y p)) (ravel (pr_y p))) = Ok (fn_qp (pr_fn p))) by (eapply metric_at_inputs; eassumption).
    assert (FM : forall m, f_metric (package other) E a p m (optimum E r) (ravel (pr_y p)) =
      if String.eqb m "f_obj" then Ok (scal y) else bind (get_quantity (package other) m) (fun Q => call Q (fn_qp (pr_fn p)) d)).
    { intros m. unfold f_metric. rewrite Yq. cbn [bind]. rewrite Ed. cbn [bind]. now rewrite Fobj. }
    match goal with |- context [grad_metrics _ _ _ _ _ _ ?o0] => destruct (grad_metrics_ex (package other) E (metrics a) a p r o0) as (out & Eout) end.
    { intros m I. rewrite FM. destruct (String.eqb_spec m "f_obj"); [exists (scal y); split; reflexivity|].
      destruct (Val m I n) as (Q & v & G & V & Sv). exists v. rewrite G. cbn [bind]. split; [exact V|now apply Sv]. }
    rewrite Eout. cbn [bind]. eexists. split; [reflexivity|]. cbn [o_qp o_dofs o_out]. split; [reflexivity|]. exists x. split; [exact Lp|]. split; [exact Lx|].
    intros m I Hn. destruct (grad_metrics_ok _ _ _ _ _ _ _ _ Eout) as (K & _). destruct (K m I) as (v & V & _ & L). do 2 eexists. split; [exact L|]. split; [reflexivity|].
    rewrite FM in V. destruct (String.eqb_spec m "f_obj"); [contradiction|]. destruct (get_quantity (package other) m) as [Q|] eqn:G; [|discriminate V]. cbn [bind] in V.
    exists Q. split; [exact G|]. now rewrite <- Call.
Qed.
Print Assumptions C121_valid_calls_return.

(** Non-trivial cases: the calls of WitnessEnd, one with an inequality on the
    largest potential and gradients of three metrics, one without constraints
    that reports a vector field. *)
Lemma call_hypotheses : counted (x_opt E120) /\ shaped (x_opt E120) /\ ordered shown /\ exists x, sound shown x.
Proof.
  split; [exact stay_counted|]. split; [exact stay_shaped|]. split; [apply device_increasing|]. exists [1; 2; 3; 4]. now apply shown_sound.
Qed.
Example C121_example :
  (exists o, quadcoil (package []) E120 call120 = Some (Ok o) /\ o_qp E120 o = shown /\
    exists x, lookup "phi" (o_dofs E120 o) = Some (Arr [length x] x) /\ length x = 4%nat /\
      exists e v, lookup "f_max_K2" (o_out E120 o) = Some e /\ e_value e = Some v /\ reads [] "f_max_K2" shown x v) /\
  (exists o, quadcoil (package []) E120 free120 = Some (Ok o) /\ o_qp E120 o = shown /\
    exists x, lookup "phi" (o_dofs E120 o) = Some (Arr [length x] x) /\ length x = 4%nat /\
      exists e v, lookup "K" (o_out E120 o) = Some e /\ e_value e = Some v /\ reads [] "K" shown x v).
Proof.
  destruct call_hypotheses as (H1 & H2 & H3 & H4). split.
  - destruct (C121_valid_calls_return [] E120 call120 shown U120 terms120 bounds120 H1 H2 call_builds call_asks eq_refl eq_refl
      ltac:(cbn; lra) ltac:(cbn; lra) H3 H4 ltac:(discriminate) ltac:(intros b [= <-]; reflexivity) ltac:(discriminate)
      ltac:(intros p Hp; destruct (call_start p Hp) as (_ & _ & _ & -> & _); lra) call_terms call_bounds call_metrics (le_n _) (le_n _))
      as (o & Hq & Eq & x & Lx & Nx & M).
    exists o. split; [exact Hq|]. split; [exact Eq|]. exists x. split; [exact Lx|]. split; [exact Nx|]. apply M; [cbn; tauto|discriminate].
  - destruct (C121_valid_calls_return [] E120 free120 shown U120 terms120 [] H1 H2 free_builds free_asks eq_refl eq_refl
      ltac:(cbn; lra) ltac:(cbn; lra) H3 H4 ltac:(discriminate) ltac:(intros b [= <-]; reflexivity) ltac:(discriminate)
      ltac:(intros p Hp; destruct (free_start p Hp) as (_ & -> & _); lra) call_terms ltac:(intros c []) free_metrics (le_n _) (le_n _))
      as (o & Hq & Eq & x & Lx & Nx & M).
    exists o. split; [exact Hq|]. split; [exact Eq|]. exists x. split; [exact Lx|]. split; [exact Nx|]. apply M; [cbn; tauto|discriminate].
Qed.

(** Non-trivial cases of C120: in both calls the optimiser stays where it
    starts, which is the best it can do; [eps] is 0. *)
Example C120_example :
  (exists o p d d1, quadcoil (package []) E120 call120 = Some (Ok o) /\ o_results E120 o = Constrained E120 d /\ o_qp E120 o = shown /\
    prepare (package []) call120 = Ok p /\ pr_unit p <> 0 /\
    main_loop _ (x_opt E120) (x_autograd E120) (solver_problem E120 call120 p) (x_fuel_out E120) (x_fuel_in E120)
      (init_dict _ (solver_problem E120 call120 p) (pr_x0 p) (qc_c_init call120) (pr_lam0 p) (pr_mu0 p)) = Some d1 /\
    (let P := solver_problem E120 call120 p in
     let A := augmented (p_f _ P) (p_g _ P) (p_h _ P) (d_c _ d1) (d_lam _ d1) (d_mu _ d1) in
     forall z : list R, length z = length (pr_x0 p) -> A (d_x _ d) <= A z + 0)) /\
  (exists o p r, quadcoil (package []) E120 free120 = Some (Ok o) /\ o_results E120 o = Direct E120 r /\ o_qp E120 o = shown /\
    prepare (package []) free120 = Ok p /\ pr_unit p <> 0 /\
    forall z : list R, length z = length (pr_x0 p) -> real_of (f_scaled p (r_x _ r)) <= real_of (f_scaled p z) + 0).
Proof.
  destruct C121_example as ((o & Hq & Eq & _) & (o' & Hq' & Eq' & _)). split.
  - destruct (quadcoil_ok _ _ _ _ Hq) as (p & r & dofs & Hp & Hso & _ & Hd & E1 & E2 & E3).
    destruct (call_start p Hp) as (_ & _ & _ & Un & Uc & _). unfold solve in Hso. rewrite Uc in Hso.
    destruct (solve_constrained _ _ _ _ _ _ _ _ _ _) as [d|] eqn:Hsol; [|discriminate]. injection Hso as <-.
    destruct (solve_inv _ _ _ stay_counted _ _ _ _ _ _ _ _ Hsol) as (d1 & Hml & _).
    exists o, p, d, d1. split; [exact Hq|]. split; [exact E3|]. split; [exact Eq|]. split; [exact Hp|]. split; [rewrite Un; lra|]. split; [exact Hml|].
    exact (call_rests p d1 d Hp Hml Hsol).
  - destruct (quadcoil_ok _ _ _ _ Hq') as (p & r & dofs & Hp & Hso & _ & Hd & E1 & E2 & E3).
    destruct (free_start p Hp) as (_ & Un & Uc & _). unfold solve in Hso. rewrite Uc in Hso.
    destruct (run_opt _ _ _ _ _ _ _ _ _ _) as [r0|] eqn:Hr; [|discriminate]. injection Hso as <-.
    exists o', p, r0. split; [exact Hq'|]. split; [exact E3|]. split; [exact Eq'|]. split; [exact Hp|]. split; [rewrite Un; lra|].
    exact (free_rests p r0 Hp Hr).
Qed.
