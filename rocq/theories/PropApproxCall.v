(** Property C149: what a whole call with smoothing="approx" returns and what it is worth. *)
From Coq Require Import String List Bool Arith ZArith Reals Lra Lia.
From Verif Require Import Base ModelArray ProofArray ModelMath SpecMath ModelSurface SpecSurface ModelParams SpecField
  ModelQuantity ModelWrapper SpecWrapper ModelPackage SpecPackage
  SpecConvex ModelSolver SpecSolver ProofSolver ModelQuadcoil SpecQuadcoil ProofQuadcoil
  SpecProblem ProofEnd SpecEnd ProofEnd4 ProofEnd5 SpecCert ProofCert ProofPackage ProofPackage2 ProofPackage3 ProofPackage4 PropConvex
  SpecApprox SpecApproxCall ProofApprox5 ProofApprox6 WitnessField WitnessSolver WitnessQuadcoil PropPackage WitnessEnd PropEnd ProofNfp3 WitnessApproxCall.
Import ListNotations.
Open Scope R_scope.
Open Scope string_scope.
Open Scope list_scope.

(** ** C149 *)
(** The call asks for the terms [os] and the inequalities [cs], in approx mode
    with the smoothing length [eps], merged into one or not, on a legal
    configuration.  [d] is what the solver returned, [d1] its state when the
    last pass began; the last pass minimised its augmented Lagrangian to within
    [tol].  Then the returned coefficients [x] have the right number; what they
    cost by the user's own objective is no more than reported, and less by at
    most [eps] times the loss; the reported objective is, up to [tol], that
    loss, and the squared multipliers over twice the penalty weight, no more
    than what any design that meets the user's constraints with the margin of
    the smoothing costs; the reported violations are bounded likewise; and they
    bound the violations of the user's constraints, in the user's units. *)
Theorem C149_near_optimal_design :
  forall other (E : library) (a : args (x_solver E)) eps os cs o p d d1 tol,
  counted (x_opt E) -> shaped (x_opt E) ->
  asks a os cs -> qc_smoothing a = Some "approx" -> qc_smoothing_params a = [("lse_epsilon", eps)] -> 0 < eps ->
  0 < qc_c_init a -> 0 < qc_c_growth a ->
  quadcoil (package other) E a = Some (Ok o) -> o_results E o = Constrained E d ->
  let q := o_qp E o in
  ordered q -> (exists x, sound q x) -> (forall x, qc_phi_init a = Some x -> length x = q_ndofs q) ->
  (forall t, In t os -> 0 <= ob_weight t /\ smooth_use q (ob_name t) (ob_unit t)) ->
  (forall c, In c cs -> uc_cmp c <> EQ /\ smooth_use q (uc_name c) (uc_unit c)) ->
  prepare (package other) a = Ok p -> pr_unit p <> 0 ->
  let P := solver_problem E a p in
  main_loop _ (x_opt E) (x_autograd E) P (x_fuel_out E) (x_fuel_in E)
    (init_dict _ P (pr_x0 p) (qc_c_init a) (pr_lam0 p) (pr_mu0 p)) = Some d1 ->
  let c := d_c _ d1 in
  let W := squares (d_lam _ d1) + squares (d_mu _ d1) in
  let A := augmented (p_f _ P) (p_g _ P) (p_h _ P) c (d_lam _ d1) (d_mu _ d1) in
  (forall z : list R, length z = length (pr_x0 p) -> A (d_x _ d) <= A z + tol) ->
  0 < c /\
  exists x, o_dofs E o = [("phi", Arr [length x] x)] /\ length x = q_ndofs q /\
    (exists r, weighted other q (asked_terms os) x r /\ r <= d_f _ d <= r + eps * objective_loss q os) /\
    (forall y r, length y = q_ndofs q -> SpecConvex.feasible other q (asked_bounds (cautious q eps (qc_merge a) cs)) y -> weighted other q (asked_terms os) y r ->
       let best := r + eps * objective_loss q os + tol in
       d_f _ d <= best + W / (2 * c) /\
       (forall v, In v (d_g _ d) -> 0 <= v -> c * v <= sqrt (W + 2 * c * (best - d_f _ d)))) /\
    d_h _ d = [] /\
    (forall k, (forall v, In v (d_g _ d) -> v <= k) -> SpecConvex.feasible other q (asked_bounds (relaxed k cs)) x).
Proof.
  intros other E a eps os cs o p d d1 tol Hcnt Hsh As Hs Hsp He Hc Hg Hq Hr q O Sx Hphi Uo Uc Hp Hu P Hml c W A Hrel.
  destruct (quadcoil_ok _ E a o Hq) as (p' & r' & dofs & Hp' & Hso & _ & Hd & E1 & E2 & E3).
  assert (p' = p) by congruence. subst p'. rewrite Hr in E3. subst r'. subst q. rewrite E1 in *. rewrite E2. clear E1 E2 Hr Hq Hp'.
  destruct (smooth_facts other E a p eps os cs Hp As Hs Hsp He O Sx Uo Uc Hphi) as (Lx0 & El & _ & ng & Lm & FZ).
  unfold solve in Hso. destruct (unconstrained (pr_fn p)).
  { destruct (run_opt _ _ _ _ _ _ _ _ _ _); discriminate. }
  destruct (solve_constrained _ _ _ _ _ _ _ _ _ _) as [d'|] eqn:Hsol; [|discriminate]. injection Hso as ->. cbn [optimum] in Hd.
  fold P in Hsol. set (n := length (pr_x0 p)) in *.
  assert (Sz : sized P n (length (pr_mu0 p)) (length (pr_lam0 p))).
  { intros z Lz. destruct (FZ z) as (_ & L1 & L2 & _); [congruence|]. rewrite Lm, El. split; [exact L1|]. cbn [solver_problem ModelSolver.p_h]. change (@length R (list_of (h_scaled p z)) = 0%nat). now rewrite L2. }
  destruct (prepare_multipliers _ a p Hp) as (g0 & h0 & _ & _ & Em & _).
  assert (Pm : List.Forall (fun m => 0 <= m) (pr_mu0 p)).
  { rewrite Em. apply List.Forall_forall. intros m I. apply in_map_iff in I as (? & <- & _). lra. }
  destruct (solve_inv _ _ _ Hcnt P _ _ _ _ _ _ _ Hsol) as (d1' & Hml' & Hlast & _).
  assert (d1' = d1) by (cbn [T R_num] in *; congruence). subst d1'.
  pose proof (proj1 (main_inv _ _ _ Hcnt P _ _ _ _ _ _ _ Hml)) as Hps.
  assert (S0 : sound_state (x_fin E) n (length (pr_mu0 p)) (length (pr_lam0 p)) (init_dict (R_num (x_fin E)) P (pr_x0 p) (qc_c_init a) (pr_lam0 p) (pr_mu0 p))).
  { repeat split; try assumption; simpl; try reflexivity; try lra. }
  assert (Hmask : p_mask _ P = gplus_hard (R_num (x_fin E))) by reflexivity.
  assert (Hgr : 0 < p_growth _ P) by exact Hg.
  pose proof (passes_sound _ _ _ Hcnt P Hmask n _ _ Sz Hsh Hgr _ _ Hps S0) as S1.
  pose proof (pass_sound _ _ _ Hcnt P Hmask n _ _ Sz Hsh Hgr _ _ _ _ _ _ S1 Hlast) as S2.
  pose proof S1 as (_ & _ & _ & Hc1 & _ & _). fold c in Hc1. split; [exact Hc1|].
  assert (Ld : length (d_x _ d : list R) = q_ndofs (fn_qp (pr_fn p))) by (rewrite <- Lx0; apply S2).
  destruct (FZ (d_x _ d) Ld) as (Ed & _ & Lh & (yv & rv & Fy & Wv & Bv) & Hrx & _).
  set (x := map (fun v => v * pr_unit p) (d_x _ d)) in *. exists x.
  split; [rewrite Ed in Hd; now injection Hd as <-|]. split; [unfold x; rewrite map_length; exact Ld|].
  destruct (body_inv _ _ _ Hcnt P _ _ _ _ _ _ Hlast) as (r0 & _ & _ & _ & _ & Ef & Eg & Eh & _).
  assert (Efd : d_f _ d = yv). { rewrite Ef. cbn [P solver_problem ModelSolver.p_f]. change (real_of (f_scaled p (d_x (R_num (x_fin E)) d)) = yv). rewrite Fy. reflexivity. }
  split; [exists rv; split; [exact Wv|rewrite Efd; exact Bv]|]. split; [|split].
  - intros y r Ly Fy' Wy best.
    set (z := map (fun v => v / pr_unit p) y). assert (Lz : length z = q_ndofs (fn_qp (pr_fn p))) by (unfold z; now rewrite map_length).
    assert (Ez : map (fun v => v * pr_unit p) z = y).
    { unfold z. rewrite map_map. rewrite <- (map_id y) at 2. apply map_ext. intros v. field. exact Hu. }
    destruct (FZ z Lz) as (_ & _ & Lhz & (yz & rz & Fz & Wz & Bz) & _ & Az). rewrite Ez in *.
    assert (rz = r) by exact (ProofNfp3.weighted_det _ _ _ _ _ _ Wz Wy). subst rz.
    assert (Adm : admissible P z).
    { split; apply List.Forall_forall; [exact (Az Fy')|]. cbn [P solver_problem ModelSolver.p_h]. rewrite Lhz. intros v []. }
    assert (Pz : p_f (R_num (x_fin E)) P z = yz) by (cbn [P solver_problem ModelSolver.p_f]; rewrite Fz; reflexivity).
    assert (Lz' : length z = n) by (etransitivity; [exact Lz|symmetry; exact Lx0]).
    pose proof (Hrel z Lz') as D. pose proof (admissible_value (x_fin E) P n _ _ Sz d1 z S1 Lz' Adm) as D2.
    change (A z <= p_f (R_num (x_fin E)) P z) in D2. rewrite Pz in D2.
    assert (D3 : aug (x_fin E) P d1 (d_x _ d) <= best) by (change (aug (x_fin E) P d1 (d_x _ d)) with (A (d_x _ d)); unfold best; lra).
    pose proof (violations (x_fin E) _ _ Hcnt P Hmask n _ _ Sz Hsh _ _ _ _ _ _ _ S1 Hlast D3) as (_ & V1 & _).
    rewrite Ef, Eg. split; [|exact V1].
    rewrite (reported_squares (x_fin E) _ _ Hcnt P Hmask n _ _ Sz Hsh _ _ _ _ _ _ S1 Hlast) in D3.
    pose proof (squares_pos (d_lam _ d)). pose proof (squares_pos (d_mu _ d)). fold c in D3. unfold W.
    set (a1 := squares (d_lam _ d)) in *. set (b1 := squares (d_mu _ d)) in *.
    set (a2 := squares (d_lam _ d1)) in *. set (b2 := squares (d_mu _ d1)) in *.
    assert (0 <= (a1 + b1) / (2 * c)) by (apply Rmult_le_pos; [lra|left; apply Rinv_0_lt_compat; lra]).
    replace ((a1 + b1 - a2 - b2) / (2 * c)) with ((a1 + b1) / (2 * c) - (a2 + b2) / (2 * c)) in D3 by (field; lra). lra.
  - rewrite Eh. exact Lh.
  - intros k Hk. apply Hrx. intros v Iv. apply Hk. rewrite Eg. exact Iv.
Qed.
Print Assumptions C149_near_optimal_design.

(** Without constraints the design is within [tol] and the loss of the best one
    when the optimiser came within [tol] of the smallest value of what it was given. *)
Theorem C149_near_optimal_unconstrained :
  forall other (E : library) (a : args (x_solver E)) eps os cs o p r tol,
  counted (x_opt E) -> shaped (x_opt E) ->
  asks a os cs -> qc_smoothing a = Some "approx" -> qc_smoothing_params a = [("lse_epsilon", eps)] -> 0 < eps ->
  quadcoil (package other) E a = Some (Ok o) -> o_results E o = Direct E r ->
  let q := o_qp E o in
  ordered q -> (exists x, sound q x) -> (forall x, qc_phi_init a = Some x -> length x = q_ndofs q) ->
  (forall t, In t os -> 0 <= ob_weight t /\ smooth_use q (ob_name t) (ob_unit t)) ->
  (forall c, In c cs -> uc_cmp c <> EQ /\ smooth_use q (uc_name c) (uc_unit c)) ->
  prepare (package other) a = Ok p -> pr_unit p <> 0 ->
  (forall z, length z = length (pr_x0 p) -> real_of (f_scaled p (r_x _ r)) <= real_of (f_scaled p z) + tol) ->
  cs = [] /\
  exists x, o_dofs E o = [("phi", Arr [length x] x)] /\ length x = q_ndofs q /\
    exists v, weighted other q (asked_terms os) x v /\
      forall y w, length y = q_ndofs q -> weighted other q (asked_terms os) y w -> v <= w + tol + eps * objective_loss q os.
Proof.
  intros other E a eps os cs o p r tol Hcnt Hsh As Hs Hsp He Hq Hr q O Sx Hphi Uo Uc Hp Hu Hrel.
  destruct (quadcoil_ok _ E a o Hq) as (p' & r' & dofs & Hp' & Hso & _ & Hd & E1 & E2 & E3).
  assert (p' = p) by congruence. subst p'. rewrite Hr in E3. subst r'. subst q. rewrite E1 in *. rewrite E2. clear E1 E2 Hr Hq Hp'.
  destruct (smooth_facts other E a p eps os cs Hp As Hs Hsp He O Sx Uo Uc Hphi) as (Lx0 & El & Cs & ng & Lm & FZ).
  unfold solve in Hso. destruct (unconstrained (pr_fn p)).
  2: { destruct (solve_constrained _ _ _ _ _ _ _ _ _ _); discriminate. }
  split; [now apply Cs|].
  destruct (run_opt _ _ _ _ _ _ _ _ _ _) as [r''|] eqn:Hrun; [|discriminate]. injection Hso as ->. cbn [optimum] in Hd.
  assert (Lr : length (r_x _ r : list R) = length (pr_x0 p)).
  { eapply run_length; eassumption. }
  assert (Lr' : length (r_x _ r : list R) = q_ndofs (fn_qp (pr_fn p))) by (etransitivity; [exact Lr|exact Lx0]).
  destruct (FZ _ Lr') as (Ed & _ & _ & (yv & rv & Fy & Wv & Bv) & _). eexists. split; [rewrite Ed in Hd; injection Hd as <-; reflexivity|]. split; [rewrite map_length; exact Lr'|].
  exists rv. split; [exact Wv|]. intros y w Ly Wy.
  set (z := map (fun v => v / pr_unit p) y). assert (Lz : length z = q_ndofs (fn_qp (pr_fn p))) by (unfold z; now rewrite map_length).
  assert (Ez : map (fun v => v * pr_unit p) z = y).
  { unfold z. rewrite map_map. rewrite <- (map_id y) at 2. apply map_ext. intros v. field. exact Hu. }
  destruct (FZ z Lz) as (_ & _ & _ & (yz & rz & Fz & Wz & Bz) & _). rewrite Ez in *.
  assert (rz = w) by exact (ProofNfp3.weighted_det _ _ _ _ _ _ Wz Wy). subst rz.
  pose proof (Hrel z ltac:(congruence)) as D. rewrite Fz in D. change (real_of (Ok (scal yz))) with yz in D.
  replace (real_of (f_scaled p (r_x _ r))) with yv in D; [lra|]. change (yv = real_of (f_scaled p (r_x (R_num (x_fin E)) r))). rewrite Fy. reflexivity.
Qed.
Print Assumptions C149_near_optimal_unconstrained.

(** A call whose surfaces can be built, whose quantities exist and are used as
    they may be, and whose metrics exist (numbers, if gradients are wanted),
    returns, with the constraints merged or not; it returns coefficients of the
    right number and, under the name of every metric other than f_obj, the
    value of that quantity at them, unsmoothed. *)
Theorem C149_valid_calls_return :
  forall other (E : library) (a : args (x_solver E)) q eps os cs,
  counted (x_opt E) -> shaped (x_opt E) ->
  builds a q -> asks a os cs -> qc_smoothing a = Some "approx" -> qc_smoothing_params a = [("lse_epsilon", eps)] -> 0 < eps ->
  0 < qc_c_init a -> 0 < qc_c_growth a ->
  ordered q -> (exists x, sound q x) -> (forall x, qc_phi_init a = Some x -> length x = q_ndofs q) ->
  (forall b, qc_Bnormal a = Some b -> wf b) ->
  (qc_phi_unit a = None -> qc_distance a = None -> qc_plasma_dofs a <> [] /\ qc_winding_dofs a <> Some []) ->
  (forall t, In t os -> 0 <= ob_weight t /\ smooth_use q (ob_name t) (ob_unit t) /\ supported (package other) (ob_name t) "f" (UScalar (ob_unit t))) ->
  (forall c, In c cs -> uc_cmp c <> EQ /\ smooth_use q (uc_name c) (uc_unit c) /\ supported (package other) (uc_name c) (op_string (uc_cmp c)) (UScalar (uc_unit c))) ->
  (forall m, In m (metrics a) -> reportable q (negb (qc_value_only a)) m) ->
  (Nat.max 1 (qc_maxiter_tot a) <= x_fuel_out E)%nat -> (Nat.max 1 (Nat.max (qc_maxiter_tot a) (qc_maxiter_inner a)) <= x_fuel_in E)%nat ->
  exists o, quadcoil (package other) E a = Some (Ok o) /\ o_qp E o = q /\
    exists x, lookup "phi" (o_dofs E o) = Some (Arr [length x] x) /\ length x = q_ndofs q /\
      forall m, In m (metrics a) -> m <> "f_obj" ->
        exists e v, lookup m (o_out E o) = Some e /\ e_value e = Some v /\ reads other m q x v.
Proof.
  intros other E a q eps os cs Hcnt Hsh Bq As Hs Hsp He Hc Hg O Sx Hphi Hwf Hun Uo' Uc' Hmet Fo Fi.
  assert (Uo : forall t, In t os -> 0 <= ob_weight t /\ smooth_use q (ob_name t) (ob_unit t)) by (intros t I; destruct (Uo' t I) as (? & ? & _); auto).
  assert (Uc : forall c, In c cs -> uc_cmp c <> EQ /\ smooth_use q (uc_name c) (uc_unit c)) by (intros c I; destruct (Uc' c I) as (? & ? & _); auto).
  destruct (smooth_prepare other a q eps os cs Bq As Hs Hsp He O Sx Uo Uc ltac:(intros t I; apply (Uo' t I)) ltac:(intros c I; apply (Uc' c I)) Hphi Hun) as (p & Hp & Fq).
  subst q. destruct (smooth_facts other E a p eps os cs Hp As Hs Hsp He O Sx Uo Uc Hphi) as (Lx0 & El & _ & ng & Lm & FZ).
  assert (Sol : exists r, solve E a p = Some r /\ length (optimum E r) = length (pr_x0 p)).
  { unfold solve. destruct (unconstrained (pr_fn p)).
    - destruct (run_opt_terminates _ (x_opt E) (x_autograd E) Hcnt (fun x => real_of (f_scaled p x)) (pr_x0 p) (x_fuel_in E) (qc_maxiter_tot a)
        (fstop_inner_last (qc_tol a)) (xstop_inner_last (qc_tol a)) (gtol_inner (qc_tol a))) as (r & Hr); [lia|].
      rewrite Hr. exists (Direct E r). split; [reflexivity|]. cbn [optimum]. eapply run_length; eassumption.
    - destruct (outer_terminates _ (x_opt E) (x_autograd E) Hcnt (solver_problem E a p) (pr_x0 p) (qc_c_init a) (pr_lam0 p) (pr_mu0 p) (x_fuel_out E) (x_fuel_in E)) as (d & Hd & _);
        [cbn [solver_problem p_maxiter_inner p_maxiter_tot]; lia|cbn [solver_problem p_maxiter_inner p_maxiter_tot]; lia|].
      rewrite Hd. exists (Constrained E d). split; [reflexivity|]. cbn [optimum].
      destruct (prepare_multipliers _ a p Hp) as (g0 & h0 & _ & _ & Em & _).
      assert (Pm : List.Forall (fun m => 0 <= m) (pr_mu0 p)).
      { rewrite Em. apply List.Forall_forall. intros m I. apply in_map_iff in I as (? & <- & _). lra. }
      set (P := solver_problem E a p) in *.
      assert (Sz : sized P (length (pr_x0 p)) (length (pr_mu0 p)) (length (pr_lam0 p))).
      { intros z Lz. destruct (FZ z) as (_ & L1 & L2 & _); [etransitivity; [exact Lz|exact Lx0]|]. rewrite Lm, El. split; [exact L1|]. cbn [P solver_problem ModelSolver.p_h].
        change (@length R (list_of (h_scaled p z)) = 0%nat). now rewrite L2. }
      destruct (solve_inv _ _ _ Hcnt P _ _ _ _ _ _ _ Hd) as (d1 & Hml & Hlast & _).
      pose proof (proj1 (main_inv _ _ _ Hcnt P _ _ _ _ _ _ _ Hml)) as Hps.
      assert (S0 : sound_state (x_fin E) (length (pr_x0 p)) (length (pr_mu0 p)) (length (pr_lam0 p)) (init_dict (R_num (x_fin E)) P (pr_x0 p) (qc_c_init a) (pr_lam0 p) (pr_mu0 p))).
      { repeat split; try assumption; simpl; try reflexivity; try lra. }
      pose proof (passes_sound _ _ _ Hcnt P eq_refl _ _ _ Sz Hsh Hg _ _ Hps S0) as S1.
      apply (pass_sound _ _ _ Hcnt P eq_refl _ _ _ Sz Hsh Hg _ _ _ _ _ _ S1 Hlast). }
  destruct Sol as (r & Hr & Lr). assert (Lr' : length (optimum E r) = q_ndofs (fn_qp (pr_fn p))) by (etransitivity; [exact Lr|exact Lx0]).
  destruct (FZ _ Lr') as (Ed & _ & _ & (y & r1 & Ey & _) & _). set (x := map (fun v => v * pr_unit p) (optimum E r)) in *. set (d := [("phi", vec_arr x)]) in *.
  assert (Lx : length x = q_ndofs (fn_qp (pr_fn p))) by (unfold x; rewrite map_length; exact Lr'). assert (Lp : lookup "phi" d = Some (Arr [length x] x)) by reflexivity. clearbody d.
  destruct Sx as (x0 & S0). pose proof (PropConvex.sound_all _ x0 S0 x Lx) as S.
  assert (Call : forall Q, call Q (fn_qp (pr_fn p)) d = value_of Q (fn_qp (pr_fn p)) x).
  { intros Q. unfold value_of, call, getitem. rewrite Lp. reflexivity. }
  assert (Val : forall m, In m (metrics a) -> m <> "f_obj" -> exists Q v, get_quantity (package other) m = Ok Q /\ call Q (fn_qp (pr_fn p)) d = Ok v /\
    (qc_value_only a = false -> isscalar v = true)).
  { intros m I Hn. destruct (Hmet m I) as [->|(k & Ik & Ne & Kt & Nu)]; [contradiction|].
    destruct (value_sound other _ x S m k Ik Ne Kt) as (Q & v & G & V & Sv & W). exists Q, v. split; [exact G|]. split; [now rewrite Call|].
    intros Hv. rewrite Hv in Nu. specialize (Nu eq_refl). subst k. unfold isscalar. cbn [shape_of] in Sv. unfold ndim. now rewrite Sv. }
  assert (Mt : forall m v, m <> "f_obj" -> (forall Q, get_quantity (package other) m = Ok Q -> call Q (fn_qp (pr_fn p)) d = Ok v) ->
    (exists Q, get_quantity (package other) m = Ok Q) -> reads other m (fn_qp (pr_fn p)) x v).
  { intros m v _ H (Q & G). exists Q. split; [exact G|]. rewrite <- Call. now apply H. }
  unfold quadcoil. rewrite Hp, Hr. unfold finish. rewrite Ed. cbn [bind].
  assert (Fobj : fn_f (pr_fn p) (fn_qp (pr_fn p)) d = Ok (scal y)).
  { unfold f_scaled in Ey. rewrite Ed in Ey. exact Ey. }
  destruct (qc_value_only a) eqn:Ev.
  - destruct (value_metrics_ex (package other) (metrics a) (pr_fn p) d []) as (out & Eout).
    { intros m I. destruct (String.eqb_spec m "f_obj"); [eauto|]. destruct (Val m I n) as (Q & v & G & V & _). eauto. }
    rewrite Eout. cbn [bind]. eexists. split; [reflexivity|]. cbn [o_qp o_dofs o_out]. split; [reflexivity|]. exists x. split; [exact Lp|]. split; [exact Lx|].
    intros m I Hn. destruct (value_metrics_ok _ _ _ _ _ _ Eout) as (K & _). destruct (K m I Hn) as (Q & v & G & V & L). do 2 eexists. split; [exact L|]. split; [reflexivity|].
    exists Q. split; [exact G|]. now rewrite <- Call.
  - assert (Yq : y_to_qp a (pr_qd p) (unravel (structure (pr_y p)) (ravel (pr_y p))) = Ok (fn_qp (pr_fn p))) by (eapply metric_at_inputs; eassumption).
    assert (FM : forall m, f_metric (package other) E a p m (optimum E r) (ravel (pr_y p)) =
      if String.eqb m "f_obj" then Ok (scal y) else bind (get_quantity (package other) m) (fun Q => call Q (fn_qp (pr_fn p)) d)).
    { intros m. unfold f_metric. rewrite Yq. cbn [bind]. rewrite Ed. cbn [bind]. now rewrite Fobj. }
    match goal with |- context [grad_metrics _ _ _ _ _ _ ?o0] => destruct (grad_metrics_ex (package other) E (metrics a) a p r o0) as (out & Eout) end.
    { intros m I. rewrite FM. destruct (String.eqb_spec m "f_obj"); [exists (scal y); split; reflexivity|].
      destruct (Val m I n) as (Q & v & G & V & Sv). exists v. rewrite G. cbn [bind]. split; [exact V|now apply Sv]. }
    rewrite Eout. cbn [bind]. eexists. split; [reflexivity|]. cbn [o_qp o_dofs o_out]. split; [reflexivity|]. exists x. split; [exact Lp|]. split; [exact Lx|].
    intros m I Hn. destruct (grad_metrics_ok _ _ _ _ _ _ _ _ Eout) as (K & _). destruct (K m I) as (v & V & _ & L). do 2 eexists. split; [exact L|]. split; [reflexivity|].
    rewrite FM in V. destruct (String.eqb_spec m "f_obj"); [contradiction|]. destruct (get_quantity (package other) m) as [Q|] eqn:G; [|discriminate V]. cbn [bind] in V.
    exists Q. split; [exact G|]. now rewrite <- Call.
Qed.
Print Assumptions C149_valid_calls_return.

(** Non-trivial cases: the call of WitnessApproxCall with two constraints,
    merged or not, and the call without constraints.  They return; the optimiser
    stays where it starts, which is the best it can do, so that [tol] is 0; and
    there is a design that meets the constraints with the margin. *)
Lemma case_returns merge cs : cs = bounds149 \/ cs = [] -> exists o, quadcoil (package []) E120 (call149 merge cs) = Some (Ok o) /\ o_qp E120 o = shown.
Proof.
  intros Hcs. destruct call_hypotheses as (H1 & H2 & H3 & H4).
  destruct (C149_valid_calls_return [] E120 (call149 merge cs) shown (1/100) terms120 cs H1 H2 (case_builds merge cs Hcs) (case_asks merge cs) eq_refl eq_refl
    ltac:(lra) ltac:(cbn; lra) ltac:(cbn; lra) H3 H4 ltac:(discriminate) ltac:(intros b [= <-]; reflexivity) ltac:(discriminate)
    case_terms (case_bounds cs Hcs) (case_metrics merge cs) (le_n _) (le_n _)) as (o & Hq & Eq & _). eauto.
Qed.
Example C149_example :
  (forall merge, exists o p d d1, quadcoil (package []) E120 (call149 merge bounds149) = Some (Ok o) /\ o_results E120 o = Constrained E120 d /\ o_qp E120 o = shown /\
    prepare (package []) (call149 merge bounds149) = Ok p /\ pr_unit p <> 0 /\
    main_loop _ (x_opt E120) (x_autograd E120) (solver_problem E120 (call149 merge bounds149) p) (x_fuel_out E120) (x_fuel_in E120)
      (init_dict _ (solver_problem E120 (call149 merge bounds149) p) (pr_x0 p) (qc_c_init (call149 merge bounds149)) (pr_lam0 p) (pr_mu0 p)) = Some d1 /\
    (let P := solver_problem E120 (call149 merge bounds149) p in
     let A := augmented (p_f _ P) (p_g _ P) (p_h _ P) (d_c _ d1) (d_lam _ d1) (d_mu _ d1) in
     forall z : list R, length z = length (pr_x0 p) -> A (d_x _ d) <= A z + 0) /\
    SpecConvex.feasible [] shown (asked_bounds (cautious shown (1/100) merge bounds149)) [0; 0; 0; 0]) /\
  (exists o p r, quadcoil (package []) E120 (call149 false []) = Some (Ok o) /\ o_results E120 o = Direct E120 r /\ o_qp E120 o = shown /\
    prepare (package []) (call149 false []) = Ok p /\ pr_unit p <> 0 /\
    forall z : list R, length z = length (pr_x0 p) -> real_of (f_scaled p (r_x _ r)) <= real_of (f_scaled p z) + 0).
Proof.
  split.
  - intros merge. destruct (case_returns merge bounds149 (or_introl eq_refl)) as (o & Hq & Eq).
    destruct (quadcoil_ok _ _ _ _ Hq) as (p & r & dofs & Hp & Hso & _ & Hd & E1 & E2 & E3).
    destruct (case_start merge bounds149 (or_introl eq_refl) p Hp) as (Un & _ & Uc). unfold solve in Hso. rewrite Uc, andb_false_r in Hso.
    destruct (solve_constrained _ _ _ _ _ _ _ _ _ _) as [d|] eqn:Hsol; [|discriminate]. injection Hso as <-.
    destruct (solve_inv _ _ _ stay_counted _ _ _ _ _ _ _ _ Hsol) as (d1 & Hml & _).
    exists o, p, d, d1. split; [exact Hq|]. split; [exact E3|]. split; [exact Eq|]. split; [exact Hp|]. split; [rewrite Un; lra|]. split; [exact Hml|]. split.
    + exact (case_rests merge bounds149 (or_introl eq_refl) p d1 d Hp Hml Hsol).
    + exact (case_zeros merge bounds149 (or_introl eq_refl)).
  - destruct (case_returns false [] (or_intror eq_refl)) as (o & Hq & Eq).
    destruct (quadcoil_ok _ _ _ _ Hq) as (p & r & dofs & Hp & Hso & _ & Hd & E1 & E2 & E3).
    destruct (case_start false [] (or_intror eq_refl) p Hp) as (Un & _ & Uc). unfold solve in Hso. rewrite Uc in Hso. cbn [negb andb] in Hso.
    destruct (run_opt _ _ _ _ _ _ _ _ _ _) as [r0|] eqn:Hr; [|discriminate]. injection Hso as <-.
    exists o, p, r0. split; [exact Hq|]. split; [exact E3|]. split; [exact Eq|]. split; [exact Hp|]. split; [rewrite Un; lra|].
    exact (case_free false [] (or_intror eq_refl) p r0 Hp Hr).
Qed.
