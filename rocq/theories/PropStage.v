(** Property C132: the function that is differentiated implicitly. *)
From Coq Require Import String List Bool Arith ZArith Reals Lra Lia.
From Coquelicot Require Import Coquelicot.
From Verif Require Import Base ModelArray ModelMath ModelQuantity ModelWrapper ModelSurface ModelParams ModelField
  ModelSolver SpecSolver WitnessSolver SpecWrapper WitnessWrapper ModelQuadcoil SpecMath SpecSurface SpecQuadcoil SpecCert
  ProofLinear ProofQuadcoil ProofQuadcoil2 ProofQuadcoil5 ProofStage
  WitnessSurface WitnessField WitnessQuadcoil WitnessQuadcoil2 WitnessQuadcoil3.
Import ListNotations.
Open Scope R_scope.
Open Scope string_scope.
Open Scope list_scope.

(** ** C132 *)
(** Without constraints: at the inputs of any call with the same settings, the
    objective of that call. *)
Theorem C132_objective :
  forall ns E (a b : args (x_solver E)) p p' r x d v, prepare ns a = Ok p -> prepare ns b = Ok p' -> same_settings a b ->
  (forall Bn, qc_Bnormal b = Some Bn -> wf Bn) -> structure (y_dict b) = structure (y_dict a) ->
  unscale (pr_structure p) (pr_unit p) x = Ok d -> fn_f (pr_fn p') (fn_qp (pr_fn p')) d = Ok v ->
  gs_l (setup ns E a p (Direct E r)) x (ravel (y_dict b)) = nth 0 (el v) 0.
Proof. intros ns E a b p p' r x d v. apply direct_elsewhere. Qed.
Print Assumptions C132_objective.
(** (x - 7)^2 at the inputs of a call with net current 7, from a call with 5. *)
Example C132_objective_example : forall x r,
  gs_l (setup user_ns EU (free 5 (NStr "product") false false) (free_p 5 (NStr "product") false false) (Direct EU r)) [x]
    (ravel (y_dict (free 7 (NStr "product") false false))) = (x - 7) * (x - 7).
Proof.
  intros x r. refine (eq_trans (C132_objective user_ns EU (free 5 (NStr "product") false false) (free 7 (NStr "product") false false)
    (free_p 5 (NStr "product") false false) (free_p 7 (NStr "product") false false) r [x] [("phi", Arr [1%nat] [x * 1])]
    (scal (0 + (x * 1 - 7) * (x * 1 - 7) / Rabs 1 * 1))
    (free_prepared _ _ _ _) (free_prepared _ _ _ _) _ _ _ _ _) _).
  - split; [reflexivity|]. split; split; auto; discriminate.
  - discriminate.
  - reflexivity.
  - reflexivity.
  - calc. reflexivity.
  - cbn. rewrite Rabs_R1. field.
Qed.
(** With constraints and the thresholding function of the solver: the classical
    augmented Lagrangian of that call with the reported multipliers and penalty. *)
Theorem C132_lagrangian :
  forall ns E (a b : args (x_solver E)) p p' (D : ModelSolver.dict (R_num (x_fin E))) x d vf vg vh,
  qc_gplus_mask a = gplus_hard (R_num (x_fin E)) -> prepare ns a = Ok p -> prepare ns b = Ok p' -> same_settings a b ->
  (forall Bn, qc_Bnormal b = Some Bn -> wf Bn) -> structure (y_dict b) = structure (y_dict a) ->
  unscale (pr_structure p) (pr_unit p) x = Ok d ->
  fn_f (pr_fn p') (fn_qp (pr_fn p')) d = Ok vf -> fn_g (pr_fn p') (fn_qp (pr_fn p')) d = Ok vg -> fn_h (pr_fn p') (fn_qp (pr_fn p')) d = Ok vh ->
  0 < d_c _ D -> length (d_mu _ D : list R) = length (el vg) -> length (d_lam _ D : list R) = length (el vh) ->
  gs_l (setup ns E a p (Constrained E D)) x (ravel (y_dict b))
  = augmented (fun _ => nth 0 (el vf) 0) (fun _ => el vg) (fun _ => el vh) (d_c _ D) (d_lam _ D) (d_mu _ D) x.
Proof. intros ns E a b p p' D x d vf vg vh Hm. intros. rewrite constrained_l. apply (lagrangian_elsewhere ns E a b p p' (d_mu _ D) (d_lam _ D) (d_c _ D) x d vf vg vh); assumption. Qed.
Print Assumptions C132_lagrangian.
(** It is the function [F] minimised in the last run of the optimiser when that
    pass left the multipliers and the penalty as they were. *)
Theorem C132_last_function_partial :
  forall ns E (a : args (x_solver E)) o p D, quadcoil ns E a = Some (Ok o) -> prepare ns a = Ok p -> o_results E o = Constrained E D ->
  qc_gplus_mask a = gplus_hard (R_num (x_fin E)) -> (forall Bn, qc_Bnormal a = Some Bn -> wf Bn) ->
  exists d0 r F, let u := d_xunit _ d0 in
    main_loop (R_num (x_fin E)) (x_opt E) (x_autograd E) (solver_problem E a p) (x_fuel_out E) (x_fuel_in E)
      (init_dict _ (solver_problem E a p) (pr_x0 p) (qc_c_init a) (pr_lam0 p) (pr_mu0 p)) = Some d0 /\
    run_opt _ (x_opt E) (x_autograd E) (x_fuel_in E) (map (fun v => v / u) (d_x _ d0)) F (qc_maxiter_inner a)
      (fstop_inner_last (qc_tol a)) (xstop_inner_last (qc_tol a)) (gtol_inner_last (qc_tol a)) = Some r /\
    d_x _ D = map (fun v => v * u) (r_x _ r) /\
    (d_c _ D = d_c _ d0 -> d_lam _ D = d_lam _ d0 -> d_mu _ D = d_mu _ d0 ->
     forall x, gs_l (setup ns E a p (Constrained E D)) (map (fun v => v * u) x) (ravel (y_dict a)) = F x).
Proof.
  intros ns E a o p D Hq Hp Hr Hm HB. destruct (quadcoil_ok ns E a o Hq) as (p' & r' & dofs & Hp' & Hs & _ & _ & _ & _ & Hr').
  assert (p' = p) by congruence. subst p'. rewrite Hr in Hr'. subst r'. destruct (last_run E a p D Hs) as (d0 & r & H1 & H2 & H3).
  exists d0, r. eexists. cbv zeta. split; [exact H1|]. split; [exact H2|]. split; [exact H3|]. intros Ec El Em x.
  rewrite constrained_l, Ec, El, Em. destruct (prepare_fields ns a p Hp) as (_ & _ & _ & Ey & _). rewrite <- Ey.
  apply lagrangian_handed; assumption.
Qed.
Print Assumptions C132_last_function_partial.

(** Minimise x^2 under x == v with Newton steps, which are exact here. *)
Definition off_call (v : R) : args unit := tied 0 "square" "phi0" "==" v (NStr "phi0") None false false hard.
Definition off_p v := prep_of (off_call v) [0] 0 1.
Lemma off_prepared v : prepare user_ns (off_call v) = Ok (off_p v).
Proof.
  refine (prepare_steps user_ns (off_call v) qdU (fn_of (off_call v)) 1 [("phi_scaled", vec_arr [0/1])] (Arr [0%nat] [])
     (Arr [1%nat] [1 * (0 / 1 * 1 / Rabs 1 - v / Rabs 1)])
     _ eq_refl eq_refl eq_refl _ eq_refl eq_refl eq_refl _ eq_refl eq_refl); reflexivity.
Qed.
Lemma off_f v x : real_of (f_scaled (off_p v) [x]) = x * x.
Proof. transitivity (0 + x * 1 * (x * 1) / Rabs 1 * 1); [calc; reflexivity|]. rewrite Rabs_R1. field. Qed.
Lemma off_h v x : list_of (h_scaled (off_p v) [x]) = [x - v].
Proof. transitivity [1 * (x * 1 / Rabs 1 - v / Rabs 1)]; [calc; reflexivity|]. rewrite Rabs_R1. lring. Qed.
Definition off_P v := solver_problem EN (off_call v) (off_p v).
Lemma off_lk (v u c l x : R) :
  l_k RN (off_P v) u c [l] [] [x] = x * u * (x * u) + l * (x * u - v) + c / 2 * ((x * u - v) * (x * u - v)).
Proof.
  unfold l_k, off_P. cbn [solver_problem ModelSolver.p_f ModelSolver.p_g ModelSolver.p_h ModelSolver.p_mask EN fd_lib x_fin].
  change (vmuls RN [x] u) with [x * u]. rewrite off_f, off_h. cbn. field.
Qed.
Definition newton_rule := fun (f : list R -> R) (x g : list R) => map (fun a => - a / second f x 0 0) g.
Lemma off_second (v u l x : R) : second (l_k RN (off_P v) u 1 [l] []) [x] 0 0 = 3 * u * u.
Proof. unfold second. cbn [bump]. rewrite !off_lk. field. Qed.
Lemma off_central (v u l x : R) : central (l_k RN (off_P v) u 1 [l] []) [x] = [u * (3 * (x * u) + l - v)].
Proof. unfold central. cbn [length seq map bump]. rewrite !off_lk. lring. Qed.
Lemma off_moved v (d : ModelSolver.dict RN) x l u : d_x _ d = [x] -> d_c _ d = 1 -> d_lam _ d = [l] -> d_mu _ d = [] -> d_xunit _ d = u -> u <> 0 ->
  moved newton_rule (off_P v) d = [(v - l) / 3].
Proof.
  intros Ex Ec El Em Eu Nu. unfold moved. rewrite Ex, Ec, El, Em, Eu. change (vdivs RN [x] u) with [x / u].
  unfold newton_rule. rewrite off_central. cbn [map]. rewrite off_second. cbn. apply (f_equal2 (@cons R)); [field; exact Nu|reflexivity].
Qed.
Lemma off_solved v : exists d0 D r, let u := unit_of [v / 3] in solve EN (off_call v) (off_p v) = Some (Constrained EN D) /\
  main_loop RN newton central (off_P v) 1 1 (init_dict _ (off_P v) (pr_x0 (off_p v)) 1 (pr_lam0 (off_p v)) (pr_mu0 (off_p v))) = Some d0 /\
  run_opt RN newton central 1 (map (fun v => v / d_xunit _ d0) (d_x _ d0)) (l_k _ (off_P v) (d_xunit _ d0) 1 [- 2 / 3 * v] []) 1
      (fstop_inner_last loose) (xstop_inner_last loose) (gtol_inner_last loose) = Some r /\
  d_x _ D = [5 / 9 * v] /\ d_c _ D = 1 /\ d_lam _ D = [- 10 / 9 * v] /\ d_mu _ D = [] /\ d_x _ d0 = [v / 3] /\ d_c _ d0 = 1 /\ d_lam _ d0 = [- 2 / 3 * v] /\ d_mu _ d0 = [] /\
  d_xunit _ d0 = u /\ [5 / 9 * v] = map (fun v => v * d_xunit _ d0) (r_x _ r).
Proof.
  set (i0 := init_dict RN (off_P v) (pr_x0 (off_p v)) 1 (pr_lam0 (off_p v)) (pr_mu0 (off_p v))). 
  destruct (one_body newton_rule (off_P v) eq_refl i0 (p_fstop RN (off_P v)) (p_xstop RN (off_P v)) (p_gtol RN (off_P v))) as (d1 & B1 & T1 & X1 & _ & _ & C1 & L1 & M1 & U1).
  assert (E0 : moved newton_rule (off_P v) i0 = [v / 3]).
  { rewrite (off_moved v i0 (0 / 1) 0 1); try reflexivity; [lring|lra]. }
  assert (Hh : forall x, ModelSolver.p_h RN (off_P v) [x] = [x - v]) by (intros; apply off_h).
  rewrite E0 in *. rewrite Hh in L1. change (d_c RN i0) with 1 in *.
  assert (L1' : d_lam RN d1 = [- 2 / 3 * v]) by (rewrite L1; cbn; lring).
  assert (M1' : d_mu RN d1 = []) by (rewrite M1; reflexivity).
  destruct (one_body newton_rule (off_P v) eq_refl d1 (p_fstop_last RN (off_P v)) (p_xstop_last RN (off_P v)) (p_gtol_last RN (off_P v))) as (d & B2 & T2 & X2 & G2 & HH2 & C2 & L2 & M2 & _).
  assert (E1 : moved newton_rule (off_P v) d1 = [5 / 9 * v]).
  { rewrite (off_moved v d1 (v / 3) (- 2 / 3 * v) (unit_of [v / 3]) X1 C1 L1' M1' U1); [lring|apply unit_nonzero]. }
  rewrite E1 in *. rewrite Hh, C1, L1' in L2. rewrite C1 in *. rewrite M1' in M2.
  assert (Em : main_loop RN newton central (off_P v) 1 1 i0 = Some d1).
  { unfold main_loop. cbn [while_fuel]. assert (O0 : outer_continue RN (off_P v) i0 = true) by reflexivity. rewrite O0.
    change newton with (rule_opt newton_rule). rewrite B1. cbn [while_fuel].
    assert (O1 : outer_continue RN (off_P v) d1 = false) by (unfold outer_continue; rewrite T1; reflexivity). rewrite O1. reflexivity. }
  assert (Hs : solve EN (off_call v) (off_p v) = Some (Constrained EN d)).
  { transitivity (match solve_constrained RN newton central (off_P v) 1 1 (pr_x0 (off_p v)) 1 (pr_lam0 (off_p v)) (pr_mu0 (off_p v)) with
      | Some d => Some (Constrained EN d) | None => None end); [reflexivity|]. unfold solve_constrained. fold i0. rewrite Em.
    unfold last_pass. change newton with (rule_opt newton_rule). rewrite B2. reflexivity. }
  destruct (last_run EN (off_call v) (off_p v) d Hs) as (d0 & r & R1 & R2 & R3).
  assert (d0 = d1). { assert (Some d0 = Some d1); [|congruence]. rewrite <- Em. symmetry. exact R1. } subst d0. clear R1.
  exists d1, d, r. split; [exact Hs|]. split; [exact Em|]. split.
  { change (run_opt RN newton central 1 (map (fun v => v / d_xunit _ d1) (d_x _ d1)) (l_k RN (off_P v) (d_xunit _ d1) (d_c RN d1) (d_lam RN d1) (d_mu RN d1)) 1
      (fstop_inner_last loose) (xstop_inner_last loose) (gtol_inner_last loose) = Some r) in R2. rewrite C1, L1', M1' in R2. exact R2. }
  split; [exact X2|]. split; [exact C2|]. split; [change (d_lam RN d = [- 10 / 9 * v]); rewrite L2; cbn; lring|]. split; [change (d_mu RN d = []); rewrite M2; reflexivity|].
  split; [exact X1|]. split; [exact C1|]. split; [exact L1'|]. split; [exact M1'|]. split; [exact U1|]. exact (eq_trans (eq_sym X2) R3).
Qed.
Lemma off_output v D : solve EN (off_call v) (off_p v) = Some (Constrained EN D) -> d_x _ D = [5 / 9 * v] ->
  exists o, quadcoil user_ns EN (off_call v) = Some (Ok o) /\ o_results EN o = Constrained EN D.
Proof.
  intros Hs XD.
  destruct (call_facts user_ns EN (off_call v) (off_p v) (Constrained EN D) "phi0" (scal (5 / 9 * v * 1)) [("phi", Arr [1%nat] [5 / 9 * v * 1])]) as (o & H1 & _ & H3 & _).
  - apply off_prepared.
  - exact Hs.
  - reflexivity.
  - reflexivity.
  - change (optimum EN (Constrained EN D)) with (d_x _ D). rewrite XD. reflexivity.
  - reflexivity.
  - change (optimum EN (Constrained EN D)) with (d_x _ D). rewrite XD. reflexivity.
  - exists o. auto.
Qed.
(** With v = 0 the multiplier stays 0; inputs of two calls. *)
Example C132_example : forall v, exists o D d0, quadcoil user_ns EN (off_call v) = Some (Ok o) /\ prepare user_ns (off_call v) = Ok (off_p v) /\
  o_results EN o = Constrained EN D /\ qc_gplus_mask (off_call v) = gplus_hard RN /\ qc_Bnormal (off_call v) = None /\
  main_loop RN newton central (off_P v) 1 1 (init_dict _ (off_P v) (pr_x0 (off_p v)) 1 (pr_lam0 (off_p v)) (pr_mu0 (off_p v))) = Some d0 /\
  d_c _ D = d_c _ d0 /\ d_mu _ D = d_mu _ d0 /\ (v = 0 -> d_lam _ D = d_lam _ d0) /\ 0 < d_c _ D /\
  length (d_lam _ D : list R) = length (list_of (h_scaled (off_p v) [1])) /\
  same_settings (off_call 9) (off_call v) /\ structure (y_dict (off_call v)) = structure (y_dict (off_call 9)).
Proof.
  intros v. destruct (off_solved v) as (d0 & D & r & Hs & Hm & Hr & XD & CD & LD & MD & X0 & C0 & L0 & M0 & U0 & Rx).
  destruct (off_output v D Hs XD) as (o & H1 & H3). exists o, D, d0. split; [exact H1|]. split; [apply off_prepared|]. split; [exact H3|].
  split; [reflexivity|]. split; [reflexivity|]. split; [exact Hm|]. split; [exact (eq_trans CD (eq_sym C0))|]. split; [exact (eq_trans MD (eq_sym M0))|].
  split. { intros Ev. transitivity [- 10 / 9 * v]; [exact LD|]. transitivity [- 2 / 3 * v]; [|symmetry; exact L0]. rewrite Ev. lring. }
  split. { assert (0 < 1) by lra. clear - CD H. change (0 < d_c RN D). change (d_c RN D = 1) in CD. rewrite CD. exact H. }
  split. { rewrite off_h. change (length (d_lam RN D) = 1%nat). change (d_lam RN D = [- 10 / 9 * v]) in LD. rewrite LD. reflexivity. }
  split; [|reflexivity]. split; [reflexivity|]. split; split; auto; discriminate.
Qed.
Lemma off_terms x y : length y = 8%nat -> l_sum user_ns EN (off_call 9) (off_p 9) [] [- 10 / 9 * 9] 1 [x] (9 :: y) = x * x - 10 * (x - 9) + 1 / 2 * ((x - 9) * (x - 9)).
Proof.
  intros Ly. eight y. unfold l_sum.
  transitivity (let '(t1, t2, t3) := (0 + x * 1 * (x * 1) / Rabs 1 * 1, - 10 / 9 * 9 * (1 * (x * 1 / Rabs 1 - 9 / Rabs 1)) + 0 + 0,
    1 / 2 * ((1 * (x * 1 / Rabs 1 - 9 / Rabs 1)) * (1 * (x * 1 / Rabs 1 - 9 / Rabs 1)) + 0 + 0)) in t1 + t2 + t3).
  - calc. reflexivity.
  - rewrite Rabs_R1. field.
Qed.
(** With v = 9 the last run ends at the minimiser 5 of the Lagrangian with
    multiplier -6; the multiplier is then updated to -10, and the function
    differentiated has the derivative -4 at the reported design. *)
Theorem C132_stationary_refuted :
  exists ns E (a : args (x_solver E)) o p D d0 r F z x, quadcoil ns E a = Some (Ok o) /\ prepare ns a = Ok p /\ o_results E o = Constrained E D /\
  qc_value_only a = false /\ qc_gplus_mask a = gplus_hard (R_num (x_fin E)) /\ qc_Bnormal a = None /\
  main_loop (R_num (x_fin E)) (x_opt E) (x_autograd E) (solver_problem E a p) (x_fuel_out E) (x_fuel_in E)
    (init_dict _ (solver_problem E a p) (pr_x0 p) (qc_c_init a) (pr_lam0 p) (pr_mu0 p)) = Some d0 /\
  run_opt _ (x_opt E) (x_autograd E) (x_fuel_in E) (map (fun v => v / d_xunit _ d0) (d_x _ d0)) F (qc_maxiter_inner a)
    (fstop_inner_last (qc_tol a)) (xstop_inner_last (qc_tol a)) (gtol_inner_last (qc_tol a)) = Some r /\
  r_x _ r = [z] /\ d_x _ D = [x] /\ (forall t, F [z] <= F [t]) /\ is_derive (fun t => F [t]) z 0 /\
  is_derive (fun t => gs_l (setup ns E a p (Constrained E D)) [t] (ravel (y_dict a))) x (-4).
Proof.
  destruct (off_solved 9) as (d0 & D & r & Hs & Hm & Hr & XD & CD & LD & MD & X0 & C0 & L0 & M0 & U0 & Rx).
  destruct (off_output 9 D Hs XD) as (o & H1 & H3).
  assert (U : unit_of [9 / 3] = 3).
  { unfold unit_of. rewrite vnorm1 by lra. cbn [n_neb R_num]. destruct (Req_EM_T (9 / 3) 0); [lra|field]. }
  rewrite U in U0.
  exists user_ns, EN, (off_call 9), o, (off_p 9), D, d0, r, (l_k RN (off_P 9) (d_xunit RN d0) 1 [- 2 / 3 * 9] []), (5 / 3), 5.
  rewrite U0 in Rx.
  assert (Er : r_x _ r = [5 / 3]).
  { clear - Rx. revert Rx. generalize (r_x _ r). intros l Rx. destruct l as [|z [|? ?]]; try discriminate Rx. cbn in Rx. injection Rx as Rx. apply (f_equal2 (@cons R)); [lra|reflexivity]. }
  split; [exact H1|]. split; [apply off_prepared|]. split; [exact H3|]. do 3 (split; [reflexivity|]). split; [exact Hm|].
  split; [exact Hr|]. split; [exact Er|]. split; [transitivity [5 / 9 * 9]; [exact XD|lring]|]. split; [|split].
  - intros t. rewrite U0, !off_lk. assert (0 <= (t * 3 - 5) * (t * 3 - 5)) by apply Rle_0_sqr. lra.
  - apply (is_derive_ext (fun t => t * 3 * (t * 3) + - 2 / 3 * 9 * (t * 3 - 9) + 1 / 2 * ((t * 3 - 9) * (t * 3 - 9)))); [intros t; rewrite U0; symmetry; apply off_lk|].
    auto_derive; [exact I|field].
  - rewrite constrained_l. rewrite MD, LD, CD.
    apply (is_derive_ext (fun t => t * t - 10 * (t - 9) + 1 / 2 * ((t - 9) * (t - 9)))).
    + intros t. symmetry. apply (off_terms t [0; 0; 3; 1; 1; 3; 2; 2] eq_refl).
    + auto_derive; [exact I|field].
Qed.
Print Assumptions C132_stationary_refuted.
