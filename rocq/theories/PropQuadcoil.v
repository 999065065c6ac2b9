(** Properties of the function quadcoil. *)
From Coq Require Import String List Bool Arith ZArith Reals Lra Lia.
From Coquelicot Require Import Coquelicot.
From Verif Require Import Base ModelArray ModelMath ModelQuantity ModelWrapper ModelSurface ModelParams ModelField
  ModelSolver SpecSolver WitnessSolver SpecWrapper WitnessWrapper ModelQuadcoil SpecMath SpecSurface SpecQuadcoil
  ProofLinear ProofQuadcoil ProofQuadcoil2 ProofQuadcoil3 ProofQuadcoil4 ProofQuadcoil5
  WitnessSurface WitnessField WitnessQuadcoil WitnessQuadcoil2 WitnessQuadcoil3.
Import ListNotations.
Open Scope R_scope.
Open Scope string_scope.
Open Scope list_scope.

(** ** C49 *)
Theorem C49_validation :
  forall on ow ou cn ct cu cv,
    (input_checking on ow ou cn ct cu cv = Ok tt <-> good_objective on ow ou /\ good_constraints cn ct cu cv) /\
    (forall e, input_checking on ow ou cn ct cu cv = Raise e -> e = TypeError \/ e = ValueError).
Proof. intros. split; [apply input_checking_iff|apply input_checking_raises]. Qed.
Print Assumptions C49_validation.
Theorem C49_call_rejected :
  forall ns E (a : args (x_solver E)), qc_nfp a <> 0%nat ->
    (~ one_winding a -> quadcoil ns E a = Some (Raise ValueError)) /\
    (~ (one_winding a /\
        good_objective (qc_objective_name a) (qc_objective_weight a) (qc_objective_unit a) /\
        good_constraints (qc_constraint_name a) (qc_constraint_type a) (qc_constraint_unit a) (qc_constraint_value a)) ->
     exists e, (e = TypeError \/ e = ValueError) /\ quadcoil ns E a = Some (Raise e)).
Proof. intros ns E a H. split; intros; [apply winding_rejected|apply call_rejected]; auto. Qed.
Print Assumptions C49_call_rejected.
Example C49_example :
  ~ one_winding (demo (L := unit) 0 0 [3; 1; 1] (Some [3; 2; 2]) (Some 1) no_gen true (NStr "gap") (WNum 1) (UsNum 1)
       (NTuple []) (NTuple []) (UsSeq []) (VSeq []) (NStr "phi0") None None true false some_mask) /\
  ~ good_constraints (NTuple ["phi0"]) (NTuple ["<="]) (UsSeq [UScalar 1]) (VSeq [1; 2]) /\
  one_winding (free 5 (NStr "product") true false) /\ good_objective (NStr "gap") (WNum 1) (UsNum 1) /\
  good_constraints (NTuple ["phi0"]) (NTuple ["<="]) (UsSeq [UScalar 1]) (VSeq [1]).
Proof.
  split; [intros [[H _]|[H _]]; discriminate|]. split.
  - intros (n & t & u & v & [= <-] & [= <-] & [= <-] & [= <-] & _ & _ & H). discriminate.
  - split; [left; split; [reflexivity|eexists; reflexivity]|]. split; [left; eexists; reflexivity|].
    exists ["phi0"], ["<="], [UScalar 1], [1]. repeat split.
Qed.

(** ** C50 *)
Theorem C50_gradient_keys :
  forall ns E (a : args (x_solver E)) o, quadcoil ns E a = Some (Ok o) -> qc_value_only a = false ->
  forall m, requested a m -> exists e g, lookup m (o_out E o) = Some e /\ e_grad e = Some g /\ NoDup (map fst g) /\
    forall key shp, (exists v, In (key, v) g /\ sh v = shp) <->
                    (exists k, key = String.append "df_d" k /\ in_use a k shp).
Proof. exact gradient_keys. Qed.
Print Assumptions C50_gradient_keys.
Example C50_example : exists o, quadcoil user_ns EQ (A78 3) = Some (Ok o) /\ qc_value_only (A78 3) = false /\ requested (A78 3) "phi0" /\
  in_use (A78 3) "constraint_value" [1%nat] /\ in_use (A78 3) "winding_dofs" [3%nat].
Proof.
  exists (O78 3). split; [apply call78|]. split; [reflexivity|]. split; [left; reflexivity|].
  split; [apply (use_value (A78 3) ["phi0"] [3]); [reflexivity|discriminate|reflexivity]|apply (use_winding (A78 3) [3; 2; 2]); reflexivity].
Qed.

(** ** C51 *)
(** What is missing: the metric 'f_obj', see below. *)
Theorem C51_value_only_partial :
  forall ns E (a : args (x_solver E)) o, (forall b, qc_Bnormal a = Some b -> wf b) ->
    quadcoil ns E (with_value_only a false) = Some (Ok o) ->
    exists o', quadcoil ns E (with_value_only a true) = Some (Ok o') /\
      o_qp E o' = o_qp E o /\ o_dofs E o' = o_dofs E o /\ o_results E o' = o_results E o /\
      forall m, requested a m -> m <> "f_obj" -> exists v e e',
        lookup m (o_out E o) = Some e /\ lookup m (o_out E o') = Some e' /\ e_value e = Some v /\ e_value e' = Some v /\
        e_grad e' = None.
Proof. exact value_only_same. Qed.
Print Assumptions C51_value_only_partial.
Example C51_example : exists o, quadcoil user_ns EQ (with_value_only (eq_call 3 (NStr "phi0") true false) false) = Some (Ok o) /\ requested (eq_call 3 (NStr "phi0") true false) "phi0".
Proof. exists (O78 3). split; [apply (call78 3)|left; reflexivity]. Qed.
(** The objective value asked for with 'f_obj' is not returned in value-only mode. *)
Theorem C51_f_obj_refuted :
  exists ns E (a : args (x_solver E)) o o', requested a "f_obj" /\
    quadcoil ns E (with_value_only a false) = Some (Ok o) /\ quadcoil ns E (with_value_only a true) = Some (Ok o') /\
    lookup "f_obj" (o_out E o) <> None /\ lookup "f_obj" (o_out E o') = None.
Proof.
  destruct (two_result 1) as (o & H & _).
  destruct (value_only_same user_ns EN (two_call 1) o) as (o' & H' & _); [discriminate|exact H|].
  exists user_ns, EN, (two_call 1), o, o'. split; [left; reflexivity|]. split; [exact H|]. split; [exact H'|].
  split.
  - apply (output_keys_gradient user_ns EN (two_call 1) o H eq_refl). left. left. reflexivity.
  - destruct (lookup "f_obj" (o_out EN o')) eqn:El; auto. exfalso.
    apply (proj1 (output_keys_value user_ns EN _ o' H' eq_refl "f_obj")); [congruence|reflexivity].
Qed.
Print Assumptions C51_f_obj_refuted.
Theorem C51_f_obj_never : forall ns E (a : args (x_solver E)) o, quadcoil ns E a = Some (Ok o) -> qc_value_only a = true ->
  lookup "f_obj" (o_out E o) = None.
Proof.
  intros ns E a o H V. destruct (lookup "f_obj" (o_out E o)) eqn:El; auto. exfalso.
  apply (proj1 (output_keys_value ns E a o H V "f_obj")); [congruence|reflexivity].
Qed.
Print Assumptions C51_f_obj_never.

(** ** C52 *)
(** The other options arrive as given. *)
Theorem C52_options_partial :
  forall E (a : args (x_solver E)) p, let P := solver_problem E a p in
    p_growth _ P = qc_c_growth a /\ p_maxiter_tot _ P = qc_maxiter_tot a /\ p_maxiter_inner _ P = qc_maxiter_inner a /\
    p_xstop_outer _ P = xstop_outer (qc_tol a) /\ p_ctol _ P = ctol_outer (qc_tol a) /\
    p_fstop _ P = fstop_inner (qc_tol a) /\ p_xstop _ P = xstop_inner (qc_tol a) /\ p_gtol _ P = gtol_inner (qc_tol a) /\
    p_fstop_last _ P = fstop_inner_last (qc_tol a) /\ p_xstop_last _ P = xstop_inner_last (qc_tol a) /\
    p_gtol_last _ P = gtol_inner_last (qc_tol a).
Proof. exact solver_options. Qed.
Print Assumptions C52_options_partial.
(** The mask does not reach the solver: whatever it is, the same point is
    returned, and in value-only mode the whole output is the same. *)
Theorem C52_mask_has_no_effect :
  forall ns E (a : args (x_solver E)) m ls,
    (forall p, solve E (with_options a m ls) p = solve E a p) /\
    (qc_value_only a = true -> quadcoil ns E (with_options a m ls) = quadcoil ns E a) /\
    (forall o o', quadcoil ns E a = Some (Ok o) -> quadcoil ns E (with_options a m ls) = Some (Ok o') ->
       o_qp E o' = o_qp E o /\ o_dofs E o' = o_dofs E o /\ o_results E o' = o_results E o).
Proof.
  intros ns E a m ls. split; [intros; apply options_ignored|]. split; [apply options_ignored_value|]. intros o o'. apply options_same_point.
Qed.
Print Assumptions C52_mask_has_no_effect.
Example C52_example : exists o, quadcoil user_ns EQ (A78 3) = Some (Ok o) /\ qc_gplus_mask (A78 3) = some_mask.
Proof. exists (O78 3). split; [apply call78|reflexivity]. Qed.
(** Solving the same constrained problem with the user's mask leads elsewhere. *)
Theorem C52_mask_refuted :
  exists ns E (a : args (x_solver E)) p d d',
    prepare ns a = Ok p /\ solve E a p = Some (Constrained E d) /\
    solve_constrained (R_num (x_fin E)) (x_opt E) (x_autograd E) (with_mask (solver_problem E a p) (qc_gplus_mask a))
      (x_fuel_out E) (x_fuel_in E) (pr_x0 p) (qc_c_init a) (pr_lam0 p) (pr_mu0 p) = Some d' /\
    d_x _ d <> d_x _ d'.
Proof.
  destruct (le_solved true) as (d & Hs & Ex). destruct (le_other true) as (d' & Hs' & Ex').
  exists user_ns, EH, (le_call true), (le_p true), d, d'. split; [apply le_prepared|]. split; [exact Hs|]. split; [exact Hs'|].
  intros h. assert (K : [0] = [1 / 2]) by (etransitivity; [symmetry; exact Ex|]; etransitivity; [exact h|exact Ex']).
  injection K as K. lra.
Qed.
Print Assumptions C52_mask_refuted.

(** ** C53 *)
Theorem C53_packing :
  forall (aux : ModelArray.dict (callable params)) qp phi u x, u <> 0 ->
  NoDup (map fst aux) -> ~ In "phi" (map fst aux) -> ~ In "phi_scaled" (map fst aux) ->
  (forall k init v, In (k, init) aux -> init qp [("phi", vec_arr phi)] = Ok v -> wf v) ->
  x_dict aux qp phi u = Ok x ->
  exists d, unscale (structure x) u (ravel x) = Ok d /\ lookup "phi" d = Some (vec_arr phi) /\
    (forall k init, In (k, init) aux -> exists v, init qp [("phi", vec_arr phi)] = Ok v /\ lookup k d = Some v) /\
    (forall k, lookup k d <> None -> k = "phi" \/ In k (map fst aux)).
Proof. exact packing. Qed.
Print Assumptions C53_packing.
Theorem C53_slack_unscaled :
  forall s u1 u2 x d1 d2 k, unscale s u1 x = Ok d1 -> unscale s u2 x = Ok d2 -> k <> "phi" -> lookup k d1 = lookup k d2.
Proof. exact slack_unscaled. Qed.
Print Assumptions C53_slack_unscaled.
Theorem C53_unpack_injective :
  forall s u x1 x2 d, u <> 0 -> NoDup (map fst s) -> ~ In "phi" (map fst s) ->
  length x1 = total s -> length x2 = total s -> unscale s u x1 = Ok d -> unscale s u x2 = Ok d -> x1 = x2.
Proof. exact unpack_injective. Qed.
Print Assumptions C53_unpack_injective.
Definition aux53 : ModelArray.dict (callable params) := [("p_aux", fun _ d => getitem d "phi"); ("a_aux", fun _ _ => Ok (scal 7))].
Example C53_example : 5 <> 0 /\ NoDup (map fst aux53) /\ ~ In "phi" (map fst aux53) /\ ~ In "phi_scaled" (map fst aux53) /\
  (forall k init v, In (k, init) aux53 -> init (device 1 1 1 [] true) [("phi", vec_arr [1; 2])] = Ok v -> wf v) /\
  (exists x, x_dict aux53 (device 1 1 1 [] true) [1; 2] 5 = Ok x /\ ravel x = [7; 1; 2; 1 / 5; 2 / 5]).
Proof.
  split; [lra|]. split; [repeat constructor; cbn; intros h; repeat destruct h as [h|h]; try discriminate; auto|].
  split; [cbn; intros [h|[h|[]]]; discriminate|]. split; [cbn; intros [h|[h|[]]]; discriminate|]. split.
  - intros k init v [h|[h|[]]] H; injection h as <- <-; cbn in H; injection H as <-; reflexivity.
  - eexists. split; reflexivity.
Qed.

(** ** C54 *)
(** Along a family of unconstrained calls whose results are stationary points
    near the base point, the reported gradient is the derivative of the
    reported metric. *)
Theorem C54_implicit_gradient :
  forall ns E (A : R -> args (x_solver E)) (O : R -> output E) e p r m X Gx Gy H M gx gy v,
    family ns A O e -> prepare ns (A 0) = Ok p -> o_results E (O 0) = Direct E r -> qc_value_only (A 0) = false ->
    requested (A 0) m -> m <> "f_obj" -> length e = length (ravel (y_dict (A 0))) ->
    (forall t, unscale (pr_structure p) (pr_unit p) (X t) = Ok (o_dofs E (O t))) ->
    let x := optimum E (Direct E r) in
    let y := ravel (y_dict (A 0)) in
    let l := l_direct ns E (A 0) p in
    let F := fun x y => real_of (f_metric ns E (A 0) p m x y) in
    twice_differentiable l x y Gx Gy H M -> invertible (length x) H ->
    stationary_path Gx x y e X ->
    autodiff_exact E l F x y gx gy v M ->
    x_linear_solve E (x_default E) (x_hessian E (fun x => l x y) x) gx = v -> length v = length x -> apply_mat H v = gx ->
    is_derive (fun t => reported (O t) m) 0 (inner (reported_gradient (O 0) m) e).
Proof.
  intros ns E A O e p r m X Gx Gy H M gx gy v HF Hp Hr V Hm Nf Le HX x y l F HT HI HP HA Hv Lv Hs.
  assert (Ey : pr_y p = y_dict (A 0)) by apply (prepare_fields ns (A 0) p Hp).
  apply (gradient_along ns E A O e p (Direct E r) m X Gx Gy H M gx gy v); auto.
  cbn [setup gs_vihp]. rewrite Ey. exact Hv.
Qed.
Print Assumptions C54_implicit_gradient.
Lemma invertible54 : invertible 1 [[2]].
Proof.
  exists [[/ 2]]. split; [split; [reflexivity|intros r [<-|[]]; reflexivity]|].
  intros x Lx. destruct x as [|a [|? ?]]; try discriminate. unfold apply_mat, inner, Rsum. cbn. lring.
Qed.
Example C54_example : is_derive (fun t => reported (O54 t) "product") 0 (inner (reported_gradient (O54 0) "product") along_G).
Proof.
  pose proof opt54 as Ho. pose proof vihp54 as Hv. unfold r54 in Ho, Hv.
  apply (C54_implicit_gradient user_ns EU A54 O54 along_G p54 (free_r (5 + 0) (NStr "product") false false) "product"
    (fun t => [5 + t]) Gx54 Gy54 [[2]] M54 gx54 gy54 v54).
  - exact family54.
  - apply free_prepared.
  - apply call54.
  - reflexivity.
  - left. reflexivity.
  - discriminate.
  - reflexivity.
  - intros t. rewrite (proj2 (proj2 (call54 t))). reflexivity.
  - cbv zeta. rewrite Ho. apply twice54.
  - rewrite Ho. exact invertible54.
  - rewrite Ho. exact path54.
  - cbv zeta. rewrite Ho. exact autodiff54.
  - exact Hv.
  - rewrite Ho. reflexivity.
  - unfold apply_mat, inner, Rsum, v54, gx54. cbn. lring.
Qed.

(** ** C55 *)
(** What is missing: singular values between zero and the cut-off, see below. *)
Theorem C55_same_solution_partial :
  forall ns E (a : args (x_solver E)) p (d : ModelSolver.dict (R_num (x_fin E))) b h1 h2 h3 n,
  let tol := svtol (qc_tol a) in
  let T := l_terms ns E a p (d_mu _ d) (d_lam _ d) (d_c _ d) in
  let y := ravel (pr_y p) in
  let H := plus_mat (plus_mat h1 h2) h3 in
  let solver := match qc_linear_solver a with Some s => s | None => x_auto E end in
  length (d_x _ d) = n ->
  x_hessian E (fun x => fst (fst (T x y))) (d_x _ d) = h1 ->
  x_hessian E (fun x => snd (fst (T x y))) (d_x _ d) = h2 ->
  x_hessian E (fun x => snd (T x y)) (d_x _ d) = h3 ->
  symmetric_mat n h1 -> symmetric_mat n h2 -> symmetric_mat n h3 -> injective n H ->
  svd_exact E n tol h1 -> svd_exact E n tol h2 -> svd_exact E n tol h3 ->
  (forall tA tB tC, sort_terms (map (fun M => (M, x_svd E M)) [h1; h2; h3]) = [tA; tB; tC] ->
    svd_exact E n tol (projector n (selection tol (fst (snd tB))) (snd (snd tB)) ++ projector n (selection tol (fst (snd tC))) (snd (snd tC)))) ->
  length b = n ->
  exists Oh rhs,
    (forall v, length v = n -> (apply_mat Oh v = rhs <-> apply_mat H v = b)) /\
    let raw := x_linear_solve E solver H b in
    let pre := x_linear_solve E solver Oh rhs in
    let used := gs_vihp (setup ns E a p (Constrained E d)) b in
    (used = raw \/ used = pre) /\ residual H used b <= residual H raw b /\ residual H used b <= residual H pre b.
Proof. exact constrained_system. Qed.
Print Assumptions C55_same_solution_partial.
(** The better of the two answers is used, whatever the matrices. *)
Theorem C55_better_answer :
  forall ns E (a : args (x_solver E)) p (d : ModelSolver.dict (R_num (x_fin E))) b,
  let T := l_terms ns E a p (d_mu _ d) (d_lam _ d) (d_c _ d) in
  let y := ravel (pr_y p) in
  let H := plus_mat (plus_mat (x_hessian E (fun x => fst (fst (T x y))) (d_x _ d)) (x_hessian E (fun x => snd (fst (T x y))) (d_x _ d)))
                    (x_hessian E (fun x => snd (T x y)) (d_x _ d)) in
  let solver := match qc_linear_solver a with Some s => s | None => x_auto E end in
  exists Oh rhs,
    let raw := x_linear_solve E solver H b in
    let pre := x_linear_solve E solver Oh rhs in
    let used := gs_vihp (setup ns E a p (Constrained E d)) b in
    (used = raw \/ used = pre) /\ residual H used b <= residual H raw b /\ residual H used b <= residual H pre b.
Proof.
  intros. destruct (vihp_eq ns E a p d (d_x _ d) _ _ _ b eq_refl eq_refl eq_refl eq_refl) as (tA & tB & tC & Ev).
  eexists. eexists. cbv zeta. rewrite Ev. unfold H, T, y. rewrite !plus_matadd. unfold vihp_constrained. apply choose_best.
Qed.
Print Assumptions C55_better_answer.
Example C55_example : forall v, exists (d : ModelSolver.dict (R_num (x_fin EQ))),
  let T := l_terms user_ns EQ (A78 v) (eq_p v (NStr "phi0") false false) (d_mu _ d) (d_lam _ d) (d_c _ d) in
  solve EQ (A78 v) (eq_p v (NStr "phi0") false false) = Some (Constrained EQ d) /\ length (d_x _ d) = 1%nat /\
  x_hessian EQ (fun x => fst (fst (T x (y_eq v)))) (d_x _ d) = [[2]] /\ x_hessian EQ (fun x => snd (fst (T x (y_eq v)))) (d_x _ d) = [[0]] /\
  x_hessian EQ (fun x => snd (T x (y_eq v))) (d_x _ d) = [[1]] /\
  (forall h, symmetric_mat 1 [[h]]) /\ (forall h, svd_exact EQ 1 (1 / 2) [[h]]) /\ injective 1 (plus_mat (plus_mat [[2]] [[0]]) [[1]]) /\
  (forall tA tB tC, sort_terms (map (fun M => (M, x_svd EQ M)) [[[2]]; [[0]]; [[1]]]) = [tA; tB; tC] ->
    svd_exact EQ 1 (1 / 2) (projector 1 (selection (1 / 2) (fst (snd tB))) (snd (snd tB)) ++ projector 1 (selection (1 / 2) (fst (snd tC))) (snd (snd tC)))).
Proof.
  intros v. destruct (eq_solved v (NStr "phi0") false false) as (d & Hs & Ex & Ec & El & Em & _). exists d. cbv zeta.
  split; [exact Hs|]. rewrite Ex, Ec, El, Em. split; [reflexivity|].
  split; [|split; [|split]].
  1-3: cbn [EQ fd_lib x_hessian]; unfold second; cbn [length seq map bump]; unfold y_eq;
     fold (fd_lib eq_opt); fold EQ; rewrite !(eq_terms v) by reflexivity; cbn [fst snd]; apply (f_equal2 (@cons (list R))); [lring|reflexivity].
  split; [|split; [|split]].
  - intros h. split; [split; [reflexivity|intros r [<-|[]]; reflexivity]|]. intros [|i] [|j] Hi Hj; try lia. reflexivity.
  - intros h. apply column_exact. intros r [<-|[]]. reflexivity.
  - intros x Lx Hx. destruct x as [|q [|? ?]]; try discriminate. unfold plus_mat, apply_mat, inner, Rsum in Hx. cbn in Hx.
    specialize (Hx _ (or_introl eq_refl)). intros w [<-|[]]. lra.
  - intros tA tB tC _. apply column_exact. intros r Hr. apply in_app_or in Hr. unfold projector, matmul in Hr.
    destruct Hr as [Hr|Hr]; apply in_map_iff in Hr; destruct Hr as (q & <- & _); reflexivity.
Qed.
(** An invertible operator and exact decompositions, but one singular value of
    the largest term is positive and below the cut-off: the preconditioned
    system has another solution. *)
Theorem C55_cut_off_refuted :
  exists E n tol A B C sA VA sB VB sC VC v b,
    symmetric_mat n A /\ symmetric_mat n B /\ symmetric_mat n C /\
    is_svd n A sA VA /\ is_svd n B sB VB /\ is_svd n C sC VC /\
    sort_terms [(A, (sA, VA)); (B, (sB, VB)); (C, (sC, VC))] = [(A, (sA, VA)); (B, (sB, VB)); (C, (sC, VC))] /\
    (let stack := projector n (selection tol sB) VB ++ projector n (selection tol sC) VC in
     is_svd n stack (fst (x_svd E stack)) (snd (x_svd E stack))) /\
    injective n (plus_mat (plus_mat A B) C) /\
    let pc := preconditioner E n tol (A, (sA, VA)) (B, (sB, VB)) (C, (sC, VC)) in
    (forall b, length b = n -> (forall q, In q (precond_rhs n pc b) -> q = 0) -> forall q, In q b -> q = 0) /\
    length v = n /\ length b = n /\
    apply_mat (pc_Ohess pc) v = precond_rhs n pc b /\ apply_mat (plus_mat (plus_mat A B) C) v <> b.
Proof.
  exists ES, 2%nat, (1 / 2), (diag2 0 0), B55, C55, [0; 0], (diag2 1 1), [1 / 10; 0], [[0; 1]; [1; 0]], [1; 1 / 4], (diag2 1 1), [0; 8], [0; 1].
  split; [apply sym_diag|]. split; [apply sym_diag|]. split; [apply sym_diag|].
  split; [apply svd_diag; lra|]. split; [apply svd_swapped; lra|]. split; [apply svd_diag; lra|].
  split. { unfold sort_terms. cbn [fold_right insert_term fst snd]. rewrite !smax2 by lra.
    destruct (Rle_dec (1 / 10) 1); [|lra]. cbn [insert_term fst snd]. rewrite !smax2 by lra. destruct (Rle_dec 0 (1 / 10)); [|lra]. reflexivity. }
  split; [cbv zeta; rewrite stack55; apply svd_stack55|].
  split. { rewrite !plus_matadd. unfold B55, C55. replace (matadd (matadd (diag2 0 0) (diag2 0 (1 / 10))) (diag2 1 (1 / 4))) with (diag2 1 (7 / 20)) by (mats; mring).
    apply inj_diag; lra. }
  cbv zeta. change (preconditioner ES 2 (1 / 2) (diag2 0 0, ([0; 0], diag2 1 1)) (B55, ([1 / 10; 0], [[0; 1]; [1; 0]])) (C55, ([1; 1 / 4], diag2 1 1))) with pc55. split; [|split; [reflexivity|split; [reflexivity|split]]].
  - intros b Lb Hb. two b. rewrite pc55_value in Hb. unfold precond_rhs in Hb.
    cbn [pc_Ohess pc_scale_AC pc_scale_BC pc_annil_BC pc_annil_C pc_proj_BC pc_proj_C] in Hb.
    unfold matmul, matscale, col, matvec, ldot, ladd, diag2 in Hb. cbn [map2 seq map nth fold_right] in Hb.
    pose proof (Hb _ (or_introl eq_refl)) as H1. pose proof (Hb _ (or_intror (or_introl eq_refl))) as H2.
    intros q [<-|[<-|[]]]; lra.
  - rewrite apply_matvec. exact solve55.
  - rewrite apply_matvec, !plus_matadd. exact wrong55.
Qed.
Print Assumptions C55_cut_off_refuted.

(** ** C56 *)
(** What is missing: calls in which stellsym and plasma_stellsym differ. *)
Theorem C56_generated_partial :
  forall L (a : args L) qd y qp d0, qc_distance a = Some d0 -> honest_generator (qc_generator a) ->
    y_to_qp a qd y = Ok qp ->
    s_stellsym (q_winding qp) = qc_stellsym a /\
    (legal (q_winding qp) <-> qc_stellsym a = qc_plasma_stellsym a).
Proof. exact @generated_symmetry. Qed.
Print Assumptions C56_generated_partial.
Theorem C56_generated_unusable :
  forall L (a : args L) qd y qp d0, qc_distance a = Some d0 -> honest_generator (qc_generator a) ->
    y_to_qp a qd y = Ok qp -> qc_stellsym a <> qc_plasma_stellsym a ->
    (forall i j, gammadash i j (q_winding qp) = Raise TypeError) /\
    forall x, exists e, Bnormal qp x = Raise e.
Proof. exact @generated_fails. Qed.
Print Assumptions C56_generated_unusable.
Example C56_example : honest_generator ones_gen /\ qc_distance (gen_call false) = Some 1 /\
  (exists qp, y_to_qp (gen_call false) qdU (y_dict (gen_call false)) = Ok qp) /\ qc_stellsym (gen_call false) <> qc_plasma_stellsym (gen_call false).
Proof. split; [apply ones_honest|]. split; [reflexivity|]. split; [apply gen_made|discriminate]. Qed.
Theorem C56_symmetry_refuted :
  exists (a : args unit) qd y qp d0, qc_distance a = Some d0 /\ honest_generator (qc_generator a) /\
    y_to_qp a qd y = Ok qp /\ ~ legal (q_winding qp).
Proof.
  destruct (gen_made false) as [qp H]. exists (gen_call false), qdU, (y_dict (gen_call false)), qp, 1.
  split; [reflexivity|]. split; [exact ones_honest|]. split; [exact H|].
  intros h. apply (generated_symmetry (gen_call false) qdU _ qp 1 eq_refl ones_honest H) in h. discriminate.
Qed.
Print Assumptions C56_symmetry_refuted.

(** ** C77 *)
Theorem C77_output_keys_partial :
  forall ns E (a : args (x_solver E)) o, quadcoil ns E a = Some (Ok o) -> forall m,
    (qc_value_only a = false -> (lookup m (o_out E o) <> None <->
       requested a m \/ (m = "hess_cond" /\ qc_verbose a = true /\ exists r, o_results E o = Direct E r))) /\
    (qc_value_only a = true -> (lookup m (o_out E o) <> None <-> requested a m /\ m <> "f_obj")).
Proof. intros ns E a o H m. split; intros V; [apply (output_keys_gradient ns)|apply (output_keys_value ns)]; auto. Qed.
Print Assumptions C77_output_keys_partial.
Example C77_example : exists o, quadcoil user_ns EU (free 5 (NStr "product") false true) = Some (Ok o) /\
  exists r, o_results EU o = Direct EU r.
Proof. destruct (free_call 5 "product" (fun x G => x * G) true) as (o & H & Hr & _); [discriminate|reflexivity|]. eauto. Qed.
Theorem C77_extra_key_refuted :
  exists ns E (a : args (x_solver E)) o m, quadcoil ns E a = Some (Ok o) /\ lookup m (o_out E o) <> None /\ ~ requested a m.
Proof.
  destruct (free_call 5 "product" (fun x G => x * G) true) as (o & H & Hr & _); [discriminate|reflexivity|].
  exists user_ns, EU, (free 5 (NStr "product") false true), o, "hess_cond". split; [exact H|]. split.
  - apply (output_keys_gradient user_ns EU _ o H eq_refl). right. split; [reflexivity|]. split; [reflexivity|eauto].
  - intros [h|(l & h & _)]; discriminate.
Qed.
Print Assumptions C77_extra_key_refuted.

(** ** C78 *)
(** What is missing: active constraints, for which the multipliers move with
    the inputs, see below. *)
Theorem C78_frozen_multipliers_partial :
  forall ns E (A : R -> args (x_solver E)) (O : R -> output E) e p d m X Gx Gy H M gx gy v,
    family ns A O e -> prepare ns (A 0) = Ok p -> o_results E (O 0) = Constrained E d -> qc_value_only (A 0) = false ->
    requested (A 0) m -> m <> "f_obj" -> length e = length (ravel (y_dict (A 0))) ->
    (forall t, unscale (pr_structure p) (pr_unit p) (X t) = Ok (o_dofs E (O t))) ->
    let x := optimum E (Constrained E d) in
    let y := ravel (y_dict (A 0)) in
    let l := l_sum ns E (A 0) p (d_mu _ d) (d_lam _ d) (d_c _ d) in
    let F := fun x y => real_of (f_metric ns E (A 0) p m x y) in
    twice_differentiable l x y Gx Gy H M -> invertible (length x) H ->
    stationary_path Gx x y e X ->
    autodiff_exact E l F x y gx gy v M ->
    gs_vihp (setup ns E (A 0) p (Constrained E d)) gx = v -> length v = length x -> apply_mat H v = gx ->
    is_derive (fun t => reported (O t) m) 0 (inner (reported_gradient (O 0) m) e).
Proof.
  intros ns E A O e p d m X Gx Gy H M gx gy v HF Hp Hr V Hm Nf Le HX x y l F HT HI HP HA Hv Lv Hs.
  apply (gradient_along ns E A O e p (Constrained E d) m X Gx Gy H M gx gy v); auto; rewrite constrained_l; auto.
Qed.
Print Assumptions C78_frozen_multipliers_partial.
Example C78_example : is_derive (fun t => reported (O78b t) "product") 0 (inner (reported_gradient (O78b 0) "product") along_G9).
Proof.
  destruct (call78b 0) as (d & Hq & Hr & Hd & Ex & Ec & El & Em).
  assert (Ho : optimum EN (Constrained EN d) = [5 + 0]) by exact Ex.
  assert (Hl : l_sum user_ns EN (A78b 0) p78b (d_mu _ d) (d_lam _ d) (d_c _ d) = l78) by (unfold l78; rewrite Ec, El, Em; reflexivity).
  apply (C78_frozen_multipliers_partial user_ns EN A78b O78b along_G9 p78b d "product"
    (fun t => [5 + t]) Gx78 Gy78 [[2]] M78 gx54 gy78 v54).
  - exact family78b.
  - apply ge_prepared.
  - exact Hr.
  - reflexivity.
  - left. reflexivity.
  - discriminate.
  - reflexivity.
  - intros t. destruct (call78b t) as (dt & _ & _ & Hdt & _). rewrite Hdt. reflexivity.
  - cbv zeta. rewrite Ho, Hl. exact twice78.
  - rewrite Ho. exact invertible54.
  - rewrite Ho. exact path78.
  - cbv zeta. rewrite Ho, Hl. exact autodiff78.
  - exact (vihp78 d Ex Ec El Em).
  - rewrite Ho. reflexivity.
  - unfold apply_mat, inner, Rsum, v54, gx54. cbn. lring.
Qed.
(** Minimise x^2 under x == value.  Every call returns the exact solution, so
    the reported x has derivative 1; the reported gradient entry is 1/3. *)
Theorem C78_active_constraint_refuted :
  exists ns E (A : R -> args (x_solver E)) (O : R -> output E) e m,
    family ns A O e /\ qc_value_only (A 0) = false /\ requested (A 0) m /\
    (forall t, qc_constraint_value (A t) = VSeq [t] /\ reported (O t) m = t /\
       exists d, o_results E (O t) = Constrained E d /\ d_h _ d = [0] /\ d_g _ d = []) /\
    is_derive (fun t => reported (O t) m) 0 1 /\ inner (reported_gradient (O 0) m) e = 1 / 3.
Proof.
  exists user_ns, EQ, A78, O78, along_v, "phi0". split; [exact family78|]. split; [reflexivity|]. split; [left; reflexivity|].
  split; [|split; [exact derive78|exact inner78]].
  intros t. destruct (call78 t) as (_ & H1 & _ & H2 & _). split; [reflexivity|]. auto.
Qed.
Print Assumptions C78_active_constraint_refuted.

(** ** C79 *)
Theorem C79_weights_unseen :
  forall ns E (a : args (x_solver E)) p x y1 y2,
    (forall k, k <> "objective_weight" -> lookup k (unravel (structure (pr_y p)) y1) = lookup k (unravel (structure (pr_y p)) y2)) ->
    f_metric ns E a p "f_obj" x y1 = f_metric ns E a p "f_obj" x y2.
Proof. exact objective_metric_ignores. Qed.
Print Assumptions C79_weights_unseen.
Example C79_example : forall k, k <> "objective_weight" ->
  lookup k (unravel (structure (pr_y (two_p 1))) (y_two 1)) = lookup k (unravel (structure (pr_y (two_p 1))) (y_two 8)).
Proof.
  intros k Hk. unfold y_two. cbn. destruct (String.eqb_spec k "objective_weight") as [e|e]; [congruence|reflexivity].
Qed.
(** Two objectives with weights 1 + t and 1: the optimal value of the
    objective has derivative 1, the reported gradient entry is 0. *)
Theorem C79_objective_gradient_refuted :
  exists ns E (A : R -> args (x_solver E)) (O : R -> output E) e,
    family ns A O e /\ qc_value_only (A 0) = false /\ requested (A 0) "f_obj" /\
    is_derive (fun t => reported (O t) "f_obj") 0 1 /\ inner (reported_gradient (O 0) "f_obj") e = 0.
Proof.
  exists user_ns, EN, A79, O79, along_w. split; [exact family79|]. split; [reflexivity|]. split; [left; reflexivity|].
  split; [exact derive79|exact inner79].
Qed.
Print Assumptions C79_objective_gradient_refuted.

(** ** C80 *)
Theorem C80_feasible :
  forall ns E (a : args (x_solver E)) o d cs, counted (x_opt E) ->
    quadcoil ns E a = Some (Ok o) -> o_results E o = Constrained E d ->
    (forall v, In v (d_g _ d) -> v <= 0) -> (forall v, In v (d_h _ d) -> v = 0) ->
    not_approx (qc_smoothing a) -> qc_merge a = false ->
    qc_constraint_name a = NTuple (map uc_name cs) ->
    qc_constraint_type a = NTuple (map (fun c => op_string (uc_cmp c)) cs) ->
    qc_constraint_unit a = UsSeq (map (fun c => UScalar (uc_unit c)) cs) ->
    qc_constraint_value a = VSeq (map uc_val cs) ->
    (forall n, qc_objective_name a = NStr n \/ (exists l, qc_objective_name a = NTuple l /\ In n l) ->
       exists q fld, ns n = Some (AQuantity q) /\ plain q (qc_smoothing a) (o_qp E o) (o_dofs E o) fld) ->
    (forall c, In c cs -> uc_unit c <> 0 /\ exists q fld, ns (uc_name c) = Some (AQuantity q) /\
       plain q (qc_smoothing a) (o_qp E o) (o_dofs E o) fld) ->
    forall c q fld, In c cs -> ns (uc_name c) = Some (AQuantity q) ->
      plain q (qc_smoothing a) (o_qp E o) (o_dofs E o) fld -> meets (uc_cmp c) (uc_val c) fld.
Proof. exact feasible. Qed.
Print Assumptions C80_feasible.
Example C80_example : forall v, counted (x_opt EQ) /\ quadcoil user_ns EQ (A78 v) = Some (Ok (O78 v)) /\
  (exists d, o_results EQ (O78 v) = Constrained EQ d /\ (forall w, In w (d_g _ d) -> w <= 0) /\ (forall w, In w (d_h _ d) -> w = 0)) /\
  not_approx (qc_smoothing (A78 v)) /\ qc_merge (A78 v) = false /\ qc_constraint_name (A78 v) = NTuple (map uc_name [UC "phi0" SpecWrapper.EQ 1 v]) /\
  qc_constraint_type (A78 v) = NTuple (map (fun c => op_string (uc_cmp c)) [UC "phi0" SpecWrapper.EQ 1 v]) /\
  qc_constraint_unit (A78 v) = UsSeq [UScalar 1] /\ qc_constraint_value (A78 v) = VSeq [v] /\
  (exists q fld, user_ns "phi0" = Some (AQuantity q) /\ plain q (qc_smoothing (A78 v)) (o_qp EQ (O78 v)) (o_dofs EQ (O78 v)) fld) /\
  exists q fld, qc_objective_name (A78 v) = NStr "square" /\ user_ns "square" = Some (AQuantity q) /\
    plain q (qc_smoothing (A78 v)) (o_qp EQ (O78 v)) (o_dofs EQ (O78 v)) fld.
Proof.
  intros v. destruct (call78 v) as (H & _ & _ & (d & Hr & Eh & Eg) & Hd).
  split; [apply rule_counted|]. split; [exact H|]. split.
  { exists d. split; [exact Hr|]. rewrite Eh, Eg. split; [intros w []|intros w [<-|[]]; reflexivity]. }
  split; [discriminate|]. do 5 (split; [reflexivity|]). rewrite Hd. split.
  - eexists. eexists. split; [reflexivity|]. split; [|left; split; reflexivity]. reflexivity.
  - eexists. eexists. split; [reflexivity|]. split; [reflexivity|]. split; [|left; split; reflexivity]. reflexivity.
Qed.

(** ** C81 *)
(** What the unit is when none is given: the mean of the absolute normal field
    of the starting point over the plasma, times 10^7, times the distance or the
    difference of the two minor radii (coefficients (1,0) of R), with which it
    vanishes. *)
Theorem C81_default_unit_partial :
  forall ns L (a : args L) p, prepare ns a = Ok p -> qc_phi_unit a = None ->
  exists b len,
    Bnormal (fn_qp (pr_fn p)) (match qc_phi_init a with Some x => x | None => repeat 0 (q_ndofs (fn_qp (pr_fn p))) end) = Ok b /\
    pr_unit p = Rsum (map Rabs (concat b)) / INR (length (concat b)) * 10 ^ 7 * Rabs len /\
    match qc_distance a with
    | Some d => len = d
    | None => forall pd wd, qc_plasma_dofs a = pd -> qc_winding_dofs a = Some wd ->
        (qc_plasma_ntor a * 2 + 1 < length pd)%nat -> (qc_winding_ntor a * 2 + 1 < length wd)%nat ->
        len = nth (qc_plasma_ntor a * 2 + 1) pd 0 - nth (qc_winding_ntor a * 2 + 1) wd 0
    end.
Proof.
  intros ns L a p Hp Hu. destruct (prepare_fields ns a p Hp) as (_ & _ & _ & _ & _ & _ & phi & x & -> & E & _).
  set (phi := match qc_phi_init a with Some _ => _ | None => _ end) in *.
  destruct (Bnormal (fn_qp (pr_fn p)) phi) as [b|e] eqn:Eb; [|unfold phi_unit_of in E; rewrite Hu, Eb in E; discriminate E].
  destruct (default_unit a _ phi b Hu Eb _ E) as (len & V & H). exists b, len. split; [reflexivity|]. split; [|exact H].
  rewrite V. unfold gaverage, gsum, gmap. assert (Ec : forall (g : grid R), concat (map (map Rabs) g) = map Rabs (concat g)) by (intros g; now rewrite concat_map).
  rewrite Ec, map_length. replace (10 ^ 7) with 10000000 by ring. reflexivity.
Qed.
Print Assumptions C81_default_unit_partial.
Example C81_example : qc_phi_unit flat_call = None /\ prepare user_ns flat_call = Ok flat_p.
Proof. split; [reflexivity|exact flat_prepared]. Qed.
(** A unit of zero loses the current potential: a call that returns, returns
    zero coefficients, whatever its objective and starting point. *)
Theorem C81_zero_unit_loses : forall ns E (a : args (x_solver E)) p o k, prepare ns a = Ok p -> pr_unit p = 0 ->
  quadcoil ns E a = Some (Ok o) -> lookup "phi" (o_dofs E o) = Some k -> forall v, In v (el k) -> v = 0.
Proof.
  intros ns E a p o k Hp Hu Hq. destruct (quadcoil_ok ns E a o Hq) as (p' & r & dofs & Hp' & _ & _ & Hd & _ & -> & _).
  rewrite Hp in Hp'. injection Hp' as <-. rewrite Hu in Hd. exact (zero_unit_loses _ _ _ _ Hd).
Qed.
Print Assumptions C81_zero_unit_loses.
Example C81_zero_example : prepare user_ns flat_call = Ok flat_p /\ pr_unit flat_p = 0 /\
  exists o k, quadcoil user_ns EU flat_call = Some (Ok o) /\ lookup "phi" (o_dofs EU o) = Some k.
Proof.
  split; [exact flat_prepared|]. split; [reflexivity|]. destruct flat_result as (o & H & v & L & _). exists o, v. split; [exact H|exact L].
Qed.
(** A call with two different surfaces of equal minor radius and a non-zero
    normal field: the default unit is zero.  (In floating point the starting
    point phi / unit is then nan; over the reals it is lost.) *)
Theorem C81_zero_unit_refuted :
  exists ns (a : args unit) p, qc_phi_unit a = None /\ qc_winding_dofs a <> Some (qc_plasma_dofs a) /\
    prepare ns a = Ok p /\ pr_unit p = 0.
Proof.
  exists user_ns, flat_call, flat_p. split; [reflexivity|]. split; [|split; [exact flat_prepared|reflexivity]].
  cbn. intros [=]; lra.
Qed.
Print Assumptions C81_zero_unit_refuted.
