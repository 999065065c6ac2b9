(** The function that is differentiated implicitly, and the function that was
    minimised. *)
From Coq Require Import String List Bool Arith ZArith Reals Lra Lia.
From Verif Require Import Base ModelArray ModelMath ModelQuantity ModelWrapper ModelSurface ModelParams
  ModelSolver SpecSolver ProofSolverR ModelQuadcoil SpecMath SpecSurface SpecQuadcoil SpecCert ProofCert ProofLinear ProofQuadcoil ProofQuadcoil5.
Import ListNotations.
Open Scope R_scope.
Open Scope string_scope.
Open Scope list_scope.

Lemma ldot_dotR a b : ldot a b = dotR a b.
Proof. unfold ldot, dotR, sumR. reflexivity. Qed.
Lemma settings_parse ns {L} (a b : args L) qd y : same_settings a b -> f_g_h_from_y ns b qd y = f_g_h_from_y ns a qd y.
Proof.
  intros HS. unfold f_g_h_from_y. rewrite (settings_y_to_qp a b qd y HS). destruct HS as (Hb & _). unfold objective_of. rewrite Hb. reflexivity.
Qed.
(** At the inputs of another call, the functions are those of that call. *)
Lemma functions_elsewhere ns {L} (a b : args L) p p' : prepare ns a = Ok p -> prepare ns b = Ok p' -> same_settings a b ->
  (forall x, qc_Bnormal b = Some x -> wf x) -> structure (y_dict b) = structure (y_dict a) ->
  f_g_h_from_y ns a (pr_qd p) (unravel (structure (pr_y p)) (ravel (y_dict b))) = Ok (pr_fn p').
Proof.
  intros Hp Hp' HS HB Hst.
  destruct (prepare_fields ns b p' Hp') as (_ & _ & _ & Ey' & Ef' & _).
  destruct (prepare_fields ns a p Hp) as (_ & _ & _ & Ey & _).
  assert (Qd : pr_qd p = pr_qd p').
  { pose proof (prepare_quadpoints ns a p Hp) as A1. pose proof (prepare_quadpoints ns b p' Hp') as A2.
    rewrite (settings_quadpoints a b HS) in A2. congruence. }
  rewrite Ey, <- Hst, Qd, <- (settings_parse ns a b) by exact HS.
  rewrite (parse_ext ns b (pr_qd p') _ (y_dict b)); [exact Ef'|]. intros k. now apply flat_inputs.
Qed.

Section Stage.
  Variables (ns : namespace params) (E : library).
  Notation L := (x_solver E).
  Notation N := (R_num (x_fin E)).
  Lemma direct_elsewhere (a b : args L) p p' x d v : prepare ns a = Ok p -> prepare ns b = Ok p' -> same_settings a b ->
    (forall x, qc_Bnormal b = Some x -> wf x) -> structure (y_dict b) = structure (y_dict a) ->
    unscale (pr_structure p) (pr_unit p) x = Ok d -> fn_f (pr_fn p') (fn_qp (pr_fn p')) d = Ok v ->
    l_direct ns E a p x (ravel (y_dict b)) = nth 0 (el v) 0.
  Proof.
    intros Hp Hp' HS HB Hst Hx Hf. unfold l_direct. rewrite (functions_elsewhere ns a b p p') by assumption. cbn [bind]. rewrite Hx. cbn [bind]. rewrite Hf. reflexivity.
  Qed.
  (** The problem with constant functions. *)
  Definition frozen (P : problem N) (f : R) (g h : list R) : problem N :=
    Build_problem N (fun _ => f) (fun _ => g) (fun _ => h) (p_mask _ P) (p_growth _ P) (p_csafe _ P) (p_xstop_outer _ P) (p_ctol _ P)
      (p_fstop _ P) (p_xstop _ P) (p_gtol _ P) (p_fstop_last _ P) (p_xstop_last _ P) (p_gtol_last _ P) (p_maxiter_tot _ P) (p_maxiter_inner _ P).
  Lemma terms_lagrangian (P : problem N) (mu lam : list R) (c f : R) (g h x : list R) : p_mask _ P = gplus_hard N ->
    let gp := gplus_hard N g mu c in
    f + (ldot lam h + ldot mu gp) + c / 2 * (ldot h h + ldot gp gp) = l_k N (frozen P f g h) 1 c lam mu x.
  Proof.
    intros Hm gp. unfold l_k, frozen. cbn [ModelSolver.p_f ModelSolver.p_g ModelSolver.p_h ModelSolver.p_mask]. rewrite Hm. fold gp.
    cbn [T R_num n_add n_mul n_div n_nat]. rewrite !vdot_dotR, !vsum_sumR, !ldot_dotR.
    change (vmul N h h) with (map2 Rmult h h). change (vmul N gp gp) with (map2 Rmult gp gp).
    change (sumR (map2 Rmult h h)) with (dotR h h). change (sumR (map2 Rmult gp gp)) with (dotR gp gp). replace (INR 2) with 2 by (cbn; lra). change (f + (dotR lam h + dotR mu gp) + c / 2 * (dotR h h + dotR gp gp) = f + dotR lam h + dotR mu gp + c / 2 * (dotR h h + dotR gp gp)). ring.
  Qed.
  Lemma lagrangian_elsewhere (a b : args L) p p' (mu lam : list R) (c : R) x d (vf vg vh : arr) :
    qc_gplus_mask a = gplus_hard N -> prepare ns a = Ok p -> prepare ns b = Ok p' -> same_settings a b ->
    (forall x, qc_Bnormal b = Some x -> wf x) -> structure (y_dict b) = structure (y_dict a) ->
    unscale (pr_structure p) (pr_unit p) x = Ok d ->
    fn_f (pr_fn p') (fn_qp (pr_fn p')) d = Ok vf -> fn_g (pr_fn p') (fn_qp (pr_fn p')) d = Ok vg -> fn_h (pr_fn p') (fn_qp (pr_fn p')) d = Ok vh ->
    0 < c -> length mu = length (el vg) -> length lam = length (el vh) ->
    l_sum ns E a p mu lam c x (ravel (y_dict b)) = augmented (fun _ => nth 0 (el vf) 0) (fun _ => el vg) (fun _ => el vh) c lam mu x.
  Proof.
    intros Hm Hp Hp' HS HB Hst Hx Hf Hg Hh Hc Lm Ll. unfold l_sum, l_terms. rewrite (functions_elsewhere ns a b p p') by assumption.
    rewrite Hx. cbn [bind]. rewrite Hf, Hg, Hh, Hm. cbn [real_of list_of].
    set (P := frozen (solver_problem E a p) (nth 0 (el vf) 0) (el vg) (el vh)).
    rewrite (terms_lagrangian (solver_problem E a p) mu lam c (nth 0 (el vf) 0) (el vg) (el vh) x eq_refl). fold P.
    rewrite (handed (x_fin E) P eq_refl (length x) (length mu) (length lam)); auto.
    intros z _. split; [symmetry; exact Lm|symmetry; exact Ll].
  Qed.
  (** With the multipliers and the penalty of the last pass, it is the
      function handed to the optimiser in that pass. *)
  Lemma lagrangian_handed (a : args L) p (mu lam : list R) (c u : R) (x : list R) :
    qc_gplus_mask a = gplus_hard N -> prepare ns a = Ok p -> (forall b, qc_Bnormal a = Some b -> wf b) ->
    l_sum ns E a p mu lam c (map (fun v => v * u) x) (ravel (pr_y p)) = l_k N (solver_problem E a p) u c lam mu x.
  Proof.
    intros Hm Hp HB. destruct (prepare_fields ns a p Hp) as (_ & _ & _ & Ey & Ef & _).
    unfold l_sum, l_terms. rewrite Ey, (parse_ext ns a (pr_qd p) _ (y_dict a)), Ef by (intros k; now apply flat_inputs).
    set (X := map (fun v => v * u) x). rewrite Hm.
    change (bind (unscale (pr_structure p) (pr_unit p) X) (fn_f (pr_fn p) (fn_qp (pr_fn p)))) with (f_scaled p X).
    change (bind (unscale (pr_structure p) (pr_unit p) X) (fn_g (pr_fn p) (fn_qp (pr_fn p)))) with (g_scaled p X).
    change (bind (unscale (pr_structure p) (pr_unit p) X) (fn_h (pr_fn p) (fn_qp (pr_fn p)))) with (h_scaled p X).
    rewrite (terms_lagrangian (solver_problem E a p) mu lam c _ _ _ x eq_refl). reflexivity.
  Qed.
End Stage.

(** The last run of the optimiser in a call with constraints. *)
Lemma last_run E (a : args (x_solver E)) p d : solve E a p = Some (Constrained E d) ->
  exists d0 r, main_loop (R_num (x_fin E)) (x_opt E) (x_autograd E) (solver_problem E a p) (x_fuel_out E) (x_fuel_in E)
      (init_dict _ (solver_problem E a p) (pr_x0 p) (qc_c_init a) (pr_lam0 p) (pr_mu0 p)) = Some d0 /\
    run_opt _ (x_opt E) (x_autograd E) (x_fuel_in E) (map (fun v => v / d_xunit _ d0) (d_x _ d0))
      (l_k _ (solver_problem E a p) (d_xunit _ d0) (d_c _ d0) (d_lam _ d0) (d_mu _ d0)) (qc_maxiter_inner a)
      (fstop_inner_last (qc_tol a)) (xstop_inner_last (qc_tol a)) (gtol_inner_last (qc_tol a)) = Some r /\
    d_x _ d = map (fun v => v * d_xunit _ d0) (r_x _ r).
Proof.
  unfold solve. destruct (unconstrained (pr_fn p)); [destruct (run_opt _ _ _ _ _ _ _ _ _ _); discriminate|].
  unfold solve_constrained. destruct (main_loop _ _ _ _ _ _ _) as [d0|] eqn:Em; [|discriminate]. unfold last_pass.
  destruct (body _ _ _ _ _ _ _ _ d0) as [d1|] eqn:Eb; [|discriminate]. intros [= <-].
  unfold body in Eb. destruct (run_opt _ _ _ _ _ _ _ _ _ _) as [r|] eqn:Er; [|discriminate]. injection Eb as <-.
  exists d0, r. split; [reflexivity|]. split; [exact Er|reflexivity].
Qed.
