(** Calls in approx mode for the examples of C149. *)
From Coq Require Import String List Bool Arith ZArith Reals Lra Lia.
From Verif Require Import Base ModelArray ProofArray ModelMath SpecMath ModelSurface SpecSurface ModelParams ModelField SpecField
  ModelQuantity ModelWrapper SpecWrapper ModelPackage SpecPackage WitnessField WitnessSolver WitnessQuadcoil PropPackage
  SpecConvex ModelSolver SpecSolver ProofSolver ModelQuadcoil SpecQuadcoil ProofQuadcoil
  SpecProblem SpecEnd ProofEnd4 ProofEnd5 SpecCert ProofCert ProofPackage4 ProofPackage5 PropConvex ProofConvex ProofNfp3
  SpecApprox SpecApproxCall ProofApprox5 ProofApprox6 WitnessEnd.
Import ListNotations.
Open Scope R_scope.
Open Scope string_scope.
Open Scope list_scope.

(** The call of WitnessEnd in approx mode, with the constraints [cs]. *)
Definition call149 (merge : bool) (cs : list user_constraint) : args unit :=
  {| qc_nfp := 2; qc_stellsym := true; qc_plasma_mpol := 1; qc_plasma_ntor := 0; qc_plasma_dofs := [1 * 3; 1 * / 2; 1 * / 2];
     qc_G := 2; qc_I := 1; qc_mpol := 1; qc_ntor := 1; qc_qphi := Some [0; 1/8]; qc_qtheta := Some [1/16; 1/3];
     qc_phi_init := None; qc_phi_unit := Some 1; qc_plasma_stellsym := true;
     qc_plasma_qphi := Some [0; 1/4]; qc_plasma_qtheta := Some [0; 1/2]; qc_Bnormal := Some (Arr [2; 2]%nat [0; 1; 2; 3]);
     qc_distance := None; qc_generator := no_gen; qc_winding_dofs := Some [1 * 3; 1 * 1; 1 * 1]; qc_winding_mpol := 1; qc_winding_ntor := 0;
     qc_winding_qphi := Some [0 + INR 0 * / (INR 2 * INR 1); 0 + INR 1 * / (INR 2 * INR 1)];
     qc_winding_qtheta := Some [0 + INR 0 * / INR 2; 0 + INR 1 * / INR 2]; qc_winding_stellsym := true;
     qc_objective_name := NTuple ["f_Phi"]; qc_objective_weight := WArr (Arr [1%nat] [1/2]); qc_objective_unit := UsSeq [UScalar 2];
     qc_constraint_name := NTuple (map uc_name cs); qc_constraint_type := NTuple (map (fun c => op_string (uc_cmp c)) cs);
     qc_constraint_unit := UsSeq (map (fun c => UScalar (uc_unit c)) cs); qc_constraint_value := VSeq (map uc_val cs);
     qc_metric_name := NTuple ["f_B"; "f_obj"; "f_max_K2"]; qc_value_only := false; qc_smoothing := Some "approx"; qc_smoothing_params := [("lse_epsilon", 1/100)];
     qc_verbose := false; qc_merge := merge; qc_c_init := 1; qc_c_growth := 2; qc_tol := loose;
     qc_maxiter_tot := 1; qc_maxiter_inner := 1; qc_gplus_mask := some_mask; qc_linear_solver := None |}.
Definition bounds149 := [UC "f_max_Phi" LE 3 5; UC "Phi" GE 2 (-3)].

Section Case.
  Variables (merge : bool) (cs : list user_constraint).
  Hypothesis Hcs : cs = bounds149 \/ cs = [].
  Notation call := (call149 merge cs).
  Lemma case_builds : builds call shown.
  Proof using Hcs. split; [left; split; [reflexivity|]; eexists; reflexivity|]. eexists. split; [reflexivity|]. destruct Hcs as [-> | ->]; reflexivity. Qed.
  Lemma case_asks : asks call terms120 cs.
  Proof using. split; [right; repeat split|repeat split]. Qed.
  Lemma case_terms t : In t terms120 -> 0 <= ob_weight t /\ smooth_use shown (ob_name t) (ob_unit t) /\ supported (package []) (ob_name t) "f" (UScalar (ob_unit t)).
  Proof using.
    clear Hcs. intros [<-|[]]. split; [cbn; lra|]. split.
    - split; [cbn; lra|]. right. right. split; [cbn; tauto|discriminate].
    - eexists. split; [reflexivity|split; [cbn; tauto|discriminate]].
  Qed.
  Lemma case_bounds c : In c cs -> uc_cmp c <> EQ /\ smooth_use shown (uc_name c) (uc_unit c) /\ supported (package []) (uc_name c) (op_string (uc_cmp c)) (UScalar (uc_unit c)).
  Proof using Hcs.
    destruct Hcs as [-> | ->]; [|intros []]. intros [<-|[<-|[]]]; (split; [discriminate|]); (split; [split; [cbn; lra|]|eexists; split; [reflexivity|split; [cbn; tauto|discriminate]]]).
    - left. cbn. tauto.
    - right. right. split; [cbn; tauto|discriminate].
  Qed.
  Lemma case_metrics m : In m (metrics call) -> reportable shown (negb (qc_value_only call)) m.
  Proof using.
    clear Hcs. intros [<-|[<-|[<-|[]]]]; [right|left; reflexivity|right]; exists Number; (split; [cbn; tauto|]); (split; [cbn; intuition discriminate|]); (split; [discriminate|reflexivity]).
  Qed.
  Lemma case_prepared : exists p, prepare (package []) call = Ok p /\ fn_qp (pr_fn p) = shown.
  Proof using Hcs.
    apply (smooth_prepare [] call shown (1/100) terms120 cs); try reflexivity; try discriminate.
    - exact case_builds.
    - exact case_asks.
    - lra.
    - apply device_increasing.
    - exists [1; 2; 3; 4]. now apply shown_sound.
    - intros t I. destruct (case_terms t I) as (? & ? & ?); auto.
    - intros c I. destruct (case_bounds c I) as (? & ? & ?); auto.
    - intros t I. apply (case_terms t I).
    - intros c I. apply (case_bounds c I).
  Qed.
  Lemma case_start p : prepare (package []) call = Ok p -> pr_unit p = 1 /\ pr_x0 p = [0 / 1; 0 / 1; 0 / 1; 0 / 1] /\
    unconstrained (pr_fn p) = negb merge && match cs with [] => true | _ => false end.
  Proof using Hcs.
    intros H.
    assert (E : match prepare (package []) call with Ok p => pr_unit p = 1 /\ pr_x0 p = [0 / 1; 0 / 1; 0 / 1; 0 / 1] /\
      unconstrained (pr_fn p) = negb merge && match cs with [] => true | _ => false end | Raise e => True end).
    { destruct Hcs as [-> | ->]; destruct merge; lazy -[Rplus Rminus Rmult Rdiv Ropp Rinv IZR Rabs sin cos PI Rmax sqrt INR Rle exp ln Rpower]; auto. }
    rewrite H in E. exact E.
  Qed.

  Notation zeros := [0; 0; 0; 0].
  Lemma case_zeros : SpecConvex.feasible [] shown (asked_bounds (cautious shown (1/100) merge cs)) zeros.
  Proof using Hcs.
    assert (S : sound shown zeros) by now apply shown_sound.
    assert (Z : forall name, In name ["Phi"; "f_max_Phi"] -> exists u, reads [] name shown zeros u /\ List.Forall (eq 0) (el u)).
    { intros name I. destruct (zero_units [] shown S name) as (u & A & F); [cbn in *; tauto|]. exists u. split; [now apply automatic_reads in A|exact F]. }
    assert (Ln : forall a, 0 < a -> ln a <= a - 1).
    { intros a Pa. pose proof (exp_ineq1_le (ln a)) as E. rewrite exp_ln in E by exact Pa. lra. }
    assert (Mg : merging merge 2 <= 1).
    { unfold merging. destruct merge; [|lra]. pose proof (Ln (INR 2) ltac:(cbn; lra)). cbn in *. lra. }
    intros name c b I. destruct Hcs as [-> | ->]; [|destruct I].
    destruct I as [[= <- <- <-]|[[= <- <- <-]|[]]];
      match goal with |- exists v, reads _ ?n _ _ _ /\ _ => destruct (Z n) as (u & Ru & F) end; try (cbn; tauto); exists u; (split; [exact Ru|]); intros y Iy;
      rewrite List.Forall_forall in F; rewrite <- (F y Iy); cbn [length]; unfold loss.
    - cbn [lookup smoothed_peaks String.eqb Ascii.eqb Bool.eqb uc_name uc_unit]. rewrite Rabs_pos_eq by lra.
      match goal with |- context [ln ?a] => replace a with 8 by (cbn; lra) end. pose proof (Ln 8 ltac:(lra)). lra.
    - change (lookup "Phi" smoothed_peaks) with (@None shape_kind). change (String.eqb "Phi" "f_l1_Phi") with false.
      change (lookup "Phi" (documented ++ undocumented)) with (Some CoilField). cbv iota. cbn [uc_unit]. rewrite Rabs_pos_eq by lra.
      match goal with |- context [ln ?a] => replace a with 4 by (cbn; lra) end. pose proof (Ln 4 ltac:(lra)). lra.
  Qed.
  Lemma case_value x r : length x = 4%nat -> weighted [] shown (asked_terms terms120) x r -> 0 <= r /\ (x = zeros -> r = 0).
  Proof using.
    clear Hcs. intros Lx (vs & F & ->). inversion F as [|? m ? l Hm F']; subst. inversion F'; subst. cbn [fst] in Hm.
    destruct (mean_square x Lx) as (M & RM & PM & ZM). pose proof (ProofConvex.reads_fun _ _ _ _ _ _ RM Hm) as X. injection X as ->.
    unfold Rsum. cbn. rewrite Rabs_pos_eq by lra. split; [lra|]. intros E. rewrite (ZM E). lra.
  Qed.
  Lemma case_facts p : prepare (package []) call = Ok p -> fn_qp (pr_fn p) = shown /\ length (pr_x0 p) = 4%nat /\ pr_lam0 p = [] /\
    (forall v, In v (list_of (g_scaled p (pr_x0 p))) -> v <= 0) /\
    (exists ng, length (pr_mu0 p) = ng /\ forall z, length z = 4%nat -> length (list_of (g_scaled p z)) = ng /\ list_of (h_scaled p z) = []) /\
    (forall z, length z = 4%nat -> real_of (f_scaled p (pr_x0 p)) <= real_of (f_scaled p z)).
  Proof using Hcs.
    intros Hp. assert (Fq : fn_qp (pr_fn p) = shown) by (destruct case_prepared as (p' & Hp' & Fq); congruence).
    destruct (case_start p Hp) as (Un & Ex & _).
    assert (O : ordered (fn_qp (pr_fn p))) by (rewrite Fq; apply device_increasing).
    assert (Sx : exists x, sound (fn_qp (pr_fn p)) x) by (rewrite Fq; exists [1; 2; 3; 4]; now apply shown_sound).
    destruct (smooth_facts [] E120 call p (1/100) terms120 cs Hp case_asks eq_refl eq_refl ltac:(lra) O Sx) as (_ & El & _ & ng & Lm & FZ).
    { rewrite Fq. intros t I. destruct (case_terms t I) as (? & ? & _); auto. }
    { rewrite Fq. intros c I. destruct (case_bounds c I) as (? & ? & _); auto. }
    { discriminate. }
    rewrite Fq in FZ. change (q_ndofs shown) with 4%nat in FZ.
    assert (L0 : length (pr_x0 p) = 4%nat) by (rewrite Ex; reflexivity).
    assert (X0 : map (fun v => v * pr_unit p) (pr_x0 p) = zeros).
    { rewrite Ex, Un. cbn [map]. replace (0 / 1 * 1) with 0 by field. reflexivity. }
    assert (OL : objective_loss shown terms120 = 0) by (unfold objective_loss, Rsum; cbn; lra).
    split; [exact Fq|]. split; [exact L0|]. split; [exact El|].
    destruct (FZ _ L0) as (_ & _ & _ & (y0 & r0 & F0 & W0 & B0) & _ & A0). rewrite X0 in W0, A0. split; [exact (A0 case_zeros)|]. split.
    - exists ng. split; [exact Lm|]. intros z Lz. destruct (FZ z Lz) as (_ & A & B & _). auto.
    - intros z Lz. destruct (FZ z Lz) as (_ & _ & _ & (y & r & Fy & W & B) & _). rewrite F0, Fy, OL in *. cbn [real_of scal el nth].
      assert (Lz' : length (map (fun v => v * pr_unit p) z) = 4%nat) by (rewrite map_length; exact Lz).
      destruct (case_value _ _ Lz' W) as (Pr & _). destruct (case_value zeros _ eq_refl W0) as (_ & Zr). specialize (Zr eq_refl). lra.
  Qed.
  Lemma case_rests p d1 d : prepare (package []) call = Ok p ->
    main_loop _ stay (x_autograd E120) (solver_problem E120 call p) 1 1 (init_dict _ (solver_problem E120 call p) (pr_x0 p) 1 (pr_lam0 p) (pr_mu0 p)) = Some d1 ->
    solve_constrained _ stay (x_autograd E120) (solver_problem E120 call p) 1 1 (pr_x0 p) 1 (pr_lam0 p) (pr_mu0 p) = Some d ->
    forall z : list R, length z = length (pr_x0 p) -> aug (fun _ => false) (solver_problem E120 call p) d1 (d_x _ d) <= aug (fun _ => false) (solver_problem E120 call p) d1 z + 0.
  Proof using Hcs.
    intros Hp Hml Hsol. set (P := solver_problem E120 call p) in *.
    destruct (case_facts p Hp) as (Fq & L4 & El & G0 & (ng & Lm & Lz) & Bst).
    assert (Adm : admissible P (pr_x0 p)).
    { split; [apply List.Forall_forall; exact G0|]. cbn [P solver_problem ModelSolver.p_h]. rewrite (proj2 (Lz _ L4)). constructor. }
    assert (Sz : sized P (length (pr_x0 p)) ng 0).
    { intros z Z. destruct (Lz z (eq_trans Z L4)) as (L1 & L2). split; [exact L1|]. cbn [P solver_problem ModelSolver.p_h]. change (@length R (list_of (h_scaled p z)) = 0%nat). now rewrite L2. }
    assert (Best : forall z : list R, length z = length (pr_x0 p) -> p_f RN P (pr_x0 p) <= p_f RN P z).
    { intros z Z. exact (Bst z (eq_trans Z L4)). }
    destruct (prepare_multipliers _ call p Hp) as (g0 & h0 & _ & _ & Em & _).
    assert (R0 : resting ng 0 (pr_x0 p) (init_dict RN P (pr_x0 p) 1 (pr_lam0 p) (pr_mu0 p))).
    { unfold resting. split; [|split; [reflexivity|]].
      - rewrite El. repeat split; try assumption; simpl; try reflexivity; try lra. rewrite Em. apply List.Forall_forall. intros m I. apply in_map_iff in I as (? & <- & _). lra.
      - cbn [init_dict d_mu d_lam]. rewrite Em, El. split; [|constructor]. apply List.Forall_forall; intros m I; apply in_map_iff in I as (? & <- & _); reflexivity. }
    pose proof (proj1 (main_inv _ _ _ stay_counted P _ _ _ _ _ _ _ Hml)) as Hps.
    destruct (rest_best (x_autograd E120) P ng 0 (pr_x0 p) eq_refl ltac:(cbn; lra) Sz Adm Best _ _ Hps R0) as (R1 & HR).
    destruct (solve_inv _ _ _ stay_counted P _ _ _ _ _ _ _ Hsol) as (d1' & Hml' & Hlast & _).
    pose proof (eq_trans (eq_sym Hml') Hml) as X. injection X as ->.
    pose proof (pass_rests (x_autograd E120) P ng 0 (pr_x0 p) eq_refl ltac:(cbn; lra) Sz Adm Best _ _ _ _ _ _ R1 Hlast) as (_ & Ex & _).
    intros z Z. rewrite Ex. apply HR, Z.
  Qed.
  Lemma case_free p r : prepare (package []) call = Ok p ->
    run_opt RN stay (x_autograd E120) 1 (pr_x0 p) (fun x => real_of (f_scaled p x)) 1 (fstop_inner_last loose) (xstop_inner_last loose) (gtol_inner loose) = Some r ->
    forall z : list R, length z = length (pr_x0 p) -> real_of (f_scaled p (r_x _ r)) <= real_of (f_scaled p z) + 0.
  Proof using Hcs.
    intros Hp Hr. destruct (inner_exit RN stay _ stay_counted _ _ _ _ _ _ _ _ Hr) as (? & ? & ? & Ht & _). apply stay_traj in Ht.
    destruct (case_facts p Hp) as (_ & L4 & _ & _ & _ & Bst). intros z Z. rewrite Ht. pose proof (Bst z (eq_trans Z L4)). lra.
  Qed.
End Case.
