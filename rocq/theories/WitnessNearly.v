(** A call for the example of C160. *)
From Coq Require Import String List Bool Arith ZArith Reals Lra Lia.
From Verif Require Import Base ModelArray ProofArray ModelMath SpecMath ModelSurface SpecSurface ModelParams ModelField SpecField
  ModelQuantity ModelWrapper SpecWrapper ModelPackage SpecPackage WitnessField WitnessSolver WitnessQuadcoil PropPackage
  SpecConvex ModelSolver SpecSolver ProofSolver ModelQuadcoil SpecQuadcoil ProofQuadcoil
  SpecProblem ProofEnd SpecEnd ProofEnd4 ProofEnd5 SpecCert ProofCert WitnessCert ProofPackage ProofPackage2 ProofPackage3 ProofPackage4 PropConvex ProofField3 ProofProblem ProofProblem2 SpecBest SpecCertify ProofCertify ProofCertify3 ProofCertify4 ProofCertify5 WitnessEnd.
Import ListNotations.
Open Scope R_scope.
Open Scope string_scope.
Open Scope list_scope.

(** The call of C120 with four bounds: the largest fourth power of the
    potential, its largest value, its value everywhere and its sum. *)
Definition call160 : args unit :=
  {| qc_nfp := 2; qc_stellsym := true; qc_plasma_mpol := 1; qc_plasma_ntor := 0; qc_plasma_dofs := [1 * 3; 1 * / 2; 1 * / 2];
     qc_G := 2; qc_I := 1; qc_mpol := 1; qc_ntor := 1; qc_qphi := Some [0; 1/8]; qc_qtheta := Some [1/16; 1/3];
     qc_phi_init := None; qc_phi_unit := Some 1; qc_plasma_stellsym := true;
     qc_plasma_qphi := Some [0; 1/4]; qc_plasma_qtheta := Some [0; 1/2]; qc_Bnormal := Some (Arr [2; 2]%nat [0; 1; 2; 3]);
     qc_distance := None; qc_generator := no_gen; qc_winding_dofs := Some [1 * 3; 1 * 1; 1 * 1]; qc_winding_mpol := 1; qc_winding_ntor := 0;
     qc_winding_qphi := Some [0 + INR 0 * / (INR 2 * INR 1); 0 + INR 1 * / (INR 2 * INR 1)];
     qc_winding_qtheta := Some [0 + INR 0 * / INR 2; 0 + INR 1 * / INR 2]; qc_winding_stellsym := true;
     qc_objective_name := NTuple ["f_Phi"]; qc_objective_weight := WArr (Arr [1%nat] [1/2]); qc_objective_unit := UsSeq [UScalar 2];
     qc_constraint_name := NTuple ["f_max_Phi4"; "f_max_Phi"; "Phi"; "f_l1_Phi"]; qc_constraint_type := NTuple ["<="; "<="; ">="; "<="]; qc_constraint_unit := UsSeq [UScalar 3; UScalar 3; UScalar 7; UScalar 3]; qc_constraint_value := VSeq [16; 5; -1; 20];
     qc_metric_name := NTuple ["f_B"]; qc_value_only := true; qc_smoothing := Some "slack"; qc_smoothing_params := [];
     qc_verbose := false; qc_merge := false; qc_c_init := 1; qc_c_growth := 2; qc_tol := loose;
     qc_maxiter_tot := 1; qc_maxiter_inner := 1; qc_gplus_mask := some_mask; qc_linear_solver := None |}.
Definition bounds160 := [UC "f_max_Phi4" LE 3 16; UC "f_max_Phi" LE 3 5; UC "Phi" GE 7 (-1); UC "f_l1_Phi" LE 3 20].
Lemma call160_builds : builds call160 shown.
Proof. split; [left; split; [reflexivity|]; eexists; reflexivity|]. eexists. split; reflexivity. Qed.
Lemma call160_asks : asks call160 terms120 bounds160.
Proof. split; [right; repeat split|repeat split]. Qed.
Lemma call160_bounds c : In c bounds160 -> scaled_use U120 shown (uc_name c) (uc_unit c) /\ supported (package []) (uc_name c) (op_string (uc_cmp c)) (UScalar (uc_unit c)).
Proof.
  intros [<-|[<-|[<-|[<-|[]]]]]; split; try (eexists; split; [reflexivity|split; [cbn; tauto|discriminate]]); (split; [cbn; lra|]).
  - left. split; [cbn; tauto|]. cbn. unfold U120. apply Rabs_right. lra.
  - left. split; [cbn; tauto|]. cbn. unfold U120. apply Rabs_right. lra.
  - right. split; [cbn; tauto|discriminate].
  - left. split; [cbn; tauto|]. cbn. unfold U120. apply Rabs_right. lra.
Qed.
Lemma call160_metrics m : In m (metrics call160) -> reportable shown (negb (qc_value_only call160)) m.
Proof.
  intros [<-|[]]. right; exists Number; (split; [cbn; tauto|]); (split; [cbn; intuition discriminate|]); (split; [discriminate|]); reflexivity || discriminate.
Qed.
Lemma call160_prepared : exists p, prepare (package []) call160 = Ok p /\ fn_qp (pr_fn p) = shown.
Proof.
  apply (prepare_ok [] call160 shown U120 terms120 bounds160); try reflexivity; try discriminate.
  - exact (call160_builds).
  - exact call160_asks.
  - apply device_increasing.
  - exists [1; 2; 3; 4]. apply shown_sound. reflexivity.
  - intros t I. destruct (call_terms t I) as (? & ? & ?); auto.
  - intros c I. apply (call160_bounds c I).
  - intros t I. apply (call_terms t I).
  - intros c I. apply (call160_bounds c I).
Qed.
Lemma call160_facts p : prepare (package []) call160 = Ok p -> pr_unit p = 1 /\ unconstrained (pr_fn p) = false /\ list_of (h_scaled p (pr_x0 p)) = [].
Proof.
  intros H. repeat split.
  - assert (E : match prepare (package []) call160 with Ok p => pr_unit p = 1 | Raise e => True end) by (calc120; reflexivity).
    rewrite H in E. exact E.
  - assert (E : match prepare (package []) call160 with Ok p => unconstrained (pr_fn p) = false | Raise e => True end) by (calc120; reflexivity).
    rewrite H in E. exact E.
  - assert (E : match prepare (package []) call160 with Ok p => list_of (h_scaled p (pr_x0 p)) = [] | Raise e => True end) by (calc120; reflexivity).
    rewrite H in E. exact E.
Qed.

Lemma call160_start p : prepare (package []) call160 = Ok p -> List.Forall (fun v => v <= 0) (list_of (g_scaled p (pr_x0 p))) /\
  exists d, unscale (pr_structure p) (pr_unit p) (pr_x0 p) = Ok d /\ lookup "phi" d = Some (vec [0; 0; 0; 0]).
Proof.
  intros H. assert (Z : 0 / 1 * 1 = 0) by field. assert (Z3 : Rabs 3 = 3) by (apply Rabs_right; lra). assert (Z7 : Rabs 7 = 7) by (apply Rabs_right; lra).
  assert (M0 : Rmax 0 0 = 0) by (apply Rmax_left; lra). assert (Zd : forall u, 0 / u = 0) by (intros u; unfold Rdiv; ring).
  split.
  - assert (E : match prepare (package []) call160 with Ok p => List.Forall (fun v => v <= 0) (list_of (g_scaled p (pr_x0 p))) | Raise e => True end).
    { calc120. rewrite ?Zd, ?Z3, ?Z7, ?Rmult_0_r, ?Rmult_0_l, ?Rplus_0_l, ?Rabs_R0, ?M0, ?Zd, ?Rmult_0_l, ?Rmult_0_r. repeat (apply List.Forall_cons; [|]); try apply List.Forall_nil; repeat rewrite ?M0, ?Rplus_0_l, ?Rmult_0_l, ?Zd, ?Rabs_R0, ?Rmult_0_r; lra. }
    rewrite H in E. exact E.
  - assert (E : match prepare (package []) call160 with Ok p => exists d, unscale (pr_structure p) (pr_unit p) (pr_x0 p) = Ok d /\ lookup "phi" d = Some (vec [0; 0; 0; 0]) | Raise e => True end).
    { calc120. eexists. split; [reflexivity|]. calc120. rewrite Z. reflexivity. }
    rewrite H in E. exact E.
Qed.

(** Staying at the start is the best that the call can do, and leaves every multiplier at zero. *)
Lemma call160_rests p d1 d : prepare (package []) call160 = Ok p ->
  main_loop _ stay (x_autograd E120) (solver_problem E120 call160 p) 1 1 (init_dict _ (solver_problem E120 call160 p) (pr_x0 p) 1 (pr_lam0 p) (pr_mu0 p)) = Some d1 ->
  solve_constrained _ stay (x_autograd E120) (solver_problem E120 call160 p) 1 1 (pr_x0 p) 1 (pr_lam0 p) (pr_mu0 p) = Some d ->
  d_x _ d = pr_x0 p /\ List.Forall (fun m => m = 0) (d_mu _ d) /\
  forall z : list R, length z = length (pr_x0 p) -> aug (fun _ => false) (solver_problem E120 call160 p) d1 (d_x _ d) <= aug (fun _ => false) (solver_problem E120 call160 p) d1 z + 0.
Proof.
  intros Hp Hml Hsol. set (P := solver_problem E120 call160 p) in *.
  destruct (call160_facts p Hp) as (Un & _ & H0). destruct (call160_start p Hp) as (G0 & d0 & E0 & Ph0).
  assert (Fq : fn_qp (pr_fn p) = shown) by (destruct (call160_prepared) as (p' & Hp' & Fq); congruence).
  assert (O : ordered (fn_qp (pr_fn p))) by (rewrite Fq; apply device_increasing).
  assert (Sx : exists x, sound (fn_qp (pr_fn p)) x) by (rewrite Fq; exists [1; 2; 3; 4]; now apply shown_sound).
  destruct (problem_facts [] E120 call160 p U120 terms120 bounds160 Hp call160_asks eq_refl eq_refl O Sx) as (ng & nh & FZ & _ & Lm & Ll & _).
  { rewrite Fq. intros t I. destruct (call_terms t I) as (? & ? & _); auto. }
  { rewrite Fq. intros c I. apply (call160_bounds c I). }
  { rewrite Un. lra. }
  { discriminate. }
  assert (Adm : admissible P (pr_x0 p)).
  { split; [exact G0|]. cbn [P solver_problem ModelSolver.p_h]. rewrite H0. constructor. }
  assert (Sz : sized P (length (pr_x0 p)) ng nh).
  { intros z Lz. destruct (FZ z Lz) as (L1 & L2 & _). split; assumption. }
  assert (Best : forall z : list R, length z = length (pr_x0 p) -> p_f RN P (pr_x0 p) <= p_f RN P z).
  { intros z Lz. destruct (FZ z Lz) as (_ & _ & _ & dz & x & (Ez & Lx & Px) & _). rewrite Fq in Lx.
    destruct (call_value call160 bounds160 p z dz x Hp call160_asks eq_refl eq_refl Fq Ez Lx Px) as (M & _ & EM & PM & _).
    destruct (call_value call160 bounds160 p (pr_x0 p) d0 [0; 0; 0; 0] Hp call160_asks eq_refl eq_refl Fq E0 eq_refl Ph0) as (M0 & _ & EM0 & _ & ZM).
    cbn [P solver_problem ModelSolver.p_f]. rewrite EM, EM0, (ZM eq_refl). lra. }
  destruct (prepare_multipliers _ call160 p Hp) as (g0 & h0 & _ & _ & Em & El).
  assert (R0 : resting ng nh (pr_x0 p) (init_dict RN P (pr_x0 p) 1 (pr_lam0 p) (pr_mu0 p))).
  { unfold resting. split; [|split; [reflexivity|]].
    - repeat split; try assumption; simpl; try reflexivity; try lra. rewrite Em. apply List.Forall_forall. intros m I. apply in_map_iff in I as (? & <- & _). lra.
    - cbn [init_dict d_mu d_lam]. rewrite Em, El. split; apply List.Forall_forall; intros m I; apply in_map_iff in I as (? & <- & _); reflexivity. }
  pose proof (proj1 (main_inv _ _ _ stay_counted P _ _ _ _ _ _ _ Hml)) as Hps.
  destruct (rest_best (x_autograd E120) P ng nh (pr_x0 p) eq_refl ltac:(cbn; lra) Sz Adm Best _ _ Hps R0) as (R1 & HR).
  destruct (solve_inv _ _ _ stay_counted P _ _ _ _ _ _ _ Hsol) as (d1' & Hml' & Hlast & _).
  pose proof (eq_trans (eq_sym Hml') Hml) as X. injection X as ->.
  pose proof (pass_rests (x_autograd E120) P ng nh (pr_x0 p) eq_refl ltac:(cbn; lra) Sz Adm Best _ _ _ _ _ _ R1 Hlast) as (_ & Ex & Zm & _).
  split; [exact Ex|]. split; [exact Zm|]. intros z Lz. rewrite Ex. apply HR, Lz.
Qed.
