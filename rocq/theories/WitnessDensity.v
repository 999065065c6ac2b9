(** A call for the example of C156. *)
From Coq Require Import String List Bool Arith ZArith Reals Lra Lia.
From Verif Require Import Base ModelArray ProofArray ModelMath SpecMath ModelSurface SpecSurface ModelParams ModelField SpecField
  ModelQuantity ModelWrapper SpecWrapper ModelPackage SpecPackage WitnessField WitnessSolver WitnessQuadcoil PropPackage
  SpecConvex ModelSolver SpecSolver ProofSolver ModelQuadcoil SpecQuadcoil ProofQuadcoil
  SpecProblem ProofEnd SpecEnd ProofEnd4 ProofEnd5 SpecCert ProofCert WitnessCert ProofPackage ProofPackage2 ProofPackage3 ProofPackage4 PropConvex ProofField3 ProofProblem ProofProblem2 SpecBest SpecCertify ProofCertify ProofCertify3 ProofCertify4 ProofCertify5 WitnessEnd.
Import ListNotations.
Open Scope R_scope.
Open Scope string_scope.
Open Scope list_scope.

(** The call of C120 with the largest current density bounded by [b] in its place. *)
Definition call156 (b : R) : args unit :=
  {| qc_nfp := 2; qc_stellsym := true; qc_plasma_mpol := 1; qc_plasma_ntor := 0; qc_plasma_dofs := [1 * 3; 1 * / 2; 1 * / 2];
     qc_G := 2; qc_I := 1; qc_mpol := 1; qc_ntor := 1; qc_qphi := Some [0; 1/8]; qc_qtheta := Some [1/16; 1/3];
     qc_phi_init := None; qc_phi_unit := Some 1; qc_plasma_stellsym := true;
     qc_plasma_qphi := Some [0; 1/4]; qc_plasma_qtheta := Some [0; 1/2]; qc_Bnormal := Some (Arr [2; 2]%nat [0; 1; 2; 3]);
     qc_distance := None; qc_generator := no_gen; qc_winding_dofs := Some [1 * 3; 1 * 1; 1 * 1]; qc_winding_mpol := 1; qc_winding_ntor := 0;
     qc_winding_qphi := Some [0 + INR 0 * / (INR 2 * INR 1); 0 + INR 1 * / (INR 2 * INR 1)];
     qc_winding_qtheta := Some [0 + INR 0 * / INR 2; 0 + INR 1 * / INR 2]; qc_winding_stellsym := true;
     qc_objective_name := NTuple ["f_Phi"]; qc_objective_weight := WArr (Arr [1%nat] [1/2]); qc_objective_unit := UsSeq [UScalar 2];
     qc_constraint_name := NTuple ["f_max_K2"]; qc_constraint_type := NTuple ["<="]; qc_constraint_unit := UsSeq [UScalar 3]; qc_constraint_value := VSeq [b];
     qc_metric_name := NTuple ["f_B"]; qc_value_only := true; qc_smoothing := Some "slack"; qc_smoothing_params := [];
     qc_verbose := false; qc_merge := false; qc_c_init := 1; qc_c_growth := 2; qc_tol := loose;
     qc_maxiter_tot := 1; qc_maxiter_inner := 1; qc_gplus_mask := some_mask; qc_linear_solver := None |}.
Definition bounds156 (b : R) := [UC "f_max_K2" LE 3 b].
Lemma call156_builds b : builds (call156 b) shown.
Proof. split; [left; split; [reflexivity|]; eexists; reflexivity|]. eexists. split; reflexivity. Qed.
Lemma call156_asks b : asks (call156 b) terms120 (bounds156 b).
Proof. split; [right; repeat split|repeat split]. Qed.
Lemma call156_bounds b c : In c (bounds156 b) -> scaled_use U120 shown (uc_name c) (uc_unit c) /\ supported (package []) (uc_name c) (op_string (uc_cmp c)) (UScalar (uc_unit c)).
Proof.
  intros [<-|[]]. split.
  - split; [cbn; lra|]. left. split; [cbn; tauto|]. cbn. unfold U120. apply Rabs_right. lra.
  - eexists. split; [reflexivity|split; [cbn; tauto|discriminate]].
Qed.
Lemma call156_metrics b m : In m (metrics (call156 b)) -> reportable shown (negb (qc_value_only (call156 b))) m.
Proof.
  intros [<-|[]]. right; exists Number; (split; [cbn; tauto|]); (split; [cbn; intuition discriminate|]); (split; [discriminate|]); reflexivity || discriminate.
Qed.
Lemma call156_prepared b : exists p, prepare (package []) (call156 b) = Ok p /\ fn_qp (pr_fn p) = shown.
Proof.
  apply (prepare_ok [] (call156 b) shown U120 terms120 (bounds156 b)); try reflexivity; try discriminate.
  - exact (call156_builds b).
  - exact (call156_asks b).
  - apply device_increasing.
  - exists [1; 2; 3; 4]. apply shown_sound. reflexivity.
  - intros t I. destruct (call_terms t I) as (? & ? & ?); auto.
  - intros c I. apply (call156_bounds b c I).
  - intros t I. apply (call_terms t I).
  - intros c I. apply (call156_bounds b c I).
Qed.
Lemma call156_facts b p : prepare (package []) (call156 b) = Ok p -> pr_unit p = 1 /\ unconstrained (pr_fn p) = false /\ list_of (h_scaled p (pr_x0 p)) = [].
Proof.
  intros H. repeat split.
  - assert (E : match prepare (package []) (call156 b) with Ok p => pr_unit p = 1 | Raise e => True end) by (calc120; reflexivity).
    rewrite H in E. exact E.
  - assert (E : match prepare (package []) (call156 b) with Ok p => unconstrained (pr_fn p) = false | Raise e => True end) by (calc120; reflexivity).
    rewrite H in E. exact E.
  - assert (E : match prepare (package []) (call156 b) with Ok p => list_of (h_scaled p (pr_x0 p)) = [] | Raise e => True end) by (calc120; reflexivity).
    rewrite H in E. exact E.
Qed.

(** What the bound has to allow: the current density of the net currents. *)
Definition allows (b : R) : Prop := forall v k, reads [] "K2" shown [0; 0; 0; 0] v -> In k (el v) -> Rabs k <= b.
Lemma some_allowed : exists b, allows b.
Proof.
  pose proof (reads_K2 [] shown [0; 0; 0; 0] (shown_sound [0; 0; 0; 0] eq_refl)) as Rv. match type of Rv with reads _ _ _ _ ?v0 => set (v := v0) in * end. clearbody v.
  assert (H : exists b, forall k, In k (el v) -> Rabs k <= b).
  { generalize (el v). intros l. induction l as [|k l (b & IH)]; [exists 0; intros k []|]. exists (Rmax b (Rabs k)). intros j [<-|I]; [apply Rmax_r|eapply Rle_trans; [now apply IH|apply Rmax_l]]. }
  destruct H as (b & H). exists b. intros v' k R' I. apply H. now rewrite (ProofConvex.reads_fun _ _ _ _ _ _ Rv R').
Qed.
Lemma call156_start b p : allows b -> prepare (package []) (call156 b) = Ok p -> List.Forall (fun v => v <= 0) (p_g _ (solver_problem E120 (call156 b) p) (pr_x0 p)) /\
  exists d, unscale (pr_structure p) (pr_unit p) (pr_x0 p) = Ok d /\ lookup "phi" d = Some (vec [0; 0; 0; 0]).
Proof.
  intros Hb Hp. assert (Fq : fn_qp (pr_fn p) = shown) by (destruct (call156_prepared b) as (p' & Hp' & Fq); congruence).
  destruct (call156_facts b p Hp) as (Un & _).
  destruct (bound_rows [] E120 (call156 b) p U120 terms120 3 b Hp (call156_asks b) eq_refl eq_refl) with (z := pr_x0 p) as (d & y & v & s & Ed & Py & Ly & Rv & _ & Rw & St).
  - rewrite Fq. apply device_increasing.
  - rewrite Fq. exists [1; 2; 3; 4]. now apply shown_sound.
  - rewrite Fq. intros t I. destruct (call_terms t I) as (? & ? & _); auto.
  - rewrite Fq. intros c I. apply (call156_bounds b c I).
  - rewrite Un. lra.
  - discriminate.
  - intros t [<-|[]]. cbn. tauto.
  - reflexivity.
  - destruct (St eq_refl) as (Ey & m & (Im & Bm) & ->). cbn [qc_phi_init call156] in Ey. rewrite Fq in *. change (y = [0; 0; 0; 0]) in Ey. subst y.
    split; [|exists d; auto]. eapply eq_ind_r with (P := List.Forall (fun v => v <= 0)); [|exact Rw]. assert (Z3 : Rabs 3 = 3) by (apply Rabs_right; lra). rewrite Z3.
    apply List.Forall_app. split; [|apply List.Forall_app; split].
    + apply List.Forall_forall. intros r I. apply in_map_iff in I as (k & <- & I). pose proof (Bm (Rabs k) (in_map Rabs _ _ I)). pose proof (Rle_abs k). lra.
    + apply List.Forall_forall. intros r I. apply in_map_iff in I as (k & <- & I). pose proof (Bm (Rabs k) (in_map Rabs _ _ I)). pose proof (Rle_abs (- k)) as X. rewrite Rabs_Ropp in X. lra.
    + constructor; [|constructor]. apply in_map_iff in Im as (k & <- & I). pose proof (Hb v k Rv I). lra.
Qed.

(** Staying at the start is the best that the call can do, and leaves every multiplier at zero. *)
Lemma call156_rests b p d1 d : allows b -> prepare (package []) (call156 b) = Ok p ->
  main_loop _ stay (x_autograd E120) (solver_problem E120 (call156 b) p) 1 1 (init_dict _ (solver_problem E120 (call156 b) p) (pr_x0 p) 1 (pr_lam0 p) (pr_mu0 p)) = Some d1 ->
  solve_constrained _ stay (x_autograd E120) (solver_problem E120 (call156 b) p) 1 1 (pr_x0 p) 1 (pr_lam0 p) (pr_mu0 p) = Some d ->
  d_x _ d = pr_x0 p /\ List.Forall (fun m => m = 0) (d_mu _ d) /\
  forall z : list R, length z = length (pr_x0 p) -> aug (fun _ => false) (solver_problem E120 (call156 b) p) d1 (d_x _ d) <= aug (fun _ => false) (solver_problem E120 (call156 b) p) d1 z + 0.
Proof.
  intros Hb Hp Hml Hsol. set (P := solver_problem E120 (call156 b) p) in *.
  destruct (call156_facts b p Hp) as (Un & _ & H0). destruct (call156_start b p Hb Hp) as (G0 & d0 & E0 & Ph0).
  assert (Fq : fn_qp (pr_fn p) = shown) by (destruct (call156_prepared b) as (p' & Hp' & Fq); congruence).
  assert (O : ordered (fn_qp (pr_fn p))) by (rewrite Fq; apply device_increasing).
  assert (Sx : exists x, sound (fn_qp (pr_fn p)) x) by (rewrite Fq; exists [1; 2; 3; 4]; now apply shown_sound).
  destruct (problem_facts [] E120 (call156 b) p U120 terms120 (bounds156 b) Hp (call156_asks b) eq_refl eq_refl O Sx) as (ng & nh & FZ & _ & Lm & Ll & _).
  { rewrite Fq. intros t I. destruct (call_terms t I) as (? & ? & _); auto. }
  { rewrite Fq. intros c I. apply (call156_bounds b c I). }
  { rewrite Un. lra. }
  { discriminate. }
  assert (Adm : admissible P (pr_x0 p)).
  { split; [exact G0|]. cbn [P solver_problem ModelSolver.p_h]. rewrite H0. constructor. }
  assert (Sz : sized P (length (pr_x0 p)) ng nh).
  { intros z Lz. destruct (FZ z Lz) as (L1 & L2 & _). split; assumption. }
  assert (Best : forall z : list R, length z = length (pr_x0 p) -> p_f RN P (pr_x0 p) <= p_f RN P z).
  { intros z Lz. destruct (FZ z Lz) as (_ & _ & _ & dz & x & (Ez & Lx & Px) & _). rewrite Fq in Lx.
    destruct (call_value (call156 b) (bounds156 b) p z dz x Hp (call156_asks b) eq_refl eq_refl Fq Ez Lx Px) as (M & _ & EM & PM & _).
    destruct (call_value (call156 b) (bounds156 b) p (pr_x0 p) d0 [0; 0; 0; 0] Hp (call156_asks b) eq_refl eq_refl Fq E0 eq_refl Ph0) as (M0 & _ & EM0 & _ & ZM).
    cbn [P solver_problem ModelSolver.p_f]. rewrite EM, EM0, (ZM eq_refl). lra. }
  destruct (prepare_multipliers _ (call156 b) p Hp) as (g0 & h0 & _ & _ & Em & El).
  assert (R0 : resting ng nh (pr_x0 p) (init_dict RN P (pr_x0 p) 1 (pr_lam0 p) (pr_mu0 p))).
  { unfold resting. split; [|split; [reflexivity|]].
    - repeat split; try assumption; simpl; try reflexivity; try lra. rewrite Em. apply List.Forall_forall. intros m I. apply in_map_iff in I as (? & <- & _). lra.
    - cbn [init_dict d_mu d_lam]. rewrite Em, El. split; apply List.Forall_forall; intros m I; apply in_map_iff in I as (? & <- & _); reflexivity. }
  pose proof (proj1 (main_inv _ _ _ stay_counted P _ _ _ _ _ _ _ Hml)) as Hps.
  destruct (rest_best (x_autograd E120) P ng nh (pr_x0 p) eq_refl ltac:(cbn; lra) Sz Adm Best _ _ Hps R0) as (R1 & HR).
  destruct (solve_inv _ _ _ stay_counted P _ _ _ _ _ _ _ Hsol) as (d1' & Hml' & Hlast & _).
  pose proof (eq_trans (eq_sym Hml') Hml) as X. injection X as ->.
  pose proof (pass_rests (x_autograd E120) P ng nh (pr_x0 p) eq_refl ltac:(cbn; lra) Sz Adm Best _ _ _ _ _ _ R1 Hlast) as (_ & Ex & Zm & _).
  split; [exact Ex|]. split; [exact Zm|]. intros z Lz. rewrite Ex. apply HR, Lz.
Qed.
