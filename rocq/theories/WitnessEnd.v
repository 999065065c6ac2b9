(** A call for the examples of C120 and C121. *)
From Coq Require Import String List Bool Arith ZArith Reals Lra Lia.
From Verif Require Import Base ModelArray ProofArray ModelMath SpecMath ModelSurface SpecSurface ModelParams ModelField SpecField
  ModelQuantity ModelWrapper SpecWrapper ModelPackage SpecPackage WitnessField WitnessSolver WitnessQuadcoil PropPackage
  SpecConvex ModelSolver SpecSolver ProofSolver ModelQuadcoil SpecQuadcoil ProofQuadcoil
  SpecProblem ProofEnd SpecEnd ProofEnd4 ProofEnd5 SpecCert ProofCert WitnessCert ProofPackage ProofPackage2 ProofPackage3 ProofPackage4 PropConvex ProofField3 ProofProblem ProofProblem2.
Import ListNotations.
Open Scope R_scope.
Open Scope string_scope.
Open Scope list_scope.

(** An optimiser that stays where it is. *)
Definition stay : optimiser RN :=
  Build_optimiser RN nat (fun _ => O) (fun _ _ s x _ => (map (fun _ => 0) x, S s)) (fun s => s) (fun _ => []) (fun _ => 0).
Lemma stay_counted : counted stay.
Proof. split; reflexivity. Qed.
Lemma stay_shaped : shaped stay.
Proof. intros f g s x v. cbn. apply map_length. Qed.
Lemma stay_traj ag f x0 k x s u vals : traj stay ag f x0 k x s u vals -> x = x0.
Proof.
  intros H. induction H as [|k x s u vals v g u' s' Ht IH H1 H2 Hu]; [reflexivity|]. cbn in Hu. injection Hu as <- _. rewrite IH. exact (still x0).
Qed.

(** Started at the best admissible point with zero multipliers it stays a minimiser. *)
Section Rest.
  Variables (ag : (list R -> R) -> list R -> list R) (P : problem RN) (ng nh : nat) (x0 : list R).
  Hypothesis Hmask : p_mask RN P = gplus_hard RN.
  Hypothesis Hgrow : 0 < p_growth RN P.
  Hypothesis Hsized : sized P (length x0) ng nh.
  Hypothesis Hadm : admissible P x0.
  Hypothesis Hbest : forall z : list R, length z = length x0 -> p_f RN P x0 <= p_f RN P z.
  Definition resting (d : ModelSolver.dict RN) : Prop :=
    sound_state (fun _ => false) (length x0) ng nh d /\ d_x RN d = x0 /\ List.Forall (fun m => m = 0) (d_mu RN d) /\ List.Forall (fun l => l = 0) (d_lam RN d).

  Lemma pass_rests fuel fs xs gt d d' : resting d -> body RN stay ag P fuel fs xs gt d = Some d' -> resting d'.
  Proof.
    intros (Hs & Ex & Hm & Hl) Hb.
    destruct (pass_facts _ _ _ stay_counted P Hmask _ _ _ Hsized stay_shaped _ _ _ _ _ _ Hs Hb) as (r & Hr & _ & Ex' & El & Em & _).
    destruct (inner_exit RN stay ag stay_counted _ _ _ _ _ _ _ _ Hr) as (? & ? & ? & Ht & _). apply stay_traj in Ht.
    assert (X : d_x RN d' = x0).
    { rewrite Ex', Ht, Ex. apply round_trip. apply Hs. }
    split; [exact (pass_sound _ _ _ stay_counted P Hmask _ _ _ Hsized stay_shaped Hgrow _ _ _ _ _ _ Hs Hb)|]. split; [exact X|].
    destruct Hadm as (Ag & Ah). destruct Hs as (_ & _ & _ & Hc & _). rewrite Em, El, X. split.
    - revert Ag Hm. generalize (p_g RN P x0 : list R) as gv. generalize (d_mu RN d : list R) as mu. cbn [T R_num] in *. induction mu as [|m mu IH]; intros [|v gv] Ag Hm; cbn [map2]; constructor.
      + inversion Ag; inversion Hm; subst. apply Rmax_left. assert (d_c RN d * v <= d_c RN d * 0) by (apply Rmult_le_compat_l; [cbn [T R_num] in *; lra|assumption]). cbn [T R_num] in *. lra.
      + inversion Ag; inversion Hm; subst. now apply IH.
    - revert Ah Hl. generalize (p_h RN P x0 : list R) as gv. generalize (d_lam RN d : list R) as mu. cbn [T R_num] in *. induction mu as [|m mu IH]; intros [|v gv] Bg Hm'; cbn [map2]; constructor.
      + inversion Bg; inversion Hm'; subst. ring.
      + inversion Bg; inversion Hm'; subst. now apply IH.
  Qed.
  Lemma squares_zero l : List.Forall (fun m => m = 0) l -> squares l = 0.
  Proof. intros H. induction H as [|m l -> H IH]; [reflexivity|]. unfold squares, sumR in *. cbn. rewrite IH. ring. Qed.
  Lemma rest_best d d' : passes stay ag P d d' -> resting d -> resting d' /\
    forall z : list R, length z = length x0 -> aug (fun _ => false) P d' x0 <= aug (fun _ => false) P d' z + 0.
  Proof.
    intros Hp Hr. assert (R' : resting d').
    { induction Hp as [|d1 d2 fuel fs xs gt Hp IH Hb]; [exact Hr|]. exact (pass_rests _ _ _ _ _ _ IH Hb). }
    split; [exact R'|]. intros z Lz. destruct R' as (Hs & Ex & Hm & Hl).
    pose proof (admissible_value (fun _ => false) P _ _ _ Hsized d' x0 Hs eq_refl Hadm) as A0.
    rewrite (aug_value (fun _ => false) P _ _ _ Hsized d' z Hs Lz). rewrite (squares_zero _ Hm), (squares_zero _ Hl).
    match goal with |- _ <= _ + (?a + ?b - 0 - 0) / (2 * ?c) + 0 => set (A := a); set (B := b); set (C := c) end.
    assert (0 <= A) by apply squares_pos. assert (0 <= B) by apply squares_pos. assert (0 < C) by apply Hs.
    assert (0 <= (A + B - 0 - 0) / (2 * C)) by (apply Rmult_le_pos; [lra|left; apply Rinv_0_lt_compat; lra]).
    pose proof (Hbest z Lz). cbn [T R_num] in *. lra.
  Qed.
End Rest.

(** The small configuration of the package examples, the potential measured by
    its mean square, its largest value bounded by 5. *)
Definition call120 : args unit :=
  {| qc_nfp := 2; qc_stellsym := true; qc_plasma_mpol := 1; qc_plasma_ntor := 0; qc_plasma_dofs := [1 * 3; 1 * / 2; 1 * / 2];
     qc_G := 2; qc_I := 1; qc_mpol := 1; qc_ntor := 1; qc_qphi := Some [0; 1/8]; qc_qtheta := Some [1/16; 1/3];
     qc_phi_init := None; qc_phi_unit := Some 1; qc_plasma_stellsym := true;
     qc_plasma_qphi := Some [0; 1/4]; qc_plasma_qtheta := Some [0; 1/2]; qc_Bnormal := Some (Arr [2; 2]%nat [0; 1; 2; 3]);
     qc_distance := None; qc_generator := no_gen; qc_winding_dofs := Some [1 * 3; 1 * 1; 1 * 1]; qc_winding_mpol := 1; qc_winding_ntor := 0;
     qc_winding_qphi := Some [0 + INR 0 * / (INR 2 * INR 1); 0 + INR 1 * / (INR 2 * INR 1)];
     qc_winding_qtheta := Some [0 + INR 0 * / INR 2; 0 + INR 1 * / INR 2]; qc_winding_stellsym := true;
     qc_objective_name := NTuple ["f_Phi"]; qc_objective_weight := WArr (Arr [1%nat] [1/2]); qc_objective_unit := UsSeq [UScalar 2];
     qc_constraint_name := NTuple ["f_max_Phi"]; qc_constraint_type := NTuple ["<="]; qc_constraint_unit := UsSeq [UScalar 3]; qc_constraint_value := VSeq [5];
     qc_metric_name := NTuple ["f_B"; "f_obj"; "f_max_K2"]; qc_value_only := false; qc_smoothing := Some "slack"; qc_smoothing_params := [];
     qc_verbose := false; qc_merge := false; qc_c_init := 1; qc_c_growth := 2; qc_tol := loose;
     qc_maxiter_tot := 1; qc_maxiter_inner := 1; qc_gplus_mask := some_mask; qc_linear_solver := None |}.
Definition terms120 := [OB "f_Phi" 2 (1/2)].
Definition bounds120 := [UC "f_max_Phi" LE 3 5].
Definition U120 (n : string) : R := 3.
Definition E120 : library := fd_lib stay.
Lemma call_builds : builds call120 shown.
Proof. split; [left; split; [reflexivity|]; eexists; reflexivity|]. eexists. split; reflexivity. Qed.
Lemma call_asks : asks call120 terms120 bounds120.
Proof. split; [right; repeat split|repeat split]. Qed.
Lemma call_terms t : In t terms120 -> 0 <= ob_weight t /\ scaled_use U120 shown (ob_name t) (ob_unit t) /\ supported (package []) (ob_name t) "f" (UScalar (ob_unit t)).
Proof.
  intros [<-|[]]. split; [cbn; lra|]. split.
  - split; [cbn; lra|]. right. split; [cbn; tauto|discriminate].
  - eexists. split; [reflexivity|split; [cbn; tauto|discriminate]].
Qed.
Lemma call_bounds c : In c bounds120 -> scaled_use U120 shown (uc_name c) (uc_unit c) /\ supported (package []) (uc_name c) (op_string (uc_cmp c)) (UScalar (uc_unit c)).
Proof.
  intros [<-|[]]. split.
  - split; [cbn; lra|]. left. split; [cbn; tauto|]. cbn. unfold U120. apply Rabs_right. lra.
  - eexists. split; [reflexivity|split; [cbn; tauto|discriminate]].
Qed.
Lemma call_metrics m : In m (metrics call120) -> reportable shown (negb (qc_value_only call120)) m.
Proof.
  intros [<-|[<-|[<-|[]]]]; [right|left; reflexivity|right]; exists Number; (split; [cbn; tauto|]); (split; [cbn; intuition discriminate|]); (split; [discriminate|reflexivity]).
Qed.
Lemma call_prepared : exists p, prepare (package []) call120 = Ok p /\ fn_qp (pr_fn p) = shown.
Proof.
  apply (prepare_ok [] call120 shown U120 terms120 bounds120); try reflexivity; try discriminate.
  - exact call_builds.
  - exact call_asks.
  - apply device_increasing.
  - exists [1; 2; 3; 4]. apply shown_sound. reflexivity.
  - intros t I. destruct (call_terms t I) as (? & ? & ?); auto.
  - intros c I. apply (call_bounds c I).
  - intros t I. apply (call_terms t I).
  - intros c I. apply (call_bounds c I).
Qed.
Ltac calc120 := lazy -[Rplus Rminus Rmult Rdiv Ropp Rinv IZR Rabs sin cos PI Rmax sqrt INR Rle].
Lemma call_start p : prepare (package []) call120 = Ok p ->
  List.Forall (fun v => v <= 0) (list_of (g_scaled p (pr_x0 p))) /\ list_of (h_scaled p (pr_x0 p)) = [] /\ length (pr_x0 p) = 5%nat /\ pr_unit p = 1 /\
  unconstrained (pr_fn p) = false /\
  exists d, unscale (pr_structure p) (pr_unit p) (pr_x0 p) = Ok d /\ lookup "phi" d = Some (vec [0; 0; 0; 0]).
Proof.
  intros H. assert (Z : 0 / 1 * 1 = 0) by field. assert (Z3 : Rabs 3 = 3) by (apply Rabs_right; lra).
  assert (M0 : Rmax 0 0 = 0) by (apply Rmax_left; lra).
  repeat split.
  - assert (E : match prepare (package []) call120 with Ok p => List.Forall (fun v => v <= 0) (list_of (g_scaled p (pr_x0 p))) | Raise e => True end).
    { calc120. rewrite ?Z, ?Z3, ?Rmult_0_r, ?Rplus_0_l, ?Rabs_R0, ?M0. repeat constructor; lra. }
    rewrite H in E. exact E.
  - assert (E : match prepare (package []) call120 with Ok p => list_of (h_scaled p (pr_x0 p)) = [] | Raise e => True end) by (calc120; reflexivity).
    rewrite H in E. exact E.
  - assert (E : match prepare (package []) call120 with Ok p => length (pr_x0 p) = 5%nat | Raise e => True end) by (calc120; reflexivity).
    rewrite H in E. exact E.
  - assert (E : match prepare (package []) call120 with Ok p => pr_unit p = 1 | Raise e => True end) by (calc120; reflexivity).
    rewrite H in E. exact E.
  - assert (E : match prepare (package []) call120 with Ok p => unconstrained (pr_fn p) = false | Raise e => True end) by (calc120; reflexivity).
    rewrite H in E. exact E.
  - assert (E : match prepare (package []) call120 with Ok p => exists d, unscale (pr_structure p) (pr_unit p) (pr_x0 p) = Ok d /\ lookup "phi" d = Some (vec [0; 0; 0; 0]) | Raise e => True end).
    { calc120. eexists. split; [reflexivity|]. calc120. rewrite Z. reflexivity. }
    rewrite H in E. exact E.
Qed.

(** What the objective is worth. *)
Lemma mean_square x : length x = q_ndofs shown -> exists M, reads [] "f_Phi" shown x (scal M) /\ 0 <= M /\ (x = [0; 0; 0; 0] -> M = 0).
Proof.
  intros Lx. pose proof (shown_sound x Lx) as S.
  destruct (integral_value [] shown x S "f_Phi" "Phi" (q_eval shown) (fun y => y * y / 2)) as (r & v & d & Rr & Rv & Ed & ->); [cbn; tauto|].
  exists (INR (q_nfp shown) * Rsum (map2 (fun w y => w * (y * y / 2)) (concat d) (el v))). split; [exact Rr|].
  destruct shown_areas as ((d' & Ed' & Pd) & _). rewrite Ed in Ed'. injection Ed' as <-. split.
  - apply Rmult_le_pos; [apply pos_INR|]. revert Pd. generalize (concat d) as ws. generalize (el v) as ys. intros ys ws. revert ys.
    induction ws as [|w ws IH]; intros [|y ys] P; cbn; try lra. unfold Rsum in *. cbn. specialize (IH ys (fun w' I => P w' (or_intror I))).
    assert (0 <= w * (y * y / 2)); [|lra]. apply Rmult_le_pos; [left; apply P; now left|]. pose proof (Rle_0_sqr y) as Q. unfold Rsqr in Q. lra.
  - intros ->. assert (Zv : forall y, In y (el v) -> y = 0).
    { destruct Rv as (Q & G & V). destruct (reads_Phi [] shown _ S) as (Q' & G' & V'). assert (Q' = Q) by congruence. subst Q'.
      rewrite V in V'. injection V' as ->. intros y I. cbn [of_grid el concat app In] in I.
      destruct I as [<-|[<-|[<-|[<-|[]]]]]; exact (proj1 (phi_zeros shown 4 _ _)). }
    clear - Zv. revert Zv. generalize (concat d) as ws. generalize (el v) as ys. intros ys ws Zv.
    assert (Rsum (map2 (fun w y => w * (y * y / 2)) ws ys) = 0) as ->; [|ring]. revert ys Zv.
    induction ws as [|w ws IH]; intros [|y ys] P; cbn; try reflexivity. unfold Rsum in *. cbn. rewrite IH by (intros; apply P; now right). rewrite (P y) by (now left). lra.
Qed.
Lemma call_value {L} (a : args L) cs p z d x : prepare (package []) a = Ok p -> asks a terms120 cs -> qc_smoothing a = Some "slack" -> qc_merge a = false ->
  fn_qp (pr_fn p) = shown -> unscale (pr_structure p) (pr_unit p) z = Ok d -> length x = q_ndofs shown -> lookup "phi" d = Some (vec x) ->
  exists M, reads [] "f_Phi" shown x (scal M) /\ real_of (f_scaled p z) = M / 4 /\ 0 <= M /\ (x = [0; 0; 0; 0] -> M = 0).
Proof.
  intros Hp As Hs Hm Fq Ed Lx Lp. destruct (handed_problem (package []) a p terms120 cs Hp As Hs Hm) as (f & po & pc & Eo & _ & Ff & _).
  destruct (ProofProblem.objective_parts params q_ndofs (package []) terms120 _ f po Eo) as (lo & Fo & Ef & _).
  destruct (mean_square x Lx) as (M & RM & PM & ZM). exists M. split; [exact RM|]. split; [|auto].
  inversion Fo as [|t a0 ? ? A F1]; subst. inversion F1; subst. pose proof (shown_sound x Lx) as S.
  destruct (ProofProblem2.direct_use [] shown x S "f_Phi") as (Q & v & Ep & Ev & D); [cbn; tauto|discriminate|].
  destruct (ProofProblem.use_direct params q_ndofs (package []) shown (vec x) _ _ _ _ _ _ _ A Ep D) as (_ & _ & _ & _ & Hf); [cbn; lra|].
  assert (Vm : v = scal M).
  { destruct RM as (Q' & G & V). apply ProofProblem2.get_package in G. assert (Q' = Q) by congruence. subst Q'. unfold value_of in V. congruence. }
  subst v. unfold f_scaled. rewrite Ed, Fq. cbn [bind]. rewrite Ef. cbn [map f_tot_from]. rewrite (Hf d Lp). cbn. rewrite Rabs_right by lra. lra.
Qed.

(** Staying at the start is the best that the constrained call can do. *)
Lemma call_rests p d1 d : prepare (package []) call120 = Ok p ->
  main_loop _ stay (x_autograd E120) (solver_problem E120 call120 p) 1 1 (init_dict _ (solver_problem E120 call120 p) (pr_x0 p) 1 (pr_lam0 p) (pr_mu0 p)) = Some d1 ->
  solve_constrained _ stay (x_autograd E120) (solver_problem E120 call120 p) 1 1 (pr_x0 p) 1 (pr_lam0 p) (pr_mu0 p) = Some d ->
  forall z : list R, length z = length (pr_x0 p) -> aug (fun _ => false) (solver_problem E120 call120 p) d1 (d_x _ d) <= aug (fun _ => false) (solver_problem E120 call120 p) d1 z + 0.
Proof.
  intros Hp Hml Hsol. set (P := solver_problem E120 call120 p) in *.
  destruct (call_start p Hp) as (G0 & H0 & L5 & Un & _ & d0 & E0 & Ph0).
  assert (Fq : fn_qp (pr_fn p) = shown) by (destruct call_prepared as (p' & Hp' & Fq); congruence).
  assert (O : ordered (fn_qp (pr_fn p))) by (rewrite Fq; apply device_increasing).
  assert (Sx : exists x, sound (fn_qp (pr_fn p)) x) by (rewrite Fq; exists [1; 2; 3; 4]; now apply shown_sound).
  destruct (problem_facts [] E120 call120 p U120 terms120 bounds120 Hp call_asks eq_refl eq_refl O Sx) as (ng & nh & FZ & _ & Lm & Ll & _).
  { rewrite Fq. intros t I. destruct (call_terms t I) as (? & ? & _); auto. }
  { rewrite Fq. intros c I. apply (call_bounds c I). }
  { rewrite Un. lra. }
  { discriminate. }
  assert (Adm : admissible P (pr_x0 p)).
  { split; [exact G0|]. cbn [P solver_problem ModelSolver.p_h]. rewrite H0. constructor. }
  assert (Sz : sized P (length (pr_x0 p)) ng nh).
  { intros z Lz. destruct (FZ z Lz) as (L1 & L2 & _). split; assumption. }
  assert (Best : forall z : list R, length z = length (pr_x0 p) -> p_f RN P (pr_x0 p) <= p_f RN P z).
  { intros z Lz. destruct (FZ z Lz) as (_ & _ & _ & dz & x & (Ez & Lx & Px) & _). rewrite Fq in Lx.
    destruct (call_value call120 bounds120 p z dz x Hp call_asks eq_refl eq_refl Fq Ez Lx Px) as (M & _ & EM & PM & _).
    destruct (call_value call120 bounds120 p (pr_x0 p) d0 [0; 0; 0; 0] Hp call_asks eq_refl eq_refl Fq E0 eq_refl Ph0) as (M0 & _ & EM0 & _ & ZM).
    cbn [P solver_problem ModelSolver.p_f]. rewrite EM, EM0, (ZM eq_refl). lra. }
  destruct (prepare_multipliers _ call120 p Hp) as (g0 & h0 & _ & _ & Em & El).
  assert (R0 : resting ng nh (pr_x0 p) (init_dict RN P (pr_x0 p) 1 (pr_lam0 p) (pr_mu0 p))).
  { unfold resting. split; [|split; [reflexivity|]].
    - repeat split; try assumption; simpl; try reflexivity; try lra. rewrite Em. apply List.Forall_forall. intros m I. apply in_map_iff in I as (? & <- & _). lra.
    - cbn [init_dict d_mu d_lam]. rewrite Em, El. split; apply List.Forall_forall; intros m I; apply in_map_iff in I as (? & <- & _); reflexivity. }
  pose proof (proj1 (main_inv _ _ _ stay_counted P _ _ _ _ _ _ _ Hml)) as Hps.
  destruct (rest_best (x_autograd E120) P ng nh (pr_x0 p) eq_refl ltac:(cbn; lra) Sz Adm Best _ _ Hps R0) as (R1 & HR).
  destruct (solve_inv _ _ _ stay_counted P _ _ _ _ _ _ _ Hsol) as (d1' & Hml' & Hlast & _).
  pose proof (eq_trans (eq_sym Hml') Hml) as X. injection X as ->.
  pose proof (pass_rests (x_autograd E120) P ng nh (pr_x0 p) eq_refl ltac:(cbn; lra) Sz Adm Best _ _ _ _ _ _ R1 Hlast) as (_ & Ex & _).
  intros z Lz. rewrite Ex. apply HR, Lz.
Qed.

(** The same call without its constraint. *)
Definition free120 : args unit :=
  {| qc_nfp := 2; qc_stellsym := true; qc_plasma_mpol := 1; qc_plasma_ntor := 0; qc_plasma_dofs := [1 * 3; 1 * / 2; 1 * / 2];
     qc_G := 2; qc_I := 1; qc_mpol := 1; qc_ntor := 1; qc_qphi := Some [0; 1/8]; qc_qtheta := Some [1/16; 1/3];
     qc_phi_init := None; qc_phi_unit := Some 1; qc_plasma_stellsym := true;
     qc_plasma_qphi := Some [0; 1/4]; qc_plasma_qtheta := Some [0; 1/2]; qc_Bnormal := Some (Arr [2; 2]%nat [0; 1; 2; 3]);
     qc_distance := None; qc_generator := no_gen; qc_winding_dofs := Some [1 * 3; 1 * 1; 1 * 1]; qc_winding_mpol := 1; qc_winding_ntor := 0;
     qc_winding_qphi := Some [0 + INR 0 * / (INR 2 * INR 1); 0 + INR 1 * / (INR 2 * INR 1)];
     qc_winding_qtheta := Some [0 + INR 0 * / INR 2; 0 + INR 1 * / INR 2]; qc_winding_stellsym := true;
     qc_objective_name := NTuple ["f_Phi"]; qc_objective_weight := WArr (Arr [1%nat] [1/2]); qc_objective_unit := UsSeq [UScalar 2];
     qc_constraint_name := NTuple []; qc_constraint_type := NTuple []; qc_constraint_unit := UsSeq []; qc_constraint_value := VSeq [];
     qc_metric_name := NTuple ["f_B"; "K"]; qc_value_only := true; qc_smoothing := Some "slack"; qc_smoothing_params := [];
     qc_verbose := false; qc_merge := false; qc_c_init := 1; qc_c_growth := 2; qc_tol := loose;
     qc_maxiter_tot := 1; qc_maxiter_inner := 1; qc_gplus_mask := some_mask; qc_linear_solver := None |}.
Lemma free_builds : builds free120 shown.
Proof. split; [left; split; [reflexivity|]; eexists; reflexivity|]. eexists. split; reflexivity. Qed.
Lemma free_asks : asks free120 terms120 [].
Proof. split; [right; repeat split|repeat split]. Qed.
Lemma free_metrics m : In m (metrics free120) -> reportable shown (negb (qc_value_only free120)) m.
Proof.
  intros [<-|[<-|[]]]; right; [exists Number|exists CoilVector]; (split; [cbn; tauto|]); (split; [cbn; intuition discriminate|]); (split; [discriminate|]); cbn; (reflexivity || discriminate).
Qed.
Lemma free_prepared : exists p, prepare (package []) free120 = Ok p /\ fn_qp (pr_fn p) = shown.
Proof.
  apply (prepare_ok [] free120 shown U120 terms120 []); try reflexivity; try discriminate.
  - exact free_builds.
  - exact free_asks.
  - apply device_increasing.
  - exists [1; 2; 3; 4]. apply shown_sound. reflexivity.
  - intros t I. destruct (call_terms t I) as (? & ? & ?); auto.
  - intros c [].
  - intros t I. apply (call_terms t I).
  - intros c [].
Qed.
Lemma free_start p : prepare (package []) free120 = Ok p ->
  length (pr_x0 p) = 4%nat /\ pr_unit p = 1 /\ unconstrained (pr_fn p) = true /\
  exists d, unscale (pr_structure p) (pr_unit p) (pr_x0 p) = Ok d /\ lookup "phi" d = Some (vec [0; 0; 0; 0]).
Proof.
  intros H. assert (Z : 0 / 1 * 1 = 0) by field. repeat split.
  - assert (E : match prepare (package []) free120 with Ok p => length (pr_x0 p) = 4%nat | Raise e => True end) by (calc120; reflexivity).
    rewrite H in E. exact E.
  - assert (E : match prepare (package []) free120 with Ok p => pr_unit p = 1 | Raise e => True end) by (calc120; reflexivity).
    rewrite H in E. exact E.
  - assert (E : match prepare (package []) free120 with Ok p => unconstrained (pr_fn p) = true | Raise e => True end) by (calc120; reflexivity).
    rewrite H in E. exact E.
  - assert (E : match prepare (package []) free120 with Ok p => exists d, unscale (pr_structure p) (pr_unit p) (pr_x0 p) = Ok d /\ lookup "phi" d = Some (vec [0; 0; 0; 0]) | Raise e => True end).
    { calc120. eexists. split; [reflexivity|]. calc120. rewrite Z. reflexivity. }
    rewrite H in E. exact E.
Qed.
Lemma free_rests p r : prepare (package []) free120 = Ok p ->
  run_opt RN stay (x_autograd E120) 1 (pr_x0 p) (fun x => real_of (f_scaled p x)) 1 (fstop_inner_last loose) (xstop_inner_last loose) (gtol_inner loose) = Some r ->
  forall z : list R, length z = length (pr_x0 p) -> real_of (f_scaled p (r_x _ r)) <= real_of (f_scaled p z) + 0.
Proof.
  intros Hp Hr. destruct (free_start p Hp) as (L5 & Un & _ & d0 & E0 & Ph0).
  destruct (inner_exit RN stay _ stay_counted _ _ _ _ _ _ _ _ Hr) as (? & ? & ? & Ht & _). apply stay_traj in Ht.
  assert (Fq : fn_qp (pr_fn p) = shown) by (destruct free_prepared as (p' & Hp' & Fq); congruence).
  assert (O : ordered (fn_qp (pr_fn p))) by (rewrite Fq; apply device_increasing).
  assert (Sx : exists x, sound (fn_qp (pr_fn p)) x) by (rewrite Fq; exists [1; 2; 3; 4]; now apply shown_sound).
  destruct (problem_facts [] E120 free120 p U120 terms120 [] Hp free_asks eq_refl eq_refl O Sx) as (ng & nh & FZ & _).
  { rewrite Fq. intros t I. destruct (call_terms t I) as (? & ? & _); auto. }
  { intros c []. }
  { rewrite Un. lra. }
  { discriminate. }
  intros z Lz. rewrite Ht. destruct (FZ z Lz) as (_ & _ & _ & dz & xz & (Ez & Lx & Px) & _). rewrite Fq in Lx.
  destruct (call_value free120 [] p z dz xz Hp free_asks eq_refl eq_refl Fq Ez Lx Px) as (M & _ & EM & PM & _).
  destruct (call_value free120 [] p (pr_x0 p) d0 [0; 0; 0; 0] Hp free_asks eq_refl eq_refl Fq E0 eq_refl Ph0) as (M0 & _ & EM0 & _ & ZM).
  rewrite EM, EM0, (ZM eq_refl). lra.
Qed.
