(** Properties C160 and C161: how far a returned design can be from the bounds of the user. *)
From Coq Require Import String List Bool Arith ZArith Reals Lra Lia.
From Verif Require Import Base ModelArray ProofArray ModelMath SpecMath ModelSurface SpecSurface ModelParams SpecField
  ModelQuantity ModelWrapper SpecWrapper ModelPackage SpecPackage
  SpecConvex ModelSolver SpecSolver ProofSolver ModelQuadcoil SpecQuadcoil ProofQuadcoil
  SpecProblem ProofEnd SpecEnd ProofEnd4 ProofEnd5 SpecCert ProofCert ProofPackage ProofPackage2 ProofPackage3 ProofPackage4 PropConvex
  WitnessField WitnessSolver WitnessQuadcoil PropPackage WitnessEnd PropEnd SpecBest SpecCertify ProofCertify ProofCertify3 PropCertify
  SpecDual ProofDual PropDual SpecNearly ProofNearly WitnessNearly.
Import ListNotations.
Open Scope R_scope.
Open Scope string_scope.
Open Scope list_scope.

(** ** C160 *)
(** A call in slack mode with any objectives and constraints, whatever the
    optimiser did: if no reported inequality exceeds [e] and no reported
    equality is off by more than [e], the returned design meets the bounds of
    the user up to [e] units, those on largest values up to [2 e] units; a bound
    [b] on the square or fourth power of a largest value is exceeded to at most
    u (sqrt (b / u + e) + e)^2, [u] its unit, and a bound on the sum of the
    absolute potential by at most (1 + A) e units, [A] the area. *)
Theorem C160_small_rows_mean_nearly_met_bounds :
  forall other (E : library) (a : args (x_solver E)) U os cs o p d e,
  counted (x_opt E) -> shaped (x_opt E) ->
  asks a os cs -> qc_smoothing a = Some "slack" -> qc_merge a = false ->
  quadcoil (package other) E a = Some (Ok o) -> o_results E o = Constrained E d ->
  let q := o_qp E o in
  ordered q -> (exists x, sound q x) -> (forall x, qc_phi_init a = Some x -> length x = q_ndofs q) ->
  (forall t, In t os -> 0 <= ob_weight t /\ scaled_use U q (ob_name t) (ob_unit t)) ->
  (forall c, In c cs -> scaled_use U q (uc_name c) (uc_unit c)) ->
  prepare (package other) a = Ok p -> pr_unit p <> 0 ->
  (forall v, In v (d_g _ d) -> v <= e) -> (forall v, In v (d_h _ d) -> Rabs v <= e) ->
  exists x, lookup "phi" (o_dofs E o) = Some (Arr [length x] x) /\ length x = q_ndofs q /\
    nearly_feasible other q cs e x /\ powers_nearly_bounded other q cs e x /\ sums_nearly_bounded other q cs e x.
Proof.
  intros other E a U os cs o p d e Hcnt Hsh As Hs Hm Hq Hr q O Sx Hphi Uo Uc Hp Hu Bg Bh.
  pose proof (returned_length other E a o p d Hcnt Hsh Hq Hr Hp) as Lxd.
  destruct (quadcoil_ok _ E a o Hq) as (p' & r' & dofs & Hp' & Hso & _ & Hd & E1 & E2 & E3).
  assert (p' = p) by congruence. subst p'. rewrite Hr in E3. subst r'. subst q. rewrite E1 in *. rewrite E2. clear E1 E2 Hr Hq Hp'.
  unfold solve in Hso. destruct (unconstrained (pr_fn p)).
  { destruct (run_opt _ _ _ _ _ _ _ _ _ _); discriminate. }
  destruct (solve_constrained _ _ _ _ _ _ _ _ _ _) as [d'|] eqn:Hsol; [|discriminate]. injection Hso as ->. cbn [optimum] in Hd.
  destruct (solve_inv _ _ _ Hcnt _ _ _ _ _ _ _ _ Hsol) as (d1 & Hml & Hlast & _).
  destruct (body_inv _ _ _ Hcnt _ _ _ _ _ _ _ Hlast) as (r0 & _ & _ & _ & _ & Ef & Eg & Eh & _).
  rewrite Eg in Bg. rewrite Eh in Bh.
  destruct (near_facts other E a p U os cs Hp As Hs Hm O Sx Uo Uc Hu Hphi (d_x _ d) e Lxd Bg Bh) as (dd & x & (Ed & Lx & Lp) & Nf).
  assert (dd = dofs) by congruence. subst dd. exists x. split; [exact Lp|]. split; [exact Lx|exact Nf].
Qed.
Print Assumptions C160_small_rows_mean_nearly_met_bounds.

(** ** C161 *)
(** A convex call whose objectives need no slack variable and whose passes all
    end level.  [low] is below the objective of every design.  For every design
    that meets the bounds, with objective [r]: the returned design meets the
    bounds up to sqrt ((r - low) / c) units (twice that for largest values, and
    as in C160 for powers and sums), [c] the penalty weight of the last pass; and at most (r - low) / (c_init tol^2)
    passes end with some row off by [tol] or more. *)
Theorem C161_returned_designs_nearly_meet_the_bounds :
  forall other (E : library) (a : args (x_solver E)) U os cs o p d d1 low,
  counted (x_opt E) -> shaped (x_opt E) ->
  asks a os cs -> qc_smoothing a = Some "slack" -> qc_merge a = false -> 0 < qc_c_init a -> 0 < qc_c_growth a ->
  quadcoil (package other) E a = Some (Ok o) -> o_results E o = Constrained E d ->
  let q := o_qp E o in
  ordered q -> (exists x, sound q x) -> (forall x, qc_phi_init a = Some x -> length x = q_ndofs q) ->
  (forall t, In t os -> 0 <= ob_weight t /\ scaled_use U q (ob_name t) (ob_unit t)) ->
  (forall c, In c cs -> scaled_use U q (uc_name c) (uc_unit c)) ->
  convex_call other q os cs -> (forall t, In t os -> In (ob_name t) direct_quantities) ->
  prepare (package other) a = Ok p -> pr_unit p <> 0 ->
  let P := solver_problem E a p in
  let d0 := init_dict _ P (pr_x0 p) (qc_c_init a) (pr_lam0 p) (pr_mu0 p) in
  main_loop _ (x_opt E) (x_autograd E) P (x_fuel_out E) (x_fuel_in E) d0 = Some d1 ->
  exact_passes (x_opt E) (x_autograd E) P (length (pr_x0 p)) d0 ->
  (forall y r, length y = q_ndofs q -> weighted other q (asked_terms os) y r -> low <= r) ->
  0 < d_c _ d1 /\
  exists x, lookup "phi" (o_dofs E o) = Some (Arr [length x] x) /\ length x = q_ndofs q /\
    forall y r, length y = q_ndofs q -> SpecConvex.feasible other q (asked_bounds cs) y -> weighted other q (asked_terms os) y r ->
      nearly_feasible other q cs (sqrt ((r - low) / d_c _ d1)) x /\ powers_nearly_bounded other q cs (sqrt ((r - low) / d_c _ d1)) x /\ sums_nearly_bounded other q cs (sqrt ((r - low) / d_c _ d1)) x /\
      (1 <= qc_c_growth a -> forall tol w k d', 0 < tol -> spent (x_opt E) (x_autograd E) P (tol * tol) d0 w k d' ->
         INR k <= (r - low) / (qc_c_init a * (tol * tol))).
Proof.
  intros other E a U os cs o p d d1 low Hcnt Hsh As Hs Hm Hc Hg Hq Hr q O Sx Hphi Uo Uc Cv Dir Hp Hu P d0 Hml Ex Low.
  pose proof (returned_length other E a o p d Hcnt Hsh Hq Hr Hp) as Lxd.
  pose proof (fun e Bg Bh => C160_small_rows_mean_nearly_met_bounds other E a U os cs o p d e Hcnt Hsh As Hs Hm Hq Hr O Sx Hphi Uo Uc Hp Hu Bg Bh) as Near.
  destruct (quadcoil_ok _ E a o Hq) as (p' & r' & dofs & Hp' & Hso & _ & Hd & E1 & E2 & E3).
  assert (p' = p) by congruence. subst p'. rewrite Hr in E3. subst r'. fold q in Near. subst q. rewrite E1, E2 in *. clear E1 E2 Hr Hq Hp'.
  destruct (problem_facts other E a p U os cs Hp As Hs Hm O Sx Uo Uc Hu Hphi) as (ng & nh & FZ & _ & Lm & Ll & _).
  unfold solve in Hso. destruct (unconstrained (pr_fn p)).
  { destruct (run_opt _ _ _ _ _ _ _ _ _ _); discriminate. }
  destruct (solve_constrained _ _ _ _ _ _ _ _ _ _) as [d'|] eqn:Hsol; [|discriminate]. injection Hso as ->. cbn [optimum] in Hd.
  fold P in Hsol. set (n := length (pr_x0 p)) in *.
  assert (Sz : sized P n (length (pr_mu0 p)) (length (pr_lam0 p))).
  { intros z Lz. destruct (FZ z Lz) as (L1 & L2 & _). rewrite Lm, Ll. split; assumption. }
  destruct (prepare_multipliers _ a p Hp) as (g0 & h0 & _ & _ & Em & El).
  assert (Pm : List.Forall (fun m => 0 <= m) (pr_mu0 p)).
  { rewrite Em. apply List.Forall_forall. intros m I. apply in_map_iff in I as (? & <- & _). lra. }
  assert (Cp : convex_problem_of P n).
  { intros x z t Lx Lz Ht. rewrite !between_comb.
    destruct (convex_problem other E a p U os cs Hp As Hs Hm O Sx Uo Uc Hu Hphi Cv z x t Lz Lx Ht) as (C1 & C2 & C3). fold P in C1, C2, C3.
    split; [lra|]. split; [exact C2|exact C3]. }
  assert (Zero : forall (l : list R) v, dotR (map (fun _ => 0) l) v = 0).
  { unfold dotR, sumR. induction l as [|b l IH]; intros [|v vs]; cbn; try reflexivity. rewrite IH. ring. }
  assert (Lowz : forall z : list R, length z = n -> low <= p_f _ P z + dotR (pr_lam0 p) (p_h _ P z) + dotR (pr_mu0 p) (p_g _ P z)).
  { intros z Lz. rewrite Em, El. rewrite !Zero. destruct (direct_value other E a p U os cs Hp As Hs Hm O Sx Uo Uc Hu Hphi z Lz Dir) as (dz & y & r & (_ & Ly & _) & Wr & Hle). fold P in Hle.
    pose proof (Low y r Ly Wr). cbn [T R_num] in *. lra. }
  destruct (C159_reported_violation (x_fin E) (x_opt E) (x_autograd E) Hcnt Hsh P n (pr_x0 p) (qc_c_init a) (pr_lam0 p) (pr_mu0 p) low _ _ d eq_refl Hg Sz eq_refl Hc Pm Cp Ex Lowz Hsol) as (d1' & Hml' & Hc1 & V).
  assert (d1' = d1) by (fold d0 in Hml'; cbn [T R_num] in *; congruence). subst d1'. split; [exact Hc1|].
  assert (Rep : forall y r, length y = q_ndofs (fn_qp (pr_fn p)) -> SpecConvex.feasible other (fn_qp (pr_fn p)) (asked_bounds cs) y -> weighted other (fn_qp (pr_fn p)) (asked_terms os) y r ->
    exists z : list R, length z = n /\ admissible P z /\ p_f _ P z = r).
  { intros y r Ly Fy Wy. destruct (representative other E a p U os cs Hp As Hs Hm O Sx Uo Uc Hu Hphi y r Ly Fy Wy) as (z & dz & Lz & _ & Az & Pf). exists z. auto. }
  destruct (FZ (d_x _ d) Lxd) as (_ & _ & _ & dd & x & (Ed & Lx & Lp) & _). assert (dd = dofs) by congruence. subst dd.
  exists x. split; [exact Lp|]. split; [exact Lx|]. intros y r Ly Fy Wy. destruct (Rep y r Ly Fy Wy) as (z & Lz & Az & Pf).
  - destruct (V z Lz Az) as (_ & Vg & Vh). rewrite Pf in Vg, Vh. destruct (Near _ Vg Vh) as (x' & Lp' & _ & Nf & Nq & Nl).
    assert (x' = x) by congruence. subst x'. split; [exact Nf|]. split; [exact Nq|]. split; [exact Nl|]. intros Hg1 tol w k d' Ht Sp. rewrite <- Pf.
    exact (proj2 (C159_passes_outside_the_tolerance (x_fin E) (x_opt E) (x_autograd E) Hcnt Hsh P n (pr_x0 p) (qc_c_init a) (pr_lam0 p) (pr_mu0 p) low tol eq_refl Hg1 Sz eq_refl Hc Pm Cp Ex Lowz Ht) w k d' Sp z Lz Az).
Qed.
Print Assumptions C161_returned_designs_nearly_meet_the_bounds.

(** The call of C120: the mean square of the potential, its largest value
    bounded by 5; no reported row exceeds 0, every pass ends level, and the
    objective of no design is below 0. *)
Example C161_example : exists o p d d1, quadcoil (package []) E120 call120 = Some (Ok o) /\ o_results E120 o = Constrained E120 d /\ o_qp E120 o = shown /\
  prepare (package []) call120 = Ok p /\ pr_unit p <> 0 /\ convex_call [] shown terms120 bounds120 /\ (forall t, In t terms120 -> In (ob_name t) direct_quantities) /\
  (forall c, In c bounds120 -> In (uc_name c) max_quantities) /\
  let P := solver_problem E120 call120 p in
  let d0 := init_dict _ P (pr_x0 p) (qc_c_init call120) (pr_lam0 p) (pr_mu0 p) in
  main_loop _ (x_opt E120) (x_autograd E120) P (x_fuel_out E120) (x_fuel_in E120) d0 = Some d1 /\
  exact_passes (x_opt E120) (x_autograd E120) P (length (pr_x0 p)) d0 /\
  (forall y r, length y = q_ndofs shown -> weighted [] shown (asked_terms terms120) y r -> 0 <= r) /\
  (forall v, In v (d_g _ d) -> v <= 0) /\ (forall v, In v (d_h _ d) -> Rabs v <= 0).
Proof.
  destruct C147_example as (o & p & d & d1 & Hq & Hr & Eq & Hp & Hu & Cv & Hml & _).
  exists o, p, d, d1. do 6 (split; [assumption|]). split; [intros t [<-|[]]; cbn; tauto|]. split; [intros c [<-|[]]; cbn; tauto|]. intros P d0. split; [exact Hml|].
  destruct (call_start p Hp) as (G0 & H0 & L5 & Un & Fc & dz & E0 & Ph0).
  assert (Fq : fn_qp (pr_fn p) = shown) by (destruct call_prepared as (p' & Hp' & Fq); congruence).
  assert (O : ordered (fn_qp (pr_fn p))) by (rewrite Fq; apply device_increasing).
  assert (Sx : exists x, sound (fn_qp (pr_fn p)) x) by (rewrite Fq; exists [1; 2; 3; 4]; now apply shown_sound).
  destruct (problem_facts [] E120 call120 p U120 terms120 bounds120 Hp call_asks eq_refl eq_refl O Sx) as (ng & nh & FZ & _ & Lm & Ll & _).
  { rewrite Fq. intros t I. destruct (call_terms t I) as (? & ? & _); auto. }
  { rewrite Fq. intros c I. apply (call_bounds c I). }
  { rewrite Un. lra. }
  { discriminate. }
  assert (Adm : admissible P (pr_x0 p)).
  { split; [exact G0|]. cbn [P solver_problem ModelSolver.p_h]. rewrite H0. constructor. }
  assert (Sz : sized P (length (pr_x0 p)) ng nh).
  { intros z Lz. destruct (FZ z Lz) as (L1 & L2 & _). split; assumption. }
  assert (Best : forall z : list R, length z = length (pr_x0 p) -> p_f RN P (pr_x0 p) <= p_f RN P z).
  { intros z Lz. destruct (FZ z Lz) as (_ & _ & _ & dz' & x & (Ez & Lx & Px) & _). rewrite Fq in Lx.
    destruct (call_value call120 bounds120 p z dz' x Hp call_asks eq_refl eq_refl Fq Ez Lx Px) as (M & _ & EM & PM & _).
    destruct (call_value call120 bounds120 p (pr_x0 p) dz [0; 0; 0; 0] Hp call_asks eq_refl eq_refl Fq E0 eq_refl Ph0) as (M0 & _ & EM0 & _ & ZM).
    cbn [P solver_problem ModelSolver.p_f]. rewrite EM, EM0, (ZM eq_refl). lra. }
  destruct (prepare_multipliers _ call120 p Hp) as (g0 & h0 & _ & _ & Em & El).
  assert (R0 : resting ng nh (pr_x0 p) d0).
  { unfold resting. split; [|split; [reflexivity|]].
    - repeat split; try assumption; simpl; try reflexivity; try lra. rewrite Em. apply List.Forall_forall. intros m I. apply in_map_iff in I as (? & <- & _). lra.
    - cbn [d0 init_dict d_mu d_lam]. rewrite Em, El. split; apply List.Forall_forall; intros m I; apply in_map_iff in I as (? & <- & _); reflexivity. }
  assert (Step : forall d d' fuel fs xs gt, passes stay (x_autograd E120) P d0 d -> body RN stay (x_autograd E120) P fuel fs xs gt d = Some d' ->
    d_x RN d' = pr_x0 p /\ forall z : list R, length z = length (pr_x0 p) -> aug (fun _ => false) P d (pr_x0 p) <= aug (fun _ => false) P d z + 0).
  { intros e e' fuel fs xs gt Hps Hb. destruct (rest_best (x_autograd E120) P ng nh (pr_x0 p) eq_refl ltac:(cbn; lra) Sz Adm Best _ _ Hps R0) as (R1 & HR).
    pose proof (pass_rests (x_autograd E120) P ng nh (pr_x0 p) eq_refl ltac:(cbn; lra) Sz Adm Best _ _ _ _ _ _ R1 Hb) as (_ & Ex & _). auto. }
  split; [|split; [|]].
  - intros e e' fuel fs xs gt Hps Hb z Lz eps He. exists 1. split; [lra|]. intros t Ht. destruct (Step _ _ _ _ _ _ Hps Hb) as (Ex & HR).
    assert (Lb : length (between (pr_x0 p) z t) = length (pr_x0 p)) by (unfold between; apply map2_len; symmetry; exact Lz).
    pose proof (HR _ Lb) as K. unfold aug in K. cbn [T R_num] in *. change (x_fin E120) with (fun _ : R => false) in *. rewrite Ex. pose proof (Rmult_lt_0_compat t eps ltac:(lra) He). lra.
  - intros y r Ly (vs & F & ->). inversion F as [|t m ? l' Rm F1]; subst. inversion F1; subst. destruct (mean_square y Ly) as (M & RM & PM & _).
    cbn [fst] in Rm. pose proof (ProofConvex.reads_fun _ _ _ _ _ _ Rm RM) as X. injection X as ->. unfold Rsum. cbn. rewrite Rabs_right by lra. lra.
  - destruct (quadcoil_ok _ _ _ _ Hq) as (p' & r' & dofs & Hp' & Hso & _ & Hd & E1 & E2 & E3). assert (p' = p) by (pose proof (eq_trans (eq_sym Hp') Hp) as X; now injection X). subst p'.
    assert (R' : r' = Constrained E120 d) by exact (eq_trans (eq_sym E3) Hr). clear E3 E1 E2 Hd. rewrite R' in Hso. clear R'.
    unfold solve in Hso. rewrite Fc in Hso.
    destruct (solve_constrained _ _ _ _ _ _ _ _ _ _) as [d'|] eqn:Hsol; [|discriminate Hso]. apply (f_equal (fun r => match r with Some (Constrained e) => e | _ => d end)) in Hso. cbv beta iota in Hso. subst d'.
    destruct (solve_inv _ _ _ stay_counted _ _ _ _ _ _ _ _ Hsol) as (d2 & Hml2 & Hlast & _).
    pose proof (proj1 (main_inv _ _ _ stay_counted _ _ _ _ _ _ _ _ Hml2)) as Hps.
    destruct (Step _ _ _ _ _ _ Hps Hlast) as (Ex & _). destruct (body_inv _ _ _ stay_counted _ _ _ _ _ _ _ Hlast) as (_ & _ & _ & _ & _ & _ & Eg & Eh & _).
    destruct Adm as (Ag & Ah). rewrite List.Forall_forall in Ag, Ah. split; intros v I.
    + apply Ag. apply (eq_ind (d_g RN d) (fun l => In v l) I). rewrite <- Ex. exact Eg.
    + rewrite (Ah v); [rewrite Rabs_R0; lra|]. apply (eq_ind (d_h RN d) (fun l => In v l) I). rewrite <- Ex. exact Eh.
Qed.
(** A call with bounds of all four kinds; its reported rows do not exceed
    1/100, so that the largest value of the potential is at most 5 + 6/100, its
    fourth power at most 3 (sqrt (16/3 + 1/100) + 1/100)^2, the potential at
    least -1 - 7/100, and its sum at most 20 + 3/100 (1 + A). *)
Example C160_example : exists o d x v4 v1 v v0 A, quadcoil (package []) E120 call160 = Some (Ok o) /\ o_results E120 o = Constrained E120 d /\
  (forall v, In v (d_g _ d) -> v <= 1 / 100) /\ (forall v, In v (d_h _ d) -> Rabs v <= 1 / 100) /\
  lookup "phi" (o_dofs E120 o) = Some (Arr [length x] x) /\
  reads [] "f_max_Phi4" shown x (scal v4) /\ v4 <= 3 * (sqrt (16 / 3 + 1 / 100) + 1 / 100) ^ 2 /\
  reads [] "f_max_Phi" shown x v1 /\ meets_within LE 5 (2 * (1 / 100) * 3) v1 /\
  reads [] "Phi" shown x v /\ meets_within GE (-1) (1 * (1 / 100) * 7) v /\
  reads [] "f_l1_Phi" shown x (scal v0) /\ summed_area shown A /\ v0 <= 20 + (1 + A) * (1 / 100) * 3.
Proof.
  destruct call_hypotheses as (H1 & H2 & H3 & x & S).
  destruct (C121_valid_calls_return [] E120 call160 shown U120 terms120 bounds160 H1 H2 call160_builds call160_asks eq_refl eq_refl
    ltac:(cbn; lra) ltac:(cbn; lra) H3 (ex_intro _ x S) ltac:(discriminate)) as (o & Hq & Eq & _).
  { intros b' [= <-]. reflexivity. }
  { discriminate. }
  { intros p Hp. rewrite (proj1 (call160_facts p Hp)). lra. }
  { intros t I. destruct (call_terms t I) as (? & ? & ?); auto. }
  { exact call160_bounds. }
  { exact call160_metrics. }
  { cbn. lia. }
  { cbn. lia. }
  destruct (quadcoil_ok _ _ _ _ Hq) as (p & r & dofs & Hp & Hso & _ & Hd & E1 & E2 & E3).
  destruct (call160_facts p Hp) as (Un & Uc & H0). unfold solve in Hso. rewrite Uc in Hso.
  destruct (solve_constrained _ _ _ _ _ _ _ _ _ _) as [d|] eqn:Hsol; [|discriminate]. injection Hso as <-.
  destruct (solve_inv _ _ _ stay_counted _ _ _ _ _ _ _ _ Hsol) as (d1 & Hml & Hlast & _).
  destruct (call160_rests p d1 d Hp Hml Hsol) as (Ex & _). change (d_x (R_num (x_fin E120)) d = pr_x0 p) in Ex. destruct (call160_start p Hp) as (G0 & _).
  destruct (body_inv _ _ _ stay_counted _ _ _ _ _ _ _ Hlast) as (r0 & _ & _ & _ & _ & _ & Eg & Eh & _).
  assert (Bg : forall v, In v (d_g (R_num (x_fin E120)) d) -> v <= 1 / 100).
  { intros v I. apply (fun J => eq_ind (d_g RN d) (fun l => In v l) J _ Eg) in I. change (d_x RN d = pr_x0 p) in Ex. rewrite Ex in I. rewrite List.Forall_forall in G0. specialize (G0 v I). cbn [T R_num] in *. lra. }
  assert (Bh : forall v, In v (d_h (R_num (x_fin E120)) d) -> Rabs v <= 1 / 100).
  { intros v I. apply (fun J => eq_ind (d_h RN d) (fun l => In v l) J _ Eh) in I. change (d_x RN d = pr_x0 p) in Ex. rewrite Ex in I. cbn [solver_problem ModelSolver.p_h] in I. rewrite H0 in I. destruct I. }
  destruct (C160_small_rows_mean_nearly_met_bounds [] E120 call160 U120 terms120 bounds160 o p d (1 / 100) H1 H2 call160_asks eq_refl eq_refl Hq E3) as (y & Lp & _ & Nf & Nq & Nl); rewrite ?Eq; try assumption.
  { exists x. exact S. }
  { discriminate. }
  { intros t I. destruct (call_terms t I) as (? & ? & _); auto. }
  { intros c I. apply (call160_bounds c I). }
  { rewrite Un. lra. }
  rewrite Eq in Nf, Nq, Nl. destruct (Nf (UC "f_max_Phi" LE 3 5) 2 (or_intror (or_introl eq_refl))) as (v1 & R1 & M1); [right; cbn; tauto|].
  destruct (Nf (UC "Phi" GE 7 (-1)) 1 (or_intror (or_intror (or_introl eq_refl)))) as (v & Rv & Mv); [left; cbn; tauto|].
  destruct (Nq (UC "f_max_Phi4" LE 3 16) (or_introl eq_refl)) as (v4 & u & R4 & -> & M4); [cbn; tauto|].
  destruct (Nl (UC "f_l1_Phi" LE 3 20) (or_intror (or_intror (or_intror (or_introl eq_refl))))) as (v0 & A & R0 & HA & M0); [reflexivity|].
  exists o, d, y, v4, v1, v, v0, A. split; [exact Hq|]. split; [exact E3|]. split; [exact Bg|]. split; [exact Bh|]. split; [exact Lp|].
  cbn [uc_cmp uc_val uc_unit] in *. rewrite (Rabs_right 3) in M0, M1, M4 by lra. rewrite (Rabs_right 7) in Mv by lra. repeat split; assumption.
Qed.
