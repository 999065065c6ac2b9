(** Property C158: a call that meets its bound on the current density. *)
From Coq Require Import String List Bool Arith ZArith Reals Lra Lia.
From Verif Require Import Base ModelArray ProofArray ModelMath SpecMath ModelSurface SpecSurface ModelParams SpecField
  ModelQuantity ModelWrapper SpecWrapper ModelPackage SpecPackage
  SpecConvex ModelSolver SpecSolver ProofSolver ModelQuadcoil SpecQuadcoil ProofQuadcoil
  SpecProblem ProofEnd SpecEnd ProofEnd4 ProofEnd5 SpecCert ProofCert ProofField2 ProofField3 ProofPackage ProofPackage2 ProofPackage3 ProofPackage4 PropConvex
  WitnessField WitnessSolver WitnessQuadcoil PropPackage WitnessEnd PropEnd SpecBest SpecCertify ProofCertify ProofCertify3 ProofCertify4 ProofCertify5 ProofConvex PropCertify
  SpecBounds ProofBounds WitnessDensity PropCertify2 PropBounds2.
Import ListNotations.
Open Scope R_scope.
Open Scope string_scope.
Open Scope list_scope.

(** What a constrained call reports about its last unknowns. *)
Lemma reported other (E : library) (a : args (x_solver E)) U os cs o p d :
  counted (x_opt E) -> shaped (x_opt E) ->
  asks a os cs -> qc_smoothing a = Some "slack" -> qc_merge a = false -> 0 < qc_c_init a -> 0 < qc_c_growth a ->
  quadcoil (package other) E a = Some (Ok o) -> o_results E o = Constrained E d ->
  ordered (o_qp E o) -> (exists x, sound (o_qp E o) x) -> (forall x, qc_phi_init a = Some x -> length x = q_ndofs (o_qp E o)) ->
  (forall t, In t os -> 0 <= ob_weight t /\ scaled_use U (o_qp E o) (ob_name t) (ob_unit t)) ->
  (forall c, In c cs -> scaled_use U (o_qp E o) (uc_name c) (uc_unit c)) ->
  prepare (package other) a = Ok p -> pr_unit p <> 0 ->
  let P := solver_problem E a p in
  fn_qp (pr_fn p) = o_qp E o /\ length (d_x _ d : list R) = length (pr_x0 p) /\ unscale (pr_structure p) (pr_unit p) (d_x _ d) = Ok (o_dofs E o) /\
  d_g _ d = p_g _ P (d_x _ d) /\ length (d_mu _ d : list R) = length (d_g _ d : list R) /\ List.Forall (fun m => 0 <= m) (d_mu _ d).
Proof.
  intros Hcnt Hsh As Hs Hm Hc Hg Hq Hr O Sx Hphi Uo Uc Hp Hu P.
  destruct (quadcoil_ok _ E a o Hq) as (p' & r' & dofs & Hp' & Hso & _ & Hd & E1 & E2 & E3).
  assert (p' = p) by congruence. subst p'. rewrite Hr in E3. subst r'. rewrite E1 in *. rewrite E2. clear E1 E2 Hr Hq Hp'. split; [reflexivity|].
  destruct (problem_facts other E a p U os cs Hp As Hs Hm O Sx Uo Uc Hu Hphi) as (ng & nh & FZ & _ & Lm & Ll & _).
  unfold solve in Hso. destruct (unconstrained (pr_fn p)).
  { destruct (run_opt _ _ _ _ _ _ _ _ _ _); discriminate. }
  destruct (solve_constrained _ _ _ _ _ _ _ _ _ _) as [d'|] eqn:Hsol; [|discriminate]. injection Hso as ->. cbn [optimum] in Hd.
  fold P in Hsol. set (n := length (pr_x0 p)) in *.
  assert (Sz : sized P n (length (pr_mu0 p)) (length (pr_lam0 p))).
  { intros z Lz. destruct (FZ z Lz) as (L1 & L2 & _). rewrite Lm, Ll. split; assumption. }
  destruct (prepare_multipliers _ a p Hp) as (g0 & h0 & _ & _ & Em & _).
  assert (Pm : List.Forall (fun m => 0 <= m) (pr_mu0 p)).
  { rewrite Em. apply List.Forall_forall. intros m I. apply in_map_iff in I as (? & <- & _). lra. }
  destruct (solve_inv _ _ _ Hcnt P _ _ _ _ _ _ _ Hsol) as (d1 & Hml & Hlast & _).
  pose proof (proj1 (main_inv _ _ _ Hcnt P _ _ _ _ _ _ _ Hml)) as Hps.
  assert (S0 : sound_state (x_fin E) n (length (pr_mu0 p)) (length (pr_lam0 p)) (init_dict (R_num (x_fin E)) P (pr_x0 p) (qc_c_init a) (pr_lam0 p) (pr_mu0 p))).
  { repeat split; try assumption; simpl; try reflexivity; try lra. }
  assert (Hmask : p_mask _ P = gplus_hard (R_num (x_fin E))) by reflexivity.
  assert (Hgr : 0 < p_growth _ P) by exact Hg.
  pose proof (passes_sound _ _ _ Hcnt P Hmask n _ _ Sz Hsh Hgr _ _ Hps S0) as S1.
  pose proof (pass_sound _ _ _ Hcnt P Hmask n _ _ Sz Hsh Hgr _ _ _ _ _ _ S1 Hlast) as (Lxd & _ & Lmd & _ & _ & Pmu).
  destruct (body_inv _ _ _ Hcnt P _ _ _ _ _ _ Hlast) as (r0 & _ & _ & _ & _ & Ef & Eg & Eh & _).
  split; [exact Lxd|]. split; [exact Hd|]. split; [exact Eg|]. split; [|exact Pmu]. rewrite Eg. etransitivity; [exact Lmd|]. symmetry. exact (proj1 (Sz _ Lxd)).
Qed.

(** Products of multipliers and constraint values that add up to nothing vanish one by one. *)
Lemma dot_each mu : forall g, length mu = length g -> List.Forall (fun m => 0 <= m) mu -> List.Forall (fun v => v <= 0) g -> dotR mu g = 0 -> forall i, nth i mu 0 * nth i g 0 = 0.
Proof.
  induction mu as [|m mu IH]; intros [|v g] L Hm Hg D i; try discriminate; [destruct i; cbn; ring|].
  inversion Hm; subst. inversion Hg; subst. injection L as L.
  assert (B : dotR mu g <= 0).
  { clear - L H2 H4. revert g L H4. induction H2 as [|m mu P F IH]; intros [|v g] L H4; try discriminate; [unfold dotR, sumR; cbn; lra|].
    inversion H4; subst. injection L as L. specialize (IH g L H2). unfold dotR, sumR in *. cbn. nra. }
  assert (D' : m * v + dotR mu g = 0) by exact D. assert (m * v <= 0) by nra.
  destruct i as [|i]; [cbn; lra|]. cbn. apply (IH g L H2 H4). lra.
Qed.

Lemma K2_signs other q x v : sound q x -> reads other "K2" q x v -> List.Forall (fun k => 0 <= k) (el v).
Proof.
  intros S Rv. rewrite (ProofConvex.reads_fun _ _ _ _ _ _ Rv (reads_K2 other q x S)). apply List.Forall_forall. intros k I.
  cbn [of_grid el] in I. rewrite concat_sample in I. apply in_map_iff in I as (pt0 & <- & _). destruct (kval q x (fst pt0) (snd pt0)) as [a b c]. unfold dot3. cbn. nra.
Qed.

(** ** C158 *)
(** A call in slack mode that bounds the largest current density alone.  No row
    is reported violated, the products of multipliers and rows add up to 0, and
    the returned design carries some current.  Then its objective is, up to
    [eta] times the distance, the least under the bound and under any other bound
    at the price read off from the last multiplier. *)
Theorem C158_met_density_bound :
  forall other (E : library) (a : args (x_solver E)) U os un b o p d d1 eta,
  let cs := [UC "f_max_K2" LE un b] in
  counted (x_opt E) -> shaped (x_opt E) ->
  asks a os cs -> qc_smoothing a = Some "slack" -> qc_merge a = false -> 0 < qc_c_init a -> 0 < qc_c_growth a ->
  quadcoil (package other) E a = Some (Ok o) -> o_results E o = Constrained E d ->
  let q := o_qp E o in
  ordered q -> (exists x, sound q x) -> (forall x, qc_phi_init a = Some x -> length x = q_ndofs q) ->
  (forall t, In t os -> 0 <= ob_weight t /\ scaled_use U q (ob_name t) (ob_unit t)) ->
  (forall c, In c cs -> scaled_use U q (uc_name c) (uc_unit c)) ->
  convex_objective other q (asked_terms os) -> (forall t, In t os -> In (ob_name t) direct_quantities) ->
  prepare (package other) a = Ok p -> pr_unit p <> 0 ->
  let P := solver_problem E a p in
  main_loop _ (x_opt E) (x_autograd E) P (x_fuel_out E) (x_fuel_in E)
    (init_dict _ P (pr_x0 p) (qc_c_init a) (pr_lam0 p) (pr_mu0 p)) = Some d1 ->
  level (length (pr_x0 p)) eta (augmented (p_f _ P) (p_g _ P) (p_h _ P) (d_c _ d1) (d_lam _ d1) (d_mu _ d1)) (d_x _ d) ->
  (forall v, In v (d_g _ d) -> v <= 0) -> (forall v, In v (d_h _ d) -> v = 0) -> dotR (d_mu _ d) (d_g _ d) = 0 ->
  (forall x, lookup "phi" (o_dofs E o) = Some (Arr [length x] x) -> ~ reads other "f_max_K2" q x (scal 0)) ->
  exists x s m, lookup "phi" (o_dofs E o) = Some (Arr [length x] x) /\ length x = q_ndofs q /\ d_mu _ d = s ++ [m] /\ 0 <= m /\
    (forall b' y r, length y = q_ndofs q -> SpecConvex.feasible other q [("f_max_K2", LE, b')] y -> weighted other q (asked_terms os) y r ->
       exists z dz, length z = length (pr_x0 p) /\ unscale (pr_structure p) (pr_unit p) z = Ok dz /\ lookup "phi" dz = Some (Arr [length y] y) /\
         d_f _ d - m * ((b' - b) / Rabs un) <= r + eta * normR (map2 Rminus z (d_x _ d))) /\
    (eta = 0 -> best other q (asked_terms os) [("f_max_K2", LE, b)] x (d_f _ d)) /\
    (eta = 0 -> forall b' y r, best other q (asked_terms os) [("f_max_K2", LE, b')] y r -> d_f _ d - m * ((b' - b) / Rabs un) <= r).
Proof.
  intros other E a U os un b o p d d1 eta cs Hcnt Hsh As Hs Hm Hc Hg Hq Hr q O Sx Hphi Uo Uc Cv Dir Hp Hu P Hml Hlev Gv Hv Comp Cur.
  destruct (reported other E a U os cs o p d Hcnt Hsh As Hs Hm Hc Hg Hq Hr O Sx Hphi Uo Uc Hp Hu) as (Eq & Lxd & Ed & Eg & Lmu & Pmu).
  assert (Sa : forall x, length x = q_ndofs q -> sound q x).
  { destruct Sx as (x1 & S1). intros x Lx. exact (sound_all q x1 S1 x Lx). }
  assert (Mu : forall y v i, length y = q_ndofs q -> reads other "K2" q y v -> (length (el v) <= i < 2 * length (el v))%nat -> nth i (d_mu _ d : list R) 0 = 0).
  { intros y v i Ly Rv Hi.
    assert (Br := bound_rows other E a p U os un b Hp As Hs Hm). rewrite Eq in Br.
    destruct (Br O Sx Uo Uc Hu Hphi Dir (d_x _ d) Lxd) as (dz & x & w & s & Ez & Px & Lx & Rw & _ & Row & _). clear Br.
    assert (dz = o_dofs E o) by congruence. subst dz.
    destruct (convex_quantities other q Sa O "K2" ltac:(cbn; tauto) x y 0 Lx Ly ltac:(lra)) as (a1 & a2 & a3 & Q1 & Q2 & Q3 & _ & _ & M1 & M2 & _).
    rewrite <- (ProofConvex.reads_fun _ _ _ _ _ _ Rw Q1) in *. rewrite <- (ProofConvex.reads_fun _ _ _ _ _ _ Rv Q2) in *.
    assert (Lw : length (el w) = length (el v)) by congruence. clear a1 a2 a3 Q1 Q2 Q3 M1 M2.
    destruct (largest_value other q x (Sa x Lx) "f_max_K2" "K2" (fun y => y) ltac:(cbn; tauto)) as (M & w' & RM & Rw' & IM).
    rewrite <- (ProofConvex.reads_fun _ _ _ _ _ _ Rw Rw') in *. rewrite map_id in IM. destruct IM as (IM & BM).
    pose proof (K2_signs other q x w (Sa x Lx) Rw) as Sg. rewrite List.Forall_forall in Sg.
    assert (PM : 0 < M). { destruct (Sg M IM) as [|Z]; [assumption|]. subst M. exfalso. exact (Cur x Px RM). }
    assert (Nz : un <> 0) by (destruct (Uc _ (or_introl eq_refl)) as (X & _); exact X). pose proof (Rabs_pos_lt un Nz) as Pu.
    assert (Rows : d_g _ d = map (fun k => k / Rabs un - s) (el w) ++ map (fun k => - k / Rabs un - s) (el w) ++ [s - b / Rabs un]) by (rewrite Eg; exact Row).
    assert (Ps : 0 < s).
    { assert (X : M / Rabs un - s <= 0) by (apply Gv; rewrite Rows; apply in_app_iff; left; apply in_map_iff; exists M; auto).
      pose proof (Rdiv_lt_0_compat M (Rabs un) PM Pu). lra. }
    pose proof (dot_each (d_mu _ d) (d_g _ d) Lmu Pmu (proj2 (List.Forall_forall _ _) Gv) Comp i) as Z.
    assert (Neg : nth i (d_g _ d : list R) 0 < 0).
    { rewrite Rows, nth_rows by (now rewrite !map_length). rewrite map_length. rewrite (proj2 (Nat.ltb_ge _ _)) by lia. rewrite (proj2 (Nat.ltb_lt _ _)) by lia.
      assert (Hj : (i - length (el w) < length (map (fun k => (- k / Rabs un - s)%R) (el w)))%nat) by (rewrite map_length; lia).
      pose proof (nth_In _ 0 Hj) as J. apply in_map_iff in J as (k & <- & Ik). pose proof (Sg k Ik) as Pk.
      assert (0 <= k / Rabs un) by (apply Rmult_le_pos; [exact Pk|left; now apply Rinv_0_lt_compat]). unfold Rdiv in *. lra. }
    apply Rmult_integral in Z as [Z|Z]; [exact Z|lra]. }
  destruct (C156_density_bound other E a U os un b o p d d1 eta Hcnt Hsh As Hs Hm Hc Hg Hq Hr O Sx Hphi Uo Uc Cv Dir Hp Hu Hml Hlev Mu) as (_ & x & Lp & Lx & _ & Be).
  destruct (C157_price_of_a_density_bound other E a U os un b o p d d1 eta Hcnt Hsh As Hs Hm Hc Hg Hq Hr O Sx Hphi Uo Uc Cv Dir Hp Hu Hml Hlev Mu) as (s & m & Em & Pm & W & W0).
  assert (Hd0 : dotR (d_lam _ d) (d_h _ d) = 0) by (apply dot_none, List.Forall_forall; exact Hv).
  exists x, s, m. do 4 (split; [assumption|]). split; [|split].
  - intros b' y r Ly Fy Wy. destruct (W b' y r Ly Fy Wy) as (z & dz & Z1 & Z2 & Z3 & K). exists z, dz. do 3 (split; [assumption|]).
    rewrite Hd0, Comp in K. cbn [T R_num] in *. lra.
  - intros He. exact (Be Gv Hv Comp He).
  - intros He. exact (W0 Hv Comp He).
Qed.
Print Assumptions C158_met_density_bound.

Lemma dot_zeros m : forall g, (forall i, nth i m 0 = 0) -> dotR m g = 0.
Proof.
  induction m as [|k m IH]; intros [|v g] H; try reflexivity. assert (K : dotR (k :: m) (v :: g) = k * v + dotR m g) by reflexivity.
  rewrite K, (IH g (fun i => H (S i))), (H O : k = 0). ring.
Qed.
(** A non-trivial case: the call of C156, with a bound at which the net currents
    alone are allowed. *)
Example C158_example : exists b o p d d1, quadcoil (package []) E120 (call156 b) = Some (Ok o) /\ o_results E120 o = Constrained E120 d /\ o_qp E120 o = shown /\
  asks (call156 b) terms120 [UC "f_max_K2" LE 3 b] /\ prepare (package []) (call156 b) = Ok p /\ pr_unit p <> 0 /\
  convex_objective [] shown (asked_terms terms120) /\ (forall t, In t terms120 -> In (ob_name t) direct_quantities) /\
  main_loop _ (x_opt E120) (x_autograd E120) (solver_problem E120 (call156 b) p) (x_fuel_out E120) (x_fuel_in E120)
    (init_dict _ (solver_problem E120 (call156 b) p) (pr_x0 p) (qc_c_init (call156 b)) (pr_lam0 p) (pr_mu0 p)) = Some d1 /\
  (let P := solver_problem E120 (call156 b) p in
   level (length (pr_x0 p)) 0 (augmented (p_f _ P) (p_g _ P) (p_h _ P) (d_c _ d1) (d_lam _ d1) (d_mu _ d1)) (d_x _ d)) /\
  (forall v, In v (d_g _ d) -> v <= 0) /\ (forall v, In v (d_h _ d) -> v = 0) /\ dotR (d_mu _ d) (d_g _ d) = 0 /\
  (forall x, lookup "phi" (o_dofs E120 o) = Some (Arr [length x] x) -> ~ reads [] "f_max_K2" shown x (scal 0)).
Proof.
  destruct C156_example as (b & o & p & d & d1 & Hq & Hr & Eq & As & Hp & Hu & Cv & Dir & Hml & Hlev & Mu & Hx & Gv & Hv).
  destruct call_hypotheses as (H1 & H2 & H3 & H4).
  exists b, o, p, d, d1. do 10 (split; [assumption|]). split; [exact Gv|]. split; [exact Hv|]. split.
  - apply dot_zeros. exact Mu.
  - intros x Lx Rx. destruct (shown_areas) as ((da0 & D1 & D2) & _).
    destruct (C108_current_units_partial [] shown da0 (shown_sound (repeat 0 4) eq_refl) D1 D2 ltac:(left; cbn; lra) "f_max_K2" ltac:(cbn; tauto)) as (m & A & Pm).
    apply automatic_reads in A as (Q & G & V). destruct Rx as (Q' & G' & V'). rewrite G in G'. injection G' as <-.
    assert (X : Arr [length x] x = Arr [length [0; 0; 0; 0]] [0; 0; 0; 0]) by congruence. injection X as _ ->.
    change (value_of Q shown [0; 0; 0; 0] = Ok (scal m)) in V. rewrite V in V'. injection V' as ->. lra.
Qed.
