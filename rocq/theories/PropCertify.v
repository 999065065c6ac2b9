(** Property C147: for convex calls the reported multipliers certify the design. *)
From Coq Require Import String List Bool Arith ZArith Reals Lra Lia.
From Verif Require Import Base ModelArray ProofArray ModelMath SpecMath ModelSurface SpecSurface ModelParams SpecField
  ModelQuantity ModelWrapper SpecWrapper ModelPackage SpecPackage
  SpecConvex ModelSolver SpecSolver ProofSolver ModelQuadcoil SpecQuadcoil ProofQuadcoil
  SpecProblem ProofEnd SpecEnd ProofEnd4 ProofEnd5 SpecCert ProofCert ProofPackage ProofPackage2 ProofPackage3 ProofPackage4 PropConvex
  WitnessField WitnessSolver WitnessQuadcoil PropPackage WitnessEnd PropEnd SpecBest SpecCertify ProofCertify ProofCertify3.
Import ListNotations.
Open Scope R_scope.
Open Scope string_scope.
Open Scope list_scope.

Lemma dot_below (m : list R) : forall g, List.Forall (fun a => 0 <= a) m -> List.Forall (fun v => v <= 0) g -> dotR m g <= 0.
Proof.
  unfold dotR, sumR. induction m as [|a m IH]; intros [|v g] Hm Hg; cbn; try lra. inversion Hm; inversion Hg; subst.
  pose proof (IH g ltac:(assumption) ltac:(assumption)). nra.
Qed.
Lemma dot_none (m : list R) : forall h, List.Forall (fun v => v = 0) h -> dotR m h = 0.
Proof.
  unfold dotR, sumR. induction m as [|a m IH]; intros [|v h] Hh; cbn; try lra. inversion Hh; subst. rewrite (IH h) by assumption. lra.
Qed.

Lemma pass_length fin (op : optimiser (R_num fin)) ag : counted op -> shaped op -> forall P fuel fs xs gt d d',
  body (R_num fin) op ag P fuel fs xs gt d = Some d' -> length (d_x _ d' : list R) = length (d_x _ d : list R).
Proof.
  intros Hcnt Hsh P fuel fs xs gt d d' Hb. destruct (body_inv _ _ _ Hcnt P _ _ _ _ _ _ Hb) as (r & Hr & _ & _ & Ex & _).
  rewrite Ex. unfold vmuls. rewrite map_length. etransitivity; [exact (run_length _ _ _ Hcnt Hsh _ _ _ _ _ _ _ _ Hr)|]. unfold vdivs. apply map_length.
Qed.
(** The solver returns as many unknowns as it was given. *)
Lemma returned_length other (E : library) (a : args (x_solver E)) o p d :
  counted (x_opt E) -> shaped (x_opt E) -> quadcoil (package other) E a = Some (Ok o) -> o_results E o = Constrained E d ->
  prepare (package other) a = Ok p -> length (d_x _ d : list R) = length (pr_x0 p).
Proof.
  intros Hcnt Hsh Hq Hr Hp. destruct (quadcoil_ok _ E a o Hq) as (p' & r' & dofs & Hp' & Hso & _ & _ & _ & _ & E3).
  assert (p' = p) by congruence. subst p'. rewrite Hr in E3. subst r'. clear Hq Hp' Hr.
  unfold solve in Hso. destruct (unconstrained (pr_fn p)).
  { destruct (run_opt _ _ _ _ _ _ _ _ _ _); discriminate. }
  destruct (solve_constrained _ _ _ _ _ _ _ _ _ _) as [d'|] eqn:Hsol; [|discriminate]. injection Hso as ->.
  destruct (solve_inv _ _ _ Hcnt _ _ _ _ _ _ _ _ Hsol) as (d1 & Hml & Hlast & _).
  pose proof (proj1 (main_inv _ _ _ Hcnt _ _ _ _ _ _ _ _ Hml)) as Hps.
  etransitivity; [exact (pass_length _ _ _ Hcnt Hsh _ _ _ _ _ _ _ Hlast)|]. clear Hlast Hsol Hml. induction Hps as [|d2 d3 fuel fs xs gt Hq IH Hb]; [reflexivity|].
  etransitivity; [exact (pass_length _ _ _ Hcnt Hsh _ _ _ _ _ _ _ Hb)|exact IH].
Qed.

(** ** C147 *)
(** The call asks for a convex problem ([os], [cs]), in slack mode, on a legal
    configuration.  [d] is what the solver returned, [d1] its state when the
    last pass began.  From the returned unknowns no straight way descends the
    last augmented Lagrangian faster than [eta] per unit length (what a small
    final gradient says).  Then every design [y] that meets the user's
    constraints is represented by unknowns [z], and its objective [r] cannot be
    less than the reported objective plus the products of the reported
    multipliers with the reported constraint values, up to [eta] times the
    distance of the unknowns.  If nothing is reported violated, the multipliers
    of the slack constraints vanish and [eta] is 0, the returned design is the
    best one and the reported objective is its objective. *)
Theorem C147_multipliers_certify_the_design :
  forall other (E : library) (a : args (x_solver E)) U os cs o p d d1 eta,
  counted (x_opt E) -> shaped (x_opt E) ->
  asks a os cs -> qc_smoothing a = Some "slack" -> qc_merge a = false -> 0 < qc_c_init a -> 0 < qc_c_growth a ->
  quadcoil (package other) E a = Some (Ok o) -> o_results E o = Constrained E d ->
  let q := o_qp E o in
  ordered q -> (exists x, sound q x) -> (forall x, qc_phi_init a = Some x -> length x = q_ndofs q) ->
  (forall t, In t os -> 0 <= ob_weight t /\ scaled_use U q (ob_name t) (ob_unit t)) ->
  (forall c, In c cs -> scaled_use U q (uc_name c) (uc_unit c)) ->
  convex_call other q os cs ->
  prepare (package other) a = Ok p -> pr_unit p <> 0 ->
  let P := solver_problem E a p in
  main_loop _ (x_opt E) (x_autograd E) P (x_fuel_out E) (x_fuel_in E)
    (init_dict _ P (pr_x0 p) (qc_c_init a) (pr_lam0 p) (pr_mu0 p)) = Some d1 ->
  level (length (pr_x0 p)) eta (augmented (p_f _ P) (p_g _ P) (p_h _ P) (d_c _ d1) (d_lam _ d1) (d_mu _ d1)) (d_x _ d) ->
  List.Forall (fun m => 0 <= m) (d_mu _ d) /\
  exists x, lookup "phi" (o_dofs E o) = Some (Arr [length x] x) /\ length x = q_ndofs q /\
    (forall y r, length y = q_ndofs q -> SpecConvex.feasible other q (asked_bounds cs) y -> weighted other q (asked_terms os) y r ->
       exists z dz, length z = length (pr_x0 p) /\ unscale (pr_structure p) (pr_unit p) z = Ok dz /\ lookup "phi" dz = Some (Arr [length y] y) /\
         d_f _ d + dotR (d_lam _ d) (d_h _ d) + dotR (d_mu _ d) (d_g _ d) <= r + eta * normR (map2 Rminus z (d_x _ d))) /\
    ((forall v, In v (d_g _ d) -> v <= 0) -> (forall v, In v (d_h _ d) -> v = 0) -> dotR (d_mu _ d) (d_g _ d) = 0 -> eta = 0 ->
       best other q (asked_terms os) (asked_bounds cs) x (d_f _ d)).
Proof.
  intros other E a U os cs o p d d1 eta Hcnt Hsh As Hs Hm Hc Hg Hq Hr q O Sx Hphi Uo Uc Cv Hp Hu P Hml Hlev.
  destruct (quadcoil_ok _ E a o Hq) as (p' & r' & dofs & Hp' & Hso & _ & Hd & E1 & E2 & E3).
  assert (p' = p) by congruence. subst p'. rewrite Hr in E3. subst r'. subst q. rewrite E1 in *. rewrite E2. clear E1 E2 Hr Hq Hp'.
  destruct (problem_facts other E a p U os cs Hp As Hs Hm O Sx Uo Uc Hu Hphi) as (ng & nh & FZ & _ & Lm & Ll & _).
  unfold solve in Hso. destruct (unconstrained (pr_fn p)).
  { destruct (run_opt _ _ _ _ _ _ _ _ _ _); discriminate. }
  destruct (solve_constrained _ _ _ _ _ _ _ _ _ _) as [d'|] eqn:Hsol; [|discriminate]. injection Hso as ->. cbn [optimum] in Hd.
  fold P in Hsol. set (n := length (pr_x0 p)) in *.
  assert (Sz : sized P n (length (pr_mu0 p)) (length (pr_lam0 p))).
  { intros z Lz. destruct (FZ z Lz) as (L1 & L2 & _). rewrite Lm, Ll. split; assumption. }
  destruct (prepare_multipliers _ a p Hp) as (g0 & h0 & _ & _ & Em & _).
  assert (Pm : List.Forall (fun m => 0 <= m) (pr_mu0 p)).
  { rewrite Em. apply List.Forall_forall. intros m I. apply in_map_iff in I as (? & <- & _). lra. }
  destruct (solve_inv _ _ _ Hcnt P _ _ _ _ _ _ _ Hsol) as (d1' & Hml' & Hlast & _).
  assert (d1' = d1) by (cbn [T R_num] in *; congruence). subst d1'.
  pose proof (proj1 (main_inv _ _ _ Hcnt P _ _ _ _ _ _ _ Hml)) as Hps.
  assert (S0 : sound_state (x_fin E) n (length (pr_mu0 p)) (length (pr_lam0 p)) (init_dict (R_num (x_fin E)) P (pr_x0 p) (qc_c_init a) (pr_lam0 p) (pr_mu0 p))).
  { repeat split; try assumption; simpl; try reflexivity; try lra. }
  assert (Hmask : p_mask _ P = gplus_hard (R_num (x_fin E))) by reflexivity.
  assert (Hgr : 0 < p_growth _ P) by exact Hg.
  pose proof (passes_sound _ _ _ Hcnt P Hmask n _ _ Sz Hsh Hgr _ _ Hps S0) as S1.
  pose proof (pass_sound _ _ _ Hcnt P Hmask n _ _ Sz Hsh Hgr _ _ _ _ _ _ S1 Hlast) as S2.
  pose proof S1 as (_ & Ll1 & Lm1 & Hc1 & _ & _). pose proof S2 as (Lxd & _ & _ & _ & _ & Pmu). split; [exact Pmu|].
  destruct (FZ (d_x _ d)) as (_ & _ & _ & dd & x & (Ed & Lx & Lp) & Hto); [exact Lxd|].
  assert (dd = dofs) by congruence. subst dd. exists x. split; [exact Lp|]. split; [exact Lx|].
  destruct (body_inv _ _ _ Hcnt P _ _ _ _ _ _ Hlast) as (r0 & _ & _ & _ & _ & Ef & Eg & Eh & _).
  destruct (pass_facts _ _ _ Hcnt P Hmask n _ _ Sz Hsh _ _ _ _ _ _ S1 Hlast) as (r1 & _ & _ & _ & El & Emu & _).
  assert (Cert : forall y r, length y = q_ndofs (fn_qp (pr_fn p)) -> SpecConvex.feasible other (fn_qp (pr_fn p)) (asked_bounds cs) y -> weighted other (fn_qp (pr_fn p)) (asked_terms os) y r ->
       exists z dz, length z = n /\ unscale (pr_structure p) (pr_unit p) z = Ok dz /\ lookup "phi" dz = Some (Arr [length y] y) /\
         d_f _ d + dotR (d_lam _ d) (d_h _ d) + dotR (d_mu _ d) (d_g _ d) <= r + eta * normR (map2 Rminus z (d_x _ d))).
  { intros y r Ly Fy Wy. destruct (representative other E a p U os cs Hp As Hs Hm O Sx Uo Uc Hu Hphi y r Ly Fy Wy) as (z & dz & Lz & (Ez & _ & Pz) & (Ag & Ah) & Pf).
    exists z, dz. split; [exact Lz|]. split; [exact Ez|]. split; [exact Pz|].
    destruct (Sz _ Lxd) as (G1 & H1). destruct (Sz _ Lz) as (G2 & H2).
    assert (K : p_f _ P (d_x _ d) + dotR (d_lam _ d) (p_h _ P (d_x _ d)) + dotR (d_mu _ d) (p_g _ P (d_x _ d)) <=
      p_f _ P z + dotR (d_lam _ d) (p_h _ P z) + dotR (d_mu _ d) (p_g _ P z) + eta * normR (map2 Rminus z (d_x _ d))).
    { rewrite El, Emu. apply (certificate_at (p_f _ P) (p_g _ P) (p_h _ P) (d_c _ d1) (d_lam _ d1) (d_mu _ d1) (d_x _ d) z (eta * normR (map2 Rminus z (d_x _ d)))).
      - exact Hc1.
      - etransitivity; [exact H1|symmetry; exact Ll1].
      - etransitivity; [exact H2|symmetry; exact Ll1].
      - etransitivity; [exact G1|symmetry; exact Lm1].
      - etransitivity; [exact G2|symmetry; exact Lm1].
      - intros t Ht. rewrite !between_comb.
        destruct (convex_problem other E a p U os cs Hp As Hs Hm O Sx Uo Uc Hu Hphi Cv z (d_x _ d) t Lz Lxd Ht) as (C1 & C2 & C3). fold P in C1, C2, C3.
        split; [lra|]. split; [exact C2|exact C3].
      - intros eps He. exact (Hlev z Lz eps He). }
    rewrite Ef, Eg, Eh. pose proof (dot_below _ _ Pmu Ag) as D1. pose proof (dot_none (d_lam _ d) _ Ah) as D2. fold P in D1, D2. rewrite <- Pf. fold P. cbn [T R_num] in *. lra. }
  split; [exact Cert|]. intros Gv Hv Comp He.
  assert (Hd0 : dotR (d_lam _ d) (d_h _ d) = 0) by (apply dot_none, List.Forall_forall; exact Hv).
  destruct Hto as (Fx & r & Wr & Hle). { split; apply List.Forall_forall; intros v I; [apply Gv; rewrite Eg|apply Hv; rewrite Eh]; exact I. }
  assert (Low : forall y r, length y = q_ndofs (fn_qp (pr_fn p)) -> SpecConvex.feasible other (fn_qp (pr_fn p)) (asked_bounds cs) y -> weighted other (fn_qp (pr_fn p)) (asked_terms os) y r -> d_f _ d <= r).
  { intros y r' Ly Fy Wy. destruct (Cert y r' Ly Fy Wy) as (z & dz & _ & _ & _ & K). rewrite Hd0, Comp, He in K. cbn [T R_num] in *. lra. }
  assert (r = d_f _ d). { pose proof (Low x r Lx Fx Wr). apply Rle_antisym; [rewrite Ef; exact Hle|assumption]. }
  subst r. split; [exact Lx|]. split; [exact Fx|]. split; [exact Wr|]. intros y fx fy Ly _ Fy Wx Wy.
  assert (fx = d_f _ d).
  { clear - Wr Wx. destruct Wr as (v1 & F1 & ->). destruct Wx as (v2 & F2 & ->). f_equal. f_equal. revert v1 F1. induction F2 as [|t m l v2 H F2 IH]; intros v1 F1; inversion F1 as [|? ? ? ? H' F']; subst; [reflexivity|].
    f_equal; [|now apply IH]. pose proof (ProofConvex.reads_fun _ _ _ _ _ _ H H') as X. now injection X. }
  subst fx. now apply (Low y).
Qed.
Print Assumptions C147_multipliers_certify_the_design.

(** A non-trivial case: the call with a convex objective and a bound on the
    largest potential; the optimiser ends in the minimum, so that no way
    descends, [eta] is 0, and the returned design is the best one. *)
Example C147_example : exists o p d d1, quadcoil (package []) E120 call120 = Some (Ok o) /\ o_results E120 o = Constrained E120 d /\ o_qp E120 o = shown /\
  prepare (package []) call120 = Ok p /\ pr_unit p <> 0 /\ convex_call [] shown terms120 bounds120 /\
  main_loop _ (x_opt E120) (x_autograd E120) (solver_problem E120 call120 p) (x_fuel_out E120) (x_fuel_in E120)
    (init_dict _ (solver_problem E120 call120 p) (pr_x0 p) (qc_c_init call120) (pr_lam0 p) (pr_mu0 p)) = Some d1 /\
  (let P := solver_problem E120 call120 p in
   level (length (pr_x0 p)) 0 (augmented (p_f _ P) (p_g _ P) (p_h _ P) (d_c _ d1) (d_lam _ d1) (d_mu _ d1)) (d_x _ d)).
Proof.
  destruct C120_example as ((o & p & d & d1 & Hq & Hr & Eq & Hp & Hu & Hml & Hmin) & _).
  exists o, p, d, d1. do 5 (split; [assumption|]). split; [|split; [exact Hml|]].
  - destruct call_hypotheses as (_ & _ & H3 & x & S).
    split; [|split; [|split]].
    + intros name w [[= <- <-]|[]]. split; [rewrite Rabs_pos_eq by lra; lra|]. apply (C111_convex_quantities [] shown x S H3). cbn. tauto.
    + intros name c b [[= <- <- <-]|[]]. apply (C111_convex_quantities [] shown x S H3). cbn. tauto.
    + intros t [<-|[]]. cbn. tauto.
    + intros c [<-|[]]. cbn. tauto.
  - cbv zeta in Hmin |- *. intros z Lz eps He. exists 1. split; [lra|]. intros t Ht.
    assert (Lb : length (between (d_x _ d) z t) = length (pr_x0 p)).
    { assert (Lx : length (d_x _ d : list R) = length (pr_x0 p)); [|unfold between; rewrite map2_len; [exact Lx|etransitivity; [exact Lx|symmetry; exact Lz]]].
      apply (returned_length [] E120 call120 o p d); auto using stay_counted, stay_shaped. }
    pose proof (Hmin _ Lb). pose proof (Rmult_lt_0_compat t eps ltac:(lra) He). lra.
Qed.
