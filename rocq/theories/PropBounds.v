(** Property C153: the multipliers of a call are the prices of its bounds. *)
From Coq Require Import String List Bool Arith ZArith Reals Lra Lia.
From Verif Require Import Base ModelArray ProofArray ModelMath SpecMath ModelSurface SpecSurface ModelParams SpecField
  ModelQuantity ModelWrapper SpecWrapper ModelPackage SpecPackage
  SpecConvex ModelSolver SpecSolver ProofSolver ModelQuadcoil SpecQuadcoil ProofQuadcoil
  SpecProblem ProofEnd SpecEnd ProofEnd4 ProofEnd5 SpecCert ProofCert ProofPackage ProofPackage2 ProofPackage3 ProofPackage4 PropConvex
  WitnessField WitnessSolver WitnessQuadcoil PropPackage WitnessEnd PropEnd SpecBest SpecCertify ProofCertify ProofCertify3 PropCertify SpecBounds ProofBounds.
Import ListNotations.
Open Scope R_scope.
Open Scope string_scope.
Open Scope list_scope.

(** ** C153 *)
(** A convex call in slack mode, as in C147.  The reported multipliers of the
    inequalities are those of the slack variables of the objective ([mo], none
    if it has no slack variable) followed by those of the constraints ([mc]),
    and [ps] are the prices of the constraints read off from them.  Whatever
    bounds [bs] replace those of the call, no design [y] that meets them has an
    objective [r] below the reported one (plus the products of multipliers and
    reported constraint values) by more than the loosening is worth at these
    prices, up to [eta] times the distance of the unknowns.  If nothing is
    reported violated, the products vanish and [eta] is 0, then the best
    objective under the new bounds is at least the reported objective less that
    worth; and constraints with price 0 can be changed without any gain. *)
Theorem C153_prices_of_the_bounds :
  forall other (E : library) (a : args (x_solver E)) U os cs o p d d1 eta,
  counted (x_opt E) -> shaped (x_opt E) ->
  asks a os cs -> qc_smoothing a = Some "slack" -> qc_merge a = false -> 0 < qc_c_init a -> 0 < qc_c_growth a ->
  quadcoil (package other) E a = Some (Ok o) -> o_results E o = Constrained E d ->
  let q := o_qp E o in
  ordered q -> (exists x, sound q x) -> (forall x, qc_phi_init a = Some x -> length x = q_ndofs q) ->
  (forall t, In t os -> 0 <= ob_weight t /\ scaled_use U q (ob_name t) (ob_unit t)) ->
  (forall c, In c cs -> scaled_use U q (uc_name c) (uc_unit c)) ->
  convex_call other q os cs ->
  prepare (package other) a = Ok p -> pr_unit p <> 0 ->
  let P := solver_problem E a p in
  main_loop _ (x_opt E) (x_autograd E) P (x_fuel_out E) (x_fuel_in E)
    (init_dict _ P (pr_x0 p) (qc_c_init a) (pr_lam0 p) (pr_mu0 p)) = Some d1 ->
  level (length (pr_x0 p)) eta (augmented (p_f _ P) (p_g _ P) (p_h _ P) (d_c _ d1) (d_lam _ d1) (d_mu _ d1)) (d_x _ d) ->
  exists x mo mc ps, lookup "phi" (o_dofs E o) = Some (Arr [length x] x) /\ length x = q_ndofs q /\
    d_mu _ d = mo ++ mc /\ ((forall t, In t os -> In (ob_name t) direct_quantities) -> mo = []) /\
    shares other q x cs mc (d_lam _ d) ps /\ Forall2 (fun c r => uc_cmp c <> EQ -> 0 <= r) cs ps /\
    (forall bs y r, length bs = length cs -> length y = q_ndofs q ->
       SpecConvex.feasible other q (asked_bounds (rebound cs bs)) y -> weighted other q (asked_terms os) y r ->
       exists z dz, length z = length (pr_x0 p) /\ unscale (pr_structure p) (pr_unit p) z = Ok dz /\ lookup "phi" dz = Some (Arr [length y] y) /\
         d_f _ d + dotR (d_lam _ d) (d_h _ d) + dotR (d_mu _ d) (d_g _ d) - worth ps cs bs <= r + eta * normR (map2 Rminus z (d_x _ d))) /\
    ((forall v, In v (d_h _ d) -> v = 0) -> dotR (d_mu _ d) (d_g _ d) = 0 -> eta = 0 -> forall bs y r, length bs = length cs ->
       best other q (asked_terms os) (asked_bounds (rebound cs bs)) y r ->
       d_f _ d - worth ps cs bs <= r /\ (Forall2 (fun w c => w = 0 \/ c = 0) ps (map2 relief cs bs) -> d_f _ d <= r)).
Proof.
  intros other E a U os cs o p d d1 eta Hcnt Hsh As Hs Hm Hc Hg Hq Hr q O Sx Hphi Uo Uc Cv Hp Hu P Hml Hlev.
  destruct (quadcoil_ok _ E a o Hq) as (p' & r' & dofs & Hp' & Hso & _ & Hd & E1 & E2 & E3).
  assert (p' = p) by congruence. subst p'. rewrite Hr in E3. subst r'. subst q. rewrite E1 in *. rewrite E2. clear E1 E2 Hr Hq Hp'.
  destruct (problem_facts other E a p U os cs Hp As Hs Hm O Sx Uo Uc Hu Hphi) as (ng & nh & FZ & _ & Lm & Ll & _).
  unfold solve in Hso. destruct (unconstrained (pr_fn p)).
  { destruct (run_opt _ _ _ _ _ _ _ _ _ _); discriminate. }
  destruct (solve_constrained _ _ _ _ _ _ _ _ _ _) as [d'|] eqn:Hsol; [|discriminate]. injection Hso as ->. cbn [optimum] in Hd.
  fold P in Hsol. set (n := length (pr_x0 p)) in *.
  assert (Sz : sized P n (length (pr_mu0 p)) (length (pr_lam0 p))).
  { intros z Lz. destruct (FZ z Lz) as (L1 & L2 & _). rewrite Lm, Ll. split; assumption. }
  destruct (prepare_multipliers _ a p Hp) as (g0 & h0 & _ & _ & Em & _).
  assert (Pm : List.Forall (fun m => 0 <= m) (pr_mu0 p)).
  { rewrite Em. apply List.Forall_forall. intros m I. apply in_map_iff in I as (? & <- & _). lra. }
  destruct (solve_inv _ _ _ Hcnt P _ _ _ _ _ _ _ Hsol) as (d1' & Hml' & Hlast & _).
  assert (d1' = d1) by (cbn [T R_num] in *; congruence). subst d1'.
  pose proof (proj1 (main_inv _ _ _ Hcnt P _ _ _ _ _ _ _ Hml)) as Hps.
  assert (S0 : sound_state (x_fin E) n (length (pr_mu0 p)) (length (pr_lam0 p)) (init_dict (R_num (x_fin E)) P (pr_x0 p) (qc_c_init a) (pr_lam0 p) (pr_mu0 p))).
  { repeat split; try assumption; simpl; try reflexivity; try lra. }
  assert (Hmask : p_mask _ P = gplus_hard (R_num (x_fin E))) by reflexivity.
  assert (Hgr : 0 < p_growth _ P) by exact Hg.
  pose proof (passes_sound _ _ _ Hcnt P Hmask n _ _ Sz Hsh Hgr _ _ Hps S0) as S1.
  pose proof (pass_sound _ _ _ Hcnt P Hmask n _ _ Sz Hsh Hgr _ _ _ _ _ _ S1 Hlast) as S2.
  pose proof S1 as (_ & Ll1 & Lm1 & Hc1 & _ & _). pose proof S2 as (Lxd & Lld & Lmd & _ & _ & Pmu).
  destruct (Sz _ Lxd) as (G1 & H1).
  assert (A1 : length (d_mu _ d : list R) = length (p_g _ P (d_x _ d) : list R)) by (etransitivity; [exact Lmd|symmetry; exact G1]).
  assert (A2 : length (d_lam _ d : list R) = length (p_h _ P (d_x _ d) : list R)) by (etransitivity; [exact Lld|symmetry; exact H1]).
  destruct (price_facts other E a p U os cs Hp As Hs Hm O Sx Uo Uc Hu Hphi (d_x _ d) (d_mu _ d) (d_lam _ d) Lxd A1 A2 Pmu) as (dx & x & mo & mc & ps & (Ed & Lx & Lp) & Emu0 & Dir & Sh & Pp & W).
  assert (dx = dofs) by congruence. subst dx. exists x, mo, mc, ps. split; [exact Lp|]. split; [exact Lx|]. split; [exact Emu0|]. split; [exact Dir|]. split; [exact Sh|]. split; [exact Pp|].
  destruct (body_inv _ _ _ Hcnt P _ _ _ _ _ _ Hlast) as (r0 & _ & _ & _ & _ & Ef & Eg & Eh & _).
  destruct (pass_facts _ _ _ Hcnt P Hmask n _ _ Sz Hsh _ _ _ _ _ _ S1 Hlast) as (r1 & _ & _ & _ & El & Emu & _).
  assert (Cert : forall bs y r, length bs = length cs -> length y = q_ndofs (fn_qp (pr_fn p)) ->
       SpecConvex.feasible other (fn_qp (pr_fn p)) (asked_bounds (rebound cs bs)) y -> weighted other (fn_qp (pr_fn p)) (asked_terms os) y r ->
       exists z dz, length z = n /\ unscale (pr_structure p) (pr_unit p) z = Ok dz /\ lookup "phi" dz = Some (Arr [length y] y) /\
         d_f _ d + dotR (d_lam _ d) (d_h _ d) + dotR (d_mu _ d) (d_g _ d) - worth ps cs bs <= r + eta * normR (map2 Rminus z (d_x _ d))).
  { intros bs y r Lb Ly Fy Wy. destruct (W bs y r Lb Ly Fy Wy) as (z & dz & Lz & (Ez & _ & Pz) & Pf & Bd).
    exists z, dz. split; [exact Lz|]. split; [exact Ez|]. split; [exact Pz|]. destruct (Sz _ Lz) as (G2 & H2).
    assert (K : p_f _ P (d_x _ d) + dotR (d_lam _ d) (p_h _ P (d_x _ d)) + dotR (d_mu _ d) (p_g _ P (d_x _ d)) <=
      p_f _ P z + dotR (d_lam _ d) (p_h _ P z) + dotR (d_mu _ d) (p_g _ P z) + eta * normR (map2 Rminus z (d_x _ d))).
    { rewrite El, Emu. apply (certificate_at (p_f _ P) (p_g _ P) (p_h _ P) (d_c _ d1) (d_lam _ d1) (d_mu _ d1) (d_x _ d) z (eta * normR (map2 Rminus z (d_x _ d)))).
      - exact Hc1.
      - etransitivity; [exact H1|symmetry; exact Ll1].
      - etransitivity; [exact H2|symmetry; exact Ll1].
      - etransitivity; [exact G1|symmetry; exact Lm1].
      - etransitivity; [exact G2|symmetry; exact Lm1].
      - intros t Ht. rewrite !between_comb.
        destruct (convex_problem other E a p U os cs Hp As Hs Hm O Sx Uo Uc Hu Hphi Cv z (d_x _ d) t Lz Lxd Ht) as (C1 & C2 & C3). fold P in C1, C2, C3.
        split; [lra|]. split; [exact C2|exact C3].
      - intros eps He. exact (Hlev z Lz eps He). }
    rewrite Ef, Eg, Eh. fold P in Pf, Bd. rewrite Pf in K. cbn [T R_num] in *. lra. }
  split; [exact Cert|]. intros Hv Comp He bs y r Lb (Ly & Fy & Wy & _).
  assert (Hd0 : dotR (d_lam _ d) (d_h _ d) = 0) by (apply dot_none, List.Forall_forall; exact Hv).
  assert (Low : d_f _ d - worth ps cs bs <= r).
  { destruct (Cert bs y r Lb Ly Fy Wy) as (z & dz & _ & _ & _ & K). rewrite Hd0, Comp, He in K. cbn [T R_num] in *. lra. }
  split; [exact Low|]. intros Z.
  assert (Ew : worth ps cs bs = 0).
  { unfold worth, Rsum. clear - Z. induction Z as [|w c l1 l2 H Z IH]; [reflexivity|]. cbn [map2 fold_right]. rewrite IH. destruct H as [-> | ->]; ring. }
  rewrite Ew in Low. cbn [T R_num] in *. lra.
Qed.
Print Assumptions C153_prices_of_the_bounds.

(** A non-trivial case: the call of C147 with its one bound, max |Phi| <= 5 in
    units of 3; the last multiplier is its price, for every other bound [b]. *)
Example C153_example : exists o d s m, quadcoil (package []) E120 call120 = Some (Ok o) /\ o_results E120 o = Constrained E120 d /\ o_qp E120 o = shown /\
  d_mu _ d = s ++ [m] /\ 0 <= m /\
  forall b y r, length y = 4%nat -> SpecConvex.feasible [] shown [("f_max_Phi", LE, b)] y -> weighted [] shown (asked_terms terms120) y r ->
    d_f _ d + dotR (d_lam _ d) (d_h _ d) + dotR (d_mu _ d) (d_g _ d) - m * ((b - 5) / Rabs 3) <= r.
Proof.
  destruct C147_example as (o & p & d & d1 & Hq & Hr & Eq & Hp & Hu & Cv & Hml & Hlev). destruct call_hypotheses as (H1 & H2 & H3 & H4).
  destruct (C153_prices_of_the_bounds [] E120 call120 U120 terms120 bounds120 o p d d1 0 H1 H2 call_asks eq_refl eq_refl ltac:(cbn; lra) ltac:(cbn; lra) Hq Hr
    ltac:(rewrite Eq; exact H3) ltac:(rewrite Eq; exact H4) ltac:(discriminate)
    ltac:(intros t I; rewrite Eq; destruct (call_terms t I) as (? & ? & _); auto) ltac:(intros c I; rewrite Eq; apply (call_bounds c I)) ltac:(rewrite Eq; exact Cv) Hp Hu Hml Hlev)
    as (x & mo & mc & ps & _ & Lx & Em & _ & Sh & Pp & W & _).
  rewrite Eq in *. exists o, d.
  inversion Sh as [|c cs s own mu lam ps' v Ne _ Rv Lo Sh' E1 E2 E3 E4|c cs own mu lam ps' v Ne]; subst; [|discriminate].
  inversion Sh'; subst. assert (exists m, own = [m]) as (m & ->).
  { destruct H4 as (x1 & S1). assert (exists M, v = scal M) as (M & ->).
    { assert (In_ : In "f_max_Phi" slack_quantities) by (cbn; tauto). pose proof (sound_all shown x1 S1 x Lx) as S2.
      destruct (ProofProblem2.slack_use [] shown x S2 H3 "f_max_Phi" In_) as (Q & v0 & Ep & Ev & (G & I & M & -> & _)). exists M.
      apply (ProofConvex.reads_fun [] "f_max_Phi" shown x v (scal M)); [exact Rv|]. exists Q. split; [unfold get_quantity; now rewrite Ep|exact Ev]. }
    destruct own as [|m [|? ?]]; [discriminate Lo|exists m; reflexivity|discriminate Lo]. }
  exists (mo ++ s), m. split; [exact Hq|]. split; [exact Hr|]. split; [exact Eq|]. split; [rewrite Em, app_nil_r, app_assoc; reflexivity|].
  inversion Pp as [|? ? ? ? P0 _]; subst. split.
  - pose proof (P0 Ne) as K. unfold Rsum in K. cbn in K. lra.
  - intros b y r Ly Fy Wy. destruct (W [b] y r eq_refl Ly Fy Wy) as (z & dz & _ & _ & _ & K).
    unfold worth, Rsum, relief in K. cbn [map2 fold_right bounds120 uc_cmp uc_val uc_unit] in K. cbn [T R_num] in *. lra.
Qed.
