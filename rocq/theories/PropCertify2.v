(** Property C156: the certificate of C147 for calls that bound the largest
    current density. *)
From Coq Require Import String List Bool Arith ZArith Reals Lra Lia.
From Verif Require Import Base ModelArray ProofArray ModelMath SpecMath ModelSurface SpecSurface ModelParams SpecField
  ModelQuantity ModelWrapper SpecWrapper ModelPackage SpecPackage
  SpecConvex ModelSolver SpecSolver ProofSolver ModelQuadcoil SpecQuadcoil ProofQuadcoil
  SpecProblem ProofEnd SpecEnd ProofEnd4 ProofEnd5 SpecCert ProofCert ProofPackage ProofPackage2 ProofPackage3 ProofPackage4 PropConvex
  WitnessField WitnessSolver WitnessQuadcoil PropPackage WitnessEnd PropEnd SpecBest SpecCertify ProofCertify ProofCertify3 ProofCertify4 ProofCertify5 ProofConvex PropCertify WitnessDensity.
Import ListNotations.
Open Scope R_scope.
Open Scope string_scope.
Open Scope list_scope.

Lemma nth_comb t a : forall b i, length a = length b -> (i < length a)%nat -> nth i (lincomb t (1 - t) a b) 0 = t * nth i a 0 + (1 - t) * nth i b 0.
Proof.
  induction a as [|u a IH]; intros [|v b] [|i] L H; try discriminate; cbn in H; try lia; [reflexivity|]. cbn. apply IH; [now injection L|lia].
Qed.
Lemma F2_nth (rel : R -> R -> Prop) a b : Forall2 rel a b -> forall i, (i < length a)%nat -> rel (nth i a 0) (nth i b 0).
Proof. intros F. induction F as [|u v a b H F IH]; intros [|i] Hi; cbn in Hi; try lia; cbn; [exact H|apply IH; lia]. Qed.

(** ** C156 *)
(** As in C147, but the problem may use f_max_K2.  Its slack form comes with rows
    that bound -K2, which are not convex; where such a row carries no
    multiplier, the certificate is the one of C147. *)
Theorem C156_multipliers_certify_bounded_currents :
  forall other (E : library) (a : args (x_solver E)) U os cs o p d d1 eta,
  counted (x_opt E) -> shaped (x_opt E) ->
  asks a os cs -> qc_smoothing a = Some "slack" -> qc_merge a = false -> 0 < qc_c_init a -> 0 < qc_c_growth a ->
  quadcoil (package other) E a = Some (Ok o) -> o_results E o = Constrained E d ->
  let q := o_qp E o in
  ordered q -> (exists x, sound q x) -> (forall x, qc_phi_init a = Some x -> length x = q_ndofs q) ->
  (forall t, In t os -> 0 <= ob_weight t /\ scaled_use U q (ob_name t) (ob_unit t)) ->
  (forall c, In c cs -> scaled_use U q (uc_name c) (uc_unit c)) ->
  nearly_convex_call other q os cs ->
  prepare (package other) a = Ok p -> pr_unit p <> 0 ->
  let P := solver_problem E a p in
  main_loop _ (x_opt E) (x_autograd E) P (x_fuel_out E) (x_fuel_in E)
    (init_dict _ P (pr_x0 p) (qc_c_init a) (pr_lam0 p) (pr_mu0 p)) = Some d1 ->
  level (length (pr_x0 p)) eta (augmented (p_f _ P) (p_g _ P) (p_h _ P) (d_c _ d1) (d_lam _ d1) (d_mu _ d1)) (d_x _ d) ->
  (forall i, nth i (d_mu _ d : list R) 0 <> 0 -> convex_row (length (pr_x0 p)) (p_g _ P) i) ->
  List.Forall (fun m => 0 <= m) (d_mu _ d) /\
  exists x, lookup "phi" (o_dofs E o) = Some (Arr [length x] x) /\ length x = q_ndofs q /\
    (forall y r, length y = q_ndofs q -> SpecConvex.feasible other q (asked_bounds cs) y -> weighted other q (asked_terms os) y r ->
       exists z dz, length z = length (pr_x0 p) /\ unscale (pr_structure p) (pr_unit p) z = Ok dz /\ lookup "phi" dz = Some (Arr [length y] y) /\
         d_f _ d + dotR (d_lam _ d) (d_h _ d) + dotR (d_mu _ d) (d_g _ d) <= r + eta * normR (map2 Rminus z (d_x _ d))) /\
    ((forall v, In v (d_g _ d) -> v <= 0) -> (forall v, In v (d_h _ d) -> v = 0) -> dotR (d_mu _ d) (d_g _ d) = 0 -> eta = 0 ->
       best other q (asked_terms os) (asked_bounds cs) x (d_f _ d)).
Proof.
  intros other E a U os cs o p d d1 eta Hcnt Hsh As Hs Hm Hc Hg Hq Hr q O Sx Hphi Uo Uc Cv Hp Hu P Hml Hlev Rows.
  destruct (quadcoil_ok _ E a o Hq) as (p' & r' & dofs & Hp' & Hso & _ & Hd & E1 & E2 & E3).
  assert (p' = p) by congruence. subst p'. rewrite Hr in E3. subst r'. subst q. rewrite E1 in *. rewrite E2. clear E1 E2 Hr Hq Hp'.
  destruct (problem_facts other E a p U os cs Hp As Hs Hm O Sx Uo Uc Hu Hphi) as (ng & nh & FZ & _ & Lm & Ll & _).
  unfold solve in Hso. destruct (unconstrained (pr_fn p)).
  { destruct (run_opt _ _ _ _ _ _ _ _ _ _); discriminate. }
  destruct (solve_constrained _ _ _ _ _ _ _ _ _ _) as [d'|] eqn:Hsol; [|discriminate]. injection Hso as ->. cbn [optimum] in Hd.
  fold P in Hsol. set (n := length (pr_x0 p)) in *.
  assert (Sz : sized P n (length (pr_mu0 p)) (length (pr_lam0 p))).
  { intros z Lz. destruct (FZ z Lz) as (L1 & L2 & _). rewrite Lm, Ll. split; assumption. }
  destruct (prepare_multipliers _ a p Hp) as (g0 & h0 & _ & _ & Em & _).
  assert (Pm : List.Forall (fun m => 0 <= m) (pr_mu0 p)).
  { rewrite Em. apply List.Forall_forall. intros m I. apply in_map_iff in I as (? & <- & _). lra. }
  destruct (solve_inv _ _ _ Hcnt P _ _ _ _ _ _ _ Hsol) as (d1' & Hml' & Hlast & _).
  assert (d1' = d1) by (cbn [T R_num] in *; congruence). subst d1'.
  pose proof (proj1 (main_inv _ _ _ Hcnt P _ _ _ _ _ _ _ Hml)) as Hps.
  assert (S0 : sound_state (x_fin E) n (length (pr_mu0 p)) (length (pr_lam0 p)) (init_dict (R_num (x_fin E)) P (pr_x0 p) (qc_c_init a) (pr_lam0 p) (pr_mu0 p))).
  { repeat split; try assumption; simpl; try reflexivity; try lra. }
  assert (Hmask : p_mask _ P = gplus_hard (R_num (x_fin E))) by reflexivity.
  assert (Hgr : 0 < p_growth _ P) by exact Hg.
  pose proof (passes_sound _ _ _ Hcnt P Hmask n _ _ Sz Hsh Hgr _ _ Hps S0) as S1.
  pose proof (pass_sound _ _ _ Hcnt P Hmask n _ _ Sz Hsh Hgr _ _ _ _ _ _ S1 Hlast) as S2.
  pose proof S1 as (_ & Ll1 & Lm1 & Hc1 & _ & _). pose proof S2 as (Lxd & _ & _ & _ & _ & Pmu). split; [exact Pmu|].
  destruct (FZ (d_x _ d)) as (_ & _ & _ & dd & x & (Ed & Lx & Lp) & Hto); [exact Lxd|].
  assert (dd = dofs) by congruence. subst dd. exists x. split; [exact Lp|]. split; [exact Lx|].
  destruct (body_inv _ _ _ Hcnt P _ _ _ _ _ _ Hlast) as (r0 & _ & _ & _ & _ & Ef & Eg & Eh & _).
  destruct (pass_facts _ _ _ Hcnt P Hmask n _ _ Sz Hsh _ _ _ _ _ _ S1 Hlast) as (r1 & _ & _ & _ & El & Emu & _).
  assert (Cert : forall y r, length y = q_ndofs (fn_qp (pr_fn p)) -> SpecConvex.feasible other (fn_qp (pr_fn p)) (asked_bounds cs) y -> weighted other (fn_qp (pr_fn p)) (asked_terms os) y r ->
       exists z dz, length z = n /\ unscale (pr_structure p) (pr_unit p) z = Ok dz /\ lookup "phi" dz = Some (Arr [length y] y) /\
         d_f _ d + dotR (d_lam _ d) (d_h _ d) + dotR (d_mu _ d) (d_g _ d) <= r + eta * normR (map2 Rminus z (d_x _ d))).
  { intros y r Ly Fy Wy. destruct (representative other E a p U os cs Hp As Hs Hm O Sx Uo Uc Hu Hphi y r Ly Fy Wy) as (z & dz & Lz & (Ez & _ & Pz) & (Ag & Ah) & Pf).
    exists z, dz. split; [exact Lz|]. split; [exact Ez|]. split; [exact Pz|].
    destruct (Sz _ Lxd) as (G1 & H1). destruct (Sz _ Lz) as (G2 & H2).
    assert (K : p_f _ P (d_x _ d) + dotR (d_lam _ d) (p_h _ P (d_x _ d)) + dotR (d_mu _ d) (p_g _ P (d_x _ d)) <=
      p_f _ P z + dotR (d_lam _ d) (p_h _ P z) + dotR (d_mu _ d) (p_g _ P z) + eta * normR (map2 Rminus z (d_x _ d))).
    { destruct (near_problem other E a p U os cs Hp As Hs Hm O Sx Uo Uc Hu Hphi Cv z (d_x _ d) Lz Lxd) as (bend & HE & _ & Near).
      assert (Nth : forall i t, (i < length (pr_mu0 p))%nat -> nth i (between (p_g _ P (d_x _ d)) (p_g _ P z) t : list R) 0 = t * nth i (p_g _ P z : list R) 0 + (1 - t) * nth i (p_g _ P (d_x _ d) : list R) 0).
      { intros i t Hi. rewrite between_comb. apply nth_comb; [transitivity (length (pr_mu0 p)); [|symmetry]; assumption|cbn [T R_num] in *; lia]. }
      pose proof Rows as Rows'. rewrite El, Emu. rewrite Emu in Rows'.
      apply (certificate_near (p_f _ P) (p_g _ P) (p_h _ P) (d_c _ d1) (d_lam _ d1) (d_mu _ d1) (d_x _ d) z (eta * normR (map2 Rminus z (d_x _ d))) bend).
      - exact Hc1.
      - exact HE.
      - etransitivity; [exact H1|symmetry; exact Ll1].
      - etransitivity; [exact H2|symmetry; exact Ll1].
      - etransitivity; [exact G1|symmetry; exact Lm1].
      - etransitivity; [exact G2|symmetry; exact Lm1].
      - intros t Ht. destruct (Near t Ht) as (C1 & C2 & C3). fold P in C1, C2, C3.
        assert (Eb : between (d_x _ d) z t = lincomb t (1 - t) z (d_x _ d)) by apply between_comb.
        assert (Lb : length (between (d_x _ d) z t) = n) by (unfold between; rewrite map2_len; [exact Lxd|etransitivity; [exact Lxd|symmetry; exact Lz]]).
        assert (Lm' : length (d_mu _ d1 : list R) = length (pr_mu0 p)) by exact Lm1.
        split; [rewrite Eb; lra|]. split; [rewrite Eb, between_comb; exact C3|]. split; [etransitivity; [exact (proj1 (Sz _ Lb))|symmetry; exact Lm1]|]. split.
        + intros i Hi. rewrite Nth by (cbn [T R_num] in *; lia). rewrite Eb. rewrite <- (nth_comb t (p_g _ P z) (p_g _ P (d_x _ d)) i); [|etransitivity; [exact G2|symmetry; exact G1]|cbn [T R_num] in *; lia].
          assert (Q : nth i (p_g _ P (lincomb t (1 - t) z (d_x _ d)) : list R) 0 <= nth i (lincomb t (1 - t) (p_g _ P z) (p_g _ P (d_x _ d))) 0 + t * (1 - t) * bend).
          { apply (F2_nth _ _ _ C2). rewrite <- Eb. pose proof (proj1 (Sz _ Lb)) as X. cbn [T R_num] in *. lia. }
          assert (t * (1 - t) * bend <= t * bend) by (rewrite (Rmult_assoc t); apply Rmult_le_compat_l; [lra|]; rewrite <- (Rmult_1_l bend) at 2; apply Rmult_le_compat_r; lra).
          lra.
        + intros i Hi Nz. rewrite Nth by (cbn [T R_num] in *; lia). rewrite Eb. exact (Rows' i Nz z (d_x _ d) t Lz Lxd Ht).
      - intros eps He. exact (Hlev z Lz eps He). }
    rewrite Ef, Eg, Eh. pose proof (dot_below _ _ Pmu Ag) as D1. pose proof (dot_none (d_lam _ d) _ Ah) as D2. fold P in D1, D2. rewrite <- Pf. fold P. cbn [T R_num] in *. lra. }
  split; [exact Cert|]. intros Gv Hv Comp He.
  assert (Hd0 : dotR (d_lam _ d) (d_h _ d) = 0) by (apply dot_none, List.Forall_forall; exact Hv).
  destruct Hto as (Fx & r & Wr & Hle). { split; apply List.Forall_forall; intros v I; [apply Gv; rewrite Eg|apply Hv; rewrite Eh]; exact I. }
  assert (Low : forall y r, length y = q_ndofs (fn_qp (pr_fn p)) -> SpecConvex.feasible other (fn_qp (pr_fn p)) (asked_bounds cs) y -> weighted other (fn_qp (pr_fn p)) (asked_terms os) y r -> d_f _ d <= r).
  { intros y r' Ly Fy Wy. destruct (Cert y r' Ly Fy Wy) as (z & dz & _ & _ & _ & K). rewrite Hd0, Comp, He in K. cbn [T R_num] in *. lra. }
  assert (r = d_f _ d). { pose proof (Low x r Lx Fx Wr). apply Rle_antisym; [rewrite Ef; exact Hle|assumption]. }
  subst r. split; [exact Lx|]. split; [exact Fx|]. split; [exact Wr|]. intros y fx fy Ly _ Fy Wx Wy.
  assert (fx = d_f _ d).
  { clear - Wr Wx. destruct Wr as (v1 & F1 & ->). destruct Wx as (v2 & F2 & ->). f_equal. f_equal. revert v1 F1. induction F2 as [|t m l v2 H F2 IH]; intros v1 F1; inversion F1 as [|? ? ? ? H' F']; subst; [reflexivity|].
    f_equal; [|now apply IH]. pose proof (ProofConvex.reads_fun _ _ _ _ _ _ H H') as X. now injection X. }
  subst fx. now apply (Low y).
Qed.
Print Assumptions C156_multipliers_certify_bounded_currents.

(** ** The call that bounds the current density *)
(** One constraint f_max_K2 <= [b] in units [un], an objective of terms handed
    over as they are: the rows, point by point, are K2 less the slack variable,
    then -K2 less the slack variable, then the slack variable less the bound. *)
Theorem C156_rows_of_a_density_bound :
  forall other (E : library) (a : args (x_solver E)) U os un b p,
  let cs := [UC "f_max_K2" LE un b] in
  asks a os cs -> qc_smoothing a = Some "slack" -> qc_merge a = false -> prepare (package other) a = Ok p ->
  let q := fn_qp (pr_fn p) in
  ordered q -> (exists x, sound q x) -> (forall x, qc_phi_init a = Some x -> length x = q_ndofs q) ->
  (forall t, In t os -> 0 <= ob_weight t /\ scaled_use U q (ob_name t) (ob_unit t)) ->
  (forall c, In c cs -> scaled_use U q (uc_name c) (uc_unit c)) ->
  (forall t, In t os -> In (ob_name t) direct_quantities) -> pr_unit p <> 0 ->
  let P := solver_problem E a p in
  forall z, length z = length (pr_x0 p) ->
  exists dz y v s, unscale (pr_structure p) (pr_unit p) z = Ok dz /\ lookup "phi" dz = Some (Arr [length y] y) /\ length y = q_ndofs q /\
    reads other "K2" q y v /\ lookup "scaled_max_K2_f_max_K2" dz = Some (scal s) /\
    p_g _ P z = map (fun k => k / Rabs un - s) (el v) ++ map (fun k => - k / Rabs un - s) (el v) ++ [s - b / Rabs un].
Proof.
  intros other E a U os un b p cs As Hs Hm Hp q O Sx Hphi Uo Uc Dir Hu P z Lz.
  destruct (bound_rows other E a p U os un b Hp As Hs Hm O Sx Uo Uc Hu Hphi Dir z Lz) as (dz & y & v & s & H1 & H2 & H3 & H4 & H5 & H6 & _).
  exists dz, y, v, s. do 5 (split; [assumption|]). exact H6.
Qed.
Print Assumptions C156_rows_of_a_density_bound.

Lemma nth_rows (l1 l2 : list R) w i : length l1 = length l2 -> nth i (l1 ++ l2 ++ [w]) 0 =
  if (i <? length l1)%nat then nth i l1 0 else if (i <? 2 * length l1)%nat then nth (i - length l1) l2 0 else if (i =? 2 * length l1)%nat then w else 0.
Proof.
  intros L. destruct (Nat.ltb_spec i (length l1)); [now apply app_nth1|]. rewrite app_nth2 by lia. destruct (Nat.ltb_spec i (2 * length l1)); [apply app_nth1; lia|].
  rewrite app_nth2 by lia. destruct (Nat.eqb_spec i (2 * length l1)).
  - replace (i - length l1 - length l2)%nat with 0%nat by lia. reflexivity.
  - apply nth_overflow. cbn. lia.
Qed.
Lemma nth_affine (l : list R) u s i : (i < length l)%nat -> nth i (map (fun k => k / u - s) l) 0 = nth i l 0 / u - s.
Proof. intros H. rewrite (nth_indep _ 0 (0 / u - s)) by (now rewrite map_length). exact (map_nth (fun k => k / u - s) l 0 i). Qed.

Lemma other_rows other (E : library) (a : args (x_solver E)) U os un b p :
  asks a os [UC "f_max_K2" LE un b] -> qc_smoothing a = Some "slack" -> qc_merge a = false -> prepare (package other) a = Ok p ->
  ordered (fn_qp (pr_fn p)) -> (exists x, sound (fn_qp (pr_fn p)) x) -> (forall x, qc_phi_init a = Some x -> length x = q_ndofs (fn_qp (pr_fn p))) ->
  (forall t, In t os -> 0 <= ob_weight t /\ scaled_use U (fn_qp (pr_fn p)) (ob_name t) (ob_unit t)) ->
  (forall c, In c [UC "f_max_K2" LE un b] -> scaled_use U (fn_qp (pr_fn p)) (uc_name c) (uc_unit c)) ->
  (forall t, In t os -> In (ob_name t) direct_quantities) -> pr_unit p <> 0 ->
  forall i, (forall y v, length y = q_ndofs (fn_qp (pr_fn p)) -> reads other "K2" (fn_qp (pr_fn p)) y v -> ~ (length (el v) <= i < 2 * length (el v))%nat) ->
  convex_row (length (pr_x0 p)) (p_g _ (solver_problem E a p)) i.
Proof.
  intros As Hs Hm Hp O Sx Hphi Uo Uc Dir Hu i Hi z1 z2 t L1 L2 Ht.
  assert (L12 : length z1 = length z2) by congruence.
  assert (Lt : length (lincomb t (1 - t) z1 z2) = length (pr_x0 p)) by (unfold lincomb; rewrite map2_len; congruence).
  pose proof (bound_rows other E a p U os un b Hp As Hs Hm O Sx Uo Uc Hu Hphi Dir) as B.
  destruct (B z1 L1) as (d & x & v & s & Ed & Px & Lx & Rv & Ls & Rw & _). destruct (B z2 L2) as (e & y & v' & s' & Ee & Py & Ly & Rv' & Ls' & Rw' & _).
  destruct (B _ Lt) as (k & w & v'' & s'' & Ek & Pw & Lw & Rv'' & Ls'' & Rw'' & _). rewrite Rw, Rw', Rw''. clear B.
  pose proof (unscale_comb _ _ _ _ _ _ _ _ _ _ _ _ L12 Ed Ee Ek Px Py Pw) as Ew. cbn [vec_arr el] in Ew.
  pose proof (unscale_comb _ _ _ _ _ _ _ _ _ _ _ _ L12 Ed Ee Ek Ls Ls' Ls'') as Es. cbn in Es. injection Es as Es.
  assert (Sa : forall x, length x = q_ndofs (fn_qp (pr_fn p)) -> sound (fn_qp (pr_fn p)) x) by (exact (all_sound p Sx)).
  destruct (convex_quantities other _ Sa O "K2" ltac:(cbn; tauto) x y t Lx Ly Ht) as (a1 & a2 & a3 & Q1 & Q2 & Q3 & _ & _ & M1 & M2 & F).
  rewrite <- Ew in Q3. rewrite <- (ProofConvex.reads_fun _ _ _ _ _ _ Rv Q1) in *. rewrite <- (ProofConvex.reads_fun _ _ _ _ _ _ Rv' Q2) in *. rewrite <- (ProofConvex.reads_fun _ _ _ _ _ _ Rv'' Q3) in *.
  assert (Nz : un <> 0) by (destruct (Uc _ (or_introl eq_refl)) as (X & _); exact X). pose proof (Rabs_pos_lt un Nz) as Pu.
  rewrite !nth_rows by (now rewrite !map_length). rewrite !map_length, M1, M2. specialize (Hi w v'' Lw Rv'').
  destruct (Nat.ltb_spec i (length (el v''))) as [Hl|Hl].
  - rewrite !nth_affine by lia. pose proof (F2_nth _ _ _ F i Hl) as K. rewrite nth_comb in K by lia.
    assert (Hv : 0 < / Rabs un) by (apply Rinv_0_lt_compat; exact Pu). apply (Rmult_le_compat_r (/ Rabs un)) in K; [|lra]. rewrite Es. unfold Rdiv. lra.
  - destruct (Nat.ltb_spec i (2 * length (el v''))) as [Hl'|Hl']; [lia|]. destruct (Nat.eqb_spec i (2 * length (el v''))); [rewrite Es|]; lra.
Qed.

(** With that call, only the second block of multipliers has to vanish. *)
Theorem C156_density_bound :
  forall other (E : library) (a : args (x_solver E)) U os un b o p d d1 eta,
  let cs := [UC "f_max_K2" LE un b] in
  counted (x_opt E) -> shaped (x_opt E) ->
  asks a os cs -> qc_smoothing a = Some "slack" -> qc_merge a = false -> 0 < qc_c_init a -> 0 < qc_c_growth a ->
  quadcoil (package other) E a = Some (Ok o) -> o_results E o = Constrained E d ->
  let q := o_qp E o in
  ordered q -> (exists x, sound q x) -> (forall x, qc_phi_init a = Some x -> length x = q_ndofs q) ->
  (forall t, In t os -> 0 <= ob_weight t /\ scaled_use U q (ob_name t) (ob_unit t)) ->
  (forall c, In c cs -> scaled_use U q (uc_name c) (uc_unit c)) ->
  convex_objective other q (asked_terms os) -> (forall t, In t os -> In (ob_name t) direct_quantities) ->
  prepare (package other) a = Ok p -> pr_unit p <> 0 ->
  let P := solver_problem E a p in
  main_loop _ (x_opt E) (x_autograd E) P (x_fuel_out E) (x_fuel_in E)
    (init_dict _ P (pr_x0 p) (qc_c_init a) (pr_lam0 p) (pr_mu0 p)) = Some d1 ->
  level (length (pr_x0 p)) eta (augmented (p_f _ P) (p_g _ P) (p_h _ P) (d_c _ d1) (d_lam _ d1) (d_mu _ d1)) (d_x _ d) ->
  (forall y v i, length y = q_ndofs q -> reads other "K2" q y v -> (length (el v) <= i < 2 * length (el v))%nat -> nth i (d_mu _ d : list R) 0 = 0) ->
  List.Forall (fun m => 0 <= m) (d_mu _ d) /\
  exists x, lookup "phi" (o_dofs E o) = Some (Arr [length x] x) /\ length x = q_ndofs q /\
    (forall y r, length y = q_ndofs q -> SpecConvex.feasible other q (asked_bounds cs) y -> weighted other q (asked_terms os) y r ->
       exists z dz, length z = length (pr_x0 p) /\ unscale (pr_structure p) (pr_unit p) z = Ok dz /\ lookup "phi" dz = Some (Arr [length y] y) /\
         d_f _ d + dotR (d_lam _ d) (d_h _ d) + dotR (d_mu _ d) (d_g _ d) <= r + eta * normR (map2 Rminus z (d_x _ d))) /\
    ((forall v, In v (d_g _ d) -> v <= 0) -> (forall v, In v (d_h _ d) -> v = 0) -> dotR (d_mu _ d) (d_g _ d) = 0 -> eta = 0 ->
       best other q (asked_terms os) (asked_bounds cs) x (d_f _ d)).
Proof.
  intros other E a U os un b o p d d1 eta cs Hcnt Hsh As Hs Hm Hc Hg Hq Hr q O Sx Hphi Uo Uc Cv Dir Hp Hu P Hml Hlev Mu.
  assert (Eq : q = fn_qp (pr_fn p)).
  { destruct (quadcoil_ok _ E a o Hq) as (p' & r' & dofs & Hp' & _ & _ & _ & E1 & _). assert (p' = p) by congruence. subst p'. exact E1. }
  apply (C156_multipliers_certify_bounded_currents other E a U os cs o p d d1 eta); try assumption.
  - destruct Sx as (x & S). split; [exact Cv|]. split; [|split].
    + intros name c v [[= <- <- <-]|[]]. apply (C111_convex_quantities other q x S O). cbn. tauto.
    + intros t I. right. apply in_app_iff. right. auto.
    + intros c [<-|[]]. now left.
  - intros i Hi. subst q. rewrite Eq in *. apply (other_rows other E a U os un b); try assumption.
    intros y v Ly Rv Hb. apply Hi. exact (Mu y v i Ly Rv Hb).
Qed.
Print Assumptions C156_density_bound.

Example C156_example : exists b o p d d1, quadcoil (package []) E120 (call156 b) = Some (Ok o) /\ o_results E120 o = Constrained E120 d /\ o_qp E120 o = shown /\
  asks (call156 b) terms120 [UC "f_max_K2" LE 3 b] /\ prepare (package []) (call156 b) = Ok p /\ pr_unit p <> 0 /\
  convex_objective [] shown (asked_terms terms120) /\ (forall t, In t terms120 -> In (ob_name t) direct_quantities) /\
  main_loop _ (x_opt E120) (x_autograd E120) (solver_problem E120 (call156 b) p) (x_fuel_out E120) (x_fuel_in E120)
    (init_dict _ (solver_problem E120 (call156 b) p) (pr_x0 p) (qc_c_init (call156 b)) (pr_lam0 p) (pr_mu0 p)) = Some d1 /\
  (let P := solver_problem E120 (call156 b) p in
   level (length (pr_x0 p)) 0 (augmented (p_f _ P) (p_g _ P) (p_h _ P) (d_c _ d1) (d_lam _ d1) (d_mu _ d1)) (d_x _ d)) /\
  (forall i, nth i (d_mu _ d : list R) 0 = 0) /\
  lookup "phi" (o_dofs E120 o) = Some (Arr [4%nat] [0; 0; 0; 0]) /\ (forall v, In v (d_g _ d) -> v <= 0) /\ (forall v, In v (d_h _ d) -> v = 0).
Proof.
  destruct some_allowed as (b & Hb). exists b. destruct call_hypotheses as (H1 & H2 & H3 & x & S).
  destruct (C121_valid_calls_return [] E120 (call156 b) shown U120 terms120 (bounds156 b) H1 H2 (call156_builds b) (call156_asks b) eq_refl eq_refl
    ltac:(cbn; lra) ltac:(cbn; lra) H3 (ex_intro _ x S) ltac:(discriminate)) as (o & Hq & Eq & _).
  { intros b' [= <-]. reflexivity. }
  { discriminate. }
  { intros p Hp. rewrite (proj1 (call156_facts b p Hp)). lra. }
  { intros t I. destruct (call_terms t I) as (? & ? & ?); auto. }
  { exact (call156_bounds b). }
  { exact (call156_metrics b). }
  { cbn. lia. }
  { cbn. lia. }
  destruct (quadcoil_ok _ _ _ _ Hq) as (p & r & dofs & Hp & Hso & _ & Hd & E1 & E2 & E3).
  destruct (call156_facts b p Hp) as (Un & Uc & H0). unfold solve in Hso. rewrite Uc in Hso.
  destruct (solve_constrained _ _ _ _ _ _ _ _ _ _) as [d|] eqn:Hsol; [|discriminate]. injection Hso as <-.
  destruct (solve_inv _ _ _ stay_counted _ _ _ _ _ _ _ _ Hsol) as (d1 & Hml & Hlast & _).
  destruct (call156_rests b p d1 d Hb Hp Hml Hsol) as (Ex & Zm & Hmin). change (d_x (R_num (x_fin E120)) d = pr_x0 p) in Ex. destruct (call156_start b p Hb Hp) as (G0 & dz & Ez & Pz).
  destruct (body_inv _ _ _ stay_counted _ _ _ _ _ _ _ Hlast) as (r0 & _ & _ & _ & _ & Ef & Eg & Eh & _).
  exists o, p, d, d1. split; [exact Hq|]. split; [exact E3|]. split; [exact Eq|]. split; [exact (call156_asks b)|]. split; [exact Hp|]. split; [rewrite Un; lra|].
  split; [|split; [|split; [exact Hml|split; [|split]]]].
  - intros name w [[= <- <-]|[]]. split; [rewrite Rabs_pos_eq by lra; lra|]. apply (C111_convex_quantities [] shown x S H3). cbn. tauto.
  - intros t [<-|[]]. cbn. tauto.
  - assert (Hmin' : let P := solver_problem E120 (call156 b) p in let A := augmented (p_f _ P) (p_g _ P) (p_h _ P) (d_c _ d1) (d_lam _ d1) (d_mu _ d1) in
      forall z : list R, length z = length (pr_x0 p) -> A (d_x _ d) <= A z + 0) by exact Hmin. clear Hmin.
    cbv zeta in Hmin' |- *. intros z Lz eps He. exists 1. split; [lra|]. intros t Ht.
    assert (Lb : length (between (d_x _ d) z t) = length (pr_x0 p)).
    { assert (Lx : length (d_x _ d : list R) = length (pr_x0 p)); [|unfold between; rewrite map2_len; [exact Lx|etransitivity; [exact Lx|symmetry; exact Lz]]].
      apply (returned_length [] E120 (call156 b) o p d); auto using stay_counted, stay_shaped. }
    pose proof (Rmult_lt_0_compat t eps ltac:(lra) He) as X. refine (Rle_trans _ _ _ (Hmin' _ Lb) _). apply Rplus_le_compat; [apply Rle_refl|]. lra.
  - intros i. destruct (Nat.lt_ge_cases i (length (d_mu _ d : list R))) as [I|I]; [|now apply nth_overflow].
    pose proof (nth_In (d_mu _ d : list R) 0 I) as J. exact (proj1 (List.Forall_forall _ _) Zm _ J).
  - split; [|split].
    + rewrite E2. cbn [optimum] in Hd. rewrite Ex in Hd. assert (dz = dofs) by congruence. subst dz. exact Pz.
    + intros v I. change (In v (d_g RN d)) in I. rewrite Eg in I. change (d_x RN d = pr_x0 p) in Ex. rewrite Ex in I. exact (proj1 (List.Forall_forall _ _) G0 v I).
    + intros v I. change (In v (d_h RN d)) in I. rewrite Eh in I. change (d_x RN d = pr_x0 p) in Ex. rewrite Ex in I. cbn [solver_problem ModelSolver.p_h] in I. rewrite H0 in I. destruct I.
Qed.
