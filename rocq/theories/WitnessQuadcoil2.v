(** Concrete calls of quadcoil with constraints. *)
From Coq Require Import String List Bool Arith ZArith Reals Lra Lia.
From Coquelicot Require Import Coquelicot.
From Verif Require Import Base ModelArray ModelMath ModelQuantity ModelWrapper ModelSurface ModelParams ModelField
  ModelSolver SpecSolver WitnessSolver SpecWrapper WitnessWrapper ModelQuadcoil SpecMath SpecSurface SpecQuadcoil
  ProofLinear ProofQuadcoil ProofQuadcoil2 ProofQuadcoil3 ProofQuadcoil4 ProofQuadcoil5 WitnessSurface WitnessField WitnessQuadcoil.
Import ListNotations.
Open Scope R_scope.
Open Scope string_scope.
Open Scope list_scope.

(** ** Optimisers given by the update they make *)
Definition rule_opt (s : (list R -> R) -> list R -> list R -> list R) : optimiser RN :=
  Build_optimiser RN (nat * list R) (fun _ => (O, [])) (fun f g st x _ => (s f x g, (S (fst st), g))) fst snd (fun _ => 0).
Lemma rule_counted s : counted (rule_opt s).
Proof. split; reflexivity. Qed.

(** The main pass and the last pass, one iteration each, with one unknown. *)
Section TwoPass.
  Variables (s : (list R -> R) -> list R -> list R -> list R) (P : problem RN).
  Hypothesis H1 : p_maxiter_tot RN P = 1%nat.
  Hypothesis H2 : p_maxiter_inner RN P = 1%nat.
  Definition moved (d : ModelSolver.dict RN) : list R :=
    let u := d_xunit RN d in
    let z := vdivs RN (d_x RN d) u in
    let L := l_k RN P u (d_c RN d) (d_lam RN d) (d_mu RN d) in
    vmuls RN (vadd RN z (s L z (central L z))) u.
  Definition unit_of (x : list R) : R := if n_neb RN (vnorm RN x) 0 then vnorm RN x else 1.
  Lemma one_body d fs xs gt : exists d', body RN (rule_opt s) central P 1 fs xs gt d = Some d' /\
    d_tot RN d' = (d_tot RN d + 1)%nat /\ d_x RN d' = moved d /\ d_g RN d' = p_g RN P (moved d) /\ d_h RN d' = p_h RN P (moved d) /\
    d_c RN d' = d_c RN d /\
    d_lam RN d' = vadd RN (d_lam RN d) (vscale RN (d_c RN d) (p_h RN P (moved d))) /\
    d_mu RN d' = vadd RN (d_mu RN d) (vscale RN (d_c RN d) (p_mask RN P (p_g RN P (moved d)) (d_mu RN d) (d_c RN d))) /\
    d_xunit RN d' = unit_of (moved d).
  Proof.
    unfold body. rewrite H2.
    assert (Hr : forall x0 f, run_opt RN (rule_opt s) central 1 x0 f 1 fs xs gt
      = Some (pack_out RN (rule_opt s) (ModelSolver.step RN (rule_opt s) central f (init_carry RN (rule_opt s) f x0 fs 10)))) by reflexivity.
    rewrite Hr. eexists. split; [reflexivity|]. repeat split. cbn [d_c].
    unfold update_multiplier. rewrite H2. cbn [pack_out r_count]. change (o_count _ _ _) with 1%nat.
    rewrite orb_true_r. reflexivity.
  Qed.
  Lemma two_pass x0 c lam mu : exists d1 d,
    solve_constrained RN (rule_opt s) central P 1 1 x0 c lam mu = Some d /\
    let d0 := init_dict RN P x0 c lam mu in
    (d_x RN d1 = moved d0 /\ d_c RN d1 = c /\ d_lam RN d1 = vadd RN lam (vscale RN c (p_h RN P (moved d0))) /\
     d_mu RN d1 = vadd RN mu (vscale RN c (p_mask RN P (p_g RN P (moved d0)) mu c)) /\ d_xunit RN d1 = unit_of (moved d0)) /\
    d_x RN d = moved d1 /\ d_c RN d = c /\ d_lam RN d = vadd RN (d_lam RN d1) (vscale RN c (p_h RN P (moved d1))) /\
    d_mu RN d = vadd RN (d_mu RN d1) (vscale RN c (p_mask RN P (p_g RN P (moved d1)) (d_mu RN d1) c)) /\
    d_g RN d = p_g RN P (moved d1) /\ d_h RN d = p_h RN P (moved d1).
  Proof.
    set (d0 := init_dict RN P x0 c lam mu).
    destruct (one_body d0 (p_fstop RN P) (p_xstop RN P) (p_gtol RN P)) as (d1 & B1 & T1 & X1 & _ & _ & C1 & L1 & M1 & U1).
    destruct (one_body d1 (p_fstop_last RN P) (p_xstop_last RN P) (p_gtol_last RN P)) as (d & B2 & T2 & X2 & G2 & HH2 & C2 & L2 & M2 & _).
    exists d1, d. split.
    - unfold solve_constrained, main_loop. fold d0. cbn [while_fuel].
      assert (O0 : outer_continue RN P d0 = true) by reflexivity. rewrite O0, B1. cbn [while_fuel].
      assert (O1 : outer_continue RN P d1 = false) by (unfold outer_continue; rewrite T1, H1; reflexivity).
      rewrite O1. exact B2.
    - cbn zeta. change (d_c RN d0) with c in *. rewrite C1 in *. repeat split; auto.
  Qed.
End TwoPass.
Lemma unit_nonzero x : unit_of x <> 0.
Proof.
  unfold unit_of. cbn [n_neb R_num]. destruct (Req_EM_T (vnorm RN x) 0) as [e|e]; [lra|exact e].
Qed.

(** ** Calls with one constraint *)
Definition tied (G : R) (obj cname ctype : string) (v : R) (met : names_arg) (x0 : option (list R)) (vo verb : bool) (m : mask) : args unit :=
  demo G 0 [3; 1; 1] (Some [3; 2; 2]) None no_gen true (NStr obj) (WNum 1) (UsNum 1)
    (NTuple [cname]) (NTuple [ctype]) (UsSeq [UScalar 1]) (VSeq [v]) met x0 (Some 1) vo verb m.
Definition prep_of (a : args unit) (x0 : list R) (nm nl : nat) : prepared :=
  {| pr_qd := qdU; pr_y := y_dict a; pr_fn := fn_of a; pr_unit := 1;
     pr_x0 := map (fun v => v / 1) x0; pr_structure := [("phi_scaled", [length x0])]; pr_mu0 := repeat 0 nm; pr_lam0 := repeat 0 nl |}.
Definition eq_call (v : R) (met : names_arg) (vo verb : bool) : args unit := tied 0 "square" "phi0" "==" v met None vo verb some_mask.
Definition eq_p v met vo verb := prep_of (eq_call v met vo verb) [0] 0 1.
Lemma eq_prepared v met vo verb : prepare user_ns (eq_call v met vo verb) = Ok (eq_p v met vo verb).
Proof.
  refine (prepare_steps user_ns (eq_call v met vo verb) qdU (fn_of (eq_call v met vo verb)) 1 [("phi_scaled", vec_arr [0/1])] (Arr [0%nat] [])
     (Arr [1%nat] [1 * (0 / 1 * 1 / Rabs 1 - v / Rabs 1)])
     _ eq_refl eq_refl eq_refl _ eq_refl eq_refl eq_refl _ eq_refl eq_refl); reflexivity.
Qed.
Definition eq_opt : optimiser RN := rule_opt (fun _ x g => map (fun a => if Req_EM_T (nth 0 x 0) 0 then - a else 0) g).
Definition EQ := fd_lib eq_opt.
Lemma eq_f v met vo verb x : real_of (f_scaled (eq_p v met vo verb) [x]) = x * x.
Proof. transitivity (0 + x * 1 * (x * 1) / Rabs 1 * 1); [calc; reflexivity|]. rewrite Rabs_R1. field. Qed.
Lemma eq_h v met vo verb x : list_of (h_scaled (eq_p v met vo verb) [x]) = [x - v].
Proof. transitivity [1 * (x * 1 / Rabs 1 - v / Rabs 1)]; [calc; reflexivity|]. rewrite Rabs_R1. lring. Qed.
Lemma eq_g v met vo verb x : list_of (g_scaled (eq_p v met vo verb) [x]) = [].
Proof. reflexivity. Qed.
Lemma eq_lk v met vo verb (u c l x : R) :
  l_k RN (solver_problem EQ (eq_call v met vo verb) (eq_p v met vo verb)) u c [l] [] [x]
  = x * u * (x * u) + l * (x * u - v) + c / 2 * ((x * u - v) * (x * u - v)).
Proof.
  unfold l_k. cbn [solver_problem ModelSolver.p_f ModelSolver.p_g ModelSolver.p_h ModelSolver.p_mask EQ fd_lib x_fin].
  change (vmuls RN [x] u) with [x * u]. rewrite eq_f, eq_h. cbn. field.
Qed.
Lemma eq_solved v met vo verb : exists d, solve EQ (eq_call v met vo verb) (eq_p v met vo verb) = Some (Constrained EQ d) /\
  d_x _ d = [v] /\ d_c _ d = 1 /\ d_lam _ d = [0] /\ d_mu _ d = [] /\ d_h _ d = [0] /\ d_g _ d = [].
Proof.
  set (a := eq_call v met vo verb). set (p := eq_p v met vo verb). set (P := solver_problem EQ a p).
  destruct (two_pass (fun _ x g => map (fun a => if Req_EM_T (nth 0 x 0) 0 then - a else 0) g) P eq_refl eq_refl [0 / 1] 1 [0] [])
    as (d1 & d & Hs & (X1 & C1 & L1 & M1 & U1) & X & C & L & M & G & H).
  assert (E0 : moved (fun _ x g => map (fun a => if Req_EM_T (nth 0 x 0) 0 then - a else 0) g) P (init_dict RN P [0/1] 1 [0] []) = [v]).
  { unfold moved. cbn [init_dict d_xunit d_x d_c d_lam d_mu]. change (n_one RN) with 1. change (vdivs RN [0 / 1] 1) with [0 / 1 / 1].
    unfold central. cbn [length seq map bump]. unfold P, a, p. rewrite !eq_lk. cbn [nth]. destruct (Req_EM_T (0 / 1 / 1) 0) as [e|e]; [|exfalso; apply e; field].
    cbn. lring. }
  rewrite E0 in *.
  assert (Eh : forall x, ModelSolver.p_h RN P [x] = [x - v]) by (intros; apply eq_h).
  assert (Eg : forall x, ModelSolver.p_g RN P [x] = []) by reflexivity.
  assert (L1' : d_lam RN d1 = [0]) by (rewrite L1, Eh; cbn; lring).
  assert (M1' : d_mu RN d1 = []) by (rewrite M1, Eg; reflexivity).
  assert (N1 : unit_of [v] <> 0) by apply unit_nonzero.
  assert (E1 : moved (fun _ x g => map (fun a => if Req_EM_T (nth 0 x 0) 0 then - a else 0) g) P d1 = [v]).
  { unfold moved. rewrite X1, U1, C1, L1', M1'. set (u := unit_of [v]) in *. change (vdivs RN [v] u) with [v / u].
    unfold central. cbn [length seq map bump]. unfold P, a, p. rewrite !eq_lk. cbn [nth].
    destruct (Req_EM_T (v / u) 0) as [e|e]; cbn.
    - assert (v = 0). { apply (f_equal (fun t => t * u)) in e. field_simplify in e; auto. } subst v. apply (f_equal2 (@cons R)); [field; auto|reflexivity].
    - apply (f_equal2 (@cons R)); [field; auto|reflexivity]. }
  rewrite E1 in *. exists d. split; [|repeat split; auto].
  - match type of Hs with ?S = _ => transitivity (match S with Some d => Some (Constrained EQ d) | None => None end); [reflexivity|] end.
    rewrite Hs. reflexivity.
  - change (d_lam RN d = [0]). rewrite L, L1', Eh. cbn. lring.
  - change (d_mu RN d = []). rewrite M, M1', Eg. reflexivity.
  - change (d_h RN d = [0]). rewrite H, Eh. lring.
Qed.

(** A successful call with one metric. *)
Lemma call_facts ns E (a : args (x_solver E)) p r m v d : prepare ns a = Ok p -> solve E a p = Some r -> qc_value_only a = false ->
  metrics a = [m] -> f_metric ns E a p m (optimum E r) (ravel (pr_y p)) = Ok v -> isscalar v = true ->
  unscale (pr_structure p) (pr_unit p) (optimum E r) = Ok d ->
  exists o, quadcoil ns E a = Some (Ok o) /\ o_dofs E o = d /\ o_results E o = r /\ o_qp E o = fn_qp (pr_fn p) /\
    reported o m = nth 0 (el v) 0 /\
    (let g := metric_gradient E (setup ns E a p r) (fun x y => real_of (f_metric ns E a p m x y)) (optimum E r) (ravel (pr_y p)) in
     length g = total (structure (pr_y p)) -> reported_gradient o m = g).
Proof.
  intros Hp Hs V Hm Hv Sv Hd.
  destruct (finish_ex ns E a p r d Hd V) as (o & Ho & Od & Or & Oq).
  { rewrite Hm. intros m' [<-|[]]. eauto. }
  exists o. split; [unfold quadcoil; rewrite Hp, Hs, Ho; reflexivity|]. split; [exact Od|]. split; [exact Or|]. split; [exact Oq|].
  destruct (finish_gradient ns E a p r o Ho V) as (out0 & Hg & _).
  destruct (grad_metrics_ok ns E _ _ _ _ _ _ Hg) as [H1 _]. destruct (H1 m) as (v' & Hv' & _ & Hl); [rewrite Hm; simpl; auto|].
  assert (v' = v) by congruence. subst v'. unfold reported, reported_gradient. rewrite Hl. cbn [made_entry e_value e_grad]. split; [reflexivity|].
  intros Lg. unfold flat. rewrite map_map. cbn [snd]. apply (unravel_flat _ _ Lg).
Qed.

Ltac nine y := let h := fresh in
  destruct y as [|? [|? [|? [|? [|? [|? [|? [|? [|? [|? ?]]]]]]]]]]; try discriminate.

(** ** C78: the gradient of a constrained optimum *)
Definition A78 (t : R) : args unit := eq_call t (NStr "phi0") false false.
Definition O78 (t : R) : output EQ :=
  result_of (quadcoil user_ns EQ (A78 t)) (dummy_out EQ (Direct EQ (free_r 0 (NStr "product") false false))).
Definition along_v : list R := [1; 0; 0; 0; 0; 0; 0; 0; 0].
Definition y_eq (v : R) : list R := [v; 0; 0; 3; 1; 1; 3; 2; 2].
Lemma eq_metric v x y : length y = 9%nat ->
  f_metric user_ns EQ (A78 v) (eq_p v (NStr "phi0") false false) "phi0" [x] y = Ok (scal (x * 1)).
Proof. intros Ly. nine y. reflexivity. Qed.
Lemma eq_terms v x w y : length y = 8%nat ->
  l_terms user_ns EQ (A78 v) (eq_p v (NStr "phi0") false false) [] [0] 1 [x] (w :: y) = (x * x, 0, 1 / 2 * ((x - w) * (x - w))).
Proof.
  intros Ly. eight y.
  transitivity (0 + x * 1 * (x * 1) / Rabs 1 * 1, 0 * (1 * (x * 1 / Rabs 1 - w / Rabs 1)) + 0 + 0,
    1 / 2 * ((1 * (x * 1 / Rabs 1 - w / Rabs 1)) * (1 * (x * 1 / Rabs 1 - w / Rabs 1)) + 0 + 0)).
  - calc. reflexivity.
  - rewrite Rabs_R1. f_equal; [f_equal; field|field].
Qed.
Lemma rhs_length n tA tB tC tol E b : length (precond_rhs n (preconditioner E n tol tA tB tC) b) = n.
Proof.
  destruct tA as [A [sA VA]], tB as [B [sB VB]], tC as [C [sC VC]]. unfold preconditioner. destruct (x_svd E _) as [sBC VBC].
  unfold precond_rhs. cbn [pc_scale_AC pc_scale_BC pc_annil_BC pc_annil_C pc_proj_BC pc_proj_C].
  unfold ladd, matvec, matmul, matscale, projector, matmul, transpose. repeat rewrite ?map2_len, ?map_length, ?seq_length. lia.
Qed.
Lemma vihp_eq ns E (a : args (x_solver E)) p (d : ModelSolver.dict (R_num (x_fin E))) (x : list R) h1 h2 h3 b :
  let T := l_terms ns E a p (d_mu _ d) (d_lam _ d) (d_c _ d) in
  let y := ravel (pr_y p) in
  d_x _ d = x ->
  x_hessian E (fun x => fst (fst (T x y))) x = h1 ->
  x_hessian E (fun x => snd (fst (T x y))) x = h2 ->
  x_hessian E (fun x => snd (T x y)) x = h3 ->
  exists tA tB tC, gs_vihp (setup ns E a p (Constrained E d)) b
   = vihp_constrained E (match qc_linear_solver a with Some s => s | None => x_auto E end) (length x) (matadd (matadd h1 h2) h3)
      (preconditioner E (length x) (svtol (qc_tol a)) tA tB tC) b.
Proof.
  intros T y Ex E1 E2 E3. subst x. unfold setup. cbn [optimum]. fold T. fold y. rewrite E1, E2, E3. set (n := @length R (d_x _ d)).
  cbn [map].
  destruct (sorted_three (symmetrise n h1, x_svd E (symmetrise n h1)) (symmetrise n h2, x_svd E (symmetrise n h2))
     (symmetrise n h3, x_svd E (symmetrise n h3))) as (tA & tB & tC & Hs & _). rewrite Hs. cbn [gs_vihp]. exists tA, tB, tC. reflexivity.
Qed.
(** With one unknown the linear system is solved exactly. *)
Lemma vihp_one opt ns (a : args unit) p (d : ModelSolver.dict RN) x h1 h2 h3 b : let E := fd_lib opt in
  let T := l_terms ns E a p (d_mu _ d) (d_lam _ d) (d_c _ d) in
  let y := ravel (pr_y p) in
  d_x _ d = [x] ->
  x_hessian E (fun x => fst (fst (T x y))) [x] = [[h1]] ->
  x_hessian E (fun x => snd (fst (T x y))) [x] = [[h2]] ->
  x_hessian E (fun x => snd (T x y)) [x] = [[h3]] -> h1 + h2 + h3 <> 0 ->
  gs_vihp (setup ns E a p (Constrained E d)) [b] = [b / (h1 + h2 + h3)].
Proof.
  intros E T y Ex E1 E2 E3 Nz.
  destruct (vihp_eq ns E a p d [x] [[h1]] [[h2]] [[h3]] [b] Ex E1 E2 E3) as (tA & tB & tC & ->). unfold vihp_constrained. cbn [length].
  set (H := matadd (matadd [[h1]] [[h2]]) [[h3]]). change H with [[h1 + h2 + h3]].
  set (raw := x_linear_solve E _ [[h1 + h2 + h3]] [b]). set (pre := x_linear_solve E _ _ _).
  destruct (choose_best [[h1 + h2 + h3]] [b] raw pre) as (Hc & Hr & _).
  assert (Er : raw = [b / (h1 + h2 + h3)]) by reflexivity.
  assert (Lc : length (choose [[h1 + h2 + h3]] [b] raw pre) = 1%nat).
  { destruct Hc as [-> | ->]; [reflexivity|]. unfold pre. cbn [E fd_lib x_linear_solve]. unfold divide. rewrite map_length. apply rhs_length. }
  assert (Rz : residual [[h1 + h2 + h3]] raw [b] = 0).
  { apply (residual_zero 1); [split; [reflexivity|intros r [<-|[]]; reflexivity]|reflexivity|]. rewrite Er. unfold apply_mat, inner, Rsum. cbn.
    apply (f_equal2 (@cons R)); [field; auto|reflexivity]. }
  assert (Hz : residual [[h1 + h2 + h3]] (choose [[h1 + h2 + h3]] [b] raw pre) [b] = 0) by (pose proof (residual_nonneg [[h1 + h2 + h3]] (choose [[h1 + h2 + h3]] [b] raw pre) [b]); lra).
  apply (residual_zero 1) in Hz; [|split; [reflexivity|intros r [<-|[]]; reflexivity]|reflexivity].
  destruct (choose _ _ _ _) as [|z [|? ?]]; try discriminate. unfold apply_mat, inner, Rsum in Hz. cbn in Hz. injection Hz as Hz.
  apply (f_equal2 (@cons R)); [|reflexivity]. rewrite <- Hz. field. exact Nz.
Qed.
Lemma eq_y v met vo verb : ravel (pr_y (eq_p v met vo verb)) = y_eq v.
Proof. reflexivity. Qed.
Lemma eq_result v : exists o, quadcoil user_ns EQ (A78 v) = Some (Ok o) /\ o_dofs EQ o = [("phi", Arr [1%nat] [v * 1])] /\
  (exists d, o_results EQ o = Constrained EQ d /\ d_h _ d = [0] /\ d_g _ d = []) /\
  reported o "phi0" = v /\ reported_gradient o "phi0" = [1 / 3; 0; 0; 0; 0; 0; 0; 0; 0].
Proof.
  destruct (eq_solved v (NStr "phi0") false false) as (d & Hs & Ex & Ec & El & Em & Eh & Eg).
  destruct d. cbn [ModelSolver.d_x ModelSolver.d_c ModelSolver.d_lam ModelSolver.d_mu ModelSolver.d_h ModelSolver.d_g] in *. subst.
  set (p := eq_p v (NStr "phi0") false false) in *. match type of Hs with _ = Some (Constrained _ ?D) => set (d := D) in * end. set (r := Constrained EQ d).
  assert (Ey : ravel (pr_y p) = y_eq v) by reflexivity.
  assert (Eo : optimum EQ r = [v]) by reflexivity.
  destruct (call_facts user_ns EQ (A78 v) p r "phi0" (scal (v * 1)) [("phi", Arr [1%nat] [v * 1])]) as (o & H1 & H2 & H3 & _ & H5 & H6).
  - apply eq_prepared.
  - exact Hs.
  - reflexivity.
  - reflexivity.
  - rewrite Eo, Ey. apply eq_metric. reflexivity.
  - reflexivity.
  - rewrite Eo. reflexivity.
  - exists o. split; [exact H1|]. split; [exact H2|]. split; [exists d; auto|]. split; [rewrite H5; cbn; ring|].
    cbv zeta in H6. rewrite Eo, Ey in H6.
    assert (Eg' : metric_gradient EQ (setup user_ns EQ (A78 v) p r) (fun x y => real_of (f_metric user_ns EQ (A78 v) p "phi0" x y)) [v] (y_eq v)
      = [1 / 3; 0; 0; 0; 0; 0; 0; 0; 0]).
    { assert (Hv : gs_vihp (setup user_ns EQ (A78 v) p r) [1] = [1 / 3]).
      { transitivity [1 / (2 + 0 + 1)]; [|lring]. unfold r.
        apply (vihp_one eq_opt user_ns (A78 v) p d v 2 0 1 1 eq_refl); [| | |lra].
        all: change (ModelSolver.d_mu _ d) with (@nil R); change (ModelSolver.d_lam _ d) with [0]; change (ModelSolver.d_c _ d) with 1; rewrite Ey; cbn [fd_lib x_hessian]; unfold second; cbn [length seq map bump]; unfold y_eq, p;
          rewrite !(eq_terms v) by reflexivity; cbn [fst snd]; apply (f_equal2 (@cons (list R))); [lring|reflexivity]. }
      unfold metric_gradient. change (x_jac_x EQ) with (fun (f : list R -> list R -> R) x y => central (fun x => f x y) x).
      change (x_jac_y EQ) with (fun (f : list R -> list R -> R) x y => central (fun y => f x y) y). cbv beta.
      replace (central (fun x => real_of (f_metric user_ns EQ (A78 v) p "phi0" x (y_eq v))) [v]) with [1].
      2: { unfold central. cbn [length seq map bump]. unfold p. rewrite !eq_metric by reflexivity. cbn. lring. }
      rewrite Hv. change (x_jvp EQ) with (fun (F : list R -> list R) x v => map2 (fun a b => (a - b) / 2) (F (map2 Rplus x v)) (F (map2 Rminus x v))).
      cbv beta. cbn [map2]. unfold r. rewrite constrained_l. change (l_sum user_ns EQ (A78 v) p _ _ _) with (l_sum user_ns EQ (A78 v) p [] [0] 1).
      unfold central. cbn [length seq map bump y_eq]. unfold l_sum, p. rewrite !(eq_terms v) by reflexivity. rewrite !eq_metric by reflexivity.
      cbn. lring. }
    rewrite Eg' in H6. apply H6. reflexivity.
Qed.
Lemma call78 t : quadcoil user_ns EQ (A78 t) = Some (Ok (O78 t)) /\ reported (O78 t) "phi0" = t /\
  reported_gradient (O78 t) "phi0" = [1 / 3; 0; 0; 0; 0; 0; 0; 0; 0] /\
  (exists d, o_results EQ (O78 t) = Constrained EQ d /\ d_h _ d = [0] /\ d_g _ d = []) /\ o_dofs EQ (O78 t) = [("phi", Arr [1%nat] [t * 1])].
Proof.
  destruct (eq_result t) as (o & H & Hd & Hr & Hv & Hg). unfold O78. rewrite H. cbn [result_of]. auto.
Qed.
Lemma family78 : family (E := EQ) user_ns A78 O78 along_v.
Proof.
  intros t. split; [apply call78|]. split; [|split; [discriminate|split; [reflexivity|]]].
  - split; [reflexivity|]. split; split; auto; discriminate.
  - transitivity (y_eq t); [reflexivity|]. change (ravel (y_dict (A78 0))) with (y_eq 0).
    unfold y_eq, along_v, shift. cbn [combine map fst snd]. lring.
Qed.
Lemma derive78 : is_derive (fun t => reported (O78 t) "phi0") 0 1.
Proof. apply (is_derive_ext (fun t : R => t)); [intros t; symmetry; apply call78|]. apply (is_derive_id 0). Qed.
Lemma inner78 : inner (reported_gradient (O78 0) "phi0") along_v = 1 / 3.
Proof. rewrite (proj1 (proj2 (proj2 (call78 0)))). unfold inner, Rsum, along_v. cbn. field. Qed.

(** ** A constraint that never acts *)
Definition newton : optimiser RN := rule_opt (fun f x g => map (fun a => - a / second f x 0 0) g).
Definition EN := fd_lib newton.
Definition hard : mask := gplus_hard RN.
Definition ge_call (G : R) (met : names_arg) (vo verb : bool) : args unit :=
  tied G "gap" "square" ">=" (-1) met None vo verb hard.
Definition ge_p G met vo verb := prep_of (ge_call G met vo verb) [0] 1 0.
Lemma ge_prepared G met vo verb : prepare user_ns (ge_call G met vo verb) = Ok (ge_p G met vo verb).
Proof.
  refine (prepare_steps user_ns (ge_call G met vo verb) qdU (fn_of (ge_call G met vo verb)) 1 [("phi_scaled", vec_arr [0/1])]
     (Arr [1%nat] [-1 * (0 / 1 * 1 * (0 / 1 * 1) / Rabs 1 - -1 / Rabs 1)]) (Arr [0%nat] [])
     _ eq_refl eq_refl eq_refl _ eq_refl eq_refl _ eq_refl eq_refl eq_refl); reflexivity.
Qed.
Lemma ge_f G met vo verb x : real_of (f_scaled (ge_p G met vo verb) [x]) = (x - G) * (x - G).
Proof. transitivity (0 + (x * 1 - G) * (x * 1 - G) / Rabs 1 * 1); [calc; reflexivity|]. rewrite Rabs_R1. field. Qed.
Lemma ge_g G met vo verb x : list_of (g_scaled (ge_p G met vo verb) [x]) = [- (x * x) - 1].
Proof. transitivity [-1 * (x * 1 * (x * 1) / Rabs 1 - -1 / Rabs 1)]; [calc; reflexivity|]. rewrite Rabs_R1. lring. Qed.
Lemma ge_h G met vo verb x : list_of (h_scaled (ge_p G met vo verb) [x]) = [].
Proof. reflexivity. Qed.
Lemma hard_off x : hard [- (x * x) - 1] [0] 1 = [0].
Proof.
  transitivity [Rmax (- (x * x) - 1) (- 0 / 1)]; [reflexivity|]. apply (f_equal2 (@cons R)); [|reflexivity].
  replace (- 0 / 1) with 0 by field. apply Rmax_right. assert (0 <= x * x) by (apply Rle_0_sqr). lra.
Qed.
Lemma ge_lk G met vo verb (u x : R) :
  l_k RN (solver_problem EN (ge_call G met vo verb) (ge_p G met vo verb)) u 1 [] [0] [x] = (x * u - G) * (x * u - G).
Proof.
  unfold l_k. cbn [solver_problem ModelSolver.p_f ModelSolver.p_g ModelSolver.p_h ModelSolver.p_mask EN fd_lib x_fin].
  change (vmuls RN [x] u) with [x * u]. rewrite ge_f, ge_g.
  replace (gplus_hard RN [- (x * u * (x * u)) - 1] [0] 1) with [0] by (symmetry; apply hard_off). cbn. field.
Qed.
Lemma ge_second G met vo verb (u x : R) :
  second (l_k RN (solver_problem EN (ge_call G met vo verb) (ge_p G met vo verb)) u 1 [] [0]) [x] 0 0 = 2 * u * u.
Proof. unfold second. cbn [bump]. rewrite !ge_lk. field. Qed.
Lemma ge_central G met vo verb (u x : R) :
  central (l_k RN (solver_problem EN (ge_call G met vo verb) (ge_p G met vo verb)) u 1 [] [0]) [x] = [2 * u * (x * u - G)].
Proof. unfold central. cbn [length seq map bump]. rewrite !ge_lk. lring. Qed.
Lemma ge_solved G met vo verb : exists d, solve EN (ge_call G met vo verb) (ge_p G met vo verb) = Some (Constrained EN d) /\
  d_x _ d = [G] /\ d_c _ d = 1 /\ d_lam _ d = [] /\ d_mu _ d = [0] /\ d_h _ d = [] /\ d_g _ d = [- (G * G) - 1].
Proof.
  set (a := ge_call G met vo verb). set (p := ge_p G met vo verb). set (P := solver_problem EN a p).
  set (s := fun (f : list R -> R) x g => map (fun a => - a / second f x 0 0) g).
  destruct (two_pass s P eq_refl eq_refl [0 / 1] 1 [] [0])
    as (d1 & d & Hs & (X1 & C1 & L1 & M1 & U1) & X & C & L & M & Gd & H).
  assert (E0 : moved s P (init_dict RN P [0/1] 1 [] [0]) = [G]).
  { unfold moved. cbn [init_dict d_xunit d_x d_c d_lam d_mu]. change (n_one RN) with 1. change (vdivs RN [0 / 1] 1) with [0 / 1 / 1].
    unfold s, P, a, p. rewrite ge_central. cbn [map]. rewrite ge_second. cbn. lring. }
  rewrite E0 in *.
  assert (Eg : forall x, ModelSolver.p_g RN P [x] = [- (x * x) - 1]) by (intros; apply ge_g).
  assert (Em : forall x, ModelSolver.p_mask RN P [- (x * x) - 1] [0] 1 = [0]) by (intros; apply hard_off).
  assert (Eh : forall x, ModelSolver.p_h RN P [x] = []) by reflexivity.
  assert (L1' : d_lam RN d1 = []) by (rewrite L1, Eh; reflexivity).
  assert (M1' : d_mu RN d1 = [0]) by (rewrite M1, Eg, Em; cbn; lring).
  assert (N1 : unit_of [G] <> 0) by apply unit_nonzero.
  assert (E1 : moved s P d1 = [G]).
  { unfold moved. rewrite X1, U1, C1, L1', M1'. set (u := unit_of [G]) in *. change (vdivs RN [G] u) with [G / u].
    unfold s, P, a, p. rewrite ge_central. cbn [map]. rewrite ge_second. cbn. apply (f_equal2 (@cons R)); [field; auto|reflexivity]. }
  rewrite E1 in *. exists d. split; [|repeat split; auto].
  - match type of Hs with ?S = _ => transitivity (match S with Some d => Some (Constrained EN d) | None => None end); [reflexivity|] end.
    rewrite Hs. reflexivity.
  - change (d_lam RN d = []). rewrite L, L1', Eh. reflexivity.
  - change (d_mu RN d = [0]). rewrite M, M1', Eg, Em. cbn. lring.
  - change (d_g RN d = [- (G * G) - 1]). rewrite Gd. apply Eg.
Qed.
(** Quadratic functions of the second entry. *)
Lemma quad_diff1 k al be ga de ep ze (F : list R -> list R -> R) x0 c0 y0 ys : length ys = k ->
  (forall x' y', length x' = 1%nat -> length y' = S (S k) ->
     F x' y' = al * (nth 0 x' 0 * nth 0 x' 0) + be * (nth 0 x' 0 * nth 1 y' 0) + ga * (nth 1 y' 0 * nth 1 y' 0)
               + de * nth 0 x' 0 + ep * nth 1 y' 0 + ze) ->
  differentiable2 F [x0] (c0 :: y0 :: ys) [2 * al * x0 + be * y0 + de] (0 :: (be * x0 + 2 * ga * y0 + ep) :: repeat 0 k).
Proof.
  intros Lk HF. set (sw := fun l : list R => match l with a :: b :: l => b :: a :: l | _ => l end).
  destruct (quad_diff (S k) al be ga de ep ze (fun x y => F x (sw y)) x0 y0 (c0 :: ys)) as (L1 & L2 & D); [cbn; lia| |].
  { intros x' y' Lx Ly. destruct y' as [|a [|b y']]; try discriminate. cbn [sw nth]. rewrite HF by auto. reflexivity. }
  split; [exact L1|]. split; [cbn in *; lia|]. intros eps He. destruct (D eps He) as (delta & Hd & HD). exists delta. split; auto.
  intros x' y' Lx Ly HS. destruct y' as [|a [|b y']]; try discriminate.
  assert (Es : size1 (minus (b :: a :: y') (y0 :: c0 :: ys)) = size1 (minus (a :: b :: y') (c0 :: y0 :: ys))).
  { unfold size1, minus. cbn [combine map fold_right fst snd]. ring. }
  specialize (HD x' (b :: a :: y') Lx Ly). rewrite Es in HD. specialize (HD HS). cbn [sw] in HD.
  assert (Ei : forall u v, inner (u :: v :: repeat 0 k) (minus (b :: a :: y') (y0 :: c0 :: ys)) = inner (v :: u :: repeat 0 k) (minus (a :: b :: y') (c0 :: y0 :: ys))).
  { intros u w. unfold inner, minus, Rsum. cbn [combine map fold_right fst snd]. ring. }
  change (repeat 0 (S k)) with (0 :: repeat 0 k) in HD. rewrite Ei in HD. exact HD.
Qed.

(** ** C78: the gradient with an inactive constraint *)
Definition y_ge (G : R) : list R := [-1; G; 0; 3; 1; 1; 3; 2; 2].
Definition along_G9 : list R := [0; 1; 0; 0; 0; 0; 0; 0; 0].
Definition A78b (t : R) : args unit := ge_call (5 + t) (NStr "product") false false.
Definition O78b (t : R) : output EN :=
  result_of (quadcoil user_ns EN (A78b t)) (dummy_out EN (Direct EN (free_r 0 (NStr "product") false false))).
Definition p78b : prepared := ge_p (5 + 0) (NStr "product") false false.
Lemma ge_metric G G' x c g y : length y = 7%nat ->
  f_metric user_ns EN (A78b G) (ge_p G' (NStr "product") false false) "product" [x] (c :: g :: y) = Ok (scal (x * 1 * g)).
Proof. intros Ly. destruct y as [|? [|? [|? [|? [|? [|? [|? [|? ?]]]]]]]]; try discriminate. reflexivity. Qed.
Lemma hard_any x w : 0 <= x * x - w -> hard [- (x * x) + w] [0] 1 = [0].
Proof.
  intros h. transitivity [Rmax (- (x * x) + w) (- 0 / 1)]; [reflexivity|]. apply (f_equal2 (@cons R)); [|reflexivity].
  replace (- 0 / 1) with 0 by field. apply Rmax_right. lra.
Qed.
Lemma ge_terms x c g y : length y = 7%nat -> c <= 0 ->
  l_terms user_ns EN (A78b 0) p78b [0] [] 1 [x] (c :: g :: y) = ((x - g) * (x - g), 0, 0).
Proof.
  intros Ly Hc. destruct y as [|? [|? [|? [|? [|? [|? [|? [|? ?]]]]]]]]; try discriminate.
  transitivity (let gp := hard [-1 * (x * 1 * (x * 1) / Rabs 1 - c / Rabs 1)] [0] 1 in
    (0 + (x * 1 - g) * (x * 1 - g) / Rabs 1 * 1, 0 + ldot [0] gp, 1 / 2 * (0 + ldot gp gp))).
  - calc. reflexivity.
  - rewrite Rabs_R1. replace (-1 * (x * 1 * (x * 1) / 1 - c / 1)) with (- (x * x) + c) by field.
    rewrite hard_any. 2: { assert (0 <= x * x) by apply Rle_0_sqr. lra. }
    cbv zeta. unfold ldot. cbn. f_equal; [f_equal; field|field].
Qed.
Lemma size1_self x : size1 (minus x x) = 0.
Proof. unfold size1, minus. induction x as [|a x IH]; cbn; [reflexivity|]. rewrite IH. replace (a - a) with 0 by ring. rewrite Rabs_R0. ring. Qed.
Lemma diff_local (F F' : list R -> list R -> R) x y gx gy r : 0 < r ->
  (forall x' y', length x' = length x -> length y' = length y -> size1 (minus x' x) + size1 (minus y' y) < r -> F' x' y' = F x' y') ->
  differentiable2 F x y gx gy -> differentiable2 F' x y gx gy.
Proof.
  intros Hr HF (L1 & L2 & D). split; [exact L1|]. split; [exact L2|]. intros eps He. destruct (D eps He) as (delta & Hd & HD).
  exists (Rmin delta r). split; [apply Rmin_glb_lt; auto|]. intros x' y' Lx Ly HS.
  pose proof (Rmin_l delta r). pose proof (Rmin_r delta r).
  rewrite HF by (auto; lra). rewrite (HF x y) by (auto; rewrite !size1_self; lra). apply HD; auto; lra.
Qed.
Definition l78 := l_sum user_ns EN (A78b 0) p78b [0] [] 1.
Lemma l78_value x c g y : length y = 7%nat -> c <= 0 -> l78 [x] (c :: g :: y) = (x - g) * (x - g).
Proof. intros Ly Hc. unfold l78, l_sum. rewrite ge_terms by auto. ring. Qed.
Definition Gx78 (x y : list R) : list R := [2 * (nth 0 x 0 - nth 1 y 0)].
Definition Gy78 (x y : list R) : list R := [0; - 2 * (nth 0 x 0 - nth 1 y 0); 0; 0; 0; 0; 0; 0; 0].
Definition M78 : list (list R) := [[0; -2; 0; 0; 0; 0; 0; 0; 0]].
Lemma first_close a y b ys d : size1 (minus (a :: y) (b :: ys)) < d -> a < b + d.
Proof.
  unfold size1, minus. cbn [combine map fold_right fst snd]. intros H.
  assert (0 <= fold_right Rplus 0 (map Rabs (map (fun p => fst p - snd p) (combine y ys)))).
  { clear. generalize (map (fun p => fst p - snd p) (combine y ys)). intros l. induction l as [|u l IH]; cbn; [lra|]. pose proof (Rabs_pos u). lra. }
  pose proof (Rle_abs (a - b)). lra.
Qed.
Lemma size1_nonneg l : 0 <= size1 l.
Proof. unfold size1. induction l as [|u l IH]; cbn; [lra|]. pose proof (Rabs_pos u). lra. Qed.
Lemma twice78 : twice_differentiable l78 [5 + 0] (y_ge (5 + 0)) Gx78 Gy78 [[2]] M78.
Proof.
  split; [|split; [|split; [|split; [|split]]]].
  - exists (1 / 2). split; [lra|]. intros x' y' Lx Ly HS. destruct x' as [|a [|? ?]]; try discriminate. destruct y' as [|c [|g y']]; try discriminate.
    assert (Hc : c < -1 + 1 / 2).
    { apply (first_close c (g :: y') (-1) (tl (y_ge (5 + 0)))). pose proof (size1_nonneg (minus [a] [5 + 0])). unfold y_ge in *. cbn [tl]. lra. }
    apply (diff_local (fun x y => (nth 0 x 0 - nth 1 y 0) * (nth 0 x 0 - nth 1 y 0)) _ _ _ _ _ (1 / 2)); [lra| |].
    + intros x1 y1 Lx1 Ly1 HS1. destruct x1 as [|a1 [|? ?]]; try discriminate. destruct y1 as [|c1 [|g1 y1]]; try discriminate. cbn [nth].
      apply l78_value; [cbn in Ly, Ly1; lia|].
      assert (c1 < c + 1 / 2); [|lra]. apply (first_close c1 (g1 :: y1) c (g :: y')). pose proof (size1_nonneg (minus [a1] [a])). lra.
    + replace (Gx78 _ _) with [2 * 1 * a + -2 * g + 0] by (unfold Gx78; cbn; lring).
      replace (Gy78 _ _) with (0 :: (-2 * a + 2 * 1 * g + 0) :: repeat 0 7) by (unfold Gy78; cbn; lring).
      apply (quad_diff1 7 1 (-2) 1 0 0 0); [cbn in Ly; lia|]. intros. ring.
  - split; [reflexivity|]. intros r [<-|[]]. reflexivity.
  - split; [reflexivity|]. intros r [<-|[]]. reflexivity.
  - split; [reflexivity|]. split; [reflexivity|]. intros [|i] Hi; [|cbn in Hi; lia]. cbn [nth M78].
    replace [2] with [2 * 0 * (5 + 0) + 0 * (5 + 0) + 2] by (lring).
    replace [0; -2; 0; 0; 0; 0; 0; 0; 0] with (0 :: (0 * (5 + 0) + 2 * 0 * (5 + 0) + -2) :: repeat 0 7) by (cbn; lring).
    apply (quad_diff1 7 0 0 0 2 (-2) 0); [reflexivity|]. intros x' y' _ _. unfold Gx78. cbn. ring.
  - intros [|i] [|j] Hi Hj; cbn in Hi, Hj; try lia. reflexivity.
  - exists (repeat 0 9 :: [0; 2; 0; 0; 0; 0; 0; 0; 0] :: repeat (repeat 0 9) 7). cbn [length y_ge seq M78 map nth]. split; [reflexivity|]. split; [reflexivity|].
    cbn [length]. intros i Hi.
    assert (Zc : forall c, (forall x' y', c x' y' = 0) -> differentiable2 c [5 + 0] (y_ge (5 + 0)) [0] (repeat 0 9)).
    { intros c Hc. replace [0] with [2 * 0 * (5 + 0) + 0 * (5 + 0) + 0] by (lring).
      replace (repeat 0 9) with (0 :: (0 * (5 + 0) + 2 * 0 * (5 + 0) + 0) :: repeat 0 7) by (cbn; lring).
      apply (quad_diff1 7 0 0 0 0 0 0); [reflexivity|]. intros x' y' _ _. rewrite Hc. ring. }
    destruct i as [|[|i]].
    + cbn [nth repeat]. apply Zc. intros; reflexivity.
    + cbn [nth]. replace [-2] with [2 * 0 * (5 + 0) + 0 * (5 + 0) + -2] by (lring).
      replace [0; 2; 0; 0; 0; 0; 0; 0; 0] with (0 :: (0 * (5 + 0) + 2 * 0 * (5 + 0) + 2) :: repeat 0 7) by (cbn; lring).
      apply (quad_diff1 7 0 0 0 (-2) 2 0); [reflexivity|]. intros x' y' _ _. unfold Gy78. cbn. ring.
    + do 7 (destruct i as [|i]; [cbn [nth repeat]; apply Zc; intros; reflexivity|]). lia.
Qed.
Lemma path78 : stationary_path Gx78 [5 + 0] (y_ge (5 + 0)) along_G9 (fun t => [5 + t]).
Proof.
  split; [reflexivity|]. split.
  - intros eps He. exists eps. split; auto. intros t Ht. split; [reflexivity|]. unfold size1, minus. cbn. replace (5 + t - (5 + 0)) with t by ring. lra.
  - exists 1. split; [lra|]. intros t _ v [<-|[]]. unfold y_ge, along_G9, shift. cbn. ring.
Qed.
Lemma call78b t : exists d, quadcoil user_ns EN (A78b t) = Some (Ok (O78b t)) /\ o_results EN (O78b t) = Constrained EN d /\
  o_dofs EN (O78b t) = [("phi", Arr [1%nat] [(5 + t) * 1])] /\
  d_x _ d = [5 + t] /\ d_c _ d = 1 /\ d_lam _ d = [] /\ d_mu _ d = [0].
Proof.
  destruct (ge_solved (5 + t) (NStr "product") false false) as (d & Hs & Ex & Ec & El & Em & Eh & Eg).
  set (p := ge_p (5 + t) (NStr "product") false false) in *. set (r := Constrained EN d).
  assert (Eo : optimum EN r = [5 + t]) by exact Ex.
  destruct (call_facts user_ns EN (A78b t) p r "product" (scal ((5 + t) * 1 * (5 + t))) [("phi", Arr [1%nat] [(5 + t) * 1])]) as (o & H1 & H2 & H3 & _).
  - apply ge_prepared.
  - exact Hs.
  - reflexivity.
  - reflexivity.
  - rewrite Eo. change (ravel (pr_y p)) with (y_ge (5 + t)). apply ge_metric. reflexivity.
  - reflexivity.
  - rewrite Eo. reflexivity.
  - exists d. unfold O78b. rewrite H1. cbn [result_of]. repeat split; auto.
Qed.
Lemma family78b : family (E := EN) user_ns A78b O78b along_G9.
Proof.
  intros t. split; [destruct (call78b t) as (d & H & _); exact H|]. split; [|split; [discriminate|split; [reflexivity|]]].
  - split; [reflexivity|]. split; split; auto; discriminate.
  - transitivity (y_ge (5 + t)); [reflexivity|]. change (ravel (y_dict (A78b 0))) with (y_ge (5 + 0)).
    unfold y_ge, along_G9, shift. cbn [combine map fst snd]. lring.
Qed.
Definition gy78 : list R := [0; 5 + 0; 0; 0; 0; 0; 0; 0; 0].
Lemma F78 x y : length x = 1%nat -> length y = 9%nat ->
  real_of (f_metric user_ns EN (A78b 0) p78b "product" x y) = nth 0 x 0 * nth 1 y 0.
Proof.
  intros Lx Ly. destruct x as [|a [|? ?]]; try discriminate. destruct y as [|c [|g y]]; try discriminate. unfold p78b.
  rewrite ge_metric by (cbn in Ly; lia). cbn. ring.
Qed.
Lemma autodiff78 : autodiff_exact EN l78
  (fun x y => real_of (f_metric user_ns EN (A78b 0) p78b "product" x y)) [5 + 0] (y_ge (5 + 0)) gx54 gy78 v54 M78.
Proof.
  split; [|split; [|split]].
  - replace gx54 with [2 * 0 * (5 + 0) + 1 * (5 + 0) + 0] by (unfold gx54; lring).
    replace gy78 with (0 :: (1 * (5 + 0) + 2 * 0 * (5 + 0) + 0) :: repeat 0 7) by (unfold gy78; cbn; lring).
    apply (quad_diff1 7 0 1 0 0 0 0); [reflexivity|]. intros x' y' Lx Ly. rewrite F78 by auto. ring.
  - cbn [EN fd_lib x_jac_x]. unfold central. cbn [length seq map bump]. rewrite !F78 by reflexivity. unfold gx54. cbn [nth y_ge]. lring.
  - cbn [EN fd_lib x_jac_y]. unfold central. cbn [length seq map bump y_ge]. rewrite !F78 by reflexivity. unfold gy78. cbn [nth].
    lring.
  - cbn [EN fd_lib x_jvp x_jac_y]. unfold central. cbn [length seq map bump y_ge map2 v54]. rewrite !l78_value by (reflexivity || lra). cbn [nth M78 map2 apply_mat].
    unfold inner, Rsum. cbn. lring.
Qed.
Lemma vihp78 (d : ModelSolver.dict RN) : d_x _ d = [5 + 0] -> d_c _ d = 1 -> d_lam _ d = [] -> d_mu _ d = [0] ->
  gs_vihp (setup user_ns EN (A78b 0) p78b (Constrained EN d)) gx54 = v54.
Proof.
  intros Ex Ec El Em. destruct d. cbn [ModelSolver.d_x ModelSolver.d_c ModelSolver.d_lam ModelSolver.d_mu ModelSolver.d_h ModelSolver.d_g] in *. subst.
  transitivity [(5 + 0) / (2 + 0 + 0)]; [|unfold v54; lring]. match goal with |- context [Constrained _ ?D] => set (d := D) end.
  apply (vihp_one newton user_ns (A78b 0) p78b d (5 + 0) 2 0 0 (5 + 0) eq_refl); [| | |lra].
  all: change (ModelSolver.d_mu _ d) with [0]; change (ModelSolver.d_lam _ d) with (@nil R); change (ModelSolver.d_c _ d) with 1;
    change (ravel (pr_y p78b)) with (y_ge (5 + 0)); cbn [fd_lib x_hessian]; unfold second; cbn [length seq map bump]; unfold y_ge;
          rewrite !ge_terms by (reflexivity || lra); cbn [fst snd]; apply (f_equal2 (@cons (list R))); [lring|reflexivity].
Qed.
