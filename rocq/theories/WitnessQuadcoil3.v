(** Further concrete calls of quadcoil, used as counterexamples. *)
From Coq Require Import String List Bool Arith ZArith Reals Lra Lia.
From Coquelicot Require Import Coquelicot.
From Verif Require Import Base ModelArray ModelMath ModelQuantity ModelWrapper ModelSurface ModelParams ModelField
  ModelSolver SpecSolver WitnessSolver SpecWrapper WitnessWrapper ModelQuadcoil SpecMath SpecSurface SpecQuadcoil
  ProofLinear ProofQuadcoil ProofQuadcoil2 ProofQuadcoil3 ProofQuadcoil4 ProofQuadcoil5 WitnessSurface WitnessField WitnessQuadcoil
  WitnessQuadcoil2.
Import ListNotations.
Open Scope R_scope.
Open Scope string_scope.
Open Scope list_scope.

(** ** C52: the thresholding function chosen by the user *)
Definition half_rule := fun (_ : list R -> R) (_ g : list R) => map (fun a => - / 2 * a) g.
Definition EH := fd_lib (rule_opt half_rule).
Definition le_call (vo : bool) : args unit := tied 0 "square" "phi0" "<=" 1 (NStr "phi0") None vo false some_mask.
Definition le_p vo := prep_of (le_call vo) [0] 1 0.
Lemma le_prepared vo : prepare user_ns (le_call vo) = Ok (le_p vo).
Proof.
  refine (prepare_steps user_ns (le_call vo) qdU (fn_of (le_call vo)) 1 [("phi_scaled", vec_arr [0/1])]
     (Arr [1%nat] [1 * (0 / 1 * 1 / Rabs 1 - 1 / Rabs 1)]) (Arr [0%nat] [])
     _ eq_refl eq_refl eq_refl _ eq_refl eq_refl _ eq_refl eq_refl eq_refl); reflexivity.
Qed.
Lemma le_f vo x : real_of (f_scaled (le_p vo) [x]) = x * x.
Proof. transitivity (0 + (x * 1) * (x * 1) / Rabs 1 * 1); [calc; reflexivity|]. rewrite Rabs_R1. field. Qed.
Lemma le_g vo x : list_of (g_scaled (le_p vo) [x]) = [x - 1].
Proof. transitivity [1 * (x * 1 / Rabs 1 - 1 / Rabs 1)]; [calc; reflexivity|]. rewrite Rabs_R1. lring. Qed.
Definition le_P vo := solver_problem EH (le_call vo) (le_p vo).
Lemma le_hard vo (u m x : R) : l_k RN (le_P vo) u 1 [] [m] [x]
  = x * u * (x * u) + m * Rmax (x * u - 1) (- m / 1) + 1 / 2 * (Rmax (x * u - 1) (- m / 1) * Rmax (x * u - 1) (- m / 1)).
Proof.
  unfold l_k. cbn [le_P solver_problem ModelSolver.p_f ModelSolver.p_g ModelSolver.p_h ModelSolver.p_mask EH fd_lib x_fin].
  change (vmuls RN [x] u) with [x * u]. rewrite le_f, le_g. cbn. field.
Qed.
Lemma le_user vo (u m x : R) : l_k RN (with_mask (le_P vo) some_mask) u 1 [] [m] [x]
  = x * u * (x * u) + m * (x * u - 1) + 1 / 2 * ((x * u - 1) * (x * u - 1)).
Proof.
  unfold l_k. cbn [with_mask le_P solver_problem ModelSolver.p_f ModelSolver.p_g ModelSolver.p_h ModelSolver.p_mask EH fd_lib x_fin].
  change (vmuls RN [x] u) with [x * u]. rewrite le_f, le_g. cbn. field.
Qed.
Lemma off x : x <= 1 -> Rmax (x - 1) (- 0 / 1) = 0.
Proof. intros h. replace (- 0 / 1) with 0 by field. apply Rmax_right. lra. Qed.
Lemma vnorm1 x : 0 <= x -> vnorm RN [x] = x.
Proof. intros h. unfold vnorm. cbn. replace (0 + x * x) with (x * x) by ring. apply sqrt_square. exact h. Qed.
Lemma le_solved vo : exists d, solve EH (le_call vo) (le_p vo) = Some (Constrained EH d) /\ d_x _ d = [0].
Proof.
  set (P := le_P vo).
  destruct (two_pass half_rule P eq_refl eq_refl [0 / 1] 1 [] [0]) as (d1 & d & Hs & (X1 & C1 & L1 & M1 & U1) & X & _).
  assert (E0 : moved half_rule P (init_dict RN P [0/1] 1 [] [0]) = [0]).
  { unfold moved. cbn [init_dict d_xunit d_x d_c d_lam d_mu]. change (n_one RN) with 1. change (vdivs RN [0 / 1] 1) with [0 / 1 / 1].
    unfold half_rule, central. cbn [length seq map bump]. unfold P. rewrite !le_hard. rewrite !off by lra. cbn. lring. }
  rewrite E0 in *.
  assert (M1' : d_mu RN d1 = [0]).
  { rewrite M1. change (ModelSolver.p_g RN P [0]) with (list_of (g_scaled (le_p vo) [0])). rewrite le_g. cbn. rewrite off by lra. lring. }
  assert (L1' : d_lam RN d1 = []) by (rewrite L1; reflexivity).
  assert (U1' : d_xunit RN d1 = 1).
  { rewrite U1. unfold unit_of. rewrite vnorm1 by lra. cbn. destruct (Req_EM_T 0 0); [reflexivity|lra]. }
  assert (E1 : moved half_rule P d1 = [0]).
  { unfold moved. rewrite X1, U1', C1, L1', M1'. change (vdivs RN [0] 1) with [0 / 1].
    unfold half_rule, central. cbn [length seq map bump]. unfold P. rewrite !le_hard. rewrite !off by lra. cbn. lring. }
  exists d. split; [|change (d_x RN d = [0]); rewrite X; exact E1].
  match type of Hs with ?S = _ => transitivity (match S with Some d => Some (Constrained EH d) | None => None end); [reflexivity|] end.
  rewrite Hs. reflexivity.
Qed.
Lemma le_other vo : exists d, solve_constrained RN (rule_opt half_rule) central (with_mask (le_P vo) some_mask) 1 1 [0 / 1] 1 [] [0] = Some d /\ d_x _ d = [1 / 2].
Proof.
  set (P := with_mask (le_P vo) some_mask).
  destruct (two_pass half_rule P eq_refl eq_refl [0 / 1] 1 [] [0]) as (d1 & d & Hs & (X1 & C1 & L1 & M1 & U1) & X & _).
  assert (E0 : moved half_rule P (init_dict RN P [0/1] 1 [] [0]) = [1 / 2]).
  { unfold moved. cbn [init_dict d_xunit d_x d_c d_lam d_mu]. change (n_one RN) with 1. change (vdivs RN [0 / 1] 1) with [0 / 1 / 1].
    unfold half_rule, central. cbn [length seq map bump]. unfold P. rewrite !le_user. cbn. lring. }
  rewrite E0 in *.
  assert (M1' : d_mu RN d1 = [- 1 / 2]).
  { rewrite M1. change (ModelSolver.p_g RN P [1 / 2]) with (list_of (g_scaled (le_p vo) [1 / 2])). rewrite le_g. cbn. lring. }
  assert (L1' : d_lam RN d1 = []) by (rewrite L1; reflexivity).
  assert (U1' : d_xunit RN d1 = 1 / 2).
  { rewrite U1. unfold unit_of. rewrite vnorm1 by lra. cbn. destruct (Req_EM_T (1 / 2) 0); [lra|reflexivity]. }
  assert (E1 : moved half_rule P d1 = [1 / 2]).
  { unfold moved. rewrite X1, U1', C1, L1', M1'. change (vdivs RN [1 / 2] (1 / 2)) with [1 / 2 / (1 / 2)].
    unfold half_rule, central. cbn [length seq map bump]. unfold P. rewrite !le_user. cbn. lring. }
  exists d. split; [exact Hs|]. rewrite X. exact E1.
Qed.

(** ** C55: the singular values below the cut-off *)
Definition diag2 (a b : R) : matrix := [[a; 0]; [0; b]].
(** A library whose singular value decomposition is right for the matrix
    [I; I] and whose other operations are unused. *)
Definition ES : library :=
  {| x_fin := fun _ => false; x_opt := half_step; x_autograd := central; x_fuel_out := 1; x_fuel_in := 1;
     x_jac_x := fun f x y => []; x_jac_y := fun f x y => []; x_jvp := fun F x v => []; x_hessian := fun f x => [];
     x_solver := unit; x_default := tt; x_auto := tt; x_linear_solve := fun _ _ b => b;
     x_svd := fun _ => ([1; 1], diag2 1 1) |}.
Ltac two x := destruct x as [|? [|? [|? ?]]]; try discriminate.
Lemma svd_diag a b : 0 <= a -> 0 <= b -> is_svd 2 (diag2 a b) [a; b] (diag2 1 1).
Proof.
  intros Ha Hb. split; [reflexivity|]. split; [intros v [<-|[<-|[]]]; auto|]. split.
  - split; [split; [reflexivity|intros r [<-|[<-|[]]]; reflexivity]|].
    split; intros [|[|i]] [|[|j]] Hi Hj; try lia; unfold inner, Rsum; cbn; ring.
  - intros x z Lx Lz. two x. two z. unfold apply_mat, inner, Rsum, diag2. cbn. ring.
Qed.
Lemma svd_swapped a b : 0 <= a -> 0 <= b -> is_svd 2 (diag2 b a) [a; b] [[0; 1]; [1; 0]].
Proof.
  intros Ha Hb. split; [reflexivity|]. split; [intros v [<-|[<-|[]]]; auto|]. split.
  - split; [split; [reflexivity|intros r [<-|[<-|[]]]; reflexivity]|].
    split; intros [|[|i]] [|[|j]] Hi Hj; try lia; unfold inner, Rsum; cbn; ring.
  - intros x z Lx Lz. two x. two z. unfold apply_mat, inner, Rsum, diag2. cbn. ring.
Qed.
Lemma sym_diag a b : symmetric_mat 2 (diag2 a b).
Proof.
  split; [split; [reflexivity|intros r [<-|[<-|[]]]; reflexivity]|]. intros [|[|i]] [|[|j]] Hi Hj; try lia; reflexivity.
Qed.
Lemma inj_diag a b : a <> 0 -> b <> 0 -> injective 2 (diag2 a b).
Proof.
  intros Ha Hb x Lx Hx. two x. unfold apply_mat, inner, Rsum, diag2 in Hx. cbn in Hx.
  assert (H1 : a * r + (0 * r0 + 0) = 0) by (apply Hx; auto). assert (H2 : 0 * r + (b * r0 + 0) = 0) by (apply Hx; auto).
  assert (K1 : a * r = 0) by lra. assert (K2 : b * r0 = 0) by lra. apply Rmult_integral in K1. apply Rmult_integral in K2.
  intros v [<-|[<-|[]]]; tauto.
Qed.
Lemma lring2_diag (a b c d : R) : a = c -> b = d -> [a; b] = [c; d].
Proof. congruence. Qed.
Lemma sel2 tol a b (x y : bool) : (if Rle_dec (tol * smax [a; b]) a then true else false) = x ->
  (if Rle_dec (tol * smax [a; b]) b then true else false) = y -> selection tol [a; b] = [x; y].
Proof. intros <- <-. reflexivity. Qed.
Lemma smax2 a b : 0 <= b -> b <= a -> smax [a; b] = a.
Proof. intros. unfold smax. cbn. rewrite (Rmax_left b 0) by lra. apply Rmax_left. lra. Qed.
Lemma projector_row s1 s2 r1 r2 : projector 2 [s1; s2] [r1; r2]
  = matmul 2 (transpose 2 [r1; r2]) [if s1 then r1 else map (fun _ => 0) r1; if s2 then r2 else map (fun _ => 0) r2].
Proof. reflexivity. Qed.
Ltac mats := unfold projector, matmul, matadd, matscale, transpose, col, matvec, ldot, ladd, diag2; cbn [map2 seq map nth negb fold_right combine fst snd app].
Definition B55 := diag2 0 (1 / 10).
Definition C55 := diag2 1 (1 / 4).
Definition pc55 : precond :=
  preconditioner ES 2 (1 / 2) (diag2 0 0, ([0; 0], diag2 1 1)) (B55, ([1 / 10; 0], [[0; 1]; [1; 0]])) (C55, ([1; 1 / 4], diag2 1 1)).
Lemma selB55 : selection (1 / 2) [1 / 10; 0] = [true; false].
Proof. apply sel2; rewrite smax2 by lra; destruct (Rle_dec _ _); auto; exfalso; lra. Qed.
Lemma selC55 : selection (1 / 2) [1; 1 / 4] = [true; false].
Proof. apply sel2; rewrite smax2 by lra; destruct (Rle_dec _ _); auto; exfalso; lra. Qed.
Lemma selBC55 : selection (1 / 2) [1; 1] = [true; true].
Proof. apply sel2; rewrite smax2 by lra; destruct (Rle_dec _ _); auto; exfalso; lra. Qed.
Ltac mring := repeat (apply (f_equal2 (@cons (list R))); [lring|]); reflexivity.
Lemma projB55 : projector 2 [true; false] [[0; 1]; [1; 0]] = diag2 0 1.
Proof. mats. mring. Qed.
Lemma projC55 : projector 2 [true; false] (diag2 1 1) = diag2 1 0.
Proof. mats. mring. Qed.
Lemma annilC55 : projector 2 [false; true] (diag2 1 1) = diag2 0 1.
Proof. mats. mring. Qed.
Lemma projBC55 : projector 2 [true; true] (diag2 1 1) = diag2 1 1.
Proof. mats. mring. Qed.
Lemma annilBC55 : projector 2 [false; false] (diag2 1 1) = diag2 0 0.
Proof. mats. mring. Qed.
Lemma pc55_value : pc55 = {| pc_proj_C := diag2 1 0; pc_annil_C := diag2 0 1; pc_proj_BC := diag2 1 1; pc_annil_BC := diag2 0 0;
    pc_scale_AC := 0; pc_scale_BC := 10; pc_Ohess := diag2 1 (5 / 4) |}.
Proof.
  unfold pc55, preconditioner. rewrite selB55, selC55. cbn [map negb ES x_svd]. rewrite selBC55. cbn [map negb].
  rewrite projC55, annilC55, projBC55, annilBC55. rewrite !smax2 by lra.
  destruct (Rlt_dec 0 0) as [h|h]; [lra|]. destruct (Rlt_dec 0 (1 / 10)) as [h'|h']; [|lra].
  f_equal; [field|]. unfold B55, C55. mats. mring.
Qed.
Lemma solve55 : matvec (pc_Ohess pc55) [0; 8] = precond_rhs 2 pc55 [0; 1].
Proof. rewrite pc55_value. unfold precond_rhs. cbn [pc_Ohess pc_scale_AC pc_scale_BC pc_annil_BC pc_annil_C pc_proj_BC pc_proj_C]. mats. lring. Qed.
Lemma wrong55 : matvec (matadd (matadd (diag2 0 0) B55) C55) [0; 8] <> [0; 1].
Proof. unfold B55, C55. mats. intros [= h]. lra. Qed.
Lemma stack55 : projector 2 (selection (1 / 2) [1 / 10; 0]) [[0; 1]; [1; 0]] ++ projector 2 (selection (1 / 2) [1; 1 / 4]) (diag2 1 1)
   = [[0; 0]; [0; 1]; [1; 0]; [0; 0]].
Proof. rewrite selB55, selC55, projB55, projC55. reflexivity. Qed.
Lemma svd_stack55 : is_svd 2 [[0; 0]; [0; 1]; [1; 0]; [0; 0]] [1; 1] (diag2 1 1).
Proof.
  split; [reflexivity|]. split; [intros v [<-|[<-|[]]]; lra|]. split.
  - split; [split; [reflexivity|intros r [<-|[<-|[]]]; reflexivity]|].
    split; intros [|[|i]] [|[|j]] Hi Hj; try lia; unfold inner, Rsum; cbn; ring.
  - intros x z Lx Lz. two x. two z. unfold apply_mat, inner, Rsum, diag2. cbn. ring.
Qed.

(** With one column the decomposition is exact. *)
Lemma column_exact opt M : (forall r, In r M -> length r = 1%nat) -> svd_exact (fd_lib opt) 1 (1 / 2) M.
Proof.
  intros HM. split.
  - cbn [fd_lib x_svd column_svd fst snd]. split; [reflexivity|]. split; [intros v [<-|[]]; apply sqrt_pos|]. split.
    + split; [split; [reflexivity|intros r [<-|[]]; reflexivity]|]. split; intros [|i] [|j] Hi Hj; try lia; unfold inner, Rsum; cbn; ring.
    + intros x z Lx Lz. destruct x as [|a [|? ?]]; try discriminate. destruct z as [|b [|? ?]]; try discriminate.
      transitivity (a * b * fold_right Rplus 0 (map (fun x => x * x) (map (fun r => nth 0 r 0) M))).
      * induction M as [|r M IH]; [unfold inner, Rsum; cbn; ring|]. specialize (IH (fun r' h => HM r' (or_intror h))).
        destruct r as [|q [|? ?]]; try (specialize (HM _ (or_introl eq_refl)); discriminate).
        unfold apply_mat, inner, Rsum in *. cbn [map combine fold_right fst snd nth] in *. rewrite IH. ring.
      * unfold Rsum, inner. cbn [seq map nth combine fold_right fst snd].
        assert (Hs : forall S, 0 <= S -> a * b * S = sqrt S * sqrt S * ((1 * a + 0) * (1 * b + 0)) + 0).
        { intros S HS. rewrite sqrt_sqrt by exact HS. ring. }
        unfold lnorm. rewrite map_map in *. apply Hs.
        clear. induction M as [|r M IH]; cbn; [lra|]. pose proof (Rle_0_sqr (nth 0 r 0)). unfold Rsqr in *. lra.
  - intros v [<-|[]] Hv. cbn [fd_lib x_svd column_svd fst fold_right] in Hv. pose proof (sqrt_pos (fold_right Rplus 0 (map (fun x => x * x) (map (fun r => nth 0 r 0) M)))) as Hp.
    unfold lnorm in *. rewrite Rmax_left in Hv by exact Hp. lra.
Qed.

(** ** C79: the objective as a metric and its weights *)
Definition two_call (w : R) : args unit :=
  demo 2 0 [3; 1; 1] (Some [3; 2; 2]) None no_gen true (NTuple ["gap"; "square"]) (WArr (Arr [2%nat] [w; 1])) (UsSeq [UScalar 1; UScalar 1])
    (NTuple []) (NTuple []) (UsSeq []) (VSeq []) (NStr "f_obj") None (Some 1) false false some_mask.
Definition two_p w := prep_of (two_call w) [0] 0 0.
Definition wsum (w x : R) := 0 + (x * 1 - 2) * (x * 1 - 2) / Rabs 1 * w + x * 1 * (x * 1) / Rabs 1 * 1.
Lemma two_prepared w : prepare user_ns (two_call w) = Ok (two_p w).
Proof.
  refine (prepare_steps user_ns (two_call w) qdU (fn_of (two_call w)) 1 [("phi_scaled", vec_arr [0/1])]
     (Arr [0%nat] []) (Arr [0%nat] [])
     (scal _) eq_refl eq_refl eq_refl _ eq_refl eq_refl eq_refl eq_refl _ eq_refl); reflexivity.
Qed.
Lemma two_f w x : real_of (f_scaled (two_p w) [x]) = w * ((x - 2) * (x - 2)) + x * x.
Proof. transitivity (wsum w x); [unfold wsum; calc; reflexivity|]. unfold wsum. rewrite Rabs_R1. field. Qed.
Definition two_fs w := fun x => real_of (f_scaled (two_p w) x).
Definition two_r w : opt_out RN :=
  pack_out RN newton (ModelSolver.step RN newton central (two_fs w) (init_carry RN newton (two_fs w) [0 / 1] 0 10)).
Lemma two_solved w : solve EN (two_call w) (two_p w) = Some (Direct EN (two_r w)).
Proof. reflexivity. Qed.
Lemma quotient (x a b c d : R) : a = c -> b = d -> [x + - a / b] = [x + - c / d].
Proof. intros -> ->. reflexivity. Qed.
Lemma two_optimum w : r_x _ (two_r w) = [0 / 1 + - (2 * w * (0 / 1 - 2) + 2 * (0 / 1)) / (2 * (w + 1))].
Proof.
  set (f := two_fs w).
  transitivity [0 / 1 + - ((f [0 / 1 + 1] - f [0 / 1 + -1]) / 2)
     / ((f [0 / 1 + 1 + 1] - f [0 / 1 + -1 + 1] - f [0 / 1 + 1 + -1] + f [0 / 1 + -1 + -1]) / 4)]; [unfold f; reflexivity|].
  unfold f, two_fs. rewrite !two_f. apply quotient; field.
Qed.
Definition xbest (w : R) : R := 0 / 1 + - (2 * w * (0 / 1 - 2) + 2 * (0 / 1)) / (2 * (w + 1)).
Lemma two_metric w x g i w1 w2 a b c d e f :
  f_metric user_ns EN (two_call w) (two_p w) "f_obj" [x] [g; i; w1; w2; a; b; c; d; e; f]
   = Ok (scal (0 + (x * 1 - g) * (x * 1 - g) / Rabs 1 * w + x * 1 * (x * 1) / Rabs 1 * 1)).
Proof. reflexivity. Qed.
Lemma two_l w x g i w1 w2 a b c d e f :
  l_direct user_ns EN (two_call w) (two_p w) [x] [g; i; w1; w2; a; b; c; d; e; f]
   = 0 + (x * 1 - g) * (x * 1 - g) / Rabs 1 * w1 + x * 1 * (x * 1) / Rabs 1 * w2.
Proof. calc. reflexivity. Qed.
Definition y_two (w : R) : list R := [2; 0; w; 1; 3; 1; 1; 3; 2; 2].
Definition A79 (t : R) : args unit := two_call (1 + t).
Definition O79 (t : R) : output EN :=
  result_of (quadcoil user_ns EN (A79 t)) (dummy_out EN (Direct EN (free_r 0 (NStr "product") false false))).
Definition along_w : list R := [0; 0; 1; 0; 0; 0; 0; 0; 0; 0].
Lemma two_result w : exists o, quadcoil user_ns EN (two_call w) = Some (Ok o) /\ o_dofs EN o = [("phi", Arr [1%nat] [xbest w * 1])] /\
  reported o "f_obj" = w * ((xbest w - 2) * (xbest w - 2)) + xbest w * xbest w /\
  (w = 1 -> reported_gradient o "f_obj" = [2; 0; 0; 0; 0; 0; 0; 0; 0; 0]).
Proof.
  set (p := two_p w). set (r := Direct EN (two_r w)).
  assert (Eo : optimum EN r = [xbest w]) by exact (two_optimum w).
  assert (Ey : ravel (pr_y p) = y_two w) by reflexivity.
  destruct (call_facts user_ns EN (two_call w) p r "f_obj" (scal (wsum w (xbest w))) [("phi", Arr [1%nat] [xbest w * 1])]) as (o & H1 & H2 & H3 & _ & H5 & H6).
  - apply two_prepared.
  - apply two_solved.
  - reflexivity.
  - reflexivity.
  - rewrite Eo, Ey. unfold y_two. apply two_metric.
  - reflexivity.
  - rewrite Eo. reflexivity.
  - exists o. split; [exact H1|]. split; [exact H2|]. split; [rewrite H5; cbn; unfold wsum; rewrite Rabs_R1; field|]. intros ->.
    cbv zeta in H6. rewrite Eo, Ey in H6. assert (Ex : xbest 1 = 1) by (unfold xbest; field). rewrite Ex in *.
    match type of H6 with length ?g = _ -> _ => assert (Eg : g = [2; 0; 0; 0; 0; 0; 0; 0; 0; 0]) end.
    { unfold metric_gradient. change (x_jac_x EN) with (fun (f : list R -> list R -> R) x y => central (fun x => f x y) x).
      change (x_jac_y EN) with (fun (f : list R -> list R -> R) x y => central (fun y => f x y) y). cbv beta.
      match goal with |- context [gs_vihp _ ?b] => replace b with [0] end.
      2: { unfold central. cbn [length seq map bump]. unfold y_two, p. rewrite !two_metric. cbn. rewrite Rabs_R1. lring. }
      replace (gs_vihp (setup user_ns EN (two_call 1) p r) [0]) with [0].
      2: { cbn [setup r gs_vihp]. unfold EN at 1. cbn [fd_lib x_linear_solve]. unfold divide. cbn [map]. unfold Rdiv. rewrite Rmult_0_l. reflexivity. }
      change (x_jvp EN) with (fun (F : list R -> list R) x v => map2 (fun a b => (a - b) / 2) (F (map2 Rplus x v)) (F (map2 Rminus x v))).
      cbv beta. cbn [map2]. change (gs_l (setup user_ns EN (two_call 1) p r)) with (l_direct user_ns EN (two_call 1) p).
      unfold central. cbn [length seq map bump y_two]. unfold p. rewrite !two_l, !two_metric. cbn. rewrite Rabs_R1. lring. }
    rewrite Eg in H6. apply H6. reflexivity.
Qed.
Lemma call79 t : quadcoil user_ns EN (A79 t) = Some (Ok (O79 t)) /\
  reported (O79 t) "f_obj" = (1 + t) * ((xbest (1 + t) - 2) * (xbest (1 + t) - 2)) + xbest (1 + t) * xbest (1 + t) /\
  (t = 0 -> reported_gradient (O79 t) "f_obj" = [2; 0; 0; 0; 0; 0; 0; 0; 0; 0]).
Proof.
  destruct (two_result (1 + t)) as (o & H & Hd & Hv & Hg). unfold O79, A79. rewrite H. cbn [result_of]. split; [reflexivity|]. split; [exact Hv|].
  intros ->. apply Hg. ring.
Qed.
Lemma family79 : family (E := EN) user_ns A79 O79 along_w.
Proof.
  intros t. split; [apply call79|]. split; [|split; [discriminate|split; [reflexivity|]]].
  - split; [reflexivity|]. split; split; auto; discriminate.
  - transitivity (y_two (1 + t)); [reflexivity|]. change (ravel (y_dict (A79 0))) with (y_two (1 + 0)).
    unfold y_two, along_w, shift. cbn [combine map fst snd]. lring.
Qed.
Lemma derive79 : is_derive (fun t => reported (O79 t) "f_obj") 0 1.
Proof.
  apply (is_derive_ext_loc (fun t : R => 4 * (1 + t) / (2 + t))).
  - exists (mkposreal 1 Rlt_0_1). intros t Ht. unfold ball in Ht. cbn in Ht. unfold AbsRing_ball, abs, Hierarchy.minus, plus, opp in Ht. cbn in Ht.
    rewrite (proj1 (proj2 (call79 t))). apply Rabs_def2 in Ht. match goal with |- ?a = ?b => change (@eq R a b) end. unfold xbest. field. lra.
  - auto_derive; [lra|]. field.
Qed.
Lemma inner79 : inner (reported_gradient (O79 0) "f_obj") along_w = 0.
Proof. rewrite (proj2 (proj2 (call79 0)) eq_refl). unfold inner, Rsum, along_w. cbn. ring. Qed.

(** ** C81: surfaces with equal minor radii *)
Definition flat_call : args unit :=
  demo 5 0 [3; 1/2; 1/2] (Some [9; 1/2; 1/2]) None no_gen true (NStr "gap") (WNum 1) (UsNum 1)
    (NTuple []) (NTuple []) (UsSeq []) (VSeq []) (NStr "phi0") None None false false some_mask.
Definition flat_p : prepared :=
  {| pr_qd := qdU; pr_y := y_dict flat_call; pr_fn := fn_of flat_call; pr_unit := 0;
     pr_x0 := [0 / 0]; pr_structure := [("phi_scaled", [1%nat])]; pr_mu0 := []; pr_lam0 := [] |}.
Definition flat_qp := fn_qp (fn_of flat_call).
Lemma flat_Bnormal : exists b, Bnormal flat_qp [0] = Ok b.
Proof.
  eexists. apply ProofField3.Bnormal_made.
  - split; [|split].
    + exists 2%nat, true, 1%nat, 0%nat, (arr1 [0; 1/4]), (arr1 [0; 1/2]), (arr1 [3; 1/2; 1/2]). reflexivity.
    + exists 2%nat, true, 1%nat, 0%nat, (arr1 [0; 1/2]), (arr1 [0; 1/2]), (arr1 [9; 1/2; 1/2]). reflexivity.
    + exists (q_plasma flat_qp), (q_winding flat_qp), 5, 0, None, 1%nat, 0%nat, (Some (arr1 [0; 1/8])), (Some (arr1 [1/16; 1/3])), (Some true). reflexivity.
  - reflexivity.
  - reflexivity.
  - split; [reflexivity|]. change (q_Bnormal flat_qp) with [[0; 0]; [0; 0]]. repeat constructor.
  - reflexivity.
Qed.
Lemma flat_prepared : prepare user_ns flat_call = Ok flat_p.
Proof.
  refine (prepare_steps user_ns flat_call qdU (fn_of flat_call) 0 [("phi_scaled", vec_arr [0/0])] (Arr [0%nat] []) (Arr [0%nat] [])
     (scal _) eq_refl eq_refl eq_refl eq_refl _ eq_refl eq_refl eq_refl _ eq_refl); [|reflexivity].
  destruct flat_Bnormal as [b Hb]. unfold phi_unit_of. cbn [flat_call demo qc_phi_unit qc_distance qc_plasma_dofs qc_winding_dofs qc_plasma_ntor qc_winding_ntor].
  change (repeat 0 (q_ndofs (fn_qp (fn_of flat_call)))) with [0]. fold flat_call. fold flat_qp.
  change (match qc_phi_init flat_call with Some x => x | None => [0] end) with [0]. rewrite Hb. cbn [bind]. change (getclamp [3; 1/2; 1/2] (0 * 2 + 1)) with (Ok (1/2)). cbn [bind].
  change (getclamp [9; 1/2; 1/2] (0 * 2 + 1)) with (Ok (1/2)). cbn [bind]. f_equal.
  replace (1 / 2 - 1 / 2) with 0 by ring. rewrite Rabs_R0. ring.
Qed.
Lemma flat_result : exists o, quadcoil user_ns EU flat_call = Some (Ok o) /\ exists v, lookup "phi" (o_dofs EU o) = Some v /\ el v = [0].
Proof.
  set (r := pack_out RN half_step (ModelSolver.step RN half_step central (fun x => real_of (f_scaled flat_p x))
    (init_carry RN half_step (fun x => real_of (f_scaled flat_p x)) [0 / 0] 0 10))).
  assert (Hs : solve EU flat_call flat_p = Some (Direct EU r)) by reflexivity.
  assert (Hx : exists x, optimum EU (Direct EU r) = [x]) by (eexists; reflexivity). destruct Hx as [x Hx].
  destruct (call_facts user_ns EU flat_call flat_p (Direct EU r) "phi0" (scal (x * 0)) [("phi", Arr [1%nat] [x * 0])]) as (o & H1 & H2 & _).
  - exact flat_prepared.
  - exact Hs.
  - reflexivity.
  - reflexivity.
  - rewrite Hx. reflexivity.
  - reflexivity.
  - rewrite Hx. reflexivity.
  - exists o. split; [exact H1|]. rewrite H2. eexists. split; [reflexivity|]. cbn. rewrite Rmult_0_r. reflexivity.
Qed.

(** ** C56: a generated winding surface *)
Definition ones_gen : generator := fun _ _ _ st mpol ntor => Ok (repeat 1 (legal_length st mpol ntor)).
Lemma ones_honest : honest_generator ones_gen.
Proof. intros pts d nfp st mpol ntor w [= <-]. apply repeat_length. Qed.
Definition gen_call (st : bool) : args unit :=
  demo 5 0 (if st then [3; 1; 1] else [3; 1; 0; 0; 0; 1]) None (Some 1) ones_gen st (NStr "gap") (WNum 1) (UsNum 1)
    (NTuple []) (NTuple []) (UsSeq []) (VSeq []) (NStr "phi0") None (Some 1) false false some_mask.
Lemma gen_made st : exists qp, y_to_qp (gen_call st) qdU (y_dict (gen_call st)) = Ok qp.
Proof. destruct st; eexists; reflexivity. Qed.
