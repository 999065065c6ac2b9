(** Concrete calls of quadcoil used as examples and counterexamples. *)
From Coq Require Import String List Bool Arith ZArith Reals Lra Lia.
From Coquelicot Require Import Coquelicot.
From Verif Require Import Base ModelArray ModelMath ModelQuantity ModelWrapper ModelSurface ModelParams ModelField
  ModelSolver SpecSolver WitnessSolver SpecWrapper WitnessWrapper ModelQuadcoil SpecMath SpecSurface SpecQuadcoil
  ProofLinear ProofQuadcoil ProofQuadcoil2 ProofQuadcoil3 ProofQuadcoil4 ProofQuadcoil5 WitnessSurface WitnessField.
Import ListNotations.
Open Scope R_scope.
Open Scope string_scope.
Open Scope list_scope.

(** ** A library of finite differences, exact on quadratic functions *)
(** The vector with its i-th entry moved by h. *)
Fixpoint bump (i : nat) (h : R) (x : list R) : list R :=
  match x, i with
  | [], _ => []
  | a :: x, O => (a + h) :: x
  | a :: x, S i => a :: bump i h x
  end.
Definition central (f : list R -> R) (x : list R) : list R :=
  map (fun i => (f (bump i 1 x) - f (bump i (-1) x)) / 2) (seq 0 (length x)).
Definition second (f : list R -> R) (x : list R) (i j : nat) : R :=
  (f (bump i 1 (bump j 1 x)) - f (bump i 1 (bump j (-1) x)) - f (bump i (-1) (bump j 1 x)) + f (bump i (-1) (bump j (-1) x))) / 4.
(** One column: the norm and the unit vector. *)
Definition column_svd (M : matrix) : list R * matrix := ([lnorm (map (fun r => nth 0 r 0) M)], [[1]]).
(** Division for 1 by 1 systems. *)
Definition divide (M : matrix) (b : list R) : list R := map (fun v => v / nth 0 (nth 0 M []) 0) b.
Definition fd_lib (opt : optimiser RN) : library :=
  {| x_fin := fun _ => false; x_opt := opt; x_autograd := central; x_fuel_out := 1; x_fuel_in := 1;
     x_jac_x := fun f x y => central (fun x => f x y) x;
     x_jac_y := fun f x y => central (fun y => f x y) y;
     x_jvp := fun F x v => map2 (fun a b => (a - b) / 2) (F (map2 Rplus x v)) (F (map2 Rminus x v));
     x_hessian := fun f x => map (fun i => map (second f x i) (seq 0 (length x))) (seq 0 (length x));
     x_solver := unit; x_default := tt; x_auto := tt;
     x_linear_solve := fun _ => divide; x_svd := column_svd |}.

(** ** Quantities defined by the user: functions of the first coefficient and
    of the poloidal current *)
Definition field1 (f : R -> R -> R) : field params := fun q d =>
  bind (getitem d "phi") (fun a => Ok (scal (f (nth 0 (el a) 0) (q_G q)))).
Definition qdummy : quantity params :=
  {| q_raw := field1 (fun x _ => x); q_approx := fun _ _ _ _ => Raise ValueError; q_slack_f := fun _ _ _ => Raise ValueError;
     q_slack_g := None; q_slack_h := None; q_slack_init := None; q_compat := [] |}.
Definition quant (f : R -> R -> R) : quantity params := quantity_of (generate_c2 (field1 f) all_uses) qdummy.
(** The potential itself as a field. *)
Definition whole_phi : quantity params :=
  quantity_of (generate_c2 (fun (_ : params) d => getitem d "phi") all_uses) qdummy.
Definition user_ns : namespace params := fun n =>
  if String.eqb n "gap" then Some (AQuantity (quant (fun x G => (x - G) * (x - G))))
  else if String.eqb n "square" then Some (AQuantity (quant (fun x _ => x * x)))
  else if String.eqb n "phi0" then Some (AQuantity (quant (fun x _ => x)))
  else if String.eqb n "product" then Some (AQuantity (quant (fun x G => x * G)))
  else if String.eqb n "whole" then Some (AQuantity whole_phi)
  else if String.eqb n "jnp" then Some AOther
  else None.

Definition loose : tolerances := Tolerances 0 1 0 0 0 0 0 0 (1/2).
(** A call on two circular tori with one unknown. *)
Definition demo {L} (G I : R) (pd : list R) (wd : option (list R)) (dist : option R) (gen : generator) (wst : bool)
    (obj : names_arg) (w : weight_arg) (ou : units_arg)
    (cn ct : names_arg) (cu : units_arg) (cv : values_arg) (met : names_arg)
    (x0 : option (list R)) (unit : option R) (vo verb : bool) (m : mask) : args L :=
  {| qc_nfp := 2; qc_stellsym := true; qc_plasma_mpol := 1; qc_plasma_ntor := 0; qc_plasma_dofs := pd;
     qc_G := G; qc_I := I; qc_mpol := 1; qc_ntor := 0; qc_qphi := Some [0; 1/8]; qc_qtheta := Some [1/16; 1/3];
     qc_phi_init := x0; qc_phi_unit := unit; qc_plasma_stellsym := wst;
     qc_plasma_qphi := Some [0; 1/4]; qc_plasma_qtheta := Some [0; 1/2]; qc_Bnormal := None;
     qc_distance := dist; qc_generator := gen; qc_winding_dofs := wd; qc_winding_mpol := 1; qc_winding_ntor := 0;
     qc_winding_qphi := Some [0; 1/2]; qc_winding_qtheta := Some [0; 1/2]; qc_winding_stellsym := true;
     qc_objective_name := obj; qc_objective_weight := w; qc_objective_unit := ou;
     qc_constraint_name := cn; qc_constraint_type := ct; qc_constraint_unit := cu; qc_constraint_value := cv;
     qc_metric_name := met; qc_value_only := vo; qc_smoothing := None; qc_smoothing_params := [];
     qc_verbose := verb; qc_merge := false; qc_c_init := 1; qc_c_growth := 2; qc_tol := loose;
     qc_maxiter_tot := 1; qc_maxiter_inner := 1; qc_gplus_mask := m; qc_linear_solver := None |}.
Definition no_gen : generator := fun _ _ _ _ _ _ => Raise ValueError.
Definition some_mask : mask := fun g _ _ => g.

(** ** One step of gradient descent *)
Definition half_step : optimiser RN := gd_opt RN (fun a : R => - / 2 * a).
Definition EU := fd_lib half_step.
Definition free (G : R) (met : names_arg) (vo verb : bool) : args unit :=
  demo G 0 [3; 1; 1] (Some [3; 2; 2]) None no_gen true (NStr "gap") (WNum 1) (UsNum 1)
    (NTuple []) (NTuple []) (UsSeq []) (VSeq []) met None (Some 1) vo verb some_mask.

Lemma prepare_steps {L} ns (a : args L) qd fn u x g0 h0 f0 :
  default_quadpoints a = Ok qd -> one_surface a = Ok tt ->
  input_checking (qc_objective_name a) (qc_objective_weight a) (qc_objective_unit a)
            (qc_constraint_name a) (qc_constraint_type a) (qc_constraint_unit a) (qc_constraint_value a) = Ok tt ->
  f_g_h_from_y ns a qd (y_dict a) = Ok fn ->
  let phi_init := match qc_phi_init a with Some x => x | None => repeat 0 (q_ndofs (fn_qp fn)) end in
  phi_unit_of a (fn_qp fn) phi_init = Ok u ->
  x_dict (fn_aux fn) (fn_qp fn) phi_init u = Ok x ->
  let p := {| pr_qd := qd; pr_y := y_dict a; pr_fn := fn; pr_unit := u; pr_x0 := ravel x;
              pr_structure := structure x; pr_mu0 := map (fun _ => 0) (el g0); pr_lam0 := map (fun _ => 0) (el h0) |} in
  g_scaled p (ravel x) = Ok g0 -> h_scaled p (ravel x) = Ok h0 -> f_scaled p (ravel x) = Ok f0 -> isscalar f0 = true ->
  prepare ns a = Ok p.
Proof.
  intros H1 H2 H3 H4 phi H5 H6 p H7 H8 H9 H10. unfold prepare. rewrite H1. cbn [bind]. rewrite H2. cbn [bind]. rewrite H3. cbn [bind].
  rewrite H4. cbn [bind]. fold phi. rewrite H5. cbn [bind]. rewrite H6. cbn [bind].
  unfold g_scaled, h_scaled, f_scaled in *. cbn [pr_structure pr_unit pr_fn p] in *.
  rewrite H7. cbn [bind]. rewrite H8. cbn [bind]. rewrite H9. cbn [bind]. rewrite H10. reflexivity.
Qed.

Definition qdU : quadpoints := {| qd_plasma_phi := [0; 1/4]; qd_plasma_theta := [0;1/2]; qd_winding_phi := [0;1/2];
  qd_winding_theta := [0;1/2]; qd_phi := [0;1/8]; qd_theta := [1/16;1/3] |}.
Definition no_fn (qp : params) : functions :=
  {| fn_qp := qp; fn_f := fun _ _ => Raise ValueError; fn_g := fun _ _ => Raise ValueError; fn_h := fun _ _ => Raise ValueError;
     fn_ng := 0; fn_nh := 0; fn_aux := [] |}.
Definition fn_of (a : args unit) : functions :=
  match f_g_h_from_y user_ns a qdU (y_dict a) with Ok fn => fn | Raise _ => no_fn (device 1 1 1 [] true) end.
Definition free_p (G : R) met vo verb : prepared :=
  {| pr_qd := qdU; pr_y := y_dict (free G met vo verb); pr_fn := fn_of (free G met vo verb); pr_unit := 1;
     pr_x0 := [0 / 1]; pr_structure := [("phi_scaled", [1%nat])]; pr_mu0 := []; pr_lam0 := [] |}.
Lemma free_fn G met vo verb : f_g_h_from_y user_ns (free G met vo verb) qdU (y_dict (free G met vo verb)) = Ok (fn_of (free G met vo verb)).
Proof. reflexivity. Qed.
Lemma free_prepared G met vo verb : prepare user_ns (free G met vo verb) = Ok (free_p G met vo verb).
Proof.
  refine (prepare_steps user_ns (free G met vo verb) qdU (fn_of (free G met vo verb)) 1 [("phi_scaled", vec_arr [0/1])] (Arr [0%nat] []) (Arr [0%nat] [])
     _ eq_refl eq_refl eq_refl (free_fn G met vo verb) eq_refl eq_refl eq_refl eq_refl eq_refl eq_refl).
Qed.
Ltac lring := repeat (apply (f_equal2 (@cons R)); [first [ring | field]|]); reflexivity.
Ltac calc := lazy -[Rplus Rminus Rmult Rdiv Ropp Rinv IZR Rabs].

Lemma gd_run s ag x0 f fs xs gt : run_opt RN (gd_opt RN s) ag 1 x0 f 1 fs xs gt
  = Some (pack_out RN (gd_opt RN s) (ModelSolver.step RN (gd_opt RN s) ag f (init_carry RN (gd_opt RN s) f x0 fs 10))).
Proof. reflexivity. Qed.
Definition free_r (G : R) met vo verb : opt_out RN :=
  pack_out RN half_step (ModelSolver.step RN half_step central (fun x => real_of (f_scaled (free_p G met vo verb) x))
    (init_carry RN half_step (fun x => real_of (f_scaled (free_p G met vo verb) x)) [0 / 1] 0 10)).
Lemma free_solved G met vo verb : solve EU (free G met vo verb) (free_p G met vo verb) = Some (Direct EU (free_r G met vo verb)).
Proof. reflexivity. Qed.
Lemma free_value G met vo verb x : real_of (f_scaled (free_p G met vo verb) [x]) = (x - G) * (x - G).
Proof. transitivity (0 + (x * 1 - G) * (x * 1 - G) / Rabs 1 * 1); [calc; reflexivity|]. rewrite Rabs_R1. field. Qed.
Lemma free_optimum G met vo verb : r_x _ (free_r G met vo verb) = [G].
Proof.
  set (f := fun x => real_of (f_scaled (free_p G met vo verb) x)).
  transitivity [0 / 1 + - / 2 * ((f [0 / 1 + 1] - f [0 / 1 + -1]) / 2)]; [unfold f; reflexivity|].
  unfold f. rewrite !free_value. lring.
Qed.
Definition result_of {E} (r : option (result (output E))) (d : output E) : output E :=
  match r with Some (Ok o) => o | _ => d end.
Definition dummy_out (E : library) (r : solve_results E) : output E :=
  {| o_out := []; o_qp := device 1 1 1 [] true; o_dofs := []; o_results := r |}.

Lemma free_metric G G' met vo verb met' vo' verb' m q x g i a b c d e f : m <> "f_obj" -> user_ns m = Some (AQuantity (quant q)) ->
  f_metric user_ns EU (free G met vo verb) (free_p G' met' vo' verb') m [x] [g; i; a; b; c; d; e; f] = Ok (scal (q (x * 1) g)).
Proof.
  intros N H. apply String.eqb_neq in N. unfold f_metric. rewrite N. unfold get_quantity. rewrite H.
  reflexivity.
Qed.
Lemma free_l G met vo verb x g i a b c d e f :
  l_direct user_ns EU (free G met vo verb) (free_p G met vo verb) [x] [g; i; a; b; c; d; e; f] = (x - g) * (x - g).
Proof. transitivity (0 + (x * 1 - g) * (x * 1 - g) / Rabs 1 * 1); [calc; reflexivity|]. rewrite Rabs_R1. field. Qed.

Lemma finish_ex ns E (a : args (x_solver E)) p r d : unscale (pr_structure p) (pr_unit p) (optimum E r) = Ok d -> qc_value_only a = false ->
  (forall m, In m (metrics a) -> exists v, f_metric ns E a p m (optimum E r) (ravel (pr_y p)) = Ok v /\ isscalar v = true) ->
  exists o, finish ns E a p r = Ok o /\ o_dofs E o = d /\ o_results E o = r /\ o_qp E o = fn_qp (pr_fn p).
Proof.
  intros U V H. unfold finish. rewrite U. cbn [bind]. rewrite V.
  match goal with |- context [grad_metrics ns E ?names ?a ?p ?r ?o] =>
    destruct (grad_metrics_ex ns E names a p r o H) as [out ->] end.
  cbn [bind]. eexists. split; [reflexivity|]. repeat split.
Qed.
Lemma free_call G m q verb : m <> "f_obj" -> user_ns m = Some (AQuantity (quant q)) ->
  exists o, quadcoil user_ns EU (free G (NStr m) false verb) = Some (Ok o) /\ o_results EU o = Direct EU (free_r G (NStr m) false verb) /\
    o_dofs EU o = [("phi", Arr [1%nat] [G * 1])].
Proof.
  intros N H. set (p := free_p G (NStr m) false verb). set (r := Direct EU (free_r G (NStr m) false verb)).
  assert (Ex : optimum EU r = [G]) by exact (free_optimum G (NStr m) false verb).
  destruct (finish_ex user_ns EU (free G (NStr m) false verb) p r [("phi", Arr [1%nat] [G * 1])]) as (o & Ho & Hd & Hr & _).
  - rewrite Ex. reflexivity.
  - reflexivity.
  - intros m' [<-|[]]. exists (scal (q (G * 1) G)). split; [|reflexivity]. rewrite Ex.
    change (ravel (pr_y p)) with [G; 0; 3; 1; 1; 3; 2; 2]. apply (free_metric G G (NStr m) false verb (NStr m) false verb m q); auto.
  - exists o. split; [|split; [exact Hr|exact Hd]]. unfold quadcoil. rewrite free_prepared, free_solved. f_equal. exact Ho.
Qed.

(** ** Derivatives of quadratic functions of the first entries *)
Lemma inner_zeros k l : inner (repeat 0 k) l = 0.
Proof. rewrite inner_ldot. apply ldot_repeat0. Qed.
Lemma quad_diff k al be ga de ep ze (F : list R -> list R -> R) x0 y0 ys : length ys = k ->
  (forall x' y', length x' = 1%nat -> length y' = S k ->
     F x' y' = al * (nth 0 x' 0 * nth 0 x' 0) + be * (nth 0 x' 0 * nth 0 y' 0) + ga * (nth 0 y' 0 * nth 0 y' 0)
               + de * nth 0 x' 0 + ep * nth 0 y' 0 + ze) ->
  differentiable2 F [x0] (y0 :: ys) [2 * al * x0 + be * y0 + de] ((be * x0 + 2 * ga * y0 + ep) :: repeat 0 k).
Proof.
  intros L HF. split; [reflexivity|]. split; [cbn; rewrite repeat_length; lia|]. intros eps He.
  set (K := Rabs al + Rabs be + Rabs ga + 1).
  assert (PK : 0 < K) by (unfold K; pose proof (Rabs_pos al); pose proof (Rabs_pos be); pose proof (Rabs_pos ga); lra).
  exists (eps / K). split; [apply Rdiv_lt_0_compat; auto|]. intros x' y' Lx Ly HS. cbn [length] in Lx, Ly.
  rewrite (HF x' y') by (auto; lia). rewrite (HF [x0] (y0 :: ys)) by (cbn; lia).
  destruct x' as [|a [|? ?]]; try discriminate. destruct y' as [|b yr]; try discriminate.
  unfold minus, size1, inner, Rsum in *. cbn [combine map fold_right fst snd nth] in *.
  fold (inner (repeat 0 k) (map (fun p => fst p - snd p) (combine yr ys))).
  assert (Z : fold_right Rplus 0 (map (fun p => fst p * snd p) (combine (repeat 0 k) (map (fun p => fst p - snd p) (combine yr ys)))) = 0)
    by apply (inner_zeros k). rewrite Z.
  set (S := fold_right Rplus 0 (map Rabs (map (fun p => fst p - snd p) (combine yr ys)))) in *.
  assert (PS : 0 <= S). { unfold S. clear. induction (map (fun p => fst p - snd p) (combine yr ys)) as [|u l IH]; cbn; [lra|]. pose proof (Rabs_pos u). lra. }
  set (da := a - x0) in *. set (db := b - y0) in *.
  replace (al * (a * a) + be * (a * b) + ga * (b * b) + de * a + ep * b + ze
     - (al * (x0 * x0) + be * (x0 * y0) + ga * (y0 * y0) + de * x0 + ep * y0 + ze)
     - ((2 * al * x0 + be * y0 + de) * da + 0) - ((be * x0 + 2 * ga * y0 + ep) * db + 0))
    with (al * (da * da) + be * (da * db) + ga * (db * db)) by (unfold da, db; ring).
  set (T := Rabs da + 0 + (Rabs db + S)) in *.
  pose proof (Rabs_pos da) as Pa. pose proof (Rabs_pos db) as Pb.
  assert (Ha : Rabs da <= T) by (unfold T; lra). assert (Hb : Rabs db <= T) by (unfold T; lra).
  assert (B1 : Rabs da * Rabs da <= T * T) by (apply Rmult_le_compat; lra).
  assert (B2 : Rabs da * Rabs db <= T * T) by (apply Rmult_le_compat; lra).
  assert (B3 : Rabs db * Rabs db <= T * T) by (apply Rmult_le_compat; lra).
  apply Rle_trans with (K * (T * T)).
  - eapply Rle_trans; [apply Rabs_triang|]. eapply Rle_trans; [apply Rplus_le_compat_r, Rabs_triang|]. rewrite !Rabs_mult.
    pose proof (Rmult_le_compat_l (Rabs al) _ _ (Rabs_pos al) B1). pose proof (Rmult_le_compat_l (Rabs be) _ _ (Rabs_pos be) B2).
    pose proof (Rmult_le_compat_l (Rabs ga) _ _ (Rabs_pos ga) B3). unfold K. assert (0 <= T * T) by (apply Rmult_le_pos; unfold T; lra). lra.
  - assert (HT : K * T <= eps).
    { left. apply Rmult_lt_reg_l with (/ K); [apply Rinv_0_lt_compat; auto|]. rewrite <- Rmult_assoc, Rinv_l, Rmult_1_l by lra.
      unfold Rdiv in HS. rewrite Rmult_comm. exact HS. }
    replace (K * (T * T)) with (K * T * T) by ring. apply Rmult_le_compat_r; auto. unfold T. lra.
Qed.
Ltac eight y := let h := fresh in
  destruct y as [|? [|? [|? [|? [|? [|? [|? [|? [|? ?]]]]]]]]]; try discriminate.

(** ** C54: the minimiser follows the poloidal current *)
Definition y_free (G : R) : list R := [G; 0; 3; 1; 1; 3; 2; 2].
Definition along_G : list R := [1; 0; 0; 0; 0; 0; 0; 0].
Definition A54 (t : R) : args unit := free (5 + t) (NStr "product") false false.
Definition O54 (t : R) : output EU :=
  result_of (quadcoil user_ns EU (A54 t)) (dummy_out EU (Direct EU (free_r 0 (NStr "product") false false))).
Definition Gx54 (x y : list R) : list R := [2 * (nth 0 x 0 - nth 0 y 0)].
Definition Gy54 (x y : list R) : list R := [- 2 * (nth 0 x 0 - nth 0 y 0); 0; 0; 0; 0; 0; 0; 0].
Definition M54 : list (list R) := [[-2; 0; 0; 0; 0; 0; 0; 0]].

Lemma call54 t : quadcoil user_ns EU (A54 t) = Some (Ok (O54 t)) /\
  o_results EU (O54 t) = Direct EU (free_r (5 + t) (NStr "product") false false) /\ o_dofs EU (O54 t) = [("phi", Arr [1%nat] [(5 + t) * 1])].
Proof.
  destruct (free_call (5 + t) "product" (fun x G => x * G) false) as (o & H & Hr & Hd); [discriminate|reflexivity|].
  unfold O54. unfold A54. rewrite H. cbn [result_of]. auto.
Qed.
Lemma family54 : family (E := EU) user_ns A54 O54 along_G.
Proof.
  intros t. split; [apply call54|]. split; [|split; [discriminate|split; [reflexivity|]]].
  - split; [reflexivity|]. split; split; auto; discriminate.
  - transitivity (y_free (5 + t)); [reflexivity|]. change (ravel (y_dict (A54 0))) with (y_free (5 + 0)).
    unfold y_free, along_G, shift. cbn [combine map fst snd]. lring.
Qed.
Lemma twice54 x : let p := free_p (5 + 0) (NStr "product") false false in
  twice_differentiable (l_direct user_ns EU (A54 0) p) [x] (y_free (5 + 0)) Gx54 Gy54 [[2]] M54.
Proof.
  intros p. assert (L : forall x' y', length x' = 1%nat -> length y' = 8%nat ->
    l_direct user_ns EU (A54 0) p x' y' = (nth 0 x' 0 - nth 0 y' 0) * (nth 0 x' 0 - nth 0 y' 0)).
  { intros x' y' Lx Ly. destruct x' as [|a [|? ?]]; try discriminate. eight y'. apply free_l. }
  split; [|split; [|split; [|split; [|split]]]].
  - exists 1. split; [lra|]. intros x' y' Lx Ly _. destruct x' as [|a [|? ?]]; try discriminate. eight y'.
    replace (Gx54 _ _) with [2 * 1 * a + -2 * r + 0] by (unfold Gx54; cbn; lring).
    replace (Gy54 _ _) with ((-2 * a + 2 * 1 * r + 0) :: repeat 0 7) by (unfold Gy54; cbn; lring).
    apply (quad_diff 7 1 (-2) 1 0 0 0); [reflexivity|]. intros x' y' Lx' Ly'. rewrite L by auto. ring.
  - split; [reflexivity|]. intros r [<-|[]]. reflexivity.
  - split; [reflexivity|]. intros r [<-|[]]. reflexivity.
  - split; [reflexivity|]. split; [reflexivity|]. intros [|i] Hi; [|cbn in Hi; lia]. cbn [nth M54].
    replace [2] with [2 * 0 * x + 0 * (5 + 0) + 2] by (lring).
    replace [-2; 0; 0; 0; 0; 0; 0; 0] with ((0 * x + 2 * 0 * (5 + 0) + -2) :: repeat 0 7) by (cbn; lring).
    apply (quad_diff 7 0 0 0 2 (-2) 0); [reflexivity|]. intros x' y' _ _. unfold Gx54. cbn. ring.
  - intros [|i] [|j] Hi Hj; cbn in Hi, Hj; try lia. reflexivity.
  - exists ([2; 0; 0; 0; 0; 0; 0; 0] :: repeat (repeat 0 8) 7). cbn [length y_free seq M54 map nth]. split; [reflexivity|]. split; [reflexivity|].
    cbn [length]. intros i Hi.
    assert (Zc : forall c, (forall x' y', c x' y' = 0) -> differentiable2 c [x] (y_free (5 + 0)) [0] (repeat 0 8)).
    { intros c Hc. replace [0] with [2 * 0 * x + 0 * (5 + 0) + 0] by (lring).
      replace (repeat 0 8) with ((0 * x + 2 * 0 * (5 + 0) + 0) :: repeat 0 7) by (cbn; lring).
      apply (quad_diff 7 0 0 0 0 0 0); [reflexivity|]. intros x' y' _ _. rewrite Hc. ring. }
    destruct i as [|i].
    + cbn [nth]. replace [-2] with [2 * 0 * x + 0 * (5 + 0) + -2] by (lring).
      replace [2; 0; 0; 0; 0; 0; 0; 0] with ((0 * x + 2 * 0 * (5 + 0) + 2) :: repeat 0 7) by (cbn; lring).
      apply (quad_diff 7 0 0 0 (-2) 2 0); [reflexivity|]. intros x' y' _ _. unfold Gy54. cbn. ring.
    + do 7 (destruct i as [|i]; [cbn [nth repeat]; apply Zc; intros; reflexivity|]). lia.
Qed.
Lemma path54 : stationary_path Gx54 [5 + 0] (y_free (5 + 0)) along_G (fun t => [5 + t]).
Proof.
  split; [reflexivity|]. split.
  - intros eps He. exists eps. split; auto. intros t Ht. split; [reflexivity|]. unfold size1, minus. cbn. replace (5 + t - (5 + 0)) with t by ring. lra.
  - exists 1. split; [lra|]. intros t _ v [<-|[]]. unfold y_free, along_G, shift. cbn. ring.
Qed.

Definition v54 : list R := [(5 + 0) / 2].
Definition gx54 : list R := [5 + 0].
Definition gy54 : list R := [5 + 0; 0; 0; 0; 0; 0; 0; 0].
Definition p54 : prepared := free_p (5 + 0) (NStr "product") false false.
Definition r54 : solve_results EU := Direct EU (free_r (5 + 0) (NStr "product") false false).
Lemma opt54 : optimum EU r54 = [5 + 0].
Proof. exact (free_optimum (5 + 0) (NStr "product") false false). Qed.
Lemma F54 x y : length x = 1%nat -> length y = 8%nat ->
  real_of (f_metric user_ns EU (A54 0) p54 "product" x y) = nth 0 x 0 * nth 0 y 0.
Proof.
  intros Lx Ly. destruct x as [|a [|? ?]]; try discriminate. eight y. unfold A54, p54.
  rewrite (free_metric _ _ _ _ _ _ _ _ "product" (fun x G => x * G)) by (discriminate || reflexivity). cbn. ring.
Qed.
Lemma l54 x y : length x = 1%nat -> length y = 8%nat ->
  l_direct user_ns EU (A54 0) p54 x y = (nth 0 x 0 - nth 0 y 0) * (nth 0 x 0 - nth 0 y 0).
Proof. intros Lx Ly. destruct x as [|a [|? ?]]; try discriminate. eight y. apply free_l. Qed.
Lemma autodiff54 : autodiff_exact EU (l_direct user_ns EU (A54 0) p54)
  (fun x y => real_of (f_metric user_ns EU (A54 0) p54 "product" x y)) [5 + 0] (y_free (5 + 0)) gx54 gy54 v54 M54.
Proof.
  split; [|split; [|split]].
  - replace gx54 with [2 * 0 * (5 + 0) + 1 * (5 + 0) + 0] by (unfold gx54; lring).
    replace gy54 with ((1 * (5 + 0) + 2 * 0 * (5 + 0) + 0) :: repeat 0 7) by (unfold gy54; cbn; lring).
    apply (quad_diff 7 0 1 0 0 0 0); [reflexivity|]. intros x' y' Lx Ly. rewrite F54 by auto. ring.
  - cbn [EU fd_lib x_jac_x]. unfold central. cbn [length seq map bump]. rewrite !F54 by reflexivity. unfold gx54. cbn [nth y_free]. lring.
  - cbn [EU fd_lib x_jac_y]. unfold central. cbn [length seq map bump y_free]. rewrite !F54 by reflexivity. unfold gy54. cbn [nth].
    lring.
  - cbn [EU fd_lib x_jvp x_jac_y]. unfold central. cbn [length seq map bump y_free map2 v54]. rewrite !l54 by reflexivity. cbn [nth M54 map2 apply_mat].
    unfold inner, Rsum. cbn. lring.
Qed.
Lemma vihp54 : gs_vihp (setup user_ns EU (A54 0) p54 r54) gx54 = v54.
Proof.
  cbn [setup r54 gs_vihp]. change (optimum EU (Direct EU (free_r (5 + 0) (NStr "product") false false))) with (optimum EU r54). rewrite opt54.
  change (ravel (pr_y p54)) with (y_free (5 + 0)). cbn [EU fd_lib x_hessian x_linear_solve x_default]. unfold second, divide. cbn [length seq map bump nth gx54].
  rewrite !l54 by reflexivity. cbn [nth y_free]. unfold v54. lring.
Qed.
