(** The reported gradients along a family of calls; the choice between the two
    solutions of the linear system. *)
From Coq Require Import String List Bool Arith ZArith Reals Lra Lia.
From Coquelicot Require Import Coquelicot.
From Verif Require Import Base ModelArray ModelMath ModelQuantity ModelWrapper ModelSurface ModelParams
  ModelSolver SpecSolver ModelQuadcoil SpecMath SpecSurface SpecQuadcoil ProofLinear ProofQuadcoil ProofQuadcoil2 ProofQuadcoil3 ProofQuadcoil4.
Import ListNotations.
Open Scope R_scope.
Open Scope string_scope.
Open Scope list_scope.

Lemma settings_y_to_qp {L} (a b : args L) qd y : same_settings a b -> y_to_qp b qd y = y_to_qp a qd y.
Proof.
  intros (Hb & HB & HD). rewrite Hb. unfold y_to_qp. cbn.
  replace (match qc_Bnormal b with None => Ok (gzeros (length (qd_plasma_phi qd)) (length (qd_plasma_theta qd)))
     | Some _ => bind (getitem y "Bnormal_plasma") rows_of end)
    with (match qc_Bnormal a with None => Ok (gzeros (length (qd_plasma_phi qd)) (length (qd_plasma_theta qd)))
     | Some _ => bind (getitem y "Bnormal_plasma") rows_of end).
  2: { destruct (qc_Bnormal a), (qc_Bnormal b); auto; [destruct HB as [_ HB]; discriminate HB; auto|destruct HB as [HB _]; discriminate HB; auto]. }
  destruct (qc_distance a), (qc_distance b); auto; [destruct HD as [_ HD]; discriminate HD; auto|destruct HD as [HD _]; discriminate HD; auto].
Qed.
Lemma settings_quadpoints {L} (a b : args L) : same_settings a b -> default_quadpoints b = default_quadpoints a.
Proof. intros (Hb & _). rewrite Hb. reflexivity. Qed.
Lemma settings_metrics {L} (a b : args L) : same_settings a b -> metrics b = metrics a /\ qc_value_only b = qc_value_only a.
Proof. intros (Hb & _). rewrite Hb. split; reflexivity. Qed.
Lemma prepare_quadpoints ns {L} (a : args L) p : prepare ns a = Ok p -> default_quadpoints a = Ok (pr_qd p).
Proof.
  unfold prepare. destruct (default_quadpoints a) as [qd|]; [|discriminate]. cbn [bind].
  destruct (one_surface a); [|discriminate]. cbn [bind]. destruct (input_checking _ _ _ _ _ _ _); [|discriminate]. cbn [bind].
  destruct (f_g_h_from_y ns a qd (y_dict a)) as [fn|]; [|discriminate]. cbn [bind].
  destruct (phi_unit_of _ _ _); [|discriminate]. cbn [bind]. destruct (x_dict _ _ _ _); [|discriminate]. cbn [bind].
  destruct (g_scaled _ _); [|discriminate]. cbn [bind]. destruct (h_scaled _ _); [|discriminate]. cbn [bind].
  destruct (f_scaled _ _) as [f0|]; [|discriminate]. cbn [bind]. destruct (isscalar f0); [|discriminate]. intros [= <-]. reflexivity.
Qed.

Section Family.
  Variable ns : namespace params.
  Variable E : library.
  Notation L := (x_solver E).

  (** What another call of the same settings reports is the metric evaluated
      through the functions of the first call. *)
  Lemma value_elsewhere (a b : args L) p o X m : prepare ns a = Ok p -> quadcoil ns E b = Some (Ok o) ->
    same_settings a b -> (forall x, qc_Bnormal b = Some x -> wf x) ->
    structure (y_dict b) = structure (y_dict a) -> qc_value_only a = false ->
    unscale (pr_structure p) (pr_unit p) X = Ok (o_dofs E o) ->
    requested a m -> m <> "f_obj" ->
    exists v en, f_metric ns E a p m X (ravel (y_dict b)) = Ok v /\ lookup m (o_out E o) = Some en /\ e_value en = Some v.
  Proof.
    intros Hp Hq HS HB Hst V HX Hm Nf. apply requested_iff in Hm.
    destruct (settings_metrics a b HS) as [Em Ev].
    destruct (quadcoil_ok ns E b o Hq) as (p' & r' & d' & Hp' & Hr' & Hf' & Hd' & E1 & E2 & E3).
    destruct (finish_gradient ns E _ _ _ _ Hf' ltac:(congruence)) as (out0 & Hg & _).
    destruct (grad_metrics_ok ns E _ _ _ _ _ _ Hg) as [H1 _]. rewrite Em in H1. destruct (H1 m Hm) as (v & Hv & _ & Hl).
    exists v, (made_entry ns E b p' r' m v). split; [|split; [exact Hl|reflexivity]].
    rewrite <- Hv. unfold f_metric.
    pose proof (metric_at_inputs ns b p' Hp' HB) as Q. rewrite Q.
    destruct (prepare_fields ns b p' Hp') as (_ & _ & _ & Ey' & _).
    destruct (prepare_fields ns a p Hp) as (_ & _ & _ & Ey & _).
    assert (Qd : pr_qd p = pr_qd p').
    { pose proof (prepare_quadpoints ns a p Hp) as A1. pose proof (prepare_quadpoints ns b p' Hp') as A2.
      rewrite (settings_quadpoints a b HS) in A2. congruence. }
    rewrite Ey, <- Hst, Qd, <- (settings_y_to_qp a b) by auto. rewrite Ey' in Q. rewrite Q. cbn [bind].
    rewrite HX. assert (Ed : unscale (pr_structure p') (pr_unit p') (optimum E r') = Ok (o_dofs E o)) by congruence. rewrite Ed. cbn [bind].
    apply String.eqb_neq in Nf. rewrite Nf. reflexivity.
  Qed.

  Lemma nth_col_transpose (M : list (list R)) k : map (fun j => map (fun r => nth j r 0) M) (seq 0 k) = transpose k M.
  Proof. reflexivity. Qed.

  (** The reported gradient is the derivative of the reported metric along any
      path of stationary points of the function differentiated. *)
  Lemma gradient_along (A : R -> args L) (O : R -> output E) e p r m X Gx Gy H M gx gy v :
    family ns A O e -> prepare ns (A 0) = Ok p -> o_results E (O 0) = r -> qc_value_only (A 0) = false ->
    requested (A 0) m -> m <> "f_obj" -> length e = length (ravel (y_dict (A 0))) ->
    (forall t, unscale (pr_structure p) (pr_unit p) (X t) = Ok (o_dofs E (O t))) ->
    let x := optimum E r in
    let y := ravel (y_dict (A 0)) in
    let l := gs_l (setup ns E (A 0) p r) in
    let F := fun x y => real_of (f_metric ns E (A 0) p m x y) in
    twice_differentiable l x y Gx Gy H M -> invertible (length x) H ->
    stationary_path Gx x y e X ->
    autodiff_exact E l F x y gx gy v M ->
    gs_vihp (setup ns E (A 0) p r) gx = v -> length v = length x -> apply_mat H v = gx ->
    is_derive (fun t => reported (O t) m) 0 (inner (reported_gradient (O 0) m) e).
  Proof.
    intros HF Hp Hr V Hm Nf Le HX x y l F (_ & HH & HM & HJ & Hsym & _) (K & HK & HKi) Hpath (HdF & Ejx & Ejy & Ejvp) Ev Lv Hsolve.
    assert (Rep : forall t, reported (O t) m = F (X t) (shift y e t)).
    { intros t. destruct (HF t) as (Hq & HS & HB & Hst & Hy).
      destruct (value_elsewhere (A 0) (A t) p (O t) (X t) m Hp Hq HS HB Hst V (HX t) Hm Nf) as (w & en & H1 & H2 & H3).
      unfold reported. rewrite H2, H3. unfold F. fold y in Hy. rewrite <- Hy, H1. reflexivity. }
    destruct (HF 0) as (Hq & _ & HB & _ & _).
    destruct (quadcoil_ok ns E (A 0) (O 0) Hq) as (p' & r' & d' & Hp' & Hr' & Hf' & Hd' & E1 & E2 & E3).
    assert (p' = p) by congruence. subst p'. assert (r' = r) by congruence. subst r'.
    destruct (finish_gradient ns E _ _ _ _ Hf' V) as (out0 & Hg & _).
    destruct (grad_metrics_ok ns E _ _ _ _ _ _ Hg) as [H1 _]. apply requested_iff in Hm. destruct (H1 m Hm) as (w & Hv & _ & Hl).
    destruct (prepare_fields ns (A 0) p Hp) as (_ & _ & _ & Ey & _).
    set (g := metric_gradient E (setup ns E (A 0) p r) F x y).
    assert (Eg : g = ladd (map Ropp (matvec (transpose (length y) M) v)) gy).
    { unfold g, metric_gradient. rewrite Ejx, Ev, Ejy. fold l. rewrite Ejvp. rewrite apply_matvec, nth_col_transpose. reflexivity. }
    assert (Lg : length g = length y).
    { rewrite Eg, ladd_length; rewrite map_length, matvec_length; unfold transpose; rewrite map_length, seq_length; auto. symmetry. apply HdF. }
    assert (Rg : reported_gradient (O 0) m = g).
    { unfold reported_gradient. rewrite Hl. unfold made_entry. cbn [e_grad]. rewrite Ey. fold x y. fold F. fold g.
      unfold flat. rewrite map_map. cbn [snd]. subst r. apply (unravel_flat (structure (y_dict (A 0))) g).
      rewrite Lg. apply ravel_length. apply y_wf. exact HB. }
    rewrite Rg, inner_ldot, Eg.
    apply (is_derive_ext (fun t => F (X t) (shift y e t) : R)); [intros t; symmetry; apply Rep|].
    apply (implicit_derivative F Gx x y gx gy v e H M K X); auto.
    - intros z Lz. specialize (HKi z Lz). rewrite !apply_matvec in HKi. exact HKi.
    - rewrite <- apply_matvec. exact Hsolve.
  Qed.
End Family.

(** ** The choice between the two solutions *)
Lemma lnorm_residual A x b : lnorm (lsub (matvec A x) b) = residual A x b.
Proof.
  unfold residual. rewrite inner_ldot, minus_lsub, apply_matvec. unfold lnorm. f_equal. generalize (lsub (matvec A x) b). intros l.
  induction l as [|a l IH]; auto. rewrite ldot_cons, <- IH. reflexivity.
Qed.
Lemma choose_best H b raw pre :
  (choose H b raw pre = raw \/ choose H b raw pre = pre) /\
  residual H (choose H b raw pre) b <= residual H raw b /\ residual H (choose H b raw pre) b <= residual H pre b.
Proof. unfold choose. rewrite !lnorm_residual. destruct (Rlt_dec _ _); split; auto; split; lra. Qed.
Lemma residual_zero n A x b : shaped n n A -> length b = n -> (residual A x b = 0 <-> apply_mat A x = b).
Proof.
  intros [HA _] Lb. unfold residual. rewrite inner_ldot, minus_lsub, apply_matvec. split.
  - intros H. apply sqrt_eq_0 in H; [|apply ldot_self_nonneg]. pose proof (ldot_self_zero _ H) as Z.
    assert (LA : length (matvec A x) = n) by (rewrite matvec_length; auto).
    apply (vec_ext _ _ n); auto. intros i Hi. specialize (Z (nth i (lsub (matvec A x) b) 0)).
    rewrite nth_lsub in Z by lia. assert (nth i (matvec A x) 0 - nth i b 0 = 0); [|lra]. apply Z. rewrite <- nth_lsub by lia.
    apply nth_In. rewrite lsub_length; lia.
  - intros ->. replace (lsub b b) with (repeat 0 (length b)); [rewrite ldot_repeat0; apply sqrt_0|].
    clear. induction b as [|a b IH]; auto. unfold lsub in *. cbn [length repeat map2]. f_equal; [ring|exact IH].
Qed.
Lemma residual_nonneg A x b : 0 <= residual A x b.
Proof. apply sqrt_pos. Qed.

(** ** Sorting the three terms *)
Lemma sorted_three t1 t2 t3 : exists tA tB tC, sort_terms [t1; t2; t3] = [tA; tB; tC] /\
  smax (fst (snd tA)) <= smax (fst (snd tB)) /\ smax (fst (snd tB)) <= smax (fst (snd tC)) /\
  Permutation.Permutation [tA; tB; tC] [t1; t2; t3].
Proof.
  unfold sort_terms. cbn [fold_right insert_term].
  set (k := fun t : matrix * (list R * matrix) => smax (fst (snd t))). fold (k t1) (k t2) (k t3).
  destruct (Rle_dec (k t2) (k t3)) as [h|h]; cbn [insert_term]; fold (k t1) (k t2) (k t3).
  - destruct (Rle_dec (k t1) (k t2)) as [h2|h2]; [exists t1, t2, t3; repeat split; auto|].
    destruct (Rle_dec (k t1) (k t3)) as [h3|h3]; [exists t2, t1, t3|exists t2, t3, t1]; fold (k t1) (k t2) (k t3); repeat split; auto; try lra.
    + apply Permutation.perm_swap.
    + apply Permutation.Permutation_sym, (Permutation.Permutation_app_comm [t1] [t2; t3]).
  - destruct (Rle_dec (k t1) (k t3)) as [h2|h2]; [exists t1, t3, t2; fold (k t1) (k t2) (k t3); repeat split; auto; try lra; apply Permutation.perm_skip, Permutation.perm_swap|].
    destruct (Rle_dec (k t1) (k t2)) as [h3|h3]; [exists t3, t1, t2|exists t3, t2, t1]; fold (k t1) (k t2) (k t3); repeat split; auto; try lra.
    + apply Permutation.Permutation_sym. apply (Permutation.Permutation_app_comm [t1; t2] [t3]).
    + apply Permutation.Permutation_sym. apply (Permutation.Permutation_rev [t1; t2; t3]).
Qed.
Lemma symmetrise_id n A : symmetric_mat n A -> symmetrise n A = A.
Proof.
  intros [HA S]. unfold symmetrise. rewrite (sym_transpose n A HA S). clear. induction A as [|r A IH]; simpl; auto. f_equal; [|exact IH].
  clear. induction r as [|a r IH]; simpl; auto. f_equal; [lra|exact IH].
Qed.

Lemma map2_combine {A B C} (f : A -> B -> C) l l' : map2 f l l' = map (fun p => f (fst p) (snd p)) (combine l l').
Proof. revert l'. induction l as [|a l IH]; intros [|b l']; simpl; auto. now rewrite IH. Qed.
Lemma plus_matadd A B : plus_mat A B = matadd A B.
Proof. unfold plus_mat, matadd. rewrite map2_combine. apply map_ext. intros [r s]. cbn. now rewrite map2_combine. Qed.

(** The sum of the three terms does not depend on their order. *)
Lemma sum_perm (l l' : list (matrix * (list R * matrix))) i x : Permutation.Permutation l l' ->
  fold_right Rplus 0 (map (fun t => nth i (matvec (fst t) x) 0) l) = fold_right Rplus 0 (map (fun t => nth i (matvec (fst t) x) 0) l').
Proof. induction 1; cbn [map fold_right]; lra. Qed.
Lemma three_sum n A B C x i : mat n n A -> mat n n B -> mat n n C ->
  nth i (matvec (matadd (matadd A B) C) x) 0 = nth i (matvec A x) 0 + (nth i (matvec B x) 0 + (nth i (matvec C x) 0 + 0)).
Proof.
  intros HA HB HC. assert (HAB := matadd_mat n n A B HA HB).
  rewrite (matvec_matadd n n) by auto. rewrite (matvec_matadd n n) by auto.
  rewrite nth_ladd by (rewrite ladd_length; rewrite !matvec_length; destruct HA, HB, HC; lia).
  rewrite nth_ladd by (rewrite !matvec_length; destruct HA, HB; lia). ring.
Qed.

Section System.
  Variable E : library.
  Variables (n : nat) (tol : R) (h1 h2 h3 : matrix).
  Hypothesis S1 : symmetric_mat n h1.
  Hypothesis S2 : symmetric_mat n h2.
  Hypothesis S3 : symmetric_mat n h3.
  Hypothesis V1 : svd_exact E n tol h1.
  Hypothesis V2 : svd_exact E n tol h2.
  Hypothesis V3 : svd_exact E n tol h3.
  Let terms := map (fun M => (M, x_svd E M)) [h1; h2; h3].
  Hypothesis VS : forall tA tB tC, sort_terms terms = [tA; tB; tC] ->
    svd_exact E n tol (projector n (selection tol (fst (snd tB))) (snd (snd tB)) ++ projector n (selection tol (fst (snd tC))) (snd (snd tC))).
  Let H := matadd (matadd h1 h2) h3.
  Hypothesis HI : injective n H.

  Lemma sorted_system tA tB tC v b : sort_terms terms = [tA; tB; tC] -> length v = n -> length b = n ->
    (matvec (pc_Ohess (preconditioner E n tol tA tB tC)) v = precond_rhs n (preconditioner E n tol tA tB tC) b <-> matvec H v = b).
  Proof.
    intros Hs Lv Lb. destruct (sorted_three (h1, x_svd E h1) (h2, x_svd E h2) (h3, x_svd E h3)) as (uA & uB & uC & Hu & O1 & O2 & P).
    change (sort_terms terms = [uA; uB; uC]) in Hu. assert (uA = tA /\ uB = tB /\ uC = tC) as (-> & -> & ->) by (repeat split; congruence).
    assert (G : forall t, In t [tA; tB; tC] -> symmetric_mat n (fst t) /\ is_svd n (fst t) (fst (snd t)) (snd (snd t)) /\ exact_rank tol (fst (snd t))).
    { intros t I. apply (Permutation.Permutation_in _ P) in I. destruct V1, V2, V3. destruct I as [<-|[<-|[<-|[]]]]; cbn [fst snd]; auto. }
    destruct (G tA) as (SA & DA & EA); [simpl; auto|]. destruct (G tB) as (SB & DB & EB); [simpl; auto|]. destruct (G tC) as (SC & DC & EC); [simpl; auto|].
    destruct (VS tA tB tC Hs) as [DS ES].
    destruct tA as [A [sA VA]], tB as [B [sB VB]], tC as [C [sC VC]]. cbn [fst snd] in *.
    assert (EH : forall x, matvec (matadd (matadd A B) C) x = matvec H x).
    { intros x. destruct SA as [mA _], SB as [mB _], SC as [mC _], S1 as [m1' _], S2 as [m2' _], S3 as [m3' _].
      assert (K : forall P Q T, mat n n P -> mat n n Q -> mat n n T -> length (matvec (matadd (matadd P Q) T) x) = n).
      { intros P' Q T h h' h''. rewrite matvec_length. apply (matadd_mat n n _ _ (matadd_mat n n _ _ h h') h''). }
      apply (vec_ext _ _ n); [apply K; auto|apply K; auto|]. intros i Hi. unfold H. rewrite !(three_sum n) by auto.
      exact (sum_perm _ _ i x P). }
    rewrite <- EH. apply (same_solutions E n tol A B C sA sB sC VA VB VC); auto.
    intros x Lx Hx. apply HI; auto. rewrite apply_matvec in *. rewrite <- EH. exact Hx.
  Qed.
End System.

Lemma constrained_system ns E (a : args (x_solver E)) p (d : ModelSolver.dict (R_num (x_fin E))) b h1 h2 h3 n :
  let tol := svtol (qc_tol a) in
  let T := l_terms ns E a p (d_mu _ d) (d_lam _ d) (d_c _ d) in
  let y := ravel (pr_y p) in
  let H := plus_mat (plus_mat h1 h2) h3 in
  let solver := match qc_linear_solver a with Some s => s | None => x_auto E end in
  length (d_x _ d) = n ->
  x_hessian E (fun x => fst (fst (T x y))) (d_x _ d) = h1 ->
  x_hessian E (fun x => snd (fst (T x y))) (d_x _ d) = h2 ->
  x_hessian E (fun x => snd (T x y)) (d_x _ d) = h3 ->
  symmetric_mat n h1 -> symmetric_mat n h2 -> symmetric_mat n h3 -> injective n H ->
  svd_exact E n tol h1 -> svd_exact E n tol h2 -> svd_exact E n tol h3 ->
  (forall tA tB tC, sort_terms (map (fun M => (M, x_svd E M)) [h1; h2; h3]) = [tA; tB; tC] ->
    svd_exact E n tol (projector n (selection tol (fst (snd tB))) (snd (snd tB)) ++ projector n (selection tol (fst (snd tC))) (snd (snd tC)))) ->
  length b = n ->
  exists Oh rhs,
    (forall v, length v = n -> (apply_mat Oh v = rhs <-> apply_mat H v = b)) /\
    let raw := x_linear_solve E solver H b in
    let pre := x_linear_solve E solver Oh rhs in
    let used := gs_vihp (setup ns E a p (Constrained E d)) b in
    (used = raw \/ used = pre) /\ residual H used b <= residual H raw b /\ residual H used b <= residual H pre b.
Proof.
  intros tol T y H solver Ln E1 E2 E3 S1 S2 S3 HI V1 V2 V3 VS Lb.
  destruct (sorted_three (h1, x_svd E h1) (h2, x_svd E h2) (h3, x_svd E h3)) as (tA & tB & tC & Hs & _).
  change (sort_terms (map (fun M => (M, x_svd E M)) [h1; h2; h3]) = [tA; tB; tC]) in Hs.
  assert (EH : H = matadd (matadd h1 h2) h3) by (unfold H; rewrite !plus_matadd; reflexivity).
  set (pc := preconditioner E n tol tA tB tC).
  exists (pc_Ohess pc), (precond_rhs n pc b). split.
  - intros v Lv. rewrite !apply_matvec, EH. apply sorted_system; auto. rewrite <- EH. exact HI.
  - cbv zeta. set (used := gs_vihp _ b).
    assert (Eu : used = choose H b (x_linear_solve E solver H b) (x_linear_solve E solver (pc_Ohess pc) (precond_rhs n pc b))).
    { assert (Ln' : @length R (d_x _ d) = n) by exact Ln. unfold used, setup. cbn [optimum]. rewrite Ln'. fold T. fold y. rewrite E1, E2, E3. rewrite <- EH.
      cbn [map] in Hs |- *. rewrite !(symmetrise_id n) by auto. rewrite Hs. cbn [gs_vihp]. unfold vihp_constrained. reflexivity. }
    rewrite Eu. apply choose_best.
Qed.
(** An exact answer of either solver is used. *)
Lemma constrained_exact ns E (a : args (x_solver E)) p (d : ModelSolver.dict (R_num (x_fin E))) b H raw :
  let used := gs_vihp (setup ns E a p (Constrained E d)) b in
  residual H used b <= residual H raw b -> shaped (length b) (length b) H -> apply_mat H raw = b -> apply_mat H used = b.
Proof.
  intros used Hr HS Hraw. apply (residual_zero (length b)) in Hraw; auto. apply (residual_zero (length b)); auto.
  pose proof (residual_nonneg H used b). lra.
Qed.
(** The Lagrangian differentiated after a constrained solve. *)
Lemma constrained_l ns E (a : args (x_solver E)) p (d : ModelSolver.dict (R_num (x_fin E))) :
  gs_l (setup ns E a p (Constrained E d)) = l_sum ns E a p (d_mu _ d) (d_lam _ d) (d_c _ d).
Proof. unfold setup. destruct (sort_terms _) as [|? [|? [|? [|? ?]]]]; reflexivity. Qed.
