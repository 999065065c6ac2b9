(** Concrete optimisers and problems used as witnesses and examples for the
    solver properties, and the proofs about them. *)
From Coq Require Import List Bool Arith Lia ZArith Reals Lra.
From Verif Require Import Base ModelSolver SpecSolver ProofSolver ProofSolverR.
Import ListNotations.

(** Integer arithmetic: an executable [Num]. *)
Definition Z_num : Num :=
  {| T := Z; n_zero := 0%Z; n_one := 1%Z; n_add := Z.add; n_sub := Z.sub; n_mul := Z.mul;
     n_div := Z.div; n_opp := Z.opp; n_abs := Z.abs; n_max := Z.max; n_sqrt := Z.sqrt;
     n_exp := fun x => x; n_ln := fun x => x;
     n_ltb := Z.ltb; n_leb := Z.leb; n_neb := fun a b => negb (Z.eqb a b);
     n_finite := fun _ => false; n_nat := Z.of_nat |}.

(** Everything is NaN: every comparison is false and nothing is finite. *)
Definition NaN_num : Num :=
  {| T := unit; n_zero := tt; n_one := tt; n_add := fun _ _ => tt; n_sub := fun _ _ => tt;
     n_mul := fun _ _ => tt; n_div := fun _ _ => tt; n_opp := fun _ => tt; n_abs := fun _ => tt;
     n_max := fun _ _ => tt; n_sqrt := fun _ => tt; n_exp := fun _ => tt; n_ln := fun _ => tt;
     n_ltb := fun _ _ => false; n_leb := fun _ _ => false; n_neb := fun _ _ => true;
     n_finite := fun _ => false; n_nat := fun _ => tt |}.

(** An optimiser whose update does not depend on the objective. *)
Definition const_opt (N : Num) (u : list N) : optimiser N :=
  {| o_state := nat; o_init := fun _ => O; o_update := fun _ _ s _ _ => (u, S s);
     o_count := fun s => s; o_grad := fun _ => []; o_value := fun _ => n_zero N |}.

(** Gradient descent: the update is [scale] of the gradient it is given. *)
Definition gd_opt (N : Num) (scale : N -> N) : optimiser N :=
  {| o_state := nat * list N; o_init := fun _ => (O, []);
     o_update := fun _ g s _ _ => (map scale g, (S (fst s), g));
     o_count := fst; o_grad := snd; o_value := fun _ => n_zero N |}.

Lemma const_counted N u : counted (const_opt N u).
Proof. split; reflexivity. Qed.
Lemma gd_counted N s : counted (gd_opt N s).
Proof. split; reflexivity. Qed.

Lemma never_finite_honest N (o : optimiser N) ag f x0 :
  (forall v, n_finite N v = false) -> honest o ag f x0.
Proof. intros H n x s u vals _ E. rewrite H in E. discriminate. Qed.

Lemma const_run N ag u x0 f fs xs gt :
  run_opt N (const_opt N u) ag 1 x0 f 1 fs xs gt
  = Some (pack_out N (const_opt N u) (step N (const_opt N u) ag f (init_carry N (const_opt N u) f x0 fs 10))).
Proof.
  unfold run_opt. cbn [while_fuel]. 
  assert (E1 : continuing N (const_opt N u) 1 fs xs gt (init_carry N (const_opt N u) f x0 fs 10) = true)
    by reflexivity.
  assert (E2 : continuing N (const_opt N u) 1 fs xs gt
     (step N (const_opt N u) ag f (init_carry N (const_opt N u) f x0 fs 10)) = false).
  { unfold continuing, step, value_and_grad_from_state. cbn [const_opt o_value].
    destruct (n_finite N (n_zero N)); reflexivity. }
  rewrite E1, E2. reflexivity.
Qed.

Lemma while_stop {S} n cond body (s : S) : cond s = false -> while_fuel n cond body s = Some s.
Proof. intros H. destruct n; cbn [while_fuel]; rewrite H; reflexivity. Qed.

Lemma while_go {S} n cond body (s s' : S) : cond s = true -> body s = Some s' ->
  while_fuel (Datatypes.S n) cond body s = while_fuel n cond body s'.
Proof. intros H B. cbn [while_fuel]. rewrite H, B. reflexivity. Qed.

Open Scope R_scope.
Notation RN := (R_num (fun _ => false)).

Definition head (x : list R) : R := hd 0 x.
Definition quarter_descent : optimiser RN := gd_opt RN (fun a : R => - / 4 * a).
Definition grad_square (f : list R -> R) (x : list R) : list R := [2 * head x].

(** ** C39: a strictly decreasing run with a negative objective is stopped after one step. *)
Definition shifted_square (x : list R) : R := head x * head x - 100.

Lemma shifted_traj n x s u vals :
  traj (N := RN) quarter_descent grad_square shifted_square [1] n x s u vals ->
  x = [(/ 2) ^ n] /\ vals = map (fun i => (/ 2) ^ i * (/ 2) ^ i - 100) (seq 0 n).
Proof.
  induction 1 as [|n x s u vals v g u' s' Ht [IHx IHv] H1 H2 Hu].
  - simpl. auto.
  - destruct (H2 eq_refl) as [-> ->]. subst x. simpl in Hu. injection Hu as <- <-.
    split.
    + simpl. f_equal. unfold head; simpl. lra.
    + rewrite seq_S, map_app, IHv. simpl. reflexivity.
Qed.

Lemma mean_decrease_refuted :
  exists (o : optimiser RN) ag f x0 maxiter fs xs gt r,
    counted o /\ honest o ag f x0 /\ 0 <= fs /\
    (forall n x s u vals, traj (N := RN) o ag f x0 n x s u vals ->
       forall i, (S i < length vals)%nat -> fs < nth i vals 0 - nth (S i) vals 0) /\
    run_opt RN o ag maxiter x0 f maxiter fs xs gt = Some r /\
    r_count RN r = 1%nat /\ (1 < maxiter)%nat /\
    gt < normR (r_grad RN r) /\ xs < r_dx RN r /\ xs < r_du RN r.
Proof.
  exists quarter_descent, grad_square, shifted_square, [1], 2%nat, 0, 0, 0.
  set (k0 := init_carry RN quarter_descent shifted_square [1] 0 10).
  set (k1 := step RN quarter_descent grad_square shifted_square k0).
  exists (pack_out RN quarter_descent k1).
  split; [apply gd_counted|]. split; [apply never_finite_honest; reflexivity|]. split; [lra|].
  split.
  { intros n x s u vals Ht i Hi. destruct (shifted_traj _ _ _ _ _ Ht) as [_ ->].
    rewrite map_length, seq_length in Hi.
    set (F := fun i => (/ 2) ^ i * (/ 2) ^ i - 100).
    rewrite !(nth_indep (map F (seq 0 n)) 0 (F 0%nat)) by (rewrite map_length, seq_length; lia).
    rewrite !map_nth, !seq_nth by lia. unfold F. simpl.
    assert (0 < (/ 2) ^ i) by (apply pow_lt; lra).
    nra. }
  split.
  { unfold run_opt. fold k0. cbn [while_fuel].
    assert (E1 : continuing RN quarter_descent 2 0 0 0 k0 = true) by reflexivity.
    assert (E2 : continuing RN quarter_descent 2 0 0 0 k1 = false).
    { unfold continuing.
      replace (n_ltb RN 0 (avg_improvement RN (k_rec RN quarter_descent k1))) with false;
        [rewrite andb_false_r; reflexivity|].
      symmetry. apply ltb_false_i.
      rewrite (avg_telescope _ _ 8) by reflexivity.
      unfold k1, k0, step, init_carry, linspace, shifted_square, head. simpl. lra. }
    fold k1. rewrite E1, E2. reflexivity. }
  split; [reflexivity|]. split; [lia|].
  assert (Hpos : forall a, a <> 0 -> 0 < normR [a]).
  { intros a Ha. unfold normR. simpl. apply sqrt_lt_R0. nra. }
  split; [|split].
  - change (0 < normR [2 * 1]). apply Hpos; lra.
  - change (0 < vnorm RN (vabs RN (vsub RN (vadd RN [1] [- / 4 * (2 * 1)]) [1]))).
    rewrite vnorm_normR. simpl. apply Hpos. apply Rabs_no_R0. lra.
  - change (0 < vnorm RN (vabs RN (vsub RN [- / 4 * (2 * 1)] [0]))).
    rewrite vnorm_normR. simpl. apply Hpos. apply Rabs_no_R0. lra.
Qed.

(** ** C40: the value reported by the inner optimiser is stale. *)
Definition square (x : list R) : R := head x * head x.

Lemma stale_value_refuted :
  exists (o : optimiser RN) ag f x0 maxiter fs xs gt r,
    counted o /\ honest o ag f x0 /\
    run_opt RN o ag maxiter x0 f maxiter fs xs gt = Some r /\ r_f RN r <> f (r_x RN r).
Proof.
  exists quarter_descent, grad_square, square, [1], 1%nat, 0, 0, 0.
  eexists. split; [apply gd_counted|]. split; [apply never_finite_honest; reflexivity|].
  split; [reflexivity|].
  unfold pack_out, r_f, r_x, square, head. simpl. lra.
Qed.

(** ** C43: feasible at the end of the main loop, infeasible after the last pass. *)
Definition drift_problem : problem RN :=
  Build_problem RN (fun x => - head x) (fun x => [head x - 1]) (fun _ => [])
    (* mask, growth, csafe *) (gplus_hard RN) 2 1000
    (* xstop_outer, ctol *) 2 (/ 10) (* inner, last tolerances *) 0 0 0 0 0 0
    (* maxiter_tot, maxiter_inner *) 100 1.

Definition unit_step : optimiser RN := const_opt RN [1].
Definition no_grad (f : list R -> R) (x : list R) : list R := [].

Lemma unit_body P fs xs gt d : p_maxiter_inner RN P = 1%nat -> length (d_x RN d) = 1%nat ->
  exists d', body RN unit_step no_grad P 1 fs xs gt d = Some d' /\
    d_x RN d' = [(hd 0 (d_x RN d) / d_xunit RN d + 1) * d_xunit RN d] /\
    d_tot RN d' = (d_tot RN d + 1)%nat.
Proof.
  intros HP Hx. unfold body. rewrite HP. unfold unit_step.
  rewrite const_run. eexists. split; [reflexivity|].
  destruct (d_x RN d) as [|a [|b l]]; simpl in Hx; try discriminate.
  split; reflexivity.
Qed.

Lemma drift_norm1 : normR [1] = 1.
Proof. unfold normR. simpl. replace (1 * 1 + 0) with 1 by lra. apply sqrt_1. Qed.

Lemma last_pass_refuted_main :
  exists d1,
    main_loop RN unit_step no_grad drift_problem 100 1 (init_dict RN drift_problem [0] 1 [] [0]) = Some d1 /\
    (d_tot RN d1 < 100)%nat /\ d_x RN d1 = [1] /\
    exists d2, last_pass RN unit_step no_grad drift_problem 1 d1 = Some d2 /\ d_x RN d2 = [2].
Proof.
  set (d0 := init_dict RN drift_problem [0] 1 [] [0]).
  destruct (unit_body drift_problem 0 0 0 d0 eq_refl eq_refl) as (d1 & B1 & X1 & T1).
  assert (X1' : d_x RN d1 = [1]).
  { rewrite X1. simpl. f_equal. field. }
  destruct (body_inv RN unit_step no_grad (const_counted _ _) drift_problem _ _ _ _ _ _ B1) as
    (r & _ & _ & _ & _ & _ & Hg & Hh & _ & Hdx & Hc & _ & _ & Hu & _).
  assert (U1 : d_xunit RN d1 = 1).
  { rewrite Hu, X1', vnorm_normR, drift_norm1. simpl. destruct (Req_EM_T 1 0); lra. }
  destruct (unit_body drift_problem 0 0 0 d1 eq_refl) as (d2 & B2 & X2 & T2).
  { rewrite X1'. reflexivity. }
  assert (X2' : d_x RN d2 = [2]).
  { rewrite X2, X1', U1. simpl. f_equal. field. }
  assert (M : main_loop RN unit_step no_grad drift_problem 100 1 d0 = Some d1).
  { unfold main_loop.
    assert (E0 : outer_continue RN drift_problem d0 = true) by reflexivity.
    refine (eq_trans (while_go 99 _ _ d0 d1 E0 B1) _).
    assert (E1 : outer_continue RN drift_problem d1 = false).
    { unfold outer_continue. rewrite T1.
      assert (Hx : n_leb RN (p_xstop_outer RN drift_problem) (d_dx RN d1) = false).
      { apply leb_false_i. rewrite Hdx, X1', vnorm_normR.
        change (normR [1 - 0] < 2). replace (1 - 0) with 1 by lra. rewrite drift_norm1. lra. }
      rewrite Hx, Hg, Hh, X1'. cbn [p_g p_h drift_problem vany existsb].
      assert (Hz : n_leb RN (p_ctol RN drift_problem) (head [1] - 1) = false).
      { apply leb_false_i. simpl. unfold head; simpl. lra. }
      rewrite Hz. reflexivity. }
    apply while_stop. exact E1. }
  exists d1. split; [exact M|]. split; [rewrite T1; simpl; lia|]. split; [exact X1'|].
  exists d2. split; [exact B2|exact X2'].
Qed.

Lemma last_pass_refuted :
  exists (o : optimiser RN) ag P x0 c0 lam0 mu0 d1 d,
    counted o /\ Forall (fun m => 0 <= m) mu0 /\ 0 < c0 /\
    main_loop RN o ag P (p_maxiter_tot RN P) (p_maxiter_inner RN P)
              (init_dict RN P x0 c0 lam0 mu0) = Some d1 /\
    (d_tot RN d1 < p_maxiter_tot RN P)%nat /\
    (forall v, In v (p_g RN P (d_x RN d1)) -> v < p_ctol RN P) /\
    solve_constrained RN o ag P (p_maxiter_tot RN P) (p_maxiter_inner RN P) x0 c0 lam0 mu0 = Some d /\
    exists v, In v (p_g RN P (d_x RN d)) /\ p_ctol RN P <= v.
Proof.
  destruct last_pass_refuted_main as (d1 & M & T1 & X1 & d2 & B2 & X2).
  exists unit_step, no_grad, drift_problem, [0], 1, [], [0], d1, d2.
  split; [apply const_counted|]. split; [repeat constructor; lra|]. split; [lra|].
  split; [exact M|]. split; [exact T1|].
  split. { intros v Hv. rewrite X1 in Hv. destruct Hv as [<-|[]]. unfold head; simpl; lra. }
  split. { unfold solve_constrained. change (p_maxiter_tot RN drift_problem) with 100%nat.
           change (p_maxiter_inner RN drift_problem) with 1%nat. rewrite M. exact B2. }
  exists 1. rewrite X2. split; [left; unfold head; simpl; lra|]. simpl; lra.
Qed.

(** ** C44: the ELU mask makes multipliers negative. *)
Definition slack_problem : problem RN :=
  Build_problem RN (fun _ => 0) (fun _ => [-1]) (fun _ => [])
    (gplus_elu RN) 2 1000 2 (/ 10) 0 0 0 0 0 0 100 1.

Lemma elu_refuted :
  exists (o : optimiser RN) ag P d d',
    counted o /\ p_mask RN P = gplus_elu RN /\ 0 < d_c RN d /\ 1 <= p_growth RN P /\
    Forall (fun m => 0 <= m) (d_mu RN d) /\
    passes o ag P d d' /\ exists m, In m (d_mu RN d') /\ m < 0.
Proof.
  set (d0 := init_dict RN slack_problem [0] 1 [] [0]).
  destruct (unit_body slack_problem 0 0 0 d0 eq_refl eq_refl) as (d1 & B1 & X1 & _).
  exists unit_step, no_grad, slack_problem, d0, d1.
  split; [apply const_counted|]. split; [reflexivity|]. split; [simpl; lra|]. split; [simpl; lra|].
  split; [repeat constructor; simpl; lra|].
  split; [econstructor; [constructor|exact B1]|].
  destruct (body_inv RN unit_step no_grad (const_counted _ _) slack_problem _ _ _ _ _ _ B1) as
    (r & _ & _ & _ & _ & _ & Hg & _ & _ & _ & _ & _ & Hm & _).
  rewrite Hm, Hg. cbn [p_mask p_g slack_problem]. unfold gplus_elu, vadd, vscale.
  cbn [map2 map d_mu d_c d0 init_dict].
  destruct (n_ltb RN (n_add RN (-1) (n_div RN 0 1)) (n_zero RN)) eqn:E.
  - eexists. split; [left; reflexivity|]. cbn [R_num n_add n_mul n_sub n_div n_exp n_one].
    replace (1 * (-1 + 0 / 1)) with (-1) by field.
    assert (exp (-1) < 1). { rewrite <- exp_0. apply exp_increasing. lra. }
    lra.
  - exfalso. apply ltb_false in E. simpl in E. lra.
Qed.
