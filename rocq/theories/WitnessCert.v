(** A one-dimensional problem and an optimiser that solves its subproblems,
    for the examples of C43, C118 and C119. *)
From Coq Require Import List Bool Arith Lia Reals Lra.
From Coquelicot Require Import Coquelicot.
From Verif Require Import Base ModelSolver SpecSolver ProofSolver RDeriv ProofSolverR SpecCert ProofCert WitnessSolver.
Import ListNotations.
Open Scope R_scope.

(** Minimise x^2 subject to x >= 1. *)
Definition floor_problem : problem RN :=
  Build_problem RN (fun x => head x * head x) (fun x => [1 - head x]) (fun _ => [])
    (* mask, growth, csafe *) (gplus_hard RN) 2 1000
    (* xstop_outer, ctol *) 4 (/ 10) (* inner, last tolerances *) 0 0 0 0 0 0
    (* maxiter_tot, maxiter_inner *) 100 1.

(** Lowest point of the parabola through the values at 0, -1 and -2. *)
Definition lowest (f : list R -> R) : R :=
  let A := (f [-2] - 2 * f [-1] + f [0]) / 2 in
  let B := A + f [0] - f [-1] in
  - B / (2 * A).

(** Step there if this does not make the objective larger. *)
Definition careful_step (f : list R -> R) (x : list R) : list R :=
  match x with
  | [a] => let e := [lowest f - a] in
           if Rle_dec (f (map2 Rplus x e)) (f x) then e else [0]
  | _ => map (fun _ => 0) x
  end.

Definition careful : optimiser RN :=
  Build_optimiser RN nat (fun _ => O) (fun f _ s x _ => (careful_step f x, S s))
    (fun s => s) (fun _ => []) (fun _ => 0).

Lemma careful_counted : counted careful.
Proof. split; reflexivity. Qed.

Lemma careful_shaped : shaped careful.
Proof.
  intros f g s x v. simpl. unfold careful_step.
  destruct x as [|a [|b x]].
  - reflexivity.
  - cbv zeta. destruct (Rle_dec _ _); reflexivity.
  - rewrite map_length. reflexivity.
Qed.

Lemma still (x : list R) : map2 Rplus x (map (fun _ => 0) x) = x.
Proof. induction x as [|a x IH]; [reflexivity|]. simpl. rewrite IH, Rplus_0_r. reflexivity. Qed.

Lemma careful_descending : descending careful.
Proof.
  intros f g s x v. simpl. unfold careful_step.
  destruct x as [|a [|b x]].
  - apply Rle_refl.
  - destruct (Rle_dec (f (map2 Rplus [a] [lowest f - a])) (f [a])) as [H|H]; [exact H|].
    rewrite (still [a] : map2 Rplus [a] [0] = [a]). apply Rle_refl.
  - rewrite (still (a :: b :: x)). apply Rle_refl.
Qed.

Lemma floor_sized : sized floor_problem 1 1 0.
Proof. intros x _. split; reflexivity. Qed.

(** Value of a subproblem. *)
Definition bowl (c m X : R) : R := X * X + (Rmax 0 (m + c * (1 - X)) * Rmax 0 (m + c * (1 - X)) - m * m) / (2 * c).

Lemma bowl_least c m Y : 0 < c -> 0 <= m -> bowl c m ((m + c) / (2 + c)) <= bowl c m Y.
Proof.
  intros Hc Hm. set (X := (m + c) / (2 + c)).
  assert (EX : (2 + c) * X = m + c) by (unfold X; field; lra).
  assert (H0 : m + c * (1 - X) = 2 * X) by lra.
  assert (HX : 0 <= X) by (unfold X; apply Rmult_le_pos; [lra|left; apply Rinv_0_lt_compat; lra]).
  unfold bowl. rewrite H0, (Rmax_right 0 (2 * X)) by lra.
  set (w := m + c * (1 - Y)). set (q := Rmax 0 w).
  assert (Hq : 2 * X * (2 * X) + 2 * (2 * X) * (w - 2 * X) <= q * q).
  { unfold q, Rmax. pose proof (Rle_0_sqr (w - 2 * X)) as H2. unfold Rsqr in H2.
    destruct (Rle_dec 0 w) as [H|H]; [lra|].
    assert (X * w <= 0) by (rewrite <- (Rmult_0_r X); apply Rmult_le_compat_l; lra).
    pose proof (Rle_0_sqr X) as H3. unfold Rsqr in H3. lra. }
  assert (Hw : w - 2 * X = - c * (Y - X)) by (unfold w; lra).
  rewrite Hw in Hq.
  assert (Hd : (2 * X * (2 * X) - m * m) / (2 * c) - 2 * X * (Y - X) <= (q * q - m * m) / (2 * c)).
  { apply Rmult_le_reg_l with (2 * c); [lra|].
    replace (2 * c * ((2 * X * (2 * X) - m * m) / (2 * c) - 2 * X * (Y - X)))
      with (2 * X * (2 * X) - m * m - 4 * c * X * (Y - X)) by (field; lra).
    replace (2 * c * ((q * q - m * m) / (2 * c))) with (q * q - m * m) by (field; lra). lra. }
  pose proof (Rle_0_sqr (Y - X)) as H4. unfold Rsqr in H4. lra.
Qed.

Lemma floor_subproblem F : subproblem floor_problem 1 1 0 F ->
  exists c u m, 0 < c /\ 0 < u /\ 0 <= m /\ forall a, F [a] = bowl c m (a * u).
Proof.
  intros (c & u & lam & mu & Hc & Hu & Ll & Lm & Hm & HF).
  destruct lam; [|discriminate]. destruct mu as [|m [|]]; try discriminate.
  inversion Hm; subst. exists c, u, m. repeat split; try assumption.
  intros a. rewrite (HF [a] eq_refl). unfold augmented, bowl. simpl. unfold head. simpl. ring.
Qed.

Lemma lowest_bowl F c u m : 0 < c -> 0 < u -> 0 <= m -> (forall a, F [a] = bowl c m (a * u)) ->
  lowest F * u = (m + c) / (2 + c).
Proof.
  intros Hc Hu Hm HF. unfold lowest. cbv zeta.
  assert (F2 : F [-2] = bowl c m (-2 * u)) by apply HF.
  assert (F1 : F [-1] = bowl c m (-1 * u)) by apply HF.
  assert (F0 : F [0] = bowl c m (0 * u)) by apply HF.
  unfold bowl in F0, F1, F2.
  assert (Hcu : 0 < c * u) by (apply Rmult_lt_0_compat; assumption).
  rewrite Rmax_right in F0 by lra. rewrite Rmax_right in F1 by lra. rewrite Rmax_right in F2 by lra.
  assert (EA : (F [-2] - 2 * F [-1] + F [0]) / 2 = u * u * (2 + c) / 2)
    by (rewrite F0, F1, F2; field; lra).
  rewrite EA.
  assert (EB : u * u * (2 + c) / 2 + F [0] - F [-1] = - (u * (m + c)))
    by (rewrite F0, F1; field; lra).
  rewrite EB. field. lra.
Qed.

Lemma careful_run F fuel a fs xs gt r :
  run_opt RN careful no_grad fuel [a] F 1 fs xs gt = Some r ->
  r_x RN r = map2 Rplus [a] (careful_step F [a]).
Proof.
  intros H. destruct (inner_exit RN careful no_grad careful_counted F [a] _ _ _ _ _ _ H)
    as (s & u & vals & Ht & _).
  destruct (run_opt_inv RN careful no_grad careful_counted F [a] _ _ _ _ _ _ H) as (k & Ek & _ & _ & Hb & _).
  assert (E1 : r_count RN r = 1%nat) by (rewrite Ek; simpl in *; lia).
  rewrite E1 in Ht.
  remember 1%nat as one. destruct Ht as [|k' x s u vals v g u' s' Ht H1 H2 Hu]; [discriminate|].
  injection Heqone as ->. simpl in Hu. injection Hu as <- <-.
  remember 0%nat as zero. destruct Ht; [reflexivity|discriminate].
Qed.

Lemma careful_solves F fuel a fs xs gt r : subproblem floor_problem 1 1 0 F ->
  run_opt RN careful no_grad fuel [a] F 1 fs xs gt = Some r ->
  forall y, F (r_x RN r) <= F [y].
Proof.
  intros HF Hr y. rewrite (careful_run _ _ _ _ _ _ _ Hr).
  destruct (floor_subproblem F HF) as (c & u & m & Hc & Hu & Hm & EF).
  assert (HL : forall y, F [lowest F] <= F [y]).
  { intros z. rewrite !EF, (lowest_bowl F c u m Hc Hu Hm EF). apply bowl_least; assumption. }
  unfold careful_step.
  assert (El : map2 Rplus [a] [lowest F - a] = [lowest F]) by (simpl; f_equal; ring).
  destruct (Rle_dec (F (map2 Rplus [a] [lowest F - a])) (F [a])) as [H|H].
  - rewrite El. apply HL.
  - exfalso. apply H. rewrite El. apply HL.
Qed.

Lemma careful_reliable : reliable careful no_grad floor_problem 1 1 0 0.
Proof.
  intros F HF fuel x0 fs xs gt r Hx Hr y Hy.
  destruct x0 as [|a [|]]; try discriminate. destruct y as [|b [|]]; try discriminate.
  rewrite Rplus_0_r. exact (careful_solves F fuel a fs xs gt r HF Hr b).
Qed.

(** A differentiable function has slope 0 where it is least. *)
Lemma slope_at_least (phi : R -> R) s : is_derive phi 0 s -> (forall t, phi 0 <= phi t) -> s = 0.
Proof.
  intros D H. apply is_derive_Reals in D.
  pose (pr := exist (fun l => derivable_pt_abs phi 0 l) s D : derivable_pt phi 0).
  change s with (derive_pt phi 0 pr).
  apply (deriv_minimum phi (-1) 1 0 pr); try lra. intros x _ _. apply H.
Qed.

Lemma careful_stationary : stationary careful no_grad floor_problem 1 1 0 0.
Proof.
  intros F HF fuel x0 fs xs gt r Hx Hr v s Hv D.
  destruct x0 as [|a [|]]; try discriminate. destruct v as [|b [|]]; try discriminate.
  pose proof (run_length _ careful no_grad careful_counted careful_shaped _ _ _ _ _ _ _ _ Hr) as Lr.
  assert (Ex : exists q, (r_x RN r : list R) = [q]).
  { destruct (r_x RN r) as [|q [|]]; try discriminate. eauto. }
  destruct Ex as [q Eq].
  rewrite (slope_at_least _ _ D); [lra|].
  intros t. cbv beta. pose proof (careful_solves F fuel a fs xs gt r HF Hr) as H. rewrite Eq in *.
  simpl. rewrite Rmult_0_l, Rplus_0_r. apply H.
Qed.

Lemma floor_run : exists d1 d,
  main_loop RN careful no_grad floor_problem 100 1 (init_dict RN floor_problem [3] 1 [] [2]) = Some d1 /\
  (forall v, In v (p_g RN floor_problem (d_x RN d1)) -> v < p_ctol RN floor_problem) /\
  solve_constrained RN careful no_grad floor_problem 100 1 [3] 1 [] [2] = Some d.
Proof.
  set (d0 := init_dict RN floor_problem [3] 1 [] [2]).
  assert (S0 : sound_state _ 1 1 0 d0) by (repeat split; simpl; try lra; repeat constructor; lra).
  destruct (body_some RN careful no_grad careful_counted floor_problem 1 0 0 0 d0) as (d1 & B1); [simpl; lia|].
  destruct (pass_facts _ careful no_grad careful_counted floor_problem eq_refl 1 1 0 floor_sized careful_shaped
    _ _ _ _ _ _ S0 B1) as (r & Hr & Lr & Ex & _).
  pose proof (careful_run _ _ _ _ _ _ _ (Hr : run_opt RN careful no_grad 1 [3 / 1] _ 1 0 0 0 = Some r)) as Er.
  pose proof (careful_solves _ _ _ _ _ _ _ (subproblem_of _ floor_problem eq_refl 1 1 0 floor_sized d0 S0)
    (Hr : run_opt RN careful no_grad 1 [3 / 1] _ 1 0 0 0 = Some r)) as Hs.
  assert (X1 : d_x RN d1 = [1]).
  { rewrite Ex, Er. unfold careful_step.
    set (F := l_k RN floor_problem (d_xunit RN d0) (d_c RN d0) (d_lam RN d0) (d_mu RN d0)) in *.
    assert (EF : forall a, F [a] = bowl 1 2 (a * 1)).
    { intros a. unfold F.
      rewrite (handed _ floor_problem eq_refl 1 1 0 floor_sized) by (try reflexivity; simpl; lra).
      unfold augmented, bowl. simpl. unfold head. simpl. ring. }
    assert (L : lowest F = 1).
    { pose proof (lowest_bowl F 1 1 2 ltac:(lra) ltac:(lra) ltac:(lra) EF) as L. lra. }
    destruct (Rle_dec _ _) as [H|H].
    - rewrite L. simpl. f_equal. field.
    - exfalso. apply H. rewrite L.
      assert (E3 : map2 Rplus [3 / 1] [1 - 3 / 1] = [1]) by (simpl; f_equal; field).
      refine (eq_ind_r (fun l => F l <= F [3 / 1]) _ E3).
      rewrite !EF. pose proof (bowl_least 1 2 (3 / 1 * 1) ltac:(lra) ltac:(lra)) as Hb.
      replace ((2 + 1) / (2 + 1)) with (1 * 1) in Hb by field. exact Hb. }
  destruct (body_inv RN careful no_grad careful_counted floor_problem _ _ _ _ _ _ B1) as
    (r' & _ & _ & T1 & _ & _ & Hg & Hh & _ & Hdx & _).
  assert (M : main_loop RN careful no_grad floor_problem 100 1 d0 = Some d1).
  { unfold main_loop.
    assert (E0 : outer_continue RN floor_problem d0 = true) by reflexivity.
    refine (eq_trans (while_go 99 _ _ d0 d1 E0 B1) _).
    assert (E1 : outer_continue RN floor_problem d1 = false).
    { unfold outer_continue.
      destruct (body_inv RN careful no_grad careful_counted floor_problem _ _ _ _ _ _ B1) as (q & _ & Hq & Tq & _).
      assert (Tn : (d_tot RN d1 =? 0)%nat = false) by (apply Nat.eqb_neq; rewrite Tq; lia).
      rewrite Tn.
      assert (Hx : n_leb RN (p_xstop_outer RN floor_problem) (d_dx RN d1) = false).
      { apply leb_false_i. rewrite Hdx, X1, vnorm_normR.
        change (normR [1 - 3] < 4). unfold normR. simpl.
        replace ((1 - 3) * (1 - 3) + 0) with (2 * 2) by ring. rewrite sqrt_square; lra. }
      rewrite Hx, Hg, Hh, X1. cbn [p_g p_h floor_problem vany existsb].
      assert (Hz : n_leb RN (p_ctol RN floor_problem) (1 - head [1]) = false).
      { apply leb_false_i. simpl. unfold head; simpl. lra. }
      rewrite Hz. simpl. apply andb_false_r. }
    apply while_stop. exact E1. }
  destruct (body_some RN careful no_grad careful_counted floor_problem 1 0 0 0 d1) as (d & B2); [simpl; lia|].
  exists d1, d. split; [exact M|]. split.
  - rewrite X1. simpl. unfold head. simpl. intros v [<-|[]]. lra.
  - unfold solve_constrained. fold d0. rewrite M. exact B2.
Qed.
