(** Minimise x^2 subject to x >= b, for the example of C144. *)
From Coq Require Import List Bool Arith Lia Reals Lra.
From Coquelicot Require Import Coquelicot.
From Verif Require Import Base ModelSolver SpecSolver ProofSolver RDeriv ProofSolverR SpecCert ProofCert WitnessSolver WitnessCert SpecPrice.
Import ListNotations.
Open Scope R_scope.

Definition floor_at (b : R) : problem RN :=
  Build_problem RN (fun x => head x * head x) (fun x => [b - head x]) (fun _ => []) (gplus_hard RN) 2 1000 4 (/ 10) 0 0 0 0 0 0 100 1.
Section Bound.
  Variable b : R.
  Hypothesis Hb : 0 <= b.
  Lemma bound_sized : sized (floor_at b) 1 1 0.
  Proof. intros x _. split; reflexivity. Qed.
  Definition dish (c m X : R) : R := X * X + (Rmax 0 (m + c * (b - X)) * Rmax 0 (m + c * (b - X)) - m * m) / (2 * c).
  Lemma dish_least c m Y : 0 < c -> 0 <= m -> dish c m ((m + c * b) / (2 + c)) + (Y - (m + c * b) / (2 + c)) ^ 2 <= dish c m Y.
  Proof using Hb.
    intros Hc Hm. set (X := (m + c * b) / (2 + c)).
    assert (EX : (2 + c) * X = m + c * b) by (unfold X; field; lra).
    assert (H0 : m + c * (b - X) = 2 * X) by lra.
    assert (HX : 0 <= X) by (unfold X; apply Rmult_le_pos; [pose proof (Rmult_le_pos c b); lra|left; apply Rinv_0_lt_compat; lra]).
    unfold dish. rewrite H0, (Rmax_right 0 (2 * X)) by lra.
    set (w := m + c * (b - Y)). set (q := Rmax 0 w).
    assert (Hq : 2 * X * (2 * X) + 2 * (2 * X) * (w - 2 * X) <= q * q).
    { unfold q, Rmax. pose proof (Rle_0_sqr (w - 2 * X)) as H2. unfold Rsqr in H2. destruct (Rle_dec 0 w) as [H|H]; [lra|].
      assert (X * w <= 0) by (rewrite <- (Rmult_0_r X); apply Rmult_le_compat_l; lra). pose proof (Rle_0_sqr X) as H3. unfold Rsqr in H3. lra. }
    assert (Hw : w - 2 * X = - c * (Y - X)) by (unfold w; lra). rewrite Hw in Hq.
    assert (Hd : (2 * X * (2 * X) - m * m) / (2 * c) - 2 * X * (Y - X) <= (q * q - m * m) / (2 * c)).
    { apply Rmult_le_reg_l with (2 * c); [lra|].
      replace (2 * c * ((2 * X * (2 * X) - m * m) / (2 * c) - 2 * X * (Y - X))) with (2 * X * (2 * X) - m * m - 4 * c * X * (Y - X)) by (field; lra).
      replace (2 * c * ((q * q - m * m) / (2 * c))) with (q * q - m * m) by (field; lra). lra. }
    replace ((Y - X) ^ 2) with (Y * Y - 2 * X * Y + X * X) by ring. lra.
  Qed.
  Lemma bound_subproblem F : subproblem (floor_at b) 1 1 0 F -> exists c u m, 0 < c /\ 0 < u /\ 0 <= m /\ forall a, F [a] = dish c m (a * u).
  Proof using.
    intros (c & u & lam & mu & Hc & Hu & Ll & Lm & Hm & HF). destruct lam; [|discriminate]. destruct mu as [|m [|]]; try discriminate.
    inversion Hm; subst. exists c, u, m. repeat split; try assumption. intros a. rewrite (HF [a] eq_refl). unfold augmented, dish. simpl. unfold head. simpl. ring.
  Qed.
  Lemma lowest_dish F c u m : 0 < c -> 0 < u -> 0 <= m -> (forall a, F [a] = dish c m (a * u)) -> lowest F * u = (m + c * b) / (2 + c).
  Proof using Hb.
    intros Hc Hu Hm HF. unfold lowest. cbv zeta.
    assert (F2 : F [-2] = dish c m (-2 * u)) by apply HF. assert (F1 : F [-1] = dish c m (-1 * u)) by apply HF. assert (F0 : F [0] = dish c m (0 * u)) by apply HF.
    unfold dish in F0, F1, F2. assert (Hcu : 0 < c * u) by (apply Rmult_lt_0_compat; assumption). pose proof (Rmult_le_pos c b ltac:(lra) Hb) as Hcb.
    rewrite Rmax_right in F0 by lra. rewrite Rmax_right in F1 by lra. rewrite Rmax_right in F2 by lra.
    assert (EA : (F [-2] - 2 * F [-1] + F [0]) / 2 = u * u * (2 + c) / 2) by (rewrite F0, F1, F2; field; lra). rewrite EA.
    assert (EB : u * u * (2 + c) / 2 + F [0] - F [-1] = - (u * (m + c * b))) by (rewrite F0, F1; field; lra). rewrite EB. field. lra.
  Qed.
  Lemma bound_solves F fuel a fs xs gt r : subproblem (floor_at b) 1 1 0 F -> run_opt RN careful no_grad fuel [a] F 1 fs xs gt = Some r -> forall y, F (r_x RN r) <= F [y].
  Proof using Hb.
    intros HF Hr y. rewrite (careful_run _ _ _ _ _ _ _ Hr). destruct (bound_subproblem F HF) as (c & u & m & Hc & Hu & Hm & EF).
    assert (HL : forall y, F [lowest F] <= F [y]). { intros z. rewrite !EF, (lowest_dish F c u m Hc Hu Hm EF). pose proof (dish_least c m (z * u) Hc Hm) as H. pose proof (pow2_ge_0 (z * u - (m + c * b) / (2 + c))). lra. }
    unfold careful_step. assert (El : map2 Rplus [a] [lowest F - a] = [lowest F]) by (simpl; f_equal; ring).
    destruct (Rle_dec (F (map2 Rplus [a] [lowest F - a])) (F [a])) as [H|H]; [rewrite El; apply HL|]. exfalso. apply H. rewrite El. apply HL.
  Qed.
  Lemma bound_stationary : stationary careful no_grad (floor_at b) 1 1 0 0.
  Proof using Hb.
    intros F HF fuel x0 fs xs gt r Hx Hr v s Hv D. destruct x0 as [|a [|]]; try discriminate. destruct v as [|e [|]]; try discriminate.
    pose proof (run_length _ careful no_grad careful_counted careful_shaped _ _ _ _ _ _ _ _ Hr) as Lr.
    assert (Ex : exists q, (r_x RN r : list R) = [q]). { destruct (r_x RN r) as [|q [|]]; try discriminate. eauto. }
    destruct Ex as [q Eq]. rewrite (slope_at_least _ _ D); [lra|]. intros t. cbv beta. pose proof (bound_solves F fuel a fs xs gt r HF Hr) as H. rewrite Eq in *.
    simpl. rewrite Rmult_0_l, Rplus_0_r. apply H.
  Qed.
  Lemma bound_convex x y : convex_from (floor_at b) [x] [y].
  Proof using.
    split; [|split].
    - exists (2 * x * (y - x)). split.
      + apply is_derive_ext with (f := fun t => (x + t * (y - x)) * (x + t * (y - x))); [intros t; reflexivity|]. auto_derive; [trivial|ring].
      + simpl. unfold head. simpl. pose proof (Rle_0_sqr (y - x)) as H. unfold Rsqr in H. lra.
    - intros [|[|i]]; simpl.
      + exists (- (y - x)). split; [|unfold head; simpl; lra]. apply is_derive_ext with (f := fun t => b - (x + t * (y - x))); [intros t; reflexivity|]. auto_derive; [trivial|ring].
      + exists 0. split; [apply dR_const|lra].
      + exists 0. split; [apply dR_const|lra].
    - intros i. assert (E : forall t, nth i (p_h RN (floor_at b) (between [x] [y] t)) 0 = 0) by (intros t; destruct i; reflexivity).
      split; exists 0; (split; [|rewrite !E; lra]);
        (apply is_derive_ext with (f := fun _ : R => 0 : R); [intros t; rewrite E; try apply eq_sym, Ropp_0; reflexivity|apply dR_const]).
  Qed.
  Lemma bound_exact fuel fs xs gt d d' : sound_state (fun _ => false) 1 1 0 d -> d_mu RN d = [2 * b] -> body RN careful no_grad (floor_at b) fuel fs xs gt d = Some d' -> d_x RN d' = [b] /\ d_mu RN d' = [2 * b].
  Proof using Hb.
    intros S Em Hbd. destruct (pass_facts _ careful no_grad careful_counted (floor_at b) eq_refl 1 1 0 bound_sized careful_shaped _ _ _ _ _ _ S Hbd) as (r & Hr & Lr & Ex & _ & Emu & _).
    pose proof S as (Lx & Ll & Lm & Hc & Hu & _).
    assert (Ex0 : exists a, (d_x RN d : list R) = [a]) by (destruct (d_x RN d) as [|a [|]]; try discriminate; eauto). destruct Ex0 as [a Ea]. rewrite Ea in Hr. cbn [map] in Hr.
    pose proof (bound_solves _ _ _ _ _ _ _ (subproblem_of _ (floor_at b) eq_refl 1 1 0 bound_sized d S) Hr) as Hs.
    assert (Eq : exists q, (r_x RN r : list R) = [q]) by (destruct (r_x RN r) as [|q [|]]; try discriminate; eauto). destruct Eq as [q Eq].
    assert (EF : forall y, l_k RN (floor_at b) (d_xunit RN d) (d_c RN d) (d_lam RN d) (d_mu RN d) [y] = dish (d_c RN d) (2 * b) (y * d_xunit RN d)).
    { intros y. rewrite (handed _ (floor_at b) eq_refl 1 1 0 bound_sized) by (try reflexivity; assumption). rewrite Em. destruct (d_lam RN d); [|discriminate]. unfold augmented, dish. simpl. unfold head. simpl. ring. }
    pose proof (Hs (b / d_xunit RN d)) as H. rewrite Eq, !EF in H. replace (b / d_xunit RN d * d_xunit RN d) with b in H by (field; lra).
    pose proof (dish_least (d_c RN d) (2 * b) (q * d_xunit RN d) Hc ltac:(lra)) as H2. replace ((2 * b + d_c RN d * b) / (2 + d_c RN d)) with b in H2 by (field; lra).
    assert (Q : q * d_xunit RN d = b). { pose proof (pow2_ge_0 (q * d_xunit RN d - b)) as H3. assert (H4 : (q * d_xunit RN d - b) ^ 2 = 0) by lra. assert (H5 : q * d_xunit RN d - b = 0) by nra. lra. }
    assert (Xb : d_x RN d' = [b]) by (rewrite Ex, Eq; cbn [map]; now rewrite Q).
    split; [exact Xb|]. rewrite Emu, Xb, Em. simpl. unfold head. simpl. f_equal. rewrite Rmax_right; lra.
  Qed.
  Lemma bound_solved (x0 : R) : exists d u, solved (floor_at b) 1 1 0 0 d u /\ d_x RN d = [b] /\ d_mu RN d = [2 * b].
  Proof using Hb.
    destruct (outer_terminates RN careful no_grad careful_counted (floor_at b) [x0] 1 [] [2 * b] 100 1) as (d & H & _); [simpl; lia|simpl; lia|].
    destruct (solve_inv RN careful no_grad careful_counted _ _ _ _ _ _ _ _ H) as (d1 & Hml & Hlast & _).
    assert (Hp : passes careful no_grad (floor_at b) (init_dict RN (floor_at b) [x0] 1 [] [2 * b]) d1) by apply (main_inv _ careful no_grad careful_counted (floor_at b) _ _ _ _ _ _ _ Hml).
    assert (S0 : sound_state (fun _ => false) 1 1 0 (init_dict RN (floor_at b) [x0] 1 [] [2 * b])) by (split; [reflexivity|]; split; [reflexivity|]; split; [reflexivity|]; split; [simpl; lra|]; split; [simpl; lra|]; constructor; [lra|constructor]).
    assert (G : sound_state (fun _ => false) 1 1 0 d1 /\ d_mu RN d1 = [2 * b]).
    { split; [exact (passes_sound _ careful no_grad careful_counted (floor_at b) eq_refl 1 _ _ bound_sized careful_shaped ltac:(simpl; lra) _ _ Hp S0)|].
      clear Hml Hlast. induction Hp as [|e1 e2 fuel fs xs gt Hp IH Hbd]; [reflexivity|]. 
      exact (proj2 (bound_exact _ _ _ _ _ _ (passes_sound _ careful no_grad careful_counted (floor_at b) eq_refl 1 _ _ bound_sized careful_shaped ltac:(simpl; lra) _ _ Hp S0) IH Hbd)). }
    exists d, (d_xunit RN d1). split; [|exact (bound_exact _ _ _ _ _ _ (proj1 G) (proj2 G) Hlast)]. exists careful, no_grad, [x0], 1, [], [2 * b], 100%nat, 1%nat, d1.
    split; [apply careful_counted|]. split; [apply careful_shaped|]. split; [reflexivity|]. split; [simpl; lra|]. split; [apply bound_sized|]. split; [reflexivity|]. split; [lra|].
    split; [reflexivity|]. split; [reflexivity|]. split; [constructor; [lra|constructor]|]. split; [apply bound_stationary|]. split; [exact Hml|]. split; [reflexivity|exact H].
  Qed.
End Bound.
