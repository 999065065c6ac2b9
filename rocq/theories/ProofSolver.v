(** Lemmas about the solver model, for any arithmetic. *)
From Coq Require Import List Bool Arith Lia.
From Verif Require Import Base ModelSolver SpecSolver.
Import ListNotations.

Section While.
  Variables (S : Type) (cond : S -> bool) (body : S -> option S).

  Lemma while_inv (I : S -> Prop) :
    (forall s s', I s -> cond s = true -> body s = Some s' -> I s') ->
    forall n s r, I s -> while_fuel n cond body s = Some r -> I r /\ cond r = false.
  Proof.
    intros Hstep; induction n as [|n IH]; intros s r Hs; simpl;
      destruct (cond s) eqn:Hc; intros H; try discriminate.
    - injection H as <-; auto.
    - destruct (body s) as [s'|] eqn:Hb; [|discriminate].
      eapply IH; [|exact H]. eapply Hstep; eauto.
    - injection H as <-; auto.
  Qed.

  Lemma while_term (I : S -> Prop) (m : S -> nat) :
    (forall s, I s -> cond s = true -> exists s', body s = Some s' /\ I s' /\ m s' < m s) ->
    forall n s, I s -> m s <= n -> exists r, while_fuel n cond body s = Some r.
  Proof.
    intros Hstep; induction n as [|n IH]; intros s Hs Hm; simpl;
      destruct (cond s) eqn:Hc; eauto.
    - destruct (Hstep s Hs Hc) as (s' & _ & _ & Hlt). lia.
    - destruct (Hstep s Hs Hc) as (s' & Hb & Hs' & Hlt). rewrite Hb.
      apply IH; [assumption|lia].
  Qed.

  Lemma while_mono : forall n m s r, n <= m ->
    while_fuel n cond body s = Some r -> while_fuel m cond body s = Some r.
  Proof.
    induction n as [|n IH]; intros m s r Hnm; destruct m; simpl; intros H;
      destruct (cond s) eqn:Hc; try discriminate; auto; try lia.
    destruct (body s); [|discriminate]. apply IH; [lia|exact H].
  Qed.

  Lemma while_det : forall n m s r r',
    while_fuel n cond body s = Some r -> while_fuel m cond body s = Some r' -> r = r'.
  Proof.
    intros n m s r r' H H'.
    assert (H1 := while_mono n (max n m) s r ltac:(lia) H).
    assert (H2 := while_mono m (max n m) s r' ltac:(lia) H').
    congruence.
  Qed.
End While.

Local Arguments linspace : simpl never.

Section Inner.
  Variables (N : Num) (o : optimiser N) (ag : (list N -> N) -> list N -> list N).
  Hypothesis Hcnt : counted o.
  Variable f : list N -> N.
  Variable x0 : list N.

  Lemma count_init fs n : o_count N o (k_state N o (init_carry N o f x0 fs n)) = 0.
  Proof. apply Hcnt. Qed.

  Lemma count_step k :
    o_count N o (k_state N o (step N o ag f k)) = S (o_count N o (k_state N o k)).
  Proof.
    unfold step. destruct (value_and_grad_from_state _ _ _ _ _ _) as [v g].
    destruct (o_update N o f g _ _ v) as [u s'] eqn:E. simpl.
    destruct Hcnt as [_ H]. specialize (H f g (k_state N o k) (k_params N o k) v).
    rewrite E in H. exact H.
  Qed.

  Lemma continuing_bound maxiter fs xs gt k :
    continuing N o maxiter fs xs gt k = true ->
    o_count N o (k_state N o k) < Nat.max 1 maxiter.
  Proof.
    unfold continuing. intros H. apply orb_true_iff in H as [H|H].
    - apply Nat.eqb_eq in H. lia.
    - rewrite !andb_true_iff in H. destruct H as [[[H _] _] _].
      apply Nat.ltb_lt in H. lia.
  Qed.

  Definition reach (fs : N) (k : carry N o) : Prop :=
    exists vals,
      traj o ag f x0 (o_count N o (k_state N o k)) (k_params N o k) (k_state N o k)
           (k_updates N o k) vals /\
      k_rec N o k = skipn (length vals)
        (map (fun l => n_add N l (n_mul N (f x0) (n_nat N 2)))
             (linspace N (n_mul N (n_nat N 1000) fs) (n_zero N) 10) ++ vals) /\
      length vals = o_count N o (k_state N o k) /\
      (vals <> [] -> k_value N o k = last vals (n_zero N)).

  Lemma reach_init fs : reach fs (init_carry N o f x0 fs 10).
  Proof.
    exists []. rewrite count_init. split; [constructor|].
    split; [cbn [length skipn]; rewrite app_nil_r; reflexivity|]. split; [reflexivity|].
    intros H; exfalso; apply H; reflexivity.
  Qed.

  Lemma tl_skipn {A} n (l : list A) : tl (skipn n l) = skipn (S n) l.
  Proof. revert l; induction n as [|n IH]; destruct l; simpl; auto. rewrite IH. destruct l; reflexivity. Qed.

  Lemma reach_step fs k : reach fs k -> reach fs (step N o ag f k).
  Proof.
    intros (vals & Ht & Hr & Hl & Hv).
    unfold reach. rewrite count_step.
    unfold step in *.
    destruct (value_and_grad_from_state _ _ _ _ _ _) as [v g] eqn:Evg.
    destruct (o_update N o f g _ _ v) as [u s'] eqn:E.
    cbn [k_params k_state k_updates k_rec k_value].
    exists (vals ++ [v]). split; [|split; [|split]].
    - econstructor; [exact Ht| | |exact E].
      + intros Hf. unfold value_and_grad_from_state in Evg. rewrite Hf in Evg.
        injection Evg; auto.
      + intros Hf. unfold value_and_grad_from_state in Evg. rewrite Hf in Evg.
        injection Evg; auto.
    - rewrite Hr. rewrite tl_skipn. rewrite app_length. simpl length.
      rewrite Nat.add_1_r. rewrite app_assoc. rewrite (skipn_app (S (length vals)) (_ ++ vals)).
      f_equal. rewrite app_length, map_length. unfold linspace. rewrite map_length, seq_length.
      replace (S (length vals) - (10 + length vals)) with 0 by lia. reflexivity.
    - rewrite app_length; simpl; lia.
    - intros _. rewrite last_last. reflexivity.
  Qed.

  Lemma run_opt_terminates fuel maxiter fs xs gt :
    Nat.max 1 maxiter <= fuel ->
    exists r, run_opt N o ag fuel x0 f maxiter fs xs gt = Some r.
  Proof.
    intros Hfuel. unfold run_opt.
    destruct (while_term _ (continuing N o maxiter fs xs gt) (fun k => Some (step N o ag f k))
      (fun _ => True) (fun k => Nat.max 1 maxiter - o_count N o (k_state N o k))) with
      (n := fuel) (s := init_carry N o f x0 fs 10) as [r Hr].
    - intros k _ Hc. eexists; split; [reflexivity|]. split; [trivial|].
      rewrite count_step. apply continuing_bound in Hc. lia.
    - trivial.
    - rewrite count_init. lia.
    - rewrite Hr. eauto.
  Qed.

  Lemma run_opt_inv fuel maxiter fs xs gt r :
    run_opt N o ag fuel x0 f maxiter fs xs gt = Some r ->
    exists k, r = pack_out N o k /\ reach fs k /\
      continuing N o maxiter fs xs gt k = false /\
      1 <= o_count N o (k_state N o k) <= Nat.max 1 maxiter /\
      exists k1, reach fs k1 /\ k = step N o ag f k1.
  Proof.
    unfold run_opt. intros H.
    destruct (while_fuel _ _ _ _) as [k|] eqn:E; [|discriminate]. injection H as <-.
    exists k. split; [reflexivity|].
    apply (while_inv _ _ _ (fun k => reach fs k /\ o_count N o (k_state N o k) <= Nat.max 1 maxiter
        /\ (o_count N o (k_state N o k) = 0 \/ exists k1, reach fs k1 /\ k = step N o ag f k1))) in E.
    - destruct E as [(Hr & Hb & Hs) Hc]. repeat split; auto.
      + unfold continuing in Hc. apply orb_false_iff in Hc as [Hc _].
        apply Nat.eqb_neq in Hc. lia.
      + destruct Hs as [Hs|Hs]; auto.
        unfold continuing in Hc. rewrite Hs in Hc. discriminate.
    - intros s s' (Hr & Hb & _) Hc [= <-]. apply continuing_bound in Hc.
      split; [apply reach_step; assumption|]. split; [rewrite count_step; lia|].
      right. eauto.
    - split; [apply reach_init|]. rewrite count_init. split; [lia|auto].
  Qed.

  Lemma inner_terminates fuel maxiter fs xs gt :
    Nat.max 1 maxiter <= fuel ->
    exists r, run_opt N o ag fuel x0 f maxiter fs xs gt = Some r /\
      1 <= r_count N r <= Nat.max 1 maxiter /\
      (exists s u vals, traj o ag f x0 (r_count N r) (r_x N r) s u vals) /\
      (forall fuel' r', run_opt N o ag fuel' x0 f maxiter fs xs gt = Some r' -> r' = r).
  Proof.
    intros Hf. destruct (run_opt_terminates fuel maxiter fs xs gt Hf) as [r Hr].
    exists r. split; [assumption|].
    destruct (run_opt_inv _ _ _ _ _ _ Hr) as (k & -> & (vals & Ht & _) & _ & Hb & _).
    split; [exact Hb|]. split; [simpl; eauto|].
    intros fuel' r' Hr'. unfold run_opt in *.
    destruct (while_fuel fuel _ _ _) as [k1|] eqn:E1; [|discriminate].
    destruct (while_fuel fuel' _ _ _) as [k2|] eqn:E2; [|discriminate].
    rewrite (while_det _ _ _ _ _ _ _ _ E1 E2) in Hr. congruence.
  Qed.

  Lemma inner_exit fuel maxiter fs xs gt r :
    run_opt N o ag fuel x0 f maxiter fs xs gt = Some r ->
    exists s u vals, traj o ag f x0 (r_count N r) (r_x N r) s u vals /\ length vals = r_count N r /\
    r_grad N r = o_grad N o s /\
    (maxiter <= r_count N r
     \/ n_ltb N gt (vnorm N (r_grad N r)) = false
     \/ n_ltb N fs (avg_improvement N
          (skipn (length vals)
            (map (fun l => n_add N l (n_mul N (f x0) (n_nat N 2)))
             (linspace N (n_mul N (n_nat N 1000) fs) (n_zero N) 10) ++ vals))) = false
     \/ (n_ltb N xs (r_dx N r) = false /\ n_ltb N xs (r_du N r) = false
         /\ n_ltb N fs (r_df N r) = false)).
  Proof.
    intros H. destruct (run_opt_inv _ _ _ _ _ _ H) as (k & -> & (vals & Ht & Hrec & Hl & Hv) & Hc & Hb & _).
    cbn [pack_out r_count r_x r_grad r_dx r_du r_df].
    do 3 eexists. split; [exact Ht|]. split; [assumption|]. split; [reflexivity|].
    rewrite <- Hrec.
    unfold continuing in Hc. apply orb_false_iff in Hc as [_ Hc].
    rewrite !andb_false_iff, !orb_false_iff in Hc.
    destruct Hc as [[[Hc|Hc]|Hc]|[[Hc1 Hc2] Hc3]].
    - left. apply Nat.ltb_ge in Hc. exact Hc.
    - right; left; exact Hc.
    - right; right; left; exact Hc.
    - right; right; right; auto.
  Qed.

  Lemma value_is_previous fuel maxiter fs xs gt r :
    honest o ag f x0 ->
    run_opt N o ag fuel x0 f maxiter fs xs gt = Some r ->
    exists xprev u s vals,
      traj o ag f x0 (r_count N r - 1) xprev s u vals /\
      (exists u', r_x N r = map2 (n_add N) xprev u') /\ r_f N r = f xprev.
  Proof.
    intros Hh H. destruct (run_opt_inv _ _ _ _ _ _ H) as (k & -> & _ & _ & _ & k1 & Hk1 & ->).
    unfold pack_out, r_count, r_x, r_f. rewrite count_step.
    destruct Hk1 as (vals & Ht & _).
    replace (S (o_count N o (k_state N o k1)) - 1) with (o_count N o (k_state N o k1)) by lia.
    exists (k_params N o k1), (k_updates N o k1), (k_state N o k1), vals.
    split; [assumption|].
    unfold step. destruct (value_and_grad_from_state _ _ _ _ _ _) as [v g] eqn:Evg.
    destruct (o_update N o f g _ _ v) as [u s'] eqn:E. simpl.
    split; [exists u; reflexivity|].
    unfold value_and_grad_from_state in Evg.
    destruct (n_finite N (o_value N o (k_state N o k1))) eqn:Hf.
    - injection Evg as <- _. eapply Hh; eauto.
    - injection Evg as <- _. reflexivity.
  Qed.
End Inner.

Section Outer.
  Variables (N : Num) (o : optimiser N) (ag : (list N -> N) -> list N -> list N).
  Hypothesis Hcnt : counted o.
  Variable P : problem N.

  Lemma body_some fuel fs xs gt d :
    Nat.max 1 (p_maxiter_inner N P) <= fuel ->
    exists d', body N o ag P fuel fs xs gt d = Some d'.
  Proof.
    intros Hf. unfold body.
    destruct (run_opt_terminates N o ag Hcnt
       (l_k N P (d_xunit N d) (d_c N d) (d_lam N d) (d_mu N d))
       (vdivs N (d_x N d) (d_xunit N d)) fuel (p_maxiter_inner N P) fs xs gt Hf) as [r Hr].
    rewrite Hr. eauto.
  Qed.

  Lemma body_inv fuel fs xs gt d d' :
    body N o ag P fuel fs xs gt d = Some d' ->
    exists r, run_opt N o ag fuel (vdivs N (d_x N d) (d_xunit N d))
       (l_k N P (d_xunit N d) (d_c N d) (d_lam N d) (d_mu N d)) (p_maxiter_inner N P) fs xs gt = Some r
    /\ 1 <= r_count N r <= Nat.max 1 (p_maxiter_inner N P)
    /\ d_tot N d' = d_tot N d + r_count N r
    /\ d_x N d' = vmuls N (r_x N r) (d_xunit N d)
    /\ d_f N d' = p_f N P (d_x N d') /\ d_g N d' = p_g N P (d_x N d')
    /\ d_h N d' = p_h N P (d_x N d')
    /\ d_niter N d' = r_count N r
    /\ d_dx N d' = vnorm N (vsub N (d_x N d') (d_x N d))
    /\ d_c N d' = (if update_multiplier N P (d_g N d') (d_h N d') (d_c N d) (r_count N r)
                   then d_c N d else n_mul N (d_c N d) (p_growth N P))
    /\ d_lam N d' = vadd N (d_lam N d) (vscale N (d_c N d) (d_h N d'))
    /\ d_mu N d' = vadd N (d_mu N d) (vscale N (d_c N d) (p_mask N P (d_g N d') (d_mu N d) (d_c N d)))
    /\ d_xunit N d' = (if n_neb N (vnorm N (d_x N d')) (n_zero N) then vnorm N (d_x N d') else n_one N)
    /\ d_laug N d' = r_f N r.
  Proof.
    unfold body. intros H.
    destruct (run_opt _ _ _ _ _ _ _ _ _ _) as [r|] eqn:E; [|discriminate].
    injection H as <-. exists r. split; [reflexivity|]. simpl.
    split; [|repeat split; reflexivity].
    destruct (run_opt_inv N o ag Hcnt _ _ _ _ _ _ _ _ E) as (k & -> & _ & _ & Hb & _).
    exact Hb.
  Qed.

  Lemma outer_continue_bound d : outer_continue N P d = true ->
    d_tot N d <= p_maxiter_tot N P - 1.
  Proof.
    unfold outer_continue. intros H. apply orb_true_iff in H as [H|H].
    - apply Nat.eqb_eq in H. lia.
    - apply andb_true_iff in H as [H _]. apply Nat.ltb_lt in H. lia.
  Qed.

  Lemma outer_continue_false d : outer_continue N P d = false -> 1 <= d_tot N d.
  Proof.
    unfold outer_continue. intros H. apply orb_false_iff in H as [H _].
    apply Nat.eqb_neq in H. lia.
  Qed.

  Variables (x0 : list N) (c0 : N) (lam0 mu0 : list N).
  Let d0 := init_dict N P x0 c0 lam0 mu0.

  Lemma main_terminates fuel_out fuel_in :
    Nat.max 1 (p_maxiter_inner N P) <= fuel_in ->
    Nat.max 1 (p_maxiter_tot N P) <= fuel_out ->
    exists d, main_loop N o ag P fuel_out fuel_in d0 = Some d.
  Proof.
    intros Hi Ho. unfold main_loop.
    apply (while_term _ _ _ (fun _ => True) (fun d => Nat.max 1 (p_maxiter_tot N P) - d_tot N d)).
    - intros d _ Hc.
      destruct (body_some fuel_in (p_fstop N P) (p_xstop N P) (p_gtol N P) d Hi) as [d' Hd'].
      exists d'. split; [assumption|]. split; [trivial|].
      destruct (body_inv _ _ _ _ _ _ Hd') as (r & _ & Hb & Ht & _).
      rewrite Ht. apply outer_continue_bound in Hc. lia.
    - trivial.
    - unfold d0; cbn [init_dict d_tot]; lia.
  Qed.

  Lemma main_inv fuel_out fuel_in d :
    main_loop N o ag P fuel_out fuel_in d0 = Some d ->
    passes o ag P d0 d /\ outer_continue N P d = false /\
    1 <= d_tot N d <= p_maxiter_tot N P - 1 + Nat.max 1 (p_maxiter_inner N P) /\
    exists d1, body N o ag P fuel_in (p_fstop N P) (p_xstop N P) (p_gtol N P) d1 = Some d
      /\ passes o ag P d0 d1.
  Proof.
    unfold main_loop. intros H.
    apply (while_inv _ _ _ (fun d => passes o ag P d0 d /\
       d_tot N d <= p_maxiter_tot N P - 1 + Nat.max 1 (p_maxiter_inner N P) /\
       (d_tot N d = 0 \/ exists d1, body N o ag P fuel_in (p_fstop N P) (p_xstop N P) (p_gtol N P) d1 = Some d
         /\ passes o ag P d0 d1))) in H.
    - destruct H as [(Hp & Hb & Hl) Hc]. assert (Hc1 := outer_continue_false _ Hc).
      repeat split; auto. destruct Hl as [Hl|Hl]; [lia|exact Hl].
    - intros d1 d2 (Hp & Hb & _) Hc Hd. split; [econstructor; eauto|].
      destruct (body_inv _ _ _ _ _ _ Hd) as (r & _ & Hr & Ht & _).
      apply outer_continue_bound in Hc. split; [lia|]. right. eauto.
    - split; [constructor|]. split; [unfold d0; cbn [init_dict d_tot]; lia|]. left; reflexivity.
  Qed.

  Lemma solve_inv fuel_out fuel_in d :
    solve_constrained N o ag P fuel_out fuel_in x0 c0 lam0 mu0 = Some d ->
    exists d1, main_loop N o ag P fuel_out fuel_in d0 = Some d1 /\
      last_pass N o ag P fuel_in d1 = Some d /\ passes o ag P d0 d.
  Proof.
    unfold solve_constrained. intros H. fold d0 in H.
    destruct (main_loop _ _ _ _ _ _ _) as [d1|] eqn:E; [|discriminate].
    exists d1. split; [reflexivity|]. split; [assumption|].
    destruct (main_inv _ _ _ E) as (Hp & _).
    econstructor; [exact Hp|exact H].
  Qed.

  Lemma outer_terminates fuel_out fuel_in :
    Nat.max 1 (p_maxiter_inner N P) <= fuel_in ->
    Nat.max 1 (p_maxiter_tot N P) <= fuel_out ->
    exists d, solve_constrained N o ag P fuel_out fuel_in x0 c0 lam0 mu0 = Some d /\
      2 <= d_tot N d <= p_maxiter_tot N P - 1 + 2 * Nat.max 1 (p_maxiter_inner N P).
  Proof.
    intros Hi Ho. destruct (main_terminates _ _ Hi Ho) as [d1 H1].
    destruct (main_inv _ _ _ H1) as (_ & _ & Hb & _).
    destruct (body_some fuel_in (p_fstop_last N P) (p_xstop_last N P) (p_gtol_last N P) d1 Hi) as [d Hd].
    exists d. unfold solve_constrained. fold d0. rewrite H1. split; [exact Hd|].
    destruct (body_inv _ _ _ _ _ _ Hd) as (r & _ & Hr & Ht & _). lia.
  Qed.

  Lemma reported_values fuel_out fuel_in d :
    solve_constrained N o ag P fuel_out fuel_in x0 c0 lam0 mu0 = Some d ->
    d_f N d = p_f N P (d_x N d) /\ d_g N d = p_g N P (d_x N d) /\ d_h N d = p_h N P (d_x N d).
  Proof.
    intros H. destruct (solve_inv _ _ _ H) as (d1 & _ & Hl & _).
    destruct (body_inv _ _ _ _ _ _ Hl) as (r & _ & _ & _ & _ & Hf & Hg & Hh & _). auto.
  Qed.

  Lemma main_exit fuel_out fuel_in d :
    main_loop N o ag P fuel_out fuel_in d0 = Some d ->
    d_g N d = p_g N P (d_x N d) /\ d_h N d = p_h N P (d_x N d) /\
    (p_maxiter_tot N P <= d_tot N d \/
     (n_leb N (p_xstop_outer N P) (d_dx N d) = false /\
      ((forall v, In v (d_g N d) -> n_leb N (p_ctol N P) v = false) /\
       (forall v, In v (d_h N d) -> n_leb N (p_ctol N P) (n_abs N v) = false)
       \/ n_leb N (d_c N d) (p_csafe N P) = false))).
  Proof.
    intros H. destruct (main_inv _ _ _ H) as (_ & Hc & Hb & d1 & Hd & _).
    destruct (body_inv _ _ _ _ _ _ Hd) as (r & _ & _ & _ & _ & _ & Hg & Hh & _).
    split; [assumption|]. split; [assumption|].
    unfold outer_continue in Hc. apply orb_false_iff in Hc as [_ Hc].
    apply andb_false_iff in Hc as [Hc|Hc]; [left; apply Nat.ltb_ge; exact Hc|].
    right. apply orb_false_iff in Hc as [Hx Hc]. split; [assumption|].
    apply andb_false_iff in Hc as [Hc|Hc]; [left|right; assumption].
    apply orb_false_iff in Hc as [Hg' Hh'].
    split; intros v Hv.
    - destruct (n_leb N (p_ctol N P) v) eqn:E; [|reflexivity].
      assert (vany N (fun g => n_leb N (p_ctol N P) g) (d_g N d) = true)
        by (apply existsb_exists; eauto). congruence.
    - destruct (n_leb N (p_ctol N P) (n_abs N v)) eqn:E; [|reflexivity].
      assert (vany N (fun h => n_leb N (p_ctol N P) (n_abs N h)) (d_h N d) = true)
        by (apply existsb_exists; eauto). congruence.
  Qed.
End Outer.
