(** Lemmas about the solver model over the reals. *)
From Coq Require Import List Bool Arith Lia Reals Lra.
From Coquelicot Require Import Coquelicot.
From Verif Require Import Base ModelSolver SpecSolver ProofSolver RDeriv.
Import ListNotations.
Open Scope R_scope.
Local Arguments linspace : simpl never.

Lemma fold_left_sumR l a : fold_left Rplus l a = a + sumR l.
Proof. revert a; induction l as [|x l IH]; intros a; simpl; [lra|]. rewrite IH; lra. Qed.

Section RNum.
  Variable fin : R -> bool.
  Notation N := (R_num fin).

  Lemma vsum_sumR (l : list R) : vsum N l = sumR l.
  Proof. unfold vsum; simpl. rewrite fold_left_sumR; lra. Qed.

  Lemma vdot_dotR (a b : list R) : vdot N a b = dotR a b.
  Proof. unfold vdot, dotR. rewrite vsum_sumR. reflexivity. Qed.

  Lemma map2_same {A B C} (f : A -> A -> C) (g : B -> A) (l : list B) :
    map2 f (map g l) (map g l) = map (fun x => f (g x) (g x)) l.
  Proof. induction l; simpl; congruence. Qed.

  Lemma map2_diag {A C} (f : A -> A -> C) (l : list A) :
    map2 f l l = map (fun x => f x x) l.
  Proof. induction l; simpl; congruence. Qed.

  Lemma vnorm_normR (a : list R) : vnorm N a = normR a.
  Proof. unfold vnorm, normR. rewrite vsum_sumR. unfold vmul. simpl. rewrite map2_diag. reflexivity. Qed.

  Lemma sumsq_nonneg l : 0 <= sumR (map (fun x => x * x) l).
  Proof. induction l as [|x l IH]; simpl; [lra|]. assert (0 <= x * x) by nra. lra. Qed.

  Lemma ltb_true a b : n_ltb N a b = true -> a < b.
  Proof. simpl. destruct (Rlt_dec a b); [auto|discriminate]. Qed.
  Lemma ltb_false a b : n_ltb N a b = false -> b <= a.
  Proof. simpl. destruct (Rlt_dec a b); [discriminate|lra]. Qed.
  Lemma leb_true a b : n_leb N a b = true -> a <= b.
  Proof. simpl. destruct (Rle_dec a b); [auto|discriminate]. Qed.
  Lemma leb_false a b : n_leb N a b = false -> b < a.
  Proof. simpl. destruct (Rle_dec a b); [discriminate|lra]. Qed.
  Lemma ltb_false_i (a b : R) : b <= a -> n_ltb N a b = false.
  Proof. simpl. destruct (Rlt_dec a b); [lra|reflexivity]. Qed.
  Lemma ltb_true_i (a b : R) : a < b -> n_ltb N a b = true.
  Proof. simpl. destruct (Rlt_dec a b); [reflexivity|lra]. Qed.
  Lemma leb_false_i (a b : R) : b < a -> n_leb N a b = false.
  Proof. simpl. destruct (Rle_dec a b); [lra|reflexivity]. Qed.
  Lemma leb_true_i (a b : R) : a <= b -> n_leb N a b = true.
  Proof. simpl. destruct (Rle_dec a b); [reflexivity|lra]. Qed.

  (** ** Telescoping of the mean decrease. *)
  Lemma telescope (l : list R) (a : R) :
    sumR (map2 Rminus (removelast (a :: l)) l) = a - last (a :: l) 0.
  Proof.
    revert a; induction l as [|b l IH]; intros a; [simpl; lra|].
    change (removelast (a :: b :: l)) with (a :: removelast (b :: l)).
    cbn [map2 sumR fold_right]. fold (sumR (map2 Rminus (removelast (b :: l)) l)).
    rewrite IH. change (last (a :: b :: l) 0) with (last (b :: l) 0). lra.
  Qed.

  Lemma map2_length {A B C} (f : A -> B -> C) l l' :
    length (map2 f l l') = Nat.min (length l) (length l').
  Proof. revert l'; induction l; destruct l'; simpl; auto. Qed.

  Lemma removelast_length {A} (l : list A) : length (removelast l) = (length l - 1)%nat.
  Proof.
    destruct l as [|a l]; [reflexivity|].
    assert (H := app_removelast_last (l := a :: l) a ltac:(congruence)).
    apply (f_equal (@length _)) in H. rewrite app_length in H. simpl in *. lia.
  Qed.

  Lemma avg_telescope (r : list R) (n : nat) : length r = S (S n) ->
    avg_improvement N r = (hd 0 r - last r 0) / INR (S n).
  Proof.
    intros Hl. unfold avg_improvement, vsub. rewrite vsum_sumR, map2_length.
    destruct r as [|a r]; [discriminate|].
    cbn [T R_num n_sub tl n_div n_nat hd].
    rewrite telescope. rewrite removelast_length. cbn [length] in *.
    replace (Nat.min (S (length r) - 1) (length r)) with (S n) by lia. reflexivity.
  Qed.

  (** The value record after the values [vals]. *)
  Definition recordR (v0 fs : R) (vals : list R) : list R :=
    skipn (length vals) (map (fun l => l + v0 * INR 2) (linspace N (INR 1000 * fs) 0 10) ++ vals).

  Lemma nth_linspace fs v0 i : (i < 10)%nat ->
    nth i (map (fun l => l + v0 * INR 2) (linspace N (INR 1000 * fs) 0 10)) 0
    = 1000 * fs * (INR (9 - i) / 9) + 2 * v0.
  Proof.
    intros Hi. replace (INR 1000) with 1000 by (rewrite INR_IZR_INZ; reflexivity).
    replace (INR 2) with 2 by (simpl; lra).
    do 10 (destruct i as [|i]; [simpl; lra|]). lia.
  Qed.

  Lemma hd_skipn {A} n (l : list A) d : hd d (skipn n l) = nth n l d.
  Proof. revert l; induction n; destruct l; simpl; auto. Qed.

  Lemma last_skipn {A} n (l : list A) d : (n < length l)%nat -> last (skipn n l) d = last l d.
  Proof.
    revert l; induction n as [|n IH]; intros l Hn; [reflexivity|].
    destruct l as [|a l]; [simpl in Hn; lia|].
    cbn [skipn]. rewrite IH by (simpl in Hn; lia).
    destruct l; [simpl in Hn; lia|reflexivity].
  Qed.

  Lemma linspace_length (a b : R) n : length (linspace N a b n) = n.
  Proof. unfold linspace. rewrite map_length, seq_length. reflexivity. Qed.

  Lemma record_length v0 fs vals : length (recordR v0 fs vals) = 10%nat.
  Proof.
    unfold recordR. rewrite skipn_length, app_length, map_length, linspace_length. lia.
  Qed.

  Lemma record_last v0 fs vals : vals <> [] -> last (recordR v0 fs vals) 0 = last vals 0.
  Proof.
    intros Hv. unfold recordR. rewrite last_skipn.
    - destruct (exists_last Hv) as (l & a & ->). rewrite app_assoc, !last_last. reflexivity.
    - rewrite app_length, map_length, linspace_length. lia.
  Qed.

  Lemma record_hd v0 fs vals : hd 0 (recordR v0 fs vals) =
    if (length vals <? 10)%nat then 1000 * fs * (INR (9 - length vals) / 9) + 2 * v0
    else nth (length vals - 10) vals 0.
  Proof.
    unfold recordR. rewrite hd_skipn. destruct (Nat.ltb_spec (length vals) 10).
    - rewrite app_nth1 by (rewrite map_length, linspace_length; lia).
      apply nth_linspace; assumption.
    - rewrite app_nth2 by (rewrite map_length, linspace_length; lia).
      rewrite map_length, linspace_length. reflexivity.
  Qed.

  Lemma last_nth {A} (l : list A) d : last l d = nth (length l - 1) l d.
  Proof.
    destruct l as [|a l]; [reflexivity|].
    assert (H := exists_last (l := a :: l) ltac:(congruence)). destruct H as (l' & b & ->).
    rewrite last_last, app_length, app_nth2 by (simpl; lia). simpl.
    replace (length l' + 1 - 1 - length l')%nat with 0%nat by lia. reflexivity.
  Qed.

  Lemma decrease_chain (vals : list R) fs i j :
    (forall k, (S k < length vals)%nat -> fs < nth k vals 0 - nth (S k) vals 0) ->
    (i + j < length vals)%nat ->
    INR j * fs <= nth i vals 0 - nth (i + j) vals 0 /\
    ((0 < j)%nat -> INR j * fs < nth i vals 0 - nth (i + j) vals 0).
  Proof.
    intros H. induction j as [|j IH]; intros Hj.
    - rewrite Nat.add_0_r. simpl. split; [lra|lia].
    - destruct IH as [IH _]; [lia|]. assert (H1 := H (i + j)%nat ltac:(lia)).
      replace (S (i + j)) with (i + S j)%nat in H1 by lia.
      rewrite S_INR. split; intros; lra.
  Qed.

  Lemma decrease_avg (vals : list R) v0 fs :
    vals <> [] -> nth 0 vals 0 = v0 -> 0 <= fs -> fs <= v0 -> 0 < v0 ->
    (forall k, (S k < length vals)%nat -> fs < nth k vals 0 - nth (S k) vals 0) ->
    fs < avg_improvement N (recordR v0 fs vals).
  Proof.
    intros Hne H0 Hfs Hfv Hv Hdec.
    rewrite (avg_telescope _ 8) by apply record_length.
    rewrite record_hd, record_last by assumption. rewrite last_nth.
    assert (Hlen : (0 < length vals)%nat) by (destruct vals; [congruence|simpl; lia]).
    replace (INR 9) with 9 by (simpl; lra).
    apply Rmult_lt_reg_r with 9; [lra|]. unfold Rdiv. rewrite Rmult_assoc, Rinv_l by lra.
    destruct (Nat.ltb_spec (length vals) 10) as [Hlt|Hge].
    - destruct (decrease_chain vals fs 0 (length vals - 1) Hdec ltac:(lia)) as [Hc Hc'].
      rewrite H0, Nat.add_0_l in *.
      set (n := length vals) in *. clearbody n.
      do 10 (destruct n as [|n]; [try lia; simpl in *; try (assert (Hc'' := Hc' ltac:(lia))); lra|]).
      lia.
    - destruct (decrease_chain vals fs (length vals - 10) 9 Hdec ltac:(lia)) as [_ Hc].
      replace (length vals - 10 + 9)%nat with (length vals - 1)%nat in Hc by lia.
      assert (Hc' := Hc ltac:(lia)). simpl in Hc'. lra.
  Qed.

  (** ** Inner loop over the reals. *)
  Section Inner.
    Variables (o : optimiser N) (ag : (list R -> R) -> list R -> list R).
    Hypothesis Hcnt : counted o.
    Variables (f : list R -> R) (x0 : list R).

    Lemma traj_first n x s u vals :
      honest o ag f x0 -> traj (N := N) o ag f x0 n x s u vals -> vals <> [] -> nth 0 vals 0 = f x0.
    Proof.
      intros Hh Ht. induction Ht as [|n x s u vals v g u' s' Ht IH H1 H2 Hu]; [congruence|].
      intros _. destruct vals as [|a vals]; [|apply IH; congruence].
      simpl. assert (H0 : x = x0 /\ s = o_init N o x0).
      { inversion Ht; auto.
        match goal with H : _ ++ _ = [] |- _ => apply app_eq_nil in H as [_ H]; discriminate end. }
      destruct H0 as [-> ->].
      destruct (n_finite N (o_value N o (o_init N o x0))) eqn:E.
      - destruct (H1 eq_refl) as [-> _]. eapply Hh; [constructor|exact E].
      - destruct (H2 eq_refl) as [-> _]. reflexivity.
    Qed.

    Lemma inner_exit_R fuel maxiter fs xs gt r :
      run_opt N o ag fuel x0 f maxiter fs xs gt = Some r ->
      exists s u vals, traj (N := N) o ag f x0 (r_count N r) (r_x N r) s u vals /\
        length vals = r_count N r /\
      ((maxiter <= r_count N r)%nat
       \/ normR (r_grad N r) <= gt
       \/ ((if (length vals <? 10)%nat
            then 1000 * fs * (INR (9 - length vals) / 9) + 2 * f x0
            else nth (length vals - 10) vals 0) - last vals 0) / 9 <= fs
       \/ (r_dx N r <= xs /\ r_du N r <= xs /\ r_df N r <= fs)).
    Proof.
      intros H. destruct (inner_exit N o ag Hcnt f x0 _ _ _ _ _ _ H) as
        (s & u & vals & Ht & Hl & Hg & Hc).
      exists s, u, vals. split; [assumption|]. split; [assumption|].
      assert (Hne : vals <> []).
      { intros ->. simpl in Hl. destruct (run_opt_inv N o ag Hcnt _ _ _ _ _ _ _ _ H)
          as (k & -> & _ & _ & Hb & _). simpl in Hl. lia. }
      destruct Hc as [Hc|[Hc|[Hc|[Hc1 [Hc2 Hc3]]]]].
      - left; assumption.
      - right; left. apply ltb_false in Hc. rewrite vnorm_normR in Hc. exact Hc.
      - right; right; left. apply ltb_false in Hc.
        change (avg_improvement N (recordR (f x0) fs vals) <= fs) in Hc.
        rewrite (avg_telescope _ 8) in Hc by apply record_length.
        rewrite record_hd, record_last in Hc by assumption.
        replace (INR 9) with 9 in Hc by (simpl; lra). exact Hc.
      - right; right; right. apply ltb_false in Hc1, Hc2, Hc3. auto.
    Qed.

    Lemma no_premature_stop fuel maxiter fs xs gt r :
      honest o ag f x0 -> 0 <= fs -> fs <= f x0 -> 0 < f x0 ->
      (forall n x s u vals, traj (N := N) o ag f x0 n x s u vals ->
         forall i, (S i < length vals)%nat -> fs < nth i vals 0 - nth (S i) vals 0) ->
      run_opt N o ag fuel x0 f maxiter fs xs gt = Some r ->
      (maxiter <= r_count N r)%nat \/ normR (r_grad N r) <= gt \/
      (r_dx N r <= xs /\ r_du N r <= xs /\ r_df N r <= fs).
    Proof.
      intros Hh Hfs Hfv Hv Hdec H.
      destruct (inner_exit N o ag Hcnt f x0 _ _ _ _ _ _ H) as
        (s & u & vals & Ht & Hl & Hg & Hc).
      assert (Hne : vals <> []).
      { intros ->. simpl in Hl. destruct (run_opt_inv N o ag Hcnt _ _ _ _ _ _ _ _ H)
          as (k & -> & _ & _ & Hb & _). simpl in Hl. lia. }
      destruct Hc as [Hc|[Hc|[Hc|[Hc1 [Hc2 Hc3]]]]].
      - left; assumption.
      - right; left. apply ltb_false in Hc. rewrite vnorm_normR in Hc. exact Hc.
      - exfalso. apply ltb_false in Hc.
        change (avg_improvement N (recordR (f x0) fs vals) <= fs) in Hc.
        assert (Hd := decrease_avg vals (f x0) fs Hne (traj_first _ _ _ _ _ Hh Ht Hne) Hfs Hfv Hv (Hdec _ _ _ _ _ Ht)).
        lra.
      - right; right. apply ltb_false in Hc1, Hc2, Hc3. auto.
    Qed.
  End Inner.

  (** ** Outer loop over the reals. *)
  Section Outer.
    Variables (o : optimiser N) (ag : (list R -> R) -> list R -> list R).
    Hypothesis Hcnt : counted o.
    Variable P : problem N.

    Lemma main_exit_R x0 c0 lam0 mu0 fuel_out fuel_in d :
      main_loop N o ag P fuel_out fuel_in (init_dict N P x0 c0 lam0 mu0) = Some d ->
      (p_maxiter_tot N P <= d_tot N d)%nat \/
      (d_dx N d < p_xstop_outer N P /\
       ((forall v, In v (p_g N P (d_x N d)) -> v < p_ctol N P) /\
        (forall v, In v (p_h N P (d_x N d)) -> Rabs v < p_ctol N P)
        \/ p_csafe N P < d_c N d)).
    Proof.
      intros H. destruct (main_exit N o ag Hcnt P _ _ _ _ _ _ _ H) as (Hg & Hh & [Hc|[Hx Hc]]).
      - left; assumption.
      - right. apply leb_false in Hx. split; [assumption|].
        destruct Hc as [[H1 H2]|Hc]; [left|right; apply leb_false in Hc; exact Hc].
        rewrite <- Hg, <- Hh. split; intros v Hv.
        + apply H1 in Hv. apply leb_false in Hv. exact Hv.
        + apply H2 in Hv. apply leb_false in Hv. exact Hv.
    Qed.

    (** Penalty weight. *)
    Lemma body_c fuel fs xs gt d d' : body N o ag P fuel fs xs gt d = Some d' ->
      d_c N d' = d_c N d \/ (d_c N d < p_csafe N P /\ d_c N d' = d_c N d * p_growth N P).
    Proof.
      intros H. destruct (body_inv N o ag Hcnt P _ _ _ _ _ _ H) as
        (r & _ & _ & _ & _ & _ & _ & _ & _ & _ & Hc & _).
      unfold update_multiplier in Hc.
      destruct ((vall N _ _ && vall N _ _) || _ || _) eqn:E; [left; exact Hc|right].
      apply orb_false_iff in E as [E _]. apply orb_false_iff in E as [_ E].
      apply leb_false in E. auto.
    Qed.

    Lemma c_invariant d d' : passes o ag P d d' ->
      0 < d_c N d -> 1 <= p_growth N P ->
      (exists n, d_c N d' = d_c N d * p_growth N P ^ n) /\
      d_c N d <= d_c N d' <= Rmax (d_c N d) (p_csafe N P * p_growth N P).
    Proof.
      intros Hp Hc Hg. induction Hp as [|d1 d2 fuel fs xs gt Hp IH Hb].
      - split; [exists 0%nat; simpl; lra|]. split; [lra|apply Rmax_l].
      - destruct IH as [[n Hn] [Hlo Hhi]].
        destruct (body_c _ _ _ _ _ _ Hb) as [E|[Hlt E]]; rewrite E.
        + split; [exists n; assumption|lra].
        + split.
          * exists (S n). rewrite Hn. simpl. ring.
          * split; [nra|]. eapply Rle_trans; [|apply Rmax_r].
            apply Rmult_le_compat_r; lra.
    Qed.

    Lemma c_monotone d d1 d2 : passes o ag P d d1 -> passes o ag P d1 d2 ->
      0 < d_c N d -> 1 <= p_growth N P -> d_c N d1 <= d_c N d2.
    Proof.
      intros H1 H2 Hc Hg. destruct (c_invariant _ _ H1 Hc Hg) as [_ [H _]].
      destruct (c_invariant _ _ H2 ltac:(lra) Hg) as [_ [H' _]]. exact H'.
    Qed.

    Lemma c_positive d d' : passes o ag P d d' ->
      0 < d_c N d -> 0 < p_growth N P -> 0 < d_c N d'.
    Proof.
      intros Hp Hc Hg. induction Hp as [|d1 d2 fuel fs xs gt Hp IH Hb]; [assumption|].
      destruct (body_c _ _ _ _ _ _ Hb) as [E|[_ E]]; rewrite E; [assumption|].
      apply Rmult_lt_0_compat; assumption.
    Qed.

    (** Multipliers. *)
    Lemma hard_update m g c : 0 < c -> m + c * Rmax g (- m / c) = Rmax (m + c * g) 0.
    Proof.
      intros Hc. unfold Rmax.
      assert (Hm : c * (- m / c) = - m) by (field; lra).
      destruct (Rle_dec g (- m / c)) as [H|H]; destruct (Rle_dec (m + c * g) 0) as [H'|H']; try lra.
      - exfalso. apply H'. apply Rmult_le_compat_l with (r := c) in H; lra.
      - exfalso. apply H. apply Rmult_le_reg_l with c; lra.
    Qed.

    Lemma softplus_update m g c : 0 < c ->
      m + c * (ln (1 + exp (1 * (g + m / c))) / 1 - m / c) = c * ln (1 + exp (g + m / c)).
    Proof. intros Hc. rewrite Rmult_1_l. field. lra. Qed.

    Lemma Forall_mask (mask : R -> R -> R -> R) (g mu : list R) c :
      (forall a b, 0 <= b -> 0 <= b + c * mask a b c) -> List.Forall (fun m => 0 <= m) mu ->
      List.Forall (fun m => 0 <= m) (map2 Rplus mu (map (fun x => c * x) (map2 (fun a b => mask a b c) g mu))).
    Proof.
      intros Hm. revert g. induction mu as [|m mu IH]; intros g Hmu; simpl; [constructor|].
      inversion Hmu; subst. destruct g as [|a g]; simpl; [constructor|]. constructor.
      - apply Hm. assumption.
      - apply IH. assumption.
    Qed.

    Lemma mu_nonneg d d' :
      (p_mask N P = gplus_hard N \/ p_mask N P = gplus_softplus N) ->
      passes o ag P d d' -> 0 < d_c N d -> 0 < p_growth N P ->
      List.Forall (fun m => 0 <= m) (d_mu N d) -> List.Forall (fun m => 0 <= m) (d_mu N d').
    Proof.
      intros Hmask Hp Hc Hg Hmu. induction Hp as [|d1 d2 fuel fs xs gt Hp IH Hb]; [assumption|].
      assert (Hc1 := c_positive _ _ Hp Hc Hg).
      destruct (body_inv N o ag Hcnt P _ _ _ _ _ _ Hb) as
        (r & _ & _ & _ & _ & _ & _ & _ & _ & _ & _ & _ & Hm & _). rewrite Hm.
      unfold vadd, vscale. destruct Hmask as [-> | ->].
      - apply (Forall_mask (fun g m c => Rmax g (- m / c))); [|exact IH].
        intros a b Hb0. rewrite hard_update by assumption. apply Rmax_r.
      - apply (Forall_mask (fun g m c => ln (1 + exp (1 * (g + m / c))) / 1 - m / c)); [|exact IH].
        intros a b Hb0. rewrite softplus_update by assumption.
        apply Rmult_le_pos; [lra|]. rewrite <- ln_1.
        assert (He := exp_pos (a + b / d_c N d1)).
        left. apply ln_increasing; lra.
    Qed.

    Lemma hard_mu_closed g m c : 0 < c ->
      Rmax g (- m / c) = 0 -> 0 <= m /\ g <= 0 /\ m * g = 0.
    Proof.
      intros Hc H. unfold Rmax in H.
      assert (Hm : c * (- m / c) = - m) by (field; lra).
      destruct (Rle_dec g (- m / c)) as [H'|H'].
      - rewrite H in Hm, H'. rewrite Rmult_0_r in Hm. assert (m = 0) by lra. subst. lra.
      - subst g. apply Rnot_le_lt in H'. apply Rmult_lt_compat_l with (r := c) in H'; [|lra].
        split; [lra|split; lra].
    Qed.

    (** Scale of the unknowns. *)
    Lemma xunit_positive d d' : passes o ag P d d' -> 0 < d_xunit N d -> 0 < d_xunit N d'.
    Proof.
      intros Hp Hx. induction Hp as [|d1 d2 fuel fs xs gt Hp IH Hb]; [assumption|].
      destruct (body_inv N o ag Hcnt P _ _ _ _ _ _ Hb) as
        (r & _ & _ & _ & _ & _ & _ & _ & _ & _ & _ & _ & _ & Hu & _). rewrite Hu.
      change (0 < (if (if Req_EM_T (vnorm N (d_x N d2)) 0 then false else true)
                   then vnorm N (d_x N d2) else 1)).
      destruct (Req_EM_T (vnorm N (d_x N d2)) 0) as [E|E]; [lra|].
      rewrite vnorm_normR in *. unfold normR in *. assert (H := sqrt_pos (sumR (map (fun x => x * x) (d_x N d2)))).
      lra.
    Qed.
  End Outer.

  Lemma scale_roundtrip (x : list R) (u : R) : u <> 0 -> vmuls N (vdivs N x u) u = x.
  Proof.
    intros Hu. unfold vmuls, vdivs. rewrite map_map. simpl.
    transitivity (map (fun a : R => a) x); [|apply map_id].
    apply map_ext. intros a. field. assumption.
  Qed.

  Lemma rescaling_transparent (o : optimiser N) ag : counted o -> forall (P : problem N) d d',
    passes o ag P d d' -> 0 < d_xunit N d ->
    0 < d_xunit N d' /\
    (forall x : list R, map (fun a => a * d_xunit N d') (map (fun a => a / d_xunit N d') x) = x).
  Proof.
    intros Hc P d d' Hp Hu. assert (H := xunit_positive o ag Hc P d d' Hp Hu).
    split; [assumption|]. intros x. apply (scale_roundtrip x (d_xunit N d')).
    apply Rgt_not_eq. exact H.
  Qed.

  (** What one pass hands to the inner optimiser and what it records. *)
  Lemma pass_unscaled (o : optimiser N) ag (P : problem N) fuel fs xs gt d d' : 0 < d_xunit N d -> body N o ag P fuel fs xs gt d = Some d' ->
    exists F r, run_opt N o ag fuel (map (fun a => a / d_xunit N d) (d_x N d)) F (p_maxiter_inner N P) fs xs gt = Some r /\
      (forall x : list R, F (map (fun a => a / d_xunit N d) x) =
         p_f N P x + dotR (d_lam N d) (p_h N P x) + dotR (d_mu N d) (p_mask N P (p_g N P x) (d_mu N d) (d_c N d))
         + d_c N d / 2 * (sumR (map (fun v => v * v) (p_h N P x)) + sumR (map (fun v => v * v) (p_mask N P (p_g N P x) (d_mu N d) (d_c N d))))) /\
      d_x N d' = map (fun a => a * d_xunit N d) (r_x N r) /\
      d_f N d' = p_f N P (d_x N d') /\ d_g N d' = p_g N P (d_x N d') /\ d_h N d' = p_h N P (d_x N d').
  Proof.
    intros Hu E. unfold body in E. exists (l_k N P (d_xunit N d) (d_c N d) (d_lam N d) (d_mu N d)).
    change (vdivs N (d_x N d) (d_xunit N d)) with (map (fun a => a / d_xunit N d) (d_x N d)) in E.
    destruct (run_opt N o ag fuel _ _ _ fs xs gt) as [r|] eqn:Er; [|discriminate]. injection E as <-. exists r. split; [reflexivity|]. split.
    - intros x. unfold l_k. assert (Ex : vmuls N (map (fun a => a / d_xunit N d) x) (d_xunit N d) = x).
      { apply (scale_roundtrip x (d_xunit N d)). apply Rgt_not_eq. exact Hu. }
      rewrite Ex. cbv zeta. cbn [T R_num n_add n_mul n_div n_nat]. rewrite !vdot_dotR, !vsum_sumR. unfold vmul. cbn [T R_num n_mul]. rewrite !map2_diag. replace (INR 2) with 2 by (cbn; lra). reflexivity.
    - cbn [d_x d_f d_g d_h]. repeat split.
  Qed.

  (** ** The augmented Lagrangian. *)
  Definition al_term (m c g : R) : R := m * Rmax g (- m / c) + c / 2 * (Rmax g (- m / c) * Rmax g (- m / c)).

  Lemma al_term_square m c g : 0 < c ->
    al_term m c g = (Rmax (m + c * g) 0 * Rmax (m + c * g) 0 - m * m) / (2 * c).
  Proof.
    intros Hc. unfold al_term. rewrite <- hard_update by assumption.
    set (p := Rmax g (- m / c)). field. lra.
  Qed.

  Lemma is_derive_pospart_sq y : is_derive (fun y => Rmax y 0 * Rmax y 0) y (2 * Rmax y 0).
  Proof.
    destruct (Rtotal_order y 0) as [H|[H|H]].
    - apply is_derive_ext_loc with (f := fun _ => 0).
      + exists (mkposreal (- y) ltac:(lra)). intros z Hz. simpl in Hz.
        unfold ball in Hz; simpl in Hz; unfold AbsRing_ball, abs, minus, plus, opp in Hz; simpl in Hz.
        apply Rabs_def2 in Hz. change ((0:R) = Rmax z 0 * Rmax z 0). rewrite Rmax_right by lra. ring.
      + rewrite Rmax_right by lra. rewrite Rmult_0_r. apply dR_const.
    - subst y. rewrite Rmax_right by lra. rewrite Rmult_0_r. apply is_derive_Reals.
      intros eps Heps. exists (mkposreal eps Heps). intros h Hh Hlt. simpl in Hlt.
      rewrite Rplus_0_l. rewrite (Rmax_right 0 0) by lra.
      replace ((Rmax h 0 * Rmax h 0 - 0 * 0) / h - 0) with (Rmax h 0 * Rmax h 0 / h) by (field; assumption).
      unfold Rmax. destruct (Rle_dec h 0).
      + replace (0 * 0 / h) with 0 by (field; assumption). rewrite Rabs_R0. assumption.
      + replace (h * h / h) with h by (field; assumption). assumption.
    - apply is_derive_ext_loc with (f := fun y => y * y).
      + exists (mkposreal y H). intros z Hz.
        unfold ball in Hz; simpl in Hz; unfold AbsRing_ball, abs, minus, plus, opp in Hz; simpl in Hz.
        apply Rabs_def2 in Hz. change ((z * z : R) = Rmax z 0 * Rmax z 0). rewrite Rmax_left by lra. ring.
      + rewrite Rmax_left by lra. auto_derive; [trivial|ring].
  Qed.

  Lemma is_derive_al_term (g : R -> R) (dg t m c : R) : 0 < c -> is_derive g t dg ->
    is_derive (fun t => al_term m c (g t)) t ((m + c * Rmax (g t) (- m / c)) * dg).
  Proof.
    intros Hc Hg.
    apply is_derive_ext with (f := fun t => (Rmax (m + c * g t) 0 * Rmax (m + c * g t) 0 - m * m) / (2 * c)).
    { intros s. symmetry. apply al_term_square. assumption. }
    rewrite hard_update by assumption.
    assert (H1 : is_derive (fun t => m + c * g t) t (0 + c * dg))
      by (apply dR_plus; [apply dR_const|apply dR_scal; exact Hg]).
    assert (H2 := dR_comp (fun y => Rmax y 0 * Rmax y 0) (fun t => m + c * g t) t _ _
      (is_derive_pospart_sq _) H1).
    assert (H3 := dR_scal (/ (2 * c)) _ _ _ (dR_minus _ _ _ _ _ H2 (dR_const (m * m) t))).
    apply dR_eq with (b := Rmax (m + c * g t) 0 * dg) in H3;
      [|set (p := Rmax (m + c * g t) 0); field; lra].
    revert H3. apply dR_ext.
    intros s. cbv beta. unfold Rdiv. ring.
  Qed.

  Lemma al_split (mu gp : list R) c : (length gp <= length mu)%nat ->
    dotR mu gp + c / 2 * sumR (map (fun x => x * x) gp) =
    sumR (map2 (fun m p => m * p + c / 2 * (p * p)) mu gp).
  Proof.
    revert gp; induction mu as [|m mu IH]; intros gp Hl; unfold dotR in *; simpl in *.
    - destruct gp; simpl in *; [lra|lia].
    - destruct gp as [|p gp]; simpl in *; [lra|]. specialize (IH gp ltac:(lia)). simpl in IH. lra.
  Qed.

  (** Value of [l_k] for the hard mask, as a sum of per-constraint terms. *)
  Lemma l_k_terms P u c lam mu x :
    p_mask N P = gplus_hard N ->
    let X := map (fun a => a * u) x in
    length mu = length (p_g N P X) -> length lam = length (p_h N P X) ->
    l_k N P u c lam mu x =
      p_f N P X + sumR (map2 (fun l h => l * h + c / 2 * (h * h)) lam (p_h N P X))
                + sumR (map2 (fun m g => al_term m c g) mu (p_g N P X)).
  Proof.
    intros Hm X Hg Hh. unfold l_k. rewrite Hm.
    change (vmuls N x u) with X. cbn [T R_num n_add n_mul n_div n_nat].
    rewrite !vdot_dotR, !vsum_sumR. unfold vmul. cbn [T R_num n_mul]. rewrite !map2_diag.
    assert (Lh : (length (p_h N P X : list R) <= length lam)%nat) by (rewrite Hh; apply le_n).
    assert (Lg : (length (gplus_hard N (p_g N P X) mu c : list R) <= length mu)%nat)
      by (unfold gplus_hard; rewrite map2_length; apply Nat.le_min_r).
    assert (H1 := al_split lam (p_h N P X) c Lh).
    assert (H2 := al_split mu (gplus_hard N (p_g N P X) mu c) c Lg).
    assert (E : map2 (fun m p => m * p + c / 2 * (p * p)) mu (gplus_hard N (p_g N P X) mu c)
                = map2 (fun m g => al_term m c g) mu (p_g N P X)).
    { unfold gplus_hard. cbn [T R_num n_max n_div n_opp]. clear - Hg. revert Hg. generalize (p_g N P X). 
      induction mu as [|m mu IH]; intros g Hg; destruct g as [|a g]; try reflexivity; try discriminate.
      cbn [map2]. f_equal. apply IH. exact (eq_add_S _ _ Hg). }
    rewrite E in H2. rewrite <- H1, <- H2. simpl INR. ring_simplify. lra.
  Qed.

  Lemma al_le_objective P u c lam mu x :
    p_mask N P = gplus_hard N -> 0 < c ->
    let X := map (fun a => a * u) x in
    length mu = length (p_g N P X) -> length lam = length (p_h N P X) ->
    List.Forall (fun m => 0 <= m) mu ->
    List.Forall (fun g => g <= 0) (p_g N P X) -> List.Forall (fun h => h = 0) (p_h N P X) ->
    l_k N P u c lam mu x <= p_f N P X.
  Proof.
    intros Hm Hc X Hg Hh Hmu Hgf Hhf. rewrite l_k_terms by assumption. fold X.
    assert (H1 : sumR (map2 (fun l h => l * h + c / 2 * (h * h)) lam (p_h N P X)) = 0).
    { clear - Hhf. revert lam Hhf. generalize (p_h N P X) as h. 
      induction h as [|a h IH]; intros lam Hf; destruct lam as [|l lam]; try reflexivity.
      inversion Hf; subst. cbn [map2 sumR fold_right]. fold (sumR (map2 (fun l h => l * h + c / 2 * (h * h)) lam h)).
      rewrite IH by assumption. lra. }
    assert (H2 : sumR (map2 (fun m g => al_term m c g) mu (p_g N P X)) <= 0).
    { clear - Hgf Hmu Hc. revert mu Hmu Hgf. generalize (p_g N P X) as g.
      induction g as [|a g IH]; intros mu Hmu Hf; destruct mu as [|m mu]; try (simpl; lra).
      inversion Hf; subst. inversion Hmu; subst. cbn [map2 sumR fold_right].
      fold (sumR (map2 (fun m g => al_term m c g) mu g)).
      specialize (IH mu ltac:(assumption) ltac:(assumption)).
      enough (al_term m c a <= 0) by lra.
      unfold al_term. assert (Hm : c * (- m / c) = - m) by (field; lra).
      unfold Rmax. destruct (Rle_dec a (- m / c)).
      - assert (- m / c <= 0). { apply Rmult_le_reg_l with c; lra. }
        replace (m * (- m / c) + c / 2 * (- m / c * (- m / c))) with (m * (- m / c) / 2).
        2:{ field. lra. } nra.
      - assert (- m / c < a) by lra. assert (- m < c * a).
        { rewrite <- Hm. apply Rmult_lt_compat_l; assumption. }
        replace (m * a + c / 2 * (a * a)) with (a * (m + c * a / 2)) by field. nra. }
    lra.
  Qed.

  (** Derivative of a sum of per-constraint terms. *)
  Lemma is_derive_sum2 (F : R -> R -> R) (DF : R -> R -> R) (t : R)
    (HF : forall m (g : R -> R) dg, is_derive g t dg -> is_derive (fun s => F m (g s)) t (DF m (g t) * dg))
    (mu : list R) (gs : list (R -> R)) (dgs : list R) :
    Forall2 (fun g dg => is_derive g t dg) gs dgs ->
    is_derive (fun s => sumR (map2 F mu (map (fun g => g s) gs))) t
      (dotR (map2 DF mu (map (fun g => g t) gs)) dgs).
  Proof.
    intros H. revert mu. induction H as [|g dg gs dgs Hg Hgs IH]; intros mu.
    - destruct mu; simpl; apply dR_const.
    - destruct mu as [|m mu]; simpl.
      + apply dR_const.
      + unfold dotR. simpl. apply dR_plus.
        * apply HF. assumption.
        * apply IH.
  Qed.

  Lemma l_k_gradient P u c lam mu (x : R -> list R) (t0 df : R)
      (gs : list (R -> R)) (dgs : list R) (hs : list (R -> R)) (dhs : list R) :
    p_mask N P = gplus_hard N -> 0 < c ->
    is_derive (fun t => p_f N P (map (fun a => a * u) (x t))) t0 df ->
    (forall t, p_g N P (map (fun a => a * u) (x t)) = map (fun g => g t) gs) ->
    (forall t, p_h N P (map (fun a => a * u) (x t)) = map (fun h => h t) hs) ->
    Forall2 (fun g dg => is_derive g t0 dg) gs dgs ->
    Forall2 (fun h dh => is_derive h t0 dh) hs dhs ->
    length mu = length gs -> length lam = length hs ->
    is_derive (fun t => l_k N P u c lam mu (x t)) t0
      (df + dotR (map2 (fun l h => l + c * h) lam (map (fun h => h t0) hs)) dhs
          + dotR (map2 (fun m g => Rmax (m + c * g) 0) mu (map (fun g => g t0) gs)) dgs).
  Proof.
    intros Hm Hc Hf Hg Hh Dg Dh Lg Lh.
    eapply is_derive_ext.
    { intros t. symmetry. apply l_k_terms; [assumption| |].
      - rewrite Hg, map_length. assumption.
      - rewrite Hh, map_length. assumption. }
    eapply is_derive_ext with (f := fun t => p_f N P (map (fun a => a * u) (x t))
        + sumR (map2 (fun l h => l * h + c / 2 * (h * h)) lam (map (fun h => h t) hs))
        + sumR (map2 (fun m g => al_term m c g) mu (map (fun g => g t) gs))).
    { intros t. rewrite Hg, Hh. reflexivity. }
    apply dR_plus.
    - apply dR_plus; [exact Hf|].
      apply (is_derive_sum2 (fun l h => l * h + c / 2 * (h * h)) (fun l h => l + c * h)); [|assumption].
      intros m g dg Hdg.
      assert (H := dR_plus _ _ _ _ _ (dR_scal m _ _ _ Hdg) (dR_scal (c / 2) _ _ _ (dR_mult _ _ _ _ _ Hdg Hdg))).
      apply dR_eq with (2 := H). field.
    - apply (is_derive_sum2 (fun m g => al_term m c g) (fun m g => Rmax (m + c * g) 0)); [|assumption].
      intros m g dg Hdg. rewrite <- hard_update by assumption. apply is_derive_al_term; assumption.
  Qed.

  Lemma lam_update (lam h : list R) c :
    vadd N lam (vscale N c h) = map2 (fun l h => l + c * h) lam h.
  Proof.
    revert h; induction lam as [|l lam IH]; intros h; destruct h; try reflexivity.
    unfold vadd, vscale in *. cbn [map map2]. f_equal. apply IH.
  Qed.

  Lemma mu_update (mu g : list R) c : 0 < c ->
    vadd N mu (vscale N c (gplus_hard N g mu c)) = map2 (fun m g => Rmax (m + c * g) 0) mu g.
  Proof.
    intros Hc. revert g; induction mu as [|m mu IH]; intros g; destruct g; try reflexivity.
    unfold vadd, vscale, gplus_hard in *. cbn [map map2].
    f_equal; [apply hard_update; assumption|apply IH].
  Qed.

  Section KKT.
    Variables (o : optimiser N) (ag : (list R -> R) -> list R -> list R).
    Hypothesis Hcnt : counted o.
    Variable P : problem N.
    Hypothesis Hmask : p_mask N P = gplus_hard N.

    Lemma pass_gradient fuel fs xs gt d d' (X : R -> list R) (t0 df : R)
        (gs : list (R -> R)) (dgs : list R) (hs : list (R -> R)) (dhs : list R) :
      body N o ag P fuel fs xs gt d = Some d' -> 0 < d_c N d -> d_xunit N d <> 0 ->
      X t0 = d_x N d' ->
      is_derive (fun t => p_f N P (X t)) t0 df ->
      (forall t, p_g N P (X t) = map (fun g => g t) gs) ->
      (forall t, p_h N P (X t) = map (fun h => h t) hs) ->
      Forall2 (fun g dg => is_derive g t0 dg) gs dgs ->
      Forall2 (fun h dh => is_derive h t0 dh) hs dhs ->
      length (d_mu N d : list R) = length gs -> length (d_lam N d : list R) = length hs ->
      is_derive (fun t => l_k N P (d_xunit N d) (d_c N d) (d_lam N d) (d_mu N d)
                            (map (fun a => a / d_xunit N d) (X t))) t0
        (df + dotR (d_lam N d') dhs + dotR (d_mu N d') dgs).
    Proof.
      intros Hb Hc Hu HX Hf Hg Hh Dg Dh Lg Lh.
      destruct (body_inv N o ag Hcnt P _ _ _ _ _ _ Hb) as
        (r & _ & _ & _ & _ & _ & Eg & Eh & _ & _ & _ & El & Em & _).
      rewrite El, Em, Eg, Eh, <- HX, Hg, Hh, Hmask.
      rewrite lam_update, mu_update by assumption.
      assert (RT : forall t, map (fun a => a * d_xunit N d) (map (fun a => a / d_xunit N d) (X t)) = X t).
      { intros t. apply (scale_roundtrip (X t) (d_xunit N d) Hu). }
      apply l_k_gradient with (hs := hs) (gs := gs); try assumption.
      - eapply dR_ext; [|exact Hf]. intros t. cbv beta. rewrite RT. reflexivity.
      - intros t. rewrite RT. apply Hg.
      - intros t. rewrite RT. apply Hh.
    Qed.

    Lemma fixed_point_kkt fuel fs xs gt d d' :
      body N o ag P fuel fs xs gt d = Some d' -> 0 < d_c N d ->
      length (d_mu N d : list R) = length (p_g N P (d_x N d') : list R) ->
      length (d_lam N d : list R) = length (p_h N P (d_x N d') : list R) ->
      d_lam N d' = d_lam N d -> d_mu N d' = d_mu N d ->
      List.Forall (fun h => h = 0) (p_h N P (d_x N d')) /\
      Forall2 (fun m g => 0 <= m /\ g <= 0 /\ m * g = 0) (d_mu N d) (p_g N P (d_x N d')).
    Proof.
      intros Hb Hc Lg Lh El' Em'.
      destruct (body_inv N o ag Hcnt P _ _ _ _ _ _ Hb) as
        (r & _ & _ & _ & _ & _ & Eg & Eh & _ & _ & _ & El & Em & _).
      rewrite El' in El. rewrite Em' in Em. rewrite Hmask, Eg in Em. rewrite Eh in El.
      rewrite lam_update in El. unfold vadd, vscale, gplus_hard in Em.
      split.
      - clear - El Lh Hc. revert El Lh. generalize (d_lam N d) as lam. generalize (p_h N P (d_x N d')) as h.
        cbn [T R_num].
        induction h as [|a h IH]; intros lam El Lh; [constructor|].
        destruct lam as [|l lam]; [discriminate|]. cbn [map2] in El. injection El as E1 E2.
        constructor; [nra|]. apply (IH lam); [assumption|simpl in Lh; lia].
      - clear - Em Lg Hc. revert Em Lg. generalize (d_mu N d) as mu. generalize (p_g N P (d_x N d')) as g.
        cbn [T R_num n_add n_mul n_max n_div n_opp].
        induction g as [|a g IH]; intros mu Em Lg; destruct mu as [|m mu]; try discriminate; [constructor|].
        cbn [map2 map] in Em. injection Em as E1 E2.
        constructor.
        + apply hard_mu_closed with (c := d_c N d); [assumption|nra].
        + apply IH; [assumption|simpl in Lg; lia].
    Qed.
  End KKT.
End RNum.
