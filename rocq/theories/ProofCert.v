(** Lemmas for C118, C119 and the positive part of C43. *)
From Coq Require Import List Bool Arith Lia Reals Lra.
From Coquelicot Require Import Coquelicot.
From Verif Require Import Base ModelSolver SpecSolver ProofSolver RDeriv ProofSolverR SpecCert.
Import ListNotations.
Open Scope R_scope.

Lemma len2 {A B C} (f : A -> B -> C) l l' : length (map2 f l l') = Nat.min (length l) (length l').
Proof. revert l'; induction l as [|a l IH]; intros [|b l']; simpl; auto. Qed.

Lemma squares_pos l : 0 <= squares l.
Proof. unfold squares. induction l as [|a l IH]; simpl; [lra|]. pose proof (Rle_0_sqr a) as H. unfold Rsqr in H. lra. Qed.

Lemma squares_in l a : In a l -> a * a <= squares l.
Proof.
  induction l as [|b l IH]; simpl; [contradiction|]. intros [->|H].
  - unfold squares. simpl. fold (squares l). pose proof (squares_pos l). unfold squares in *. lra.
  - specialize (IH H). unfold squares in *. simpl. pose proof (Rle_0_sqr b) as Hb. unfold Rsqr in Hb. lra.
Qed.

(** The two halves of the augmented Lagrangian as differences of squares. *)
Lemma equality_half c lam hv : 0 < c -> length lam = length hv ->
  sumR (map2 (fun l v => l * v + c / 2 * (v * v)) lam hv) =
  (squares (map2 (fun l v => l + c * v) lam hv) - squares lam) / (2 * c).
Proof.
  intros Hc. revert hv. induction lam as [|l lam IH]; intros [|v hv] Hl; try discriminate.
  - unfold squares. simpl. field. lra.
  - simpl in Hl. injection Hl as Hl. unfold squares in *. cbn [map2 map sumR fold_right].
    fold (sumR (map2 (fun l v => l * v + c / 2 * (v * v)) lam hv)). rewrite (IH hv Hl).
    fold (sumR (map (fun a => a * a) (map2 (fun l v => l + c * v) lam hv))).
    fold (sumR (map (fun a => a * a) lam)). field. lra.
Qed.

Lemma inequality_half c mu gv : 0 < c -> length mu = length gv ->
  sumR (map2 (fun m v => (Rmax 0 (m + c * v) * Rmax 0 (m + c * v) - m * m) / (2 * c)) mu gv) =
  (squares (map2 (fun m v => Rmax 0 (m + c * v)) mu gv) - squares mu) / (2 * c).
Proof.
  intros Hc. revert gv. induction mu as [|m mu IH]; intros [|v gv] Hl; try discriminate.
  - unfold squares. simpl. field. lra.
  - simpl in Hl. injection Hl as Hl. unfold squares in *. cbn [map2 map sumR fold_right].
    fold (sumR (map2 (fun m v => (Rmax 0 (m + c * v) * Rmax 0 (m + c * v) - m * m) / (2 * c)) mu gv)).
    rewrite (IH gv Hl).
    fold (sumR (map (fun a => a * a) (map2 (fun m v => Rmax 0 (m + c * v)) mu gv))).
    fold (sumR (map (fun a => a * a) mu)). field. lra.
Qed.

Lemma augmented_closed f g h c lam mu x : 0 < c ->
  length lam = length (h x) -> length mu = length (g x) ->
  augmented f g h c lam mu x =
  f x + (squares (map2 (fun l v => l + c * v) lam (h x))
         + squares (map2 (fun m v => Rmax 0 (m + c * v)) mu (g x))
         - squares lam - squares mu) / (2 * c).
Proof.
  intros Hc Hl Hm. unfold augmented. rewrite equality_half, inequality_half by assumption.
  field. lra.
Qed.

(** At a point meeting the constraints it is at most the objective. *)
Lemma zero_side c lam hv : length lam = length hv -> List.Forall (fun v => v = 0) hv ->
  squares (map2 (fun l v => l + c * v) lam hv) = squares lam.
Proof.
  revert hv. induction lam as [|l lam IH]; intros [|v hv] Hl Hf; try discriminate; [reflexivity|].
  inversion Hf; subst. injection Hl as Hl. unfold squares in *. simpl.
  unfold sumR in *. rewrite (IH hv Hl) by assumption. ring.
Qed.

Lemma negative_side c mu gv : 0 < c -> length mu = length gv ->
  List.Forall (fun m => 0 <= m) mu -> List.Forall (fun v => v <= 0) gv ->
  squares (map2 (fun m v => Rmax 0 (m + c * v)) mu gv) <= squares mu.
Proof.
  intros Hc. revert gv. induction mu as [|m mu IH]; intros [|v gv] Hl Hm Hf; try discriminate; [apply Rle_refl|].
  inversion Hf; subst. inversion Hm; subst. injection Hl as Hl. unfold squares in *. simpl.
  specialize (IH gv Hl). unfold sumR in *.
  assert (H : Rmax 0 (m + c * v) * Rmax 0 (m + c * v) <= m * m).
  { assert (c * v <= 0) by nra. unfold Rmax. destruct (Rle_dec 0 (m + c * v)); nra. }
  specialize (IH ltac:(assumption) ltac:(assumption)). lra.
Qed.

(** Within a tolerance. *)
Lemma tolerant_equalities c tol lam hv : 0 < c ->
  length lam = length hv -> List.Forall (fun v => Rabs v <= tol) hv ->
  squares (map2 (fun l v => l + c * v) lam hv) <= squares (map (fun l => Rabs l + c * tol) lam).
Proof.
  intros Hc. revert hv. induction lam as [|l lam IH]; intros [|v hv] Hl Hf; try discriminate; [apply Rle_refl|].
  inversion Hf as [|? ? Hv Hf']; subst. injection Hl as Hl. unfold squares in *. simpl. specialize (IH hv Hl Hf').
  unfold sumR in *.
  assert (H : (l + c * v) * (l + c * v) <= (Rabs l + c * tol) * (Rabs l + c * tol)).
  { assert (Ha : Rabs (l + c * v) <= Rabs l + c * tol).
    { eapply Rle_trans; [apply Rabs_triang|]. rewrite Rabs_mult, (Rabs_pos_eq c) by lra.
      apply Rplus_le_compat_l. apply Rmult_le_compat_l; lra. }
    rewrite <- (Rabs_pos_eq ((l + c * v) * (l + c * v))) by apply (Rle_0_sqr (l + c * v)). rewrite Rabs_mult.
    pose proof (Rabs_pos (l + c * v)). apply Rmult_le_compat; assumption. }
  lra.
Qed.

Lemma tolerant_inequalities c tol mu gv : 0 < c -> 0 <= tol ->
  length mu = length gv -> List.Forall (fun m => 0 <= m) mu -> List.Forall (fun v => v <= tol) gv ->
  squares (map2 (fun m v => Rmax 0 (m + c * v)) mu gv) <= squares (map (fun m => m + c * tol) mu).
Proof.
  intros Hc Ht. revert gv. induction mu as [|m mu IH]; intros [|v gv] Hl Hm Hf; try discriminate; [apply Rle_refl|].
  inversion Hf as [|? ? Hv Hf']; subst. inversion Hm; subst. injection Hl as Hl. unfold squares in *. simpl.
  specialize (IH gv Hl ltac:(assumption) Hf'). unfold sumR in *.
  assert (H : Rmax 0 (m + c * v) * Rmax 0 (m + c * v) <= (m + c * tol) * (m + c * tol)).
  { assert (c * v <= c * tol) by (apply Rmult_le_compat_l; lra).
    assert (0 <= c * tol) by (apply Rmult_le_pos; lra).
    unfold Rmax. destruct (Rle_dec 0 (m + c * v)); nra. }
  lra.
Qed.

(** Reading constraint values off the updated multipliers. *)
Lemma violation_from_multiplier c mu gv v : 0 < c -> length mu = length gv ->
  List.Forall (fun m => 0 <= m) mu -> In v gv -> 0 <= v ->
  (c * v) * (c * v) <= squares (map2 (fun m v => Rmax 0 (m + c * v)) mu gv).
Proof.
  intros Hc. revert gv. induction mu as [|m mu IH]; intros [|w gv] Hl Hm Hv Hp; try discriminate; [contradiction|].
  inversion Hm; subst. injection Hl as Hl. unfold squares. cbn [map2 map sumR fold_right].
  fold (sumR (map (fun a => a * a) (map2 (fun m v => Rmax 0 (m + c * v)) mu gv))).
  fold (squares (map2 (fun m v => Rmax 0 (m + c * v)) mu gv)).
  destruct Hv as [->|Hv].
  - pose proof (squares_pos (map2 (fun m v => Rmax 0 (m + c * v)) mu gv)).
    assert (0 <= c * v) by (apply Rmult_le_pos; lra).
    rewrite Rmax_right by lra. nra.
  - specialize (IH gv Hl ltac:(assumption) Hv Hp).
    pose proof (Rle_0_sqr (Rmax 0 (m + c * w))) as Hq. unfold Rsqr in Hq. lra.
Qed.

Lemma sqrt_of_square a B : a * a <= B -> Rabs a <= sqrt B.
Proof.
  intros H. rewrite <- (sqrt_Rsqr_abs a). apply sqrt_le_1_alt. exact H.
Qed.

Lemma violation_from_equality c lam hv v : 0 < c -> length lam = length hv -> In v hv ->
  c * Rabs v <= normR lam + sqrt (squares (map2 (fun l v => l + c * v) lam hv)).
Proof.
  intros Hc Hl Hv.
  assert (H : exists l, In l lam /\ In (l + c * v) (map2 (fun l v => l + c * v) lam hv)).
  { revert hv Hl Hv. induction lam as [|l lam IH]; intros [|w hv] Hl Hv; try discriminate; [contradiction|].
    injection Hl as Hl. destruct Hv as [->|Hv].
    - exists l. simpl. auto.
    - destruct (IH hv Hl Hv) as (l' & H1 & H2). exists l'. simpl. auto. }
  destruct H as (l & H1 & H2).
  pose proof (sqrt_of_square _ _ (squares_in _ _ H1)) as A1.
  pose proof (sqrt_of_square _ _ (squares_in _ _ H2)) as A2.
  unfold normR. fold (squares lam).
  replace (c * Rabs v) with (Rabs (c * v)) by (rewrite Rabs_mult, (Rabs_pos_eq c) by lra; reflexivity).
  replace (c * v) with ((l + c * v) - l) by ring.
  eapply Rle_trans; [apply Rabs_triang|]. rewrite Rabs_Ropp. lra.
Qed.

Lemma between_0 x y : length x = length y -> between x y 0 = x.
Proof.
  revert y. induction x as [|a x IH]; intros [|b y] H; try discriminate; [reflexivity|].
  injection H as H. unfold between in *. simpl. rewrite IH by exact H. f_equal. ring.
Qed.

Lemma between_1 x y : length x = length y -> between x y 1 = y.
Proof.
  revert y. induction x as [|a x IH]; intros [|b y] H; try discriminate; [reflexivity|].
  injection H as H. unfold between in *. simpl. rewrite IH by exact H. f_equal. ring.
Qed.

Lemma nth_list (l : list R) n : length l = n -> l = map (fun i => nth i l 0) (seq 0 n).
Proof.
  intros <-. induction l as [|a l IH]; [reflexivity|]. simpl. f_equal.
  rewrite <- seq_shift, map_map. exact IH.
Qed.

Lemma slopes (G : nat -> R -> R) (Q : (R -> R) -> R -> Prop) l :
  (forall i, exists s, is_derive (G i) 0 s /\ Q (G i) s) ->
  exists ds, Forall2 (fun g dg => is_derive g 0 dg) (map (fun i => G i) l) ds /\ Forall2 Q (map (fun i => G i) l) ds.
Proof.
  intros H. induction l as [|i l (ds & H1 & H2)]; [exists []; split; constructor|].
  destruct (H i) as (s & D & T). exists (s :: ds). split; constructor; assumption.
Qed.

Lemma dot_tangent mu (gs : list (R -> R)) dgs : List.Forall (fun m => 0 <= m) mu ->
  Forall2 (fun g dg => g 0 + dg <= g 1) gs dgs ->
  dotR mu (map (fun g => g 0) gs) + dotR mu dgs <= dotR mu (map (fun g => g 1) gs).
Proof.
  intros Hm H. revert mu Hm. induction H as [|g dg gs dgs Hg H IH]; intros [|m mu] Hm;
    unfold dotR in *; simpl; try lra.
  inversion Hm; subst. specialize (IH mu ltac:(assumption)). unfold sumR in *.
  assert (m * (g 0 + dg) <= m * g 1) by (apply Rmult_le_compat_l; assumption). lra.
Qed.

Lemma dot_affine lam (hs : list (R -> R)) dhs : Forall2 (fun h dh => h 0 + dh = h 1) hs dhs ->
  dotR lam (map (fun h => h 0) hs) + dotR lam dhs = dotR lam (map (fun h => h 1) hs).
Proof.
  intros H. revert lam. induction H as [|h dh hs dhs Hh H IH]; intros [|l lam];
    unfold dotR in *; simpl; try lra.
  specialize (IH lam). unfold sumR in *. rewrite <- Hh. lra.
Qed.

Lemma dot_zeros lam hv : List.Forall (fun v => v = 0) hv -> dotR lam hv = 0.
Proof.
  intros H. revert lam. induction H as [|v hv Hv H IH]; intros [|l lam]; unfold dotR in *; simpl; try lra.
  specialize (IH lam). unfold sumR in *. rewrite IH, Hv. ring.
Qed.

Lemma dot_signs mu gv : List.Forall (fun m => 0 <= m) mu -> List.Forall (fun v => v <= 0) gv -> dotR mu gv <= 0.
Proof.
  intros Hm H. revert mu Hm. induction H as [|v gv Hv H IH]; intros [|m mu] Hm; unfold dotR in *; simpl; try lra.
  inversion Hm; subst. specialize (IH mu ltac:(assumption)). unfold sumR in *.
  assert (m * v <= 0) by (rewrite <- (Rmult_0_r m); apply Rmult_le_compat_l; assumption). lra.
Qed.

Lemma scaled_line u t x y : 0 < u ->
  map (fun a => a / u) (map2 (fun a b => a + t * (b - a)) (map (fun a => a * u) x) y) =
  map2 (fun a b => a + t * b) x (map2 (fun a b => (b - a) / u) (map (fun a => a * u) x) y).
Proof.
  intros Hu. revert y. induction x as [|a x IH]; intros [|b y]; try reflexivity.
  simpl. rewrite IH. f_equal. field. lra.
Qed.

Lemma norm_scaled u x y : 0 < u ->
  normR (map2 (fun a b => (b - a) / u) x y) = normR (map2 Rminus y x) / u.
Proof.
  intros Hu. unfold normR.
  replace (sumR (map (fun a => a * a) (map2 (fun a b => (b - a) / u) x y)))
    with (sumR (map (fun a => a * a) (map2 Rminus y x)) / (u * u)).
  - rewrite sqrt_div_alt by nra. f_equal. apply sqrt_square. lra.
  - revert y. induction x as [|a x IH]; intros [|b y]; simpl; try (field; lra).
    specialize (IH y). unfold sumR in *. rewrite <- IH. field. lra.
Qed.

Section Cert.
  Variable fin : R -> bool.
  Notation N := (R_num fin).
  Variables (o : optimiser N) (ag : (list R -> R) -> list R -> list R).
  Hypothesis Hcnt : counted o.
  Variable P : problem N.
  Hypothesis Hmask : p_mask N P = gplus_hard N.
  Variables n ng nh : nat.
  Hypothesis Hsized : sized P n ng nh.

  Lemma handed u c lam mu (x : list R) : 0 < c -> length x = n -> length lam = nh -> length mu = ng ->
    l_k N P u c lam mu x = augmented (p_f N P) (p_g N P) (p_h N P) c lam mu (map (fun a => a * u) x).
  Proof.
    intros Hc Hx Hl Hm.
    destruct (Hsized (map (fun a => a * u) x)) as [Sg Sh]; [rewrite map_length; exact Hx|].
    rewrite (l_k_terms fin P u c lam mu x Hmask); [|exact (eq_trans Hm (eq_sym Sg))|exact (eq_trans Hl (eq_sym Sh))].
    unfold augmented. f_equal. f_equal.
    clear - Hc. generalize (p_g N P (map (fun a => a * u) x)) as gv.
    induction mu as [|m mu IH]; intros [|v gv]; try reflexivity.
    cbn [map2]. f_equal; [|apply IH].
    rewrite al_term_square by exact Hc. rewrite (Rmax_comm 0). reflexivity.
  Qed.

  Hypothesis Hshape : shaped o.

  Lemma traj_length f x0 k x s u vals : traj o ag f x0 k x s u vals -> length (x : list R) = length (x0 : list R).
  Proof.
    intros H. induction H as [|k x s u vals v g u' s' Ht IH H1 H2 Hu]; [reflexivity|].
    pose proof (Hshape f g s x v) as Hs. rewrite Hu in Hs. cbn [fst] in Hs.
    refine (eq_trans (len2 _ _ _) _). cbn [T R_num] in *. rewrite Hs, IH. apply Nat.min_id.
  Qed.

  Lemma run_length fuel (x0 : list R) f m fs xs gt r : run_opt N o ag fuel x0 f m fs xs gt = Some r ->
    length (r_x N r : list R) = length x0.
  Proof.
    intros H. destruct (inner_exit N o ag Hcnt f x0 _ _ _ _ _ _ H) as (? & ? & ? & Ht & _).
    exact (traj_length _ _ _ _ _ _ _ Ht).
  Qed.

  Lemma run_descends fuel (x0 : list R) f m fs xs gt r : descending o ->
    run_opt N o ag fuel x0 f m fs xs gt = Some r -> f (r_x N r) <= f x0.
  Proof.
    intros Hd H. destruct (inner_exit N o ag Hcnt f x0 _ _ _ _ _ _ H) as (s & u & vals & Ht & _).
    clear H. induction Ht as [|k x s u vals v g u' s' Ht IH H1 H2 Hu]; [apply Rle_refl|].
    eapply Rle_trans; [|exact IH]. pose proof (Hd f g s x v) as Hs. rewrite Hu in Hs. exact Hs.
  Qed.

  (** The state between passes. *)
  Definition sound_state (d : dict N) : Prop :=
    length (d_x N d : list R) = n /\ length (d_lam N d : list R) = nh /\
    length (d_mu N d : list R) = ng /\ 0 < d_c N d /\ 0 < d_xunit N d /\
    List.Forall (fun m => 0 <= m) (d_mu N d).

  Lemma pass_facts fuel fs xs gt d d' : sound_state d ->
    body N o ag P fuel fs xs gt d = Some d' ->
    exists r, run_opt N o ag fuel (map (fun a => a / d_xunit N d) (d_x N d))
        (l_k N P (d_xunit N d) (d_c N d) (d_lam N d) (d_mu N d)) (p_maxiter_inner N P) fs xs gt = Some r /\
      length (r_x N r : list R) = n /\
      d_x N d' = map (fun a => a * d_xunit N d) (r_x N r) /\
      d_lam N d' = map2 (fun l v => l + d_c N d * v) (d_lam N d) (p_h N P (d_x N d')) /\
      d_mu N d' = map2 (fun m v => Rmax 0 (m + d_c N d * v)) (d_mu N d) (p_g N P (d_x N d')) /\
      length (d_x N d' : list R) = n /\ length (d_lam N d' : list R) = nh /\
      length (d_mu N d' : list R) = ng.
  Proof.
    intros (Lx & Ll & Lm & Hc & Hu & Hp) Hb.
    destruct (body_inv N o ag Hcnt P _ _ _ _ _ _ Hb) as
      (r & Hr & _ & _ & Ex & _ & Eg & Eh & _ & _ & _ & El & Em & _).
    exists r. split; [exact Hr|].
    assert (Lr : length (r_x N r : list R) = n).
    { rewrite (run_length _ _ _ _ _ _ _ _ Hr). unfold vdivs. rewrite map_length. exact Lx. }
    assert (Lx' : length (d_x N d' : list R) = n).
    { rewrite Ex. unfold vmuls. rewrite map_length. exact Lr. }
    destruct (Hsized _ Lx') as [Sg Sh].
    assert (El' : d_lam N d' = map2 (fun l v => l + d_c N d * v) (d_lam N d) (p_h N P (d_x N d'))).
    { rewrite El, Eh. apply lam_update. }
    assert (Em' : d_mu N d' = map2 (fun m v => Rmax 0 (m + d_c N d * v)) (d_mu N d) (p_g N P (d_x N d'))).
    { rewrite Em, Eg, Hmask, (mu_update fin _ _ _ Hc).
      generalize (p_g N P (d_x N d')) as gv. generalize (d_mu N d) as mu. cbn [T R_num].
      induction mu as [|m mu IH]; intros [|v gv]; try reflexivity. cbn [map2]. rewrite IH.
      f_equal. apply Rmax_comm. }
    split; [exact Lr|]. split; [exact Ex|]. split; [exact El'|]. split; [exact Em'|].
    split; [exact Lx'|]. split.
    - rewrite El'. refine (eq_trans (len2 _ _ _) _). cbn [T R_num] in *. rewrite Ll, Sh. apply Nat.min_id.
    - rewrite Em'. refine (eq_trans (len2 _ _ _) _). cbn [T R_num] in *. rewrite Lm, Sg. apply Nat.min_id.
  Qed.

  Hypothesis Hgrow : 0 < p_growth N P.

  Lemma pass_sound fuel fs xs gt d d' : sound_state d ->
    body N o ag P fuel fs xs gt d = Some d' -> sound_state d'.
  Proof.
    intros Hs Hb. destruct (pass_facts _ _ _ _ _ _ Hs Hb) as (r & _ & _ & _ & _ & _ & L1 & L2 & L3).
    destruct Hs as (_ & _ & _ & Hc & Hu & Hp).
    assert (Hpp : passes o ag P d d') by (econstructor; [constructor|exact Hb]).
    split; [exact L1|]. split; [exact L2|]. split; [exact L3|].
    split; [exact (c_positive fin o ag Hcnt P _ _ Hpp Hc Hgrow)|].
    split; [exact (xunit_positive fin o ag Hcnt P _ _ Hpp Hu)|].
    apply (mu_nonneg fin o ag Hcnt P d d'); auto.
  Qed.

  Lemma passes_sound d d' : passes o ag P d d' -> sound_state d -> sound_state d'.
  Proof.
    intros H Hs. induction H as [|d1 d2 fuel fs xs gt Hp IH Hb]; [exact Hs|].
    exact (pass_sound _ _ _ _ _ _ IH Hb).
  Qed.

  Lemma subproblem_of d : sound_state d ->
    subproblem P n ng nh (l_k N P (d_xunit N d) (d_c N d) (d_lam N d) (d_mu N d)).
  Proof.
    intros (Lx & Ll & Lm & Hc & Hu & Hp).
    exists (d_c N d), (d_xunit N d), (d_lam N d), (d_mu N d).
    split; [exact Hc|]. split; [exact Hu|]. split; [exact Ll|]. split; [exact Lm|]. split; [exact Hp|].
    intros x Hx. apply handed; assumption.
  Qed.

  Lemma round_trip u (x : list R) : 0 < u -> map (fun a => a * u) (map (fun a => a / u) x) = x.
  Proof.
    intros Hu. rewrite map_map. rewrite <- (map_id x) at 2. apply map_ext. intros a. field. lra.
  Qed.

  (** Augmented Lagrangian of a state, at the unscaled point. *)
  Definition aug (d : dict N) (x : list R) : R :=
    augmented (p_f N P) (p_g N P) (p_h N P) (d_c N d) (d_lam N d) (d_mu N d) x.

  Lemma aug_value d (x : list R) : sound_state d -> length x = n ->
    aug d x = p_f N P x
      + (squares (map2 (fun l v => l + d_c N d * v) (d_lam N d) (p_h N P x))
         + squares (map2 (fun m v => Rmax 0 (m + d_c N d * v)) (d_mu N d) (p_g N P x))
         - squares (d_lam N d) - squares (d_mu N d)) / (2 * d_c N d).
  Proof.
    intros (Lx & Ll & Lm & Hc & Hu & Hp) Hx. destruct (Hsized _ Hx) as [Sg Sh].
    apply augmented_closed; [exact Hc|cbn [T R_num] in *; congruence|cbn [T R_num] in *; congruence].
  Qed.

  Lemma pass_reliable eps fuel fs xs gt d d' (y : list R) : reliable o ag P n ng nh eps -> sound_state d ->
    body N o ag P fuel fs xs gt d = Some d' -> length y = n -> aug d (d_x N d') <= aug d y + eps.
  Proof.
    intros Hrel Hs Hb Hy. destruct (pass_facts _ _ _ _ _ _ Hs Hb) as (r & Hr & Lr & Ex & _).
    pose proof (subproblem_of d Hs) as Hsub.
    destruct Hs as (Lx & Ll & Lm & Hc & Hu & Hp).
    assert (Ly : length (map (fun a => a / d_xunit N d) y) = n) by (rewrite map_length; exact Hy).
    assert (L0 : length (map (fun a => a / d_xunit N d) (d_x N d)) = n) by (rewrite map_length; exact Lx).
    pose proof (Hrel _ Hsub _ _ _ _ _ _ L0 Hr _ Ly) as H.
    rewrite !handed in H by assumption. rewrite round_trip in H by exact Hu. rewrite <- Ex in H. exact H.
  Qed.

  Lemma pass_descends fuel fs xs gt d d' : descending o -> sound_state d ->
    body N o ag P fuel fs xs gt d = Some d' -> aug d (d_x N d') <= aug d (d_x N d).
  Proof.
    intros Hd Hs Hb. destruct (pass_facts _ _ _ _ _ _ Hs Hb) as (r & Hr & Lr & Ex & _).
    destruct Hs as (Lx & Ll & Lm & Hc & Hu & Hp).
    assert (L0 : length (map (fun a => a / d_xunit N d) (d_x N d)) = n) by (rewrite map_length; exact Lx).
    pose proof (run_descends _ _ _ _ _ _ _ _ Hd Hr) as H.
    rewrite !handed in H by assumption. rewrite round_trip in H by exact Hu. rewrite <- Ex in H. exact H.
  Qed.

  Lemma reported_squares fuel fs xs gt d d' : sound_state d -> body N o ag P fuel fs xs gt d = Some d' ->
    aug d (d_x N d') = p_f N P (d_x N d')
      + (squares (d_lam N d') + squares (d_mu N d') - squares (d_lam N d) - squares (d_mu N d)) / (2 * d_c N d).
  Proof.
    intros Hs Hb. destruct (pass_facts _ _ _ _ _ _ Hs Hb) as (r & _ & _ & _ & El & Em & Lx & _).
    rewrite (aug_value d _ Hs Lx), El, Em. reflexivity.
  Qed.

  Lemma admissible_value d (y : list R) : sound_state d -> length y = n -> admissible P y ->
    aug d y <= p_f N P y.
  Proof.
    intros Hs Hy (Hg & Hh). rewrite (aug_value d y Hs Hy).
    destruct Hs as (Lx & Ll & Lm & Hc & Hu & Hp). destruct (Hsized _ Hy) as [Sg Sh].
    rewrite zero_side; [|cbn [T R_num] in *; congruence|exact Hh].
    pose proof (negative_side (d_c N d) (d_mu N d) (p_g N P y) Hc ltac:(cbn [T R_num] in *; congruence) Hp Hg) as H.
    assert (Hi : 0 < / (2 * d_c N d)) by (apply Rinv_0_lt_compat; lra).
    set (A := squares _) in *. set (B := squares (d_mu N d)) in *. set (C := squares (d_lam N d)).
    unfold Rdiv. assert ((C + A - C - B) * / (2 * d_c N d) <= 0); [|lra].
    replace (C + A - C - B) with (- (B - A)) by ring. 
    assert (0 <= (B - A) * / (2 * d_c N d)) by (apply Rmult_le_pos; lra). lra.
  Qed.

  (** What a bound on the augmented Lagrangian says about the constraints. *)
  Lemma violations fuel fs xs gt d d' (M : R) : sound_state d -> body N o ag P fuel fs xs gt d = Some d' ->
    aug d (d_x N d') <= M ->
    let B := squares (d_lam N d) + squares (d_mu N d) + 2 * d_c N d * (M - p_f N P (d_x N d')) in
    squares (d_lam N d') + squares (d_mu N d') <= B /\
    (forall v, In v (p_g N P (d_x N d')) -> 0 <= v -> d_c N d * v <= sqrt B) /\
    (forall v, In v (p_h N P (d_x N d')) -> d_c N d * Rabs v <= normR (d_lam N d) + sqrt B).
  Proof.
    intros Hs Hb HM B. pose proof (reported_squares _ _ _ _ _ _ Hs Hb) as E.
    destruct (pass_facts _ _ _ _ _ _ Hs Hb) as (r & _ & _ & _ & El & Em & Lx' & _).
    destruct Hs as (Lx & Ll & Lm & Hc & Hu & Hp). destruct (Hsized _ Lx') as [Sg Sh].
    assert (HB : squares (d_lam N d') + squares (d_mu N d') <= B).
    { rewrite E in HM. unfold B.
      set (S1 := squares (d_lam N d')) in *. set (S2 := squares (d_mu N d')) in *.
      set (S3 := squares (d_lam N d)) in *. set (S4 := squares (d_mu N d)) in *.
      assert (H : (S1 + S2 - S3 - S4) / (2 * d_c N d) <= M - p_f N P (d_x N d')) by lra.
      apply Rmult_le_compat_l with (r := 2 * d_c N d) in H; [|lra].
      replace (2 * d_c N d * ((S1 + S2 - S3 - S4) / (2 * d_c N d))) with (S1 + S2 - S3 - S4) in H
        by (field; lra). lra. }
    pose proof (squares_pos (d_lam N d')) as P1. pose proof (squares_pos (d_mu N d')) as P2.
    split; [exact HB|]. split; intros v Hv.
    - intros Hv0.
      pose proof (violation_from_multiplier (d_c N d) (d_mu N d) (p_g N P (d_x N d')) v Hc
                    ltac:(cbn [T R_num] in *; congruence) Hp Hv Hv0) as H.
      assert (Em2 := f_equal squares Em). cbn [T R_num] in *. rewrite <- Em2 in H.
      assert (H3 : d_c N d * v * (d_c N d * v) <= B) by lra.
      apply sqrt_of_square in H3. rewrite Rabs_pos_eq in H3; [exact H3|apply Rmult_le_pos; lra].
    - pose proof (violation_from_equality (d_c N d) (d_lam N d) (p_h N P (d_x N d')) v Hc
                    ltac:(cbn [T R_num] in *; congruence) Hv) as H.
      assert (El2 := f_equal squares El). cbn [T R_num] in *. rewrite <- El2 in H.
      eapply Rle_trans; [exact H|]. apply Rplus_le_compat_l. apply sqrt_le_1_alt. lra.
  Qed.

  (** ** Convex problems. *)
  Lemma certificate eta fuel fs xs gt d d' (y : list R) : stationary o ag P n ng nh eta -> sound_state d ->
    body N o ag P fuel fs xs gt d = Some d' -> length y = n ->
    convex_from P (d_x N d') y ->
    p_f N P (d_x N d') + dotR (d_lam N d') (p_h N P (d_x N d')) + dotR (d_mu N d') (p_g N P (d_x N d'))
    <= p_f N P y + dotR (d_lam N d') (p_h N P y) + dotR (d_mu N d') (p_g N P y)
       + eta * (normR (map2 Rminus y (d_x N d')) / d_xunit N d).
  Proof.
    intros Hst Hs Hb Hy ((df & Df & Tf) & Hg & Hh).
    destruct (pass_facts _ _ _ _ _ _ Hs Hb) as (r & Hr & Lr & Ex & _ & _ & Lx' & Ll' & Lm').
    pose proof (subproblem_of d Hs) as Hsub. pose proof (pass_sound _ _ _ _ _ _ Hs Hb) as Hs'.
    destruct Hs' as (_ & _ & _ & _ & _ & Hp').
    destruct Hs as (Lx & Ll & Lm & Hc & Hu & Hp).
    set (X := between (d_x N d') y).
    assert (LX : forall t, length (X t) = n).
    { intros t. unfold X, between. rewrite len2. cbn [T R_num] in *. rewrite Lx', Hy. apply Nat.min_id. }
    assert (X0 : X 0 = d_x N d') by (apply between_0; cbn [T R_num] in *; congruence).
    assert (X1 : X 1 = y) by (apply between_1; cbn [T R_num] in *; congruence).
    set (gs := map (fun i t => nth i (p_g N P (X t)) 0) (seq 0 ng)).
    set (hs := map (fun i t => nth i (p_h N P (X t)) 0) (seq 0 nh)).
    assert (Eg : forall t, p_g N P (X t) = map (fun g => g t) gs).
    { intros t. unfold gs. rewrite map_map. apply nth_list. apply (proj1 (Hsized _ (LX t))). }
    assert (Eh : forall t, p_h N P (X t) = map (fun g => g t) hs).
    { intros t. unfold hs. rewrite map_map. apply nth_list. apply (proj2 (Hsized _ (LX t))). }
    assert (Sg : exists dgs, Forall2 (fun g dg => is_derive g 0 dg) gs dgs /\
                   Forall2 (fun g dg => g 0 + dg <= g 1) gs dgs).
    { unfold gs. apply slopes. intros i. destruct (Hg i) as (s & D & T). exists s. auto. }
    assert (Sh : exists dhs, Forall2 (fun h dh => is_derive h 0 dh) hs dhs /\
                   Forall2 (fun h dh => h 0 + dh = h 1) hs dhs).
    { unfold hs. apply slopes. intros i. destruct (Hh i) as ((s & D & T) & (s' & D' & T')).
      exists s. split; [exact D|].
      assert (s' = - s).
      { pose proof (dR_opp _ _ _ D) as D2. apply is_derive_unique in D2. apply is_derive_unique in D'.
        rewrite <- D2, <- D'. reflexivity. }
      subst s'. apply Rle_antisym; [exact T|]. apply Ropp_le_cancel.
      rewrite Ropp_plus_distr. exact T'. }
    destruct Sg as (dgs & Dg & Tg). destruct Sh as (dhs & Dh & Th).
    assert (Lgs : length gs = ng) by (unfold gs; rewrite map_length, seq_length; reflexivity).
    assert (Lhs : length hs = nh) by (unfold hs; rewrite map_length, seq_length; reflexivity).
    pose proof (pass_gradient fin o ag Hcnt P Hmask _ _ _ _ _ _ X 0 df gs dgs hs dhs Hb Hc
      ltac:(apply Rgt_not_eq; exact Hu) X0 Df Eg Eh Dg Dh
      ltac:(cbn [T R_num] in *; congruence) ltac:(cbn [T R_num] in *; congruence)) as Dl.
    set (v := map2 (fun a b => (b - a) / d_xunit N d) (d_x N d') y).
    assert (Lv : length v = n).
    { unfold v. rewrite len2. cbn [T R_num] in *. rewrite Lx', Hy. apply Nat.min_id. }
    assert (Dl2 : is_derive (fun t => l_k N P (d_xunit N d) (d_c N d) (d_lam N d) (d_mu N d)
                      (map2 (fun a b => a + t * b) (r_x N r) v)) 0
                    (df + dotR (d_lam N d') dhs + dotR (d_mu N d') dgs)).
    { revert Dl. apply dR_ext. intros t. cbv beta. f_equal. unfold X, between, v. rewrite Ex.
      apply scaled_line. exact Hu. }
    assert (L0 : length (map (fun a => a / d_xunit N d) (d_x N d)) = n) by (rewrite map_length; exact Lx).
    pose proof (Hst _ Hsub _ _ _ _ _ _ L0 Hr v _ Lv Dl2) as H.
    assert (Ev : normR v = normR (map2 Rminus y (d_x N d')) / d_xunit N d).
    { unfold v. apply norm_scaled. exact Hu. }
    rewrite Ev in H.
    assert (Hgs : dotR (d_mu N d') (p_g N P (d_x N d')) + dotR (d_mu N d') dgs <= dotR (d_mu N d') (p_g N P y)).
    { rewrite <- X0, <- X1, !Eg. apply (dot_tangent (d_mu N d') gs dgs); assumption. }
    assert (Hhs : dotR (d_lam N d') (p_h N P (d_x N d')) + dotR (d_lam N d') dhs = dotR (d_lam N d') (p_h N P y)).
    { rewrite <- X0, <- X1, !Eh. apply (dot_affine (d_lam N d') hs dhs). exact Th. }
    cbv beta in Tf. fold X in Tf. rewrite X0, X1 in Tf. lra.
  Qed.
End Cert.
