(** The augmented Lagrangian method climbs the dual problem. *)
From Coq Require Import List Reals Lra Lia.
From Verif Require Import Base ModelSolver SpecSolver ProofSolver SpecCert ProofCert SpecCertify ProofCertify SpecDual.
Import ListNotations.
Open Scope R_scope.

(** ** One update of the multipliers *)
Lemma mu_gain c : 0 < c -> forall mu g, length mu = length g -> List.Forall (fun m => 0 <= m) mu ->
  dotR mu g + c * squares (map (Rmax 0) g) <= dotR (map2 (fun m v => Rmax 0 (m + c * v)) mu g) g.
Proof.
  intros Hc mu. induction mu as [|m mu IH]; intros [|v g] L F; try discriminate; [unfold dotR, squares, sumR; cbn; lra|].
  injection L as L. inversion F as [|? ? Pm F']; subst. specialize (IH g L F').
  assert (m * v + c * (Rmax 0 v * Rmax 0 v) <= Rmax 0 (m + c * v) * v).
  { unfold Rmax. destruct (Rle_dec 0 v) as [Hv|Hv], (Rle_dec 0 (m + c * v)) as [Hw|Hw]; try nra. }
  unfold dotR, squares, sumR in *. cbn [map2 map fold_right]. lra.
Qed.
Lemma lam_gain c : forall lam h, length lam = length h ->
  dotR (map2 (fun l v => l + c * v) lam h) h = dotR lam h + c * squares h.
Proof.
  induction lam as [|l lam IH]; intros [|v h] L; try discriminate; [unfold dotR, squares, sumR; cbn; ring|].
  injection L as L. specialize (IH h L). unfold dotR, squares, sumR in *. cbn [map2 map fold_right]. rewrite IH. ring.
Qed.
Lemma squares_nonneg v : 0 <= squares v.
Proof. unfold squares, sumR. induction v as [|b v IHv]; cbn; [lra|nra]. Qed.
Lemma square_below : forall (l : list R) a, In a l -> a * a <= squares l.
Proof.
  induction l as [|b l IH]; intros a I; [contradiction|]. unfold squares, sumR in *. cbn. destruct I as [<-|I].
  - pose proof (squares_nonneg l) as Q. unfold squares, sumR in Q. lra.
  - pose proof (IH a I). nra.
Qed.

Lemma violation_nonneg {fin} (d : dict (R_num fin)) : 0 <= violation d.
Proof. unfold violation. pose proof (squares_nonneg (map (Rmax 0) (d_g _ d))). pose proof (squares_nonneg (d_h _ d)). lra. Qed.

(** Multipliers do not help a point that meets its constraints. *)
Lemma admissible_below {fin} (P : problem (R_num fin)) lam mu y : List.Forall (fun m => 0 <= m) mu -> admissible P y ->
  dotR lam (p_h _ P y) + dotR mu (p_g _ P y) <= 0.
Proof.
  intros Hm (Ag & Ah).
  assert (H1 : forall l v, List.Forall (fun v => v = 0) v -> dotR l v = 0).
  { induction l as [|k l IH]; intros v F; [unfold dotR, sumR; reflexivity|]. destruct F as [|a v E F]; [reflexivity|]. specialize (IH v F). unfold dotR, sumR in *. cbn. rewrite IH, E. ring. }
  assert (H2 : forall l v, List.Forall (fun m => 0 <= m) l -> List.Forall (fun v => v <= 0) v -> dotR l v <= 0).
  { induction l as [|k l IH]; intros v Fl F; [unfold dotR, sumR; cbn; lra|]. destruct F as [|a v E F]; [unfold dotR, sumR; cbn; lra|]. inversion Fl; subst. specialize (IH v ltac:(assumption) F). unfold dotR, sumR in *. cbn. nra. }
  rewrite (H1 lam _ Ah). pose proof (H2 mu _ Hm Ag). lra.
Qed.

Section Dual.
  Variable fin : R -> bool.
  Notation N := (R_num fin).
  Variables (o : optimiser N) (ag : (list R -> R) -> list R -> list R).
  Hypothesis Hcnt : counted o.
  Hypothesis Hshape : shaped o.
  Variable P : problem N.
  Hypothesis Hmask : p_mask N P = gplus_hard N.
  Hypothesis Hgrow : 0 < p_growth N P.
  Variables n ng nh : nat.
  Hypothesis Hsized : sized P n ng nh.
  Hypothesis Cv : convex_problem_of P n.

  (** Every pass raises the lower bound that the multipliers give by the
      penalty weight times the violation it leaves. *)
  Lemma pass_climbs fuel fs xs gt d d' low : sound_state fin n ng nh d -> body N o ag P fuel fs xs gt d = Some d' ->
    level n 0 (augmented (p_f _ P) (p_g _ P) (p_h _ P) (d_c _ d) (d_lam _ d) (d_mu _ d)) (d_x _ d') ->
    (forall z : list R, length z = n -> low <= p_f _ P z + dotR (d_lam _ d) (p_h _ P z) + dotR (d_mu _ d) (p_g _ P z)) ->
    forall z : list R, length z = n -> low + d_c _ d * violation d' <= p_f _ P z + dotR (d_lam _ d') (p_h _ P z) + dotR (d_mu _ d') (p_g _ P z).
  Proof using Hcnt Hshape Hmask Hsized Cv.
    intros S Hb Lev Low z Lz. pose proof S as (_ & Ll & Lm & Hc & _ & Pm).
    destruct (pass_facts _ _ _ Hcnt P Hmask n _ _ Hsized Hshape _ _ _ _ _ _ S Hb) as (r & _ & _ & _ & El & Em & Lx & _ & _).
    destruct (body_inv _ _ _ Hcnt P _ _ _ _ _ _ Hb) as (r0 & _ & _ & _ & _ & _ & Eg & Eh & _).
    destruct (Hsized _ Lx) as (G1 & H1). destruct (Hsized _ Lz) as (G2 & H2).
    assert (K : p_f _ P (d_x _ d') + dotR (d_lam _ d') (p_h _ P (d_x _ d')) + dotR (d_mu _ d') (p_g _ P (d_x _ d')) <=
      p_f _ P z + dotR (d_lam _ d') (p_h _ P z) + dotR (d_mu _ d') (p_g _ P z) + 0).
    { rewrite El, Em. apply (certificate_at (p_f _ P) (p_g _ P) (p_h _ P) (d_c _ d) (d_lam _ d) (d_mu _ d) (d_x _ d') z 0).
      - exact Hc.
      - etransitivity; [exact H1|symmetry; exact Ll].
      - etransitivity; [exact H2|symmetry; exact Ll].
      - etransitivity; [exact G1|symmetry; exact Lm].
      - etransitivity; [exact G2|symmetry; exact Lm].
      - intros t Ht. exact (Cv (d_x _ d') z t Lx Lz Ht).
      - intros eps He. destruct (Lev z Lz eps He) as (t0 & H0 & H). exists t0. split; [exact H0|]. intros t Ht. pose proof (H t Ht) as X. rewrite Rmult_0_l in X. exact X. }
    pose proof (Low _ Lx) as L0. unfold violation. rewrite Eg, Eh.
    pose proof (mu_gain (d_c _ d) Hc (d_mu _ d) (p_g _ P (d_x _ d')) ltac:(etransitivity; [exact Lm|symmetry; exact G1]) Pm) as A1. rewrite <- Em in A1.
    pose proof (lam_gain (d_c _ d) (d_lam _ d) (p_h _ P (d_x _ d')) ltac:(etransitivity; [exact Ll|symmetry; exact H1])) as A2. rewrite <- El in A2.
    cbn [T R_num] in *. rewrite Rmult_plus_distr_l. lra.
  Qed.

  Lemma spent_passes v d0 w k d : spent o ag P v d0 w k d -> passes o ag P d0 d.
  Proof using. intros S. induction S; [constructor|econstructor; eassumption|econstructor; eassumption]. Qed.

  Lemma spent_climbs v d0 low : sound_state fin n ng nh d0 -> exact_passes o ag P n d0 ->
    (forall z : list R, length z = n -> low <= p_f _ P z + dotR (d_lam _ d0) (p_h _ P z) + dotR (d_mu _ d0) (p_g _ P z)) ->
    forall w k d, spent o ag P v d0 w k d ->
    forall z : list R, length z = n -> low + w <= p_f _ P z + dotR (d_lam _ d) (p_h _ P z) + dotR (d_mu _ d) (p_g _ P z).
  Proof using Hcnt Hshape Hmask Hgrow Hsized Cv.
    intros S0 Ex Low w k d Sp. induction Sp as [|w k d d' fuel fs xs gt Sp IH Hb Hv|w k d d' fuel fs xs gt Sp IH Hb Hv]; [intros z Lz; rewrite Rplus_0_r; now apply Low| |];
      intros z Lz; rewrite <- Rplus_assoc; pose proof (spent_passes _ _ _ _ _ Sp) as Ps;
      (eapply pass_climbs; [exact (passes_sound _ _ _ Hcnt P Hmask n _ _ Hsized Hshape Hgrow _ _ Ps S0)|exact Hb|exact (Ex _ _ _ _ _ _ Ps Hb)|exact IH|exact Lz]).
  Qed.
  Lemma spent_counts v d0 c0 : 0 <= v -> 0 <= c0 -> (forall d, passes o ag P d0 d -> c0 <= d_c _ d) ->
    forall w k d, spent o ag P v d0 w k d -> INR k * (c0 * v) <= w /\ 0 <= w.
  Proof using.
    intros Hv Hc0 Hc w k d Sp. induction Sp as [|w k d d' fuel fs xs gt Sp IH Hb Hl|w k d d' fuel fs xs gt Sp IH Hb Hl]; [cbn; lra| |].
    - pose proof (Hc _ (spent_passes _ _ _ _ _ Sp)) as X. pose proof (violation_nonneg d') as Y. pose proof (Rmult_le_pos (d_c _ d) (violation d') ltac:(cbn [T R_num] in *; lra) Y). cbn [T R_num] in *. lra.
    - pose proof (Hc _ (spent_passes _ _ _ _ _ Sp)) as X. pose proof (violation_nonneg d') as Y.
      assert (Z : c0 * v <= d_c _ d * violation d') by (apply Rmult_le_compat; assumption).
      assert (0 <= c0 * v) by (apply Rmult_le_pos; assumption). rewrite S_INR. cbn [T R_num] in *. lra.
  Qed.
End Dual.
