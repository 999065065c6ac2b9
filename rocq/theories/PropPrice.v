(** Property C144: the reported multipliers are the prices of the constraints. *)
From Coq Require Import List Bool Arith Lia Reals Lra.
From Verif Require Import Base ModelSolver SpecSolver ProofSolver SpecCert ProofCert WitnessSolver SpecPrice ProofPrice WitnessPrice.
Import ListNotations.
Open Scope R_scope.

(** ** C144 *)
(** No change of the bounds gains more than the prices of the change. *)
Theorem C144_price_of_changed_bounds :
  forall fin (P : problem (R_num fin)) n ng nh eta d u, solved P n ng nh eta d u ->
  0 < u /\ List.Forall (fun m => 0 <= m) (d_mu _ d) /\
  forall dg dh y : list R, length y = n -> convex_from P (d_x _ d) y -> relaxed P dg dh y ->
    d_f _ d + dotR (d_lam _ d) (d_h _ d) + dotR (d_mu _ d) (d_g _ d)
    <= p_f _ P y + dotR (d_lam _ d) dh + dotR (d_mu _ d) dg + eta * (normR (map2 Rminus y (d_x _ d)) / u).
Proof.
  intros fin P n ng nh eta d u S. destruct (solved_facts P n ng nh eta d u S) as (Hu & Hm & _ & _ & _ & _ & _ & _ & _ & H).
  split; [exact Hu|]. split; [exact Hm|]. intros dg dh y Ly Cv (Rg & Rh). pose proof (H y Ly Cv) as Q. rewrite Rh in Q. pose proof (dot_le _ _ _ Hm Rg). lra.
Qed.
Print Assumptions C144_price_of_changed_bounds.

(** A constraint without a price could have been left out. *)
Theorem C144_constraints_without_price :
  forall fin (P : problem (R_num fin)) n ng nh eta d u, solved P n ng nh eta d u ->
  forall y : list R, length y = n -> convex_from P (d_x _ d) y -> priced P (d_lam _ d) (d_mu _ d) y ->
    d_f _ d + dotR (d_lam _ d) (d_h _ d) + dotR (d_mu _ d) (d_g _ d) <= p_f _ P y + eta * (normR (map2 Rminus y (d_x _ d)) / u).
Proof.
  intros fin P n ng nh eta d u S y Ly Cv (Pg & Ph). destruct (solved_facts P n ng nh eta d u S) as (_ & Hm & _ & _ & _ & _ & _ & _ & _ & H).
  pose proof (H y Ly Cv) as Q. pose proof (dot_priced _ _ Hm Pg). rewrite (dot_priced0 _ _ Ph) in Q. lra.
Qed.
Print Assumptions C144_constraints_without_price.

(** Two solves, before and after the bounds are loosened by [delta]: the gain is
    at most what the old prices say if the new answer meets its constraints,
    and at least what the new prices say if the old answer met its own. *)
Theorem C144_gain_between_the_prices :
  forall fin (P P' : problem (R_num fin)) n ng nh eta eta' delta d d' u u',
  solved P n ng nh eta d u -> solved P' n ng nh eta' d' u' -> length delta = ng -> loosened delta P P' ->
  (admissible P' (d_x _ d') -> convex_from P (d_x _ d) (d_x _ d') ->
     d_f _ d - d_f _ d' <= dotR (d_mu _ d) delta - dotR (d_mu _ d) (d_g _ d) - dotR (d_lam _ d) (d_h _ d)
                           + eta * (normR (map2 Rminus (d_x _ d') (d_x _ d)) / u)) /\
  (admissible P (d_x _ d) -> convex_from P' (d_x _ d') (d_x _ d) ->
     dotR (d_mu _ d') delta + dotR (d_mu _ d') (d_g _ d') + dotR (d_lam _ d') (d_h _ d')
       - eta' * (normR (map2 Rminus (d_x _ d) (d_x _ d')) / u') <= d_f _ d - d_f _ d').
Proof.
  intros fin P P' n ng nh eta eta' delta d d' u u' S S' Ld Lo.
  destruct (solved_facts P n ng nh eta d u S) as (_ & Hm & _ & _ & Lx & Sz & Ef & _ & _ & H).
  destruct (solved_facts P' n ng nh eta' d' u' S') as (_ & Hm' & _ & _ & Lx' & _ & Ef' & _ & _ & H'). split.
  - intros (Ag & Ah) Cv. pose proof (H _ Lx' Cv) as Q. destruct (Lo (d_x _ d')) as (E1 & E2 & E3). rewrite E2 in Ag. rewrite E3 in Ah. rewrite (dot_zeros _ _ Ah) in Q.
    assert (Lg : length (p_g _ P (d_x _ d') : list R) = length delta) by (rewrite Ld; apply (Sz _ Lx')).
    pose proof (dot_le _ _ _ Hm (minus_le _ _ Lg Ag)). rewrite <- E1, <- Ef' in Q. lra.
  - intros (Ag & Ah) Cv. pose proof (H' _ Lx Cv) as Q. destruct (Lo (d_x _ d)) as (E1 & E2 & E3). rewrite E2, E3, E1, <- Ef in Q. rewrite (dot_zeros _ _ Ah) in Q.
    assert (Lg : length (p_g _ P (d_x _ d) : list R) = length delta) by (rewrite Ld; apply (Sz _ Lx)).
    pose proof (dot_le _ _ _ Hm' (neg_le _ _ Lg Ag)) as K. rewrite dot_opp in K. lra.
Qed.
Print Assumptions C144_gain_between_the_prices.

(** Minimise x^2 subject to x >= 1 and subject to x >= 1/2: the prices are 2 and 1,
    so the gain of 3/4 lies between 1/2 and 1. *)
Example C144_example : exists d d' u u', solved (floor_at 1) 1 1 0 0 d u /\ solved (floor_at (/ 2)) 1 1 0 0 d' u' /\ loosened [/ 2] (floor_at 1) (floor_at (/ 2)) /\
  d_x _ d = [1] /\ d_x _ d' = [/ 2] /\ d_mu _ d = [2 * 1] /\ d_mu _ d' = [2 * / 2] /\ (forall b x y, convex_from (floor_at b) [x] [y]) /\
  relaxed (floor_at 1) [/ 2] [] [/ 2] /\ admissible (floor_at (/ 2)) [/ 2] /\ admissible (floor_at 1) [1].
Proof.
  destruct (bound_solved 1 ltac:(lra) 3) as (d & u & S & X & M). destruct (bound_solved (/ 2) ltac:(lra) 3) as (d' & u' & S' & X' & M').
  exists d, d', u, u'. split; [exact S|]. split; [exact S'|]. split; [intros y; split; [reflexivity|]; split; [|reflexivity]; simpl; f_equal; lra|]. repeat (split; [assumption|]). split; [intros b x y; apply bound_convex|].
  split; [split; [repeat constructor; simpl; unfold head; simpl; lra|reflexivity]|]. split; (split; [repeat constructor; simpl; unfold head; simpl; lra|constructor]).
Qed.
