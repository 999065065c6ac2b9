(** The certificate when some rows are not convex but carry no multiplier. *)
From Coq Require Import List Arith Reals Lra Lia.
From Verif Require Import Base ModelSolver SpecSolver SpecCert SpecField ProofCertify.
Import ListNotations.
Open Scope R_scope.

Lemma near_rows c t E : 0 < c -> 0 <= t -> 0 <= E -> forall mu g g' gt, length g = length mu -> length g' = length mu -> length gt = length mu ->
  let m := map2 (fun m v => Rmax 0 (m + c * v)) mu g in
  (forall i, (i < length mu)%nat -> nth i gt 0 <= nth i (between g g' t) 0 + t * E) ->
  (forall i, (i < length mu)%nat -> nth i m 0 <> 0 -> nth i gt 0 <= nth i (between g g' t) 0) ->
  sumR (map2 (fun m v => (Rmax 0 (m + c * v) * Rmax 0 (m + c * v) - m * m) / (2 * c)) mu gt) <=
  sumR (map2 (fun m v => (Rmax 0 (m + c * v) * Rmax 0 (m + c * v) - m * m) / (2 * c)) mu g) +
  t * (dotR m g' - dotR m g) + t * t * (c / 2 * squares (map2 (fun b a => Rabs (b - a) + E) g' g)).
Proof.
  intros Hc Ht HE mu. induction mu as [|m mu IH]; intros [|a g] [|b g'] [|v gt] L1 L2 L3 M N1 N2; try discriminate.
  - subst M. unfold dotR, squares. cbn. lra.
  - injection L1 as L1. injection L2 as L2. injection L3 as L3.
    assert (I := IH g g' gt L1 L2 L3 (fun i Hi => N1 (S i) (proj1 (Nat.succ_lt_mono _ _) Hi)) (fun i Hi => N2 (S i) (proj1 (Nat.succ_lt_mono _ _) Hi))).
    specialize (N1 O (Nat.lt_0_succ _)). specialize (N2 O (Nat.lt_0_succ _)). subst M. cbn [between map2 nth] in N1, N2. clear IH.
    assert (Row : (Rmax 0 (m + c * v) * Rmax 0 (m + c * v) - m * m) / (2 * c) <= (Rmax 0 (m + c * a) * Rmax 0 (m + c * a) - m * m) / (2 * c) +
      t * (Rmax 0 (m + c * a) * (b - a)) + t * t * (c / 2 * ((Rabs (b - a) + E) * (Rabs (b - a) + E)))).
    { assert (Sq : forall w, - (Rabs (b - a) + E) <= w <= Rabs (b - a) + E -> t * t * (c / 2 * (w * w)) <= t * t * (c / 2 * ((Rabs (b - a) + E) * (Rabs (b - a) + E)))).
      { intros w Hw. apply Rmult_le_compat_l; [nra|]. apply Rmult_le_compat_l; [lra|]. clear - Hw. nra. }
      assert (Ab : - Rabs (b - a) <= b - a <= Rabs (b - a)) by (split; [unfold Rabs; destruct (Rcase_abs (b - a)); lra|apply Rle_abs]).
      destruct (Req_dec (Rmax 0 (m + c * a)) 0) as [Z|NZ].
      - pose proof (penalty_up m c v (a + t * (b - a + E)) Hc ltac:(lra)) as U. pose proof (penalty_tangent m c a (a + t * (b - a + E)) Hc) as D.
        replace (a + t * (b - a + E) - a) with (t * (b - a + E)) in D by ring. rewrite Z in D |- *. specialize (Sq (b - a + E) ltac:(lra)).
        replace (c / 2 * (t * (b - a + E) * (t * (b - a + E)))) with (t * t * (c / 2 * ((b - a + E) * (b - a + E)))) in D by field. lra.
      - pose proof (penalty_up m c v (a + t * (b - a)) Hc (N2 NZ)) as U. pose proof (penalty_tangent m c a (a + t * (b - a)) Hc) as D.
        replace (a + t * (b - a) - a) with (t * (b - a)) in D by ring. specialize (Sq (b - a) ltac:(lra)).
        replace (c / 2 * (t * (b - a) * (t * (b - a)))) with (t * t * (c / 2 * ((b - a) * (b - a)))) in D by field. lra. }
    unfold dotR, squares in *. cbn [map2 map] in *. unfold sumR in *. cbn [fold_right]. cbv zeta in I. lra.
Qed.

Theorem certificate_near f (g h : list R -> list R) c lam mu x z B E :
  0 < c -> 0 <= E -> length (h x) = length lam -> length (h z) = length lam -> length (g x) = length mu -> length (g z) = length mu ->
  let l := map2 (fun l v => l + c * v) lam (h x) in
  let m := map2 (fun m v => Rmax 0 (m + c * v)) mu (g x) in
  (forall t, 0 <= t <= 1 -> f (between x z t) <= f x + t * (f z - f x) /\ h (between x z t) = between (h x) (h z) t /\ length (g (between x z t)) = length mu /\
     (forall i, (i < length mu)%nat -> nth i (g (between x z t)) 0 <= nth i (between (g x) (g z) t) 0 + t * E) /\
     (forall i, (i < length mu)%nat -> nth i m 0 <> 0 -> nth i (g (between x z t)) 0 <= nth i (between (g x) (g z) t) 0)) ->
  (forall eps, 0 < eps -> exists t0, 0 < t0 /\ forall t, 0 < t < t0 ->
     augmented f g h c lam mu x <= augmented f g h c lam mu (between x z t) + t * (B + eps)) ->
  f x + dotR l (h x) + dotR m (g x) <= f z + dotR l (h z) + dotR m (g z) + B.
Proof.
  intros Hc HE L1 L2 L3 L4 l m Hch Hlev.
  set (D := f z + dotR l (h z) + dotR m (g z) + B - (f x + dotR l (h x) + dotR m (g x))).
  cut (0 <= D); [unfold D; lra|].
  set (C := c / 2 * squares (map2 Rminus (h z) (h x)) + c / 2 * squares (map2 (fun b a => Rabs (b - a) + E) (g z) (g x))).
  assert (HC : 0 <= C).
  { assert (S : forall v, 0 <= squares v). { intros v. unfold squares, sumR. induction v as [|b v IHv]; cbn; [lra|nra]. }
    pose proof (S (map2 Rminus (h z) (h x))). pose proof (S (map2 (fun b a => Rabs (b - a) + E) (g z) (g x))). unfold C. nra. }
  destruct (Rle_or_lt 0 D) as [|Neg]; [assumption|exfalso].
  destruct (Hlev (- D / 4)) as (t0 & Ht0 & H); [lra|].
  set (s := Rmin (Rmin (t0 / 2) 1) (- D / (4 * (C + 1)))).
  assert (Hq : 0 < - D / (4 * (C + 1))) by (apply Rdiv_lt_0_compat; lra).
  assert (Hs : 0 < s). { unfold s. apply Rmin_glb_lt; [apply Rmin_glb_lt; lra|exact Hq]. }
  assert (Hs1 : s <= t0 / 2) by (unfold s; eapply Rle_trans; [apply Rmin_l|apply Rmin_l]).
  assert (Hs2 : s <= 1) by (unfold s; eapply Rle_trans; [apply Rmin_l|apply Rmin_r]).
  assert (Hs3 : s <= - D / (4 * (C + 1))) by (unfold s; apply Rmin_r).
  assert (Hs4 : s * C <= - D / 4).
  { apply Rle_trans with (- D / (4 * (C + 1)) * (C + 1)).
    - apply Rmult_le_compat; lra.
    - right. field. lra. }
  specialize (H s ltac:(lra)). destruct (Hch s ltac:(lra)) as (Cf & Ch & Lg & Cg & Ca). unfold augmented in H. rewrite Ch in H.
  rewrite (equality_rows c s lam (h x) (h z) L1 L2) in H. fold l in H.
  pose proof (near_rows c s E Hc ltac:(lra) HE mu (g x) (g z) _ L3 L4 Lg Cg Ca) as G. cbv zeta in G. fold m in G.
  assert (K : 0 <= s * (D - D / 4 + s * C)). { unfold D, C in *. nra. }
  assert (D - D / 4 + s * C < 0) by lra. nra.
Qed.
