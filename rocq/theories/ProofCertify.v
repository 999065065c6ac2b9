(** A stationary point of the augmented Lagrangian of a convex problem is
    certified by the updated multipliers. *)
From Coq Require Import List Reals Lra Lia.
From Verif Require Import Base ModelSolver SpecSolver SpecCert SpecField.
Import ListNotations.
Open Scope R_scope.

Lemma between_comb x : forall z t, between x z t = lincomb t (1 - t) z x.
Proof.
  induction x as [|a x IH]; intros [|b z] t; try reflexivity. cbn. f_equal; [lra|]. apply (IH z t).
Qed.
Lemma map2_len {A B C} (g : A -> B -> C) : forall a b, length a = length b -> length (map2 g a b) = length a.
Proof. induction a as [|y a IH]; intros [|z b] H; try discriminate; cbn; [reflexivity|]. f_equal. apply IH. now injection H. Qed.

(** ** One row *)
Lemma penalty_up m c v w : 0 < c -> v <= w ->
  (Rmax 0 (m + c * v) * Rmax 0 (m + c * v) - m * m) / (2 * c) <= (Rmax 0 (m + c * w) * Rmax 0 (m + c * w) - m * m) / (2 * c).
Proof.
  intros Hc H. apply Rmult_le_compat_r; [left; apply Rinv_0_lt_compat; lra|].
  assert (0 <= Rmax 0 (m + c * v)) by apply Rmax_l. assert (Rmax 0 (m + c * v) <= Rmax 0 (m + c * w)) by (apply Rle_max_compat_l; nra). nra.
Qed.
Lemma penalty_tangent m c v w : 0 < c ->
  (Rmax 0 (m + c * w) * Rmax 0 (m + c * w) - m * m) / (2 * c) <=
  (Rmax 0 (m + c * v) * Rmax 0 (m + c * v) - m * m) / (2 * c) + Rmax 0 (m + c * v) * (w - v) + c / 2 * ((w - v) * (w - v)).
Proof.
  intros Hc. set (a := m + c * v). set (b := m + c * w). assert (E : w - v = (b - a) / c) by (unfold a, b; field; lra). rewrite E.
  assert (K : Rmax 0 b * Rmax 0 b <= Rmax 0 a * Rmax 0 a + 2 * Rmax 0 a * (b - a) + (b - a) * (b - a)).
  { pose proof (Rle_0_sqr b) as S1. pose proof (Rle_0_sqr (b - a)) as S2. unfold Rsqr in S1, S2. clearbody a b. unfold Rmax.
    destruct (Rle_dec 0 a), (Rle_dec 0 b); try lra; try nra. }
  apply (Rmult_le_reg_r (2 * c)); [lra|].
  replace ((Rmax 0 b * Rmax 0 b - m * m) / (2 * c) * (2 * c)) with (Rmax 0 b * Rmax 0 b - m * m) by (field; lra).
  replace (((Rmax 0 a * Rmax 0 a - m * m) / (2 * c) + Rmax 0 a * ((b - a) / c) + c / 2 * ((b - a) / c * ((b - a) / c))) * (2 * c))
    with (Rmax 0 a * Rmax 0 a - m * m + 2 * Rmax 0 a * (b - a) + (b - a) * (b - a)) by (field; lra). lra.
Qed.

(** ** All rows *)
Lemma inequality_rows c t : 0 < c -> forall mu g g' gt, length g = length mu -> length g' = length mu ->
  Forall2 Rle gt (between g g' t) ->
  sumR (map2 (fun m v => (Rmax 0 (m + c * v) * Rmax 0 (m + c * v) - m * m) / (2 * c)) mu gt) <=
  sumR (map2 (fun m v => (Rmax 0 (m + c * v) * Rmax 0 (m + c * v) - m * m) / (2 * c)) mu g) +
  t * (dotR (map2 (fun m v => Rmax 0 (m + c * v)) mu g) g' - dotR (map2 (fun m v => Rmax 0 (m + c * v)) mu g) g) +
  t * t * (c / 2 * squares (map2 Rminus g' g)).
Proof.
  intros Hc mu. induction mu as [|m mu IH]; intros [|a g] [|b g'] gt L1 L2 F; try discriminate.
  - cbn in *. unfold dotR, squares. cbn. lra.
  - cbn [between map2] in F. inversion F as [|v ? gt' ? Hv F' E1 E2]. subst. injection L1 as L1. injection L2 as L2.
    specialize (IH g g' gt' L1 L2 F'). unfold dotR, squares in *. cbn [map2 map sumR fold_right] in *.
    pose proof (penalty_up m c v (a + t * (b - a)) Hc Hv). pose proof (penalty_tangent m c a (a + t * (b - a)) Hc) as D.
    replace (a + t * (b - a) - a) with (t * (b - a)) in D by ring. unfold sumR in *. cbn [fold_right]. nra.
Qed.
Lemma equality_rows c t : forall lam h h', length h = length lam -> length h' = length lam ->
  sumR (map2 (fun l v => l * v + c / 2 * (v * v)) lam (between h h' t)) =
  sumR (map2 (fun l v => l * v + c / 2 * (v * v)) lam h) +
  t * (dotR (map2 (fun l v => l + c * v) lam h) h' - dotR (map2 (fun l v => l + c * v) lam h) h) +
  t * t * (c / 2 * squares (map2 Rminus h' h)).
Proof.
  induction lam as [|m lam IH]; intros [|a h] [|b h'] L1 L2; try discriminate.
  - cbn. unfold dotR, squares. cbn. lra.
  - injection L1 as L1. injection L2 as L2. specialize (IH h h' L1 L2). unfold between in IH. unfold dotR, squares, between in *. cbn [map2 map] in *. unfold sumR in *. cbn [fold_right]. rewrite IH. field.
Qed.

(** ** The certificate *)
Theorem certificate_at f (g h : list R -> list R) c lam mu x z B :
  0 < c -> length (h x) = length lam -> length (h z) = length lam -> length (g x) = length mu -> length (g z) = length mu ->
  (forall t, 0 <= t <= 1 -> f (between x z t) <= f x + t * (f z - f x) /\ Forall2 Rle (g (between x z t)) (between (g x) (g z) t) /\
     h (between x z t) = between (h x) (h z) t) ->
  (forall eps, 0 < eps -> exists t0, 0 < t0 /\ forall t, 0 < t < t0 ->
     augmented f g h c lam mu x <= augmented f g h c lam mu (between x z t) + t * (B + eps)) ->
  let l := map2 (fun l v => l + c * v) lam (h x) in
  let m := map2 (fun m v => Rmax 0 (m + c * v)) mu (g x) in
  f x + dotR l (h x) + dotR m (g x) <= f z + dotR l (h z) + dotR m (g z) + B.
Proof.
  intros Hc L1 L2 L3 L4 Hch Hlev l m.
  set (D := f z + dotR l (h z) + dotR m (g z) + B - (f x + dotR l (h x) + dotR m (g x))).
  cut (0 <= D); [unfold D; lra|].
  set (C := c / 2 * squares (map2 Rminus (h z) (h x)) + c / 2 * squares (map2 Rminus (g z) (g x))).
  assert (HC : 0 <= C).
  { assert (S : forall v, 0 <= squares v). { intros v. unfold squares, sumR. induction v as [|b v IHv]; cbn; [lra|nra]. }
    pose proof (S (map2 Rminus (h z) (h x))). pose proof (S (map2 Rminus (g z) (g x))). unfold C. nra. }
  destruct (Rle_or_lt 0 D) as [|Neg]; [assumption|exfalso].
  destruct (Hlev (- D / 4)) as (t0 & Ht0 & H); [lra|].
  set (s := Rmin (Rmin (t0 / 2) 1) (- D / (4 * (C + 1)))).
  assert (Hq : 0 < - D / (4 * (C + 1))) by (apply Rdiv_lt_0_compat; lra).
  assert (Hs : 0 < s). { unfold s. apply Rmin_glb_lt; [apply Rmin_glb_lt; lra|exact Hq]. }
  assert (Hs1 : s <= t0 / 2) by (unfold s; eapply Rle_trans; [apply Rmin_l|apply Rmin_l]).
  assert (Hs2 : s <= 1) by (unfold s; eapply Rle_trans; [apply Rmin_l|apply Rmin_r]).
  assert (Hs3 : s <= - D / (4 * (C + 1))) by (unfold s; apply Rmin_r).
  assert (Hs4 : s * C <= - D / 4).
  { apply Rle_trans with (- D / (4 * (C + 1)) * (C + 1)).
    - apply Rmult_le_compat; lra.
    - right. field. lra. }
  specialize (H s ltac:(lra)). destruct (Hch s ltac:(lra)) as (Cf & Cg & Ch). unfold augmented in H. rewrite Ch in H.
  rewrite (equality_rows c s lam (h x) (h z) L1 L2) in H. fold l in H.
  pose proof (inequality_rows c s Hc mu (g x) (g z) _ L3 L4 Cg) as G. fold m in G.
  assert (K : 0 <= s * (D - D / 4 + s * C)). { unfold D, C in *. nra. }
  assert (D - D / 4 + s * C < 0) by lra. nra.
Qed.
