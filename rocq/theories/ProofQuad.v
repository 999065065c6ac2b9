(** Sums over refined grids converge to integrals and maxima. *)
From Coq Require Import List Bool Arith Reals Lra Lia.
From Coquelicot Require Import Coquelicot.
From Verif Require Import Base ModelArray ModelMath SpecMath ModelSurface SpecSurface.
Import ListNotations.
Open Scope R_scope.

Definition cont2 (F : R -> R -> R) : Prop := forall p t, continuity_2d_pt F p t.

Lemma cont2_slice F p : cont2 F -> forall t, continuous (F p) t.
Proof.
  intros C t. apply filterlim_locally. intros eps. destruct (C p t eps) as (d & Hd). exists d. intros v Hv. change (Rabs (v - t) < d) in Hv. change (Rabs (F p v - F p t) < eps).
  apply Hd; [|exact Hv]. rewrite Rminus_eq_0, Rabs_R0. apply cond_pos.
Qed.
Lemma continuous_integrable (f : R -> R) a b : (forall t, continuous f t) -> ex_RInt f a b.
Proof. intros C. apply (ex_RInt_continuous (V := R_CompleteNormedModule)). intros z _. apply C. Qed.

(** One cell. *)
Lemma cell f a h e : 0 <= h -> 0 <= e -> (forall t, continuous f t) -> (forall t, a <= t <= a + h -> Rabs (f t - f a) <= e) -> Rabs (f a * h - RInt f a (a + h)) <= e * h.
Proof.
  intros Ph Pe C B. rewrite Rabs_minus_sym. replace (f a * h) with (RInt (fun _ => f a) a (a + h)) by (rewrite RInt_const; change ((a + h - a) * f a = f a * h); ring).
  assert (I1 := continuous_integrable f a (a + h) C). assert (I2 : ex_RInt (fun _ => f a) a (a + h)) by apply ex_RInt_const.
  change (RInt f a (a + h) - RInt (fun _ => f a) a (a + h)) with (minus (RInt f a (a + h)) (RInt (fun _ => f a) a (a + h))). rewrite <- (RInt_minus (V := R_CompleteNormedModule) f (fun _ => f a)) by assumption.
  replace (e * h) with ((a + h - a) * e) by ring. apply abs_RInt_le_const; [lra| |exact B].
  apply (ex_RInt_minus (V := R_CompleteNormedModule)); assumption.
Qed.
Definition lsum (f : R -> R) (l : list R) : R := Rsum (map f l).
Lemma lsum_snoc f l u : lsum f (l ++ [u]) = lsum f l + f u.
Proof. unfold lsum, Rsum. induction l as [|a l IH]; cbn; [ring|]. rewrite IH. ring. Qed.
Lemma equispaced_snoc a h n : equispaced a h (S n) = equispaced a h n ++ [a + INR n * h].
Proof. unfold equispaced. now rewrite seq_S, map_app. Qed.
Lemma cells f a h e n : 0 <= h -> 0 <= e -> (forall t, continuous f t) ->
  (forall u v, a <= u -> u <= v <= u + h -> v <= a + INR n * h -> Rabs (f v - f u) <= e) ->
  Rabs (h * lsum f (equispaced a h n) - RInt f a (a + INR n * h)) <= e * (INR n * h).
Proof.
  intros Ph Pe C. induction n as [|n IH]; intros B.
  - cbn [INR]. replace (a + 0 * h) with a by ring. rewrite RInt_point. unfold lsum, Rsum. cbn. change (@zero R_CompleteNormedModule) with 0. replace (h * 0 - 0) with 0 by ring. rewrite Rabs_R0. lra.
  - rewrite equispaced_snoc, lsum_snoc, S_INR in *. assert (Pn := pos_INR n). assert (Pnh : 0 <= INR n * h) by (apply Rmult_le_pos; lra).
    assert (I1 : Rabs (h * lsum f (equispaced a h n) - RInt f a (a + INR n * h)) <= e * (INR n * h)).
    { apply IH. intros u v A1 A2 A3. apply B; [exact A1|exact A2|]. lra. }
    assert (I2 : Rabs (f (a + INR n * h) * h - RInt f (a + INR n * h) (a + INR n * h + h)) <= e * h).
    { apply cell; auto. intros t Ht. apply B; lra. }
    replace (a + (INR n + 1) * h) with (a + INR n * h + h) by ring.
    rewrite <- (RInt_Chasles (V := R_CompleteNormedModule) f a (a + INR n * h) (a + INR n * h + h)) by (apply continuous_integrable, C). change plus with Rplus.
    replace (h * (lsum f (equispaced a h n) + f (a + INR n * h)) - (RInt f a (a + INR n * h) + RInt f (a + INR n * h) (a + INR n * h + h)))
      with ((h * lsum f (equispaced a h n) - RInt f a (a + INR n * h)) + (f (a + INR n * h) * h - RInt f (a + INR n * h) (a + INR n * h + h))) by ring.
    eapply Rle_trans; [apply Rabs_triang|]. lra.
Qed.

(** A modulus of continuity on a rectangle. *)
Lemma modulus F a b c d : cont2 F -> forall e, 0 < e -> exists s, 0 < s /\ forall u v u' v', a <= u <= b -> c <= v <= d -> a <= u' <= b -> c <= v' <= d ->
  Rabs (u' - u) < s -> Rabs (v' - v) < s -> Rabs (F u' v' - F u v) <= e.
Proof.
  intros C e Pe. destruct (uniform_continuity_2d F a b c d (fun x y _ _ => C x y) (mkposreal e Pe)) as (s & Hs). exists s. split; [apply cond_pos|]. intros. apply Rlt_le. now apply Hs.
Qed.
(** The inner integral is continuous. *)
Lemma inner_close F c T e p p' : 0 <= T -> 0 <= e -> cont2 F -> (forall t, c <= t <= c + T -> Rabs (F p' t - F p t) <= e) ->
  Rabs (RInt (F p') c (c + T) - RInt (F p) c (c + T)) <= T * e.
Proof.
  intros PT Pe C B. assert (I1 := continuous_integrable (F p') c (c + T) (cont2_slice F p' C)). assert (I2 := continuous_integrable (F p) c (c + T) (cont2_slice F p C)).
  change (RInt (F p') c (c + T) - RInt (F p) c (c + T)) with (minus (RInt (F p') c (c + T)) (RInt (F p) c (c + T))). rewrite <- (RInt_minus (V := R_CompleteNormedModule)) by assumption.
  replace (T * e) with ((c + T - c) * e) by ring. apply abs_RInt_le_const; [lra| |exact B]. apply (ex_RInt_minus (V := R_CompleteNormedModule)); assumption.
Qed.
Lemma inner_continuous F c T : 0 <= T -> cont2 F -> forall p, continuous (fun p => RInt (F p) c (c + T)) p.
Proof.
  intros PT C p. apply filterlim_locally. intros eps. destruct (modulus F (p - 1) (p + 1) c (c + T) C (eps / 2 / (T + 1))) as (s & Ps & Hs).
  { apply Rdiv_lt_0_compat; [|lra]. pose proof (cond_pos eps). lra. }
  assert (Pd : 0 < Rmin s 1) by (apply Rmin_pos; lra). exists (mkposreal _ Pd). intros p' Hp. change (Rabs (p' - p) < Rmin s 1) in Hp. assert (H1 := Rmin_l s 1). assert (H2 := Rmin_r s 1).
  change (Rabs (RInt (F p') c (c + T) - RInt (F p) c (c + T)) < eps).
  apply Rle_lt_trans with (T * (eps / 2 / (T + 1))).
  - apply inner_close; auto; [apply Rlt_le, Rdiv_lt_0_compat; [pose proof (cond_pos eps)|]; lra|]. intros t Ht. apply Rabs_def2 in Hp.
    apply Hs; try lra; [apply Rabs_def1; lra|rewrite Rminus_eq_0, Rabs_R0; lra].
  - pose proof (cond_pos eps). apply Rle_lt_trans with ((T + 1) * (eps / 2 / (T + 1))); [apply Rmult_le_compat_r; [apply Rlt_le, Rdiv_lt_0_compat; lra|lra]|].
    replace ((T + 1) * (eps / 2 / (T + 1))) with (eps / 2) by (field; lra). lra.
Qed.

(** ** Refined grids *)
Definition dsum (F : R -> R -> R) (ps ts : list R) : R := lsum (fun p => lsum (F p) ts) ps.
Definition double (F : R -> R -> R) (a L c T : R) : R := RInt (fun p => RInt (F p) c (c + T)) a (a + L).
Lemma lsum_close f g l e : 0 <= e -> (forall u, In u l -> Rabs (f u - g u) <= e) -> Rabs (lsum f l - lsum g l) <= INR (length l) * e.
Proof.
  intros Pe. unfold lsum, Rsum. induction l as [|a l IH]; intros B; [cbn; rewrite Rminus_0_r, Rabs_R0; lra|]. cbn [map fold_right]. change (length (a :: l)) with (S (length l)). rewrite S_INR.
  replace (f a + fold_right Rplus 0 (map f l) - (g a + fold_right Rplus 0 (map g l))) with ((f a - g a) + (fold_right Rplus 0 (map f l) - fold_right Rplus 0 (map g l))) by ring.
  eapply Rle_trans; [apply Rabs_triang|]. assert (H1 := B a (or_introl eq_refl)). assert (H2 := IH (fun u H => B u (or_intror H))). lra.
Qed.
Lemma lsum_mult c f l : lsum (fun u => c * f u) l = c * lsum f l.
Proof. unfold lsum, Rsum. induction l as [|a l IH]; cbn; [ring|]. rewrite IH. ring. Qed.
Lemma equispaced_in a h n u : 0 <= h -> In u (equispaced a h n) -> a <= u <= a + INR n * h.
Proof.
  intros Ph Hu. apply in_map_iff in Hu as (i & <- & Hi). apply in_seq in Hi. assert (0 <= INR i) by apply pos_INR. assert (INR i <= INR n) by (apply le_INR; lia).
  assert (0 <= INR i * h) by (apply Rmult_le_pos; lra). assert (INR i * h <= INR n * h) by (apply Rmult_le_compat_r; lra). lra.
Qed.
Lemma small_step L s : 0 < L -> 0 < s -> exists N, forall n, (N <= n)%nat -> (1 <= n)%nat -> 0 < L / INR n < s.
Proof.
  intros PL Ps. destruct (archimed (L / s)) as (A & _). set (z := up (L / s)) in *. exists (S (Z.to_nat z)). intros n Hn H1. assert (Pn : 0 < INR n) by (apply lt_0_INR; lia).
  split; [now apply Rdiv_lt_0_compat|]. assert (Z0 : (0 < z)%Z) by (apply lt_IZR; apply Rlt_trans with (L / s); [now apply Rdiv_lt_0_compat|exact A]).
  assert (IZR z < INR n). { rewrite INR_IZR_INZ. apply IZR_lt. lia. } apply Rmult_lt_reg_r with (INR n); [exact Pn|]. replace (L / INR n * INR n) with L by (field; lra).
  assert (L / s < INR n) by lra. apply Rmult_lt_compat_l with (r := s) in H0; [|exact Ps]. replace (s * (L / s)) with L in H0 by (field; lra). exact H0.
Qed.
Theorem grids_converge F a L c T : 0 < L -> 0 < T -> cont2 F -> forall e, 0 < e -> exists N0, forall N M, (N0 <= N)%nat -> (N0 <= M)%nat -> (1 <= N)%nat -> (1 <= M)%nat ->
  Rabs (L / INR N * (T / INR M) * dsum F (equispaced a (L / INR N) N) (equispaced c (T / INR M) M) - double F a L c T) <= e.
Proof.
  intros PL PT C e Pe. set (k := e / (2 * (L * T))). assert (Pk : 0 < k) by (apply Rdiv_lt_0_compat; [lra|]; apply Rmult_lt_0_compat; [lra|]; now apply Rmult_lt_0_compat).
  destruct (modulus F a (a + L) c (c + T) C k Pk) as (s & Ps & Hs). destruct (small_step L s PL Ps) as (N1 & H1). destruct (small_step T s PT Ps) as (N2 & H2).
  exists (Nat.max N1 N2). intros N M HN HM PN PM. destruct (H1 N ltac:(lia) PN) as (P1 & S1). destruct (H2 M ltac:(lia) PM) as (P2 & S2). set (h := L / INR N) in *. set (g := T / INR M) in *.
  assert (EN : INR N * h = L) by (unfold h; field; apply not_0_INR; lia). assert (EM : INR M * g = T) by (unfold g; field; apply not_0_INR; lia).
  set (I := fun p => RInt (F p) c (c + T)).
  assert (In1 : forall p, a <= p <= a + L -> Rabs (g * lsum (F p) (equispaced c g M) - I p) <= k * T).
  { intros p Hp. pose proof (cells (F p) c g k M ltac:(lra) ltac:(lra) (cont2_slice F p C)) as H. rewrite EM in H. apply H. intros u v A1 A2 A3. apply Hs; try lra; [rewrite Rminus_eq_0, Rabs_R0; lra|]. apply Rabs_def1; lra. }
  assert (Out : Rabs (h * lsum I (equispaced a h N) - double F a L c T) <= k * T * L).
  { pose proof (cells I a h (k * T) N ltac:(lra) ltac:(apply Rmult_le_pos; lra) (inner_continuous F c T ltac:(lra) C)) as H. rewrite EN in H. unfold double. apply H. intros u v A1 A2 A3.
    unfold I. replace (k * T) with (T * k) by ring. apply inner_close; auto; try lra. intros t Ht. apply Hs; try lra; [apply Rabs_def1; lra|rewrite Rminus_eq_0, Rabs_R0; lra]. }
  assert (Sum : Rabs (lsum (fun p => g * lsum (F p) (equispaced c g M)) (equispaced a h N) - lsum I (equispaced a h N)) <= INR N * (k * T)).
  { replace (INR N) with (INR (length (equispaced a h N))) by (unfold equispaced; now rewrite map_length, seq_length). apply lsum_close; [apply Rmult_le_pos; lra|]. intros u Hu. apply In1.
    apply equispaced_in in Hu; [|lra]. rewrite EN in Hu. exact Hu. }
  rewrite lsum_mult in Sum. fold (dsum F (equispaced a h N) (equispaced c g M)) in Sum. set (S := dsum F _ _) in *. set (J := lsum I _) in *. set (D := double F a L c T) in *.
  replace (h * g * S - D) with (h * (g * S - J) + (h * J - D)) by ring. eapply Rle_trans; [apply Rabs_triang|]. rewrite Rabs_mult, (Rabs_right h) by lra.
  assert (h * Rabs (g * S - J) <= h * (INR N * (k * T))) by (apply Rmult_le_compat_l; lra). replace (h * (INR N * (k * T))) with (k * T * L) in H by (rewrite <- EN; ring).
  assert (E2 : k * T * L = e / 2) by (unfold k; field; lra). lra.
Qed.
(** Every point has a grid point in its neighbourhood. *)
Theorem grids_reach F a L c T : 0 < L -> 0 < T -> cont2 F -> forall e, 0 < e -> exists N0, forall N M, (N0 <= N)%nat -> (N0 <= M)%nat -> (1 <= N)%nat -> (1 <= M)%nat ->
  forall p t, a <= p < a + L -> c <= t < c + T -> exists p' t', In p' (equispaced a (L / INR N) N) /\ In t' (equispaced c (T / INR M) M) /\ Rabs (F p' t' - F p t) <= e.
Proof.
  intros PL PT C e Pe. destruct (modulus F a (a + L) c (c + T) C e Pe) as (s & Ps & Hs). destruct (small_step L s PL Ps) as (N1 & H1). destruct (small_step T s PT Ps) as (N2 & H2).
  assert (Pick : forall b D n h, 0 < h -> INR n * h = D -> forall u, b <= u < b + D -> exists u', In u' (equispaced b h n) /\ u' <= u < u' + h).
  { intros b D n h Ph. revert D. induction n as [|n IH]; intros D ED u Hu; [cbn in ED; lra|]. rewrite S_INR in ED. rewrite equispaced_snoc. destruct (Rlt_le_dec u (b + INR n * h)) as [Hl|Hl].
    - destruct (IH (INR n * h) eq_refl u ltac:(lra)) as (u' & Hi & B). exists u'. split; [apply in_or_app; now left|exact B].
    - exists (b + INR n * h). split; [apply in_or_app; right; now left|]. lra. }
  exists (Nat.max N1 N2). intros N M HN HM PN PM p t Hp Ht. destruct (H1 N ltac:(lia) PN) as (P1 & S1). destruct (H2 M ltac:(lia) PM) as (P2 & S2). set (h := L / INR N) in *. set (g := T / INR M) in *.
  assert (EN : INR N * h = L) by (unfold h; field; apply not_0_INR; lia). assert (EM : INR M * g = T) by (unfold g; field; apply not_0_INR; lia).
  destruct (Pick a L N h P1 EN p Hp) as (p' & Ip & Bp). destruct (Pick c T M g P2 EM t Ht) as (t' & It & Bt). exists p', t'. split; [exact Ip|]. split; [exact It|].
  pose proof (equispaced_in a h N p' ltac:(lra) Ip) as Rp. pose proof (equispaced_in c g M t' ltac:(lra) It) as Rt. rewrite EN in Rp. rewrite EM in Rt.
  apply Hs; try lra; apply Rabs_def1; lra.
Qed.
