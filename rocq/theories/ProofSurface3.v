(** Proofs about the Fourier surface: frames and their derivatives, integrals,
    flattening, DESC conversion. *)
From Coq Require Import String List Bool Arith ZArith Reals Lra Lia FinFun.
From Coquelicot Require Import Coquelicot.
From Verif Require Import Base ModelArray ModelMath SpecMath RDeriv ProofMath ModelSurface SpecSurface ProofSurface ProofSurface2.
Import ListNotations.
Open Scope R_scope.

Lemma dot3_norm v : dot3 v v = norm3 v * norm3 v.
Proof. rewrite norm3_sq. reflexivity. Qed.
Lemma dot_pos v : v <> zero3 -> 0 < dot3 v v.
Proof.
  intros H. rewrite dot3_norm. apply norm3_sq0 in H.
  assert (0 <= norm3 v) by apply sqrt_pos. nra.
Qed.
Lemma norm_pos v : v <> zero3 -> 0 < norm3 v.
Proof. intros H. apply norm3_sq0 in H. assert (0 <= norm3 v) by apply sqrt_pos. lra. Qed.
Lemma norm_dot v : norm3 v = sqrt (dot3 v v).
Proof. reflexivity. Qed.

Lemma cross_orth u v : dot3 (cross3 u v) u = 0 /\ dot3 (cross3 u v) v = 0.
Proof. unfold dot3, cross3; simpl. split; ring. Qed.
Lemma lagrange u v : dot3 (cross3 u v) (cross3 u v) = dot3 u u * dot3 v v - dot3 u v * dot3 u v.
Proof. unfold dot3, cross3; simpl. ring. Qed.

Lemma dual u v : cross3 u v <> zero3 ->
  dot3 (grad1_at u v) u = 1 /\ dot3 (grad1_at u v) v = 0 /\
  dot3 (grad2_at u v) u = 0 /\ dot3 (grad2_at u v) v = 1 /\
  dot3 (grad1_at u v) (cross3 u v) = 0 /\ dot3 (grad2_at u v) (cross3 u v) = 0.
Proof.
  intros H. pose proof (dot_pos _ H) as P. unfold grad1_at, grad2_at.
  assert (S : forall c w x, dot3 (scale3 c w) x = c * dot3 w x) by (intros; unfold dot3, scale3; simpl; ring).
  rewrite !S. set (D := dot3 (cross3 u v) (cross3 u v)) in *.
  assert (D <> 0) by lra.
  assert (A1 : dot3 (cross3 v (cross3 u v)) u = D) by (unfold D, dot3, cross3; simpl; ring).
  assert (A2 : dot3 (cross3 u (scale3 (-1) (cross3 u v))) v = D) by (unfold D, dot3, scale3, cross3; simpl; ring).
  rewrite A1, A2. repeat split; try (field; auto; fail); unfold dot3, scale3, cross3; simpl; ring.
Qed.

Lemma scale_norm c v : 0 < c -> norm3 (scale3 c v) = c * norm3 v.
Proof.
  intros H. rewrite !norm_dot. replace (dot3 (scale3 c v) (scale3 c v)) with (c * c * dot3 v v).
  2:{ unfold dot3, scale3; simpl. ring. }
  rewrite sqrt_mult_alt by nra. rewrite sqrt_square by lra. reflexivity.
Qed.

Lemma frame s T1 T2 : reports gammadash1 s T1 -> reports gammadash2 s T2 ->
  exists N U E1 E2 : R -> R -> vec3,
    reports normal s N /\ reports unitnormal s U /\
    reports (first_of grad_helper) s E1 /\ reports (second_of grad_helper) s E2 /\
    (forall ps ts s', copy_and_set_quadpoints s (arr1 ps) (arr1 ts) = Ok s' ->
       da s' = Ok (sample (fun p t => s_dphi s' * s_dtheta s' * norm3 (N p t)) ps ts)) /\
    forall p t,
      dot3 (N p t) (T1 p t) = 0 /\ dot3 (N p t) (T2 p t) = 0 /\
      norm3 (N p t) = sqrt (dot3 (T1 p t) (T1 p t) * dot3 (T2 p t) (T2 p t) - dot3 (T1 p t) (T2 p t) * dot3 (T1 p t) (T2 p t)) /\
      (N p t <> zero3 ->
        norm3 (U p t) = 1 /\ (exists c, 0 < c /\ U p t = scale3 c (N p t)) /\
        dot3 (E1 p t) (T1 p t) = 1 /\ dot3 (E1 p t) (T2 p t) = 0 /\
        dot3 (E2 p t) (T1 p t) = 0 /\ dot3 (E2 p t) (T2 p t) = 1 /\
        dot3 (E1 p t) (N p t) = 0 /\ dot3 (E2 p t) (N p t) = 0).
Proof.
  intros H1 H2. pose proof (reports_legal _ _ _ _ H1) as L.
  pose proof (reports_pt _ _ _ _ H1) as P1. pose proof (reports_pt _ _ _ _ H2) as P2.
  exists (nrm s), (fun p t => scale3 (/ norm3 (nrm s p t)) (nrm s p t)),
    (fun p t => grad1_at (pt s 1 0 p t) (pt s 0 1 p t)), (fun p t => grad2_at (pt s 1 0 p t) (pt s 0 1 p t)).
  split; [apply reports_of; intros; now apply normal_copy|].
  split; [apply reports_of; intros; now apply unitnormal_copy|].
  split; [apply reports_of; intros; unfold first_of; now rewrite (grad_copy s ps ts s')|].
  split; [apply reports_of; intros; unfold second_of; now rewrite (grad_copy s ps ts s')|].
  split; [intros; now apply da_copy|].
  intros p t. rewrite P1, P2. unfold nrm. destruct (cross_orth (pt s 1 0 p t) (pt s 0 1 p t)) as [O1 O2].
  split; auto. split; auto. split; [now rewrite norm_dot, lagrange|].
  intros Hn. pose proof (norm_pos _ Hn).
  split. { rewrite scale_norm by now apply Rinv_0_lt_compat. field. lra. }
  split. { eexists. split; [|reflexivity]. now apply Rinv_0_lt_compat. }
  destruct (dual _ _ Hn) as (? & ? & ? & ? & ? & ?). repeat split; auto.
Qed.

(** ** Derivatives of vector expressions *)
Lemma derives_cross f g t df dg : derives f t df -> derives g t dg ->
  derives (fun x => cross3 (f x) (g x)) t (add3 (cross3 df (g t)) (cross3 (f t) dg)).
Proof.
  intros (F1 & F2 & F3) (G1 & G2 & G3). unfold derives, cross3, add3; cbn [vx vy vz]. split; [|split].
  - eapply dR_eq; [|apply dR_minus; [apply (dR_mult _ _ _ _ _ F2 G3)|apply (dR_mult _ _ _ _ _ F3 G2)]]. simpl. ring.
  - eapply dR_eq; [|apply dR_minus; [apply (dR_mult _ _ _ _ _ F3 G1)|apply (dR_mult _ _ _ _ _ F1 G3)]]. simpl. ring.
  - eapply dR_eq; [|apply dR_minus; [apply (dR_mult _ _ _ _ _ F1 G2)|apply (dR_mult _ _ _ _ _ F2 G1)]]. simpl. ring.
Qed.
Lemma derives_scale h f t dh df : is_derive h t dh -> derives f t df ->
  derives (fun x => scale3 (h x) (f x)) t (add3 (scale3 (h t) df) (scale3 dh (f t))).
Proof.
  intros H (F1 & F2 & F3). unfold derives, scale3, add3; cbn [vx vy vz]. split; [|split].
  - eapply dR_eq; [|apply (dR_mult _ _ _ _ _ H F1)]. simpl. ring.
  - eapply dR_eq; [|apply (dR_mult _ _ _ _ _ H F2)]. simpl. ring.
  - eapply dR_eq; [|apply (dR_mult _ _ _ _ _ H F3)]. simpl. ring.
Qed.
Lemma derives_add f g t df dg : derives f t df -> derives g t dg ->
  derives (fun x => add3 (f x) (g x)) t (add3 df dg).
Proof.
  intros (F1 & F2 & F3) (G1 & G2 & G3). unfold derives, add3; cbn [vx vy vz]. split; [|split]; apply dR_plus; auto.
Qed.
Lemma derives_eq f t d d' : d = d' -> derives f t d -> derives f t d'.
Proof. now intros ->. Qed.
Lemma derives_ext f g t d : (forall x, f x = g x) -> derives f t d -> derives g t d.
Proof.
  intros H (F1 & F2 & F3). split; [|split].
  - apply dR_ext with (f := fun x => vx (f x)); auto. intros; now rewrite H.
  - apply dR_ext with (f := fun x => vy (f x)); auto. intros; now rewrite H.
  - apply dR_ext with (f := fun x => vz (f x)); auto. intros; now rewrite H.
Qed.
Lemma d_dot f g t df dg : derives f t df -> derives g t dg ->
  is_derive (fun x => dot3 (f x) (g x)) t (dot3 df (g t) + dot3 (f t) dg).
Proof.
  intros (F1 & F2 & F3) (G1 & G2 & G3). unfold dot3.
  eapply dR_eq; [|apply dR_plus; [apply dR_plus; [apply (dR_mult _ _ _ _ _ F1 G1)|apply (dR_mult _ _ _ _ _ F2 G2)]|apply (dR_mult _ _ _ _ _ F3 G3)]].
  simpl. ring.
Qed.

Lemma d_inv_norm f t df : f t <> zero3 -> derives f t df ->
  is_derive (fun x => / norm3 (f x)) t (inv_norm_dash (f t) df).
Proof.
  intros H D. pose proof (dot_pos _ H) as P. pose proof (norm_pos _ H) as P'.
  apply dR_ext with (f := fun x => / sqrt (dot3 (f x) (f x))); [reflexivity|].
  eapply dR_eq; [|apply (dR_inv (fun x => sqrt (dot3 (f x) (f x)))); 
     [rewrite <- norm_dot; lra|apply (dR_sqrt (fun x => dot3 (f x) (f x))); [exact P|apply (d_dot f f t df df D D)]]].
  unfold inv_norm_dash, pow15. rewrite <- !norm_dot. rewrite (dot3_norm (f t)).
  replace (dot3 df (f t)) with (dot3 (f t) df) by (unfold dot3; ring). field. lra.
Qed.

(** Derivatives of g/|N| for a tangent field g. *)
Lemma d_over_norm N g t dN dg : N t <> zero3 -> derives N t dN -> derives g t dg ->
  derives (fun x => scale3 (/ norm3 (N x)) (g x)) t (dg_inv_n_dash_at (N t) dN (g t) dg).
Proof.
  intros H DN Dg. unfold dg_inv_n_dash_at, norm_helper. cbn [snd].
  apply (derives_scale (fun x => / norm3 (N x)) g t (inv_norm_dash (N t) dN) dg); auto.
  now apply d_inv_norm.
Qed.

Lemma nrm_phi s p t : derives (fun x => nrm s x t) p
  (normaldash_at (pt s 1 0 p t) (pt s 0 1 p t) (pt s 2 0 p t) (pt s 1 1 p t)).
Proof.
  unfold nrm, normaldash_at.
  apply (derives_cross (fun x => pt s 1 0 x t) (fun x => pt s 0 1 x t)); apply pt_phi.
Qed.
Lemma nrm_theta s p t : derives (fun x => nrm s p x) t
  (normaldash_at (pt s 1 0 p t) (pt s 0 1 p t) (pt s 1 1 p t) (pt s 0 2 p t)).
Proof.
  unfold nrm, normaldash_at.
  apply (derives_cross (fun x => pt s 1 0 p x) (fun x => pt s 0 1 p x)); apply pt_theta.
Qed.

Lemma scale_cross c u v : scale3 c (cross3 u v) = cross3 (scale3 c u) v.
Proof. unfold scale3, cross3; simpl. f_equal; ring. Qed.

Lemma geometry_derivatives s : legal s ->
  exists (T1 T2 N U : R -> R -> vec3) (D : R -> R -> vec3 * vec3 * vec3 * vec3) (UD : R -> R -> vec3 * vec3),
    reports gammadash1 s T1 /\ reports gammadash2 s T2 /\ reports normal s N /\ reports unitnormal s U /\
    reports dga_inv_n_dashb s D /\ reports unitnormaldash s UD /\
    forall p t, N p t <> zero3 ->
      (let '(u1, u2) := UD p t in
       derives (fun x => U x t) p u1 /\ derives (fun x => U p x) t u2) /\
      (let '(d11, d12, d21, d22) := D p t in
       derives (fun x => scale3 (/ norm3 (N x t)) (T1 x t)) p d11 /\
       derives (fun x => scale3 (/ norm3 (N p x)) (T1 p x)) t d12 /\
       derives (fun x => scale3 (/ norm3 (N x t)) (T2 x t)) p d21 /\
       derives (fun x => scale3 (/ norm3 (N p x)) (T2 p x)) t d22).
Proof.
  intros L.
  exists (pt s 1 0), (pt s 0 1), (nrm s), (fun p t => scale3 (/ norm3 (nrm s p t)) (nrm s p t)),
    (fun p t => dga_at (nrm s p t) (pt s 1 0 p t) (pt s 0 1 p t) (pt s 2 0 p t) (pt s 1 1 p t) (pt s 0 2 p t)),
    (fun p t => unitnormaldash_at (nrm s p t) (pt s 1 0 p t) (pt s 0 1 p t) (pt s 2 0 p t) (pt s 1 1 p t) (pt s 0 2 p t)).
  split; [now apply reports_gammadash|]. split; [now apply reports_gammadash|].
  split; [apply reports_of; intros; now apply normal_copy|].
  split; [apply reports_of; intros; now apply unitnormal_copy|].
  split; [apply reports_of; intros; now apply from_fields_copy|].
  split; [apply reports_of; intros; now apply from_fields_copy|].
  intros p t Hn.
  assert (D11 : derives (fun x => scale3 (/ norm3 (nrm s x t)) (pt s 1 0 x t)) p
     (dg_inv_n_dash_at (nrm s p t) (normaldash_at (pt s 1 0 p t) (pt s 0 1 p t) (pt s 2 0 p t) (pt s 1 1 p t)) (pt s 1 0 p t) (pt s 2 0 p t))).
  { apply (d_over_norm (fun x => nrm s x t) (fun x => pt s 1 0 x t)); [exact Hn|apply nrm_phi|apply pt_phi]. }
  assert (D12 : derives (fun x => scale3 (/ norm3 (nrm s p x)) (pt s 1 0 p x)) t
     (dg_inv_n_dash_at (nrm s p t) (normaldash_at (pt s 1 0 p t) (pt s 0 1 p t) (pt s 1 1 p t) (pt s 0 2 p t)) (pt s 1 0 p t) (pt s 1 1 p t))).
  { apply (d_over_norm (fun x => nrm s p x) (fun x => pt s 1 0 p x)); [exact Hn|apply nrm_theta|apply pt_theta]. }
  split.
  - unfold unitnormaldash_at, dga_at, norm_helper. cbn [snd]. split.
    + apply derives_ext with (f := fun x => cross3 (scale3 (/ norm3 (nrm s x t)) (pt s 1 0 x t)) (pt s 0 1 x t)).
      { intros. unfold nrm at 3. now rewrite scale_cross. }
      apply (derives_cross (fun x => scale3 (/ norm3 (nrm s x t)) (pt s 1 0 x t)) (fun x => pt s 0 1 x t)); auto. apply pt_phi.
    + apply derives_ext with (f := fun x => cross3 (scale3 (/ norm3 (nrm s p x)) (pt s 1 0 p x)) (pt s 0 1 p x)).
      { intros. unfold nrm at 3. now rewrite scale_cross. }
      apply (derives_cross (fun x => scale3 (/ norm3 (nrm s p x)) (pt s 1 0 p x)) (fun x => pt s 0 1 p x)); auto. apply pt_theta.
  - unfold dga_at. split; auto. split; auto. split.
    + apply (d_over_norm (fun x => nrm s x t) (fun x => pt s 0 1 x t)); [exact Hn|apply nrm_phi|apply pt_phi].
    + apply (d_over_norm (fun x => nrm s p x) (fun x => pt s 0 1 p x)); [exact Hn|apply nrm_theta|apply pt_theta].
Qed.

(** ** Integrals over one period and over the torus *)
Lemma rotz_cross a u v : cross3 (rotz a u) (rotz a v) = rotz a (cross3 u v).
Proof.
  unfold cross3, rotz; cbn [vx vy vz]. f_equal; try ring.
  pose proof (sin2_cos2 a) as H. unfold Rsqr in H.
  transitivity ((sin a * sin a + cos a * cos a) * (vx u * vy v - vy u * vx v)); [ring|rewrite H; ring].
Qed.
Lemma rotz_norm a u : norm3 (rotz a u) = norm3 u.
Proof.
  unfold norm3, rotz; cbn [vx vy vz]. f_equal.
  pose proof (sin2_cos2 a) as H. unfold Rsqr in H.
  transitivity ((sin a * sin a + cos a * cos a) * (vx u * vx u + vy u * vy u) + vz u * vz u); [ring|rewrite H; ring].
Qed.

Lemma nrm_shift s p t : (s_nfp s <> 0)%nat -> norm3 (nrm s (p + / INR (s_nfp s)) t) = norm3 (nrm s p t).
Proof.
  intros Hn. unfold nrm. rewrite !pt_shift by (intros; eexists; now apply phase_shift_nfp).
  now rewrite rotz_cross, rotz_norm.
Qed.

Lemma gsum_sample F ps ts : gsum (sample F ps ts) = Rsum (map (fun p => Rsum (map (F p) ts)) ps).
Proof.
  unfold gsum, sample. induction ps; simpl; auto.
  change (fold_right Rplus 0 (map (fun t => F a t) ts ++ concat (map (fun p => map (fun t => F p t) ts) ps)))
    with (Rsum (map (fun t => F a t) ts ++ concat (map (fun p => map (fun t => F p t) ts) ps))).
  rewrite Rsum_app. unfold Rsum at 1 3. simpl. f_equal. apply IHps.
Qed.

Lemma period_sum (g : R -> R) x0 h n T k : INR n * h = T -> (forall x, g (x + T) = g x) ->
  Rsum (map g (equispaced x0 h (k * n))) = INR k * Rsum (map g (equispaced x0 h n)).
Proof.
  intros HT Hg. unfold equispaced. rewrite !map_map.
  assert (Hk : forall j x, g (x + INR j * T) = g x).
  { induction j; intros; [simpl; f_equal; ring|]. rewrite S_INR.
    replace (x + (INR j + 1) * T) with ((x + INR j * T) + T) by ring. now rewrite Hg. }
  induction k; [simpl; unfold Rsum; simpl; ring|].
  replace (S k * n)%nat with (k * n + n)%nat by lia. rewrite seq_app, map_app, Rsum_app, IHk, S_INR.
  assert (E : Rsum (map (fun x => g (x0 + INR x * h)) (seq (0 + k * n) n)) = Rsum (map (fun x => g (x0 + INR x * h)) (seq 0 n))).
  { rewrite <- (Nat.add_0_r (0 + k * n)). 
    assert (Hs : forall len a b, seq (a + b) len = map (fun i => (a + i)%nat) (seq b len)).
    { induction len; intros; simpl; auto. f_equal. rewrite <- IHlen. f_equal. lia. }
    rewrite Hs, map_map. apply Rsum_ext. intros i _. rewrite plus_INR. rewrite Nat.add_0_l, mult_INR.
    rewrite <- (Hk k (x0 + INR i * h)). f_equal. rewrite <- HT. ring. }
  rewrite E. ring.
Qed.

Lemma equi_nth x0 h n i : (i < n)%nat -> nth i (equispaced x0 h n) 0 = x0 + INR i * h.
Proof.
  intros H. unfold equispaced. rewrite nth_indep with (d' := x0 + INR 0 * h) by (rewrite map_length, seq_length; auto).
  rewrite map_nth with (f := fun i => x0 + INR i * h). now rewrite seq_nth.
Qed.

Lemma equi_dphi s x0 h n ts s' : (2 <= n)%nat -> resampled s (equispaced x0 h n) ts s' -> s_dphi s' = h.
Proof.
  intros Hn C. apply copy_fields in C as (_ & _ & _ & _ & _ & _ & _ & _ & _ & E & _). rewrite E.
  assert (Hl : length (equispaced x0 h n) = n) by (unfold equispaced; now rewrite map_length, seq_length).
  rewrite Hl. replace (Nat.min 1 (n - 1)) with 1%nat by lia. rewrite !equi_nth by lia. simpl. ring.
Qed.

Lemma gshape_sample {A B} (F : R -> R -> A) (G : R -> R -> B) ps ts : gshape (sample F ps ts) = gshape (sample G ps ts).
Proof. unfold gshape, sample. rewrite !map_map. apply map_ext. intros. now rewrite !map_length. Qed.

Lemma integrate_copy s ps ts s' F : legal s -> resampled s ps ts s' ->
  integrate s' (sample F ps ts) = Ok (Rsum (map (fun p => Rsum (map (fun t => F p t * (s_dphi s' * s_dtheta s' * norm3 (nrm s p t))) ts)) ps)).
Proof.
  intros L C. unfold integrate. rewrite (da_copy s ps ts s') by auto. cbn [bind].
  destruct (list_eq_dec _ _ _) as [_|n]; [|exfalso; apply n; apply gshape_sample].
  rewrite gmap2_sample, gsum_sample. reflexivity.
Qed.
Lemma area_copy s ps ts s' : legal s -> resampled s ps ts s' ->
  area s' = Ok (Rsum (map (fun p => Rsum (map (fun t => s_dphi s' * s_dtheta s' * norm3 (nrm s p t)) ts)) ps)).
Proof.
  intros L C. unfold area. rewrite (da_copy s ps ts s') by auto. cbn [bind]. now rewrite gsum_sample.
Qed.

Lemma one_period s x0 n ts (F : R -> R -> R) one full :
  legal s -> (s_nfp s <> 0)%nat -> (2 <= n)%nat ->
  (forall p t, F (p + / INR (s_nfp s)) t = F p t) ->
  let h := / (INR (s_nfp s) * INR n) in
  let ps1 := equispaced x0 h n in let psf := equispaced x0 h (s_nfp s * n) in
  copy_and_set_quadpoints s (arr1 ps1) (arr1 ts) = Ok one ->
  copy_and_set_quadpoints s (arr1 psf) (arr1 ts) = Ok full ->
  (exists A, area one = Ok A /\ area full = Ok (INR (s_nfp s) * A)) /\
  (exists V, integrate one (sample F ps1 ts) = Ok V /\ integrate full (sample F psf ts) = Ok (INR (s_nfp s) * V)).
Proof.
  intros L Hf Hn HF h ps1 psf C1 C2.
  assert (Hfn : INR (s_nfp s) <> 0) by now apply not_0_INR.
  assert (Hnn : INR n <> 0) by (apply not_0_INR; lia).
  assert (HT : INR n * h = / INR (s_nfp s)) by (unfold h; field; auto).
  assert (D1 : s_dphi one = h) by (apply (equi_dphi s x0 h n ts one); auto).
  assert (D2 : s_dphi full = h) by (apply (equi_dphi s x0 h (s_nfp s * n) ts full); [nia|exact C2]).
  assert (T12 : s_dtheta full = s_dtheta one).
  { apply copy_fields in C1 as (_ & _ & _ & _ & _ & _ & _ & _ & _ & _ & E1).
    apply copy_fields in C2 as (_ & _ & _ & _ & _ & _ & _ & _ & _ & _ & E2). congruence. }
  split.
  - eexists. split; [apply (area_copy s ps1 ts one); auto|]. rewrite (area_copy s psf ts full) by auto. f_equal.
    rewrite D1, D2, T12.
    apply (period_sum (fun p => Rsum (map (fun t => h * s_dtheta one * norm3 (nrm s p t)) ts)) x0 h n (/ INR (s_nfp s))); auto.
    intros x. apply Rsum_ext. intros. now rewrite nrm_shift.
  - eexists. split; [apply (integrate_copy s ps1 ts one); auto|]. rewrite (integrate_copy s psf ts full) by auto. f_equal.
    rewrite D1, D2, T12.
    apply (period_sum (fun p => Rsum (map (fun t => F p t * (h * s_dtheta one * norm3 (nrm s p t))) ts)) x0 h n (/ INR (s_nfp s))); auto.
    intros x. apply Rsum_ext. intros. now rewrite nrm_shift, HF.
Qed.

(** ** Flattening *)
Lemma surf_roundtrip nfp st mpol ntor p t d s :
  make_surface nfp st mpol ntor p t d = Ok s ->
  let '(c, x) := surf_flatten s in surf_unflatten x c = Ok s.
Proof.
  unfold make_surface. destruct (is_ndarray p) eqn:E1; [|discriminate]. destruct (is_ndarray t) eqn:E2; [|discriminate].
  destruct (is_ndarray d) eqn:E3; [|discriminate]. cbn [negb].
  destruct (elements p) as [|p0 ps] eqn:Ep; [discriminate|]. cbn [getclamp bind].
  destruct (elements t) as [|t0 ts] eqn:Et; [discriminate|]. cbn [getclamp bind].
  intros E. injection E as <-. unfold surf_flatten, surf_unflatten, child. 
  cbn [nth_error leaf_obj bind s_qphi s_qtheta s_dofs a_nfp a_stellsym a_mpol a_ntor s_nfp s_stellsym s_mpol s_ntor].
  unfold make_surface. cbn [arr1 is_ndarray ndim sh length Nat.eqb negb elements el getclamp bind]. reflexivity.
Qed.

(** ** DESC tables *)
Lemma desc_sym s rc zs : s_stellsym s = true -> s_dofs s = rc ++ zs -> zs <> [] -> length rc = S (length zs) ->
  let t := to_desc_tables s in
  t_rc t = rc /\ t_zs t = 0 :: zs /\ t_rs t = map (fun _ => 0) rc /\ t_zc t = map (fun _ => 0) rc /\
  from_desc_dofs (s_stellsym s) t = s_dofs s.
Proof.
  intros E D Hz Hl. cbv zeta. unfold to_desc_tables. rewrite E, D, app_length, Hl.
  replace ((S (length zs) + length zs) / 2)%nat with (length zs).
  2:{ apply Nat.div_unique with (r := 1%nat); lia. }
  cbn [t_rc t_rs t_zc t_zs]. 
  assert (S1 : slice_to_neg (length zs) (rc ++ zs) = rc).
  { unfold slice_to_neg. destruct zs; [contradiction|]. cbn [length]. rewrite app_length. cbn [length].
    replace (length rc + S (length zs) - S (length zs))%nat with (length rc) by lia.
    now rewrite firstn_app, Nat.sub_diag, firstn_all, firstn_O, app_nil_r. }
  assert (S2 : slice_from_neg (length zs) (rc ++ zs) = zs).
  { unfold slice_from_neg. destruct zs; [contradiction|]. cbn [length]. rewrite app_length. cbn [length].
    replace (length rc + S (length zs) - S (length zs))%nat with (length rc) by lia.
    now rewrite skipn_app, Nat.sub_diag, skipn_all. }
  rewrite S1, S2. repeat split.
Qed.

(** The wrong slice point: for every general surface, the table rc has the
    wrong length. *)
Lemma desc_gen_rc s : legal s -> s_stellsym s = false -> t_rc (to_desc_tables s) = [].
Proof.
  intros L E. unfold to_desc_tables. rewrite E. cbn [t_rc].
  unfold slice_to_neg. destruct (length (s_dofs s) / 2 / 2)%nat eqn:K; auto.
  rewrite firstn_length. 
  assert (length (s_dofs s) / 2 / 2 <= length (s_dofs s))%nat.
  { apply Nat.le_trans with (length (s_dofs s) / 2)%nat; apply Nat.div_le_upper_bound; lia. }
  replace (Nat.min (S n) (length (s_dofs s)) - S n)%nat with 0%nat by lia. apply firstn_O.
Qed.
