(** How far the coils are bounds their field, for C141. *)
From Coq Require Import String List Bool Arith ZArith Reals Lra Lia Psatz.
From Verif Require Import Base ModelArray ModelMath SpecMath ModelSurface SpecSurface ProofSurface ProofSurface2 ProofSurface3
  ModelParams ModelField SpecField ProofField ProofField2 ProofField3 ProofField4 ProofSimsopt ProofTrig
  ModelQuantity SpecQuantity ModelWrapper SpecWrapper ModelShipped ModelPackage SpecPackage ProofPackage ProofPackage4 SpecConvex ProofConvex
  ProofPeriods ProofUnique2 SpecFloor ProofFloor PropFloor.
Import ListNotations.
Open Scope R_scope.
Open Scope string_scope.
Open Scope list_scope.

Lemma dot_le u v : Rabs (dot3 u v) <= norm3 u * norm3 v.
Proof.
  pose proof (norm3_nonneg u) as Pu. pose proof (norm3_nonneg v) as Pv. pose proof (lagrange u v) as E. rewrite (dot3_norm u), (dot3_norm v) in E.
  assert (0 <= dot3 (cross3 u v) (cross3 u v)) by (rewrite dot3_norm; apply Rle_0_sqr). apply Rsqr_incr_0_var; [|nra]. rewrite <- Rsqr_abs. unfold Rsqr. nra.
Qed.
Lemma cross_le u v : norm3 (cross3 u v) <= norm3 u * norm3 v.
Proof.
  pose proof (norm3_nonneg u) as Pu. pose proof (norm3_nonneg v) as Pv. pose proof (lagrange u v) as E. rewrite (dot3_norm u), (dot3_norm v), (dot3_norm (cross3 u v)) in E.
  pose proof (Rle_0_sqr (dot3 u v)) as P. apply Rsqr_incr_0_var; [|nra]. unfold Rsqr in *. nra.
Qed.
Lemma norm_add u v : norm3 (add3 u v) <= norm3 u + norm3 v.
Proof.
  pose proof (norm3_nonneg u) as Pu. pose proof (norm3_nonneg v) as Pv. pose proof (dot_le u v) as D. pose proof (Rle_abs (dot3 u v)) as A.
  apply Rsqr_incr_0_var; [|lra]. unfold Rsqr. rewrite <- dot3_norm. replace (dot3 (add3 u v) (add3 u v)) with (dot3 u u + dot3 v v + 2 * dot3 u v) by (unfold dot3, add3; simpl; ring).
  rewrite (dot3_norm u), (dot3_norm v). nra.
Qed.
Lemma norm_scale a u : norm3 (scale3 a u) = Rabs a * norm3 u.
Proof.
  assert (E : norm3 (scale3 a u) * norm3 (scale3 a u) = (Rabs a * norm3 u) * (Rabs a * norm3 u)).
  { rewrite <- dot3_norm. replace (Rabs a * norm3 u * (Rabs a * norm3 u)) with (Rsqr (Rabs a) * (norm3 u * norm3 u)) by (unfold Rsqr; ring). rewrite <- Rsqr_abs, <- dot3_norm. unfold Rsqr, dot3, scale3. simpl. ring. }
  apply Rsqr_inj; [apply norm3_nonneg| |exact E]. apply Rmult_le_pos; [apply Rabs_pos|apply norm3_nonneg].
Qed.
Lemma norm_zero : norm3 zero3 = 0.
Proof. unfold norm3, zero3. simpl. replace (0 * 0 + 0 * 0 + 0 * 0) with 0 by ring. apply sqrt_0. Qed.
Lemma norm_sum {A} (f : A -> vec3) l : norm3 (sum3 (map f l)) <= Rsum (map (fun a => norm3 (f a)) l).
Proof.
  induction l as [|a l IH]; cbn [map sum3 fold_right]; [rewrite norm_zero; unfold Rsum; cbn; lra|]. rewrite Rsum_cons. pose proof (norm_add (f a) (sum3 (map f l))). unfold sum3 in *. lra.
Qed.
Lemma contribution_le P W n k d : 0 < d -> d <= norm3 (sub3 P W) -> norm3 (contribution P W n k) <= norm3 n * norm3 k / (d * d).
Proof.
  intros Pd H. unfold contribution. set (r := sub3 P W) in *. change (sqrt (dot3 n n)) with (norm3 n). change (sqrt (dot3 r r)) with (norm3 r). set (y := norm3 r) in *.
  pose proof (norm3_nonneg n) as Pn. pose proof (norm3_nonneg k) as Pk. assert (Py : 0 < y) by lra. assert (Pi : 0 < / y) by (now apply Rinv_0_lt_compat).
  rewrite !norm_scale. rewrite (Rabs_pos_eq (norm3 n)) by exact Pn. replace (1 / y) with (/ y) by (field; lra). rewrite Rabs_pos_eq by (apply Rlt_le; repeat apply Rmult_lt_0_compat; exact Pi).
  pose proof (cross_le k r) as C. fold y in C. unfold Rdiv. rewrite (Rmult_assoc (norm3 n) (norm3 k)). apply Rmult_le_compat_l; [exact Pn|].
  apply Rle_trans with (/ y * / y * / y * (norm3 k * y)).
  - apply Rmult_le_compat_l; [apply Rlt_le; repeat apply Rmult_lt_0_compat; exact Pi|exact C].
  - replace (/ y * / y * / y * (norm3 k * y)) with (norm3 k * / (y * y)) by (field; lra). apply Rmult_le_compat_l; [exact Pk|]. apply Rinv_le_contravar; nra.
Qed.

Section Far.
  Variables (other : list string) (q : params) (x : list R) (x0 t0 : R) (n m : nat).
  Hypothesis S : sound q x.
  Hypothesis N2 : (2 <= n)%nat.
  Hypothesis M2 : (2 <= m)%nat.
  Hypothesis E1 : q_qphi q = equispaced x0 (/ (INR (q_nfp q) * INR n)) n.
  Hypothesis E2 : s_qphi (q_winding q) = equispaced x0 (/ (INR (q_nfp q) * INR n)) (q_nfp q * n).
  Hypothesis E3 : q_qtheta q = equispaced t0 (/ INR m) m.
  Hypothesis E4 : s_qtheta (q_winding q) = q_qtheta q.
  Let dens p t := norm3 (wn q p t) * norm3 (kval q x p t).
  Lemma huber_total r : reads other "f_huber_K" q x (scal r) ->
    r * (INR (q_nfp q * n) * INR m) = Rsum (map (fun a => dens (fst a) (snd a)) (pairs (s_qphi (q_winding q)) (s_qtheta (q_winding q)))).
  Proof using S E1 E2 E3 E4 N2 M2.
    intros Rr. pose proof S as (Md & Lw & _). destruct (made_facts q Md) as (Nf & _ & _ & _ & C & _).
    destruct (integral_value other q x S "f_huber_K" "K2" (q_eval q) sqrt ltac:(cbn; tauto)) as (r' & v & d & Rr' & Rv & D & Q).
    pose proof (reads_fun _ _ _ _ _ _ Rr Rr') as X. injection X as <-. pose proof (reads_fun _ _ _ _ _ _ Rv (reads_K2 other q x S)) as ->.
    rewrite (da_copy _ _ _ _ Lw C) in D. injection D as <-. unfold of_grid in Q. cbn [el] in Q. rewrite sum_grid in Q.
    assert (D1 : s_dphi (q_eval q) = / (INR (q_nfp q) * INR n)) by (rewrite E1 in C; exact (equi_dphi _ _ _ _ _ _ N2 C)).
    assert (D2 : s_dtheta (q_eval q) = / INR m) by (rewrite E3 in C; exact (equi_dtheta _ _ _ _ _ _ M2 C)).
    assert (Pf : 0 < INR (q_nfp q)) by (apply lt_0_INR; unfold q_nfp; lia). assert (PN : 0 < INR n) by (apply lt_0_INR; lia). assert (PM : 0 < INR m) by (apply lt_0_INR; lia).
    rewrite (sum_pairs dens), E4, E2. rewrite (period_sum (fun p => Rsum (map (dens p) (q_qtheta q))) x0 _ n (/ INR (q_nfp q))).
    2: { field. lra. }
    2: { intros p. apply Rsum_map_ext. intros t _. unfold dens, wn. fold (q_nfp q) in Nf. rewrite kval_shift, rotz_norm by exact Nf. f_equal. exact (nrm_shift (q_winding q) p t Nf). }
    rewrite <- E1, Q, D1, D2. rewrite (Rsum_map_ext _ (fun p => / (INR (q_nfp q) * INR n * INR m) * Rsum (map (dens p) (q_qtheta q)))).
    - rewrite Rsum_map_scal, mult_INR. field. lra.
    - intros p _. rewrite <- Rsum_map_scal. apply Rsum_map_ext. intros t _. unfold dens. change (sqrt (dot3 (kval q x p t) (kval q x p t))) with (norm3 (kval q x p t)). change (nrm (q_winding q) p t) with (wn q p t). field. lra.
  Qed.
  Lemma field_le r P d : reads other "f_huber_K" q x (scal r) -> 0 < d ->
    (forall p t, In p (s_qphi (q_winding q)) -> In t (s_qtheta (q_winding q)) -> d <= norm3 (sub3 P (pt (q_winding q) 0 0 p t))) ->
    norm3 (bval q x P) <= fak * r / (d * d).
  Proof using S E1 E2 E3 E4 N2 M2.
    intros Rr Pd H. pose proof S as (Md & _). destruct (made_facts q Md) as (Nf & _). fold (q_nfp q) in Nf.
    assert (Pf : 0 < INR (q_nfp q)) by (apply lt_0_INR; lia). assert (PN : 0 < INR n) by (apply lt_0_INR; lia). assert (PM : 0 < INR m) by (apply lt_0_INR; lia).
    unfold bval. rewrite !norm_scale. replace (length (s_qtheta (q_winding q))) with m by (now rewrite E4, E3, length_equi). replace (length (s_qphi (q_winding q))) with (q_nfp q * n)%nat by (now rewrite E2, length_equi).
    set (k := INR (q_nfp q * n)). assert (Pk : 0 < k) by (unfold k; rewrite mult_INR; nra). assert (Fk : 0 < fak) by (unfold fak; lra).
    rewrite !Rabs_pos_eq by (first [lra|apply Rlt_le, Rinv_0_lt_compat; assumption]).
    assert (W : norm3 (wsum q x P) <= / (d * d) * (r * (k * INR m))).
    { unfold k. rewrite (huber_total r Rr). eapply Rle_trans; [apply norm_sum|]. rewrite <- Rsum_map_scal. apply Rsum_le. intros [p t] I. apply pairs_in in I as (Ip & It). cbn [fst snd].
      pose proof (contribution_le P (pt (q_winding q) 0 0 p t) (wn q p t) (kval q x p t) d Pd (H p t Ip It)). unfold dens. unfold Rdiv in H0. lra. }
    replace (fak * r / (d * d)) with (/ INR m * (/ k * (fak * (/ (d * d) * (r * (k * INR m)))))) by (field; lra).
    apply Rmult_le_compat_l; [apply Rlt_le, Rinv_0_lt_compat; lra|]. apply Rmult_le_compat_l; [apply Rlt_le, Rinv_0_lt_compat; lra|]. apply Rmult_le_compat_l; [lra|exact W].
  Qed.
End Far.
Lemma unit_le s p t : norm3 (unit_at s p t) <= 1.
Proof.
  unfold unit_at. rewrite norm_scale. pose proof (norm3_nonneg (nrm s p t)) as P. destruct (Rle_lt_or_eq_dec _ _ P) as [Q|<-]; [|lra].
  rewrite Rabs_pos_eq by (apply Rlt_le, Rinv_0_lt_compat; exact Q). rewrite Rinv_l by lra. lra.
Qed.
