(** Property C136: the flux of the coil field through the plasma surface. *)
From Coq Require Import String List Bool Arith ZArith Reals Lra Lia FunctionalExtensionality.
From Coquelicot Require Import Coquelicot.
From Verif Require Import Base ModelArray ModelMath SpecMath ModelSurface SpecSurface ProofSurface ProofSurface2 ProofSurface3 ModelParams ModelField SpecField ProofField ProofField2 ProofField3 ProofField4 ProofField6
  ModelQuantity ModelWrapper ModelPackage SpecPackage ProofPackage4 ProofUnique2 ProofPeriods WitnessField SpecQuad ProofQuad ProofQuad2 ProofQuad3 ProofQuad4 PropQuad ProofFlux.
Import ListNotations.
Open Scope R_scope.
Open Scope string_scope.
Open Scope list_scope.

Lemma flux_setting q x P nf Bc : sound q x -> reports gamma (q_plasma q) P -> reports normal (q_plasma q) nf ->
  (forall gw w p t, gamma (q_winding q) = Ok gw -> In w (concat gw) -> P p t <> w) -> preports (fun q => Bnormal q x) q Bc ->
  nf = nrm (q_plasma q) /\ Bc = bnval q x /\
  forall p t p' t', In p' (s_qphi (q_winding q)) -> In t' (s_qtheta (q_winding q)) -> pt (q_plasma q) 0 0 p t <> pt (q_winding q) 0 0 p' t'.
Proof.
  intros S HP Hn Off HB. pose proof S as (M & Lw & Lp & _ & L). split; [exact (reports_nrm _ _ Lp Hn)|]. rewrite (reports_gamma _ _ Lp HP) in *. split.
  - extensionality p. extensionality t. destruct (HB [p] [t] ltac:(discriminate) ltac:(discriminate)) as (q1 & E1 & V1). destruct (Bn_reports q x M Lw Lp L [p] [t] ltac:(discriminate) ltac:(discriminate)) as (q2 & E2 & V2).
    rewrite E1 in E2. injection E2 as ->. rewrite V1 in V2. cbn in V2. now injection V2.
  - intros p t p' t' I1 I2. destruct (made_facts q M) as (_ & _ & _ & _ & _ & Cw & _). apply (Off _ _ p t (gammadash_copy _ _ _ _ 0 0 Lw Cw)). rewrite concat_sample. apply in_map_iff. exists (p', t'). split; [reflexivity|].
    apply in_flat_map. exists p'. split; [exact I1|]. now apply in_map.
Qed.

(** ** C136 *)
Theorem C136_no_net_flux :
  forall q x P nf Bc p0 t0, sound q x -> reports gamma (q_plasma q) P -> reports normal (q_plasma q) nf -> (forall p t, nf p t <> zero3) ->
  (forall gw w p t, gamma (q_winding q) = Ok gw -> In w (concat gw) -> P p t <> w) ->
  preports (fun q => Bnormal q x) q Bc ->
  integral (fun p t => Bc p t * norm3 (nf p t)) p0 1 t0 = 0.
Proof.
  intros q x P nf Bc p0 t0 S HP Hn Nz Off HB. destruct (flux_setting q x P nf Bc S HP Hn Off HB) as (-> & -> & Off'). now apply flux_turn.
Qed.
Print Assumptions C136_no_net_flux.

Theorem C136_grid_flux_vanishes :
  forall q x P nf p0 t0 e, sound q x -> reports gamma (q_plasma q) P -> reports normal (q_plasma q) nf -> (forall p t, nf p t <> zero3) ->
  (forall gw w p t, gamma (q_winding q) = Ok gw -> In w (concat gw) -> P p t <> w) -> 0 < e ->
  exists N0, forall n m, (N0 <= n)%nat -> (N0 <= m)%nat ->
  exists q' g d, on_plasma q (one_turn p0 n) (one_turn t0 m) = Ok q' /\ Bnormal q' x = Ok g /\ da (q_plasma q') = Ok d /\
    Rabs (Rsum (map2 Rmult (concat d) (concat g))) <= e.
Proof.
  intros q x P nf p0 t0 e S HP Hn Nz Off Pe. pose proof S as (M & Lw & Lp & _ & L).
  destruct (flux_setting q x P nf (bnval q x) S HP Hn Off ltac:(now apply Bn_reports)) as (-> & _ & Off').
  set (G := fun p t => bnval q x p t * norm3 (nrm (q_plasma q) p t)).
  assert (CG : cont2 G) by (apply cont2_mult; [now apply cont2_bnval|apply cont3_norm, cont3_nrm]).
  destruct (grids_converge G p0 1 t0 1 ltac:(lra) ltac:(lra) CG e Pe) as (N0 & H0). exists (Nat.max N0 2). intros n m Hn' Hm.
  destruct (Bn_reports q x M Lw Lp L (one_turn p0 n) (one_turn t0 m)) as (q' & E & V); [apply equi_ne; lia|apply equi_ne; lia|].
  destruct (on_plasma_fields q _ _ q' M E) as (_ & C & _). exists q'. eexists. eexists. split; [exact E|]. split; [exact V|]. split; [exact (da_copy _ _ _ _ Lp C)|].
  unfold one_turn in C |- *. rewrite (equi_dphi _ _ _ n _ _ ltac:(lia) C), (equi_dtheta _ _ _ m _ _ ltac:(lia) C).
  pose proof (sum_grid (fun p t => / INR n * / INR m * norm3 (nrm (q_plasma q) p t)) (bnval q x) (fun y => y)) as Sg. rewrite Sg. clear Sg.
  specialize (H0 n m ltac:(lia) ltac:(lia) ltac:(lia) ltac:(lia)). unfold Rdiv in H0. rewrite !Rmult_1_l in H0. change (double G p0 1 t0 1) with (double (fun p t => bnval q x p t * norm3 (nrm (q_plasma q) p t)) p0 1 t0 1) in H0. rewrite (flux_turn q x Nz Off' p0 t0), Rminus_0_r in H0.
  eapply Rle_trans; [|exact H0]. right. f_equal. unfold dsum. rewrite <- lsum_mult. unfold lsum. f_equal. apply map_ext. intros p.
  change (lsum (fun t => / INR n * / INR m * norm3 (nrm (q_plasma q) p t) * bnval q x p t) (equispaced t0 (/ INR m) m) = / INR n * / INR m * lsum (G p) (equispaced t0 (/ INR m) m)).
  rewrite <- lsum_mult. unfold lsum, G. f_equal. apply map_ext. intros t. ring.
Qed.
Print Assumptions C136_grid_flux_vanishes.

(** No design brings the field error below the part of the required field that
    carries a net flux. *)
Theorem C136_error_floor :
  forall other q x P nf Bp p0 t0 w0 k e, sound q x -> reports gamma (q_plasma q) P -> reports normal (q_plasma q) nf -> (forall p t, nf p t <> zero3) ->
  (forall gw w p t, gamma (q_winding q) = Ok gw -> In w (concat gw) -> P p t <> w) ->
  s_nfp (q_plasma q) = s_nfp (q_winding q) -> (k <> 0)%nat -> s_qphi (q_winding q) = equispaced w0 (/ (INR (q_nfp q) * INR k)) (q_nfp q * k) ->
  continuous_field Bp -> (forall p t, Bp (p + / INR (q_nfp q)) t = Bp p t) -> 0 < e ->
  let net := integral (fun p t => Bp p t * norm3 (nf p t)) p0 1 t0 in let area := integral (fun p t => norm3 (nf p t)) p0 1 t0 in
  0 < area /\
  exists N0, forall n m, (N0 <= n)%nat -> (N0 <= m)%nat ->
  exists q' r, on_plasma_field q Bp (one_period (q_nfp q) p0 n) (one_turn t0 m) = Ok q' /\ reads other "f_B" q' x (scal r) /\
    net * net / (2 * area) - e <= r.
Proof.
  intros other q x P nf Bp p0 t0 w0 k e S HP Hn Nz Off En Hk Ew CB PB Pe net area. pose proof S as (M & Lw & Lp & _ & L). destruct (made_facts q M) as (Nf & _).
  destruct (flux_setting q x P nf (bnval q x) S HP Hn Off ltac:(now apply Bn_reports)) as (Enf & _ & Off'). subst nf.
  set (w := fun p t => norm3 (nrm (q_plasma q) p t)) in *. set (B := fun p t => bnval q x p t + Bp p t).
  assert (Cw : cont2 w) by apply cont3_norm, cont3_nrm. assert (Cb : cont2 (bnval q x)) by now apply cont2_bnval. assert (CBt : cont2 B) by now apply cont2_plus.
  assert (Pw : forall p t, 0 < w p t) by (intros; apply norm_pos, Nz).
  split; [exact (double_pos w p0 1 t0 1 Rlt_0_1 Rlt_0_1 Cw Pw)|].
  destruct (error_refined other q x Bp p0 t0 S CB Nz Off' e Pe) as (N0 & H0). exists N0. intros n m Hn' Hm. destruct (H0 n m Hn' Hm) as (q' & r & E & Rr & Hr). exists q', r. split; [exact E|]. split; [exact Rr|].
  assert (T : INR (q_nfp q) * integral (fun p t => B p t * B p t / 2 * w p t) p0 (/ INR (q_nfp q)) t0 = double (fun p t => B p t * B p t / 2 * w p t) p0 1 t0 1).
  { symmetry. apply double_periods; [lra|exact Nf| |].
    - unfold Rdiv. repeat first [assumption|apply cont2_mult|apply cont2_const].
    - intros p t. unfold B, w. rewrite PB, (bnval_periodic q x w0 k) by auto. f_equal. unfold q_nfp. rewrite <- En. apply nrm_shift. congruence. }
  pose proof (mean_square B w p0 1 t0 1 Rlt_0_1 Rlt_0_1 CBt Cw Pw) as Q. rewrite <- T in Q.
  assert (N : double (fun p t => B p t * w p t) p0 1 t0 1 = net).
  { rewrite (double_ext _ (fun p t => bnval q x p t * w p t + Bp p t * w p t)) by (intros; unfold B; ring).
    rewrite double_plus; [|lra|now apply cont2_mult|now apply cont2_mult]. unfold w at 1. rewrite (flux_turn q x Nz Off' p0 t0). rewrite Rplus_0_l. reflexivity. }
  rewrite N in Q. change (double w p0 1 t0 1) with area in Q. unfold B, w in Q. revert Hr. unfold Rabs. destruct (Rcase_abs _); intros Hr; lra.
Qed.
Print Assumptions C136_error_floor.

(** Two circular tori, and a required field with a net flux. *)
Example C136_example : let x := [1; 2; 3; 4] in let q := tori in
  sound q x /\ (exists P nf, reports gamma (q_plasma q) P /\ reports normal (q_plasma q) nf /\ (forall p t, nf p t <> zero3) /\
     forall gw w p t, gamma (q_winding q) = Ok gw -> In w (concat gw) -> P p t <> w) /\
  (exists Bc, preports (fun q => Bnormal q x) q Bc) /\
  s_nfp (q_plasma q) = s_nfp (q_winding q) /\ s_qphi (q_winding q) = equispaced 0 (/ (INR (q_nfp q) * INR 1)) (q_nfp q * 1) /\
  continuous_field (fun _ _ => 1) /\
  exists nf, reports normal (q_plasma q) nf /\ 0 < integral (fun p t => 1 * norm3 (nf p t)) 0 1 0.
Proof.
  intros x q. destruct C128_example as (S & _ & _ & _ & (P & nf & H1 & H2 & H3 & H4) & HB & _). fold x in S, HB.
  split; [exact S|]. split; [exists P, nf; auto|]. split; [exact HB|]. split; [reflexivity|]. split; [reflexivity|]. split; [apply cont2_const|].
  exists nf. split; [exact H2|]. pose proof S as (_ & _ & Lp & _). rewrite (reports_nrm _ _ Lp H2) in *.
  apply (double_pos (fun p t => 1 * norm3 (nrm (q_plasma tori) p t))); [lra|lra|apply cont2_mult; [apply cont2_const|apply cont3_norm, cont3_nrm]|].
  intros p t. rewrite Rmult_1_l. apply norm_pos, H3.
Qed.
