(** Properties C128 and C129: what the figures and fields on refined grids converge to. *)
From Coq Require Import String List Bool Arith ZArith Reals Lra Lia FunctionalExtensionality.
From Coquelicot Require Import Coquelicot.
From Verif Require Import Base ModelArray ModelMath SpecMath ModelSurface SpecSurface ProofSurface ProofSurface2 ModelParams ModelField SpecField ProofField ProofField2 ProofField3 ProofField4 ProofField6
  ModelQuantity ModelWrapper ModelPackage SpecPackage ProofPackage4 WitnessField SpecQuad ProofQuad ProofQuad2 ProofQuad3 ProofQuad4.
Import ListNotations.
Open Scope R_scope.
Open Scope string_scope.
Open Scope list_scope.

Lemma reports_nrm s nf : legal s -> reports normal s nf -> nf = nrm s.
Proof.
  intros L H. extensionality p. extensionality t. apply (reports_unique normal s nf (nrm s) H). apply reports_of. intros. now apply normal_copy.
Qed.
Lemma reports_gamma s W : legal s -> reports gamma s W -> W = pt s 0 0.
Proof. intros L H. extensionality p. extensionality t. exact (reports_pt s 0 0 W H p t). Qed.

(** ** C128 *)
Theorem C128_integrals_converge :
  forall other q x nf F name fld h p0 t0 e, sound q x -> reports normal (q_winding q) nf -> (forall p t, nf p t <> zero3) ->
  In (name, fld, h) [("f_K", "K2", fun y => y / 2); ("f_Phi", "Phi", fun y => y * y / 2); ("f_l1_Phi", "Phi", Rabs); ("f_huber_K", "K2", sqrt)] ->
  shows other fld q x F -> 0 < e ->
  exists N0, forall n m, (N0 <= n)%nat -> (N0 <= m)%nat ->
  exists q' r, on_points q (one_period (q_nfp q) p0 n) (one_turn t0 m) = Ok q' /\ reads other name q' x (scal r) /\
    Rabs (r - integral (fun p t => h (F p t) * norm3 (nf p t)) p0 1 t0) <= e.
Proof.
  intros other q x nf F name fld h p0 t0 e S Hn Nz Hi Sh Pe. pose proof S as (_ & Lw & _). rewrite (reports_nrm _ _ Lw Hn) in *.
  assert (X : exists G, fielded other fld q x G).
  { destruct Hi as [X|[X|[X|[X|[]]]]]; injection X as <- <- <-; eexists; first [now apply Phi_fielded|now apply K2_fielded]. }
  destruct X as (G & HG). assert (EF : F = G) by (extensionality p; extensionality t; exact (shows_unique other fld q x F G HG Sh p t)). rewrite EF.
  apply (integral_refined other q x fld G S HG h p0 t0) with (name := name); [|exact Hi|exact Pe].
  intros y. destruct Hi as [X|[X|[X|[X|[]]]]]; injection X as <- <- <-; [reg|reg|apply Rcontinuity_abs|apply continuity_pt_filterlim, continuous_sqrt].
Qed.
Print Assumptions C128_integrals_converge.

Theorem C128_maxima_converge :
  forall other q x nf F name fld h p0 t0 e, sound q x -> reports normal (q_winding q) nf -> (forall p t, nf p t <> zero3) ->
  In (name, fld, h) [("f_max_K2", "K2", fun y : R => y); ("f_max_Phi", "Phi", Rabs); ("f_max_Phi2", "Phi", fun y => y * y); ("f_max_Phi4", "Phi", fun y => y ^ 4)] ->
  shows other fld q x F -> 0 < e ->
  exists N0, forall n m, (N0 <= n)%nat -> (N0 <= m)%nat ->
  exists q' r, on_points q (one_period (q_nfp q) p0 n) (one_turn t0 m) = Ok q' /\ reads other name q' x (scal r) /\
    (exists p t, r = h (F p t)) /\ forall p t, h (F p t) <= r + e.
Proof.
  intros other q x nf F name fld h p0 t0 e S Hn Nz Hi Sh Pe. pose proof S as (_ & Lw & _). rewrite (reports_nrm _ _ Lw Hn) in *.
  assert (X : exists G, fielded other fld q x G).
  { destruct Hi as [X|[X|[X|[X|[]]]]]; injection X as <- <- <-; eexists; first [now apply Phi_fielded|now apply K2_fielded]. }
  destruct X as (G & HG). assert (EF : F = G) by (extensionality p; extensionality t; exact (shows_unique other fld q x F G HG Sh p t)). rewrite EF.
  apply (max_refined other q x fld G S HG h p0 t0) with (name := name); [|exact Hi|exact Pe].
  intros y. destruct Hi as [X|[X|[X|[X|[]]]]]; injection X as <- <- <-; [reg|apply Rcontinuity_abs|reg|reg].
Qed.
Print Assumptions C128_maxima_converge.

(** The field error, as the plasma grid is refined: [P] the plasma surface, [nf]
    its normal, [Bc] the normal field of the coils, [Bp] that of the plasma. *)
Theorem C128_field_error_converges :
  forall other q x P nf Bc Bp p0 t0 e, sound q x -> reports gamma (q_plasma q) P -> reports normal (q_plasma q) nf -> (forall p t, nf p t <> zero3) ->
  (forall gw w p t, gamma (q_winding q) = Ok gw -> In w (concat gw) -> P p t <> w) ->
  preports (fun q => Bnormal q x) q Bc -> continuous_field Bp -> 0 < e ->
  let B p t := Bc p t + Bp p t in
  (exists N0, forall n m, (N0 <= n)%nat -> (N0 <= m)%nat ->
   exists q' r, on_plasma_field q Bp (one_period (q_nfp q) p0 n) (one_turn t0 m) = Ok q' /\ reads other "f_B" q' x (scal r) /\
     Rabs (r - INR (q_nfp q) * integral (fun p t => B p t * B p t / 2 * norm3 (nf p t)) p0 (/ INR (q_nfp q)) t0) <= e) /\
  (forall name h, In (name, h) [("f_max_Bnormal", Rabs); ("f_max_Bnormal2", fun y => y * y)] ->
   exists N0, forall n m, (N0 <= n)%nat -> (N0 <= m)%nat ->
   exists q' r, on_plasma_field q Bp (one_period (q_nfp q) p0 n) (one_turn t0 m) = Ok q' /\ reads other name q' x (scal r) /\
     (exists p t, p0 <= p < p0 + / INR (q_nfp q) /\ t0 <= t < t0 + 1 /\ r = h (B p t)) /\
     forall p t, p0 <= p < p0 + / INR (q_nfp q) -> t0 <= t < t0 + 1 -> h (B p t) <= r + e).
Proof.
  intros other q x P nf Bc Bp p0 t0 e S HP Hn Nz Off HB CB Pe. pose proof S as (M & Lw & Lp & _ & L). rewrite (reports_nrm _ _ Lp Hn) in *. rewrite (reports_gamma _ _ Lp HP) in *.
  assert (EB : Bc = bnval q x).
  { extensionality p. extensionality t. destruct (HB [p] [t] ltac:(discriminate) ltac:(discriminate)) as (q1 & E1 & V1). destruct (Bn_reports q x M Lw Lp L [p] [t] ltac:(discriminate) ltac:(discriminate)) as (q2 & E2 & V2).
    rewrite E1 in E2. injection E2 as ->. rewrite V1 in V2. cbn in V2. now injection V2. }
  assert (Off' : forall p t p' t', In p' (s_qphi (q_winding q)) -> In t' (s_qtheta (q_winding q)) -> pt (q_plasma q) 0 0 p t <> pt (q_winding q) 0 0 p' t').
  { intros p t p' t' I1 I2. destruct (made_facts q M) as (_ & _ & _ & _ & _ & Cw & _). apply (Off _ _ p t (gammadash_copy _ _ _ _ 0 0 Lw Cw)). rewrite concat_sample. apply in_map_iff. exists (p', t'). split; [reflexivity|].
    apply in_flat_map. exists p'. split; [exact I1|]. now apply in_map. }
  rewrite EB. split; [exact (error_refined other q x Bp p0 t0 S CB Nz Off' e Pe)|]. intros name h Hi. exact (worst_refined other q x Bp p0 t0 S CB Nz Off' name h Hi e Pe).
Qed.
Print Assumptions C128_field_error_converges.

(** ** C129 *)
Theorem C129_field_converges :
  forall q x W nf Kf P p0 t0 e, sound q x -> reports gamma (q_winding q) W -> reports normal (q_winding q) nf -> (forall p t, nf p t <> zero3) ->
  qreports (fun q => K q x OnEval) q Kf -> reports gamma (q_plasma q) P -> (forall p t p' t', P p t <> W p' t') -> 0 < e ->
  exists N0, forall n m, (N0 <= n)%nat -> (N0 <= m)%nat -> (n mod q_nfp q = 0)%nat ->
  exists q' B, rewound q p0 t0 n m = Ok q' /\ winding_surface_B q' x = Ok (sample B (s_qphi (q_plasma q)) (s_qtheta (q_plasma q))) /\
    forall p t, In p (s_qphi (q_plasma q)) -> In t (s_qtheta (q_plasma q)) -> close3 e (B p t) (biot_savart_integral W nf Kf (P p t) p0 t0).
Proof.
  intros q x W nf Kf P p0 t0 e S HW Hn Nz HK HP Off Pe. pose proof S as (M & Lw & Lp & _ & L). rewrite (reports_nrm _ _ Lw Hn) in *. rewrite (reports_gamma _ _ Lw HW) in *. rewrite (reports_gamma _ _ Lp HP) in *.
  assert (EK : Kf = kval q x).
  { extensionality p. extensionality t. destruct (HK [p] [t] ltac:(discriminate) ltac:(discriminate)) as (q1 & E1 & V1). destruct (K_reports q x M Lw L [p] [t] ltac:(discriminate) ltac:(discriminate)) as (q2 & E2 & V2).
    rewrite E1 in E2. injection E2 as ->. rewrite V1 in V2. cbn in V2. now injection V2. }
  rewrite EK. destruct (everywhere_refined q x p0 t0 S Nz Off e Pe) as (N0 & H0). exists N0. intros n m Hn' Hm Hk. destruct (H0 n m Hn' Hm Hk) as (q' & g & X & _ & _ & _ & EB & B & -> & _ & HB). exists q', B. auto.
Qed.
Print Assumptions C129_field_converges.

(** The normal field, with the plasma's own part kept. *)
Theorem C129_normal_field_converges :
  forall q x W nf Kf P u p0 t0 e, sound q x -> reports gamma (q_winding q) W -> reports normal (q_winding q) nf -> (forall p t, nf p t <> zero3) ->
  qreports (fun q => K q x OnEval) q Kf -> reports gamma (q_plasma q) P -> reports unitnormal (q_plasma q) u -> (forall p t p' t', P p t <> W p' t') -> 0 < e ->
  exists N0, forall n m, (N0 <= n)%nat -> (N0 <= m)%nat -> (n mod q_nfp q = 0)%nat ->
  exists q' D, rewound q p0 t0 n m = Ok q' /\
    Bnormal q' x = Ok (gmap2 Rplus (sample (fun p t => dot3 (u p t) (biot_savart_integral W nf Kf (P p t) p0 t0) + D p t) (s_qphi (q_plasma q)) (s_qtheta (q_plasma q))) (q_Bnormal q)) /\
    forall p t, In p (s_qphi (q_plasma q)) -> In t (s_qtheta (q_plasma q)) -> Rabs (D p t) <= e.
Proof.
  intros q x W nf Kf P u p0 t0 e S HW Hn Nz HK HP Hu Off Pe. pose proof S as (M & Lw & Lp & _ & L). rewrite (reports_nrm _ _ Lw Hn) in *. rewrite (reports_gamma _ _ Lw HW) in *. rewrite (reports_gamma _ _ Lp HP) in *.
  assert (EK : Kf = kval q x).
  { extensionality p. extensionality t. destruct (HK [p] [t] ltac:(discriminate) ltac:(discriminate)) as (q1 & E1 & V1). destruct (K_reports q x M Lw L [p] [t] ltac:(discriminate) ltac:(discriminate)) as (q2 & E2 & V2).
    rewrite E1 in E2. injection E2 as ->. rewrite V1 in V2. cbn in V2. now injection V2. }
  assert (Eu : u = unit_at (q_plasma q)).
  { extensionality p. extensionality t. apply (reports_unique unitnormal (q_plasma q) u (unit_at (q_plasma q)) Hu). apply reports_of. intros. unfold unit_at. now apply unitnormal_copy. }
  rewrite EK, Eu. destruct (everywhere_refined q x p0 t0 S Nz Off (e / 3) ltac:(lra)) as (N0 & H0). exists N0. intros n m Hn' Hm Hk. destruct (H0 n m Hn' Hm Hk) as (q' & g & X & S' & F1 & F2 & EB & B & -> & Eb & HB). exists q'.
  set (lim := fun p t => biot_savart_integral (pt (q_winding q) 0 0) (nrm (q_winding q)) (kval q x) (pt (q_plasma q) 0 0 p t) p0 t0).
  exists (fun p t => dot3 (unit_at (q_plasma q) p t) (B p t) - dot3 (unit_at (q_plasma q) p t) (lim p t)). split; [exact X|]. split.
  - pose proof S' as (M' & L1 & L2 & Sh & L3). rewrite (Bnormal_made q' x M' L1 L2 Sh L3), F1, F2. f_equal. f_equal. apply sample_ext. intros p t. rewrite Eb. fold (lim p t). ring.
  - intros p t Ip It. assert (HB' : close3 (e / 3) (B p t) (lim p t)) by exact (HB p t Ip It). destruct HB' as (B1 & B2 & B3). clear HB Eb. unfold unit_at.
    assert (Un : forall v, Rabs (/ norm3 v * vx v) <= 1 /\ Rabs (/ norm3 v * vy v) <= 1 /\ Rabs (/ norm3 v * vz v) <= 1).
    { intros v. assert (Bd : forall c s, 0 <= s -> Rabs (/ sqrt (c * c + s) * c) <= 1).
      { intros c s Ps. destruct (Req_dec c 0) as [->|Nc]; [rewrite Rmult_0_r, Rabs_R0; lra|]. assert (Pc : 0 < c * c) by nra. assert (Pq : 0 < sqrt (c * c + s)) by (apply sqrt_lt_R0; lra).
        rewrite Rabs_mult, (Rabs_right (/ _)) by (apply Rle_ge, Rlt_le, Rinv_0_lt_compat, Pq). apply Rmult_le_reg_l with (sqrt (c * c + s)); [exact Pq|]. rewrite <- Rmult_assoc, Rinv_r, Rmult_1_l, Rmult_1_r by lra.
        rewrite <- sqrt_Rsqr_abs. apply sqrt_le_1_alt. unfold Rsqr. lra. }
      assert (P1 : 0 <= vx v * vx v) by (apply Rle_0_sqr). assert (P2 : 0 <= vy v * vy v) by (apply Rle_0_sqr). assert (P3 : 0 <= vz v * vz v) by (apply Rle_0_sqr). unfold norm3. split; [|split].
      - replace (vx v * vx v + vy v * vy v + vz v * vz v) with (vx v * vx v + (vy v * vy v + vz v * vz v)) by ring. apply Bd. lra.
      - replace (vx v * vx v + vy v * vy v + vz v * vz v) with (vy v * vy v + (vx v * vx v + vz v * vz v)) by ring. apply Bd. lra.
      - replace (vx v * vx v + vy v * vy v + vz v * vz v) with (vz v * vz v + (vx v * vx v + vy v * vy v)) by ring. apply Bd. lra. }
    destruct (Un (nrm (q_plasma q) p t)) as (U1 & U2 & U3). set (w := nrm (q_plasma q) p t) in *. unfold dot3, scale3. cbn [vx vy vz]. set (a := / norm3 w * vx w) in *. set (b := / norm3 w * vy w) in *. set (c := / norm3 w * vz w) in *.
    replace (a * vx (B p t) + b * vy (B p t) + c * vz (B p t) - (a * vx (lim p t) + b * vy (lim p t) + c * vz (lim p t)))
      with (a * (vx (B p t) - vx (lim p t)) + b * (vy (B p t) - vy (lim p t)) + c * (vz (B p t) - vz (lim p t))) by ring.
    assert (Ml : forall y z, Rabs y <= 1 -> Rabs z <= e / 3 -> Rabs (y * z) <= e / 3) by (intros y z A1 A2; rewrite Rabs_mult; pose proof (Rabs_pos y); pose proof (Rabs_pos z); nra).
    pose proof (Ml _ _ U1 B1). pose proof (Ml _ _ U2 B2). pose proof (Ml _ _ U3 B3). eapply Rle_trans; [apply Rabs_triang|]. pose proof (Rabs_triang (a * (vx (B p t) - vx (lim p t))) (b * (vy (B p t) - vy (lim p t)))). lra.
Qed.
Print Assumptions C129_normal_field_converges.

(** Non-trivial case for both: two circular tori, one inside the other. *)
Definition tori : params := device 1 2 1 [[0; 1]; [2; 3]] true.
Lemma tori_sound x : length x = 4%nat -> sound tori x.
Proof. intros L. split; [apply device_made|]. split; [reflexivity|]. split; [reflexivity|]. split; [apply device_shaped|exact L]. Qed.
Example C128_example : let x := [1; 2; 3; 4] in
  sound tori x /\ (exists nf, reports normal (q_winding tori) nf /\ forall p t, nf p t <> zero3) /\
  (exists F, shows [] "K2" tori x F) /\ (exists F, shows [] "Phi" tori x F) /\
  (exists P nf, reports gamma (q_plasma tori) P /\ reports normal (q_plasma tori) nf /\ (forall p t, nf p t <> zero3) /\
     forall gw w p t, gamma (q_winding tori) = Ok gw -> In w (concat gw) -> P p t <> w) /\
  (exists Bc, preports (fun q => Bnormal q x) tori Bc) /\ continuous_field (fun p t => cos (2 * PI * t)).
Proof.
  intros x. assert (S : sound tori x) by now apply tori_sound. pose proof S as (M & Lw & Lp & _ & L). destruct (made_facts tori M) as (Nf & Md & _ & _ & _ & Cw & _).
  assert (Nz : forall p t, wn tori p t <> zero3) by (intros p t; apply ring_normal; lra).
  assert (Sh : forall fld F, fielded [] fld tori x F -> shows [] fld tori x F).
  { intros fld F (_ & _ & _ & H) ps ts Hp Ht. destruct (placed_ok tori ps ts Nf Md Hp Ht) as (q' & E). exists q'. eexists. split; [exact E|]. split; [exact (H _ _ _ E)|]. reflexivity. }
  split; [exact S|]. split; [exists (nrm (q_winding tori)); split; [apply reports_of; intros; now apply normal_copy|exact Nz]|].
  split; [eexists; apply Sh, K2_fielded; assumption|]. split; [eexists; apply Sh, Phi_fielded; assumption|].
  split.
  - exists (pt (q_plasma tori) 0 0), (nrm (q_plasma tori)). split; [exact (reports_gammadash _ 0 0 Lp)|]. split; [apply reports_of; intros; now apply normal_copy|]. split; [intros p t; apply (ring_normal (1 * 3) (1 * / 2) 0 (1/4) 0 (1/2) p t); lra|].
    intros gw w p t E I. unfold gamma in E. rewrite (gammadash_copy _ _ _ _ 0 0 Lw Cw) in E. assert (G1 : gw = sample (pt (q_winding tori) 0 0) (s_qphi (q_winding tori)) (s_qtheta (q_winding tori))) by congruence.
    rewrite G1, concat_sample in I. apply in_map_iff in I as (u & <- & _). apply (rings_apart (1 * 3) (1 * / 2) (1 * 1)); lra.
  - split; [eexists; now apply Bn_reports|]. apply cont2_cos. repeat apply cont2_mult; first [apply cont2_const|apply cont2_2].
Qed.
Example C129_example : let x := [1; 2; 3; 4] in
  sound tori x /\ (exists W nf Kf P u, reports gamma (q_winding tori) W /\ reports normal (q_winding tori) nf /\ (forall p t, nf p t <> zero3) /\
    qreports (fun q => K q x OnEval) tori Kf /\ reports gamma (q_plasma tori) P /\ reports unitnormal (q_plasma tori) u /\ forall p t p' t', P p t <> W p' t') /\
  forall N0, exists n m, (N0 <= n)%nat /\ (N0 <= m)%nat /\ (n mod q_nfp tori = 0)%nat.
Proof.
  intros x. assert (S : sound tori x) by now apply tori_sound. pose proof S as (M & Lw & Lp & _ & L). split; [exact S|]. split.
  - exists (pt (q_winding tori) 0 0), (nrm (q_winding tori)), (kval tori x), (pt (q_plasma tori) 0 0), (unit_at (q_plasma tori)).
    split; [exact (reports_gammadash _ 0 0 Lw)|]. split; [apply reports_of; intros; now apply normal_copy|]. split; [intros p t; apply ring_normal; lra|]. split; [now apply K_reports|].
    split; [exact (reports_gammadash _ 0 0 Lp)|]. split; [apply reports_of; intros; unfold unit_at; now apply unitnormal_copy|]. intros. apply (rings_apart (1 * 3) (1 * / 2) (1 * 1)); lra.
  - intros N0. exists (N0 * 2)%nat, N0. split; [lia|]. split; [lia|]. apply Nat.mod_mul. discriminate.
Qed.
