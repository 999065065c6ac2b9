(** Stellarator-symmetric problems: mirror images of designs. *)
From Coq Require Import String List Bool Arith ZArith Reals Lra Lia Permutation FunctionalExtensionality.
From Coquelicot Require Import Coquelicot.
From Verif Require Import Base ModelArray ProofArray ModelMath SpecMath RDeriv ProofMath ModelSurface SpecSurface ProofSurface ProofSurface2 ProofSurface3
  ProofLinear SpecWinding ProofWinding4 ModelParams ModelField SpecField ProofField ProofField2 ProofField3 ProofField4 ProofField5 ProofField6 ModelForce
  ModelQuantity SpecQuantity ModelWrapper SpecWrapper ModelShipped ModelPackage SpecPackage ProofRescale ProofPackage ProofPackage2 ProofPackage4
  SpecConvex ProofConvex SpecMirror.
Import ListNotations.
Open Scope R_scope.
Open Scope string_scope.
Open Scope list_scope.

Local Notation flip := SpecField.flip.

(** ** Symmetric grids *)
Lemma turn_span l : symmetric_turn l -> symmetric_span 1 l.
Proof. intros (k & n & Hn & ->). exists k, n. split; [exact Hn|]. unfold Rdiv. now rewrite Rmult_1_l. Qed.
Lemma shift_nat {A} (F : R -> A) T : (forall p, F (p + T) = F p) -> forall k p, F (p + INR k * T) = F p.
Proof.
  intros H k. induction k as [|k IH]; intros p; [f_equal; cbn [INR]; ring|].
  rewrite S_INR. replace (p + (INR k + 1) * T) with (p + INR k * T + T) by ring. now rewrite H.
Qed.
Lemma span_mirror {A} (F : R -> A) T l : symmetric_span T l -> (forall p, F (p + T) = F p) -> Permutation (map (fun p => F (- p)) l) (map F l).
Proof.
  intros (k & n & Hn & ->) H. assert (HN := not_0_INR _ Hn). unfold equispaced. rewrite !map_map.
  set (h := T / INR n). set (x0 := INR k / 2 * h). assert (Eh : INR n * h = T) by (unfold h; field; exact HN).
  set (s := fun i => ((n - (k + i) mod n) mod n)%nat).
  assert (Es : forall i, F (- (x0 + INR i * h)) = F (x0 + INR (s i) * h)).
  { intros i. unfold s. pose proof (Nat.div_mod (k + i) n Hn) as D. pose proof (Nat.mod_upper_bound (k + i) n Hn) as U.
    set (r := ((k + i) mod n)%nat) in *. set (d := ((k + i) / n)%nat) in *.
    assert (Ek : INR k + INR i = INR n * INR d + INR r) by (rewrite <- plus_INR, <- mult_INR, <- plus_INR; now rewrite D).
    destruct (Nat.eq_dec r 0) as [Er|Er].
    - rewrite Er, Nat.sub_0_r, Nat.mod_same by exact Hn. rewrite <- (shift_nat F T H d (- (x0 + INR i * h))). f_equal.
      rewrite Er in Ek. cbn [INR] in Ek |- *. unfold x0. rewrite <- Eh.
      replace (- (INR k / 2 * h + INR i * h) + INR d * (INR n * h)) with (INR k / 2 * h + (INR n * INR d - (INR k + INR i)) * h) by field. rewrite Ek. ring.
    - rewrite Nat.mod_small by lia. rewrite minus_INR by lia. rewrite <- (shift_nat F T H (d + 1) (- (x0 + INR i * h))). f_equal.
      rewrite plus_INR. cbn [INR]. unfold x0. rewrite <- Eh.
      replace (- (INR k / 2 * h + INR i * h) + (INR d + 1) * (INR n * h)) with (INR k / 2 * h + (INR n * INR d + INR n - (INR k + INR i)) * h) by field. rewrite Ek. ring. }
  rewrite (map_ext _ _ Es). rewrite <- (map_map s (fun j => F (x0 + INR j * h))). apply Permutation_map.
  apply NoDup_Permutation_bis.
  - assert (I : forall i j, (i < n)%nat -> (j < n)%nat -> s i = s j -> i = j).
    { intros i j Hi Hj E. unfold s in E. 
      assert (V : forall i, (i < n)%nat -> exists d, (k + i = n * d + (k + i) mod n)%nat /\ ((k + i) mod n < n)%nat).
      { intros a _. exists ((k + a) / n)%nat. split; [apply Nat.div_mod; exact Hn|apply Nat.mod_upper_bound; exact Hn]. }
      destruct (V i Hi) as (di & Di & Ui). destruct (V j Hj) as (dj & Dj & Uj).
      assert (R : ((k + i) mod n = (k + j) mod n)%nat).
      { destruct (Nat.eq_dec ((k + i) mod n) 0) as [Zi|Zi], (Nat.eq_dec ((k + j) mod n) 0) as [Zj|Zj]; try congruence.
        - rewrite Zi, Nat.sub_0_r, Nat.mod_same, (Nat.mod_small (n - (k + j) mod n)) in E by lia. lia.
        - rewrite Zj, Nat.sub_0_r, Nat.mod_same, (Nat.mod_small (n - (k + i) mod n)) in E by lia. lia.
        - rewrite (Nat.mod_small (n - (k + i) mod n)), (Nat.mod_small (n - (k + j) mod n)) in E by lia. lia. }
      rewrite R in Di. destruct (Nat.lt_trichotomy di dj) as [Q|[Q|Q]].
      - pose proof (Nat.mul_le_mono_l _ _ n Q) as M. rewrite Nat.mul_succ_r in M. lia.
      - subst dj. lia.
      - pose proof (Nat.mul_le_mono_l _ _ n Q) as M. rewrite Nat.mul_succ_r in M. lia. }
    assert (G : forall m a, (a + m <= n)%nat -> NoDup (map s (seq a m))).
    { intros m. induction m as [|m IH]; intros a Ha; [constructor|]. cbn [seq map]. constructor; [|apply IH; lia].
      intros Hin. apply in_map_iff in Hin as (j & Ej & Hj). apply in_seq in Hj. assert (j = a) by (apply I; auto; lia). lia. }
    apply G. lia.
  - rewrite map_length. lia.
  - intros j Hj. apply in_map_iff in Hj as (i & <- & _). apply in_seq. split; [lia|]. cbn. apply Nat.mod_upper_bound. exact Hn.
Qed.
Lemma periods_shift {A} nfp (F : R -> A) : (forall p, F (p + / INR nfp) = F p) -> forall j p, F (p + INR j / INR nfp) = F p.
Proof. intros H j p. apply (shift_nat F (/ INR nfp) H). Qed.
Lemma flat_map_perm {A B} (f g : A -> list B) l : (forall a, Permutation (f a) (g a)) -> Permutation (flat_map f l) (flat_map g l).
Proof. intros H. induction l; cbn; [constructor|]. now apply Permutation_app. Qed.
Lemma concat_perm {A} (l l' : list (list A)) : Permutation l l' -> Permutation (concat l) (concat l').
Proof.
  induction 1; cbn; [constructor|now apply Permutation_app_head| |etransitivity; eassumption].
  rewrite !app_assoc. apply Permutation_app_tail, Permutation_app_comm.
Qed.
Lemma grid_mirror {A} nfp (F : R -> R -> A) ps ts : symmetric_periods nfp ps -> symmetric_turn ts ->
  (forall p t, F (p + / INR nfp) t = F p t /\ F p (t + 1) = F p t) ->
  Permutation (concat (sample (fun p t => F (- p) (- t)) ps ts)) (concat (sample F ps ts)).
Proof.
  intros (j & _ & Hp) Ht H. unfold sample. rewrite <- !flat_map_concat_map.
  transitivity (flat_map (fun p => map (F (- p)) ts) ps).
  - apply flat_map_perm. intros p. apply (span_mirror (F (- p)) 1); [now apply turn_span|]. intros t. apply H.
  - rewrite !flat_map_concat_map. set (G := fun p => map (F p) ts).
    change (Permutation (concat (map (fun p => G (- p)) ps)) (concat (map G ps))).
    apply concat_perm.
    apply (span_mirror G (INR j / INR nfp)); [exact Hp|]. intros p. unfold G. apply map_ext. intros t.
    apply (periods_shift nfp (fun p => F p t)). intros p'. apply H.
Qed.
Lemma Rsum_perm l l' : Permutation l l' -> Rsum l = Rsum l'.
Proof. unfold Rsum. induction 1; cbn; try lra. Qed.
Lemma is_max_perm m m' l l' : Permutation l l' -> is_max m l -> is_max m' l' -> m = m'.
Proof.
  intros P (I & B) (I' & B'). apply Rle_antisym; [apply B'; eapply Permutation_in; eauto|apply B; eapply Permutation_in; [apply Permutation_sym|]; eauto].
Qed.

(** ** The coefficients of the mirror image *)
Definition mirror_of (q : params) (x : list R) : list R := map2 (fun c y => IZR (snd c) * y) (qcols q) x.
Lemma mirror_length q x : made q -> length x = q_ndofs q -> length (mirror_of q x) = q_ndofs q.
Proof.
  intros M L. destruct (made_facts q M) as (_ & _ & N & _). assert (Q : length (qcols q) = q_ndofs q) by (unfold qcols; rewrite length_pcols; congruence).
  unfold mirror_of. rewrite length_map2; congruence.
Qed.
Lemma ldot_mirror {A} (f g : A -> R) (s : A -> R) l x : (forall c, In c l -> f c * s c = g c) -> ldot (map f l) (map2 (fun c y => s c * y) l x) = ldot (map g l) x.
Proof.
  revert x; induction l as [|c l IH]; intros [|y x] H; try reflexivity. cbn [map map2]. rewrite !ldot_cons, IH by (intros; apply H; now right).
  rewrite <- (H c (or_introl eq_refl)). ring.
Qed.
Lemma ldot_opp {A} (f : A -> R) l x : ldot (map (fun c => - f c) l) x = - ldot (map f l) x.
Proof. revert x; induction l as [|c l IH]; intros [|y x]; try (unfold ldot; cbn; ring). cbn [map]. rewrite !ldot_cons, IH. ring. Qed.
Lemma mirror_phi q x p t : phi_of q (mirror_of q x) p t = - phi_of q x (- p) (- t).
Proof.
  unfold phi_of, mirror_of. rewrite <- ldot_opp. apply ldot_mirror. intros c Hc. apply qcols_choice in Hc. unfold tr.
  replace (targ q c (- p) (- t)) with (- targ q c p t) by (unfold targ, trig_arg; ring).
  unfold sin_or_cos. destruct Hc as [-> | ->]; cbn [Z.mul Z.eqb Pos.eqb Pos.mul Z.opp].
  - rewrite sin_neg. lra.
  - rewrite cos_neg. lra.
Qed.

(** ** A design and its mirror image *)
Section Mirror.
  Variables (other : list string) (q : params) (x rx : list R).
  Hypothesis S : sound q x.
  Hypothesis Y : symmetric_problem q.
  Hypothesis L' : length rx = q_ndofs q.
  Hypothesis E : forall p t, phi_of q rx p t = - phi_of q x (- p) (- t).
  Let M : made q. Proof. apply S. Qed.
  Let Lw : legal (q_winding q). Proof. apply S. Qed.
  Let Lp : legal (q_plasma q). Proof. apply S. Qed.
  Let Psh : plasma_shaped q. Proof. apply S. Qed.
  Let L : length x = q_ndofs q. Proof. apply S. Qed.
  Let Sr : sound q rx. Proof. destruct S as (A & B & C & D & _). repeat (split; [assumption|]). exact L'. Qed.

  Lemma opp_chain (f g : R -> R) (f' g' : R -> R) : (forall s, f s = - g (- s)) -> (forall s, is_derive f s (f' s)) -> (forall s, is_derive g s (g' s)) -> forall s, f' s = g' (- s).
  Proof using.
    intros H Hf Hg s. eapply dR_unique; [apply Hf|].
    eapply dR_ext with (f := fun s => - g (- s)); [intros; now rewrite H|].
    assert (O : is_derive (fun y : R => - y) s (- 1)) by (apply dR_opp, dR_id).
    eapply dR_eq; [|apply dR_opp, (dR_comp g (fun y => - y) _ _ _ (Hg (- s)) O)]. ring.
  Qed.
  Lemma mirror_phi1 p t : phi1 q rx p t = phi1 q x (- p) (- t).
  Proof using E. apply (opp_chain (fun s => phi_of q rx s t) (fun s => phi_of q x s (- t)) (fun s => phi1 q rx s t) (fun s => phi1 q x s (- t))); intros; [apply E|apply phi_d1|apply phi_d1]. Qed.
  Lemma mirror_phi2 p t : phi2 q rx p t = phi2 q x (- p) (- t).
  Proof using E. apply (opp_chain (fun s => phi_of q rx p s) (fun s => phi_of q x (- p) s) (fun s => phi2 q rx p s) (fun s => phi2 q x (- p) s)); intros; [apply E|apply phi_d2|apply phi_d2]. Qed.
  Lemma mirror_kval p t : kval q rx (- p) (- t) = neg3 (flip (kval q x p t)).
  Proof using E S Y Lw.
    destruct Y as (Hw & _). unfold kval, wn, w1, w2. rewrite mirror_phi1, mirror_phi2, !Ropp_involutive, nrm_neg, flip_norm by auto.
    destruct (pt_neg1 (q_winding q) p t Hw Lw) as [-> ->]. unfold neg3, flip, scale3, sub3; cbn [vx vy vz]. f_equal; ring.
  Qed.
  Lemma nfp_pos : (q_nfp q <> 0)%nat.
  Proof using S M. apply (made_facts q M). Qed.
  Lemma mirror_bval P : bval q rx (flip P) = neg3 (flip (bval q x P)).
  Proof using E S Y Lw M.
    pose proof nfp_pos as Hn. pose proof Y as (Hw & _ & _ & Tp & Tt & _).
    enough (W : wsum q rx (flip P) = neg3 (flip (wsum q x P))).
    { unfold bval. rewrite W. unfold neg3, flip, scale3; cbn [vx vy vz]. f_equal; ring. }
    unfold wsum.
    set (g := fun z P p t => contribution P (pt (q_winding q) 0 0 p t) (wn q p t) (kval q z p t)).
    change (sum3 (map (fun u => g rx (flip P) (fst u) (snd u)) (pairs (s_qphi (q_winding q)) (s_qtheta (q_winding q)))) =
            neg3 (flip (sum3 (map (fun u => g x P (fst u) (snd u)) (pairs (s_qphi (q_winding q)) (s_qtheta (q_winding q))))))).
    rewrite !sum3_pairs.
    assert (G1 : forall z P p t, g z P (p + 1) t = g z P p t).
    { intros. unfold g, wn, nrm. unfold q_nfp in Hn. now rewrite kval_one, !pt_one. }
    assert (G2 : forall z P p t, g z P p (t + 1) = g z P p t).
    { intros. unfold g, wn, nrm. now rewrite kval_theta, !pt_theta_one. }
    assert (N : forall g l, vsum (fun p => neg3 (flip (g p))) l = neg3 (flip (vsum g l))).
    { clear. intros g l. induction l; unfold vsum in *; simpl; [unfold neg3, flip, scale3, zero3; cbn [vx vy vz]; f_equal; ring|].
      rewrite IHl. unfold neg3, flip, scale3, add3; cbn [vx vy vz]. f_equal; ring. }
    rewrite <- (vsum_neg (fun p => vsum (g rx (flip P) p) (s_qtheta (q_winding q)))); auto.
    2:{ intros p. apply vsum_ext. intros t. apply G1. }
    rewrite <- N. apply vsum_ext. intros p.
    rewrite <- (vsum_neg (g rx (flip P) (- p))); auto. rewrite <- N. apply vsum_ext. intros t.
    unfold g, wn. rewrite pt00_neg, nrm_neg, mirror_kval by auto. apply contribution_flip.
  Qed.
  Lemma mirror_bnval p t : bnval q rx p t = - bnval q x (- p) (- t).
  Proof using E S Y Lw Lp M.
    pose proof Y as (_ & Hp & _). rewrite <- (Ropp_involutive p) at 1. rewrite <- (Ropp_involutive t) at 1.
    generalize (- p) (- t). clear p t. intros p t. unfold bnval, unit_at. rewrite pt00_neg, nrm_neg, flip_norm, mirror_bval by auto.
    unfold neg3, flip, scale3, dot3; cbn [vx vy vz]. ring.
  Qed.
  (** Field periods. *)
  Lemma winding_grid : exists x0 n, (n <> 0)%nat /\ s_qphi (q_winding q) = equispaced x0 (/ (INR (q_nfp q) * INR n)) (q_nfp q * n).
  Proof using S Y M.
    pose proof Y as (_ & _ & _ & (k & N & HN & Eq) & _). destruct (made_facts q M) as (Hn & Hd & _).
    assert (Hl : length (s_qphi (q_winding q)) = N) by (rewrite Eq; unfold equispaced; now rewrite map_length, seq_length).
    rewrite Hl in Hd. apply Nat.mod_divides in Hd as (n & ->); [|exact Hn].
    exists (INR k / 2 * / INR (q_nfp q * n)), n. split; [intros Z0; apply HN; rewrite Z0; apply Nat.mul_0_r|]. rewrite <- mult_INR. exact Eq.
  Qed.
  Lemma bnval_period z p t : bnval q z (p + / INR (q_nfp q)) t = bnval q z p t.
  Proof using S Y M.
    pose proof nfp_pos as Hn. pose proof Y as (_ & _ & En & _). destruct winding_grid as (x0 & n & H0 & Eq).
    assert (P1 : pt (q_plasma q) 0 0 (p + / INR (q_nfp q)) t = rotz (2 * PI * / INR (q_nfp q)) (pt (q_plasma q) 0 0 p t)) by (unfold q_nfp in *; rewrite <- En in *; now apply pt_nfp).
    assert (P2 : nrm (q_plasma q) (p + / INR (q_nfp q)) t = rotz (2 * PI * / INR (q_nfp q)) (nrm (q_plasma q) p t)) by (unfold q_nfp in *; rewrite <- En in *; now apply nrm_rot).
    unfold bnval, unit_at. rewrite P1, P2, (bval_rot q z _ x0 n), rotz_norm by assumption.
    set (a := 2 * PI * / INR (q_nfp q)). set (B := bval q z _). set (v := nrm _ p t).
    pose proof (sin2_cos2 a) as H. unfold Rsqr in H. unfold rotz, scale3, dot3; cbn [vx vy vz].
    transitivity (/ norm3 v * ((vx v * vx B + vy v * vy B) * (sin a * sin a + cos a * cos a) + vz v * vz B)); [ring|rewrite H; ring].
  Qed.
  Lemma bnval_theta z p t : bnval q z p (t + 1) = bnval q z p t.
  Proof using. unfold bnval, unit_at, nrm. now rewrite !pt_theta_one. Qed.
  Lemma rot_dot a v : dot3 (rotz a v) (rotz a v) = dot3 v v.
  Proof using.
    pose proof (sin2_cos2 a) as H. unfold Rsqr in H. unfold rotz, dot3; cbn [vx vy vz].
    transitivity ((vx v * vx v + vy v * vy v) * (sin a * sin a + cos a * cos a) + vz v * vz v); [ring|rewrite H; ring].
  Qed.

  (** What the mirror image does to a field: the reported entries, and the
      area elements that go with them. *)
  Definition mirrored (fld : string) (surf : surface) (s : R -> R) : Prop :=
    exists ps ts A F Fr, reads other fld q x (of_grid (sample F ps ts)) /\ reads other fld q rx (of_grid (sample Fr ps ts)) /\
      da surf = Ok (sample A ps ts) /\ symmetric_periods (q_nfp q) ps /\ symmetric_turn ts /\
      (forall p t, Fr p t = s (F (- p) (- t)) /\ A (- p) (- t) = A p t) /\
      (forall p t, F (p + / INR (q_nfp q)) t = F p t /\ F p (t + 1) = F p t) /\
      (forall p t, A (p + / INR (q_nfp q)) t = A p t /\ A p (t + 1) = A p t).
  Lemma mirrored_perm fld surf s : mirrored fld surf s -> exists v v', reads other fld q x v /\ reads other fld q rx v' /\ Permutation (el v') (map s (el v)).
  Proof using.
    intros (ps & ts & A & F & Fr & R & R' & _ & Sp & St & H & HF & _). eexists. eexists. split; [exact R|]. split; [exact R'|].
    rewrite !el_of_grid. rewrite (sample_ext Fr (fun p t => s (F (- p) (- t)))) by (intros; apply H).
    rewrite <- (gmap_sample s (fun p t => F (- p) (- t))). unfold gmap. rewrite concat_gmap. apply Permutation_map.
    now apply (grid_mirror (q_nfp q) F).
  Qed.
  Lemma map2_sample (f : R -> R -> R) A F ps ts : map2 f (concat (sample A ps ts)) (concat (sample F ps ts)) = concat (sample (fun p t => f (A p t) (F p t)) ps ts).
  Proof using. rewrite !concat_sample. apply map2_map_both. Qed.
  Lemma mirrored_sum fld surf s h : mirrored fld surf s -> (forall y, h (s y) = h y) -> exists d v v', reads other fld q x v /\ reads other fld q rx v' /\ da surf = Ok d /\
    Rsum (map2 (fun w y => w * h y) (concat d) (el v')) = Rsum (map2 (fun w y => w * h y) (concat d) (el v)).
  Proof using.
    intros (ps & ts & A & F & Fr & R & R' & D & Sp & St & H & HF & HA) Hs. exists (sample A ps ts). eexists. eexists. split; [exact R|]. split; [exact R'|]. split; [exact D|].
    rewrite !el_of_grid. rewrite !map2_sample. apply Rsum_perm. set (J := fun p t => A p t * h (F p t)).
    rewrite (sample_ext _ (fun p t => J (- p) (- t))).
    - apply (grid_mirror (q_nfp q) J); auto. intros p t. unfold J. destruct (HF p t) as [-> ->]. destruct (HA p t) as [-> ->]. auto.
    - intros p t. unfold J. destruct (H p t) as [-> ->]. now rewrite Hs.
  Qed.

  Lemma area_mirror sf (c : R) : s_stellsym sf = true -> legal sf -> s_nfp sf = q_nfp q ->
    (forall p t, c * norm3 (nrm sf (- p) (- t)) = c * norm3 (nrm sf p t)) /\
    (forall p t, c * norm3 (nrm sf (p + / INR (q_nfp q)) t) = c * norm3 (nrm sf p t) /\ c * norm3 (nrm sf p (t + 1)) = c * norm3 (nrm sf p t)).
  Proof using S M.
    intros St Ls En. pose proof nfp_pos as Hn. split.
    - intros p t. now rewrite nrm_neg, flip_norm.
    - intros p t. split; [rewrite <- En in *; now rewrite nrm_rot, rotz_norm|]. unfold nrm. now rewrite !pt_theta_one.
  Qed.
  Lemma eval_area : exists A, da (q_eval q) = Ok (sample A (q_qphi q) (q_qtheta q)) /\ (forall p t, A (- p) (- t) = A p t) /\
    (forall p t, A (p + / INR (q_nfp q)) t = A p t /\ A p (t + 1) = A p t).
  Proof using S Y M Lw.
    destruct (made_facts q M) as (_ & _ & _ & _ & Ce & _). pose proof Y as (Hw & _). eexists. split; [exact (da_copy _ _ _ _ Lw Ce)|].
    cbv beta. apply area_mirror; auto.
  Qed.
  Lemma plasma_area : exists A, da (q_plasma q) = Ok (sample A (s_qphi (q_plasma q)) (s_qtheta (q_plasma q))) /\ (forall p t, A (- p) (- t) = A p t) /\
    (forall p t, A (p + / INR (q_nfp q)) t = A p t /\ A p (t + 1) = A p t).
  Proof using S Y M Lp.
    destruct (made_facts q M) as (_ & _ & _ & _ & _ & _ & Cp). pose proof Y as (_ & Hp & En & _). eexists. split; [exact (da_copy _ _ _ _ Lp Cp)|].
    cbv beta. apply area_mirror; auto.
  Qed.
  Lemma mirrored_K2 : mirrored "K2" (q_eval q) (fun y => y).
  Proof using S Y L' E M Lw Sr.
    destruct eval_area as (A & D & A1 & A2). pose proof Y as (_ & _ & _ & _ & _ & Sp & St & _). pose proof nfp_pos as Hn.
    exists (q_qphi q), (q_qtheta q), A. do 2 eexists. split; [now apply reads_K2|]. split; [now apply reads_K2|]. split; [exact D|]. split; [exact Sp|]. split; [exact St|].
    split; [|split; [|exact A2]].
    - intros p t. split; [|apply A1]. rewrite <- (Ropp_involutive p) at 1 2. rewrite <- (Ropp_involutive t) at 1 2. rewrite mirror_kval.
      unfold neg3, flip, scale3, dot3; cbn [vx vy vz]. ring.
    - intros p t. cbv beta. rewrite kval_shift, kval_theta by exact Hn. rewrite rot_dot. auto.
  Qed.
  Lemma mirrored_Phi : mirrored "Phi" (q_eval q) Ropp.
  Proof using S Y L' E M Lw Sr.
    destruct eval_area as (A & D & A1 & A2). pose proof Y as (_ & _ & _ & _ & _ & Sp & St & _). pose proof nfp_pos as Hn.
    exists (q_qphi q), (q_qtheta q), A. do 2 eexists. split; [now apply reads_Phi|]. split; [now apply reads_Phi|]. split; [exact D|]. split; [exact Sp|]. split; [exact St|].
    split; [intros p t; split; [apply E|apply A1]|]. split; [|exact A2].
    intros p t. split; [now apply phi_shift_phi|now apply phi_shift_theta].
  Qed.
  Lemma Bnormal_total Bn z : length z = q_ndofs q -> q_Bnormal q = sample Bn (s_qphi (q_plasma q)) (s_qtheta (q_plasma q)) ->
    reads other "Bnormal" q z (of_grid (sample (fun p t => bnval q z p t + Bn p t) (s_qphi (q_plasma q)) (s_qtheta (q_plasma q)))).
  Proof using S M Lw Lp Psh.
    intros Lz EB. eexists. split; [reflexivity|].
    change (bind (Bnormal q z) (fun v => Ok (of_grid v)) = Ok (of_grid (sample (fun p t => bnval q z p t + Bn p t) (s_qphi (q_plasma q)) (s_qtheta (q_plasma q))))).
    rewrite Bnormal_made by auto. cbn [bind]. now rewrite EB, gmap2_sample.
  Qed.
  Lemma mirrored_Bnormal : mirrored "Bnormal" (q_plasma q) Ropp.
  Proof using S Y L L' E M Lw Lp Psh.
    destruct plasma_area as (A & D & A1 & A2). pose proof Y as (_ & _ & _ & _ & _ & _ & _ & Sp & St & Bn & EB & HB).
    do 2 eexists. exists A. do 2 eexists. split; [apply (Bnormal_total Bn x L EB)|]. split; [apply (Bnormal_total Bn rx L' EB)|]. split; [exact D|]. split; [exact Sp|]. split; [exact St|].
    split; [|split; [|exact A2]].
    - intros p t. split; [|apply A1]. cbv beta. rewrite mirror_bnval. destruct (HB p t) as (B1 & _). rewrite B1. ring.
    - intros p t. cbv beta. rewrite bnval_period, bnval_theta. destruct (HB p t) as (_ & -> & ->). auto.
  Qed.

  Lemma odd_read name : In name odd_names -> exists v v', reads other name q x v /\ reads other name q rx v' /\ Permutation (el v') (map Ropp (el v)).
  Proof using S Y L L' E M Lw Lp Psh Sr.
    intros [<-|[<-|[]]]; [exact (mirrored_perm _ _ _ mirrored_Phi)|exact (mirrored_perm _ _ _ mirrored_Bnormal)].
  Qed.
  Lemma squares_perm fld v v' : (exists v v', reads other fld q x v /\ reads other fld q rx v' /\ Permutation (el v') (map Ropp (el v))) ->
    forall h : R -> R, (forall y, h (- y) = h y) -> reads other fld q x v -> reads other fld q rx v' -> Permutation (map h (el v')) (map h (el v)).
  Proof using.
    intros (w & w' & R & R' & P) h Hh Rv Rv'. rewrite (reads_fun _ _ _ _ _ _ Rv R), (reads_fun _ _ _ _ _ _ Rv' R').
    apply (Permutation_map h) in P. rewrite map_map in P. now rewrite (map_ext _ _ Hh) in P.
  Qed.
  Lemma even_max name fld h : In (name, fld, h)
    [("f_max_K2", "K2", fun y : R => y); ("f_max_K_dot_grad_K_cyl", "K_dot_grad_K_cyl", Rabs); ("f_max_Bnormal", "Bnormal", Rabs);
     ("f_max_Bnormal2", "Bnormal", fun y => y * y); ("f_max_Phi", "Phi", Rabs); ("f_max_Phi2", "Phi", fun y => y * y); ("f_max_Phi4", "Phi", fun y => y ^ 4)] ->
    (forall v v', reads other fld q x v -> reads other fld q rx v' -> Permutation (map h (el v')) (map h (el v))) ->
    exists m, reads other name q x (scal m) /\ reads other name q rx (scal m).
  Proof using S Sr.
    intros I H. destruct (largest_value other q x S name fld h I) as (m & v & Rm & Rv & Mx). destruct (largest_value other q rx Sr name fld h I) as (m' & v' & Rm' & Rv' & Mx').
    exists m. split; [exact Rm|]. now rewrite <- (is_max_perm m' m _ _ (H _ _ Rv Rv') Mx' Mx).
  Qed.
  Lemma even_sum name fld surf h s : In (name, fld, surf, h)
    [("f_K", "K2", q_eval q, fun y => y / 2); ("f_B", "Bnormal", q_plasma q, fun y => y * y / 2); ("f_Phi", "Phi", q_eval q, fun y => y * y / 2);
     ("f_l1_Phi", "Phi", q_eval q, Rabs); ("f_huber_K", "K2", q_eval q, sqrt)] -> mirrored fld surf s -> (forall y, h (s y) = h y) ->
    exists m, reads other name q x (scal m) /\ reads other name q rx (scal m).
  Proof using S Sr.
    intros I H Hs. destruct (integral_value other q x S name fld surf h I) as (r & v & d & Rr & Rv & D & Er). destruct (integral_value other q rx Sr name fld surf h I) as (r' & v' & d' & Rr' & Rv' & D' & Er').
    destruct (mirrored_sum _ _ _ h H Hs) as (d0 & w & w' & Rw & Rw' & D0 & Es). rewrite D in D0, D'. injection D0 as <-. injection D' as <-.
    rewrite (reads_fun _ _ _ _ _ _ Rw Rv), (reads_fun _ _ _ _ _ _ Rw' Rv') in Es. exists r. split; [exact Rr|]. rewrite Er, <- Es, <- Er'. exact Rr'.
  Qed.
  Lemma scal_case name : (exists m, reads other name q x (scal m) /\ reads other name q rx (scal m)) ->
    exists v v', reads other name q x v /\ reads other name q rx v' /\ sh v' = sh v /\ Permutation (el v') (el v).
  Proof using. intros (m & A & B). exists (scal m), (scal m). auto. Qed.
  Lemma even_read name : In name even_names -> exists v v', reads other name q x v /\ reads other name q rx v' /\ sh v' = sh v /\ Permutation (el v') (el v).
  Proof using S Y L L' E M Lw Lp Psh Sr.
    pose proof mirrored_K2 as MK. pose proof mirrored_Phi as MP. pose proof mirrored_Bnormal as MB.
    pose proof (mirrored_perm _ _ _ MP) as PP. pose proof (mirrored_perm _ _ _ MB) as PB.
    assert (PK : forall v v', reads other "K2" q x v -> reads other "K2" q rx v' -> Permutation (map (fun y => y) (el v')) (map (fun y => y) (el v))).
    { intros v v' Rv Rv'. destruct (mirrored_perm _ _ _ MK) as (w & w' & R & R' & P). rewrite map_id in *.
      rewrite (reads_fun _ _ _ _ _ _ Rv R), (reads_fun _ _ _ _ _ _ Rv' R'), map_id. exact P. }
    assert (H2 : forall y, (- y) * (- y) = y * y) by (intros; ring). assert (H4 : forall y, (- y) ^ 4 = y ^ 4) by (intros; ring).
    assert (H22 : forall y, (- y) * (- y) / 2 = y * y / 2) by (intros; field).
    intros [<-|[<-|[<-|[<-|[<-|[<-|[<-|[<-|[<-|[<-|[<-|[<-|[<-|[<-|[]]]]]]]]]]]]]]].
    - do 2 eexists. split; [now apply reads_K2|]. split; [now apply reads_K2|]. split; [apply sh_sample|].
      rewrite <- (map_id (el (of_grid (sample (fun p t => dot3 (kval q rx p t) (kval q rx p t)) _ _)))), <- (map_id (el (of_grid (sample (fun p t => dot3 (kval q x p t) (kval q x p t)) _ _)))).
      apply PK; now apply reads_K2.
    - destruct Y as (_ & _ & _ & _ & _ & _ & _ & _ & _ & Bn & EB & _).
      assert (RB : forall z, length z = q_ndofs q -> reads other "Bnormal2" q z (of_grid (gmap (fun y => y * y) (sample (fun p t => bnval q z p t + Bn p t) (s_qphi (q_plasma q)) (s_qtheta (q_plasma q)))))).
      { intros z Lz. apply reads_Bnormal2; [destruct S as (A & B & C & D & _); repeat (split; [assumption|]); exact Lz|]. rewrite Bnormal_made by auto. now rewrite EB, gmap2_sample. }
      do 2 eexists. split; [exact (RB x L)|]. split; [exact (RB rx L')|]. split; [rewrite !gmap_sample; apply sh_sample|].
      rewrite !el_of_grid. unfold gmap. rewrite !concat_gmap.
      apply (squares_perm "Bnormal" (of_grid _) (of_grid _) PB (fun y => y * y) H2 (Bnormal_total Bn x L EB) (Bnormal_total Bn rx L' EB)).
    - do 2 eexists. split; [now apply reads_Phi2|]. split; [now apply reads_Phi2|]. split; [apply sh_sample|].
      rewrite !el_of_grid. rewrite <- (gmap_sample (fun y => y * y) (phi_of q x)), <- (gmap_sample (fun y => y * y) (phi_of q rx)). unfold gmap. rewrite !concat_gmap.
      apply (squares_perm "Phi" (of_grid _) (of_grid _) PP (fun y => y * y) H2); now apply reads_Phi.
    - apply scal_case, (even_sum "f_B" "Bnormal" (q_plasma q) (fun y => y * y / 2) Ropp); [cbn; tauto|exact MB|exact H22].
    - apply scal_case, (even_sum "f_K" "K2" (q_eval q) (fun y => y / 2) (fun y => y)); [cbn; tauto|exact MK|reflexivity].
    - apply scal_case, (even_sum "f_Phi" "Phi" (q_eval q) (fun y => y * y / 2) Ropp); [cbn; tauto|exact MP|exact H22].
    - apply scal_case, (even_max "f_max_Bnormal" "Bnormal" Rabs); [cbn; tauto|]. intros v v'. now apply squares_perm, Rabs_Ropp.
    - apply scal_case, (even_max "f_max_Bnormal2" "Bnormal" (fun y => y * y)); [cbn; tauto|]. intros v v'. now apply squares_perm.
    - apply scal_case, (even_max "f_max_K2" "K2" (fun y => y)); [cbn; tauto|]. exact PK.
    - apply scal_case, (even_sum "f_huber_K" "K2" (q_eval q) sqrt (fun y => y)); [cbn; tauto|exact MK|reflexivity].
    - apply scal_case, (even_max "f_max_Phi" "Phi" Rabs); [cbn; tauto|]. intros v v'. now apply squares_perm, Rabs_Ropp.
    - apply scal_case, (even_max "f_max_Phi2" "Phi" (fun y => y * y)); [cbn; tauto|]. intros v v'. now apply squares_perm.
    - apply scal_case, (even_max "f_max_Phi4" "Phi" (fun y => y ^ 4)); [cbn; tauto|]. intros v v'. now apply squares_perm.
    - apply scal_case, (even_sum "f_l1_Phi" "Phi" (q_eval q) Rabs Ropp); [cbn; tauto|exact MP|exact Rabs_Ropp].
  Qed.
  Lemma even_read' name : even_quantity other q name -> exists v v', reads other name q x v /\ reads other name q rx v' /\ sh v' = sh v /\ Permutation (el v') (el v).
  Proof using S Y L L' E M Lw Lp Psh Sr.
    intros [I|(-> & _)]; [now apply even_read|]. apply scal_case.
    destruct (normalised_value other q x S) as (r & r0 & v & Rr & R0 & Rv & ->). destruct (normalised_value other q rx Sr) as (r' & r0' & v' & Rr' & R0' & Rv' & ->).
    destruct (even_read "f_B" ltac:(cbn; tauto)) as (w & w' & Rw & Rw' & _ & P). 
    rewrite (reads_fun _ _ _ _ _ _ Rw Rr), (reads_fun _ _ _ _ _ _ Rw' Rr') in P. apply Permutation_length_1 in P. subst r'.
    pose proof (reads_fun _ _ _ _ _ _ R0 R0') as Q. injection Q as <-. eauto.
  Qed.
End Mirror.
