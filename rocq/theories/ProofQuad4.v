(** The field error and the field on refined grids, for C128 and C129. *)
From Coq Require Import String List Bool Arith ZArith Reals Lra Lia.
From Coquelicot Require Import Coquelicot.
From Verif Require Import Base ModelArray ProofArray ModelMath SpecMath ProofMath ModelSurface SpecSurface ProofSurface ProofSurface2 ProofSurface3
  ModelParams ModelField SpecField ProofField ProofField2 ProofField3 ProofField4 ProofField6
  ModelQuantity ModelWrapper ModelPackage SpecPackage ProofPackage ProofPackage2 ProofPackage3 ProofPackage4 ProofConvex ProofUnique2 ProofPeriods SpecQuad ProofQuad ProofQuad2 ProofQuad3.
Import ListNotations.
Open Scope R_scope.
Open Scope string_scope.
Open Scope list_scope.

Lemma field_on_plasma q Bp ps ts x : sound q x -> ps <> [] -> ts <> [] -> exists q', on_plasma_field q Bp ps ts = Ok q' /\ sound q' x /\
  resampled (q_plasma q) ps ts (q_plasma q') /\ q_nfp q' = q_nfp q /\ q_Bnormal q' = sample Bp ps ts /\ bnval q' x = bnval q' x /\
  Bnormal q' x = Ok (sample (fun p t => bnval q x p t + Bp p t) ps ts).
Proof.
  intros (M & Lw & Lp & _ & L) Hp Ht. destruct (made_facts q M) as (Hn & Hm & Nd & _ & Ce & _). destruct (copy_ok (q_plasma q) ps ts Hp Ht) as [s E].
  assert (X : exists q', on_plasma_field q Bp ps ts = Ok q' /\ q_plasma q' = s /\ q_winding q' = q_winding q /\ q_G q' = q_G q /\ q_I q' = q_I q /\
    q_stellsym q' = q_stellsym q /\ q_mpol q' = q_mpol q /\ q_ntor q' = q_ntor q /\ q_ndofs q' = q_ndofs q /\ q_Bnormal q' = sample Bp ps ts).
  { unfold on_plasma_field. unfold resampled in E. rewrite E. cbn [bind]. unfold make_params, make_base. destruct (s_nfp (q_winding q)); [contradiction|]. rewrite Hm. cbn [Nat.eqb negb].
    unfold resampled in Ce. rewrite Ce. cbn [bind]. eexists. split; [reflexivity|]. cbn. rewrite Nd. repeat split. }
  destruct X as (q' & X & F1 & F2 & F3 & F4 & F5 & F6 & F7 & F8 & F9). exists q'. split; [exact X|].
  assert (M' : made q').
  { split; [rewrite F1; eapply built_resampled; exact E|]. split; [rewrite F2; apply M|]. unfold on_plasma_field in X. unfold resampled in E. rewrite E in X. cbn [bind] in X. repeat eexists. exact X. }
  pose proof (copy_fields _ _ _ _ E) as (_ & _ & _ & _ & _ & Q1 & Q2 & _).
  assert (Sh : plasma_shaped q').
  { unfold plasma_shaped. rewrite F9, F1, Q1, Q2. unfold sample. split; [apply map_length|]. apply Forall_forall. intros r Hr. apply in_map_iff in Hr as (p & <- & _). apply map_length. }
  assert (L1 : legal (q_winding q')) by now rewrite F2. assert (L2 : legal (q_plasma q')) by (rewrite F1; eapply legal_copy; eauto). assert (L3 : length x = q_ndofs q') by congruence.
  split; [split; [exact M'|split; [exact L1|split; [exact L2|split; [exact Sh|exact L3]]]]|]. split; [now rewrite F1|]. split; [unfold q_nfp; now rewrite F2|]. split; [exact F9|]. split; [reflexivity|].
  rewrite Bnormal_made by auto. rewrite F1, Q1, Q2, F9, gmap2_sample. f_equal. apply sample_ext. intros p t. f_equal.
  unfold bnval, unit_at. rewrite F1. rewrite (proj1 (pt_copy _ _ _ _ 0 0 p t E)), (proj2 (pt_copy _ _ _ _ 0 0 p t E)). now rewrite (bval_same q q').
Qed.

Section Error.
  Variables (other : list string) (q : params) (x : list R) (Bp : R -> R -> R) (p0 t0 : R).
  Hypothesis S : sound q x.
  Hypothesis CB : cont2 Bp.
  Hypothesis Nz : forall p t, nrm (q_plasma q) p t <> zero3.
  Hypothesis Off : forall p t p' t', In p' (s_qphi (q_winding q)) -> In t' (s_qtheta (q_winding q)) -> pt (q_plasma q) 0 0 p t <> pt (q_winding q) 0 0 p' t'.
  Notation B := (fun p t => bnval q x p t + Bp p t).
  Lemma error_refined : forall e, 0 < e -> exists N0, forall n m, (N0 <= n)%nat -> (N0 <= m)%nat -> exists q' r,
    on_plasma_field q Bp (one_period (q_nfp q) p0 n) (one_turn t0 m) = Ok q' /\ reads other "f_B" q' x (scal r) /\
    Rabs (r - INR (q_nfp q) * integral (fun p t => B p t * B p t / 2 * norm3 (nrm (q_plasma q) p t)) p0 (/ INR (q_nfp q)) t0) <= e.
  Proof using S CB Nz Off.
    intros e Pe. pose proof (nfp_pos q x S) as Pk. assert (Cn : cont2 (bnval q x)) by now apply cont2_bnval. set (k := INR (q_nfp q)) in *.
    set (G := fun p t => B p t * B p t / 2 * norm3 (nrm (q_plasma q) p t)). assert (CG : cont2 G).
    { unfold G, Rdiv. repeat first [assumption|apply cont2_mult|apply cont2_plus|apply cont2_const|apply cont3_norm, cont3_nrm]. }
    destruct (grids_converge G p0 (/ k) t0 1 ltac:(now apply Rinv_0_lt_compat) ltac:(lra) CG (e / k) ltac:(now apply Rdiv_lt_0_compat)) as (N0 & H0). exists (Nat.max N0 2). intros n m Hn Hm.
    destruct (field_on_plasma q Bp (one_period (q_nfp q) p0 n) (one_turn t0 m) x S) as (q' & E & S' & C & Ek & _ & _ & EB); [apply equi_ne; lia|apply equi_ne; lia|]. exists q'.
    destruct (integral_value other q' x S' "f_B" "Bnormal" (q_plasma q') (fun y => y * y / 2) ltac:(cbn; tauto)) as (r & v & d & Rr & Rv & Dd & Er). exists r. split; [exact E|]. split; [exact Rr|].
    destruct (reads_Bnormal other q' x S') as (g & Eg & Rg). rewrite EB in Eg. injection Eg as <-. rewrite (reads_fun _ _ _ _ _ _ Rv Rg) in Er. cbn [of_grid el] in Er.
    pose proof S as (_ & _ & Lp & _). rewrite (da_copy _ _ _ _ Lp C) in Dd. injection Dd as <-. unfold one_period, one_turn in C, Er. rewrite (equi_dphi _ _ _ n _ _ ltac:(lia) C), (equi_dtheta _ _ _ m _ _ ltac:(lia) C) in Er.
    rewrite sum_grid in Er. rewrite Ek in Er. fold k in Er. assert (Pn : 0 < INR n) by (apply lt_0_INR; lia). assert (Pm : 0 < INR m) by (apply lt_0_INR; lia).
    specialize (H0 n m ltac:(lia) ltac:(lia) ltac:(lia) ltac:(lia)). unfold Rdiv in H0. rewrite Rmult_1_l, <- Rinv_mult in H0. unfold double in H0. fold (integral G p0 (/ k) t0) in H0.
    replace r with (k * (/ (k * INR n) * / INR m * dsum G (equispaced p0 (/ (k * INR n)) n) (equispaced t0 (/ INR m) m))).
    - rewrite <- Rmult_minus_distr_l, Rabs_mult, (Rabs_right k) by lra. apply Rmult_le_compat_l with (r := k) in H0; [|lra]. replace (k * (e * / k)) with e in H0 by (field; lra). exact H0.
    - rewrite Er. f_equal. unfold dsum. rewrite <- lsum_mult. unfold lsum. f_equal. apply map_ext. intros p.
      change (/ (k * INR n) * / INR m * lsum (G p) (equispaced t0 (/ INR m) m) = lsum (fun t => / (k * INR n) * / INR m * norm3 (nrm (q_plasma q) p t) * (B p t * B p t / 2)) (equispaced t0 (/ INR m) m)).
      rewrite <- lsum_mult. unfold lsum, G. f_equal. apply map_ext. intros t. ring.
  Qed.
  Lemma worst_refined name h : In (name, h) [("f_max_Bnormal", Rabs); ("f_max_Bnormal2", fun y => y * y)] ->
    forall e, 0 < e -> exists N0, forall n m, (N0 <= n)%nat -> (N0 <= m)%nat -> exists q' r,
    on_plasma_field q Bp (one_period (q_nfp q) p0 n) (one_turn t0 m) = Ok q' /\ reads other name q' x (scal r) /\
    (exists p t, p0 <= p < p0 + / INR (q_nfp q) /\ t0 <= t < t0 + 1 /\ r = h (B p t)) /\ forall p t, p0 <= p < p0 + / INR (q_nfp q) -> t0 <= t < t0 + 1 -> h (B p t) <= r + e.
  Proof using S CB Nz Off.
    intros Hi e Pe. pose proof (nfp_pos q x S) as Pk. assert (Cn : cont2 (bnval q x)) by now apply cont2_bnval.
    assert (CG : cont2 (fun p t => h (B p t))). { destruct Hi as [X|[X|[]]]; injection X as <- <-; cont2. }
    destruct (grids_reach (fun p t => h (B p t)) p0 (/ INR (q_nfp q)) t0 1 ltac:(now apply Rinv_0_lt_compat) ltac:(lra) CG e Pe) as (N0 & H0). exists (Nat.max N0 2). intros n m Hn Hm.
    destruct (field_on_plasma q Bp (one_period (q_nfp q) p0 n) (one_turn t0 m) x S) as (q' & E & S' & C & Ek & _ & _ & EB); [apply equi_ne; lia|apply equi_ne; lia|]. exists q'.
    destruct (largest_value other q' x S' name "Bnormal" h) as (r & v & Rr & Rv & Hr). { destruct Hi as [X|[X|[]]]; injection X as <- <-; cbn; tauto. }
    exists r. split; [exact E|]. split; [exact Rr|]. destruct (reads_Bnormal other q' x S') as (g & Eg & Rg). rewrite EB in Eg. injection Eg as <-. rewrite (reads_fun _ _ _ _ _ _ Rv Rg) in Hr. cbn [of_grid el] in Hr.
    rewrite concat_sample, map_map in Hr. destruct Hr as (Ir & Mr). assert (Pn : 0 < INR n) by (apply lt_0_INR; lia). assert (Pm : 0 < INR m) by (apply lt_0_INR; lia). split.
    - apply in_map_iff in Ir as ((p, t) & Eq & Ip). apply pairs_in in Ip as (I1 & I2). exists p, t.
      assert (Strict : forall a hh nn u, 0 < hh -> In u (equispaced a hh nn) -> a <= u < a + INR nn * hh).
      { intros a hh nn u Ph Hu. apply in_map_iff in Hu as (i & <- & Hi'). apply in_seq in Hi'. assert (0 <= INR i) by apply pos_INR. assert (INR i < INR nn) by (apply lt_INR; lia). nra. }
      apply Strict in I1; [|apply Rinv_0_lt_compat; nra]. apply Strict in I2; [|now apply Rinv_0_lt_compat].
      replace (INR n * / (INR (q_nfp q) * INR n)) with (/ INR (q_nfp q)) in I1 by (field; lra). replace (INR m * / INR m) with 1 in I2 by (field; lra). cbn [fst snd] in Eq. auto.
    - intros p t B1 B2. destruct (H0 n m ltac:(lia) ltac:(lia) ltac:(lia) ltac:(lia) _ _ B1 B2) as (p' & t' & I1 & I2 & Hc).
      assert (Hle : h (B p' t') <= r).
      { apply Mr. apply in_map_iff. exists (p', t'). split; [reflexivity|]. apply pairs_in. unfold one_period, one_turn, Rdiv in *. rewrite Rmult_1_l in I2. rewrite <- Rinv_mult in I1. auto. }
      revert Hc. unfold Rabs. destruct (Rcase_abs _); lra.
  Qed.
End Error.

(** ** The winding surface *)
Lemma sum3_parts {A} (f : A -> vec3) l : sum3 (map f l) = V3 (Rsum (map (fun u => vx (f u)) l)) (Rsum (map (fun u => vy (f u)) l)) (Rsum (map (fun u => vz (f u)) l)).
Proof. induction l as [|a l IH]; [reflexivity|]. cbn [map sum3 fold_right]. unfold sum3 in IH. rewrite IH. reflexivity. Qed.
Lemma pairs_sum (g : R -> R -> R) ps ts : Rsum (map (fun u => g (fst u) (snd u)) (pairs ps ts)) = dsum g ps ts.
Proof.
  unfold dsum, lsum, pairs. induction ps as [|p ps IH]; [reflexivity|]. cbn [flat_map map]. rewrite map_app, Rsum_app, IH, map_map. reflexivity.
Qed.
Lemma finite_bound {A} (Q : A -> nat -> nat -> Prop) l : (forall u, In u l -> exists N0, forall n m, (N0 <= n)%nat -> (N0 <= m)%nat -> Q u n m) ->
  exists N0, forall u n m, In u l -> (N0 <= n)%nat -> (N0 <= m)%nat -> Q u n m.
Proof.
  induction l as [|a l IH]; intros H; [exists 0%nat; intros u n m []|]. destruct (IH (fun u Hu => H u (or_intror Hu))) as (N1 & H1). destruct (H a (or_introl eq_refl)) as (N2 & H2).
  exists (Nat.max N1 N2). intros u n m [<-|Hu] Hn Hm; [apply H2; lia|apply H1; auto; lia].
Qed.
Section Winding.
  Variables (q : params) (x : list R) (p0 t0 : R).
  Hypothesis S : sound q x.
  Hypothesis Nz : forall p t, wn q p t <> zero3.
  Hypothesis Off : forall p t p' t', pt (q_plasma q) 0 0 p t <> pt (q_winding q) 0 0 p' t'.
  Notation W := (pt (q_winding q) 0 0).
  Definition bsum (n m : nat) (P : vec3) : vec3 := scale3 (/ INR m) (scale3 (/ INR n) (scale3 fak (sum3 (map (fun u =>
    contribution P (W (fst u) (snd u)) (wn q (fst u) (snd u)) (kval q x (fst u) (snd u))) (pairs (one_turn p0 n) (one_turn t0 m)))))).
  Notation limit P := (biot_savart_integral W (wn q) (kval q x) P p0 t0).
  Lemma field_refined P : (forall p t, P <> W p t) -> forall e, 0 < e -> exists N0, forall n m, (N0 <= n)%nat -> (N0 <= m)%nat -> close3 e (bsum n m P) (limit P).
  Proof using Nz.
    intros HP e Pe. set (J := fun p t => scale3 (norm3 (wn q p t) / norm3 (sub3 P (W p t)) ^ 3) (cross3 (kval q x p t) (sub3 P (W p t)))).
    assert (EJ : forall p t, contribution P (W p t) (wn q p t) (kval q x p t) = J p t).
    { intros p t. unfold contribution, J. cbv zeta. rewrite <- !norm_dot. pose proof (norm_pos _ (sub3_zero _ _ (HP p t))) as Pn. set (r := norm3 (sub3 P (W p t))) in *. set (c := cross3 _ _). set (w := norm3 _).
      destruct c as [c1 c2 c3]. unfold scale3. cbn [vx vy vz]. f_equal; field; lra. }
    assert (CJ : cont3 J). { apply (cont3_ext _ _ EJ). apply cont3_contribution; try apply cont3_const; [apply cont3_pt|apply cont3_nrm|now apply cont3_kval|exact HP]. }
    destruct CJ as (C1 & C2 & C3). set (d := e * 10 ^ 7). assert (Pd : 0 < d) by (unfold d; lra).
    destruct (grids_converge _ p0 1 t0 1 ltac:(lra) ltac:(lra) C1 d Pd) as (N1 & H1). destruct (grids_converge _ p0 1 t0 1 ltac:(lra) ltac:(lra) C2 d Pd) as (N2 & H2). destruct (grids_converge _ p0 1 t0 1 ltac:(lra) ltac:(lra) C3 d Pd) as (N3 & H3).
    exists (Datatypes.S (Nat.max N1 (Nat.max N2 N3))). intros n m Hn Hm. specialize (H1 n m ltac:(lia) ltac:(lia) ltac:(lia) ltac:(lia)). specialize (H2 n m ltac:(lia) ltac:(lia) ltac:(lia) ltac:(lia)). specialize (H3 n m ltac:(lia) ltac:(lia) ltac:(lia) ltac:(lia)).
    assert (Pn : 0 < INR n) by (apply lt_0_INR; lia). assert (Pm : 0 < INR m) by (apply lt_0_INR; lia).
    assert (Part : forall (f : vec3 -> R), Rabs (1 / INR n * (1 / INR m) * dsum (fun p t => f (J p t)) (equispaced p0 (1 / INR n) n) (equispaced t0 (1 / INR m) m) - double (fun p t => f (J p t)) p0 1 t0 1) <= d ->
      Rabs (/ INR m * (/ INR n * (fak * Rsum (map (fun u => f (contribution P (W (fst u) (snd u)) (wn q (fst u) (snd u)) (kval q x (fst u) (snd u)))) (pairs (one_turn p0 n) (one_turn t0 m)))))
        - / 10 ^ 7 * integral (fun p t => f (J p t)) p0 1 t0) <= e).
    { intros f H. rewrite (map_ext _ (fun u => f (J (fst u) (snd u)))) by (intros; now rewrite EJ). rewrite (pairs_sum (fun p t => f (J p t))). unfold one_turn. unfold Rdiv in H. rewrite !Rmult_1_l in H.
      fold (integral (fun p t => f (J p t)) p0 1 t0) in H. set (D := dsum (fun p t => f (J p t)) (equispaced p0 (/ INR n) n) (equispaced t0 (/ INR m) m)) in *. set (K0 := integral _ _ _ _). change (double (fun p t => f (J p t)) p0 1 t0 1) with K0 in H.
      replace (/ INR m * (/ INR n * (fak * D)) - / 10 ^ 7 * K0) with (/ 10 ^ 7 * (/ INR n * / INR m * D - K0)) by (unfold fak; field; lra).
      rewrite Rabs_mult, (Rabs_right (/ 10 ^ 7)) by lra. unfold d in H. lra. }
    unfold close3, bsum, biot_savart_integral. fold J. rewrite sum3_parts. unfold scale3. cbn [vx vy vz]. split; [apply (Part vx H1)|split; [apply (Part vy H2)|apply (Part vz H3)]].
  Qed.
  Lemma rewound_facts n m : (1 <= n)%nat -> (1 <= m)%nat -> (n mod q_nfp q = 0)%nat -> exists q', rewound q p0 t0 n m = Ok q' /\ sound q' x /\ q_plasma q' = q_plasma q /\ q_Bnormal q' = q_Bnormal q /\
    forall P, bval q' x P = bsum n m P.
  Proof using S.
    intros Hn Hm Hk. pose proof S as (M & Lw & Lp & Sh & L). destruct (made_facts q M) as (Nf & _ & Nd & _ & Ce & _).
    destruct (copy_ok (q_winding q) (one_turn p0 n) (one_turn t0 m)) as [w E]; [apply equi_ne; lia|apply equi_ne; lia|]. pose proof (copy_fields _ _ _ _ E) as (A1 & A2 & A3 & A4 & A5 & Q1 & Q2 & _).
    assert (X : exists q', rewound q p0 t0 n m = Ok q' /\ q_plasma q' = q_plasma q /\ q_winding q' = w /\ q_G q' = q_G q /\ q_I q' = q_I q /\
      q_stellsym q' = q_stellsym q /\ q_mpol q' = q_mpol q /\ q_ntor q' = q_ntor q /\ q_ndofs q' = q_ndofs q /\ q_Bnormal q' = q_Bnormal q).
    { unfold rewound. pose proof E as E0. unfold resampled in E0. rewrite E0. cbn [bind]. unfold make_params, make_base. rewrite A1, Q1. unfold q_nfp in Hk. destruct (s_nfp (q_winding q)) as [|k] eqn:Ek; [contradiction|].
      unfold one_turn at 1. rewrite equi_len, Hk. cbn [Nat.eqb negb].
      destruct (copy_ok w (q_qphi q) (q_qtheta q)) as [ev Ev]; [apply (made_points q M)|apply (made_points q M)|]. unfold resampled in Ev. rewrite Ev. cbn [bind]. eexists. split; [reflexivity|]. cbn. rewrite Nd. repeat split. }
    destruct X as (q' & X & F1 & F2 & F3 & F4 & F5 & F6 & F7 & F8 & F9). exists q'. split; [exact X|].
    assert (M' : made q').
    { split; [rewrite F1; apply M|]. split; [rewrite F2; eapply built_resampled; exact E|]. unfold rewound in X. unfold resampled in E. rewrite E in X. cbn [bind] in X. repeat eexists. exact X. }
    split; [split; [exact M'|split; [rewrite F2; eapply legal_copy; eauto|split; [now rewrite F1|split; [unfold plasma_shaped in *; now rewrite F1, F9|congruence]]]]|]. split; [exact F1|]. split; [exact F9|].
    intros P. unfold bval, bsum, wsum. rewrite F2, Q1, Q2. unfold one_turn at 1 2. rewrite !equi_len. do 3 f_equal. apply sum3_ext. intros u.
    assert (Ep : forall a b p t, pt w a b p t = pt (q_winding q) a b p t) by (intros a b p t; apply (pt_copy _ _ _ _ a b p t E)).
    assert (En : forall p t, wn q' p t = wn q p t) by (intros p t; unfold wn; rewrite F2; apply (pt_copy _ _ _ _ 0 0 p t E)).
    rewrite Ep, En. f_equal. unfold kval, w1, w2, phi1, phi2, td, fphi, targ, qcols, q_nfp. rewrite En, F2, !Ep, F3, F4, F5, F6, F7, A1. reflexivity.
  Qed.
  Lemma everywhere_refined e : 0 < e -> exists N0, forall n m, (N0 <= n)%nat -> (N0 <= m)%nat -> (n mod q_nfp q = 0)%nat -> exists q' g, rewound q p0 t0 n m = Ok q' /\ sound q' x /\ q_plasma q' = q_plasma q /\ q_Bnormal q' = q_Bnormal q /\
    winding_surface_B q' x = Ok g /\ exists B, g = sample B (s_qphi (q_plasma q)) (s_qtheta (q_plasma q)) /\ (forall p t, bnval q' x p t = dot3 (unit_at (q_plasma q) p t) (B p t)) /\
      forall p t, In p (s_qphi (q_plasma q)) -> In t (s_qtheta (q_plasma q)) -> close3 e (B p t) (limit (pt (q_plasma q) 0 0 p t)).
  Proof using S Nz Off.
    intros Pe. destruct (finite_bound (fun u n m => close3 e (bsum n m (pt (q_plasma q) 0 0 (fst u) (snd u))) (limit (pt (q_plasma q) 0 0 (fst u) (snd u)))) (pairs (s_qphi (q_plasma q)) (s_qtheta (q_plasma q)))) as (N0 & H0).
    { intros u _. apply field_refined; [|exact Pe]. intros p t. apply Off. }
    exists (Datatypes.S N0). intros n m Hn Hm Hk. destruct (rewound_facts n m ltac:(lia) ltac:(lia) Hk) as (q' & X & S' & F1 & F9 & Eb). exists q'. eexists. split; [exact X|]. split; [exact S'|]. split; [exact F1|]. split; [exact F9|].
    destruct S' as (M' & L1 & L2 & _ & L3). split; [exact (B_made q' x M' L1 L2 L3)|]. exists (fun p t => bsum n m (pt (q_plasma q) 0 0 p t)). split; [rewrite F1; apply sample_ext; intros; apply Eb|].
    split; [intros p t; unfold bnval; now rewrite F1, Eb|]. intros p t Ip It. apply (H0 (p, t) n m); [now apply pairs_in|lia|lia].
  Qed.
End Winding.
