(** Proofs about the Fourier surface: layout, symmetry, geometry, integrals,
    flattening, DESC conversion. *)
From Coq Require Import String List Bool Arith ZArith Reals Lra Lia FinFun.
From Coquelicot Require Import Coquelicot.
From Verif Require Import Base ModelArray ModelMath SpecMath RDeriv ProofMath ModelSurface SpecSurface ProofSurface.
Import ListNotations.
Open Scope R_scope.

(** ** Layout of the coefficients *)
Lemma ldot_app a b a' b' : length a = length a' -> ldot (a ++ b) (a' ++ b') = ldot a a' + ldot b b'.
Proof.
  revert a'; induction a; destruct a'; simpl; intros H; try discriminate; [unfold ldot at 2; simpl; ring|].
  rewrite !ldot_cons, IHa by lia. ring.
Qed.

Lemma series_ldot f nfp modes coefs phi theta :
  ldot (map (fun mn => f (2 * PI * (IZR (fst mn) * theta - IZR (snd mn) * INR nfp * phi))) modes) coefs
  = series f nfp modes coefs phi theta.
Proof.
  unfold series. revert coefs; induction modes; destruct coefs; simpl; auto.
  rewrite ldot_cons, IHmodes. unfold Rsum; simpl. ring.
Qed.

Lemma entry00_c nfp phi theta mn :
  centry nfp 0 0 phi theta (CCos mn) = cos (2 * PI * (IZR (fst mn) * theta - IZR (snd mn) * INR nfp * phi)).
Proof.
  unfold centry, cmn_entry, derivative_factor. simpl. rewrite !Rmult_1_l. f_equal. unfold phase_even. ring.
Qed.
Lemma entry00_s nfp phi theta mn :
  centry nfp 0 0 phi theta (CSin mn) = sin (2 * PI * (IZR (fst mn) * theta - IZR (snd mn) * INR nfp * phi)).
Proof.
  unfold centry, smn_entry, derivative_factor. simpl. rewrite !Rmult_1_l. f_equal. unfold phase_even. ring.
Qed.

Lemma ldot_ccos nfp phi theta modes coefs :
  ldot (map (centry nfp 0 0 phi theta) (map CCos modes)) coefs = series cos nfp modes coefs phi theta.
Proof.
  rewrite map_map. rewrite <- series_ldot. apply ldot_map_ext. intros. apply entry00_c.
Qed.
Lemma ldot_csin nfp phi theta modes coefs :
  ldot (map (centry nfp 0 0 phi theta) (map CSin modes)) coefs = series sin nfp modes coefs phi theta.
Proof.
  rewrite map_map. rewrite <- series_ldot. apply ldot_map_ext. intros. apply entry00_s.
Qed.
Lemma ldot_czero {A} nfp a b phi theta (l : list A) coefs :
  ldot (map (centry nfp a b phi theta) (map (fun _ => CZero) l)) coefs = 0.
Proof. rewrite map_map. apply (ldot_zeros l). Qed.

Lemma pt00 s phi theta : pt s 0 0 phi theta = cyl_point phi (rval s 0 0 phi theta) (zval s 0 0 phi theta).
Proof.
  unfold pt, cyl_point, Rsum. cbn [Nat.add seq map fold_right]. unfold trig_x, trig_y, leibniz_factor.
  cbn [Nat.sub Nat.modulo Nat.divmod fst snd Nat.div Nat.eqb fact INR pow].
  replace (phi * PI * 2) with (2 * PI * phi) by ring.
  f_equal; field.
Qed.

Lemma legal_split_sym s rc zs : s_stellsym s = true -> s_dofs s = rc ++ zs ->
  length rc = n_modes (s_mpol s) (s_ntor s) -> length zs = (n_modes (s_mpol s) (s_ntor s) - 1)%nat -> legal s.
Proof. intros E D H1 H2. unfold legal, legal_length. rewrite E, D, app_length. lia. Qed.
Lemma legal_split_gen s rc rs zc zs : s_stellsym s = false -> s_dofs s = rc ++ rs ++ zc ++ zs ->
  length rc = n_modes (s_mpol s) (s_ntor s) -> length rs = (n_modes (s_mpol s) (s_ntor s) - 1)%nat ->
  length zc = n_modes (s_mpol s) (s_ntor s) -> length zs = (n_modes (s_mpol s) (s_ntor s) - 1)%nat -> legal s.
Proof. intros E D H1 H2 H3 H4. unfold legal, legal_length. rewrite E, D, !app_length. lia. Qed.

Lemma layout_sym s rc zs : s_stellsym s = true -> s_dofs s = rc ++ zs ->
  length rc = n_modes (s_mpol s) (s_ntor s) -> length zs = (n_modes (s_mpol s) (s_ntor s) - 1)%nat ->
  reports gamma s (fun phi theta =>
    cyl_point phi (series cos (s_nfp s) (cmodes (s_mpol s) (s_ntor s)) rc phi theta)
                  (series sin (s_nfp s) (smodes (s_mpol s) (s_ntor s)) zs phi theta)).
Proof.
  intros E D H1 H2.
  assert (forall phi theta, pt s 0 0 phi theta =
    cyl_point phi (series cos (s_nfp s) (cmodes (s_mpol s) (s_ntor s)) rc phi theta)
                  (series sin (s_nfp s) (smodes (s_mpol s) (s_ntor s)) zs phi theta)) as HP.
  { intros. rewrite pt00. unfold rval, zval, rcols, zcols. rewrite E, D.
    rewrite !map_app, !ldot_app by (rewrite !map_length, ?length_cmodes; auto).
    rewrite ldot_ccos, ldot_csin, !ldot_czero, Rplus_0_l, Rplus_0_r. reflexivity. }
  intros ps ts Hp Ht. destruct (reports_gammadash s 0 0 (legal_split_sym s rc zs E D H1 H2) ps ts Hp Ht) as (s' & C & Q).
  exists s'. split; auto. unfold gamma. rewrite Q. f_equal. apply map_ext; intros. apply map_ext; intros. apply HP.
Qed.

Lemma layout_gen s rc rs zc zs : s_stellsym s = false -> s_dofs s = rc ++ rs ++ zc ++ zs ->
  length rc = n_modes (s_mpol s) (s_ntor s) -> length rs = (n_modes (s_mpol s) (s_ntor s) - 1)%nat ->
  length zc = n_modes (s_mpol s) (s_ntor s) -> length zs = (n_modes (s_mpol s) (s_ntor s) - 1)%nat ->
  let c := cmodes (s_mpol s) (s_ntor s) in let sm := smodes (s_mpol s) (s_ntor s) in let n := s_nfp s in
  reports gamma s (fun phi theta =>
    cyl_point phi (series cos n c rc phi theta + series sin n sm rs phi theta)
                  (series cos n c zc phi theta + series sin n sm zs phi theta)).
Proof.
  intros E D H1 H2 H3 H4. cbv zeta.
  assert (forall phi theta, pt s 0 0 phi theta =
    cyl_point phi (series cos (s_nfp s) (cmodes (s_mpol s) (s_ntor s)) rc phi theta
                   + series sin (s_nfp s) (smodes (s_mpol s) (s_ntor s)) rs phi theta)
                  (series cos (s_nfp s) (cmodes (s_mpol s) (s_ntor s)) zc phi theta
                   + series sin (s_nfp s) (smodes (s_mpol s) (s_ntor s)) zs phi theta)) as HP.
  { intros. rewrite pt00. unfold rval, zval, rcols, zcols. rewrite E, D.
    rewrite (app_assoc rc rs). 
    rewrite !map_app. rewrite !ldot_app by (rewrite ?app_length, !map_length, ?length_cmodes, ?length_smodes; auto; lia).
    rewrite !ldot_ccos, !ldot_csin, !ldot_czero, !Rplus_0_l, !Rplus_0_r. reflexivity. }
  intros ps ts Hp Ht.
  destruct (reports_gammadash s 0 0 (legal_split_gen s rc rs zc zs E D H1 H2 H3 H4) ps ts Hp Ht) as (s' & C & Q).
  exists s'. split; auto. unfold gamma. rewrite Q. f_equal. apply map_ext; intros. apply map_ext; intros. apply HP.
Qed.

Lemma mode_layout mpol ntor : exists cl sl,
  once_each (is_mode mpol ntor) cl /\
  once_each (fun mn => is_mode mpol ntor mn /\ mn <> (0%Z, 0%Z)) sl /\
  length cl = n_modes mpol ntor /\ length sl = (n_modes mpol ntor - 1)%nat /\
  (forall s rc zs, s_mpol s = mpol -> s_ntor s = ntor -> s_stellsym s = true ->
     s_dofs s = rc ++ zs -> length rc = length cl -> length zs = length sl ->
     reports gamma s (fun phi theta =>
       cyl_point phi (series cos (s_nfp s) cl rc phi theta) (series sin (s_nfp s) sl zs phi theta))) /\
  (forall s rc rs zc zs, s_mpol s = mpol -> s_ntor s = ntor -> s_stellsym s = false ->
     s_dofs s = rc ++ rs ++ zc ++ zs -> length rc = length cl -> length rs = length sl ->
     length zc = length cl -> length zs = length sl ->
     reports gamma s (fun phi theta =>
       cyl_point phi (series cos (s_nfp s) cl rc phi theta + series sin (s_nfp s) sl rs phi theta)
                     (series cos (s_nfp s) cl zc phi theta + series sin (s_nfp s) sl zs phi theta))).
Proof.
  exists (cmodes mpol ntor), (smodes mpol ntor).
  split; [apply cmodes_once|]. split; [apply smodes_once|]. split; [apply length_cmodes|].
  split; [apply length_smodes|]. rewrite length_cmodes, length_smodes. split.
  - intros s rc zs <- <-. apply layout_sym.
  - intros s rc rs zc zs <- <-. apply layout_gen.
Qed.

(** ** Symmetry *)
Lemma cos_Zperiod x k : cos (x + IZR k * (2 * PI)) = cos x.
Proof.
  destruct (Z_le_gt_dec 0 k).
  - rewrite <- (Z2Nat.id k) by auto. rewrite <- INR_IZR_INZ.
    rewrite <- (cos_period x (Z.to_nat k)) at 1. f_equal. ring.
  - rewrite <- (cos_period (x + IZR k * (2 * PI)) (Z.to_nat (- k))).
    rewrite INR_IZR_INZ, Z2Nat.id, opp_IZR by lia. f_equal. ring.
Qed.
Lemma sin_Zperiod x k : sin (x + IZR k * (2 * PI)) = sin x.
Proof.
  destruct (Z_le_gt_dec 0 k).
  - rewrite <- (Z2Nat.id k) by auto. rewrite <- INR_IZR_INZ.
    rewrite <- (sin_period x (Z.to_nat k)) at 1. f_equal. ring.
  - rewrite <- (sin_period (x + IZR k * (2 * PI)) (Z.to_nat (- k))).
    rewrite INR_IZR_INZ, Z2Nat.id, opp_IZR by lia. f_equal. ring.
Qed.

Lemma centry_shift nfp a b phi theta phi' theta' c :
  (forall m n, exists k, phase_even nfp m n phi' theta' = phase_even nfp m n phi theta + IZR k * (2 * PI)) ->
  centry nfp a b phi' theta' c = centry nfp a b phi theta c.
Proof.
  intros H. destruct c as [|[m n]|[m n]]; cbn [centry]; auto; destruct (H m n) as [k E];
    unfold cmn_entry, smn_entry; cbn [fst snd]; rewrite !phase_same, E, cos_Zperiod, sin_Zperiod; reflexivity.
Qed.

Lemma phase_shift_nfp nfp m n phi theta : (nfp <> 0)%nat ->
  phase_even nfp m n (phi + / INR nfp) theta = phase_even nfp m n phi theta + IZR (- n) * (2 * PI).
Proof.
  intros H. unfold phase_even. rewrite opp_IZR. field. now apply not_0_INR.
Qed.
Lemma phase_shift_one nfp m n phi theta :
  phase_even nfp m n (phi + 1) theta = phase_even nfp m n phi theta + IZR (- n * Z.of_nat nfp) * (2 * PI).
Proof. unfold phase_even. rewrite mult_IZR, opp_IZR, <- INR_IZR_INZ. ring. Qed.
Lemma phase_shift_theta nfp m n phi theta :
  phase_even nfp m n phi (theta + 1) = phase_even nfp m n phi theta + IZR m * (2 * PI).
Proof. unfold phase_even. ring. Qed.

Lemma cx_shift t phi d : cx t (phi + d) = cos (2 * PI * d) * cx t phi - sin (2 * PI * d) * cy t phi.
Proof.
  unfold cx, cy. replace ((phi + d) * PI * 2) with (phi * PI * 2 + 2 * PI * d) by ring.
  rewrite cos_plus, sin_plus. destruct (Nat.eqb _ _); ring.
Qed.
Lemma cy_shift t phi d : cy t (phi + d) = sin (2 * PI * d) * cx t phi + cos (2 * PI * d) * cy t phi.
Proof.
  unfold cx, cy. replace ((phi + d) * PI * 2) with (phi * PI * 2 + 2 * PI * d) by ring.
  rewrite cos_plus, sin_plus. destruct (Nat.eqb _ _); ring.
Qed.

Lemma rz_shift s phi theta phi' theta' :
  (forall m n, exists k, phase_even (s_nfp s) m n phi' theta' = phase_even (s_nfp s) m n phi theta + IZR k * (2 * PI)) ->
  forall a b, rval s a b phi' theta' = rval s a b phi theta /\ zval s a b phi' theta' = zval s a b phi theta.
Proof.
  intros H a b. unfold rval, zval. split; apply ldot_map_ext; intros; apply centry_shift; auto.
Qed.

Lemma Rsum_minus {A} (f g : A -> R) l : Rsum (map (fun x => f x - g x) l) = Rsum (map f l) - Rsum (map g l).
Proof. unfold Rsum. induction l; simpl; [ring|]. rewrite IHl. ring. Qed.

Lemma pt_shift s a b phi theta d :
  (forall m n, exists k, phase_even (s_nfp s) m n (phi + d) theta = phase_even (s_nfp s) m n phi theta + IZR k * (2 * PI)) ->
  pt s a b (phi + d) theta = rotz (2 * PI * d) (pt s a b phi theta).
Proof.
  intros H. pose proof (rz_shift _ _ _ _ _ H) as HR. unfold pt, rotz. cbn [vx vy vz]. f_equal.
  - rewrite <- !Rsum_scal, <- Rsum_minus. apply Rsum_ext. intros k _.
    rewrite !trig_x_cx, trig_y_cy, cx_shift, (proj1 (HR k b)). ring.
  - rewrite <- !Rsum_scal, <- Rsum_plus. apply Rsum_ext. intros k _.
    rewrite trig_x_cx, !trig_y_cy, cy_shift, (proj1 (HR k b)). ring.
  - apply HR.
Qed.

Lemma rotz_full v : rotz (2 * PI * 1) v = v.
Proof. unfold rotz. rewrite Rmult_1_r, cos_2PI, sin_2PI. destruct v; simpl. f_equal; ring. Qed.

Lemma surface_periods s a b F : (s_nfp s <> 0)%nat -> reports (gammadash a b) s F ->
  forall phi theta,
    F (phi + / INR (s_nfp s)) theta = rotz (2 * PI / INR (s_nfp s)) (F phi theta) /\
    F (phi + 1) theta = F phi theta /\ F phi (theta + 1) = F phi theta.
Proof.
  intros Hn H phi theta. rewrite !(reports_pt _ _ _ _ H). repeat split.
  - apply pt_shift. intros. eexists. now apply phase_shift_nfp.
  - rewrite <- (rotz_full (pt s a b phi theta)). apply pt_shift. intros. eexists. apply phase_shift_one.
  - unfold pt.
    assert (forall a b, rval s a b phi (theta + 1) = rval s a b phi theta /\ zval s a b phi (theta + 1) = zval s a b phi theta) as HR.
    { intros. apply rz_shift. intros. eexists. apply phase_shift_theta. }
    f_equal; try apply HR; apply Rsum_ext; intros; now rewrite (proj1 (HR _ _)).
Qed.

Lemma phase_neg nfp m n phi theta : phase_even nfp m n (- phi) (- theta) = - phase_even nfp m n phi theta.
Proof. unfold phase_even. ring. Qed.

Lemma pt_neg s phi theta : s_stellsym s = true ->
  rval s 0 0 (- phi) (- theta) = rval s 0 0 phi theta /\ zval s 0 0 (- phi) (- theta) = - zval s 0 0 phi theta.
Proof.
  intros E. unfold rval, zval, rcols, zcols. rewrite E. split.
  - apply ldot_map_ext. intros x Hx. apply in_app_iff in Hx as [Hx|Hx]; apply in_map_iff in Hx as (y & <- & _); auto.
    cbn [centry]. unfold cmn_entry. cbn [Nat.add Nat.modulo Nat.divmod fst snd Nat.sub Nat.eqb].
    destruct y as [m n]. cbn [fst snd]. now rewrite phase_neg, cos_neg.
  - replace (- ldot _ _) with (-1 * ldot (map (centry (s_nfp s) 0 0 phi theta)
       (map (fun _ => CZero) (map CCos (cmodes (s_mpol s) (s_ntor s))) ++ map CSin (smodes (s_mpol s) (s_ntor s)))) (s_dofs s)) by ring.
    rewrite <- ldot_map_scal. apply ldot_map_ext. intros x Hx.
    apply in_app_iff in Hx as [Hx|Hx]; apply in_map_iff in Hx as (y & <- & _); cbn [centry]; [ring|].
    unfold smn_entry. cbn [Nat.add Nat.modulo Nat.divmod fst snd Nat.sub Nat.eqb].
    destruct y as [m n]. cbn [fst snd]. rewrite phase_neg, sin_neg. ring.
Qed.

Lemma surface_stellsym s F : s_stellsym s = true -> reports gamma s F ->
  forall phi theta,
    F (- phi) (- theta) = V3 (vx (F phi theta)) (- vy (F phi theta)) (- vz (F phi theta)).
Proof.
  intros E H phi theta. rewrite !(reports_pt _ _ _ _ H), !pt00.
  destruct (pt_neg s phi theta E) as [-> ->]. unfold cyl_point. cbn [vx vy vz].
  replace (2 * PI * - phi) with (- (2 * PI * phi)) by ring. rewrite cos_neg, sin_neg. f_equal; ring.
Qed.

(** ** Geometry *)
Definition nrm s p t := cross3 (pt s 1 0 p t) (pt s 0 1 p t).

Lemma normal_copy s ps ts s' : legal s -> resampled s ps ts s' -> normal s' = Ok (sample (nrm s) ps ts).
Proof.
  intros L C. unfold normal, gammadash1, gammadash2. rewrite !(gammadash_copy s ps ts s') by auto.
  simpl. rewrite gmap2_sample. reflexivity.
Qed.
Lemma unitnormal_copy s ps ts s' : legal s -> resampled s ps ts s' ->
  unitnormal s' = Ok (sample (fun p t => scale3 (/ norm3 (nrm s p t)) (nrm s p t)) ps ts).
Proof. intros L C. unfold unitnormal. rewrite (normal_copy s ps ts s') by auto. simpl. now rewrite gmap_sample. Qed.
Lemma da_copy s ps ts s' : legal s -> resampled s ps ts s' ->
  da s' = Ok (sample (fun p t => s_dphi s' * s_dtheta s' * norm3 (nrm s p t)) ps ts).
Proof. intros L C. unfold da. rewrite (normal_copy s ps ts s') by auto. simpl. now rewrite gmap_sample. Qed.
Lemma grad_copy s ps ts s' : legal s -> resampled s ps ts s' ->
  grad_helper s' = Ok (sample (fun p t => grad1_at (pt s 1 0 p t) (pt s 0 1 p t)) ps ts,
                       sample (fun p t => grad2_at (pt s 1 0 p t) (pt s 0 1 p t)) ps ts).
Proof.
  intros L C. unfold grad_helper, gammadash1, gammadash2. rewrite !(gammadash_copy s ps ts s') by auto.
  simpl. now rewrite !gmap2_sample.
Qed.
Lemma from_fields_copy {A} s ps ts s' (f : vec3 -> vec3 -> vec3 -> vec3 -> vec3 -> vec3 -> A) :
  legal s -> resampled s ps ts s' ->
  from_fields s' f = Ok (sample (fun p t => f (nrm s p t) (pt s 1 0 p t) (pt s 0 1 p t)
     (pt s 2 0 p t) (pt s 1 1 p t) (pt s 0 2 p t)) ps ts).
Proof.
  intros L C. unfold from_fields, gammadash1, gammadash2, gammadash1dash1, gammadash1dash2, gammadash2dash2.
  rewrite (normal_copy s ps ts s') by auto. rewrite !(gammadash_copy s ps ts s') by auto.
  simpl. now rewrite !gmap2_sample.
Qed.

Lemma reports_of {A} (m : surface -> result (grid A)) s F :
  (forall ps ts s', resampled s ps ts s' -> m s' = Ok (sample F ps ts)) -> reports m s F.
Proof.
  intros H ps ts Hp Ht. destruct (copy_ok s ps ts Hp Ht) as [s' C]. exists s'. split; auto. now apply H.
Qed.

Lemma norm3_sq0 v : norm3 v <> 0 <-> v <> zero3.
Proof.
  split; intros H E.
  - apply H. rewrite E. unfold norm3, zero3; simpl. rewrite Rmult_0_l, !Rplus_0_l. apply sqrt_0.
  - apply H. assert (Q : norm3 v * norm3 v = 0) by (rewrite E; ring). rewrite norm3_sq in Q.
    destruct v as [x y z]; simpl in Q. unfold zero3.
    pose proof (Rle_0_sqr x). pose proof (Rle_0_sqr y). pose proof (Rle_0_sqr z). unfold Rsqr in *.
    f_equal; apply Rsqr_0_uniq; unfold Rsqr; lra.
Qed.
