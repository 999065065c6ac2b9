(** The flux of the coil field through the plasma surface. *)
From Coq Require Import String List Bool Arith ZArith Reals Lra Lia.
From Coquelicot Require Import Coquelicot.
From Verif Require Import Base ModelArray ProofArray ModelMath SpecMath ProofMath ModelSurface SpecSurface ProofSurface ProofSurface2 ProofSurface3
  ModelParams ModelField SpecField ProofField ProofField2 ProofField3 ProofField4 ProofField6
  ModelQuantity ModelWrapper ModelPackage SpecPackage ProofPackage ProofPackage2 ProofPackage3 ProofPackage4 ProofConvex ProofUnique2 ProofPeriods SpecQuad ProofQuad ProofQuad2 ProofQuad3 ProofQuad4.
Import ListNotations.
Open Scope R_scope.

(** ** Integrals of derivatives of periodic functions *)
Lemma RInt_period (f df : R -> R) a : (forall t, is_derive f t (df t)) -> (forall t, continuous df t) -> f (a + 1) = f a -> RInt df a (a + 1) = 0.
Proof.
  intros D C P. apply is_RInt_unique. replace 0 with (minus (f (a + 1)) (f a)) by (rewrite P; unfold minus, plus, opp; cbn; ring).
  apply (is_RInt_derive f df); auto.
Qed.
Lemma double_period (u du : R -> R -> R) a c : (forall p t, is_derive (fun s => u s t) p (du p t)) -> cont2 u -> cont2 du -> (forall t, u (a + 1) t = u a t) -> double du a 1 c 1 = 0.
Proof.
  intros D C C' P. unfold double. apply (RInt_period (fun p => RInt (u p) c (c + 1))).
  - intros p. assert (ED : forall s t, Derive (fun z => u z t) s = du s t) by (intros; now apply is_derive_unique).
    replace (RInt (du p) c (c + 1)) with (RInt (fun t => Derive (fun z => u z t) p) c (c + 1)) by (apply RInt_ext; intros; apply ED).
    apply is_derive_RInt_param.
    + exists (mkposreal 1 Rlt_0_1). intros s _ t _. eexists. apply D.
    + intros t _. eapply continuity_2d_pt_ext; [|apply (C' p t)]. intros. symmetry. apply ED.
    + exists (mkposreal 1 Rlt_0_1). intros s _. apply continuous_integrable, cont2_slice, C.
  - apply inner_continuous; [lra|exact C'].
  - apply RInt_ext. intros t _. apply P.
Qed.
Lemma double_minus F G a L c T : 0 <= T -> cont2 F -> cont2 G -> double (fun p t => F p t - G p t) a L c T = double F a L c T - double G a L c T.
Proof.
  intros PT C C'. unfold double. rewrite <- (RInt_minus (V := R_CompleteNormedModule)).
  - apply RInt_ext. intros p _. apply (RInt_minus (V := R_CompleteNormedModule)); apply continuous_integrable; now apply cont2_slice.
  - apply continuous_integrable. now apply inner_continuous.
  - apply continuous_integrable. now apply inner_continuous.
Qed.
Lemma double_ext F G a L c T : (forall p t, F p t = G p t) -> double F a L c T = double G a L c T.
Proof. intros E. unfold double. apply RInt_ext. intros p _. apply RInt_ext. intros t _. apply E. Qed.
Lemma flux_zero (u v du dv : R -> R -> R) a c : (forall p t, is_derive (fun s => u s t) p (du p t)) -> (forall p t, is_derive (fun s => v p s) t (dv p t)) ->
  cont2 u -> cont2 du -> cont2 dv -> (forall p t, u (p + 1) t = u p t) -> (forall p t, v p (t + 1) = v p t) -> double (fun p t => du p t - dv p t) a 1 c 1 = 0.
Proof.
  intros D1 D2 C C1 C2 P1 P2. rewrite double_minus by (auto; lra). rewrite (double_period u du a c D1 C C1 (P1 a)).
  replace (double dv a 1 c 1) with 0; [ring|]. symmetry. unfold double. rewrite (RInt_ext _ (fun _ => 0)); [rewrite RInt_const; unfold scal; cbn; unfold mult; cbn; ring|].
  intros p _. apply (RInt_period (v p)); auto. now apply cont2_slice.
Qed.

(** ** One source *)
Lemma inv_norm_derive (f : R -> vec3) t d : derives f t d -> f t <> zero3 -> is_derive (fun s => / norm3 (f s)) t (- dot3 (f t) d / norm3 (f t) ^ 3).
Proof.
  intros (Dx & Dy & Dz) Nz. pose proof (norm_pos _ Nz) as Pn. rewrite norm_dot in Pn.
  assert (Pd : 0 < dot3 (f t) (f t)). { destruct (Rlt_le_dec 0 (dot3 (f t) (f t))) as [H|H]; [exact H|]. rewrite sqrt_neg_0 in Pn by exact H. lra. }
  rewrite !norm_dot. apply (is_derive_ext (fun s => / sqrt (vx (f s) * vx (f s) + vy (f s) * vy (f s) + vz (f s) * vz (f s)))).
  { intros s. rewrite norm_dot. reflexivity. }
  set (g := fun s => vx (f s)) in *. set (h := fun s => vy (f s)) in *. set (k := fun s => vz (f s)) in *.
  change (is_derive (fun s => / sqrt (g s * g s + h s * h s + k s * k s)) t (- dot3 (f t) d / sqrt (dot3 (f t) (f t)) ^ 3)).
  assert (Pd' : 0 < g t * g t + h t * h t + k t * k t) by exact Pd.
  auto_derive.
  - repeat match goal with
      | |- _ /\ _ => split
      | |- True => exact Logic.I
      | |- ex_derive _ _ => first [exists (vx d); exact Dx|exists (vy d); exact Dy|exists (vz d); exact Dz]
      | |- 0 < _ => exact Pd'
      | |- _ <> 0 => now apply Rgt_not_eq, sqrt_lt_R0
      end.
  - assert (Ex : Derive (fun s : R => g s) t = vx d) by (now apply is_derive_unique). assert (Ey : Derive (fun s : R => h s) t = vy d) by (now apply is_derive_unique). assert (Ez : Derive (fun s : R => k s) t = vz d) by (now apply is_derive_unique).
    rewrite Ex, Ey, Ez.
    change (dot3 (f t) d) with (g t * vx d + h t * vy d + k t * vz d). change (dot3 (f t) (f t)) with (g t * g t + h t * h t + k t * k t).
    field. now apply Rgt_not_eq, sqrt_lt_R0.
Qed.
Definition pot (W J : vec3) (P D : vec3) : R := dot3 J D * / norm3 (sub3 P W).
Lemma pot_derive W J (f g : R -> vec3) t d d' : derives f t d -> derives g t d' -> f t <> W ->
  is_derive (fun s => pot W J (f s) (g s)) t (dot3 J d' * / norm3 (sub3 (f t) W) + dot3 J (g t) * (- dot3 (sub3 (f t) W) d / norm3 (sub3 (f t) W) ^ 3)).
Proof.
  intros Df (Gx & Gy & Gz) Nz. unfold pot.
  assert (Ds : derives (fun s => sub3 (f s) W) t d).
  { destruct Df as (Fx & Fy & Fz). unfold derives, sub3. cbn [vx vy vz].
    split; [|split]; (eapply is_derive_ext; [intros; unfold Rminus; reflexivity|]);
    (match goal with |- is_derive _ _ ?a => replace a with (plus a 0) by (unfold plus; cbn; ring) end); (apply (is_derive_plus (K := R_AbsRing) (V := R_NormedModule)); [assumption|apply (is_derive_const (K := R_AbsRing) (V := R_NormedModule))]). }
  pose proof (inv_norm_derive _ _ _ Ds (sub3_zero _ _ Nz)) as Di.
  assert (Dj : is_derive (fun s => dot3 J (g s)) t (dot3 J d')).
  { unfold dot3. apply (is_derive_plus (K := R_AbsRing) (V := R_NormedModule)); [apply (is_derive_plus (K := R_AbsRing) (V := R_NormedModule))|]; apply is_derive_scal; assumption. }
  apply (is_derive_mult (fun s => dot3 J (g s)) (fun s => / norm3 (sub3 (f s) W)) t _ _ Dj Di). intros; apply Rmult_comm.
Qed.

Lemma pt_turn s a b p t : pt s a b (p + 1) t = pt s a b p t.
Proof.
  assert (E := rz_shift s p t (p + 1) t ltac:(intros m n; exists (- n * Z.of_nat (s_nfp s))%Z; unfold phase_even; rewrite mult_IZR, opp_IZR, <- INR_IZR_INZ; ring)).
  assert (Ec : forall c, trig_x a c (p + 1) = trig_x a c p /\ trig_y a c (p + 1) = trig_y a c p).
  { intros c. unfold trig_x, trig_y. replace ((p + 1) * PI * 2) with (p * PI * 2 + 2 * INR 1 * PI) by (cbn [INR]; ring). now rewrite cos_period, sin_period. }
  unfold pt. f_equal; [apply Rsum_ext; intros k _; rewrite ?(proj1 (Ec k)), ?(proj2 (Ec k)); now rewrite (proj1 (E k b))..|apply (E a b)].
Qed.
Section Source.
  Variables (s : surface) (W J : vec3).
  Hypothesis Off : forall p t, pt s 0 0 p t <> W.
  Notation P := (pt s 0 0). Notation P1 := (pt s 1 0). Notation P2 := (pt s 0 1). Notation P12 := (pt s 1 1).
  Notation d := (fun p t => sub3 (P p t) W).
  Definition once (p t : R) : R := dot3 (nrm s p t) (cross3 J (sub3 (P p t) W)) * (/ norm3 (sub3 (P p t) W)) ^ 3.
  Lemma cont_d : cont3 d.
  Proof using. apply cont3_sub; [apply cont3_pt|apply cont3_const]. Qed.
  Lemma cont_inv : cont2 (fun p t => / norm3 (d p t)).
  Proof using Off. apply cont2_inv; [apply cont3_norm, cont_d|]. intros p t. apply Rgt_not_eq, norm_pos, sub3_zero, Off. Qed.
  Lemma cont_once : cont2 once.
  Proof using Off.
    unfold once. pose proof cont_d. pose proof cont_inv. apply cont2_mult; [apply cont3_dot; [apply cont3_nrm|apply cont3_cross; [apply cont3_const|assumption]]|].
    cbn [pow]. repeat first [assumption|apply cont2_mult|apply cont2_const].
  Qed.
  Definition du (p t : R) : R := dot3 J (P12 p t) * / norm3 (d p t) + dot3 J (P2 p t) * (- dot3 (d p t) (P1 p t) / norm3 (d p t) ^ 3).
  Definition dv (p t : R) : R := dot3 J (P12 p t) * / norm3 (d p t) + dot3 J (P1 p t) * (- dot3 (d p t) (P2 p t) / norm3 (d p t) ^ 3).
  Lemma cont_part a b : cont2 (fun p t => dot3 J (P12 p t) * / norm3 (d p t) + dot3 J (pt s (fst a) (snd a) p t) * (- dot3 (d p t) (pt s (fst b) (snd b) p t) / norm3 (d p t) ^ 3)).
  Proof using Off.
    pose proof cont_d. pose proof cont_inv. assert (forall a b, cont2 (fun p t => dot3 J (pt s a b p t))) by (intros; apply cont3_dot; [apply cont3_const|apply cont3_pt]).
    apply cont2_plus; [now apply cont2_mult|]. apply cont2_mult; [auto|].
    apply (cont2_ext (fun p t => - dot3 (d p t) (pt s (fst b) (snd b) p t) * (/ norm3 (d p t)) ^ 3)).
    - intros p t. unfold Rdiv. now rewrite pow_inv.
    - apply cont2_mult; [apply cont2_opp, cont3_dot; [assumption|apply cont3_pt]|]. cbn [pow]. repeat first [assumption|apply cont2_mult|apply cont2_const].
  Qed.
  Lemma once_diff p t : once p t = du p t - dv p t.
  Proof using.
    unfold once, du, dv, nrm. rewrite pow_inv. unfold Rdiv. generalize (/ norm3 (d p t) ^ 3). intros w.
    unfold dot3, cross3. cbn [vx vy vz]. ring.
  Qed.
  Lemma once_flux p0 t0 : double once p0 1 t0 1 = 0.
  Proof using Off.
    rewrite (double_ext once (fun p t => du p t - dv p t)) by exact once_diff.
    apply (flux_zero (fun p t => pot W J (P p t) (P2 p t)) (fun p t => pot W J (P p t) (P1 p t))).
    - intros p t. apply (pot_derive W J (fun x => P x t) (fun x => P2 x t)); [apply pt_phi|apply (pt_phi s 0 1)|apply Off].
    - intros p t. apply (pot_derive W J (P p) (P1 p)); [apply pt_theta|apply (pt_theta s 1 0)|apply Off].
    - unfold pot. apply cont2_mult; [apply cont3_dot; [apply cont3_const|apply cont3_pt]|apply cont_inv].
    - apply (cont_part (0, 1)%nat (1, 0)%nat).
    - apply (cont_part (1, 0)%nat (0, 1)%nat).
    - intros p t. now rewrite !pt_turn.
    - intros p t. now rewrite !pt_theta_one.
  Qed.
End Source.

(** ** All sources *)
Lemma double_plus F G a L c T : 0 <= T -> cont2 F -> cont2 G -> double (fun p t => F p t + G p t) a L c T = double F a L c T + double G a L c T.
Proof.
  intros PT C C'. unfold double. rewrite <- (RInt_plus (V := R_CompleteNormedModule)).
  - apply RInt_ext. intros p _. apply (RInt_plus (V := R_CompleteNormedModule)); apply continuous_integrable; now apply cont2_slice.
  - apply continuous_integrable. now apply inner_continuous.
  - apply continuous_integrable. now apply inner_continuous.
Qed.
Lemma double_scal k F a L c T : 0 <= T -> cont2 F -> double (fun p t => k * F p t) a L c T = k * double F a L c T.
Proof.
  intros PT C. unfold double. change (k * RInt (fun p => RInt (F p) c (c + T)) a (a + L)) with (Hierarchy.scal k (RInt (fun p => RInt (F p) c (c + T)) a (a + L))).
  rewrite <- (RInt_scal (V := R_CompleteNormedModule)).
  - apply RInt_ext. intros p _. apply (RInt_scal (V := R_CompleteNormedModule)); apply continuous_integrable; now apply cont2_slice.
  - apply continuous_integrable. now apply inner_continuous.
Qed.
Lemma double_zero_sum {A} (F : A -> R -> R -> R) l a L c T : 0 <= T -> (forall j, In j l -> cont2 (F j) /\ double (F j) a L c T = 0) -> double (fun p t => Rsum (map (fun j => F j p t) l)) a L c T = 0.
Proof.
  intros PT. induction l as [|j l IH]; intros H.
  - unfold double. rewrite (RInt_ext _ (fun _ => 0)); [rewrite RInt_const; unfold Hierarchy.scal; cbn; unfold mult; cbn; ring|]. intros p _.
    rewrite (RInt_ext _ (fun _ => 0)) by (intros; reflexivity). rewrite RInt_const; unfold Hierarchy.scal; cbn; unfold mult; cbn; ring.
  - rewrite (double_ext _ (fun p t => F j p t + Rsum (map (fun j => F j p t) l))) by (intros; reflexivity).
    destruct (H j (or_introl eq_refl)) as (C & E). rewrite double_plus; [|exact PT|exact C|].
    + rewrite E, IH; [ring|]. intros i Hi. apply H. now right.
    + apply (cont2_Rsum (fun p t j => F j p t)). intros i Hi. apply H. now right.
Qed.
Lemma flux_parts q x p t : nrm (q_plasma q) p t <> zero3 ->
  bnval q x p t * norm3 (nrm (q_plasma q) p t) =
  / INR (length (s_qtheta (q_winding q))) * (/ INR (length (s_qphi (q_winding q))) * (fak * Rsum (map (fun u =>
    once (q_plasma q) (pt (q_winding q) 0 0 (fst u) (snd u)) (scale3 (norm3 (wn q (fst u) (snd u))) (kval q x (fst u) (snd u))) p t) (pairs (s_qphi (q_winding q)) (s_qtheta (q_winding q)))))).
Proof.
  intros Nz. pose proof (norm_pos _ Nz) as Pn. unfold bnval, unit_at, bval, wsum.
  set (n := nrm (q_plasma q) p t) in *. set (a := / INR (length (s_qtheta (q_winding q)))). set (b := / INR (length (s_qphi (q_winding q)))).
  set (l := pairs _ _).
  assert (E : forall v, dot3 (scale3 (/ norm3 n) n) (scale3 a (scale3 b (scale3 fak v))) * norm3 n = a * (b * (fak * dot3 n v))).
  { intros v. unfold dot3, scale3. cbn [vx vy vz]. field. lra. }
  rewrite E. do 3 f_equal. clear E. induction l as [|u l IH]; [unfold Rsum, dot3, zero3; cbn; ring|].
  unfold Rsum in *. cbn [map sum3 fold_right]. rewrite <- IH. unfold once, contribution. cbv zeta. fold n.
  rewrite <- !norm_dot. unfold sum3. generalize (fold_right add3 zero3 (map (fun u => scale3 (norm3 (wn q (fst u) (snd u))) (scale3 (1 / norm3 (sub3 (pt (q_plasma q) 0 0 p t) (pt (q_winding q) 0 0 (fst u) (snd u))) * (1 / norm3 (sub3 (pt (q_plasma q) 0 0 p t) (pt (q_winding q) 0 0 (fst u) (snd u)))) * (1 / norm3 (sub3 (pt (q_plasma q) 0 0 p t) (pt (q_winding q) 0 0 (fst u) (snd u))))) (cross3 (kval q x (fst u) (snd u)) (sub3 (pt (q_plasma q) 0 0 p t) (pt (q_winding q) 0 0 (fst u) (snd u)))))) l)).
  intros v. generalize (norm3 (sub3 (pt (q_plasma q) 0 0 p t) (pt (q_winding q) 0 0 (fst u) (snd u)))). intros r. unfold Rdiv. rewrite Rmult_1_l. generalize (/ r). intros w.
  unfold dot3, scale3, cross3, add3. cbn [vx vy vz]. ring.
Qed.
Section Flux.
  Variables (q : params) (x : list R).
  Hypothesis Nz : forall p t, nrm (q_plasma q) p t <> zero3.
  Hypothesis Off : forall p t p' t', In p' (s_qphi (q_winding q)) -> In t' (s_qtheta (q_winding q)) -> pt (q_plasma q) 0 0 p t <> pt (q_winding q) 0 0 p' t'.
  Lemma flux_turn p0 t0 : double (fun p t => bnval q x p t * norm3 (nrm (q_plasma q) p t)) p0 1 t0 1 = 0.
  Proof using Nz Off.
    rewrite (double_ext _ _ _ _ _ _ (fun p t => flux_parts q x p t (Nz p t))).
    set (F := fun (u : R * R) p t => once (q_plasma q) (pt (q_winding q) 0 0 (fst u) (snd u)) (scale3 (norm3 (wn q (fst u) (snd u))) (kval q x (fst u) (snd u))) p t).
    assert (H : forall u, In u (pairs (s_qphi (q_winding q)) (s_qtheta (q_winding q))) -> cont2 (F u) /\ double (F u) p0 1 t0 1 = 0).
    { intros (p', t') I. apply pairs_in in I as (I1 & I2). split; [apply cont_once|apply once_flux]; intros p t; now apply Off. }
    assert (C : cont2 (fun p t => Rsum (map (fun u => F u p t) (pairs (s_qphi (q_winding q)) (s_qtheta (q_winding q)))))).
    { apply (cont2_Rsum (fun p t u => F u p t)). intros u Hu. now apply H. }
    rewrite double_scal; [|lra|repeat (apply cont2_mult; [apply cont2_const|]); exact C].
    rewrite double_scal; [|lra|repeat (apply cont2_mult; [apply cont2_const|]); exact C].
    rewrite double_scal; [|lra|exact C]. rewrite (double_zero_sum F); [ring|lra|exact H].
  Qed.
End Flux.

(** ** One period and the whole turn *)
Lemma RInt_shift (f : R -> R) s a b : (forall t, continuous f t) -> (forall t, f (t + s) = f t) -> RInt f (a + s) (b + s) = RInt f a b.
Proof.
  intros C P. pose proof (RInt_comp_lin (V := R_CompleteNormedModule) f 1 s a b) as H. rewrite !Rmult_1_l in H. rewrite <- H by (now apply continuous_integrable).
  apply RInt_ext. intros t _. change (1 * f (1 * t + s) = f t). now rewrite !Rmult_1_l, P.
Qed.
Lemma RInt_periods (f : R -> R) h a : (forall t, continuous f t) -> (forall t, f (t + h) = f t) -> forall k, RInt f a (a + INR k * h) = INR k * RInt f a (a + h).
Proof.
  intros C P. induction k as [|k IH]; [cbn [INR]; rewrite Rmult_0_l, Rplus_0_r, RInt_point; unfold zero; cbn; ring|].
  rewrite S_INR. replace (a + (INR k + 1) * h) with (a + INR k * h + h) by ring.
  rewrite <- (RInt_Chasles (V := R_CompleteNormedModule) f a (a + INR k * h)) by (now apply continuous_integrable). rewrite IH.
  assert (E : forall j, RInt f (a + INR j * h) (a + INR j * h + h) = RInt f a (a + h)).
  { induction j as [|j IHj]; [cbn [INR]; now rewrite Rmult_0_l, Rplus_0_r|]. rewrite S_INR, <- IHj. refine (eq_trans _ (RInt_shift f h (a + INR j * h) (a + INR j * h + h) C P)). f_equal; ring. }
  rewrite E. change (INR k * RInt f a (a + h) + RInt f a (a + h) = (INR k + 1) * RInt f a (a + h)). ring.
Qed.
Lemma double_periods F k a c T : 0 <= T -> (k <> 0)%nat -> cont2 F -> (forall p t, F (p + / INR k) t = F p t) -> double F a 1 c T = INR k * double F a (/ INR k) c T.
Proof.
  intros PT Hk C P. unfold double. rewrite <- RInt_periods.
  - f_equal. f_equal. field. now apply not_0_INR.
  - now apply inner_continuous.
  - intros p. apply RInt_ext. intros t _. apply P.
Qed.
Lemma double_nonneg F a L c T : 0 <= L -> 0 <= T -> cont2 F -> (forall p t, 0 <= F p t) -> 0 <= double F a L c T.
Proof.
  intros PL PT C H. unfold double. apply RInt_ge_0; [lra|apply continuous_integrable; now apply inner_continuous|].
  intros p _. apply RInt_ge_0; [lra|apply continuous_integrable; now apply cont2_slice|]. intros t _. apply H.
Qed.
Lemma double_pos F a L c T : 0 < L -> 0 < T -> cont2 F -> (forall p t, 0 < F p t) -> 0 < double F a L c T.
Proof.
  intros PL PT C H. unfold double. apply RInt_gt_0; [lra| |intros; apply inner_continuous; [lra|exact C]].
  intros p _. apply RInt_gt_0; [lra|intros; apply H|intros; now apply cont2_slice].
Qed.
(** The mean square is at least the square of the mean. *)
Lemma mean_square B w a L c T : 0 < L -> 0 < T -> cont2 B -> cont2 w -> (forall p t, 0 < w p t) ->
  double (fun p t => B p t * w p t) a L c T * double (fun p t => B p t * w p t) a L c T / (2 * double w a L c T) <= double (fun p t => B p t * B p t / 2 * w p t) a L c T.
Proof.
  intros PL PT CB Cw Pw. pose proof (double_pos w a L c T PL PT Cw Pw) as PA. set (A := double w a L c T) in *. set (I := double (fun p t => B p t * w p t) a L c T).
  set (m := I / A).
  assert (C1 : cont2 (fun p t => B p t * B p t / 2 * w p t)) by (unfold Rdiv; repeat first [assumption|apply cont2_mult|apply cont2_const]).
  assert (C2 : cont2 (fun p t => B p t * w p t)) by now apply cont2_mult.
  assert (H : 0 <= double (fun p t => (B p t * B p t / 2 * w p t - m * (B p t * w p t)) + m * m / 2 * w p t) a L c T).
  { apply double_nonneg; [lra|lra| |].
    - apply cont2_plus; [apply cont2_minus; [assumption|]|]; (apply cont2_mult; [apply cont2_const|assumption]).
    - intros p t. replace (_ + _) with ((B p t - m) * (B p t - m) / 2 * w p t) by field. apply Rmult_le_pos; [|specialize (Pw p t); lra]. pose proof (Rle_0_sqr (B p t - m)) as Q. unfold Rsqr in Q. lra. }
  rewrite double_plus in H; [|lra| |apply cont2_mult; [apply cont2_const|assumption]].
  2:{ apply cont2_minus; [assumption|]. apply cont2_mult; [apply cont2_const|assumption]. }
  rewrite double_minus in H; [|lra|assumption|apply cont2_mult; [apply cont2_const|assumption]].
  rewrite (double_scal m), (double_scal (m * m / 2)) in H by (lra || assumption). fold I A in H. set (Q := double (fun p t => B p t * B p t / 2 * w p t) a L c T) in *.
  replace (Q - m * I + m * m / 2 * A) with (Q - I * I / (2 * A)) in H by (unfold m; field; lra). lra.
Qed.

(** ** The normal field has the period of the machine *)
Lemma rotz_dots a u v : dot3 (rotz a u) (rotz a v) = dot3 u v.
Proof. pose proof (sin2_cos2 a) as H. unfold Rsqr in H. unfold dot3, rotz. cbn [vx vy vz].
  transitivity ((sin a * sin a + cos a * cos a) * (vx u * vx v + vy u * vy v) + vz u * vz v); [ring|]. rewrite H. ring. Qed.
Lemma bnval_periodic q x x0 n : (q_nfp q <> 0)%nat -> s_nfp (q_plasma q) = s_nfp (q_winding q) -> (n <> 0)%nat ->
  s_qphi (q_winding q) = equispaced x0 (/ (INR (q_nfp q) * INR n)) (q_nfp q * n) -> forall p t, bnval q x (p + / INR (q_nfp q)) t = bnval q x p t.
Proof.
  intros Hk En Hn E p t. unfold q_nfp in Hk.
  assert (E1 : forall a b, pt (q_plasma q) a b (p + / INR (q_nfp q)) t = rotz (2 * PI * / INR (q_nfp q)) (pt (q_plasma q) a b p t)) by (intros; unfold q_nfp; rewrite <- En; apply pt_nfp; congruence).
  assert (E2 : nrm (q_plasma q) (p + / INR (q_nfp q)) t = rotz (2 * PI * / INR (q_nfp q)) (nrm (q_plasma q) p t)) by (unfold q_nfp; rewrite <- En; apply nrm_rot; congruence).
  unfold bnval, unit_at. rewrite E1, E2, (bval_rot q x _ x0 n) by auto. rewrite rotz_norm, scale_rotz. apply rotz_dots.
Qed.
