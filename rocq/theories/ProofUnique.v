(** Orthogonality of the harmonics on a resolving grid, for C124. *)
From Coq Require Import String List Bool Arith ZArith Reals Lra Lia.
From Verif Require Import Base ModelArray ProofArray ModelMath SpecMath ProofMath ModelSurface SpecSurface ProofSurface ProofSurface2 ProofSurface3
  ModelParams ModelField SpecField ProofField ProofField2 ProofField3 ProofField4
  ModelQuantity ModelWrapper SpecWrapper ModelPackage SpecPackage ProofPackage ProofPackage2 ProofPackage3 ProofPackage4 SpecConvex ProofConvex ProofSimsopt ProofTrig SpecBest ProofSquares ProofBest.
Import ListNotations.
Open Scope R_scope.
Open Scope string_scope.
Open Scope list_scope.

(** ** Sums over the grid *)
Section Grid2.
  Variables (x0 t0 : R) (nfp N M : nat).
  Hypothesis Hf : (nfp <> 0)%nat.
  Hypothesis HN : (0 < N)%nat.
  Hypothesis HM : (0 < M)%nat.
  Let ps := equispaced x0 (/ (INR nfp * INR N)) N.
  Let ts := equispaced t0 (/ INR M) M.
  Definition gs (F : R -> R -> R) : R := Rsum (map (fun p => Rsum (map (fun t => F p t) ts)) ps).
  Lemma gs_ext F G : (forall p t, In p ps -> In t ts -> F p t = G p t) -> gs F = gs G.
  Proof. clear. intros E. unfold gs. apply Rsum_map_ext. intros p Hp. apply Rsum_map_ext. intros t Ht. now apply E. Qed.
  Lemma gs_plus F G : gs (fun p t => F p t + G p t) = gs F + gs G.
  Proof. clear. unfold gs. rewrite <- Rsum_map_plus. apply Rsum_map_ext. intros p _. apply Rsum_map_plus. Qed.
  Lemma gs_scal c F : gs (fun p t => c * F p t) = c * gs F.
  Proof. clear. unfold gs. rewrite <- Rsum_map_scal. apply Rsum_map_ext. intros p _. apply Rsum_map_scal. Qed.
  Lemma gs_const c : gs (fun _ _ => c) = INR N * (INR M * c).
  Proof. clear. unfold gs. rewrite !Rsum_const. unfold ps, ts, equispaced. now rewrite !map_length, !seq_length. Qed.
  Lemma gs_harmonic a m n : (m <> 0 \/ n <> 0)%Z -> (Z.abs m < Z.of_nat M)%Z -> (Z.abs n < Z.of_nat N)%Z ->
    gs (fun p t => cos (a + trig_arg nfp p t m n)) = 0.
  Proof using Hf HN HM.
    intros H Bm Bn. assert (PN : 0 < INR N) by (now apply lt_0_INR). assert (PM : 0 < INR M) by (now apply lt_0_INR). assert (Pf : 0 < INR nfp) by (apply lt_0_INR; lia).
    unfold gs. destruct (Z.eq_dec m 0) as [->|Hm].
    - destruct H as [H|Hn]; [congruence|]. rewrite Rsum_swap. apply Rsum_map_zero. intros t _. unfold ps, equispaced. rewrite map_map.
      rewrite <- (dft_zero (a - 2 * PI * IZR n * INR nfp * x0) (- n) N) by lia. apply Rsum_map_ext. intros j _. f_equal. unfold trig_arg. rewrite opp_IZR. field. lra.
    - apply Rsum_map_zero. intros p _. unfold ts, equispaced. rewrite map_map.
      rewrite <- (dft_zero (a + trig_arg nfp p t0 m n) m M) by lia. apply Rsum_map_ext. intros j _. f_equal. unfold trig_arg. field. lra.
  Qed.

  (** The harmonics as shifted cosines. *)
  Definition off (k : Z) : R := if Z.eqb k 1 then - (PI / 2) else 0.
  Lemma soc x k : sin_or_cos x k = cos (off k + x).
  Proof.
    clear. unfold sin_or_cos, off. destruct (Z.eqb k 1); [|f_equal; ring]. rewrite <- (cos_shift x). rewrite <- (cos_neg (PI / 2 - x)). f_equal. ring.
  Qed.
  Definition harm (p t : R) (c : Z * Z * Z) : R := sin_or_cos (trig_arg nfp p t (fst (fst c)) (snd (fst c))) (snd c).
  Lemma harm_product p t c d : harm p t c * harm p t d =
    / 2 * cos ((off (snd c) - off (snd d)) + trig_arg nfp p t (fst (fst c) - fst (fst d)) (snd (fst c) - snd (fst d))) +
    / 2 * cos ((off (snd c) + off (snd d)) + trig_arg nfp p t (fst (fst c) + fst (fst d)) (snd (fst c) + snd (fst d))).
  Proof.
    clear. unfold harm. rewrite !soc. set (u := off (snd c) + _). set (v := off (snd d) + _).
    replace ((off (snd c) - off (snd d)) + _) with (u - v) by (unfold u, v, trig_arg; rewrite !minus_IZR; ring).
    replace ((off (snd c) + off (snd d)) + _) with (u + v) by (unfold u, v, trig_arg; rewrite !plus_IZR; ring).
    rewrite cos_minus, cos_plus. field.
  Qed.
  Variables (mpol ntor : nat).
  Hypothesis Bm : (2 * mpol < M)%nat.
  Hypothesis Bn : (2 * ntor < N)%nat.
  Definition mode_ok (c : Z * Z * Z) : Prop :=
    In (fst c) (smodes mpol ntor) /\ (snd c = 1 \/ snd c = -1)%Z \/ c = (0, 0, -1)%Z.
  Lemma mode_bounds c : mode_ok c -> is_mode mpol ntor (fst c).
  Proof.
    clear. destruct (smodes_once mpol ntor) as [_ S]. intros [[H _]| ->]; [now apply S in H as [H _]|]. unfold is_mode. cbn [fst snd]. lia.
  Qed.
  Lemma harm_orthogonal c d : mode_ok c -> mode_ok d -> c <> d -> gs (fun p t => harm p t c * harm p t d) = 0.
  Proof using Hf HN HM Bm Bn.
    intros Hc Hd Ne. rewrite (gs_ext _ _ (fun p t _ _ => harm_product p t c d)), gs_plus, !gs_scal.
    pose proof (mode_bounds c Hc) as Mc. pose proof (mode_bounds d Hd) as Md. destruct c as [[m n] k], d as [[m' n'] k']. unfold is_mode in Mc, Md. cbn [fst snd] in *.
    destruct (smodes_once mpol ntor) as [_ S].
    assert (Hsum : (m + m' <> 0 \/ n + n' <> 0)%Z \/ (m = 0 /\ n = 0 /\ m' = 0 /\ n' = 0)%Z) by lia.
    assert (Hk : (k = 1 \/ k = -1)%Z) by (destruct Hc as [[_ ?]|E]; [assumption|injection E; auto]).
    assert (Hk' : (k' = 1 \/ k' = -1)%Z) by (destruct Hd as [[_ ?]|E]; [assumption|injection E; auto]).
    destruct Hsum as [Hsum|(-> & -> & -> & ->)].
    - rewrite (gs_harmonic (off k + off k')) by lia. destruct (Z.eq_dec m m') as [<-|Hm]; [|rewrite gs_harmonic by lia; ring]. destruct (Z.eq_dec n n') as [<-|Hn]; [|rewrite gs_harmonic by lia; ring].
      assert (Hkk : k <> k') by congruence.
      rewrite (gs_ext _ (fun _ _ => 0)); [rewrite gs_const; ring|]. intros p t _ _. unfold trig_arg. rewrite !Z.sub_diag.
      destruct Hk as [-> | ->], Hk' as [-> | ->]; try congruence; cbn [off Z.eqb Pos.eqb].
      + replace (_ + _) with (- (PI / 2)) by ring. rewrite cos_neg. apply cos_PI2.
      + replace (_ + _) with (PI / 2) by ring. apply cos_PI2.
    - exfalso. assert (Z1 : ~ In (0%Z, 0%Z) (smodes mpol ntor)) by (rewrite S; tauto). destruct Hc as [[Hc _]|Hc]; [tauto|]. destruct Hd as [[Hd _]|Hd]; [tauto|]. congruence.
  Qed.
  Lemma harm_norm c : mode_ok c -> 0 < gs (fun p t => harm p t c * harm p t c).
  Proof using Hf HN HM Bm Bn.
    intros Hc. assert (PN : 0 < INR N) by (now apply lt_0_INR). assert (PM : 0 < INR M) by (now apply lt_0_INR).
    rewrite (gs_ext _ _ (fun p t _ _ => harm_product p t c c)), gs_plus, !gs_scal. pose proof (mode_bounds c Hc) as Mc. destruct c as [[m n] k]. unfold is_mode in Mc. cbn [fst snd] in *.
    rewrite (gs_ext _ (fun _ _ => 1)); [rewrite gs_const|intros p t _ _; unfold trig_arg; rewrite !Z.sub_diag; replace (_ + _) with 0 by ring; apply cos_0].
    assert (Pn : 0 < INR N * INR M) by (now apply Rmult_lt_0_compat).
    destruct (Z.eq_dec m 0) as [->|Hm]; [destruct (Z.eq_dec n 0) as [->|Hn]|].
    - destruct (smodes_once mpol ntor) as [_ S]. assert (Z1 : ~ In (0%Z, 0%Z) (smodes mpol ntor)) by (rewrite S; tauto). destruct Hc as [[Hc _]|Hc]; [tauto|]. injection Hc as ->.
      rewrite (gs_ext _ (fun _ _ => 1)); [rewrite gs_const; lra|]. intros p t _ _. unfold trig_arg. cbn [off Z.eqb Z.add]. replace (_ + _) with 0 by ring. apply cos_0.
    - rewrite gs_harmonic by lia. lra.
    - rewrite gs_harmonic by lia. lra.
  Qed.

  (** Coefficients from the values on the grid. *)
  Lemma extraction (cols : list (Z * Z * Z)) (b : R -> R -> Z * Z * Z -> R) (f : Z * Z * Z -> R) k c0 (d : list R) :
    NoDup cols -> nth_error cols k = Some c0 -> length d = length cols ->
    (forall c, In c cols -> c <> c0 -> gs (fun p t => b p t c * b p t c0) = 0) ->
    gs (fun p t => ldot (map (fun c => b p t c * f c) cols) d * b p t c0) = f c0 * nth k d 0 * gs (fun p t => b p t c0 * b p t c0).
  Proof.
    clear. intros ND. revert k d. induction ND as [|c cols Nc ND IH]; intros k d E L Or; [destruct k; discriminate|]. destruct d as [|v d]; [discriminate|]. injection L as L.
    assert (Split : gs (fun p t => ldot (map (fun c => b p t c * f c) (c :: cols)) (v :: d) * b p t c0) =
      f c * v * gs (fun p t => b p t c * b p t c0) + gs (fun p t => ldot (map (fun c => b p t c * f c) cols) d * b p t c0)).
    { rewrite <- gs_scal, <- gs_plus. apply gs_ext. intros p t _ _. cbn [map]. rewrite ldot_cons. ring. }
    rewrite Split. destruct k as [|k]; cbn [nth_error] in E.
    - injection E as ->. cbn [nth]. assert (Zr : forall d, gs (fun p t => ldot (map (fun c => b p t c * f c) cols) d * b p t c0) = 0); [|rewrite Zr; ring].
      clear -Or Nc. assert (Or' : forall c, In c cols -> gs (fun p t => b p t c * b p t c0) = 0) by (intros c Hc; apply Or; [now right|congruence]). clear Or Nc.
      induction cols as [|c cols IH]; intros d.
      + rewrite (gs_ext _ (fun _ _ => 0)); [rewrite gs_const; ring|]. intros. unfold ldot. cbn. ring.
      + destruct d as [|v d].
        * rewrite (gs_ext _ (fun _ _ => 0)); [rewrite gs_const; ring|]. intros. unfold ldot. cbn. ring.
        * rewrite (gs_ext _ (fun p t => f c * v * (b p t c * b p t c0) + ldot (map (fun c => b p t c * f c) cols) d * b p t c0)).
          -- rewrite gs_plus, gs_scal, IH by (intros; apply Or'; now right). rewrite Or' by (now left). ring.
          -- intros p t _ _. cbn [map]. rewrite ldot_cons. ring.
    - cbn [nth]. rewrite (Or c) by (try (now left); intros ->; apply Nc; eapply nth_error_In; exact E). rewrite (IH k d E L); [ring|]. intros e He. apply Or. now right.
  Qed.
End Grid2.

Lemma NoDup_pcols st mpol ntor : NoDup (pcols st mpol ntor).
Proof.
  destruct (smodes_once mpol ntor) as [ND S]. assert (Z1 : ~ In (0%Z, 0%Z) (smodes mpol ntor)) by (rewrite S; tauto).
  assert (Im : forall k : Z, NoDup (map (fun mn => (mn, k)) (smodes mpol ntor))).
  { intros k. apply FinFun.Injective_map_NoDup; [|exact ND]. intros a b E. now injection E. }
  assert (Ap : forall (A : Type) (l l' : list A), NoDup l -> NoDup l' -> (forall x, In x l -> ~ In x l') -> NoDup (l ++ l')).
  { clear. intros A l l' H H' D. induction H as [|a l Na H IH]; [exact H'|]. cbn [app]. constructor.
    - rewrite in_app_iff. intros [X|X]; [tauto|]. apply (D a); [now left|exact X].
    - apply IH. intros x Hx. apply D. now right. }
  unfold pcols. destruct st; [apply Im|]. apply Ap; [apply Im| |].
  - constructor; [|apply Im]. intros H. apply in_map_iff in H as (mn & E & H). injection E as ->. tauto.
  - intros x Hx [<-|H']; apply in_map_iff in Hx as (mn & E & H); [discriminate|]. subst x. apply in_map_iff in H' as (mn' & E & _). discriminate.
Qed.
Lemma pcols_modes st mpol ntor c : In c (pcols st mpol ntor) -> mode_ok mpol ntor c.
Proof.
  unfold pcols, mode_ok. destruct st; intros H.
  - apply in_map_iff in H as (mn & <- & H). left. cbn [fst snd]. auto.
  - apply in_app_iff in H as [H|[<-|H]]; [|now right|]; apply in_map_iff in H as (mn & <- & H); left; cbn [fst snd]; auto.
Qed.

Section Injective.
  Variables (q : params) (x y : list R).
  Hypothesis M : made q.
  Hypothesis Lx : length x = q_ndofs q.
  Hypothesis Ly : length y = q_ndofs q.
  Hypothesis Rs : resolved q.
  Lemma nfp0 : (q_nfp q <> 0)%nat. Proof using M. destruct (made_facts q M) as (H & _). exact H. Qed.
  Lemma lcols : length (qcols q) = q_ndofs q. Proof using M. destruct (made_facts q M) as (_ & _ & E & _). rewrite E. apply length_pcols. Qed.
  Lemma ldot_sub cols : ldot cols (lincomb 1 (-1) x y) = ldot cols x - ldot cols y.
  Proof using Lx Ly. rewrite ldot_lincomb by congruence. ring. Qed.
  Lemma potential_injective : (forall p t, In p (q_qphi q) -> In t (q_qtheta q) -> phi_of q x p t = phi_of q y p t) -> x = y.
  Proof using M Lx Ly Rs.
    intros E. destruct Rs as (x0 & t0 & N & Mt & E1 & E2 & HN & HM & Bn & Bm). rewrite E1, E2 in E.
    apply (nth_ext _ _ 0 0); [congruence|]. intros k Hk.
    destruct (nth_error (qcols q) k) as [c0|] eqn:Ek; [|apply nth_error_None in Ek; rewrite lcols in Ek; lia].
    assert (Hc0 : In c0 (qcols q)) by (eapply nth_error_In; exact Ek).
    pose proof (extraction x0 t0 (q_nfp q) N Mt (qcols q) (harm (q_nfp q)) (fun _ => 1) k c0 (lincomb 1 (-1) x y) (NoDup_pcols _ _ _) Ek) as X.
    rewrite length_lincomb in X by congruence. specialize (X ltac:(rewrite lcols; exact Lx)).
    rewrite (gs_ext x0 t0 (q_nfp q) N Mt _ (fun _ _ => 0)) in X.
    - rewrite gs_const in X. rewrite lincomb_nth in X by congruence.
      pose proof (harm_norm x0 t0 (q_nfp q) N Mt nfp0 ltac:(lia) ltac:(lia) (q_mpol q) (q_ntor q) Bm Bn c0 (pcols_modes _ _ _ _ Hc0)) as Pn.
      assert (Y : 1 * (1 * nth k x 0 + -1 * nth k y 0) = 0).
      { destruct (Rmult_integral (1 * (1 * nth k x 0 + -1 * nth k y 0)) (gs x0 t0 (q_nfp q) N Mt (fun p t => harm (q_nfp q) p t c0 * harm (q_nfp q) p t c0))) as [Y|Y]; [|exact Y|lra].
        rewrite <- X; [ring|]. intros c Hc Ne. apply (harm_orthogonal x0 t0 (q_nfp q) N Mt nfp0 ltac:(lia) ltac:(lia) (q_mpol q) (q_ntor q) Bm Bn); auto; eapply pcols_modes; eassumption. }
      lra.
    - intros p t Hp Ht. rewrite (map_ext _ (tr q p t)); [|intros [[m n] j]; unfold harm, tr, targ; cbn [fst snd]; rewrite Rmult_1_r, Z.mul_1_l; reflexivity].
      rewrite ldot_sub. change (ldot (map (tr q p t) (qcols q)) x) with (phi_of q x p t). change (ldot (map (tr q p t) (qcols q)) y) with (phi_of q y p t).
      rewrite (E p t Hp Ht). ring.
  Qed.
  Lemma td_harm p t c : snd c = 1%Z \/ snd c = (-1)%Z -> td q p t c = harm (q_nfp q) p t (fst c, (- snd c)%Z).
  Proof. clear. destruct c as [[m n] k]. unfold td, harm, targ. cbn [fst snd]. intros _. now replace (-1 * k)%Z with (- k)%Z by ring. Qed.
  (** Derivatives determine every coefficient except the constant's. *)
  Lemma slope_coefficient k c0 (f : Z * Z * Z -> R) : nth_error (qcols q) k = Some c0 -> fst c0 <> (0%Z, 0%Z) ->
    (forall p t, In p (q_qphi q) -> In t (q_qtheta q) -> ldot (map (fun c => td q p t c * f c) (qcols q)) x = ldot (map (fun c => td q p t c * f c) (qcols q)) y) ->
    f c0 * nth k x 0 = f c0 * nth k y 0.
  Proof using M Lx Ly Rs.
    intros Ek Nz E. destruct Rs as (x0 & t0 & N & Mt & E1 & E2 & HN & HM & Bn & Bm). rewrite E1, E2 in E.
    assert (Hc0 : In c0 (qcols q)) by (eapply nth_error_In; exact Ek).
    assert (Ok' : forall c, In c (qcols q) -> fst c <> (0%Z, 0%Z) -> mode_ok (q_mpol q) (q_ntor q) (fst c, (- snd c)%Z)).
    { intros c Hc Ne. destruct (pcols_modes _ _ _ _ Hc) as [[A B]| ->]; [|now contradiction Ne]. left. cbn [fst snd]. split; [exact A|]. lia. }
    assert (Ch : forall c, In c (qcols q) -> snd c = 1%Z \/ snd c = (-1)%Z) by (intros c; apply pcols_choice).
    pose proof (extraction x0 t0 (q_nfp q) N Mt (qcols q) (td q) f k c0 (lincomb 1 (-1) x y) (NoDup_pcols _ _ _) Ek) as X.
    rewrite length_lincomb in X by congruence. specialize (X ltac:(rewrite lcols; exact Lx)).
    rewrite (gs_ext x0 t0 (q_nfp q) N Mt _ (fun _ _ => 0)) in X by (intros p t Hp Ht; rewrite ldot_sub, (E p t Hp Ht); ring).
    rewrite gs_const in X. rewrite lincomb_nth in X by congruence.
    pose proof (harm_norm x0 t0 (q_nfp q) N Mt nfp0 ltac:(lia) ltac:(lia) (q_mpol q) (q_ntor q) Bm Bn _ (Ok' c0 Hc0 Nz)) as Pn.
    rewrite (gs_ext x0 t0 (q_nfp q) N Mt _ (fun p t => td q p t c0 * td q p t c0)) in Pn by (intros; now rewrite td_harm by (now apply Ch)).
    assert (Y : f c0 * (1 * nth k x 0 + -1 * nth k y 0) = 0).
    { destruct (Rmult_integral (f c0 * (1 * nth k x 0 + -1 * nth k y 0)) (gs x0 t0 (q_nfp q) N Mt (fun p t => td q p t c0 * td q p t c0))) as [Y|Y]; [|exact Y|lra].
      rewrite <- X; [ring|]. intros c Hc Ne. destruct (pcols_modes _ _ _ _ Hc) as [[A B]| ->].
      - rewrite (gs_ext x0 t0 (q_nfp q) N Mt _ (fun p t => harm (q_nfp q) p t (fst c, (- snd c)%Z) * harm (q_nfp q) p t (fst c0, (- snd c0)%Z))) by (intros; now rewrite !td_harm by (now apply Ch)).
        apply (harm_orthogonal x0 t0 (q_nfp q) N Mt nfp0 ltac:(lia) ltac:(lia) (q_mpol q) (q_ntor q) Bm Bn).
        + left. cbn [fst snd]. split; [exact A|]. lia.
        + now apply Ok'.
        + intros Eq. apply Ne. destruct c as [? ?], c0 as [? ?]. cbn [fst snd] in Eq. injection Eq as E3 E4. f_equal; [exact E3|lia].
      - rewrite (gs_ext x0 t0 (q_nfp q) N Mt _ (fun _ _ => 0)); [rewrite gs_const; ring|]. intros p t _ _. unfold td, sin_or_cos, targ, trig_arg. cbn [fst snd Z.mul Pos.mul Z.eqb Pos.eqb].
        replace (_ - _) with 0 by ring. rewrite sin_0. ring. }
    lra.
  Qed.
  Lemma slopes_injective : (forall p t, In p (q_qphi q) -> In t (q_qtheta q) -> phi1 q x p t = phi1 q y p t /\ phi2 q x p t = phi2 q y p t) ->
    forall k c0, nth_error (qcols q) k = Some c0 -> fst c0 <> (0%Z, 0%Z) -> nth k x 0 = nth k y 0.
  Proof using M Lx Ly Rs.
    intros E k c0 Ek Nz. pose proof (slope_coefficient k c0 (fphi q) Ek Nz (fun p t Hp Ht => proj1 (E p t Hp Ht))) as A.
    pose proof (slope_coefficient k c0 ftheta Ek Nz (fun p t Hp Ht => proj2 (E p t Hp Ht))) as B.
    assert (Hc0 : In c0 (qcols q)) by (eapply nth_error_In; exact Ek). pose proof (pcols_choice _ _ _ _ Hc0) as Ch.
    assert (Pf : INR (q_nfp q) <> 0) by (apply not_0_INR; exact nfp0). pose proof PI_neq0 as Pp.
    assert (Pk : IZR (snd c0) <> 0) by (apply IZR_neq; lia).
    destruct c0 as [[m n] j]. unfold fphi, ftheta in *. cbn [fst snd] in *. destruct (Z.eq_dec m 0) as [->|Hm].
    - destruct (Z.eq_dec n 0) as [->|Hn]; [now contradiction Nz|]. apply IZR_neq in Hn. apply (Rmult_eq_reg_l (- IZR n * IZR j * INR (q_nfp q) * 2 * PI)); [exact A|].
      do 4 (apply Rmult_integral_contrapositive_currified; [|first [assumption|lra]]). lra.
    - apply IZR_neq in Hm. apply (Rmult_eq_reg_l (IZR m * IZR j * 2 * PI)); [exact B|].
      do 3 (apply Rmult_integral_contrapositive_currified; [|first [assumption|lra]]). lra.
  Qed.
End Injective.
