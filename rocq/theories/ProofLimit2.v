(** A growth rate of regularised problems that does not depend on the grid, for C130. *)
From Coq Require Import String List Bool Arith ZArith Reals Lra Lia.
From Coquelicot Require Import Coquelicot.
From Verif Require Import Base ModelArray ProofArray ModelMath SpecMath ProofMath ModelSurface SpecSurface ProofSurface ProofSurface2 ProofSurface3
  ModelParams ModelField SpecField ProofField ProofField2 ProofField3 ProofField4
  ModelQuantity ModelWrapper SpecWrapper ModelPackage SpecPackage ProofPackage ProofPackage2 ProofPackage3 ProofPackage4 SpecConvex ProofConvex ProofSimsopt ProofTrig SpecBest ProofSquares ProofBest
  ProofUnique ProofUnique2 ProofAttained2 ProofPeriods SpecQuad ProofQuad ProofQuad2.
Import ListNotations.
Open Scope R_scope.
Open Scope string_scope.
Open Scope list_scope.

(** Continuous functions are bounded on a period. *)
Lemma bounded_above F a c L T : 0 < L -> 0 < T -> cont2 F -> exists M, forall p t, a <= p < a + L -> c <= t < c + T -> F p t <= M.
Proof.
  intros PL PT C. destruct (grids_reach F a L c T PL PT C 1 ltac:(lra)) as (N0 & H). set (n := Datatypes.S N0). specialize (H n n ltac:(lia) ltac:(lia) ltac:(lia) ltac:(lia)).
  set (l := pairs (equispaced a (L / INR n) n) (equispaced c (T / INR n) n)).
  assert (B : exists M, forall u, In u l -> F (fst u) (snd u) <= M).
  { clear. induction l as [|u l (M & HM)]; [exists 0; intros u []|]. exists (Rmax M (F (fst u) (snd u))). intros v [<-|Hv]; [apply Rmax_r|]. eapply Rle_trans; [now apply HM|apply Rmax_l]. }
  destruct B as (M & HM). exists (M + 1). intros p t Hp Ht. destruct (H p t Hp Ht) as (p' & t' & I1 & I2 & D). assert (I : In (p', t') l) by (apply pairs_in; auto). specialize (HM _ I). cbn [fst snd] in HM.
  unfold Rabs in D. destruct (Rcase_abs _) in D; lra.
Qed.

Section Projection.
  Variables (x0 t0 : R) (nfp N M : nat).
  Notation gs := (gs x0 t0 nfp N M).
  Lemma gs_le F G : (forall p t, In p (equispaced x0 (/ (INR nfp * INR N)) N) -> In t (equispaced t0 (/ INR M) M) -> F p t <= G p t) -> gs F <= gs G.
  Proof.
    intros H. unfold ProofUnique.gs.
    assert (Le : forall (f g : R -> R) l, (forall u, In u l -> f u <= g u) -> Rsum (map f l) <= Rsum (map g l)).
    { clear. intros f g l. unfold Rsum. induction l as [|u l IH]; intros H; cbn; [lra|]. assert (f u <= g u) by (apply H; now left). assert (fold_right Rplus 0 (map f l) <= fold_right Rplus 0 (map g l)) by (apply IH; intros; apply H; now right). lra. }
    apply Le. intros p Hp. apply Le. intros t Ht. now apply H.
  Qed.
  (** A sum of squares is at least the part of one harmonic. *)
  Lemma projection cols (b : R -> R -> Z * Z * Z -> R) (f : Z * Z * Z -> R) k c0 d :
    NoDup cols -> nth_error cols k = Some c0 -> length d = length cols ->
    (forall c, In c cols -> c <> c0 -> gs (fun p t => b p t c * b p t c0) = 0) ->
    (f c0 * nth k d 0) ^ 2 * gs (fun p t => b p t c0 * b p t c0) <= gs (fun p t => ldot (map (fun c => b p t c * f c) cols) d ^ 2).
  Proof.
    intros ND E L Or. pose proof (extraction x0 t0 nfp N M cols b f k c0 d ND E L Or) as X. set (a := f c0 * nth k d 0) in *. set (V := fun p t => ldot (map (fun c => b p t c * f c) cols) d) in *.
    assert (P : 0 <= gs (fun p t => (V p t - a * b p t c0) ^ 2)).
    { replace 0 with (gs (fun _ _ => 0)) by (rewrite gs_const; ring). apply gs_le. intros. apply pow2_ge_0. }
    rewrite (gs_ext x0 t0 nfp N M _ (fun p t => V p t ^ 2 + ((-2 * a) * (V p t * b p t c0) + a ^ 2 * (b p t c0 * b p t c0)))) in P by (intros; ring).
    rewrite !gs_plus, !gs_scal in P. change (gs (fun p t => V p t * b p t c0)) with (gs (fun p t => ldot (map (fun c => b p t c * f c) cols) d * b p t c0)) in P. rewrite X in P.
    change (gs (fun p t => ldot (map (fun c => b p t c * f c) cols) d ^ 2)) with (gs (fun p t => V p t ^ 2)). nra.
  Qed.
End Projection.

(** Every harmonic has at least half the weight of the constant. *)
Lemma harm_half x0 t0 nfp N M mpol ntor c : (nfp <> 0)%nat -> (0 < N)%nat -> (0 < M)%nat -> (2 * mpol < M)%nat -> (2 * ntor < N)%nat -> mode_ok mpol ntor c ->
  INR N * INR M / 2 <= gs x0 t0 nfp N M (fun p t => harm nfp p t c * harm nfp p t c).
Proof.
  intros Hf HN HM Bm Bn Hc. assert (PN : 0 < INR N) by (now apply lt_0_INR). assert (PM : 0 < INR M) by (now apply lt_0_INR).
  rewrite (gs_ext _ _ _ _ _ _ _ (fun p t _ _ => harm_product nfp p t c c)), gs_plus, !gs_scal. pose proof (mode_bounds mpol ntor c Hc) as Mc. destruct c as [[m n] k]. unfold is_mode in Mc. cbn [fst snd] in *.
  rewrite (gs_ext _ _ _ _ _ _ (fun _ _ => 1)); [rewrite gs_const|intros p t _ _; unfold trig_arg; rewrite !Z.sub_diag; replace (_ + _) with 0 by ring; apply cos_0].
  assert (Pn : 0 < INR N * INR M) by (now apply Rmult_lt_0_compat).
  destruct (Z.eq_dec m 0) as [->|Hm]; [destruct (Z.eq_dec n 0) as [->|Hn]|].
  - destruct (smodes_once mpol ntor) as [_ S]. assert (Z1 : ~ In (0%Z, 0%Z) (smodes mpol ntor)) by (rewrite S; tauto). destruct Hc as [[Hc _]|Hc]; [tauto|]. injection Hc as ->.
    rewrite (gs_ext _ _ _ _ _ _ (fun _ _ => 1)); [rewrite gs_const; lra|]. intros p t _ _. unfold trig_arg. cbn [off Z.eqb Z.add]. replace (_ + _) with 0 by ring. apply cos_0.
  - rewrite gs_harmonic by (auto; lia). lra.
  - rewrite gs_harmonic by (auto; lia). lra.
Qed.

(** Energies as sums over the grid. *)
Lemma gs_pairs x0 t0 nfp N M (g : R -> R -> R) :
  gs x0 t0 nfp N M g = Rsum (map (fun u => g (fst u) (snd u)) (pairs (equispaced x0 (/ (INR nfp * INR N)) N) (equispaced t0 (/ INR M) M))).
Proof.
  unfold gs, pairs. induction (equispaced x0 (/ (INR nfp * INR N)) N) as [|p ps IH]; [reflexivity|]. cbn [flat_map map]. rewrite map_app, Rsum_app, map_map, <- IH. reflexivity.
Qed.
Lemma map2_maps {A B C D} (h : B -> C -> D) (f : A -> B) (g : A -> C) l : map2 h (map f l) (map g l) = map (fun u => h (f u) (g u)) l.
Proof. induction l; cbn; [reflexivity|]. now f_equal. Qed.
Lemma flat3_diff (f g : R * R -> vec3) l : lincomb 1 (-1) (flat3 (map g l)) (flat3 (map f l)) = flat3 (map (fun u => sub3 (g u) (f u)) l).
Proof.
  unfold lincomb, flat3. induction l as [|u l IH]; [reflexivity|]. cbn [map flat_map app map2]. rewrite IH. unfold sub3. simpl. repeat (f_equal; try ring).
Qed.

(** The form a w2 - b w1 controls a and b. *)
Lemma tangent_form u v a b : (a ^ 2 + b ^ 2) * dot3 (cross3 u v) (cross3 u v) <=
  dot3 (sub3 (scale3 a v) (scale3 b u)) (sub3 (scale3 a v) (scale3 b u)) * (dot3 u u + dot3 v v).
Proof.
  set (w := sub3 (scale3 a v) (scale3 b u)).
  assert (E1 : dot3 (cross3 w u) (cross3 w u) = a ^ 2 * dot3 (cross3 u v) (cross3 u v)) by (unfold w; destruct u, v; unfold dot3, cross3, sub3, scale3; simpl; ring).
  assert (E2 : dot3 (cross3 w v) (cross3 w v) = b ^ 2 * dot3 (cross3 u v) (cross3 u v)) by (unfold w; destruct u, v; unfold dot3, cross3, sub3, scale3; simpl; ring).
  rewrite lagrange in E1. rewrite lagrange in E2. pose proof (Rle_0_sqr (dot3 w u)) as P1. pose proof (Rle_0_sqr (dot3 w v)) as P2. unfold Rsqr in P1, P2. lra.
Qed.

Section Rate.
  Variables (q : params) (z : list R) (p0 t0 : R) (N Mt : nat) (kappa T : R).
  Hypothesis S : sound q z.
  Hypothesis E1 : q_qphi q = equispaced p0 (/ (INR (q_nfp q) * INR N)) N.
  Hypothesis E2 : q_qtheta q = equispaced t0 (/ INR Mt) Mt.
  Hypothesis HN : (2 <= N)%nat.
  Hypothesis HM : (2 <= Mt)%nat.
  Hypothesis Bn : (2 * q_ntor q < N)%nat.
  Hypothesis Bm : (2 * q_mpol q < Mt)%nat.
  Hypothesis Pk : 0 < kappa.
  Hypothesis Kb : forall p t, In p (q_qphi q) -> In t (q_qtheta q) -> kappa <= norm3 (wn q p t).
  Hypothesis Tb : forall p t, In p (q_qphi q) -> In t (q_qtheta q) -> dot3 (w1 q p t) (w1 q p t) + dot3 (w2 q p t) (w2 q p t) <= T.
  Hypothesis T1 : 1 <= T.
  Notation sumg := (gs p0 t0 (q_nfp q) N Mt).
  Let ps := q_qphi q.
  Let ts := q_qtheta q.
  Lemma made_q : made q. Proof using S. apply S. Qed.
  Lemma numbers : 0 < INR (q_nfp q) /\ 0 < INR N /\ 0 < INR Mt.
  Proof using S HN HM.
    clear Bn Bm. destruct (made_facts q made_q) as (Nf & _). repeat split; apply lt_0_INR; try lia. unfold q_nfp. lia.
  Qed.
  Lemma area_weights : halves q (areas (q_eval q) (q_winding q) ps ts) = map (fun u => / (2 * INR N * INR Mt) * norm3 (wn q (fst u) (snd u))) (pairs ps ts).
  Proof using S E1 E2 HN HM.
    destruct (made_facts q made_q) as (Nf & _ & _ & _ & Ce & _). destruct numbers as (A & B & C).
    assert (D1 : s_dphi (q_eval q) = / (INR (q_nfp q) * INR N)) by (rewrite E1 in Ce; exact (equi_dphi _ _ _ _ _ _ HN Ce)).
    assert (D2 : s_dtheta (q_eval q) = / INR Mt) by (rewrite E2 in Ce; exact (equi_dtheta _ _ _ _ _ _ HM Ce)).
    unfold halves, areas. rewrite concat_sample, map_map. apply map_ext. intros u. rewrite D1, D2. change (wn q) with (nrm (q_winding q)). field. lra.
  Qed.
  Lemma phi_diff (f : Z * Z * Z -> R) x y : length x = q_ndofs q -> length y = q_ndofs q -> ldot (map f (qcols q)) y - ldot (map f (qcols q)) x = ldot (map f (qcols q)) (lincomb 1 (-1) y x).
  Proof. clear. intros Lx Ly. rewrite ldot_lincomb by congruence. ring. Qed.
  Lemma column k : (k < q_ndofs q)%nat -> exists c0, nth_error (qcols q) k = Some c0.
  Proof using S. clear HN HM Bn Bm. intros Hk. destruct (nth_error (qcols q) k) as [c0|] eqn:Ek; [eauto|]. apply nth_error_None in Ek. rewrite (lcols q made_q) in Ek. lia. Qed.

  Lemma rate_Phi x y k : length x = q_ndofs q -> length y = q_ndofs q -> (k < q_ndofs q)%nat ->
    kappa / 4 * (nth k y 0 - nth k x 0) ^ 2 <= energy (weights "f_Phi" q) (lincomb 1 (-1) (field "f_Phi" q y) (field "f_Phi" q x)).
  Proof using S E1 E2 HN HM Bn Bm Pk Kb.
    clear Tb T1. intros Lx Ly Hk. destruct numbers as (A & B & C). destruct (column k Hk) as (c0 & Ek). assert (Hc0 : In c0 (qcols q)) by (eapply nth_error_In; exact Ek).
    unfold weights, field. cbn [String.eqb Ascii.eqb Bool.eqb]. fold ps ts. rewrite area_weights, !concat_sample. unfold lincomb, energy. rewrite !map2_maps.
    set (V := fun p t => ldot (map (fun c => harm (q_nfp q) p t c * 1) (qcols q)) (lincomb 1 (-1) y x)).
    assert (EV : forall p t, 1 * phi_of q y p t + -1 * phi_of q x p t = V p t).
    { intros p t. unfold V. rewrite (map_ext _ (tr q p t)); [|intros [[m n] j]; unfold harm, tr, targ; cbn [fst snd]; rewrite Rmult_1_r, Z.mul_1_l; reflexivity].
      rewrite <- phi_diff by assumption. unfold phi_of. ring. }
    apply Rle_trans with (sumg (fun p t => / (2 * INR N * INR Mt) * kappa * V p t ^ 2)).
    - rewrite gs_scal. pose proof (projection p0 t0 (q_nfp q) N Mt (qcols q) (harm (q_nfp q)) (fun _ => 1) k c0 (lincomb 1 (-1) y x) (NoDup_pcols _ _ _) Ek) as X.
      rewrite length_lincomb in X by congruence. specialize (X ltac:(rewrite (lcols q made_q); exact Ly)).
      assert (Nf : (q_nfp q <> 0)%nat) by exact (nfp0 q made_q).
      assert (X' := X ltac:(intros c Hc Ne; apply (harm_orthogonal p0 t0 (q_nfp q) N Mt Nf ltac:(lia) ltac:(lia) (q_mpol q) (q_ntor q) Bm Bn); auto; eapply pcols_modes; eassumption)). clear X. fold V in X'.
      pose proof (harm_half p0 t0 (q_nfp q) N Mt (q_mpol q) (q_ntor q) c0 Nf ltac:(lia) ltac:(lia) Bm Bn (pcols_modes _ _ _ _ Hc0)) as Hh.
      rewrite lincomb_nth in X' by congruence. replace (1 * (1 * nth k y 0 + -1 * nth k x 0)) with (nth k y 0 - nth k x 0) in X' by ring. set (d := nth k y 0 - nth k x 0) in *.
      assert (Y : d ^ 2 * (INR N * INR Mt / 2) <= sumg (fun p t => V p t ^ 2)). { eapply Rle_trans; [|exact X']. apply Rmult_le_compat_l; [apply pow2_ge_0|exact Hh]. }
      assert (Pp : 0 < / (2 * INR N * INR Mt) * kappa). { apply Rmult_lt_0_compat; [|exact Pk]. apply Rinv_0_lt_compat. apply Rmult_lt_0_compat; [|exact C]. lra. }
      apply Rle_trans with (/ (2 * INR N * INR Mt) * kappa * (d ^ 2 * (INR N * INR Mt / 2))); [right; field; lra|]. apply Rmult_le_compat_l; [lra|exact Y].
    - rewrite gs_pairs, <- E1, <- E2. fold ps ts. clear - Kb EV A B C.
      assert (Hs : forall u, In u (pairs ps ts) -> In (fst u) ps /\ In (snd u) ts) by (intros [a b] Hu; apply pairs_in in Hu; exact Hu). revert Hs. generalize (pairs ps ts). intros l Hs.
      assert (Pi : 0 < / (2 * INR N * INR Mt)). { apply Rinv_0_lt_compat. apply Rmult_lt_0_compat; [|exact C]. lra. }
      unfold Rsum. induction l as [|u l IH]; cbn [map fold_right]; [lra|]. assert (IH' := IH ltac:(intros; apply Hs; now right)). destruct (Hs u ltac:(now left)) as (I1 & I2).
      rewrite EV. specialize (Kb _ _ I1 I2). set (w := norm3 (wn q (fst u) (snd u))) in *. set (v := V (fst u) (snd u)). set (a := / (2 * INR N * INR Mt)) in *. assert (a * kappa * v ^ 2 <= a * w * (v * v)); [|lra].
      replace (v ^ 2) with (v * v) by ring. apply Rmult_le_compat_r; [apply Rle_0_sqr|]. apply Rmult_le_compat_l; lra.
  Qed.

  Lemma rate_K x y k : q_stellsym q = true -> length x = q_ndofs q -> length y = q_ndofs q -> (k < q_ndofs q)%nat ->
    kappa / T / 4 * (nth k y 0 - nth k x 0) ^ 2 <= energy (weights "f_K" q) (lincomb 1 (-1) (field "f_K" q y) (field "f_K" q x)).
  Proof using S E1 E2 HN HM Bn Bm Pk Kb Tb T1.
    intros St Lx Ly Hk. destruct numbers as (A & B & C). destruct (column k Hk) as (c0 & Ek). assert (Hc0 : In c0 (qcols q)) by (eapply nth_error_In; exact Ek).
    assert (Nf : (q_nfp q <> 0)%nat) by exact (nfp0 q made_q).
    assert (Nz : forall c, In c (qcols q) -> fst c <> (0%Z, 0%Z)).
    { intros c Hi. unfold qcols, pcols in Hi. rewrite St in Hi. apply in_map_iff in Hi as (mn & <- & Hm). cbn [fst]. destruct (smodes_once (q_mpol q) (q_ntor q)) as [_ Sm]. now apply Sm in Hm as [_ Hm]. }
    unfold weights, field. cbn [String.eqb Ascii.eqb Bool.eqb]. fold ps ts. rewrite area_weights, !concat_sample, flat3_diff, energy_triple, map2_maps.
    set (d := nth k y 0 - nth k x 0). set (D := lincomb 1 (-1) y x).
    set (V1 := fun p t => ldot (map (fun c => td q p t c * fphi q c) (qcols q)) D). set (V2 := fun p t => ldot (map (fun c => td q p t c * ftheta c) (qcols q)) D).
    assert (F1 : forall p t, phi1 q y p t - phi1 q x p t = V1 p t) by (intros; unfold V1, D, phi1; now apply phi_diff).
    assert (F2 : forall p t, phi2 q y p t - phi2 q x p t = V2 p t) by (intros; unfold V2, D, phi2; now apply phi_diff).
    assert (Ok' : forall c, In c (qcols q) -> mode_ok (q_mpol q) (q_ntor q) (fst c, (- snd c)%Z)).
    { intros c Hc. destruct (pcols_modes _ _ _ _ Hc) as [[X Y]| ->]; [|now contradiction (Nz _ Hc)]. left. cbn [fst snd]. split; [exact X|]. lia. }
    assert (Ch : forall c, In c (qcols q) -> snd c = 1%Z \/ snd c = (-1)%Z) by (intros c; apply pcols_choice).
    assert (Or : forall c, In c (qcols q) -> c <> c0 -> sumg (fun p t => td q p t c * td q p t c0) = 0).
    { intros c Hc Ne. rewrite (gs_ext p0 t0 (q_nfp q) N Mt _ (fun p t => harm (q_nfp q) p t (fst c, (- snd c)%Z) * harm (q_nfp q) p t (fst c0, (- snd c0)%Z))) by (intros; now rewrite !td_harm by (now apply Ch)).
      apply (harm_orthogonal p0 t0 (q_nfp q) N Mt Nf ltac:(lia) ltac:(lia) (q_mpol q) (q_ntor q) Bm Bn); [now apply Ok'|now apply Ok'|].
      intros Eq. apply Ne. destruct c as [? ?], c0 as [? ?]. cbn [fst snd] in Eq. injection Eq as E3 E4. f_equal; [exact E3|lia]. }
    assert (Hh : INR N * INR Mt / 2 <= sumg (fun p t => td q p t c0 * td q p t c0)).
    { rewrite (gs_ext p0 t0 (q_nfp q) N Mt _ (fun p t => harm (q_nfp q) p t (fst c0, (- snd c0)%Z) * harm (q_nfp q) p t (fst c0, (- snd c0)%Z))) by (intros; now rewrite !td_harm by (now apply Ch)).
      apply (harm_half p0 t0 (q_nfp q) N Mt (q_mpol q) (q_ntor q)); auto; lia. }
    assert (Pr : forall f, (f c0 * d) ^ 2 * (INR N * INR Mt / 2) <= sumg (fun p t => ldot (map (fun c => td q p t c * f c) (qcols q)) D ^ 2)).
    { intros f. pose proof (projection p0 t0 (q_nfp q) N Mt (qcols q) (td q) f k c0 D (NoDup_pcols _ _ _) Ek) as X. unfold D in X at 1. rewrite length_lincomb in X by congruence. specialize (X ltac:(rewrite (lcols q made_q); exact Ly) Or).
      unfold D in X at 1. rewrite lincomb_nth in X by congruence. replace (1 * nth k y 0 + -1 * nth k x 0) with d in X by (unfold d; ring).
      eapply Rle_trans; [|exact X]. apply Rmult_le_compat_l; [apply pow2_ge_0|exact Hh]. }
    assert (Big : 1 <= fphi q c0 ^ 2 + ftheta c0 ^ 2).
    { pose proof (Ch c0 Hc0) as Cc. pose proof (Nz c0 Hc0) as Nc. destruct c0 as [[m n] j]. unfold fphi, ftheta. cbn [fst snd] in *. assert (P3 : 1 <= 2 * PI) by (pose proof PI2_1; lra).
      assert (Sq : forall i : Z, (i <> 0)%Z -> 1 <= IZR i ^ 2). { intros i Hi. assert (1 <= i ^ 2)%Z by nia. apply IZR_le in H. rewrite <- (Z2Nat.id 2) in H by lia. change (Z.of_nat (Z.to_nat 2)) with (Z.of_nat 2) in H. rewrite <- pow_IZR in H. exact H. }
      assert (Sj : IZR j ^ 2 = 1) by (destruct Cc as [-> | ->]; ring). assert (Nk : 1 <= INR (q_nfp q)) by (change 1 with (INR 1); apply le_INR; lia).
      assert (S1 : 1 <= INR (q_nfp q) ^ 2) by nra. assert (S2 : 1 <= (2 * PI) ^ 2) by nra.
      replace ((- IZR n * IZR j * INR (q_nfp q) * 2 * PI) ^ 2) with (IZR n ^ 2 * IZR j ^ 2 * INR (q_nfp q) ^ 2 * (2 * PI) ^ 2) by ring. replace ((IZR m * IZR j * 2 * PI) ^ 2) with (IZR m ^ 2 * IZR j ^ 2 * (2 * PI) ^ 2) by ring. rewrite Sj.
      assert (P1 : 0 <= IZR n ^ 2) by apply pow2_ge_0. assert (P2 : 0 <= IZR m ^ 2) by apply pow2_ge_0.
      set (a := IZR n ^ 2) in *. set (b := IZR m ^ 2) in *. set (f := INR (q_nfp q) ^ 2) in *. set (g := (2 * PI) ^ 2) in *.
      assert (Q1 : 0 <= a * f) by nra. assert (a <= a * f) by nra. assert (Q2 : a * f <= a * f * g) by nra. assert (b <= b * g) by nra.
      destruct (Z.eq_dec m 0) as [->|Hm]; [destruct (Z.eq_dec n 0) as [->|Hn]; [now contradiction Nc|]; specialize (Sq n Hn)|specialize (Sq m Hm)]; unfold a, b in *; lra. }
    assert (PT : 0 < T) by lra. assert (Pq : 0 < kappa / T) by (now apply Rdiv_lt_0_compat).
    assert (Pi : 0 < / (2 * INR N * INR Mt)). { apply Rinv_0_lt_compat. apply Rmult_lt_0_compat; [|exact C]. lra. }
    apply Rle_trans with (sumg (fun p t => / (2 * INR N * INR Mt) * (kappa / T) * (V1 p t ^ 2 + V2 p t ^ 2))).
    - rewrite gs_scal, gs_plus. assert (Y1 : (fphi q c0 * d) ^ 2 * (INR N * INR Mt / 2) <= sumg (fun p t => V1 p t ^ 2)) by apply (Pr (fphi q)). assert (Y2 : (ftheta c0 * d) ^ 2 * (INR N * INR Mt / 2) <= sumg (fun p t => V2 p t ^ 2)) by apply (Pr ftheta).
      assert (Pp : 0 < / (2 * INR N * INR Mt) * (kappa / T)) by (now apply Rmult_lt_0_compat).
      assert (Pn : 0 < INR N * INR Mt / 2) by (assert (0 < INR N * INR Mt) by (now apply Rmult_lt_0_compat); lra).
      assert (Y : d ^ 2 * (INR N * INR Mt / 2) <= sumg (fun p t => V1 p t ^ 2) + sumg (fun p t => V2 p t ^ 2)).
      { eapply Rle_trans; [|apply Rplus_le_compat; [exact Y1|exact Y2]]. replace ((fphi q c0 * d) ^ 2 * (INR N * INR Mt / 2) + (ftheta c0 * d) ^ 2 * (INR N * INR Mt / 2)) with ((fphi q c0 ^ 2 + ftheta c0 ^ 2) * (d ^ 2 * (INR N * INR Mt / 2))) by ring.
        rewrite <- (Rmult_1_l (d ^ 2 * _)) at 1. apply Rmult_le_compat_r; [|exact Big]. apply Rmult_le_pos; [apply pow2_ge_0|lra]. }
      apply Rle_trans with (/ (2 * INR N * INR Mt) * (kappa / T) * (d ^ 2 * (INR N * INR Mt / 2))); [right; field; lra|]. apply Rmult_le_compat_l; [lra|exact Y].
    - rewrite gs_pairs, <- E1, <- E2. fold ps ts. clear - Kb Tb F1 F2 Pi Pk PT.
      assert (Hs : forall u, In u (pairs ps ts) -> In (fst u) ps /\ In (snd u) ts) by (intros [a b] Hu; apply pairs_in in Hu; exact Hu). revert Hs. generalize (pairs ps ts). intros l Hs.
      unfold Rsum. induction l as [|u l IH]; cbn [map fold_right]; [lra|]. assert (IH' := IH ltac:(intros; apply Hs; now right)). destruct (Hs u ltac:(now left)) as (I1 & I2).
      specialize (Kb _ _ I1 I2). specialize (Tb _ _ I1 I2). destruct u as [p t]. cbn [fst snd] in *. assert (G : kappa / T * (V1 p t ^ 2 + V2 p t ^ 2) <= norm3 (wn q p t) * dot3 (sub3 (kval q y p t) (kval q x p t)) (sub3 (kval q y p t) (kval q x p t))).
      { set (a := V1 p t). set (b := V2 p t). set (w := norm3 (wn q p t)) in *. set (F := sub3 (scale3 a (w2 q p t)) (scale3 b (w1 q p t))).
        assert (Pw : 0 < w) by lra.
        assert (EK : dot3 (sub3 (kval q y p t) (kval q x p t)) (sub3 (kval q y p t) (kval q x p t)) = / w * / w * dot3 F F).
        { unfold F, a, b. rewrite <- F1, <- F2. unfold kval. fold w. destruct (w1 q p t), (w2 q p t). unfold dot3, sub3, scale3. simpl. ring. }
        rewrite EK. assert (Tf := tangent_form (w1 q p t) (w2 q p t) a b). fold F in Tf. change (cross3 (w1 q p t) (w2 q p t)) with (wn q p t) in Tf.
        assert (W2 : dot3 (wn q p t) (wn q p t) = w * w). { unfold w, norm3. rewrite sqrt_def; [reflexivity|]. pose proof (Rle_0_sqr (vx (wn q p t))). pose proof (Rle_0_sqr (vy (wn q p t))). pose proof (Rle_0_sqr (vz (wn q p t))). unfold Rsqr in *. lra. }
        rewrite W2 in Tf. assert (PF : 0 <= dot3 F F). { unfold dot3. pose proof (Rle_0_sqr (vx F)). pose proof (Rle_0_sqr (vy F)). pose proof (Rle_0_sqr (vz F)). unfold Rsqr in *. lra. }
        assert (Q : (a ^ 2 + b ^ 2) * (w * w) <= dot3 F F * T) by (eapply Rle_trans; [exact Tf|]; apply Rmult_le_compat_l; assumption).
        assert (Pab : 0 <= a ^ 2 + b ^ 2) by (pose proof (pow2_ge_0 a); pose proof (pow2_ge_0 b); lra).
        apply Rmult_le_reg_r with (w * T); [now apply Rmult_lt_0_compat|]. replace (kappa / T * (a ^ 2 + b ^ 2) * (w * T)) with (kappa * ((a ^ 2 + b ^ 2) * w)) by (field; lra).
        replace (w * (/ w * / w * dot3 F F) * (w * T)) with (dot3 F F * T) by (field; lra). apply Rle_trans with (w * ((a ^ 2 + b ^ 2) * w)); [|lra]. apply Rmult_le_compat_r; [|exact Kb]. apply Rmult_le_pos; lra. }
      apply (Rmult_le_compat_l (/ (2 * INR N * INR Mt))) in G; [|lra]. lra.
  Qed.
End Rate.

(** One rate for all resolving grids. *)
Lemma winding_bounds q p0 t0 : (forall p t, wn q p t <> zero3) -> exists kappa T, 0 < kappa /\ 1 <= T /\
  forall p t, p0 <= p < p0 + 1 -> t0 <= t < t0 + 1 -> kappa <= norm3 (wn q p t) /\ dot3 (w1 q p t) (w1 q p t) + dot3 (w2 q p t) (w2 q p t) <= T.
Proof.
  intros Nz. assert (Pn : forall p t, 0 < norm3 (wn q p t)) by (intros; now apply norm_pos).
  destruct (bounded_above (fun p t => / norm3 (wn q p t)) p0 t0 1 1 ltac:(lra) ltac:(lra)) as (M1 & H1).
  { apply cont2_inv; [apply cont3_norm, cont3_nrm|]. intros p t. specialize (Pn p t). lra. }
  destruct (bounded_above (fun p t => dot3 (w1 q p t) (w1 q p t) + dot3 (w2 q p t) (w2 q p t)) p0 t0 1 1 ltac:(lra) ltac:(lra)) as (M2 & H2).
  { apply cont2_plus; apply cont3_dot; apply cont3_pt. }
  assert (P1 : 0 < M1). { pose proof (H1 p0 t0 ltac:(lra) ltac:(lra)). pose proof (Rinv_0_lt_compat _ (Pn p0 t0)). lra. }
  exists (/ M1), (Rmax 1 M2). split; [now apply Rinv_0_lt_compat|]. split; [apply Rmax_l|]. intros p t Hp Ht. split.
  - rewrite <- (Rinv_inv (norm3 (wn q p t))). apply Rinv_le_contravar; [apply Rinv_0_lt_compat, Pn|]. now apply H1.
  - eapply Rle_trans; [now apply H2|apply Rmax_r].
Qed.
