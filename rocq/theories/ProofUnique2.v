(** Growth of the objective away from the best design, and uniqueness, for C123 and C124. *)
From Coq Require Import String List Bool Arith ZArith Reals Lra Lia.
From Verif Require Import Base ModelArray ProofArray ModelMath SpecMath ProofMath ModelSurface SpecSurface ProofSurface ProofSurface2 ProofSurface3
  ModelParams ModelField SpecField ProofField ProofField2 ProofField3 ProofField4
  ModelQuantity ModelWrapper SpecWrapper ModelPackage SpecPackage ProofPackage ProofPackage2 ProofPackage3 ProofPackage4 SpecConvex ProofConvex ProofSimsopt ProofTrig SpecBest ProofSquares ProofPeriods ProofBest ProofUnique.
Import ListNotations.
Open Scope R_scope.
Open Scope string_scope.
Open Scope list_scope.

Lemma energy_chord t W a b : length a = length b ->
  energy W (lincomb t (1 - t) a b) = t * energy W a + (1 - t) * energy W b - t * (1 - t) * energy W (lincomb 1 (-1) b a).
Proof.
  unfold energy, lincomb, Rsum. revert a b; induction W as [|w W IH]; intros a b L; [cbn; ring|]. destruct a as [|u a], b as [|v b]; try discriminate; [cbn; ring|].
  cbn [map2 fold_right]. rewrite IH by (now injection L). ring.
Qed.
Lemma energy_nonneg W E : (forall w, In w W -> 0 <= w) -> 0 <= energy W E.
Proof.
  unfold energy, Rsum. revert E; induction W as [|w W IH]; intros E H; [cbn; lra|]. destruct E as [|e E]; [cbn; lra|]. cbn [map2 fold_right].
  assert (0 <= w * (e * e)) by (apply Rmult_le_pos; [apply H; now left|apply Rle_0_sqr]). assert (0 <= fold_right Rplus 0 (map2 (fun w e => w * (e * e)) W E)) by (apply IH; intros; apply H; now right). lra.
Qed.
Lemma energy_zero W E : length W = length E -> (forall w, In w W -> 0 < w) -> energy W E = 0 -> forall e, In e E -> e = 0.
Proof.
  unfold energy, Rsum. revert E; induction W as [|w W IH]; intros [|a E] L P Z e He; try discriminate; [destruct He|]. cbn [map2 fold_right] in Z.
  assert (Pw : 0 < w) by (apply P; now left). assert (A : 0 <= w * (a * a)) by (apply Rmult_le_pos; [lra|apply Rle_0_sqr]).
  assert (B : 0 <= energy W E) by (apply energy_nonneg; intros; apply Rlt_le, P; now right). unfold energy, Rsum in B.
  destruct He as [<-|He].
  - assert (Z1 : w * (a * a) = 0) by lra. apply Rmult_integral in Z1 as [Z1|Z1]; [lra|]. apply Rmult_integral in Z1 as [Z1|Z1]; exact Z1.
  - apply (IH E); auto; [|lra]. intros; apply P; now right.
Qed.

Definition is_quadratic (name : string) : bool := existsb (String.eqb name) quadratic_figures.
Lemma is_quadratic_in name : is_quadratic name = true -> In name quadratic_figures.
Proof. unfold is_quadratic. rewrite existsb_exists. intros (n & H & E). apply String.eqb_eq in E. now subst. Qed.
Definition gap (q : params) (os : list (string * R)) (x y : list R) : R :=
  Rsum (map (fun o => snd o * energy (weights (fst o) q) (lincomb 1 (-1) (field (fst o) q y) (field (fst o) q x))) (quadratic_part os)).

Lemma gap_cons q name w l x y : gap q ((name, w) :: l) x y =
  (if is_quadratic name then w * energy (weights name q) (lincomb 1 (-1) (field name q y) (field name q x)) else 0) + gap q l x y.
Proof.
  unfold gap, quadratic_part. cbn [filter fst]. change (existsb (String.eqb name) quadratic_figures) with (is_quadratic name). destruct (is_quadratic name); [reflexivity|ring].
Qed.

Section Growth.
  Variables (other : list string) (q : params) (x0 : list R) (os : list (string * R)) (cs : list (string * cmp * R)).
  Hypothesis S : sound q x0.
  Hypothesis Ho : convex_objective other q os.
  Hypothesis Hc : convex_constraints other q cs.
  Lemma plain : plasma_shaped q. Proof using S. apply S. Qed.
  Lemma weighted_gap x y t fx fy : length x = q_ndofs q -> length y = q_ndofs q -> 0 <= t <= 1 -> weighted other q os x fx -> weighted other q os y fy ->
    exists fz, weighted other q os (lincomb t (1 - t) x y) fz /\ fz <= t * fx + (1 - t) * fy - t * (1 - t) * gap q os x y.
  Proof using S Ho.
    intros Lx Ly Ht (vx & Fx & ->) (vy & Fy & ->). clear Hc. revert vx vy Fx Fy.
    induction os as [|[name w] l IH]; intros vx vy Fx Fy; inversion Fx as [|? mx ? lx Hx Tx]; inversion Fy as [|? my ? ly Hy Ty]; subst.
    - exists 0. split; [exists []; split; [constructor|reflexivity]|]. unfold gap, Rsum; cbn; lra.
    - destruct (IH ltac:(intros ? ? ?; apply Ho; now right) lx ly Tx Ty) as (fz & (vz & Fz & ->) & B).
      destruct (Ho name w ltac:(now left)) as (Pw & Cx). destruct (Cx x y t Lx Ly Ht) as (ux & uy & uz & Rx & Ry & Rz & S1 & S2 & L1 & L2 & F).
      cbn [fst] in Hx, Hy. assert (Ex := reads_fun _ _ _ _ _ _ Rx Hx). assert (Ey := reads_fun _ _ _ _ _ _ Ry Hy). subst ux uy.
      destruct uz as [sz lz]. cbn [sh el scal] in S1, L1, F. subst sz. destruct lz as [|mz [|? ?]]; try discriminate. unfold lincomb, scal in F. cbn [map2 el] in F. inversion F as [|? ? ? ? Hm _]; subst.
      eexists. split; [exists (mz :: vz); split; [constructor; [exact Rz|exact Fz]|reflexivity]|].
      rewrite gap_cons. cbn [map2 map snd fst]. repeat match goal with |- context [Rsum (?a :: ?b)] => change (Rsum (a :: b)) with (a + Rsum b) end.
      destruct (is_quadratic name) eqn:Q.
      + apply is_quadratic_in in Q. assert (Lz : length (lincomb t (1 - t) x y) = q_ndofs q) by (rewrite length_lincomb; congruence).
        pose proof (reads_fun _ _ _ _ _ _ (figure other name q x (sound_any q x0 S x Lx) Q) Hx) as E1. injection E1 as <-.
        pose proof (reads_fun _ _ _ _ _ _ (figure other name q y (sound_any q x0 S y Ly) Q) Hy) as E2. injection E2 as <-.
        pose proof (reads_fun _ _ _ _ _ _ (figure other name q _ (sound_any q x0 S _ Lz) Q) Rz) as E3. injection E3 as <-.
        rewrite (field_superposed name t (1 - t) q q q) by (try apply superposed_self; try apply plain; congruence).
        rewrite energy_chord by (rewrite !field_length by apply plain; reflexivity).
        lra.
      + apply Rmult_le_compat_l with (r := w) in Hm; [|assumption]. lra.
  Qed.
  Lemma growth x y fx fy : length x = q_ndofs q -> feasible other q cs x -> least other q os cs x (fun _ => True) -> length y = q_ndofs q -> feasible other q cs y ->
    weighted other q os x fx -> weighted other q os y fy -> fx + gap q os x y <= fy.
  Proof using S Ho Hc.
    intros Lx Fx B Ly Fy Wx Wy.
    assert (Step : forall t, 0 <= t < 1 -> fx <= fy - t * gap q os x y).
    { intros t Ht. destruct (weighted_gap x y t fx fy Lx Ly ltac:(lra) Wx Wy) as (fz & Wz & Bz).
      assert (fx <= fz) by (apply (B (lincomb t (1 - t) x y) fx fz); auto; [rewrite length_lincomb; congruence|]; apply (feasible_convex other q cs Hc); auto; lra).
      apply (Rmult_le_reg_l (1 - t)); [lra|]. lra. }
    apply Rnot_lt_le. intros X. set (D := gap q os x y) in *. pose proof (Step 0 ltac:(lra)) as S0.
    assert (PD : 0 < D) by lra. set (t := 1 - (fx + D - fy) / (2 * D)).
    assert (E : (1 - t) * D = (fx + D - fy) / 2) by (unfold t; field; lra).
    assert (Pd : 0 < (fx + D - fy) / (2 * D)) by (apply Rdiv_lt_0_compat; lra).
    assert (Pd' : (fx + D - fy) / (2 * D) <= 1) by (apply (Rmult_le_reg_r (2 * D)); [lra|]; unfold Rdiv; rewrite Rmult_assoc, Rinv_l by lra; lra).
    pose proof (Step t ltac:(unfold t; lra)). lra.
  Qed.
  (** The gap is the quadratic part of the objective in the device without net
      currents and plasma field. *)
  Lemma gap_reads q0 x y : made q0 -> SpecField.scaled 0 q q0 -> length x = q_ndofs q -> length y = q_ndofs q ->
    weighted other q0 (quadratic_part os) (lincomb 1 (-1) y x) (gap q os x y).
  Proof using S.
    intros M0 Sc Lx Ly. pose proof (quiet_superposed q q0 Sc) as Su. assert (G : same_geometry q0 q) by apply Su. pose proof plain as P.
    assert (P0 : plasma_shaped q0) by (apply (superposed_shape 1 (-1) q q q0); auto).
    assert (Nd : q_ndofs q0 = q_ndofs q) by apply G.
    assert (S0 : sound q0 (lincomb 1 (-1) y x)).
    { split; [exact M0|]. pose proof G as (-> & -> & _). split; [apply S|]. split; [apply S|]. split; [exact P0|]. rewrite length_lincomb; congruence. }
    exists (map (fun o => energy (weights (fst o) q0) (field (fst o) q0 (lincomb 1 (-1) y x))) (quadratic_part os)).
    assert (Gq : forall o, In o (quadratic_part os) -> In (fst o) quadratic_figures).
    { intros o Hi. unfold quadratic_part in Hi. apply filter_In in Hi as (_ & Hi). now apply is_quadratic_in. }
    unfold gap. revert Gq. generalize (quadratic_part os). clear -S0 Su P G Lx Ly. intros l Gq. split.
    - induction l as [|[n c] l IH]; constructor; [|apply IH; intros; apply Gq; now right]. cbn [fst]. apply figure; [assumption|]. apply (Gq (n, c)). now left.
    - f_equal. clear Gq S0. induction l as [|[n c] l IH]; [reflexivity|]. cbn [map map2 fst snd]. rewrite IH. f_equal.
      rewrite (field_superposed n 1 (-1) q q q0 y x Su P P) by congruence. now rewrite (weights_same _ _ _ G).
  Qed.
  Hypothesis O : ordered q.
  Lemma gap_terms name c x y : In (name, c) os -> In name quadratic_figures -> 0 < c -> gap q os x y <= 0 ->
    energy (weights name q) (lincomb 1 (-1) (field name q y) (field name q x)) = 0.
  Proof using S Ho O.
    intros Hi Hq Pc.
    assert (Nn : forall n, 0 <= energy (weights n q) (lincomb 1 (-1) (field n q y) (field n q x))) by (intros n; apply energy_nonneg, (weights_pos n q x0 S O)).
    assert (G0 : forall l, (forall n w, In (n, w) l -> 0 <= w) -> 0 <= gap q l x y).
    { induction l as [|[n w] l IH]; intros Hl; [unfold gap, Rsum; cbn; lra|]. rewrite gap_cons. assert (0 <= gap q l x y) by (apply IH; intros n' w' H'; apply (Hl n'); now right).
      destruct (is_quadratic n); [|lra]. assert (0 <= w) by (apply (Hl n); now left). specialize (Nn n). pose proof (Rmult_le_pos _ _ H0 Nn). lra. }
    assert (Hw : forall n w, In (n, w) os -> 0 <= w) by (intros n w Hn; apply (Ho n w Hn)). clear Hc. revert Hi Hw. clear Ho. induction os as [|[n w] l IH]; intros Hi Hw Z; [destruct Hi|].
    rewrite gap_cons in Z. assert (Gl : 0 <= gap q l x y) by (apply G0; intros n' w' H'; apply (Hw n'); now right).
    assert (Pw : 0 <= w) by (apply (Hw n); now left). pose proof (Rmult_le_pos _ _ Pw (Nn n)) as Pt.
    destruct Hi as [E|Hi].
    - injection E as -> ->. assert (Qt : is_quadratic name = true) by (unfold is_quadratic; apply existsb_exists; exists name; split; [exact Hq|apply String.eqb_refl]).
      rewrite Qt in Z. specialize (Nn name). assert (Z0 : c * energy (weights name q) (lincomb 1 (-1) (field name q y) (field name q x)) = 0) by lra.
      apply Rmult_integral in Z0 as [Z0|Z0]; [lra|exact Z0].
    - apply IH; auto; [intros n' w' H'; apply (Hw n'); now right|]. destruct (is_quadratic n); lra.
  Qed.
End Growth.

(** ** Positive weights *)
Lemma equi_dtheta s x0 h n ps s' : (2 <= n)%nat -> resampled s ps (equispaced x0 h n) s' -> s_dtheta s' = h.
Proof.
  intros Hn C. apply copy_fields in C as (_ & _ & _ & _ & _ & _ & _ & _ & _ & _ & E). rewrite E.
  assert (Hl : length (equispaced x0 h n) = n) by (unfold equispaced; now rewrite map_length, seq_length).
  rewrite Hl. replace (Nat.min 1 (n - 1)) with 1%nat by lia. rewrite !equi_nth by lia. simpl. ring.
Qed.
Lemma weights_strict name q x : sound q x -> resolved q -> regular (q_eval q) -> In name ["f_K"; "f_Phi"] -> forall w, In w (weights name q) -> 0 < w.
Proof.
  intros S Rs Rg Hn. pose proof S as (M & Lw & _). destruct (made_facts q M) as (Nf & _ & _ & _ & Ce & _). destruct Rs as (p0 & t0 & N & Mt & E1 & E2 & HN & HM & _).
  assert (Pf : 0 < INR (q_nfp q)) by (apply lt_0_INR; unfold q_nfp; lia). assert (PN : 0 < INR N) by (apply lt_0_INR; lia). assert (PM : 0 < INR Mt) by (apply lt_0_INR; lia).
  assert (D1 : s_dphi (q_eval q) = / (INR (q_nfp q) * INR N)) by (rewrite E1 in Ce; exact (equi_dphi _ _ _ _ _ _ HN Ce)).
  assert (D2 : s_dtheta (q_eval q) = / INR Mt) by (rewrite E2 in Ce; exact (equi_dtheta _ _ _ _ _ _ HM Ce)).
  assert (A : forall w, In w (halves q (areas (q_eval q) (q_winding q) (q_qphi q) (q_qtheta q))) -> 0 < w).
  { intros w H. unfold halves in H. apply in_map_iff in H as (a & <- & H). unfold areas in H. rewrite concat_sample in H. apply in_map_iff in H as ([p t] & <- & H). cbn [fst snd].
    assert (Nz : nrm (q_winding q) p t <> zero3).
    { apply (Rg (sample (nrm (q_winding q)) (q_qphi q) (q_qtheta q))); [now apply normal_copy|]. rewrite concat_sample. apply in_map_iff. exists (p, t). auto. }
    assert (0 < norm3 (nrm (q_winding q) p t)) by (now apply norm_pos). rewrite D1, D2.
    assert (0 < / (INR (q_nfp q) * INR N)) by (apply Rinv_0_lt_compat, Rmult_lt_0_compat; assumption). assert (0 < / INR Mt) by (now apply Rinv_0_lt_compat).
    apply Rmult_lt_0_compat; [lra|]. apply Rmult_lt_0_compat; [|assumption]. now apply Rmult_lt_0_compat. }
  intros w. unfold weights. destruct Hn as [<-|[<-|[]]]; cbn [String.eqb Ascii.eqb Bool.eqb]; [|apply A].
  intros H. unfold triple in H. apply in_flat_map in H as (v & Hv & H). assert (E : w = v) by (cbn in H; intuition congruence). subst. now apply A.
Qed.
Lemma sample_pointwise {A} (F G : R -> R -> A) ps ts : concat (sample F ps ts) = concat (sample G ps ts) -> forall p t, In p ps -> In t ts -> F p t = G p t.
Proof.
  rewrite !concat_sample. intros E p t Hp Ht. assert (Hi : In (p, t) (pairs ps ts)) by (apply ProofPeriods.pairs_in; auto).
  revert E Hi. generalize (pairs ps ts). intros l. induction l as [|u l IH]; intros E Hi; [destruct Hi|]. cbn [map] in E. injection E as E1 E2. destruct Hi as [->|Hi]; [exact E1|auto].
Qed.
Lemma flat3_inj u v : length u = length v -> flat3 u = flat3 v -> u = v.
Proof.
  revert v; induction u as [|a u IH]; intros [|b v] L E; try discriminate; [reflexivity|]. unfold flat3 in *. cbn [flat_map app] in E. injection E as E1 E2 E3 E4.
  f_equal; [destruct a, b; simpl in E1, E2, E3; congruence|]. apply IH; [now injection L|exact E4].
Qed.
Lemma diff_zero a b : length a = length b -> (forall e, In e (lincomb 1 (-1) b a) -> e = 0) -> a = b.
Proof.
  unfold lincomb. revert b; induction a as [|u a IH]; intros [|v b] L H; try discriminate; [reflexivity|]. cbn [map2] in H. f_equal.
  - specialize (H (1 * v + -1 * u) ltac:(now left)). lra.
  - apply IH; [now injection L|]. intros. apply H. now right.
Qed.
Lemma kval_slopes q x y p t : nrm (q_winding q) p t <> zero3 -> kval q x p t = kval q y p t -> phi1 q x p t = phi1 q y p t /\ phi2 q x p t = phi2 q y p t.
Proof.
  intros Nz E. unfold kval in E. assert (Pn : norm3 (wn q p t) <> 0) by (apply Rgt_not_eq, norm_pos, Nz).
  assert (E' : forall u v, scale3 (/ norm3 (wn q p t)) u = scale3 (/ norm3 (wn q p t)) v -> u = v).
  { intros u v X. apply (f_equal (scale3 (norm3 (wn q p t)))) in X. destruct u, v. unfold scale3 in X. simpl in X. injection X as X1 X2 X3.
    rewrite <- !Rmult_assoc, Rinv_r, !Rmult_1_l in X1, X2, X3 by exact Pn. congruence. }
  apply E' in E.
  assert (T : forall a b, sub3 (scale3 a (w2 q p t)) (scale3 b (w1 q p t)) = add3 (scale3 (- b) (w1 q p t)) (scale3 a (w2 q p t))).
  { intros a b. unfold sub3, add3, scale3. simpl. f_equal; ring. }
  rewrite !T in E. apply tangent_unique in E; [lra|]. exact Nz.
Qed.

