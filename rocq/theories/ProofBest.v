(** Sums of squares as least-squares problems, for C123 and C124. *)
From Coq Require Import String List Bool Arith ZArith Reals Lra Lia.
From Verif Require Import Base ModelArray ProofArray ModelMath SpecMath ProofMath ModelSurface SpecSurface ProofSurface ProofSurface2 ProofSurface3
  ModelParams ModelField SpecField ProofField ProofField2 ProofField3 ProofField4
  ModelQuantity ModelWrapper SpecWrapper ModelPackage SpecPackage ProofPackage ProofPackage2 ProofPackage3 ProofPackage4 SpecConvex ProofConvex ProofTrig SpecBest ProofSquares.
Import ListNotations.
Open Scope R_scope.
Open Scope string_scope.
Open Scope list_scope.

Definition flat3 (l : list vec3) : list R := flat_map (fun v => [vx v; vy v; vz v]) l.
Definition triple (l : list R) : list R := flat_map (fun w => [w; w; w]) l.
(** The field whose square is integrated, and the weights of its entries. *)
Definition field (name : string) (q : params) (x : list R) : list R :=
  if String.eqb name "f_K" then flat3 (concat (sample (kval q x) (q_qphi q) (q_qtheta q)))
  else if String.eqb name "f_Phi" then concat (sample (phi_of q x) (q_qphi q) (q_qtheta q))
  else concat (gmap2 Rplus (sample (bnval q x) (s_qphi (q_plasma q)) (s_qtheta (q_plasma q))) (q_Bnormal q)).
Definition areas (s : surface) (base : surface) (ps ts : list R) : list R :=
  concat (sample (fun p t => s_dphi s * s_dtheta s * norm3 (nrm base p t)) ps ts).
Definition halves (q : params) (l : list R) : list R := map (fun w => INR (q_nfp q) / 2 * w) l.
Definition weights (name : string) (q : params) : list R :=
  if String.eqb name "f_K" then triple (halves q (areas (q_eval q) (q_winding q) (q_qphi q) (q_qtheta q)))
  else if String.eqb name "f_Phi" then halves q (areas (q_eval q) (q_winding q) (q_qphi q) (q_qtheta q))
  else halves q (areas (q_plasma q) (q_plasma q) (s_qphi (q_plasma q)) (s_qtheta (q_plasma q))).

Lemma len_triple l : length (triple l) = (3 * length l)%nat.
Proof. induction l; cbn [triple flat_map app length] in *; [reflexivity|]. unfold triple in IHl. cbn [app length]. rewrite IHl. lia. Qed.
Lemma flat3_comb a b u v : length u = length v -> flat3 (map2 (fun k l => add3 (scale3 a k) (scale3 b l)) u v) = lincomb a b (flat3 u) (flat3 v).
Proof.
  revert v; induction u as [|k u IH]; intros [|l v] E; try discriminate; [reflexivity|]. unfold flat3 in *. cbn [map2 flat_map app]. rewrite IH by (now injection E). reflexivity.
Qed.
Lemma shape_sample {A} q (F : R -> R -> A) : plasma_shaped q -> gshape (q_Bnormal q) = gshape (sample F (s_qphi (q_plasma q)) (s_qtheta (q_plasma q))).
Proof. apply gshape_plasma. Qed.
Lemma gshape_concat {A B} (g : grid A) (h : grid B) : gshape g = gshape h -> length (concat g) = length (concat h).
Proof.
  unfold gshape. revert h; induction g as [|r g IH]; intros [|r' h] E; try discriminate; [reflexivity|]. cbn [map] in E. injection E as E1 E2.
  cbn [concat]. rewrite !app_length. rewrite (IH h E2). congruence.
Qed.
Lemma lincomb_nth a b u v k : length u = length v -> nth k (lincomb a b u v) 0 = a * nth k u 0 + b * nth k v 0.
Proof.
  revert v k; induction u as [|x u IH]; intros [|y v] [|k] E; try discriminate; cbn; try ring. apply IH. now injection E.
Qed.
Lemma field_length name q x : plasma_shaped q -> length (field name q x) = length (weights name q).
Proof.
  intros P. unfold field, weights, halves, areas. destruct (String.eqb name "f_K"); [|destruct (String.eqb name "f_Phi")].
  - rewrite len_triple, map_length. unfold flat3. rewrite len_flat3, !len_sample. reflexivity.
  - rewrite map_length, !len_sample. reflexivity.
  - rewrite map_length. apply gshape_concat. rewrite gshape_gmap2; [apply gshape_sample|]. symmetry. now apply gshape_plasma.
Qed.
Lemma weights_same name q q' : same_geometry q' q -> weights name q' = weights name q.
Proof.
  intros (E1 & E2 & E3 & E4 & E5 & _). unfold weights, halves, areas, q_nfp. now rewrite E1, E2, E3, E4, E5.
Qed.
Lemma field_superposed name a b q1 q2 q x1 x2 : superposed a b q1 q2 q -> plasma_shaped q1 -> plasma_shaped q2 -> length x1 = length x2 ->
  field name q (lincomb a b x1 x2) = lincomb a b (field name q1 x1) (field name q2 x2).
Proof.
  intros S P1 P2 L. pose proof S as (S1 & S2 & _ & _ & EB). pose proof S1 as (Q1 & _ & _ & A1 & B1 & _). pose proof S2 as (Q2 & _ & _ & A2 & B2 & _).
  unfold field. destruct (String.eqb name "f_K"); [|destruct (String.eqb name "f_Phi")].
  - rewrite <- A1, <- A2, <- B1, <- B2. rewrite <- flat3_comb by (now rewrite !len_sample). f_equal. apply sample_lin. intros. now apply kval_superposed.
  - rewrite <- A1, <- A2, <- B1, <- B2. apply (sample_lin (fun u v => a * u + b * v)). intros p t.
    destruct (geo_phi q q1 x1 p t S1) as (<- & _). destruct (geo_phi q q2 x2 p t S2) as (<- & _). unfold phi_of. now apply ldot_lincomb.
  - rewrite EB. rewrite <- Q1, <- Q2.
    rewrite (sample_ext (bnval q (lincomb a b x1 x2)) (fun p t => a * bnval q1 x1 p t + b * bnval q2 x2 p t)) by (intros; now apply bnval_superposed).
    rewrite lin_grids. symmetry. unfold lincomb at 1. apply eq_sym. unfold glincomb, lincomb.
    apply (concat_gmap2 (fun u v => a * u + b * v)). change (map (@length R)) with (@gshape R).
    rewrite !gshape_gmap2.
    + apply gshape_sample.
    + symmetry. rewrite Q2. apply (gshape_plasma q2). exact P2.
    + symmetry. rewrite Q1. apply (gshape_plasma q1). exact P1.
Qed.

(** Weighted sums of squares. *)
Definition energy (W E : list R) : R := Rsum (map2 (fun w e => w * (e * e)) W E).
Lemma energy_triple W (V : list vec3) : energy (triple W) (flat3 V) = Rsum (map2 (fun w v => w * dot3 v v) W V).
Proof.
  unfold energy, Rsum. revert V; induction W as [|w W IH]; intros [|v V]; try reflexivity. unfold triple, flat3 in *. cbn [flat_map app map2 fold_right]. rewrite IH. unfold dot3. ring.
Qed.
Lemma energy_halves c W E : energy (map (fun w => c / 2 * w) W) E = c * Rsum (map2 (fun w y => w * (y * y / 2)) W E).
Proof.
  unfold energy, Rsum. revert E; induction W as [|w W IH]; intros [|e E]; cbn [map map2 fold_right]; try ring. rewrite IH. field.
Qed.
Lemma figure other name q x : sound q x -> In name quadratic_figures -> reads other name q x (scal (energy (weights name q) (field name q x))).
Proof.
  intros S I. pose proof S as (M & Lw & Lp & Ps & L). destruct (made_facts q M) as (_ & _ & _ & _ & Ce & _ & Cp).
  destruct I as [<-|[<-|[<-|[]]]]; unfold weights, field; cbn [String.eqb Ascii.eqb Bool.eqb].
  - destruct (integral_value other q x S "f_B" "Bnormal" (q_plasma q) (fun y => y * y / 2) ltac:(cbn; tauto)) as (r & v & d & Rr & Rv & Ed & ->).
    destruct (reads_Bnormal other q x S) as (g & Eg & Rg). rewrite (reads_fun _ _ _ _ _ _ Rv Rg) in Rr. rewrite Bnormal_made in Eg by auto. injection Eg as <-.
    rewrite (da_copy (q_plasma q) _ _ _ Lp Cp) in Ed. injection Ed as <-. unfold halves, areas. rewrite energy_halves. exact Rr.
  - destruct (integral_value other q x S "f_K" "K2" (q_eval q) (fun y => y / 2) ltac:(cbn; tauto)) as (r & v & d & Rr & Rv & Ed & ->).
    rewrite (reads_fun _ _ _ _ _ _ Rv (reads_K2 other q x S)) in Rr.
    rewrite (da_copy (q_winding q) _ _ _ Lw Ce) in Ed. injection Ed as <-. unfold halves, areas. rewrite energy_triple.
    match goal with |- reads _ _ _ _ (scal ?a) => match type of Rr with reads _ _ _ _ (scal ?b) => replace a with b; [exact Rr|] end end.
    unfold of_grid. cbn [el]. rewrite (concat_sample (fun p t => dot3 _ _)), (concat_sample (kval q x)).
    generalize (concat (sample (fun p t => s_dphi (q_eval q) * s_dtheta (q_eval q) * norm3 (nrm (q_winding q) p t)) (q_qphi q) (q_qtheta q))).
    generalize (pairs (q_qphi q) (q_qtheta q)). unfold Rsum. intros l W. revert W. induction l as [|u l IH]; intros [|w W]; cbn [map map2 fold_right]; try ring.
    rewrite <- IH. field.
  - destruct (integral_value other q x S "f_Phi" "Phi" (q_eval q) (fun y => y * y / 2) ltac:(cbn; tauto)) as (r & v & d & Rr & Rv & Ed & ->).
    rewrite (reads_fun _ _ _ _ _ _ Rv (reads_Phi other q x S)) in Rr.
    rewrite (da_copy (q_winding q) _ _ _ Lw Ce) in Ed. injection Ed as <-. unfold halves, areas. rewrite energy_halves. exact Rr.
Qed.
Lemma weights_pos name q x : sound q x -> ordered q -> forall w, In w (weights name q) -> 0 <= w.
Proof.
  intros S (O1 & O2 & O3 & O4) w. pose proof S as (M & Lw & Lp & Ps & L). destruct (made_facts q M) as (_ & _ & _ & _ & Ce & _ & Cp).
  assert (A : forall s base ps ts, resampled base ps ts s -> increasing ps -> increasing ts -> forall w, In w (halves q (areas s base ps ts)) -> 0 <= w).
  { intros s base ps ts C Ip It v Hv. unfold halves in Hv. apply in_map_iff in Hv as (a & <- & Ha).
    pose proof (weights_nonneg _ _ _ _ C Ip It) as F. apply in_concat in Ha as (r & Hr & Hw).
    rewrite List.Forall_forall in F. specialize (F r Hr). rewrite List.Forall_forall in F. specialize (F a Hw). pose proof (pos_INR (q_nfp q)). nra. }
  unfold weights. destruct (String.eqb name "f_K"); [|destruct (String.eqb name "f_Phi")].
  - intros H. unfold triple in H. apply in_flat_map in H as (v & Hv & H). assert (E : w = v) by (cbn in H; intuition congruence). subst. exact (A _ _ _ _ Ce O1 O2 v Hv).
  - intros H. exact (A _ _ _ _ Ce O1 O2 w H).
  - intros H. exact (A _ _ _ _ Cp O3 O4 w H).
Qed.

(** ** The whole objective *)
Definition idx : Type := string * R * nat.
Definition entries (q : params) (os : list (string * R)) : list idx :=
  flat_map (fun o => map (fun k => (fst o, snd o, k)) (seq 0 (length (weights (fst o) q)))) os.
Definition wt (q : params) (u : idx) : R := snd (fst u) * nth (snd u) (weights (fst (fst u)) q) 0.
Definition val (q : params) (x : list R) (u : idx) : R := nth (snd u) (field (fst (fst u)) q x) 0.
Lemma sum_nth W E : length W = length E -> Rsum (map (fun k => nth k W 0 * (nth k E 0 * nth k E 0)) (seq 0 (length W))) = energy W E.
Proof.
  unfold energy, Rsum. revert E; induction W as [|w W IH]; intros [|e E] L; try discriminate; [reflexivity|].
  cbn [length seq map map2 fold_right nth]. rewrite <- seq_shift, map_map. cbn [nth]. f_equal. apply IH. now injection L.
Qed.
Lemma entries_in q os u : In u (entries q os) <-> In (fst (fst u), snd (fst u)) os /\ (snd u < length (weights (fst (fst u)) q))%nat.
Proof.
  unfold entries. rewrite in_flat_map. split.
  - intros ((n, c) & Ho & H). apply in_map_iff in H as (k & <- & Hk). cbn [fst snd] in *. apply in_seq in Hk. split; [exact Ho|lia].
  - destruct u as ((n & c) & k). cbn [fst snd]. intros (Ho & Hk). exists (n, c). split; [exact Ho|]. apply in_map_iff. exists k. split; [reflexivity|]. cbn [fst]. apply in_seq. lia.
Qed.
Lemma objective_value q os x : plasma_shaped q ->
  en (entries q os) (wt q) (val q x) = Rsum (map (fun o => snd o * energy (weights (fst o) q) (field (fst o) q x)) os).
Proof.
  intros P. unfold en, ip, entries, idx. induction os as [|[n c] os IH]; [reflexivity|]. cbn [flat_map]. rewrite map_app, Rsum_app, IH. clear IH.
  change (Rsum (map (fun o => snd o * energy (weights (fst o) q) (field (fst o) q x)) ((n, c) :: os))) with
    (c * energy (weights n q) (field n q x) + Rsum (map (fun o => snd o * energy (weights (fst o) q) (field (fst o) q x)) os)). f_equal.
  cbn [fst snd]. rewrite <- (sum_nth _ _ (eq_sym (field_length n q x P))). rewrite map_map.
  unfold wt, val. cbn [fst snd]. generalize (seq 0 (length (weights n q))). unfold Rsum. intros l. induction l as [|k l IH]; cbn [map fold_right]; [ring|]. rewrite IH. ring.
Qed.

Section Objective.
  Variables (other : list string) (q : params) (x0 : list R) (os : list (string * R)).
  Hypothesis S : sound q x0.
  Hypothesis O : ordered q.
  Hypothesis H : forall name c, In (name, c) os -> 0 <= c /\ In name quadratic_figures.
  Lemma sound_any x : length x = q_ndofs q -> sound q x.
  Proof using S. intros L. destruct S as (A & B & C & D & _). repeat (split; [assumption|]). exact L. Qed.
  Lemma objective_reads x : length x = q_ndofs q -> weighted other q os x (en (entries q os) (wt q) (val q x)).
  Proof using S H.
    intros L. rewrite objective_value by apply S. exists (map (fun o => energy (weights (fst o) q) (field (fst o) q x)) os). split.
    - assert (G : forall name c, In (name, c) os -> In name quadratic_figures) by (intros; now apply (H name c)). clear H. revert G.
      induction os as [|[n c] l IH]; intros G; constructor; [|apply IH; intros; apply (G name c0); now right].
      cbn [fst]. apply figure; [now apply sound_any|]. apply (G n c). now left.
    - f_equal. clear. induction os as [|o l IH]; [reflexivity|]. cbn [map map2]. f_equal. exact IH.
  Qed.
  Lemma weighted_fun x r r' : weighted other q os x r -> weighted other q os x r' -> r = r'.
  Proof.
    clear. intros (v & F & ->) (v' & F' & ->). f_equal. revert v v' F F'. induction os as [|o l IH]; intros v v' F F'; inversion F; inversion F'; subst; [reflexivity|].
    cbn [map2]. pose proof (reads_fun _ _ _ _ _ _ H1 H6) as E. injection E as ->. f_equal. now apply IH.
  Qed.
  Lemma wt_nonneg u : In u (entries q os) -> 0 <= wt q u.
  Proof using S O H.
    intros Hu. apply entries_in in Hu as (Ho & Hk). destruct (H _ _ Ho) as (Hc & _). unfold wt. apply Rmult_le_pos; [exact Hc|].
    apply (weights_pos (fst (fst u)) q x0 S O). apply nth_In, Hk.
  Qed.
  Lemma val_superposed a b q1 q2 q3 x1 x2 u : superposed a b q1 q2 q3 -> plasma_shaped q1 -> plasma_shaped q2 -> length x1 = length x2 ->
    val q3 (lincomb a b x1 x2) u = a * val q1 x1 u + b * val q2 x2 u.
  Proof.
    clear. intros Su P1 P2 L. unfold val. rewrite (field_superposed _ a b q1 q2 q3) by assumption. apply lincomb_nth. rewrite !field_length by assumption.
    pose proof Su as (G1 & G2 & _). rewrite <- (weights_same _ q1 q3 G1), <- (weights_same _ q2 q3 G2). reflexivity.
  Qed.
  Lemma val_affine : affine (entries q os) (q_ndofs q) (val q).
  Proof using S. intros x y t u Lx Ly _. apply val_superposed; [apply superposed_self|apply S|apply S|congruence]. Qed.

  Lemma best_exists : exists x, length x = q_ndofs q /\ least other q os [] x (fun _ => True).
  Proof using S O H.
    destruct (smallest_exists (entries q os) (wt q) wt_nonneg (q_ndofs q) (val q) val_affine) as (x & L & B). exists x. split; [exact L|].
    intros y fx fy Ly _ _ Wx Wy. rewrite (weighted_fun _ _ _ Wx (objective_reads x L)), (weighted_fun _ _ _ Wy (objective_reads y Ly)). now apply B.
  Qed.
  Lemma least_smallest x : length x = q_ndofs q -> least other q os [] x (fun _ => True) ->
    forall y, length y = q_ndofs q -> en (entries q os) (wt q) (val q x) <= en (entries q os) (wt q) (val q y).
  Proof using S H. intros L B y Ly. apply (B y); auto using objective_reads. intros ? ? ? []. Qed.

  (** The same device without net currents and plasma field. *)
  Lemma quiet_superposed q0 : SpecField.scaled 0 q q0 -> superposed 1 (-1) q q q0.
  Proof.
    clear. intros (G & HG & HI & HB). split; [exact G|]. split; [exact G|]. rewrite HG, HI, HB. split; [ring|]. split; [ring|].
    unfold glincomb, lincomb. clear HB. induction (q_Bnormal q) as [|r g IH]; [reflexivity|]. cbn [map map2]. f_equal; [|exact IH].
    clear. induction r; [reflexivity|]. cbn [map map2]. f_equal; [ring|assumption].
  Qed.
  Lemma best_excess q0 x y fx fy : made q0 -> SpecField.scaled 0 q q0 -> length x = q_ndofs q -> least other q os [] x (fun _ => True) -> length y = q_ndofs q ->
    weighted other q os x fx -> weighted other q os y fy -> exists e, weighted other q0 os (lincomb 1 (-1) y x) e /\ 0 <= e /\ fy = fx + e.
  Proof using S O H.
    intros M0 Sc L B Ly Wx Wy. assert (P : plasma_shaped q) by apply S. pose proof (quiet_superposed q0 Sc) as Su. assert (G : same_geometry q0 q) by apply Su.
    assert (P0 : plasma_shaped q0) by (apply (superposed_shape 1 (-1) q q q0); auto).
    assert (Ld : length (lincomb 1 (-1) y x) = q_ndofs q) by (rewrite length_lincomb; congruence).
    assert (Nd : q_ndofs q0 = q_ndofs q) by apply G.
    assert (S0 : sound q0 (lincomb 1 (-1) y x)).
    { split; [exact M0|]. pose proof G as (-> & -> & _). split; [apply S|]. split; [apply S|]. split; [exact P0|]. congruence. }
    exists (en (entries q os) (wt q) (fun u => val q y u - val q x u)).
    assert (Ee : entries q0 os = entries q os).
    { unfold entries. clear -G. induction os as [|o l IH]; [reflexivity|]. cbn [flat_map]. now rewrite IH, (weights_same _ _ _ G). }
    assert (E : en (entries q0 os) (wt q0) (val q0 (lincomb 1 (-1) y x)) = en (entries q os) (wt q) (fun u => val q y u - val q x u)).
    { rewrite Ee. unfold en, ip. apply Rsum_ext. intros u _. rewrite (val_superposed 1 (-1) q q q0 y x u Su P P) by congruence. unfold wt. rewrite (weights_same _ _ _ G). ring. }
    split; [|split].
    - rewrite <- E, objective_value by exact P0. exists (map (fun o => energy (weights (fst o) q0) (field (fst o) q0 (lincomb 1 (-1) y x))) os). split.
      + assert (Gq : forall name c, In (name, c) os -> In name quadratic_figures) by (intros; now apply (H name c)). clear -Gq S0.
        induction os as [|[n c] l IH]; constructor; [|apply IH; intros; apply (Gq name c0); now right].
        cbn [fst]. apply figure; [assumption|]. apply (Gq n c). now left.
      + f_equal. clear. induction os as [|o l IH]; [reflexivity|]. cbn [map map2]. f_equal. exact IH.
    - apply (en_nonneg (entries q os) (wt q) wt_nonneg).
    - rewrite (weighted_fun _ _ _ Wx (objective_reads x L)), (weighted_fun _ _ _ Wy (objective_reads y Ly)).
      apply (smallest_excess (entries q os) (wt q) wt_nonneg (q_ndofs q) (val q) x val_affine L); [|exact Ly]. now apply least_smallest.
  Qed.
  (** Two best designs have the same fields wherever these count. *)
  Lemma best_same x y : length x = q_ndofs q -> length y = q_ndofs q -> least other q os [] x (fun _ => True) -> least other q os [] y (fun _ => True) ->
    forall u, In u (entries q os) -> wt q u * (val q y u - val q x u) = 0.
  Proof using S O H.
    intros Lx Ly Bx By. pose proof (smallest_excess (entries q os) (wt q) wt_nonneg (q_ndofs q) (val q) x val_affine Lx (least_smallest x Lx Bx) y Ly) as E.
    pose proof (least_smallest y Ly By x Lx). pose proof (en_nonneg (entries q os) (wt q) wt_nonneg (fun u => val q y u - val q x u)).
    apply (en_zero (entries q os) (wt q) wt_nonneg). lra.
  Qed.
End Objective.
