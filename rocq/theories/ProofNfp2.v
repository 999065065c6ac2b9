(** Designs turned by a field period, and their average. *)
From Coq Require Import String List Bool Arith ZArith Reals Lra Lia Permutation.
From Coquelicot Require Import Coquelicot.
From Verif Require Import Base ModelArray ProofArray ModelMath SpecMath RDeriv ProofMath ProofTrig ModelSurface SpecSurface ProofSurface ProofSurface2 ProofSurface3
  ProofLinear SpecWinding ProofWinding4 ModelParams ModelField SpecField ProofField ProofField2 ProofField3 ProofField4
  ModelQuantity SpecQuantity ModelWrapper SpecWrapper ModelShipped ModelPackage SpecPackage ProofRescale ProofPackage ProofPackage2 ProofPackage4
  SpecConvex ProofConvex SpecScale SpecRefine ProofRefine SpecMirror ProofMirror ProofMirror2 ProofPeriods SpecNfp ProofNfp.
Import ListNotations.
Open Scope R_scope.
Open Scope string_scope.
Open Scope list_scope.

Lemma sound_other q x y : sound q x -> length y = q_ndofs q -> sound q y.
Proof. intros (A & B & C & F & _) L. repeat (split; [assumption|]). exact L. Qed.

(** ** A design and the same design turned by one period of [q] *)
Section Turn.
  Variables (other : list string) (k : nat) (q q' : params) (x z : list R).
  Hypothesis D : fewer_periods k q q'.
  Hypothesis M : made q.
  Hypothesis Lw : legal (q_winding q).
  Hypothesis Lp : legal (q_plasma q).
  Hypothesis S : sound q' x.
  Hypothesis Lz : length z = q_ndofs q'.
  Notation N := (q_nfp q).
  Hypothesis E : forall p t, phi_of q' z p t = phi_of q' x (p + / INR N) t.
  Let M' : made q'. Proof. apply S. Qed.
  Let Lw' : legal (q_winding q'). Proof. apply S. Qed.
  Let Lp' : legal (q_plasma q'). Proof. apply S. Qed.
  Let Psh' : plasma_shaped q'. Proof. apply S. Qed.
  Let L' : length x = q_ndofs q'. Proof. apply S. Qed.
  Let Sz : sound q' z. Proof. now apply (sound_other q' x). Qed.
  Notation al := (2 * PI * / INR N).

  Lemma turn_phi1 p t : phi1 q' z p t = phi1 q' x (p + / INR N) t.
  Proof using E.
    eapply dR_unique; [apply (phi_d1 q' z p t)|]. eapply dR_ext with (f := fun s => phi_of q' x (s + / INR N) t); [intros; now rewrite E|].
    eapply dR_eq; [|apply (dR_comp (fun s => phi_of q' x s t) (fun s => s + / INR N) p _ 1 (phi_d1 q' x (p + / INR N) t))]; [ring|].
    eapply dR_eq; [|apply dR_plus; [apply dR_id|apply dR_const]]. ring.
  Qed.
  Lemma turn_phi2 p t : phi2 q' z p t = phi2 q' x (p + / INR N) t.
  Proof using E.
    apply (deriv_same (fun s => phi_of q' z p s) (fun s => phi_of q' x (p + / INR N) s) (fun s => phi2 q' z p s) (fun s => phi2 q' x (p + / INR N) s)); intros; [apply E|apply phi_d2|apply phi_d2].
  Qed.
  Lemma turn_kval p t : kval q' x (p + / INR N) t = rotz al (kval q' z p t).
  Proof using D M Lw S E Lw'.
    unfold kval, wn, w1, w2. rewrite turn_phi1, turn_phi2. destruct (m_winding_turn k q q' D M Lw Lw' p t) as (_ & -> & -> & ->).
    rewrite rotz_norm. now rewrite !scale_rotz, sub_rotz, scale_rotz.
  Qed.
  Lemma turn_bval P : bval q' x (rotz al P) = rotz al (bval q' z P).
  Proof using D M Lw S E Lw' M'.
    destruct (m_grid k q q' D) as (x0 & n & H0 & Eq & _). destruct (m_INR k q q' D M) as (F1 & F2 & F3 & F4). destruct (made_facts q' M') as (Hn' & _).
    assert (F5 : INR n <> 0) by now apply not_0_INR.
    enough (W : wsum q' x (rotz al P) = rotz al (wsum q' z P)) by (unfold bval; now rewrite W, !scale_rotz).
    unfold wsum. set (a := al).
    set (g := fun y P p t => contribution P (pt (q_winding q') 0 0 p t) (wn q' p t) (kval q' y p t)).
    change (sum3 (map (fun u => g x (rotz a P) (fst u) (snd u)) (pairs (s_qphi (q_winding q')) (s_qtheta (q_winding q')))) =
          rotz a (sum3 (map (fun u => g z P (fst u) (snd u)) (pairs (s_qphi (q_winding q')) (s_qtheta (q_winding q')))))).
    rewrite !sum3_pairs, Eq. set (h := / (INR N * INR n)).
    assert (Hg : forall p, vsum (g x (rotz a P) (p + INR (N * n) * h)) (s_qtheta (q_winding q')) = vsum (g x (rotz a P) p) (s_qtheta (q_winding q'))).
    { intros p. apply vsum_ext. intros t. rewrite mult_INR. replace (INR N * INR n * h) with 1 by (unfold h; field; auto).
      unfold g, wn, nrm. now rewrite kval_one, !pt_one. }
    rewrite <- (vsum_steps (fun p => vsum (g x (rotz a P) p) (s_qtheta (q_winding q'))) x0 h (N * n) n) by apply Hg.
    rewrite <- vsum_rotz.
    replace (INR n * h) with (/ INR N) by (unfold h; field; auto). rewrite equispaced_shift.
    unfold vsum at 1. rewrite map_map. change (vsum (fun p => vsum (g x (rotz a P) (p + / INR N)) (s_qtheta (q_winding q'))) (equispaced x0 h (N * n))
      = vsum (fun p => rotz a (vsum (g z P p) (s_qtheta (q_winding q')))) (equispaced x0 h (N * n))).
    apply vsum_ext. intros p. rewrite <- vsum_rotz. apply vsum_ext. intros t. unfold g. rewrite turn_kval.
    destruct (m_winding_turn k q q' D M Lw Lw' p t) as (-> & _ & _ & Hw). apply contribution_rotz. unfold wn. rewrite Hw. apply rotz_norm.
  Qed.
  Lemma turn_bnval p t : bnval q' z p t = bnval q' x (p + / INR N) t.
  Proof using D M Lw Lp S E Lw' M' Lp'.
    unfold bnval, unit_at. destruct (m_plasma_turn k q q' D M Lp Lp' p t) as (-> & ->). rewrite turn_bval, rotz_norm.
    set (a := al). set (B := bval q' z _). set (v := nrm _ p t).
    pose proof (sin2_cos2 a) as H. unfold Rsqr in H. unfold rotz, scale3, dot3; cbn [vx vy vz].
    transitivity (/ norm3 v * ((vx v * vx B + vy v * vy B) * (sin a * sin a + cos a * cos a) + vz v * vz B)); [rewrite H; ring|ring].
  Qed.
  Lemma turn_compared fld F G A ps ts surf : (exists x0 n, (2 <= n)%nat /\ ps = equispaced x0 (/ (INR N * INR n)) (k * n)) ->
    da surf = Ok (sample A ps ts) -> (forall p t, A (p + / INR N) t = A p t) -> (forall p t, F (p + / INR (q_nfp q')) t = F p t) -> (forall p t, G p t = F (p + / INR N) t) ->
    reads other fld q' x (of_grid (sample F ps ts)) -> reads other fld q' z (of_grid (sample G ps ts)) -> compared other q' x q' z fld surf surf.
  Proof using D M.
    intros (x0 & n & Hn & ->) Da HA HF HG Rd Rd'. destruct (m_INR k q q' D M) as (F1 & F2 & F3 & F4). assert (F5 : INR n <> 0) by (apply not_0_INR; clear -Hn; lia).
    set (h := / (INR N * INR n)) in *.
    assert (T1 : / INR N = INR n * h) by (unfold h; field; auto). assert (T2 : / INR (q_nfp q') = INR (k * n) * h) by (unfold h; rewrite F1, mult_INR; field; auto).
    assert (HA' : forall p t, A (p + INR (k * n) * h) t = A p t).
    { intros p t. rewrite mult_INR, Rmult_assoc, <- T1. apply (shift_nat (fun p => A p t) (/ INR N)). intros; apply HA. }
    assert (Pm : forall J : R -> R -> R, (forall p t, J (p + INR (k * n) * h) t = J p t) ->
      Permutation (concat (sample (fun p t => J (p + / INR N) t) (equispaced x0 h (k * n)) ts)) (concat (sample J (equispaced x0 h (k * n)) ts))).
    { intros J HJ. rewrite T1. apply concat_perm. apply (turned_steps (fun p => map (J p) ts) x0 h (k * n) n). intros p. apply map_ext. intros t. apply HJ. }
    rewrite (sample_ext G (fun p t => F (p + / INR N) t)) in Rd' by exact HG.
    assert (HF' : forall p t, F (p + INR (k * n) * h) t = F p t) by (intros; rewrite <- T2; apply HF).
    eexists _, _, _, _. split; [exact Rd|]. split; [exact Rd'|]. split; [exact Da|]. split; [exact Da|]. split.
    - intros g. f_equal. rewrite !el_of_grid, !map2_sample. apply Rsum_perm, Permutation_sym.
      rewrite (sample_ext (fun p t => A p t * g (F (p + / INR N) t)) (fun p t => A (p + / INR N) t * g (F (p + / INR N) t))) by (intros; now rewrite HA).
      apply (Pm (fun p t => A p t * g (F p t))). intros p t. now rewrite HA', HF'.
    - intros y. rewrite !el_of_grid. split; apply Permutation_in; [|apply Permutation_sym]; now apply Pm.
  Qed.
  Lemma turn_eval_area : exists A, da (q_eval q') = Ok (sample A (q_qphi q') (q_qtheta q')) /\ (forall p t, A (p + / INR N) t = A p t).
  Proof using D M Lw S M' Lw'.
    destruct (made_facts q' M') as (_ & _ & _ & _ & Ce & _). eexists. split; [exact (da_copy _ _ _ _ Lw' Ce)|].
    intros p t. cbv beta. destruct (m_winding_turn k q q' D M Lw Lw' p t) as (_ & _ & _ & ->). now rewrite rotz_norm.
  Qed.
  Lemma turn_plasma_area : exists A, da (q_plasma q') = Ok (sample A (s_qphi (q_plasma q')) (s_qtheta (q_plasma q'))) /\ (forall p t, A (p + / INR N) t = A p t).
  Proof using D M Lp S M' Lp'.
    destruct (made_facts q' M') as (_ & _ & _ & _ & _ & _ & Cp). eexists. split; [exact (da_copy _ _ _ _ Lp' Cp)|].
    intros p t. cbv beta. destruct (m_plasma_turn k q q' D M Lp Lp' p t) as (_ & ->). now rewrite rotz_norm.
  Qed.
  Lemma turn_agrees name : In name even_names \/ In name odd_names -> agrees other q' x q' z name.
  Proof using D M Lw Lp S E Lw' M' Lp' Psh' L' Lz Sz.
    destruct (m_nfp k q q' D M) as (_ & _ & Hn & _).
    pose proof D as (_ & _ & _ & _ & _ & _ & _ & _ & _ & (x0 & n & Hx & _ & Pc) & _ & (y0 & m & Hy & _ & Pp) & _ & Bn & _ & B2 & B3).
    assert (Hp : exists x0 n, (2 <= n)%nat /\ q_qphi q' = equispaced x0 (/ (INR N * INR n)) (k * n)) by eauto.
    assert (Hq : exists x0 n, (2 <= n)%nat /\ s_qphi (q_plasma q') = equispaced x0 (/ (INR N * INR n)) (k * n)) by eauto.
    apply all_agree; auto.
    - destruct turn_eval_area as (A & Da & HA). eapply (turn_compared "K2" _ _ A _ _ _ Hp Da HA); [| |now apply reads_K2|now apply reads_K2]; intros p t; cbv beta.
      + rewrite kval_shift by exact Hn. now apply rot_dot.
      + now rewrite turn_kval, rot_dot.
    - destruct turn_eval_area as (A & Da & HA). eapply (turn_compared "Phi" _ _ A _ _ _ Hp Da HA); [| |now apply reads_Phi|now apply reads_Phi]; intros p t; cbv beta.
      + now apply phi_shift_phi.
      + apply E.
    - destruct turn_plasma_area as (A & Da & HA).
      assert (B4 : forall p t, Bn (p + / INR (q_nfp q')) t = Bn p t).
      { intros p t. destruct (m_INR k q q' D M) as (F1 & F2 & F3 & F4). replace (/ INR (q_nfp q')) with (INR k * / INR N) by (rewrite F1; field; auto).
        apply (shift_nat (fun p => Bn p t)). intros; apply B3. }
      eapply (turn_compared "Bnormal" _ _ A _ _ _ Hq Da HA); [| |now apply (Bnormal_total other q' x S Bn)|now apply (Bnormal_total other q' x S Bn)]; intros p t; cbv beta.
      + now rewrite (m_bnval_period' k q q'), B4.
      + now rewrite turn_bnval, B3.
  Qed.
  Lemma turn_even name : In name even_names \/ In name odd_names \/ name = "f_B_normalized_by_Bnormal_IG" -> agrees other q' x q' z name.
  Proof using D M Lw Lp S E Lw' M' Lp' Psh' L' Lz Sz.
    intros [H|[H| ->]]; [apply turn_agrees; auto|apply turn_agrees; auto|].
    pose proof (turn_agrees "f_B" ltac:(cbn; tauto)) as A.
    destruct (normalised_value other q' x S) as (r & r0 & v & Rr & R0 & Rv & ->). destruct (normalised_value other q' z Sz) as (r' & r0' & v' & Rr' & R0' & Rv' & ->).
    apply (agrees_scal other q' x q' z _ _ Rv). pose proof (reads_fun _ _ _ _ _ _ (agrees_same _ _ _ _ _ _ _ A Rr) Rr') as Q. injection Q as ->.
    pose proof (reads_fun _ _ _ _ _ _ R0 R0') as Q. injection Q as ->. exact Rv'.
  Qed.
End Turn.

(** ** Constraints and objectives *)
Definition comparable name := In name even_names \/ In name odd_names \/ name = "f_B_normalized_by_Bnormal_IG".
Lemma agree_feasible other q x q' x' cs : (forall name c b, In (name, c, b) cs -> agrees other q x q' x' name) -> feasible other q cs x -> feasible other q' cs x'.
Proof.
  intros H F name c b I. destruct (H name c b I) as (v & v' & R & R' & P & _). exists v'. split; [exact R'|]. destruct (F _ _ _ I) as (w & Rw & Hw).
  rewrite (reads_fun _ _ _ _ _ _ Rw R) in Hw. intros y Hy. apply Hw. now apply P.
Qed.
Lemma agree_weighted other q x q' x' os r : (forall name w, In (name, w) os -> agrees other q x q' x' name) -> weighted other q os x r -> weighted other q' os x' r.
Proof.
  intros H (vs & F & ->). exists vs. split; [|reflexivity]. revert H. induction F as [|[name w] m os vs Rm F IH]; intros H; constructor.
  - exact (agrees_same other q x q' x' _ _ (H name w (or_introl eq_refl)) Rm).
  - apply IH. intros n i Hn. apply (H n i). now right.
Qed.
Lemma agrees_sym other q x q' x' name : agrees other q x q' x' name -> (forall v r, reads other name q' x' v -> v = scal r -> exists s, reads other name q x (scal s)) -> agrees other q' x' q x name.
Proof.
  intros (v & v' & R & R' & P & H) Sc. exists v', v. split; [exact R'|]. split; [exact R|]. split; [intros y; symmetry; apply P|].
  intros r Er. destruct (Sc v' r R' Er) as (s & Rs). pose proof (reads_fun _ _ _ _ _ _ R Rs) as Es. rewrite Es. rewrite (H s Es) in Er. exact Er.
Qed.

(** ** The coefficients *)
Lemma recombine {A I} (cols cols' : list A) (Q Q' : I -> A -> R) :
  (forall c, In c cols -> exists z, length z = length cols' /\ forall i, ldot (map (Q' i) cols') z = Q i c) ->
  forall x, length x = length cols -> exists x', length x' = length cols' /\ forall i, ldot (map (Q' i) cols') x' = ldot (map (Q i) cols) x.
Proof.
  induction cols as [|c cols IH]; intros H [|y x] L; try discriminate.
  - exists (repeat 0 (length cols')). split; [apply repeat_length|]. intros i. rewrite ProofPackage4.ldot_zeros. reflexivity.
  - destruct (IH (fun a Ha => H a (or_intror Ha)) x) as (u & Lu & Eu); [now injection L|]. destruct (H c (or_introl eq_refl)) as (z & Lz & Ez).
    exists (lincomb y 1 z u). split; [rewrite length_lincomb; congruence|]. intros i. cbn [map]. rewrite ldot_cons, ldot_lincomb, Ez, Eu by congruence. ring.
Qed.
Lemma other_parity m n c : In c (pcols false m n) -> fst c <> (0%Z, 0%Z) -> In (fst c, (- snd c)%Z) (pcols false m n).
Proof.
  unfold pcols. intros H H0. apply in_app_or in H as [H|[<-|H]]; [|now contradict H0|].
  - apply in_map_iff in H as (mn & <- & H). apply in_or_app. right. right. apply (in_map (fun mn => (mn, (-1)%Z)) _ _ H).
  - apply in_map_iff in H as (mn & <- & H). apply in_or_app. left. apply (in_map (fun mn => (mn, 1%Z)) _ _ H).
Qed.
Lemma turned_exists q x s : made q -> q_stellsym q = false -> length x = q_ndofs q -> exists z, length z = q_ndofs q /\ forall p t, phi_of q z p t = phi_of q x (p + s) t.
Proof.
  intros M St L. destruct (made_facts q M) as (_ & _ & Nd & _). assert (Q : length (qcols q) = q_ndofs q) by (unfold qcols; rewrite length_pcols; congruence).
  destruct (recombine (qcols q) (qcols q) (fun u => tr q (fst u + s) (snd u)) (fun u => tr q (fst u) (snd u))) with (x := x) as (z & Lz & Ez).
  - intros c Hc. assert (Dc : fst c = (0%Z, 0%Z) \/ fst c <> (0%Z, 0%Z)).
    { destruct (fst c) as [m n]. destruct (Z.eq_dec m 0) as [->|Hm]; [|right; congruence]. destruct (Z.eq_dec n 0) as [->|Hm]; [now left|right; congruence]. }
    destruct Dc as [Z0|Z0].
    + destruct (one_column c (qcols q) 1 Hc) as (z & Lz & Ez). exists z. split; [exact Lz|]. intros u. rewrite Ez, Rmult_1_r. unfold tr, targ. rewrite Z0. f_equal. unfold trig_arg. cbn [fst snd]. ring.
    + set (b := - (2 * PI * (IZR (snd (fst c)) * INR (q_nfp q) * s))).
      assert (Hd : In (fst c, (- snd c)%Z) (qcols q)) by (unfold qcols in *; rewrite St in *; now apply other_parity).
      destruct (one_column c (qcols q) 1 Hc) as (z1 & L1 & E1); destruct (one_column _ (qcols q) 1 Hd) as (z2 & L2 & E2).
      exists (lincomb (cos b) (IZR (snd c) * sin b) z1 z2). split; [rewrite length_lincomb; congruence|]. intros u. rewrite ldot_lincomb, E1, E2 by congruence.
      replace (tr q (fst u) (snd u) (fst c, (- snd c)%Z)) with (sin_or_cos (targ q c (fst u) (snd u)) (1 * - snd c)) by reflexivity. unfold tr.
      replace (targ q c (fst u + s) (snd u)) with (targ q c (fst u) (snd u) + b) by (unfold targ, trig_arg, b; ring).
      generalize (targ q c (fst u) (snd u)); intros a; unfold sin_or_cos; destruct (qcols_choice q c Hc) as [-> | ->]; cbn [Z.mul Z.eqb Pos.eqb Pos.mul Z.opp].
      * rewrite sin_plus. ring.
      * rewrite cos_plus. ring.
  - congruence.
  - exists z. split; [congruence|]. intros p t. exact (Ez (p, t)).
Qed.
