(** How the best design depends on the required normal field, for C142. *)
From Coq Require Import String List Bool Arith ZArith Reals Lra Lia Psatz.
From Verif Require Import Base ModelArray ProofArray ModelMath SpecMath ProofMath ModelSurface SpecSurface ProofSurface ProofSurface2 ProofSurface3
  ModelParams ModelField SpecField ProofField ProofField2 ProofField3 ProofField4
  ModelQuantity ModelWrapper SpecWrapper ModelPackage SpecPackage ProofPackage ProofPackage2 ProofPackage3 ProofPackage4 SpecConvex ProofConvex ProofSimsopt ProofTrig SpecBest ProofSquares ProofPeriods ProofBest ProofUnique ProofUnique2
  PropConvex SpecStable.
Import ListNotations.
Open Scope R_scope.
Open Scope string_scope.
Open Scope list_scope.

Section Two.
  Variables (other : list string) (q1 q2 : params) (z : list R).
  Hypothesis S1 : sound q1 z.
  Hypothesis S2 : sound q2 z.
  Hypothesis OF : other_field q1 q2.
  Lemma same_k x p t : kval q2 x p t = kval q1 x p t.
  Proof using OF. destruct OF as ((E1 & E2 & E3 & E4 & E5 & E6 & E7 & E8 & E9) & G & I). now apply kval_same. Qed.
  Lemma same_phi x p t : phi_of q2 x p t = phi_of q1 x p t.
  Proof using OF. destruct OF as (G & _). now destruct (geo_phi q2 q1 x p t G). Qed.
  Lemma both_sound x : length x = q_ndofs q1 -> sound q1 x /\ sound q2 x.
  Proof using S1 S2 OF. intros L. split; [exact (sound_all q1 z S1 x L)|]. apply (sound_all q2 z S2 x). destruct OF as ((_ & _ & _ & _ & _ & _ & _ & _ & E) & _). congruence. Qed.
  Lemma blind_one name x v : In name coil_names -> length x = q_ndofs q1 -> reads other name q1 x v -> reads other name q2 x v.
  Proof using S1 S2 OF.
    intros I L Rd. destruct (both_sound x L) as (A1 & A2). pose proof OF as ((E1 & E2 & E3 & E4 & E5 & _) & _).
    assert (RK : forall u, reads other "K2" q1 x u -> reads other "K2" q2 x u).
    { intros u Ru. rewrite (reads_fun _ _ _ _ _ _ Ru (reads_K2 other q1 x A1)). pose proof (reads_K2 other q2 x A2) as R2. rewrite E4, E5 in R2.
      rewrite (sample_ext _ (fun p t => dot3 (kval q1 x p t) (kval q1 x p t))) in R2 by (intros; now rewrite same_k). exact R2. }
    assert (RP : forall u, reads other "Phi" q1 x u -> reads other "Phi" q2 x u).
    { intros u Ru. rewrite (reads_fun _ _ _ _ _ _ Ru (reads_Phi other q1 x A1)). pose proof (reads_Phi other q2 x A2) as R2. rewrite E4, E5 in R2.
      rewrite (sample_ext _ (phi_of q1 x)) in R2 by (intros; now rewrite same_phi). exact R2. }
    assert (Mx : forall n fld h, In (n, fld, h) [("f_max_K2", "K2", fun y : R => y); ("f_max_Phi", "Phi", Rabs); ("f_max_Phi2", "Phi", fun y => y * y); ("f_max_Phi4", "Phi", fun y => y ^ 4)] ->
      reads other n q1 x v -> reads other n q2 x v).
    { intros n fld h J R1.
      assert (J' : In (n, fld, h) [("f_max_K2", "K2", fun y : R => y); ("f_max_K_dot_grad_K_cyl", "K_dot_grad_K_cyl", Rabs); ("f_max_Bnormal", "Bnormal", Rabs);
        ("f_max_Bnormal2", "Bnormal", fun y => y * y); ("f_max_Phi", "Phi", Rabs); ("f_max_Phi2", "Phi", fun y => y * y); ("f_max_Phi4", "Phi", fun y => y ^ 4)]) by (cbn in *; tauto).
      destruct (largest_value other q1 x A1 _ _ _ J') as (m & u & Rm & Ru & (Q1 & Q2)). destruct (largest_value other q2 x A2 _ _ _ J') as (m' & u' & Rm' & Ru' & (Q1' & Q2')).
      assert (Eu : u' = u) by (apply (reads_fun _ _ _ _ _ _ Ru'); destruct J as [X|[X|[X|[X|[]]]]]; injection X as _ <- _; auto). subst u'.
      assert (m' = m) by (apply Rle_antisym; auto). subst m'. rewrite (reads_fun _ _ _ _ _ _ R1 Rm). exact Rm'. }
    assert (It : forall n fld h, In (n, fld, h) [("f_K", "K2", fun y => y / 2); ("f_Phi", "Phi", fun y => y * y / 2); ("f_l1_Phi", "Phi", Rabs); ("f_huber_K", "K2", sqrt)] ->
      reads other n q1 x v -> reads other n q2 x v).
    { intros n fld h J R1.
      assert (J1 : forall q, In (n, fld, q_eval q, h) [("f_K", "K2", q_eval q, fun y => y / 2); ("f_B", "Bnormal", q_plasma q, fun y => y * y / 2); ("f_Phi", "Phi", q_eval q, fun y => y * y / 2);
        ("f_l1_Phi", "Phi", q_eval q, Rabs); ("f_huber_K", "K2", q_eval q, sqrt)]) by (intros q; destruct J as [X|[X|[X|[X|[]]]]]; injection X as <- <- <-; cbn; tauto).
      destruct (integral_value other q1 x A1 _ _ _ _ (J1 q1)) as (m & u & d & Rm & Ru & D & E). destruct (integral_value other q2 x A2 _ _ _ _ (J1 q2)) as (m' & u' & d' & Rm' & Ru' & D' & E').
      assert (Eu : u' = u) by (apply (reads_fun _ _ _ _ _ _ Ru'); destruct J as [X|[X|[X|[X|[]]]]]; injection X as _ <- _; auto). subst u'.
      rewrite E3, D in D'. injection D' as <-. assert (Em : m' = m) by (rewrite E, E'; unfold q_nfp; now rewrite E2). rewrite Em in Rm'. rewrite (reads_fun _ _ _ _ _ _ R1 Rm). exact Rm'. }
    destruct I as [<-|[<-|[<-|[<-|[<-|[<-|[<-|[<-|[<-|[<-|[<-|[<-|[]]]]]]]]]]]]].
    - rewrite (reads_fun _ _ _ _ _ _ Rd (reads_K other q1 x A1)). pose proof (reads_K other q2 x A2) as R2. rewrite E4, E5 in R2.
      rewrite (sample_ext _ (kval q1 x)) in R2 by (intros; now rewrite same_k). exact R2.
    - auto.
    - auto.
    - rewrite (reads_fun _ _ _ _ _ _ Rd (reads_Phi2 other q1 x A1)). pose proof (reads_Phi2 other q2 x A2) as R2. rewrite E4, E5 in R2.
      rewrite (sample_ext _ (fun p t => phi_of q1 x p t * phi_of q1 x p t)) in R2 by (intros; now rewrite same_phi). exact R2.
    - apply (It "f_K" "K2" (fun y => y / 2)); [cbn; tauto|exact Rd].
    - apply (It "f_Phi" "Phi" (fun y => y * y / 2)); [cbn; tauto|exact Rd].
    - apply (It "f_l1_Phi" "Phi" Rabs); [cbn; tauto|exact Rd].
    - apply (It "f_huber_K" "K2" sqrt); [cbn; tauto|exact Rd].
    - apply (Mx "f_max_K2" "K2" (fun y => y)); [cbn; tauto|exact Rd].
    - apply (Mx "f_max_Phi" "Phi" Rabs); [cbn; tauto|exact Rd].
    - apply (Mx "f_max_Phi2" "Phi" (fun y => y * y)); [cbn; tauto|exact Rd].
    - apply (Mx "f_max_Phi4" "Phi" (fun y => y ^ 4)); [cbn; tauto|exact Rd].
  Qed.
End Two.
Lemma other_field_sym q1 q2 : other_field q1 q2 -> other_field q2 q1.
Proof. intros ((E1 & E2 & E3 & E4 & E5 & E6 & E7 & E8 & E9) & G & I). repeat split; congruence. Qed.
Lemma blind other q1 q2 z name x v : sound q1 z -> sound q2 z -> other_field q1 q2 -> In name coil_names -> length x = q_ndofs q1 -> (reads other name q1 x v <-> reads other name q2 x v).
Proof.
  intros S1 S2 OF I L. split; [now apply (blind_one other q1 q2 z)|]. apply (blind_one other q2 q1 z S2 S1 (other_field_sym _ _ OF)); [exact I|]. destruct OF as ((_ & _ & _ & _ & _ & _ & _ & _ & E) & _). congruence.
Qed.

(** Sums of squares. *)
Lemma energy_cross W : (forall w, In w W -> 0 <= w) -> forall a b c d, length a = length b -> length b = length c -> length c = length d ->
  lincomb 1 (-1) b a = lincomb 1 (-1) d c ->
  energy W b - energy W d - energy W a + energy W c <= energy W (lincomb 1 (-1) a c) + energy W (lincomb 1 (-1) b a) /\
  energy W b - energy W d - energy W a + energy W c <= / 2 * energy W (lincomb 1 (-1) a c) + 2 * energy W (lincomb 1 (-1) b a).
Proof.
  unfold energy, lincomb, Rsum. induction W as [|w W IH]; intros P [|a0 a] [|b0 b] [|c0 c] [|d0 d] L1 L2 L3 E; try discriminate; cbn [map2 fold_right]; try lra.
  cbn [map2] in E. assert (E0 : 1 * b0 + -1 * a0 = 1 * d0 + -1 * c0) by congruence. assert (E' : map2 (fun x y => 1 * x + -1 * y) b a = map2 (fun x y => 1 * x + -1 * y) d c) by congruence.
  destruct (IH (fun w' I => P w' (or_intror I)) a b c d ltac:(now injection L1) ltac:(now injection L2) ltac:(now injection L3) E') as (I1 & I2).
  pose proof (P w (or_introl eq_refl)) as Pw. assert (D : d0 = c0 + (b0 - a0)) by lra. clear E0 E E' IH P. subst d0.
  assert (A1 : 0 <= w * ((a0 - c0 - (b0 - a0)) * (a0 - c0 - (b0 - a0)))) by (apply Rmult_le_pos; [exact Pw|apply Rle_0_sqr]).
  assert (A2 : 0 <= w * ((a0 - c0 - 2 * (b0 - a0)) * (a0 - c0 - 2 * (b0 - a0)))) by (apply Rmult_le_pos; [exact Pw|apply Rle_0_sqr]).
  split; nra.
Qed.
Lemma energy_turn W : forall a b, energy W (lincomb 1 (-1) a b) = energy W (lincomb 1 (-1) b a).
Proof.
  unfold energy, lincomb, Rsum. induction W as [|w W IH]; intros [|a0 a] [|b0 b]; try reflexivity. cbn [map2 fold_right]. rewrite IH. ring.
Qed.
Lemma gap_turn q os x y : gap q os x y = gap q os y x.
Proof. induction os as [|[name w] l IH]; [reflexivity|]. rewrite !gap_cons, IH, energy_turn. reflexivity. Qed.
Lemma gap_positive q z os x y : sound q z -> ordered q -> (forall name w, In (name, w) os -> 0 <= w) -> 0 <= gap q os x y.
Proof.
  intros S O H. induction os as [|[n w] l IH]; [unfold gap, Rsum; cbn; lra|]. rewrite gap_cons. assert (0 <= gap q l x y) by (apply IH; intros n' w' H'; apply (H n'); now right).
  destruct (is_quadratic n); [|lra]. assert (0 <= w * energy (weights n q) (lincomb 1 (-1) (field n q y) (field n q x))); [|lra].
  apply Rmult_le_pos; [apply (H n); now left|]. apply energy_nonneg. exact (weights_pos n q z S O).
Qed.
Lemma lincomb_self x : lincomb 1 (-1) x x = repeat 0 (length x).
Proof. unfold lincomb. induction x as [|a x IH]; [reflexivity|]. cbn [map2 length repeat]. rewrite IH. f_equal. ring. Qed.
Lemma zeros_shape (g g' : grid R) : map (@length R) g = map (@length R) g' -> map (map (Rmult 0)) g = map (map (Rmult 0)) g'.
Proof.
  revert g'; induction g as [|r g IH]; intros [|r' g'] E; try discriminate; [reflexivity|]. cbn [map] in *. assert (E0 : length r = length r') by congruence. f_equal; [|apply IH; congruence].
  clear -E0. revert r' E0; induction r as [|a r IH]; intros [|a' r'] E; try discriminate; [reflexivity|]. cbn [map]. f_equal; [ring|]. apply IH. now injection E.
Qed.
Lemma shaped_lengths q : plasma_shaped q -> map (@length R) (q_Bnormal q) = repeat (length (s_qtheta (q_plasma q))) (length (s_qphi (q_plasma q))).
Proof.
  intros (A & B). rewrite <- A. clear A. induction B as [|r g E F IH]; [reflexivity|]. cbn [map length repeat]. now rewrite E, IH.
Qed.
Lemma scaled_other q1 q2 q0 : other_field q1 q2 -> plasma_shaped q1 -> plasma_shaped q2 -> SpecField.scaled 0 q1 q0 -> SpecField.scaled 0 q2 q0.
Proof.
  intros (G & EG & EI) P1 P2 (G0 & A & B & C). pose proof G as (F1 & F2 & F3 & F4 & F5 & F6 & F7 & F8 & F9). pose proof G0 as (H1 & H2 & H3 & H4 & H5 & H6 & H7 & H8 & H9).
  split; [repeat split; congruence|]. split; [rewrite A, EG; ring|]. split; [rewrite B, EI; ring|]. rewrite C. apply zeros_shape. rewrite !shaped_lengths by assumption. now rewrite F1.
Qed.

Section Transfer.
  Variables (other : list string) (q1 q2 : params) (z : list R).
  Hypothesis S1 : sound q1 z.
  Hypothesis S2 : sound q2 z.
  Hypothesis OF : other_field q1 q2.
  Let N : q_ndofs q2 = q_ndofs q1.
  Proof using OF. destruct OF as ((_ & _ & _ & _ & _ & _ & _ & _ & E) & _). exact E. Qed.
  Lemma chord_other rel name : In name coil_names -> on_chord rel other name q1 -> on_chord rel other name q2.
  Proof using S1 S2 OF N.
    intros I H x y t Lx Ly Ht. rewrite N in Lx, Ly. destruct (H x y t Lx Ly Ht) as (vx & vy & vz & A & B & C & D). exists vx, vy, vz.
    split; [now apply (blind_one other q1 q2 z)|]. split; [now apply (blind_one other q1 q2 z)|]. split; [|exact D].
    apply (blind_one other q1 q2 z); auto. rewrite length_lincomb; congruence.
  Qed.
  Lemma weighted_other os x r : (forall name w, In (name, w) os -> In name coil_names) -> length x = q_ndofs q1 -> weighted other q1 os x r -> weighted other q2 os x r.
  Proof using S1 S2 OF.
    intros H L (vs & F & E). exists vs. split; [|exact E]. clear E. revert H. induction F as [|[n w] m l l' Rd F IH]; intros H; [constructor|]. constructor; [|apply IH; intros n' w' I; apply (H n' w'); now right].
    apply (blind_one other q1 q2 z); auto. apply (H n w). now left.
  Qed.
  Lemma feasible_other cs x : (forall name c b, In (name, c, b) cs -> In name coil_names) -> length x = q_ndofs q1 -> SpecConvex.feasible other q1 cs x -> SpecConvex.feasible other q2 cs x.
  Proof using S1 S2 OF.
    intros H L F name c b I. destruct (F name c b I) as (v & Rd & Mt). exists v. split; [|exact Mt]. apply (blind_one other q1 q2 z); auto. exact (H name c b I).
  Qed.
End Transfer.

Section Stable.
  Variables (other : list string) (q1 q2 q0 qd : params) (z : list R) (w : R) (os : list (string * R)) (cs : list (string * cmp * R)).
  Hypothesis S1 : sound q1 z.
  Hypothesis S2 : sound q2 z.
  Hypothesis OF : other_field q1 q2.
  Hypothesis O1 : ordered q1.
  Hypothesis Pw : 0 <= w.
  Hypothesis Ho : convex_objective other q1 os.
  Hypothesis Hc : convex_constraints other q1 cs.
  Hypothesis No : forall name c, In (name, c) os -> In name coil_names.
  Hypothesis Nc : forall name c b, In (name, c, b) cs -> In name coil_names.
  Hypothesis M0 : made q0.
  Hypothesis Q0 : SpecField.scaled 0 q1 q0.
  Hypothesis Qd : superposed 1 (-1) q1 q2 qd.
  Variables (x1 x2 : list R) (f1 f2 : R).
  Hypothesis B1 : best other q1 (("f_B", w) :: os) cs x1 f1.
  Hypothesis B2 : best other q2 (("f_B", w) :: os) cs x2 f2.
  Let W := weights "f_B" q1.
  Lemma moved : 2 * (w * energy W (field "f_B" q0 (lincomb 1 (-1) x2 x1)) + gap q1 os x1 x2) <=
      w * (energy W (field "f_B" q1 x2) - energy W (field "f_B" q2 x2) - energy W (field "f_B" q1 x1) + energy W (field "f_B" q2 x1)) /\
    lincomb 1 (-1) (field "f_B" q1 x2) (field "f_B" q1 x1) = field "f_B" q0 (lincomb 1 (-1) x2 x1) /\
    lincomb 1 (-1) (field "f_B" q2 x2) (field "f_B" q2 x1) = field "f_B" q0 (lincomb 1 (-1) x2 x1) /\
    lincomb 1 (-1) (field "f_B" q1 x1) (field "f_B" q2 x1) = field "f_B" qd (repeat 0 (q_ndofs q1)) /\ weighted other q0 (quadratic_part os) (lincomb 1 (-1) x2 x1) (gap q1 os x1 x2).
  Proof using S1 S2 OF O1 Pw Ho Hc No Nc M0 Q0 Qd B1 B2.
    pose proof OF as (G & _). assert (N : q_ndofs q2 = q_ndofs q1) by apply G.
    assert (P1 : plasma_shaped q1) by apply S1. assert (P2 : plasma_shaped q2) by apply S2.
    pose proof (scaled_other q1 q2 q0 OF P1 P2 Q0) as Q0'. pose proof (quiet_superposed q1 q0 Q0) as Z1. pose proof (quiet_superposed q2 q0 Q0') as Z2.
    destruct B1 as (L1 & F1 & W1 & T1). destruct B2 as (L2 & F2 & W2 & T2). rewrite N in L2.
    assert (O2 : ordered q2) by (destruct O1 as (A & B & C & D); destruct G as (E1 & E2 & E3 & E4 & E5 & _); unfold ordered; rewrite E1, E4, E5; auto).
    assert (Ho1 : convex_objective other q1 (("f_B", w) :: os)).
    { intros n c [E|I]; [|exact (Ho n c I)]. injection E as <- <-. split; [exact Pw|]. apply (C111_convex_quantities other q1 z S1 O1). cbn; tauto. }
    assert (Ho2 : convex_objective other q2 (("f_B", w) :: os)).
    { intros n c [E|I]; [injection E as <- <-; split; [exact Pw|]; apply (C111_convex_quantities other q2 z S2 O2); cbn; tauto|].
      destruct (Ho n c I) as (A & B). split; [exact A|]. exact (chord_other other q1 q2 z S1 S2 OF Rle n (No n c I) B). }
    assert (Hc2 : convex_constraints other q2 cs).
    { intros n c b I. pose proof (Hc n c b I) as H. destruct c; exact (chord_other other q1 q2 z S1 S2 OF _ n (Nc n _ b I) H). }
    assert (F12 : SpecConvex.feasible other q1 cs x2) by (apply (feasible_other other q2 q1 z S2 S1 (other_field_sym _ _ OF)); auto; congruence).
    assert (F21 : SpecConvex.feasible other q2 cs x1) by (apply (feasible_other other q1 q2 z S1 S2 OF); auto).
    destruct W1 as ([|m1 v1] & V1 & E1); [inversion V1|]. destruct W2 as ([|m2 v2] & V2 & E2); [inversion V2|].
    inversion V1 as [|? ? ? ? R1 V1' Ea Eb]; subst. inversion V2 as [|? ? ? ? R2 V2' Ea' Eb']; subst. cbn [fst] in R1, R2.
    set (r1 := Rsum (map2 (fun o m => snd o * m) os v1)) in *. set (r2 := Rsum (map2 (fun o m => snd o * m) os v2)) in *.
    assert (A11 : weighted other q1 os x1 r1) by (exists v1; now split). assert (A22 : weighted other q2 os x2 r2) by (exists v2; now split).
    assert (A21 : weighted other q2 os x1 r1) by now apply (weighted_other other q1 q2 z).
    assert (A12 : weighted other q1 os x2 r2) by (apply (weighted_other other q2 q1 z S2 S1 (other_field_sym _ _ OF)); auto; congruence).
    assert (Fig : forall q x, sound q x -> weights "f_B" q = W -> forall r, weighted other q os x r -> weighted other q (("f_B", w) :: os) x (w * energy W (field "f_B" q x) + r)).
    { intros q x Sx EW r (v & V & ->). exists (energy W (field "f_B" q x) :: v). split; [constructor; [|exact V]|reflexivity]. cbn [fst]. rewrite <- EW. apply figure; [exact Sx|cbn; tauto]. }
    assert (EW2 : weights "f_B" q2 = W) by now apply weights_same.
    assert (Sx1 : sound q1 x1) by (apply (sound_all q1 z S1); exact L1). assert (Sx12 : sound q1 x2) by (apply (sound_all q1 z S1); exact L2).
    assert (Sx2 : sound q2 x2) by (apply (sound_all q2 z S2); congruence). assert (Sx21 : sound q2 x1) by (apply (sound_all q2 z S2); congruence).
    assert (L1' : length x1 = q_ndofs q2) by congruence. assert (L2' : length x2 = q_ndofs q2) by congruence.
    pose proof (growth other q1 z (("f_B", w) :: os) cs S1 Ho1 Hc x1 x2 _ _ L1 F1 T1 L2 F12 (Fig q1 x1 Sx1 eq_refl _ A11) (Fig q1 x2 Sx12 eq_refl _ A12)) as K1.
    pose proof (growth other q2 z (("f_B", w) :: os) cs S2 Ho2 Hc2 x2 x1 _ _ L2' F2 T2 L1' F21 (Fig q2 x2 Sx2 EW2 _ A22) (Fig q2 x1 Sx21 EW2 _ A21)) as K2.
    rewrite gap_cons in K1, K2. cbn [is_quadratic] in K1, K2. change (is_quadratic "f_B") with true in K1, K2. cbv iota in K1, K2.
    assert (D1 : lincomb 1 (-1) (field "f_B" q1 x2) (field "f_B" q1 x1) = field "f_B" q0 (lincomb 1 (-1) x2 x1)) by (symmetry; apply field_superposed; auto; congruence).
    assert (D2 : lincomb 1 (-1) (field "f_B" q2 x2) (field "f_B" q2 x1) = field "f_B" q0 (lincomb 1 (-1) x2 x1)) by (symmetry; apply field_superposed; auto; congruence).
    pose proof (gap_reads other q1 z os S1 q0 x1 x2 M0 Q0 L1 L2) as Y1. pose proof (gap_reads other q2 z os S2 q0 x1 x2 M0 Q0' L1' L2') as Y2.
    pose proof (weighted_fun other q0 _ _ _ _ Y1 Y2) as EG. rewrite (energy_turn _ (field "f_B" q2 x1)), (gap_turn q2), <- EG, D2, EW2 in K2. rewrite D1 in K1. fold W in K1.
    split; [lra|]. split; [exact D1|]. split; [exact D2|]. split; [|exact Y1]. rewrite <- L1, <- lincomb_self. symmetry. apply field_superposed; auto.
  Qed.
  Lemma moved_bounds : let D := energy W (field "f_B" qd (repeat 0 (q_ndofs q1))) in
    4 * gap q1 os x1 x2 <= w * D /\ (0 < w -> energy W (field "f_B" q0 (lincomb 1 (-1) x2 x1)) <= D).
  Proof using S1 S2 OF O1 Pw Ho Hc No Nc M0 Q0 Qd B1 B2.
    intros D. destruct moved as (I & D1 & D2 & D3 & _). pose proof OF as (G & _). assert (EW2 : weights "f_B" q2 = W) by now apply weights_same.
    assert (P1 : plasma_shaped q1) by apply S1. assert (P2 : plasma_shaped q2) by apply S2.
    assert (Len1 : forall x, length (field "f_B" q1 x) = length W) by (intros; now apply field_length). assert (Len2 : forall x, length (field "f_B" q2 x) = length W) by (intros; rewrite <- EW2; now apply field_length).
    destruct (energy_cross W (weights_pos "f_B" q1 z S1 O1) (field "f_B" q1 x1) (field "f_B" q1 x2) (field "f_B" q2 x1) (field "f_B" q2 x2)) as (X1 & X2); try (now rewrite ?Len1, ?Len2); [congruence|].
    rewrite D3, D1 in X1, X2. fold D in X1, X2. set (X := energy W (field "f_B" q1 x2) - _ - _ + _) in *. set (Dl := energy W (field "f_B" q0 _)) in *.
    assert (Gp : 0 <= gap q1 os x1 x2) by (apply (gap_positive q1 z); auto; intros n c J; now apply (Ho n c)).
    pose proof (Rmult_le_compat_l w _ _ Pw X1). pose proof (Rmult_le_compat_l w _ _ Pw X2). split; [lra|]. intros Q. apply (Rmult_le_reg_l w); [exact Q|]. lra.
  Qed.
End Stable.
