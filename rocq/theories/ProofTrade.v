(** Weights, bounds and what they cost. *)
From Coq Require Import String List Bool Arith ZArith Reals Lra Lia.
From Verif Require Import Base ModelArray ModelMath SpecMath ModelParams SpecField ProofField3
  ModelQuantity ModelWrapper SpecWrapper ModelPackage SpecPackage ProofPackage4 SpecConvex ProofConvex SpecBest ProofBest.
Import ListNotations.
Open Scope R_scope.
Open Scope string_scope.
Open Scope list_scope.

Section Trade.
  Variables (other : list string) (q : params).
  Lemma weighted_app l1 l2 x f : weighted other q (l1 ++ l2) x f <-> exists f1 f2, weighted other q l1 x f1 /\ weighted other q l2 x f2 /\ f = f1 + f2.
  Proof.
    split.
    - intros (vs & F & ->). apply Forall2_app_inv_l in F as (v1 & v2 & F1 & F2 & ->). exists (Rsum (map2 (fun o m => snd o * m) l1 v1)), (Rsum (map2 (fun o m => snd o * m) l2 v2)).
      split; [exists v1; auto|]. split; [exists v2; auto|]. clear F2. induction F1; [unfold Rsum; cbn; ring|]. cbn [app map2]. unfold Rsum in *. cbn [fold_right]. rewrite IHF1. ring.
    - intros (f1 & f2 & (v1 & F1 & ->) & (v2 & F2 & ->) & ->). exists (v1 ++ v2). split; [now apply Forall2_app|].
      clear F2. induction F1; [unfold Rsum; cbn; ring|]. cbn [app map2]. unfold Rsum in *. cbn [fold_right]. rewrite <- IHF1. ring.
  Qed.
  Lemma weighted_one n w x f : weighted other q [(n, w)] x f <-> exists v, reads other n q x (scal v) /\ f = w * v.
  Proof.
    split.
    - intros (vs & F & ->). inversion F as [|? v ? vs' H F']; subst. inversion F'; subst. exists v. split; [exact H|]. unfold Rsum. cbn. ring.
    - intros (v & H & ->). exists [v]. split; [constructor; [exact H|constructor]|]. unfold Rsum. cbn. ring.
  Qed.
  (** One term taken out. *)
  Lemma weighted_split o1 n w o2 x f : weighted other q (o1 ++ (n, w) :: o2) x f <-> exists r v, weighted other q (o1 ++ o2) x r /\ reads other n q x (scal v) /\ f = r + w * v.
  Proof.
    change ((n, w) :: o2) with ([(n, w)] ++ o2). rewrite weighted_app. setoid_rewrite weighted_app. split.
    - intros (f1 & f2 & W1 & (f3 & f4 & W2 & W3 & ->) & ->). apply weighted_one in W2 as (v & Rv & ->). exists (f1 + f4), v. split; [exists f1, f4; auto|]. split; [exact Rv|ring].
    - intros (r & v & (f1 & f4 & W1 & W3 & ->) & Rv & ->). exists f1, (w * v + f4). split; [exact W1|]. split; [|ring]. exists (w * v), f4. split; [apply weighted_one; eauto|auto].
  Qed.
  Lemma scal_fun n x v v' : reads other n q x (scal v) -> reads other n q x (scal v') -> v = v'.
  Proof. intros A B. pose proof (reads_fun _ _ _ _ _ _ A B) as E. now injection E. Qed.
  Lemma feasible_cons n c b cs x : feasible other q ((n, c, b) :: cs) x <-> (exists v, reads other n q x v /\ meets c b v) /\ feasible other q cs x.
  Proof.
    split.
    - intros F. split; [apply (F n c b); now left|]. intros n' c' b' I. apply F. now right.
    - intros (A & F) n' c' b' [E|I]; [injection E as <- <- <-; exact A|now apply F].
  Qed.

  (** A bound is worth a weight. *)
  Section Multiplier.
    Variables (os : list (string * R)) (cs : list (string * cmp * R)) (n : string) (b : R).
    Hypothesis Ho : convex_objective other q os.
    Hypothesis Hc : convex_constraints other q cs.
    Hypothesis Hn : convex_quantity other n q.
    Variables (x z : list R) (fx fz vz : R).
    Hypothesis Lx : length x = q_ndofs q.
    Hypothesis Fx : feasible other q ((n, LE, b) :: cs) x.
    Hypothesis Wx : weighted other q os x fx.
    Hypothesis Bx : least other q os ((n, LE, b) :: cs) x (fun _ => True).
    Hypothesis Lz : length z = q_ndofs q.
    Hypothesis Fz : feasible other q cs z.
    Hypothesis Wz : weighted other q os z fz.
    Hypothesis Rz : reads other n q z (scal vz).
    Hypothesis Slater : vz < b.
    Let rate y := exists fy vy, length y = q_ndofs q /\ feasible other q cs y /\ weighted other q os y fy /\ reads other n q y (scal vy) /\ b < vy.
    (** Trading the bound never gains more than the interior point loses. *)
    Lemma rates y fy vy u fu vu : length y = q_ndofs q -> feasible other q cs y -> weighted other q os y fy -> reads other n q y (scal vy) -> b < vy ->
      length u = q_ndofs q -> feasible other q cs u -> weighted other q os u fu -> reads other n q u (scal vu) -> vu < b ->
      (fx - fy) * (b - vu) <= (fu - fx) * (vy - b).
    Proof using Ho Hc Hn Bx Wx.
      intros Ly Fy Wy Ry By Lu Fu Wu Ru Bu. set (t := (b - vu) / (vy - vu)). assert (Ht : 0 <= t <= 1).
      { split; [apply Rmult_le_pos; [lra|apply Rlt_le, Rinv_0_lt_compat; lra]|]. apply Rmult_le_reg_r with (vy - vu); [lra|]. unfold t. replace ((b - vu) / (vy - vu) * (vy - vu)) with (b - vu) by (field; lra). lra. }
      destruct (weighted_convex other q os Ho y u t fy fu Ly Lu Ht Wy Wu) as (fm & Wm & Bm).
      assert (Fm : feasible other q ((n, LE, b) :: cs) (lincomb t (1 - t) y u)).
      { apply feasible_cons. split; [|now apply (feasible_convex other q cs Hc)]. destruct (Hn y u t Ly Lu Ht) as (v1 & v2 & v3 & R1 & R2 & R3 & E1 & E2 & E3 & E4 & F).
        exists v3. split; [exact R3|]. rewrite (reads_fun _ _ _ _ _ _ R1 Ry) in F. rewrite (reads_fun _ _ _ _ _ _ R2 Ru) in F. unfold lincomb in F. cbn [el scal map2] in F.
        intros r Hr. inversion F as [|r1 r2 l1 l2 H1 H2 H3 H4]; subst. rewrite <- H3 in Hr. inversion H2; subst. destruct Hr as [<-|[]]. eapply Rle_trans; [exact H1|].
        right. unfold t. field. lra. }
      assert (fx <= fm) by (apply (Bx (lincomb t (1 - t) y u) fx fm); auto; rewrite length_lincomb; congruence).
      assert (H2 : fx * (vy - vu) <= (b - vu) * fy + (vy - b) * fu).
      { replace ((b - vu) * fy + (vy - b) * fu) with ((t * fy + (1 - t) * fu) * (vy - vu)) by (unfold t; field; lra). apply Rmult_le_compat_r; lra. }
      lra.
    Qed.
    Lemma multiplier : exists w, 0 <= w /\ forall y fy vy, length y = q_ndofs q -> feasible other q cs y -> weighted other q os y fy -> reads other n q y (scal vy) ->
      fx <= fy + w * (vy - b).
    Proof using All.
      assert (Fxz : fx <= fz). { apply (Bx z fx fz Lz I); auto. apply feasible_cons. split; [|exact Fz]. exists (scal vz). split; [exact Rz|]. intros r [<-|[]]. lra. }
      set (E := fun r => r = 0 \/ exists y fy vy, length y = q_ndofs q /\ feasible other q cs y /\ weighted other q os y fy /\ reads other n q y (scal vy) /\ b < vy /\ r = (fx - fy) / (vy - b)).
      assert (Up : forall u fu vu, length u = q_ndofs q -> feasible other q cs u -> weighted other q os u fu -> reads other n q u (scal vu) -> vu < b -> forall r, E r -> r <= (fu - fx) / (b - vu)).
      { intros u fu vu Lu Fu Wu Ru Bu r [->|(y & fy & vy & Ly & Fy & Wy & Ry & By & ->)].
        - apply Rmult_le_pos; [|apply Rlt_le, Rinv_0_lt_compat; lra]. assert (fx <= fu); [|lra]. apply (Bx u fx fu Lu I); auto. apply feasible_cons. split; [|exact Fu]. exists (scal vu). split; [exact Ru|]. intros r [<-|[]]. lra.
        - pose proof (rates y fy vy u fu vu Ly Fy Wy Ry By Lu Fu Wu Ru Bu) as H. apply Rmult_le_reg_r with (vy - b); [lra|]. apply Rmult_le_reg_r with (b - vu); [lra|].
          replace ((fx - fy) / (vy - b) * (vy - b) * (b - vu)) with ((fx - fy) * (b - vu)) by (field; lra). replace ((fu - fx) / (b - vu) * (vy - b) * (b - vu)) with ((fu - fx) * (vy - b)) by (field; lra). exact H. }
      destruct (completeness E) as (w & Ub & Lub).
      - exists ((fz - fx) / (b - vz)). intros r Hr. now apply (Up z fz vz).
      - exists 0. now left.
      - exists w. split; [apply Ub; now left|]. intros y fy vy Ly Fy Wy Ry. destruct (Rtotal_order vy b) as [H|[->|H]].
        + assert (w <= (fy - fx) / (b - vy)) by (apply Lub; intros r Hr; now apply (Up y fy vy)).
          assert (w * (b - vy) <= fy - fx); [|lra]. apply Rle_trans with ((fy - fx) / (b - vy) * (b - vy)); [apply Rmult_le_compat_r; lra|]. right. field. lra.
        + assert (fx <= fy); [|lra]. apply (Bx y fx fy Ly I); auto. apply feasible_cons. split; [|exact Fy]. exists (scal b). split; [exact Ry|]. intros r [<-|[]]. lra.
        + assert (Hr : (fx - fy) / (vy - b) <= w) by (apply Ub; right; exists y, fy, vy; repeat (split; [assumption|]); reflexivity).
          assert (fx - fy <= w * (vy - b)); [|lra]. apply Rle_trans with ((fx - fy) / (vy - b) * (vy - b)); [right; field; lra|apply Rmult_le_compat_r; lra].
    Qed.
  End Multiplier.
End Trade.
