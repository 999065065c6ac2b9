(** The rules of C146. *)
From Coq Require Import String List Bool Arith ZArith Reals Lra Lia Permutation.
From Verif Require Import Base ModelArray ModelMath SpecMath ModelSurface SpecSurface ProofSurface ModelParams ModelField SpecField ProofField ProofField2 ProofField3
  ModelQuantity ModelWrapper SpecWrapper ModelPackage SpecPackage ProofPackage4 SpecConvex ProofConvex SpecBest ProofNfp2 SpecPhrase.
Import ListNotations.
Open Scope R_scope.
Open Scope string_scope.
Open Scope list_scope.

Section Phrase.
  Variables (other : list string) (q : params) (z : list R).
  Hypothesis S : sound q z.
  Definition same_asked (P Q : problem) : Prop := forall x, length x = q_ndofs q ->
    (SpecConvex.feasible other q (snd P) x <-> SpecConvex.feasible other q (snd Q) x) /\ forall r, weighted other q (fst P) x r <-> weighted other q (fst Q) x r.
  Lemma single x n : length x = q_ndofs q -> In n single_figures -> exists m, reads other n q x (scal m).
  Proof using S.
    intros L I. pose proof (sound_other q z x S L) as Sx.
    assert (A : forall nm fld h, In (nm, fld, h) [("f_max_K2", "K2", fun y : R => y); ("f_max_K_dot_grad_K_cyl", "K_dot_grad_K_cyl", Rabs); ("f_max_Bnormal", "Bnormal", Rabs);
        ("f_max_Bnormal2", "Bnormal", fun y => y * y); ("f_max_Phi", "Phi", Rabs); ("f_max_Phi2", "Phi", fun y => y * y); ("f_max_Phi4", "Phi", fun y => y ^ 4)] -> exists s, reads other nm q x (scal s)).
    { intros nm fld h J. destruct (largest_value other q x Sx nm fld h J) as (m & _ & Rm & _). eauto. }
    assert (B : forall nm fld surf h, In (nm, fld, surf, h) [("f_K", "K2", q_eval q, fun y => y / 2); ("f_B", "Bnormal", q_plasma q, fun y => y * y / 2); ("f_Phi", "Phi", q_eval q, fun y => y * y / 2);
        ("f_l1_Phi", "Phi", q_eval q, Rabs); ("f_huber_K", "K2", q_eval q, sqrt)] -> exists s, reads other nm q x (scal s)).
    { intros nm fld surf h J. destruct (integral_value other q x Sx nm fld surf h J) as (m & _ & _ & Rm & _). eauto. }
    repeat (destruct I as [<-|I]; [first [eapply A; cbn; tauto|eapply B; cbn; tauto|destruct (normalised_value other q x Sx) as (_ & _ & v & _ & _ & Rv & _); eauto]|]). destruct I.
  Qed.

  (** *** Objectives *)
  Lemma weighted_perm os os' x r : Permutation os os' -> weighted other q os x r -> weighted other q os' x r.
  Proof using.
    intros P. revert r. induction P as [|[n w] os os' P IH|[n w] [n' w'] os|os os1 os2 P1 IH1 P2 IH2]; intros r W; auto.
    - destruct W as (vs & F & ->). inversion F as [|? m ? ms H F' E1 E2]; subst. destruct (IH _ (ex_intro _ ms (conj F' eq_refl))) as (ms' & G & E).
      exists (m :: ms'). split; [constructor; assumption|]. unfold Rsum in *. cbn [map2 fold_right]. now rewrite E.
    - destruct W as (vs & F & ->). inversion F as [|? m ? ms H F' E1 E2]; subst. inversion F' as [|? m' ? ms' H' F'' E1 E2]; subst.
      exists (m' :: m :: ms'). split; [repeat constructor; assumption|]. unfold Rsum. cbn [map2 fold_right]. ring.
  Qed.
  Lemma weighted_parts n v w os x r : weighted other q ((n, v + w) :: os) x r <-> weighted other q ((n, v) :: (n, w) :: os) x r.
  Proof using.
    split.
    - intros (vs & F & ->). inversion F as [|? m ? ms H F' E1 E2]; subst. exists (m :: m :: ms). split; [repeat constructor; assumption|]. unfold Rsum. cbn [map2 fold_right snd]. ring.
    - intros (vs & F & ->). inversion F as [|? m ? ms H F' E1 E2]; subst. inversion F' as [|? m' ? ms' H' F'' E1 E2]; subst. cbn [fst] in H, H'.
      pose proof (reads_fun _ _ _ _ _ _ H H') as E. injection E as ->. exists (m' :: ms'). split; [repeat constructor; assumption|]. unfold Rsum. cbn [map2 fold_right snd]. ring.
  Qed.
  Lemma weighted_weightless n os x r : length x = q_ndofs q -> In n single_figures -> weighted other q ((n, 0) :: os) x r <-> weighted other q os x r.
  Proof using S.
    intros L I. split.
    - intros (vs & F & ->). inversion F as [|? m ? ms H F' E1 E2]; subst. exists ms. split; [assumption|]. unfold Rsum. cbn [map2 fold_right snd]. ring.
    - intros (vs & F & ->). destruct (single x n L I) as (m & Rm). exists (m :: vs). split; [constructor; assumption|]. unfold Rsum. cbn [map2 fold_right snd]. ring.
  Qed.

  (** *** Bounds *)
  Definition met (c : string * cmp * R) (x : list R) : Prop := exists v, reads other (fst (fst c)) q x v /\ meets (snd (fst c)) (snd c) v.
  Lemma feasible_cons c cs x : SpecConvex.feasible other q (c :: cs) x <-> met c x /\ SpecConvex.feasible other q cs x.
  Proof using.
    destruct c as [[n d] b]. split.
    - intros F. split; [exact (F n d b (or_introl eq_refl))|]. intros m e u I. apply (F m e u). now right.
    - intros (A & B) m e u [E|I]; [injection E as <- <- <-; exact A|exact (B m e u I)].
  Qed.
  Lemma feasible_perm cs cs' x : Permutation cs cs' -> SpecConvex.feasible other q cs x -> SpecConvex.feasible other q cs' x.
  Proof using. intros P F n c b I. apply (F n c b). apply (Permutation_in _ (Permutation_sym P)), I. Qed.
  Lemma met_reads n c b x v : reads other n q x v -> met (n, c, b) x <-> meets c b v.
  Proof using. intros Rd. split; [intros (w & Rw & H); cbn [fst snd] in *; now rewrite <- (reads_fun _ _ _ _ _ _ Rw Rd)|intros H; exists v; auto]. Qed.
  Lemma met_equal n b x : met (n, EQ, b) x <-> met (n, LE, b) x /\ met (n, GE, b) x.
  Proof using.
    split.
    - intros (v & Rv & H). split; exists v; (split; [exact Rv|]); intros y Hy; rewrite (H y Hy); cbn; lra.
    - intros ((v & Rv & H) & (v' & Rv' & H')). cbn [fst snd] in *. rewrite (reads_fun _ _ _ _ _ _ Rv' Rv) in H'. exists v. split; [exact Rv|]. intros y Hy. pose proof (H y Hy). pose proof (H' y Hy). cbn in *. lra.
  Qed.
  Lemma met_looser n b b' x : b <= b' -> met (n, LE, b) x -> met (n, LE, b') x.
  Proof using. intros L (v & Rv & H). exists v. split; [exact Rv|]. intros y Hy. pose proof (H y Hy). cbn in *. lra. Qed.
  Lemma met_lower n b b' x : b' <= b -> met (n, GE, b) x -> met (n, GE, b') x.
  Proof using. intros L (v & Rv & H). exists v. split; [exact Rv|]. intros y Hy. pose proof (H y Hy). cbn in *. lra. Qed.
  (** A bound on a largest value. *)
  Lemma met_largest x name fld h b : length x = q_ndofs q -> In (name, fld, h) [("f_max_K2", "K2", fun y : R => y); ("f_max_K_dot_grad_K_cyl", "K_dot_grad_K_cyl", Rabs); ("f_max_Bnormal", "Bnormal", Rabs);
        ("f_max_Bnormal2", "Bnormal", fun y => y * y); ("f_max_Phi", "Phi", Rabs); ("f_max_Phi2", "Phi", fun y => y * y); ("f_max_Phi4", "Phi", fun y => y ^ 4)] ->
    exists v, reads other fld q x v /\ (met (name, LE, b) x <-> forall y, In y (el v) -> h y <= b).
  Proof using S.
    intros L I. pose proof (sound_other q z x S L) as Sx. destruct (largest_value other q x Sx name fld h I) as (m & v & Rm & Rv & (Q1 & Q2)). exists v. split; [exact Rv|]. rewrite (met_reads _ _ _ _ _ Rm). split.
    - intros H y Hy. apply Rle_trans with m; [apply Q2, in_map, Hy|apply (H m); now left].
    - intros H y [<-|[]]. apply in_map_iff in Q1 as (u & <- & Hu). now apply H.
  Qed.
  Lemma met_peak f n b x : length x = q_ndofs q -> In (f, n) peaks -> met (f, LE, b) x <-> met (n, LE, b) x /\ met (n, GE, - b) x.
  Proof using S.
    intros L I. destruct (met_largest x f n Rabs b L) as (v & Rv & H).
    { destruct I as [E|[E|[E|[]]]]; injection E as <- <-; cbn; tauto. }
    rewrite H, !(met_reads _ _ _ _ _ Rv). split.
    - intros A. split; intros y Hy; pose proof (A y Hy) as B; unfold Rabs in B; destruct (Rcase_abs y); lra.
    - intros (A & B) y Hy. pose proof (A y Hy) as A'. pose proof (B y Hy) as B'. cbn in *. unfold Rabs; destruct (Rcase_abs y); lra.
  Qed.
  Lemma met_density b x : length x = q_ndofs q -> met ("f_max_K2", LE, b) x <-> met ("K2", LE, b) x.
  Proof using S.
    intros L. destruct (met_largest x "f_max_K2" "K2" (fun y => y) b L ltac:(cbn; tauto)) as (v & Rv & H). rewrite H, (met_reads _ _ _ _ _ Rv). reflexivity.
  Qed.
  Lemma square_le y b : 0 <= b -> y * y <= b ^ 2 <-> Rabs y <= b.
  Proof using.
    intros B. rewrite <- (Rabs_right b) at 2 by lra. split; intros H; [apply Rsqr_le_abs_0|apply Rsqr_le_abs_1 in H]; unfold Rsqr in *; lra.
  Qed.
  Lemma fourth_le y b : 0 <= b -> y ^ 4 <= b ^ 4 <-> Rabs y <= b.
  Proof using.
    intros B. rewrite <- square_le by exact B. replace (y ^ 4) with ((y * y) * (y * y)) by ring. replace (b ^ 4) with ((b ^ 2) ^ 2) by ring.
    rewrite square_le by (apply pow_le; exact B). rewrite Rabs_right; [reflexivity|]. pose proof (Rle_0_sqr y). unfold Rsqr in *. lra.
  Qed.
  Lemma met_power f g n k h b x : length x = q_ndofs q -> 0 <= b -> In (f, n, h) [("f_max_K2", "K2", fun y : R => y); ("f_max_K_dot_grad_K_cyl", "K_dot_grad_K_cyl", Rabs); ("f_max_Bnormal", "Bnormal", Rabs);
        ("f_max_Bnormal2", "Bnormal", fun y => y * y); ("f_max_Phi", "Phi", Rabs); ("f_max_Phi2", "Phi", fun y => y * y); ("f_max_Phi4", "Phi", fun y => y ^ 4)] -> In (g, n) peaks ->
    (forall y, h y <= k <-> Rabs y <= b) -> met (f, LE, k) x <-> met (g, LE, b) x.
  Proof using S.
    intros L B I J H. destruct (met_largest x f n h k L I) as (v & Rv & H1). destruct (met_largest x g n Rabs b L) as (v' & Rv' & H2).
    { destruct J as [E|[E|[E|[]]]]; injection E as <- <-; cbn; tauto. }
    rewrite (reads_fun _ _ _ _ _ _ Rv' Rv) in H2. rewrite H1, H2. split; intros A y Hy; apply H; auto.
  Qed.
  Lemma met_points f n b x : length x = q_ndofs q -> 0 <= b -> In (n, f) [("Bnormal2", "f_max_Bnormal"); ("Phi2", "f_max_Phi")] -> met (n, LE, b ^ 2) x <-> met (f, LE, b) x.
  Proof using S.
    intros L B I. pose proof (sound_other q z x S L) as Sx.
    assert (E : exists fld v w, In (f, fld) peaks /\ reads other fld q x v /\ reads other n q x w /\ el w = map (fun y => y * y) (el v)).
    { destruct I as [E|[E|[]]]; injection E as <- <-.
      - destruct (reads_Bnormal other q x Sx) as (g & Eg & Rg). exists "Bnormal". eexists _, _. split; [cbn; tauto|]. split; [exact Rg|]. split; [exact (reads_Bnormal2 other q x Sx g Eg)|]. rewrite !el_of_grid. unfold gmap. symmetry. apply concat_map.
      - exists "Phi". eexists _, _. split; [cbn; tauto|]. split; [exact (reads_Phi other q x Sx)|]. split; [exact (reads_Phi2 other q x Sx)|]. rewrite !el_of_grid, concat_map. f_equal. unfold sample. rewrite map_map. apply map_ext. intros p. now rewrite map_map. }
    destruct E as (fld & v & w & J & Rv & Rw & E). destruct (met_largest x f fld Rabs b L) as (v' & Rv' & H).
    { destruct J as [X|[X|[X|[]]]]; injection X as <- <-; cbn; tauto. }
    rewrite (reads_fun _ _ _ _ _ _ Rv' Rv) in H. rewrite H, (met_reads _ _ _ _ _ Rw). split.
    - intros A y Hy. apply (square_le y b B). apply (A (y * y)). rewrite E. apply (in_map (fun y => y * y)), Hy.
    - intros A y Hy. rewrite E in Hy. apply in_map_iff in Hy as (u & <- & Hu). apply square_le; auto.
  Qed.

  Lemma rephrased_asked P Q : rephrased P Q -> same_asked P Q.
  Proof using S.
    induction 1; intros x L; cbn [fst snd]; rewrite ?feasible_cons.
    - split; [tauto|intros; tauto].
    - destruct (IHrephrased x L) as (A & B). split; [tauto|]. intros r. rewrite B. tauto.
    - destruct (IHrephrased1 x L) as (A & B). destruct (IHrephrased2 x L) as (A' & B'). split; [tauto|]. intros r. rewrite B. apply B'.
    - split; [split; apply feasible_perm; auto using Permutation_sym|]. intros r. split; apply weighted_perm; auto using Permutation_sym.
    - split; [tauto|]. intros r. apply weighted_parts.
    - split; [tauto|]. intros r. now apply weighted_weightless.
    - split; [|intros; tauto]. rewrite met_equal. tauto.
    - split; [|intros; tauto]. pose proof (met_looser n b b' x H). tauto.
    - split; [|intros; tauto]. pose proof (met_lower n b b' x H). tauto.
    - split; [|intros; tauto]. rewrite (met_peak f n b x L H). tauto.
    - split; [|intros; tauto]. now rewrite met_density.
    - split; [|intros; tauto]. rewrite (met_power "f_max_Bnormal2" "f_max_Bnormal" "Bnormal" (b ^ 2) (fun y => y * y) b x L H); [reflexivity|cbn; tauto|cbn; tauto|]. intros y. now apply square_le.
    - split; [|intros; tauto]. rewrite (met_power "f_max_Phi2" "f_max_Phi" "Phi" (b ^ 2) (fun y => y * y) b x L H); [reflexivity|cbn; tauto|cbn; tauto|]. intros y. now apply square_le.
    - split; [|intros; tauto]. rewrite (met_power "f_max_Phi4" "f_max_Phi" "Phi" (b ^ 4) (fun y => y ^ 4) b x L H); [reflexivity|cbn; tauto|cbn; tauto|]. intros y. now apply fourth_le.
    - split; [|intros; tauto]. rewrite (met_points "f_max_Bnormal" "Bnormal2" b x L H) by (cbn; tauto). reflexivity.
    - split; [|intros; tauto]. rewrite (met_points "f_max_Phi" "Phi2" b x L H) by (cbn; tauto). reflexivity.
  Qed.
  Lemma asked_best os cs os' cs' x fx : same_asked (os, cs) (os', cs') -> best other q os cs x fx -> best other q os' cs' x fx.
  Proof using.
    intros A (L & F & W & Le). destruct (A x L) as (Ax & Bx). cbn [fst snd] in *. split; [exact L|]. split; [now apply Ax|]. split; [now apply Bx|].
    intros y fx' fy Ly _ Fy Wx Wy. destruct (A y Ly) as (Ay & By). cbn [fst snd] in *. apply (Le y fx' fy Ly I); [now apply Ay|now apply Bx|now apply By].
  Qed.
End Phrase.
