(** Property C140: how the figures built on one field bound each other. *)
From Coq Require Import String List Bool Arith ZArith Reals Lra Lia Psatz.
From Verif Require Import Base ModelArray ModelMath SpecMath ModelSurface SpecSurface ProofSurface ProofSurface2 ProofSurface3
  ModelParams ModelField SpecField ProofField ProofField2 ProofField3 WitnessField ProofSimsopt
  ModelQuantity SpecQuantity ModelWrapper SpecWrapper ModelShipped ModelPackage SpecPackage ProofPackage ProofPackage4 SpecConvex ProofConvex
  PropNfp PropAxi SpecNorms.
Import ListNotations.
Open Scope R_scope.
Open Scope string_scope.
Open Scope list_scope.

(** Weighted sums. *)
Lemma weighted_peak (h : R -> R) m ws ys : (forall w, In w ws -> 0 <= w) -> 0 <= m -> (forall y, In y ys -> h y <= m) ->
  Rsum (map2 (fun w y => w * h y) ws ys) <= Rsum ws * m.
Proof.
  intros Hw Pm. revert ys. induction ws as [|w ws IH]; intros ys Hy; [cbn; unfold Rsum; cbn; lra|].
  assert (P : forall ws : list R, (forall w, In w ws -> 0 <= w) -> 0 <= Rsum ws).
  { clear. induction ws as [|w ws IH]; intros H; [unfold Rsum; cbn; lra|]. rewrite Rsum_cons. pose proof (H w (or_introl eq_refl)). assert (0 <= Rsum ws) by (apply IH; intros; apply H; now right). lra. }
  destruct ys as [|y ys]; cbn [map2].
  - pose proof (P (w :: ws) Hw). unfold Rsum at 1. cbn [fold_right]. nra.
  - rewrite !Rsum_cons. assert (Rsum (map2 (fun w y => w * h y) ws ys) <= Rsum ws * m) by (apply IH; [intros; apply Hw; now right|intros; apply Hy; now right]).
    pose proof (Hw w (or_introl eq_refl)). pose proof (Hy y (or_introl eq_refl)). nra.
Qed.
Lemma weighted_square (g k : R -> R) ws ys : (forall w, In w ws -> 0 <= w) -> (forall y, In y ys -> g y * g y = k y) ->
  Rsqr (Rsum (map2 (fun w y => w * g y) ws ys)) <= Rsum ws * Rsum (map2 (fun w y => w * k y) ws ys) /\
  0 <= Rsum ws /\ 0 <= Rsum (map2 (fun w y => w * k y) ws ys).
Proof.
  intros Hw. revert ys. induction ws as [|w ws IH]; intros ys Hy; [cbn; unfold Rsum, Rsqr; cbn; lra|].
  pose proof (Hw w (or_introl eq_refl)) as P0. assert (Hw' : forall w, In w ws -> 0 <= w) by (intros; apply Hw; now right).
  destruct ys as [|y ys]; cbn [map2].
  - destruct (IH Hw' [] ltac:(intros ? [])) as (_ & P & _). rewrite Rsum_cons. change (Rsum []) with 0. unfold Rsqr. lra.
  - destruct (IH Hw' ys ltac:(intros; apply Hy; now right)) as (A & P & Q). rewrite !Rsum_cons. set (X := Rsum (map2 (fun w y => w * g y) ws ys)) in *. set (Y := Rsum (map2 (fun w y => w * k y) ws ys)) in *.
    set (W := Rsum ws) in *. rewrite <- (Hy y (or_introl eq_refl)). set (a := g y). unfold Rsqr in *. split; [|split; [lra|pose proof (Rle_0_sqr a) as Z; unfold Rsqr in Z; nra]].
    assert (B : 2 * a * X <= W * (a * a) + Y).
    { destruct (Rle_lt_or_eq_dec 0 W P) as [PW|<-].
      - pose proof (Rle_0_sqr (W * a - X)) as Z; unfold Rsqr in Z. assert (W * (2 * a * X) <= W * (W * (a * a) + Y)) by nra. nra.
      - assert (X = 0) by nra. rewrite H. nra. }
    nra.
Qed.

Section Norms.
  Variables (other : list string) (q : params) (x : list R).
  Hypothesis S : sound q x.
  Hypothesis O : ordered q.
  Lemma weights_nonneg s d : In s [q_eval q; q_plasma q] -> da s = Ok d -> forall w, In w (concat d) -> 0 <= w.
  Proof using S O.
    intros I D w Iw. pose proof S as (M & Lw & Lp & _). destruct O as (O1 & O2 & O3 & O4). destruct (made_facts q M) as (_ & _ & _ & _ & C & _ & Cp).
    destruct I as [<-|[<-|[]]].
    - rewrite (da_copy _ _ _ _ Lw C) in D. injection D as <-. rewrite concat_sample in Iw. apply in_map_iff in Iw as ([p t] & <- & _). apply Rmult_le_pos; [exact (copy_weights _ _ _ _ C O1 O2)|apply norm3_nonneg].
    - rewrite (da_copy _ _ _ _ Lp Cp) in D. injection D as <-. rewrite concat_sample in Iw. apply in_map_iff in Iw as ([p t] & <- & _). apply Rmult_le_pos; [exact (copy_weights _ _ _ _ Cp O3 O4)|apply norm3_nonneg].
  Qed.
  Let I1 : In (q_eval q) [q_eval q; q_plasma q]. Proof. now left. Qed.
  Let I2 : In (q_plasma q) [q_eval q; q_plasma q]. Proof. right. now left. Qed.
  Let Pf : 0 <= INR (q_nfp q). Proof. apply pos_INR. Qed.
  Lemma total_peak s d a h m (v : arr) r : In s [q_eval q; q_plasma q] -> da s = Ok d -> area q s a -> (forall y, In y (el v) -> h y <= m) -> 0 <= m ->
    r = INR (q_nfp q) * Rsum (map2 (fun w y => w * h y) (concat d) (el v)) -> r <= a * m.
  Proof using S O Pf.
    intros I D (d' & D' & ->) Hy Pm ->. rewrite D in D'. injection D' as <-. pose proof (weighted_peak h m (concat d) (el v) (weights_nonneg s d I D) Pm Hy).
    rewrite Rmult_assoc. now apply Rmult_le_compat_l.
  Qed.
  Lemma total_square s d a g k (v : arr) r r2 : In s [q_eval q; q_plasma q] -> da s = Ok d -> area q s a -> (forall y, In y (el v) -> g y * g y = 2 * k y) ->
    r = INR (q_nfp q) * Rsum (map2 (fun w y => w * g y) (concat d) (el v)) -> r2 = INR (q_nfp q) * Rsum (map2 (fun w y => w * k y) (concat d) (el v)) ->
    Rsqr r <= 2 * a * r2.
  Proof using S O Pf.
    intros I D (d' & D' & ->) Hy -> ->. rewrite D in D'. injection D' as <-. destruct (weighted_square g (fun y => 2 * k y) (concat d) (el v) (weights_nonneg s d I D) Hy) as (A & _ & _).
    assert (E : Rsum (map2 (fun w y => w * (2 * k y)) (concat d) (el v)) = 2 * Rsum (map2 (fun w y => w * k y) (concat d) (el v))).
    { generalize (concat d) (el v). induction l as [|w l IH]; intros [|y l']; cbn [map2]; try (unfold Rsum; cbn; ring). rewrite !Rsum_cons, IH. ring. }
    rewrite E in A. unfold Rsqr in *. set (n := INR (q_nfp q)) in *. set (X := Rsum (map2 (fun w y => w * g y) _ _)) in *. set (Y := Rsum (map2 (fun w y => w * k y) _ _)) in *. set (W := Rsum (concat d)) in *.
    replace (n * X * (n * X)) with (n * n * (X * X)) by ring. replace (2 * (n * W) * (n * Y)) with (n * n * (W * (2 * Y))) by ring. apply Rmult_le_compat_l; [nra|exact A].
  Qed.
End Norms.
Lemma max_compose (h k : R -> R) m m' l : (forall a b, 0 <= a -> a <= b -> k a <= k b) -> (forall y, 0 <= h y) -> is_max m (map h l) -> is_max m' (map (fun y => k (h y)) l) -> m' = k m.
Proof.
  intros Hk Ph (A & B) (A' & B'). apply in_map_iff in A as (y & <- & Iy). apply in_map_iff in A' as (z & <- & Iz). apply Rle_antisym.
  - apply Hk; [apply Ph|]. apply B. apply in_map_iff. eauto.
  - apply B'. apply in_map_iff. eauto.
Qed.

(** ** C140 *)
(** A figure summed over a surface is at most the area times the peak of what is summed. *)
Theorem C140_peaks_bound_integrals :
  forall other q x a ap fK fB fPhi l1 hK mK mB mPhi mPhi2, sound q x -> ordered q -> area q (q_eval q) a -> area q (q_plasma q) ap ->
  reads other "f_K" q x (scal fK) -> reads other "f_B" q x (scal fB) -> reads other "f_Phi" q x (scal fPhi) -> reads other "f_l1_Phi" q x (scal l1) -> reads other "f_huber_K" q x (scal hK) ->
  reads other "f_max_K2" q x (scal mK) -> reads other "f_max_Bnormal2" q x (scal mB) -> reads other "f_max_Phi" q x (scal mPhi) -> reads other "f_max_Phi2" q x (scal mPhi2) ->
  2 * fK <= a * mK /\ 2 * fB <= ap * mB /\ 2 * fPhi <= a * mPhi2 /\ l1 <= a * mPhi /\ hK <= a * sqrt mK.
Proof.
  intros other q x a ap fK fB fPhi l1 hK mK mB mPhi mPhi2 S O Ha Hp R1 R2 R3 R4 R5 R6 R7 R8 R9.
  assert (G : forall name fld s h mname mh r m b, In (name, fld, s, h)
      [("f_K", "K2", q_eval q, fun y => y / 2); ("f_B", "Bnormal", q_plasma q, fun y => y * y / 2); ("f_Phi", "Phi", q_eval q, fun y => y * y / 2);
       ("f_l1_Phi", "Phi", q_eval q, Rabs); ("f_huber_K", "K2", q_eval q, sqrt)] ->
    In (mname, fld, mh) [("f_max_K2", "K2", fun y : R => y); ("f_max_K_dot_grad_K_cyl", "K_dot_grad_K_cyl", Rabs); ("f_max_Bnormal", "Bnormal", Rabs);
     ("f_max_Bnormal2", "Bnormal", fun y => y * y); ("f_max_Phi", "Phi", Rabs); ("f_max_Phi2", "Phi", fun y => y * y); ("f_max_Phi4", "Phi", fun y => y ^ 4)] ->
    In s [q_eval q; q_plasma q] -> area q s b -> reads other name q x (scal r) -> reads other mname q x (scal m) ->
    forall k : R -> R, (forall y z, mh y <= z -> h y <= k z) -> 0 <= k m -> r <= b * k m).
  { intros name fld s h mname mh r m b I J Is Hb Rr Rm k Hk Pk.
    destruct (integral_value other q x S _ _ _ _ I) as (r' & v & d & Rr' & Rv & D & E). destruct (largest_value other q x S _ _ _ J) as (m' & v' & Rm' & Rv' & (_ & B)).
    pose proof (reads_fun _ _ _ _ _ _ Rv Rv') as <-. pose proof (reads_fun _ _ _ _ _ _ Rr Rr') as X. injection X as <-. pose proof (reads_fun _ _ _ _ _ _ Rm Rm') as X. injection X as <-.
    apply (total_peak q x S O s d b h (k m) v r Is D Hb); [|exact Pk|exact E]. intros y Iy. apply Hk, B. now apply in_map. }
  assert (P : forall mname fld mh m, In (mname, fld, mh) [("f_max_K2", "K2", fun y : R => y); ("f_max_K_dot_grad_K_cyl", "K_dot_grad_K_cyl", Rabs); ("f_max_Bnormal", "Bnormal", Rabs);
     ("f_max_Bnormal2", "Bnormal", fun y => y * y); ("f_max_Phi", "Phi", Rabs); ("f_max_Phi2", "Phi", fun y => y * y); ("f_max_Phi4", "Phi", fun y => y ^ 4)] ->
     reads other mname q x (scal m) -> (forall y, 0 <= mh y) \/ fld = "K2" /\ mh = (fun y => y) -> 0 <= m).
  { intros mname fld mh m J Rm H. destruct (largest_value other q x S _ _ _ J) as (m' & v & Rm' & Rv & (A & _)). pose proof (reads_fun _ _ _ _ _ _ Rm Rm') as X. injection X as <-.
    destruct H as [H|(-> & ->)]; [apply in_map_iff in A as (y & <- & _); apply H|]. rewrite map_id in A. rewrite (reads_fun _ _ _ _ _ _ Rv (reads_K2 other q x S)) in A. unfold of_grid in A. cbn [el] in A.
    rewrite concat_sample in A. apply in_map_iff in A as ([p t] & <- & _). cbn [fst snd]. rewrite dot3_norm. apply Rle_0_sqr. }
  pose proof (P "f_max_K2" "K2" (fun y => y) mK ltac:(cbn; tauto) R6 ltac:(now right)) as P6.
  pose proof (P "f_max_Bnormal2" "Bnormal" (fun y => y * y) mB ltac:(cbn; tauto) R7 ltac:(left; intros y; apply Rle_0_sqr)) as P7.
  pose proof (P "f_max_Phi" "Phi" Rabs mPhi ltac:(cbn; tauto) R8 ltac:(left; apply Rabs_pos)) as P8.
  pose proof (P "f_max_Phi2" "Phi" (fun y => y * y) mPhi2 ltac:(cbn; tauto) R9 ltac:(left; intros y; apply Rle_0_sqr)) as P9.
  assert (I1 : In (q_eval q) [q_eval q; q_plasma q]) by now left. assert (I2 : In (q_plasma q) [q_eval q; q_plasma q]) by (right; now left).
  split; [|split; [|split; [|split]]].
  - pose proof (G "f_K" "K2" (q_eval q) (fun y => y / 2) "f_max_K2" (fun y => y) fK mK a ltac:(cbn; tauto) ltac:(cbn; tauto) I1 Ha R1 R6 (fun y => y / 2) ltac:(intros; lra) ltac:(lra)). lra.
  - pose proof (G "f_B" "Bnormal" (q_plasma q) (fun y => y * y / 2) "f_max_Bnormal2" (fun y => y * y) fB mB ap ltac:(cbn; tauto) ltac:(cbn; tauto) I2 Hp R2 R7 (fun y => y / 2) ltac:(intros; lra) ltac:(lra)). lra.
  - pose proof (G "f_Phi" "Phi" (q_eval q) (fun y => y * y / 2) "f_max_Phi2" (fun y => y * y) fPhi mPhi2 a ltac:(cbn; tauto) ltac:(cbn; tauto) I1 Ha R3 R9 (fun y => y / 2) ltac:(intros; lra) ltac:(lra)). lra.
  - exact (G "f_l1_Phi" "Phi" (q_eval q) Rabs "f_max_Phi" Rabs l1 mPhi a ltac:(cbn; tauto) ltac:(cbn; tauto) I1 Ha R4 R8 (fun y => y) ltac:(intros; lra) ltac:(lra)).
  - exact (G "f_huber_K" "K2" (q_eval q) sqrt "f_max_K2" (fun y => y) hK mK a ltac:(cbn; tauto) ltac:(cbn; tauto) I1 Ha R5 R6 sqrt ltac:(intros; now apply sqrt_le_1_alt) (sqrt_pos mK)).
Qed.
Print Assumptions C140_peaks_bound_integrals.

(** The absolute-value figures are bounded by the squared ones. *)
Theorem C140_squares_bound_absolute_values :
  forall other q x a fK fPhi l1 hK, sound q x -> ordered q -> area q (q_eval q) a ->
  reads other "f_K" q x (scal fK) -> reads other "f_Phi" q x (scal fPhi) -> reads other "f_l1_Phi" q x (scal l1) -> reads other "f_huber_K" q x (scal hK) ->
  Rsqr l1 <= 2 * a * fPhi /\ Rsqr hK <= 2 * a * fK.
Proof.
  intros other q x a fK fPhi l1 hK S O Ha R1 R2 R3 R4. assert (I1 : In (q_eval q) [q_eval q; q_plasma q]) by now left. split.
  - destruct (integral_value other q x S "f_l1_Phi" "Phi" (q_eval q) Rabs ltac:(cbn; tauto)) as (r & v & d & Rr & Rv & D & E).
    destruct (integral_value other q x S "f_Phi" "Phi" (q_eval q) (fun y => y * y / 2) ltac:(cbn; tauto)) as (r' & v' & d' & Rr' & Rv' & D' & E').
    rewrite D in D'. injection D' as <-. pose proof (reads_fun _ _ _ _ _ _ Rv Rv') as <-. pose proof (reads_fun _ _ _ _ _ _ Rr R3) as X. injection X as ->. pose proof (reads_fun _ _ _ _ _ _ Rr' R2) as X. injection X as ->.
    apply (total_square q x S O (q_eval q) d a Rabs (fun y => y * y / 2) v); auto. intros y _. rewrite <- Rabs_mult, Rabs_pos_eq by apply Rle_0_sqr. lra.
  - destruct (integral_value other q x S "f_huber_K" "K2" (q_eval q) sqrt ltac:(cbn; tauto)) as (r & v & d & Rr & Rv & D & E).
    destruct (integral_value other q x S "f_K" "K2" (q_eval q) (fun y => y / 2) ltac:(cbn; tauto)) as (r' & v' & d' & Rr' & Rv' & D' & E').
    rewrite D in D'. injection D' as <-. pose proof (reads_fun _ _ _ _ _ _ Rv Rv') as <-. pose proof (reads_fun _ _ _ _ _ _ Rr R4) as X. injection X as ->. pose proof (reads_fun _ _ _ _ _ _ Rr' R1) as X. injection X as ->.
    apply (total_square q x S O (q_eval q) d a sqrt (fun y => y / 2) v); auto. intros y Iy. rewrite sqrt_sqrt; [lra|]. rewrite (reads_fun _ _ _ _ _ _ Rv (reads_K2 other q x S)) in Iy. unfold of_grid in Iy. cbn [el] in Iy.
    rewrite concat_sample in Iy. apply in_map_iff in Iy as ([p t] & <- & _). cbn [fst snd]. rewrite dot3_norm. apply Rle_0_sqr.
Qed.
Print Assumptions C140_squares_bound_absolute_values.

(** The peaks of one field agree. *)
Theorem C140_peaks_agree :
  forall other q x mB mB2 mPhi mPhi2 mPhi4, sound q x ->
  reads other "f_max_Bnormal" q x (scal mB) -> reads other "f_max_Bnormal2" q x (scal mB2) ->
  reads other "f_max_Phi" q x (scal mPhi) -> reads other "f_max_Phi2" q x (scal mPhi2) -> reads other "f_max_Phi4" q x (scal mPhi4) ->
  mB2 = Rsqr mB /\ mPhi2 = Rsqr mPhi /\ mPhi4 = Rsqr mPhi2.
Proof.
  intros other q x mB mB2 mPhi mPhi2 mPhi4 S R1 R2 R3 R4 R5.
  assert (Sq : forall a b, 0 <= a -> a <= b -> Rsqr a <= Rsqr b) by (intros; unfold Rsqr; nra).
  assert (G : forall n1 n2 fld h1 h2 m1 m2, In (n1, fld, h1) [("f_max_K2", "K2", fun y : R => y); ("f_max_K_dot_grad_K_cyl", "K_dot_grad_K_cyl", Rabs); ("f_max_Bnormal", "Bnormal", Rabs);
     ("f_max_Bnormal2", "Bnormal", fun y => y * y); ("f_max_Phi", "Phi", Rabs); ("f_max_Phi2", "Phi", fun y => y * y); ("f_max_Phi4", "Phi", fun y => y ^ 4)] ->
     In (n2, fld, h2) [("f_max_K2", "K2", fun y : R => y); ("f_max_K_dot_grad_K_cyl", "K_dot_grad_K_cyl", Rabs); ("f_max_Bnormal", "Bnormal", Rabs);
     ("f_max_Bnormal2", "Bnormal", fun y => y * y); ("f_max_Phi", "Phi", Rabs); ("f_max_Phi2", "Phi", fun y => y * y); ("f_max_Phi4", "Phi", fun y => y ^ 4)] ->
     reads other n1 q x (scal m1) -> reads other n2 q x (scal m2) -> (forall y, 0 <= h1 y) -> (forall y, h2 y = Rsqr (h1 y)) -> m2 = Rsqr m1).
  { intros n1 n2 fld h1 h2 m1 m2 J1 J2 Q1 Q2 P E. destruct (largest_value other q x S _ _ _ J1) as (a & v & Ra & Rv & Ma). destruct (largest_value other q x S _ _ _ J2) as (b & v' & Rb & Rv' & Mb).
    pose proof (reads_fun _ _ _ _ _ _ Rv Rv') as <-. pose proof (reads_fun _ _ _ _ _ _ Ra Q1) as X. injection X as ->. pose proof (reads_fun _ _ _ _ _ _ Rb Q2) as X. injection X as ->.
    rewrite (map_ext _ _ E) in Mb. exact (max_compose h1 Rsqr m1 m2 _ Sq P Ma Mb). }
  assert (Ab : forall y, y * y = Rsqr (Rabs y)) by (intros y; rewrite <- Rsqr_abs; reflexivity).
  split; [|split].
  - exact (G "f_max_Bnormal" "f_max_Bnormal2" "Bnormal" Rabs (fun y => y * y) mB mB2 ltac:(cbn; tauto) ltac:(cbn; tauto) R1 R2 Rabs_pos Ab).
  - exact (G "f_max_Phi" "f_max_Phi2" "Phi" Rabs (fun y => y * y) mPhi mPhi2 ltac:(cbn; tauto) ltac:(cbn; tauto) R3 R4 Rabs_pos Ab).
  - apply (G "f_max_Phi2" "f_max_Phi4" "Phi" (fun y => y * y) (fun y => y ^ 4) mPhi2 mPhi4 ltac:(cbn; tauto) ltac:(cbn; tauto) R4 R5); [intros; apply Rle_0_sqr|intros; unfold Rsqr; ring].
Qed.
Print Assumptions C140_peaks_agree.

Example C140_example : let q := tokamak in let x := [1; 2; 3; 4] in
  sound q x /\ ordered q /\ (exists a, area q (q_eval q) a) /\ (exists a, area q (q_plasma q) a) /\
  forall name, In name ["f_K"; "f_B"; "f_Phi"; "f_l1_Phi"; "f_huber_K"; "f_max_K2"; "f_max_Bnormal"; "f_max_Bnormal2"; "f_max_Phi"; "f_max_Phi2"; "f_max_Phi4"] -> exists r, reads [] name q x (scal r).
Proof.
  cbv zeta. assert (S : sound tokamak [1; 2; 3; 4]) by now apply tokamak_sound. pose proof S as (M & Lw & Lp & _). destruct (made_facts _ M) as (_ & _ & _ & _ & C & _ & Cp).
  split; [exact S|]. split; [split; [|split; [|split]]; cbn; first [apply two_increasing; lra|apply four_increasing; lra|apply three_increasing; lra]|].
  split; [eexists; eexists; split; [exact (da_copy _ _ _ _ Lw C)|reflexivity]|]. split; [eexists; eexists; split; [exact (da_copy _ _ _ _ Lp Cp)|reflexivity]|].
  intros name I. repeat (destruct I as [<-|I]); [..|destruct I].
  - destruct (integral_value [] _ _ S "f_K" "K2" _ _ ltac:(cbn; eauto 10)) as (r & _ & _ & Rr & _). now exists r.
  - destruct (reads_f_B [] _ _ S) as (r & _ & Rr). now exists r.
  - destruct (reads_f_Phi [] _ _ S) as (r & _ & Rr). now exists r.
  - destruct (integral_value [] _ _ S "f_l1_Phi" "Phi" _ Rabs ltac:(cbn; eauto 10)) as (r & _ & _ & Rr & _). now exists r.
  - destruct (integral_value [] _ _ S "f_huber_K" "K2" _ sqrt ltac:(cbn; eauto 10)) as (r & _ & _ & Rr & _). now exists r.
  - destruct (largest_value [] _ _ S "f_max_K2" "K2" (fun y => y) ltac:(cbn; tauto)) as (r & _ & Rr & _). now exists r.
  - destruct (largest_value [] _ _ S "f_max_Bnormal" "Bnormal" Rabs ltac:(cbn; tauto)) as (r & _ & Rr & _). now exists r.
  - destruct (largest_value [] _ _ S "f_max_Bnormal2" "Bnormal" (fun y => y * y) ltac:(cbn; tauto)) as (r & _ & Rr & _). now exists r.
  - destruct (largest_value [] _ _ S "f_max_Phi" "Phi" Rabs ltac:(cbn; tauto)) as (r & _ & Rr & _). now exists r.
  - destruct (largest_value [] _ _ S "f_max_Phi2" "Phi" (fun y => y * y) ltac:(cbn; tauto)) as (r & _ & Rr & _). now exists r.
  - destruct (largest_value [] _ _ S "f_max_Phi4" "Phi" (fun y => y ^ 4) ltac:(cbn; tauto)) as (r & _ & Rr & _). now exists r.
Qed.
