(** Property C116: stellarator-symmetric problems. *)
From Coq Require Import String List Bool Arith ZArith Reals Lra Lia Permutation.
From Verif Require Import Base ModelArray ModelMath SpecMath ModelSurface SpecSurface ProofLinear
  ModelParams ModelField SpecField ProofField ProofField2 ProofField3 WitnessField
  ModelQuantity SpecQuantity ModelWrapper SpecWrapper ModelShipped ModelPackage SpecPackage ProofPackage4 SpecConvex ProofConvex SpecScale SpecRefine ProofRefine SpecMirror ProofMirror ProofMirror2.
Import ListNotations.
Open Scope R_scope.
Open Scope string_scope.
Open Scope list_scope.

(** ** C116 *)
Theorem C116_mirror_image :
  forall other q x, sound q x -> symmetric_problem q ->
  exists x', sound q x' /\
    (exists F, qreports (fun q => Phi q x) q F /\ qreports (fun q => Phi q x') q (fun p t => - F (- p) (- t))) /\
    (forall name, even_quantity other q name -> exists v v', reads other name q x v /\ reads other name q x' v' /\ sh v' = sh v /\ Permutation (el v') (el v)) /\
    (forall name, In name ["Phi"; "Bnormal"] -> exists v v', reads other name q x v /\ reads other name q x' v' /\ Permutation (el v') (map Ropp (el v))).
Proof.
  intros other q x S Y. exists (mirror_of q x). assert (M : made q) by apply S. assert (L : length x = q_ndofs q) by apply S.
  pose proof (mirror_length q x M L) as L'. split; [|split; [|split]].
  - destruct S as (A1 & A2 & A3 & A4 & _). repeat (split; [assumption|]). exact L'.
  - exists (phi_of q x). split; [now apply phi_reports|]. intros ps ts Hp Ht. destruct (phi_reports q (mirror_of q x) M L' ps ts Hp Ht) as (q' & A & B).
    exists q'. split; [exact A|]. rewrite B. f_equal. apply sample_ext. intros. apply mirror_phi.
  - intros name. now apply rx_even.
  - intros name. now apply rx_odd.
Qed.
Print Assumptions C116_mirror_image.
Theorem C116_symmetric_design_no_worse :
  forall other q q' x os cs fx, sound q x -> ordered q -> symmetric_problem q -> made q' -> symmetric_version q q' ->
  (forall name w, In (name, w) os -> 0 <= w /\ even_quantity other q name) -> even_constraints other q cs ->
  feasible other q cs x -> weighted other q os x fx ->
  exists y fy, length y = q_ndofs q' /\ feasible other q' cs y /\ weighted other q' os y fy /\ fy <= fx.
Proof. exact no_worse. Qed.
Print Assumptions C116_symmetric_design_no_worse.
Theorem C116_symmetric_optimum_is_optimum :
  forall other q q' z os cs fz, sound q' z -> made q -> ordered q -> symmetric_problem q -> symmetric_version q q' ->
  (forall name w, In (name, w) os -> 0 <= w /\ even_quantity other q name) -> even_constraints other q cs ->
  feasible other q' cs z -> weighted other q' os z fz -> least other q' os cs z (fun _ => True) ->
  exists x, length x = q_ndofs q /\ same_potential q' z q x /\ feasible other q cs x /\ weighted other q os x fz /\ least other q os cs x (fun _ => True).
Proof. exact still_optimal. Qed.
Print Assumptions C116_symmetric_optimum_is_optimum.

(** Rings on symmetric grids, with an odd plasma field. *)
Definition even_device (st : bool) : params :=
  {| q_plasma := ring 3 (/ 2) (1/8) (3/8) 0 (1/2); q_winding := coil_at 1; q_eval := ring (1 * 3) (1 * 1) 0 (1/4) 0 (1/2);
     q_G := 2; q_I := 1; q_Bnormal := [[1; 1]; [-1; -1]]; q_qphi := [0; 1/4]; q_qtheta := [0; 1/2];
     q_stellsym := st; q_mpol := 1; q_ntor := 1; q_ndofs := if st then 4 else 9; q_ndofs_half := 4 |}.
Lemma even_device_made st : made (even_device st).
Proof.
  split; [apply ring_built|]. split; [apply ring_built|].
  exists (ring 3 (/ 2) (1/8) (3/8) 0 (1/2)), (coil_at 1), 2, 1, (Some [[1; 1]; [-1; -1]]), 1%nat, 1%nat, (Some (arr1 [0; 1/4])), (Some (arr1 [0; 1/2])), (Some st). destruct st; reflexivity.
Qed.
Lemma even_device_sound st x : length x = q_ndofs (even_device st) -> sound (even_device st) x.
Proof. intros L. split; [apply even_device_made|]. split; [reflexivity|]. split; [reflexivity|]. split; [split; [reflexivity|repeat constructor]|exact L]. Qed.
Lemma even_device_ordered st : ordered (even_device st).
Proof. split; [|split; [|split]]; cbn; apply two_increasing; lra. Qed.
Lemma two_eq (a b c d : R) : a = c -> b = d -> [a; b] = [c; d].
Proof. now intros -> ->. Qed.
Lemma even_device_symmetric st : symmetric_problem (even_device st).
Proof.
  assert (T2 : symmetric_turn [0; 1/2]) by (exists 0%nat, 2%nat; split; [lia|]; unfold equispaced; cbn; apply two_eq; field).
  split; [reflexivity|]. split; [reflexivity|]. split; [reflexivity|].
  split; [exists 0%nat, 2%nat; split; [lia|]; unfold equispaced; cbn; apply two_eq; field|].
  split; [exists 0%nat, 2%nat; split; [lia|]; unfold equispaced; cbn; apply two_eq; field|].
  split; [exists 1%nat; split; [lia|]; exists 0%nat, 2%nat; split; [lia|]; unfold equispaced, q_nfp; cbn; apply two_eq; field|].
  split; [exact T2|].
  split; [exists 1%nat; split; [lia|]; exists 1%nat, 2%nat; split; [lia|]; unfold equispaced, q_nfp; cbn; apply two_eq; field|].
  split; [exact T2|].
  exists (fun p _ => sin (2 * PI * (2 * p))). split.
  - assert (A : sin (2 * PI * (2 * (1/8))) = 1) by (replace (2 * PI * (2 * (1/8))) with (PI / 2) by field; apply sin_PI2).
    assert (B : sin (2 * PI * (2 * (3/8))) = -1).
    { replace (2 * PI * (2 * (3/8))) with (PI / 2 + PI) by field. rewrite neg_sin, sin_PI2. ring. }
    cbn [even_device q_plasma ring s_qphi s_qtheta q_Bnormal sample map]. now rewrite A, B.
  - intros p t. split; [rewrite <- sin_neg; f_equal; ring|]. split; [|reflexivity].
    change (INR (q_nfp (even_device st))) with 2. replace (2 * PI * (2 * (p + / 2))) with (2 * PI * (2 * p) + 2 * INR 1 * PI) by (cbn [INR]; field).
    apply sin_period.
Qed.
Lemma even_device_version : symmetric_version (even_device false) (even_device true).
Proof. repeat split. Qed.
Lemma even_zero name : In name ["Phi"; "Phi2"; "f_max_Phi"; "f_max_Phi2"; "f_max_Phi4"; "f_l1_Phi"; "f_Phi"] -> exists u, reads [] name (even_device true) (repeat 0 4) u /\ List.Forall (eq 0) (el u).
Proof.
  intros I. destruct (zero_units [] (even_device true) (even_device_sound true (repeat 0 4) eq_refl) name I) as (u & A & F). exists u. split; [now apply automatic_reads in A|exact F].
Qed.
Example C116_example : let q := even_device false in let q' := even_device true in
  let os := [("f_B", 1); ("f_K", 2)] in let cs := [("Phi", LE, 3); ("f_max_Phi4", LE, 5); ("Phi", GE, -3)] in
  let x := [1; 2; 3; 4; 5; 6; 7; 8; 9] in
  sound q x /\ ordered q /\ symmetric_problem q /\ made q' /\ symmetric_version q q' /\
  (forall name w, In (name, w) os -> 0 <= w /\ even_quantity [] q name) /\ even_constraints [] q cs /\
  (exists fx y fy, weighted [] q os x fx /\ length y = 4%nat /\ weighted [] q' os y fy /\ fy <= fx) /\
  feasible [] q' cs (repeat 0 4) /\ weighted [] q' [("f_max_Phi", 1)] (repeat 0 4) 0 /\ least [] q' [("f_max_Phi", 1)] cs (repeat 0 4) (fun _ => True).
Proof.
  cbv zeta. assert (S : sound (even_device false) [1; 2; 3; 4; 5; 6; 7; 8; 9]) by (now apply even_device_sound).
  assert (Ho : forall name w, In (name, w) [("f_B", 1); ("f_K", 2)] -> 0 <= w /\ even_quantity [] (even_device false) name).
  { intros name w [E|[E|[]]]; injection E as <- <-; (split; [lra|left; cbn; tauto]). }
  split; [exact S|]. split; [apply even_device_ordered|]. split; [apply even_device_symmetric|]. split; [apply even_device_made|]. split; [apply even_device_version|].
  split; [exact Ho|]. split; [|split; [|split; [|split]]].
  - intros name c b [E|[E|[E|[]]]]; injection E as <- <- <-.
    + right. split; [cbn; tauto|]. cbn. tauto.
    + left. split; [left; cbn; tauto|reflexivity].
    + right. split; [cbn; tauto|]. cbn [opposite]. replace (- -3) with 3 by ring. cbn. tauto.
  - destruct (reads_f_B [] _ _ S) as (r1 & _ & R1). destruct (reads_f_K [] _ _ S) as (r2 & _ & R2).
    assert (W : weighted [] (even_device false) [("f_B", 1); ("f_K", 2)] [1; 2; 3; 4; 5; 6; 7; 8; 9] (Rsum (map2 (fun o m => snd o * m) [("f_B", 1); ("f_K", 2)] [r1; r2]))).
    { exists [r1; r2]. split; [repeat constructor; assumption|reflexivity]. }
    destruct (C116_symmetric_design_no_worse [] (even_device false) (even_device true) _ [("f_B", 1); ("f_K", 2)] [] _ S (even_device_ordered _) (even_device_symmetric _) (even_device_made _) even_device_version Ho
      ltac:(intros ? ? ? []) ltac:(intros ? ? ? []) W) as (y & fy & Ly & _ & Wy & B).
    eexists. exists y, fy. split; [exact W|]. auto.
  - intros name c b [E|[E|[E|[]]]]; injection E as <- <- <-.
    + destruct (even_zero "Phi") as (u & R & F); [cbn; tauto|]. exists u. split; [exact R|]. intros y Hy. rewrite List.Forall_forall in F. rewrite <- (F y Hy). lra.
    + destruct (even_zero "f_max_Phi4") as (u & R & F); [cbn; tauto|]. exists u. split; [exact R|]. intros y Hy. rewrite List.Forall_forall in F. rewrite <- (F y Hy). lra.
    + destruct (even_zero "Phi") as (u & R & F); [cbn; tauto|]. exists u. split; [exact R|]. intros y Hy. rewrite List.Forall_forall in F. rewrite <- (F y Hy). lra.
  - destruct (largest_value [] (even_device true) (repeat 0 4) (even_device_sound true (repeat 0 4) eq_refl) "f_max_Phi" "Phi" Rabs ltac:(cbn; tauto)) as (m0 & v & R2 & _).
    destruct (even_zero "f_max_Phi") as (u & R & F); [cbn; tauto|]. rewrite (reads_fun _ _ _ _ _ _ R R2) in F. inversion F; subst.
    exists [0]. split; [repeat constructor; exact R2|]. unfold Rsum. cbn. ring.
  - intros y fx fy L _ _ (vx & Fx & ->) (vy & Fy & ->).
    inversion Fx as [|? m ? ? Rx Fx']; subst. inversion Fx'; subst. inversion Fy as [|? m' ? ? Ry Fy']; subst. inversion Fy'; subst. cbn [fst] in *.
    destruct (even_zero "f_max_Phi") as (u & A & F); [cbn; tauto|]. rewrite (reads_fun _ _ _ _ _ _ A Rx) in F. inversion F; subst.
    destruct (largest_value [] (even_device true) y (even_device_sound true y L) "f_max_Phi" "Phi" Rabs ltac:(cbn; tauto)) as (m0 & v & R2 & Rv & Mx).
    pose proof (reads_fun _ _ _ _ _ _ Ry R2) as E. injection E as ->. destruct Mx as [Mx _]. apply in_map_iff in Mx as (z & <- & _).
    unfold Rsum. cbn [map2 fold_right snd]. pose proof (Rabs_pos z). lra.
Qed.

(** Bounds on odd quantities must come in pairs: with one side only the
    symmetric version of a symmetric problem may have no design at all. *)
Theorem C116_one_sided_bounds :
  exists q q' x cs, sound q x /\ ordered q /\ symmetric_problem q /\ made q' /\ symmetric_version q q' /\
    (forall name c b, In (name, c, b) cs -> In name ["Phi"; "Bnormal"]) /\
    feasible [] q cs x /\ forall y, length y = q_ndofs q' -> ~ feasible [] q' cs y.
Proof.
  exists (even_device false), (even_device true), [0; 0; 0; 0; 1; 0; 0; 0; 0], [("Phi", GE, 1)].
  split; [now apply even_device_sound|]. split; [apply even_device_ordered|]. split; [apply even_device_symmetric|]. split; [apply even_device_made|]. split; [apply even_device_version|].
  split; [intros name c b [E|[]]; injection E as <- <- <-; cbn; tauto|]. split.
  - intros name c b [E|[]]. injection E as <- <- <-. eexists. split; [now apply reads_Phi, even_device_sound|].
    intros y Hy. rewrite el_of_grid, concat_sample in Hy. apply in_map_iff in Hy as (u & <- & _).
    replace (phi_of (even_device false) [0; 0; 0; 0; 1; 0; 0; 0; 0] (fst u) (snd u)) with 1; [lra|].
    unfold phi_of. change (qcols (even_device false)) with [((0, 1)%Z, 1%Z); ((1, -1)%Z, 1%Z); ((1, 0)%Z, 1%Z); ((1, 1)%Z, 1%Z); ((0, 0)%Z, (-1)%Z); ((0, 1)%Z, (-1)%Z); ((1, -1)%Z, (-1)%Z); ((1, 0)%Z, (-1)%Z); ((1, 1)%Z, (-1)%Z)].
    cbn [map]. rewrite !ldot_cons. unfold tr at 5. replace (targ (even_device false) (0%Z, 0%Z, (-1)%Z) (fst u) (snd u)) with 0 by (unfold targ, trig_arg; cbn; ring).
    unfold sin_or_cos. cbn [snd Z.mul Z.eqb Pos.eqb Pos.mul Z.opp]. rewrite cos_0. unfold ldot. cbn [map2 fold_right]. ring.
  - intros y Ly F. destruct (F "Phi" GE 1 ltac:(now left)) as (v & R & Hv).
    rewrite (reads_fun _ _ _ _ _ _ R (reads_Phi [] _ y (even_device_sound true y Ly))) in Hv. specialize (Hv (phi_of (even_device true) y 0 0)).
    assert (Z : phi_of (even_device true) y 0 0 = 0).
    { pose proof (phi_odd (even_device true) y 0 0 eq_refl) as H. rewrite Ropp_0 in H. lra. }
    rewrite Z in Hv. cbn in Hv. specialize (Hv (or_introl Z)). lra.
Qed.
Print Assumptions C116_one_sided_bounds.
