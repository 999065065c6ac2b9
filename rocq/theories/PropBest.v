(** Properties C123 and C124: best designs exist, and when they are unique. *)
From Coq Require Import String List Bool Arith ZArith Reals Lra Lia.
From Verif Require Import Base ModelArray ModelMath SpecMath ModelSurface SpecSurface ProofSurface2
  ModelParams ModelField SpecField ProofField ProofField3 WitnessField
  ModelQuantity ModelWrapper SpecWrapper ModelPackage SpecPackage ProofPackage4 PropPackage SpecConvex ProofConvex PropConvex
  SpecBest ProofSquares ProofBest ProofUnique ProofUnique2 ProofUnique3.
Import ListNotations.
Open Scope R_scope.
Open Scope string_scope.
Open Scope list_scope.

(** ** C123 *)
Theorem C123_best_design_exists :
  forall other q x0 os, sound q x0 -> ordered q ->
  (forall name c, In (name, c) os -> 0 <= c /\ In name quadratic_figures) ->
  exists x fx, length x = q_ndofs q /\ weighted other q os x fx /\ least other q os [] x (fun _ => True).
Proof.
  intros other q x0 os S O H. destruct (best_exists other q x0 os S O H) as (x & L & B). exists x. eexists. split; [exact L|].
  split; [exact (objective_reads other q x0 os S H x L)|exact B].
Qed.
Print Assumptions C123_best_design_exists.
(** What a design loses against the best one is the objective of the difference
    in the device without net currents and plasma field. *)
Theorem C123_excess :
  forall other q q0 os x y fx fy, sound q x -> ordered q ->
  (forall name c, In (name, c) os -> 0 <= c /\ In name quadratic_figures) ->
  made q0 -> SpecField.scaled 0 q q0 -> length y = q_ndofs q -> least other q os [] x (fun _ => True) ->
  weighted other q os x fx -> weighted other q os y fy ->
  exists e, weighted other q0 os (lincomb 1 (-1) y x) e /\ 0 <= e /\ fy = fx + e.
Proof.
  intros other q q0 os x y fx fy S O H M0 Sc Ly B Wx Wy. apply (best_excess other q x os S O H q0 x y fx fy); auto. apply S.
Qed.
Print Assumptions C123_excess.
(** With further convex terms and convex constraints it loses at least the
    quadratic part of that. *)
Theorem C123_growth :
  forall other q q0 os cs x y fx fy, sound q x -> convex_objective other q os -> convex_constraints other q cs ->
  made q0 -> SpecField.scaled 0 q q0 -> length y = q_ndofs q ->
  feasible other q cs x -> feasible other q cs y -> least other q os cs x (fun _ => True) ->
  weighted other q os x fx -> weighted other q os y fy ->
  exists e, weighted other q0 (quadratic_part os) (lincomb 1 (-1) y x) e /\ fx + e <= fy.
Proof.
  intros other q q0 os cs x y fx fy S Ho Hc M0 Sc Ly Fx Fy B Wx Wy. exists (gap q os x y). split.
  - apply (gap_reads other q x os S q0 x y M0 Sc); [apply S|exact Ly].
  - apply (growth other q x os cs S Ho Hc x y fx fy); auto. apply S.
Qed.
Print Assumptions C123_growth.

(** A device whose evaluation points resolve its harmonics. *)
Definition fine_at (G I : R) (Bn : grid R) (st : bool) : result params :=
  make_params (plasma_at 1) (coil_at 1) G I (Some Bn) 1 1 (Some (arr1 (equispaced 0 (/ (INR 2 * INR 3)) 3))) (Some (arr1 (equispaced 0 (/ INR 3) 3))) (Some st).
Definition fine (G I : R) (Bn : grid R) (st : bool) : params := match fine_at G I Bn st with Ok q => q | Raise _ => shown end.
Lemma fine_ok G I Bn st : fine_at G I Bn st = Ok (fine G I Bn st).
Proof. destruct st; reflexivity. Qed.
Lemma fine_made G I Bn st : made (fine G I Bn st).
Proof.
  assert (E : q_plasma (fine G I Bn st) = plasma_at 1 /\ q_winding (fine G I Bn st) = coil_at 1) by (destruct st; split; reflexivity). destruct E as (E1 & E2).
  split; [rewrite E1; apply ring_built|]. split; [rewrite E2; apply ring_built|]. do 10 eexists. exact (fine_ok G I Bn st).
Qed.
Definition lit (st : bool) : params := fine 2 1 [[0; 1]; [2; 3]] st.
Definition dark (st : bool) : params := fine 0 0 [[0; 0]; [0; 0]] st.
Lemma lit_sound (st : bool) x : length x = (if st then 4 else 9)%nat -> sound (lit st) x.
Proof.
  intros L. split; [apply fine_made|]. split; [destruct st; reflexivity|]. split; [destruct st; reflexivity|]. split; [|destruct st; exact L].
  destruct st; (split; [reflexivity|repeat constructor]).
Qed.
Lemma lit_ordered (st : bool) : ordered (lit st).
Proof.
  destruct (device_increasing 1 2 1 [[0; 1]; [2; 3]] st) as (_ & _ & I3 & I4).
  assert (Eq : forall h n, 0 < h -> increasing (equispaced 0 h n)).
  { intros h n Ph i j (Hij & Hj). unfold equispaced in *. rewrite map_length, seq_length in Hj. rewrite !(nth_indep _ 0 (0 + INR 0 * h)) by (rewrite map_length, seq_length; lia).
    rewrite !(map_nth (fun i => 0 + INR i * h)), !seq_nth by lia. apply le_INR in Hij. cbn [Nat.add]. apply Rplus_le_compat_l, Rmult_le_compat_r; lra. }
  assert (P2 : 0 < / (INR 2 * INR 3)) by (apply Rinv_0_lt_compat; cbn; lra). assert (P3 : 0 < / INR 3) by (apply Rinv_0_lt_compat; cbn; lra).
  split; [|split; [|split]].
  - destruct st; exact (Eq _ 3%nat P2).
  - destruct st; exact (Eq _ 3%nat P3).
  - destruct st; exact I3.
  - destruct st; exact I4.
Qed.
Lemma lit_resolved st : resolved (lit st).
Proof. exists 0, 0, 3%nat, 3%nat. destruct st; repeat (split; [reflexivity|]); cbn; lia. Qed.
Lemma lit_regular st : regular (q_eval (lit st)).
Proof.
  destruct (made_facts _ (fine_made 2 1 [[0; 1]; [2; 3]] st)) as (_ & _ & _ & _ & Ce & _). fold (lit st) in Ce.
  assert (E : q_winding (lit st) = coil_at 1) by (destruct st; reflexivity). rewrite E in Ce. eapply (ring_regular (1 * 3) (1 * 1)); [lra|exact Ce].
Qed.
Lemma dark_quiet st : made (dark st) /\ SpecField.scaled 0 (lit st) (dark st).
Proof.
  split; [apply fine_made|]. split; [destruct st; repeat split; reflexivity|]. assert (E : forall r, 0 = 0 * r) by (intros; ring).
  split; [destruct st; apply E|]. split; [destruct st; apply E|]. destruct st; cbn; repeat (f_equal; try ring).
Qed.
Definition regcoil : list (string * R) := [("f_B", 1); ("f_K", 2)].
Lemma regcoil_quadratic : forall name c, In (name, c) regcoil -> 0 <= c /\ In name quadratic_figures.
Proof. intros name c [E|[E|[]]]; injection E as <- <-; (split; [lra|cbn; tauto]). Qed.
Lemma regcoil_convex st os : (forall name c, In (name, c) os -> 0 <= c /\ In name quadratic_figures) -> convex_objective [] (lit st) os.
Proof.
  intros H name w I. destruct (H name w I) as (Pw & Q). split; [exact Pw|]. apply (C111_convex_quantities [] (lit st) (repeat 0 (if st then 4 else 9))).
  - apply lit_sound. apply repeat_length. - apply lit_ordered. - cbn in *. tauto.
Qed.
Lemma regcoil_best st : exists x fx, length x = q_ndofs (lit st) /\ weighted [] (lit st) regcoil x fx /\ least [] (lit st) regcoil [] x (fun _ => True).
Proof. apply (C123_best_design_exists [] (lit st) (repeat 0 (if st then 4 else 9)) regcoil); [apply lit_sound, repeat_length|apply lit_ordered|exact regcoil_quadratic]. Qed.
Example C123_example : let q := lit true in
  sound q [1; 2; 3; 4] /\ ordered q /\ (forall name c, In (name, c) regcoil -> 0 <= c /\ In name quadratic_figures) /\
  made (dark true) /\ SpecField.scaled 0 q (dark true) /\ convex_objective [] q regcoil /\ convex_constraints [] q [("f_max_K2", LE, 7)] /\
  quadratic_part (("f_max_K2", 5) :: regcoil) = regcoil /\
  exists fy, weighted [] q regcoil [1; 2; 3; 4] fy.
Proof.
  cbv zeta. pose proof (lit_sound true [1; 2; 3; 4] eq_refl) as S. split; [exact S|]. split; [apply lit_ordered|]. split; [exact regcoil_quadratic|].
  split; [apply dark_quiet|]. split; [apply dark_quiet|]. split; [apply regcoil_convex, regcoil_quadratic|]. split; [|split; [reflexivity|]].
  - intros name c b [E|[]]. injection E as <- <- <-. apply (C111_convex_quantities [] _ _ S (lit_ordered true)). cbn. tauto.
  - eexists. exact (objective_reads [] _ _ regcoil S regcoil_quadratic [1; 2; 3; 4] eq_refl).
Qed.

(** ** C124 *)
Theorem C124_unique_partial :
  forall other q os cs x y fx fy, sound q x -> ordered q -> resolved q -> regular (q_eval q) ->
  convex_objective other q os -> convex_constraints other q cs ->
  (exists c, 0 < c /\ (In ("f_Phi", c) os \/ In ("f_K", c) os /\ q_stellsym q = true)) ->
  length y = q_ndofs q -> feasible other q cs x -> feasible other q cs y -> weighted other q os x fx -> weighted other q os y fy ->
  least other q os cs x (fun _ => True) -> least other q os cs y (fun _ => True) -> x = y.
Proof.
  intros other q os cs x y fx fy S O Rs Rg Ho Hc (c & Pc & [I|[I St]]) Ly Fx Fy Wx Wy Bx By.
  - apply (unique_Phi other q os cs x y fx fy "f_Phi" c); auto. cbn. tauto.
  - apply (unique_K_symmetric other q os cs x y fx fy "f_K" c); auto. cbn. tauto.
Qed.
Print Assumptions C124_unique_partial.
(** Without the symmetry, the current density fixes the design up to a constant
    potential. *)
Theorem C124_unique_up_to_constant :
  forall other q os cs x y fx fy c, sound q x -> ordered q -> resolved q -> regular (q_eval q) ->
  convex_objective other q os -> convex_constraints other q cs -> 0 < c -> In ("f_K", c) os ->
  length y = q_ndofs q -> feasible other q cs x -> feasible other q cs y -> weighted other q os x fx -> weighted other q os y fy ->
  least other q os cs x (fun _ => True) -> least other q os cs y (fun _ => True) ->
  exists a, forall F, qreports (fun q => Phi q x) q F -> qreports (fun q => Phi q y) q (fun p t => F p t + a).
Proof.
  intros other q os cs x y fx fy c S O Rs Rg Ho Hc Pc I Ly Fx Fy Wx Wy Bx By. destruct (q_stellsym q) eqn:St.
  - exists 0. rewrite <- (unique_K_symmetric other q os cs x y fx fy "f_K" c) by (auto; cbn; tauto). intros F Q ps ts Hp Ht. destruct (Q ps ts Hp Ht) as (q' & E & V).
    exists q'. split; [exact E|]. rewrite V. f_equal. unfold sample. apply map_ext. intros p. apply map_ext. intros t. ring.
  - destruct (unique_K_constant other q os cs x y fx fy "f_K" c) as (a & ->); auto; [cbn; tauto|]. exists a. intros F. now apply raised_potential.
Qed.
Print Assumptions C124_unique_up_to_constant.
(** That constant is one of the unknowns then, and nothing that depends on the
    current or the field sees it. *)
Theorem C124_constant_is_free :
  forall other q x a, sound q x -> q_stellsym q = false -> exists y, length y = q_ndofs q /\
  (forall F, qreports (fun q => Phi q x) q F -> qreports (fun q => Phi q y) q (fun p t => F p t + a)) /\
  forall name, In name ["K"; "K2"; "Bnormal"; "Bnormal2"; "f_B"; "f_K"; "f_max_K2"; "f_max_Bnormal"; "f_max_Bnormal2"; "f_huber_K"] ->
    exists v, reads other name q x v /\ reads other name q y v.
Proof.
  intros other q x a S St. exists (lincomb 1 1 x (constant q a)). split; [apply raised_length; [apply S|exact St|apply S]|]. split; [intros; now apply raised_potential|].
  intros name I. now apply (raised_reads other q x a S St).
Qed.
Print Assumptions C124_constant_is_free.
Theorem C124_unique_refuted :
  exists q os x y fx, sound q x /\ ordered q /\ resolved q /\ regular (q_eval q) /\
  (forall name c, In (name, c) os -> 0 < c /\ In name quadratic_figures) /\ In "f_K" (map fst os) /\ q_stellsym q = false /\
  length y = q_ndofs q /\ weighted [] q os x fx /\ weighted [] q os y fx /\
  least [] q os [] x (fun _ => True) /\ least [] q os [] y (fun _ => True) /\ x <> y.
Proof.
  destruct (regcoil_best false) as (x & fx & L & W & B). assert (S : sound (lit false) x) by (apply lit_sound; exact L).
  exists (lit false), regcoil, x, (lincomb 1 1 x (constant (lit false) 1)), fx. split; [exact S|]. split; [apply lit_ordered|]. split; [apply lit_resolved|]. split; [apply lit_regular|].
  split; [intros name c [E|[E|[]]]; injection E as <- <-; (split; [lra|cbn; tauto])|]. split; [cbn; tauto|]. split; [reflexivity|].
  assert (L' : length (lincomb 1 1 x (constant (lit false) 1)) = q_ndofs (lit false)) by (apply raised_length; [apply S|reflexivity|exact L]).
  assert (W' : weighted [] (lit false) regcoil (lincomb 1 1 x (constant (lit false) 1)) fx).
  { destruct W as (v & F & E). exists v. split; [|exact E]. clear E. unfold regcoil in *. inversion F as [|? m1 ? v1 F1 F2]; subst. inversion F2 as [|? m2 ? v2 F3 F4]; subst. inversion F4; subst. cbn [fst] in *.
    destruct (raised_reads [] (lit false) x 1 S eq_refl "f_B" ltac:(cbn; tauto)) as (u1 & R1 & R1'). destruct (raised_reads [] (lit false) x 1 S eq_refl "f_K" ltac:(cbn; tauto)) as (u2 & R2 & R2').
    constructor; [|constructor; [|constructor]]; cbn [fst].
    - rewrite (reads_fun _ _ _ _ _ _ F1 R1). exact R1'.
    - rewrite (reads_fun _ _ _ _ _ _ F3 R2). exact R2'. }
  split; [exact L'|]. split; [exact W|]. split; [exact W'|]. split; [exact B|]. split.
  - intros z f f' Lz _ Fz Wy Wz. rewrite (weighted_fun [] (lit false) regcoil _ _ _ Wy W'). apply (B z fx f'); auto.
  - intros E. assert (X : nth 4 x 0 = nth 4 (lincomb 1 1 x (constant (lit false) 1)) 0) by (now rewrite <- E). rewrite lincomb_nth in X by (rewrite constant_length; [exact L|apply S|reflexivity]).
    change (nth 4 (constant (lit false) 1) 0) with 1 in X. lra.
Qed.
Print Assumptions C124_unique_refuted.
Example C124_example : 
  (exists x fx, sound (lit true) x /\ weighted [] (lit true) regcoil x fx /\ least [] (lit true) regcoil [] x (fun _ => True) /\ feasible [] (lit true) [] x) /\
  ordered (lit true) /\ resolved (lit true) /\ regular (q_eval (lit true)) /\ convex_objective [] (lit true) regcoil /\
  (exists c, 0 < c /\ (In ("f_Phi", c) regcoil \/ In ("f_K", c) regcoil /\ q_stellsym (lit true) = true)) /\
  sound (lit false) (repeat 0 9) /\ q_stellsym (lit false) = false.
Proof.
  destruct (regcoil_best true) as (x & fx & L & W & B). split; [exists x, fx; split; [apply lit_sound; exact L|split; [exact W|split; [exact B|intros ? ? ? []]]]|].
  split; [apply lit_ordered|]. split; [apply lit_resolved|]. split; [apply lit_regular|]. split; [apply regcoil_convex, regcoil_quadratic|].
  split; [exists 2; split; [lra|right; split; [cbn; tauto|reflexivity]]|]. split; [now apply lit_sound|reflexivity].
Qed.
