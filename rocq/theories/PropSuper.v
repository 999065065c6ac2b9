(** Property C131: best designs of least-squares problems superpose. *)
From Coq Require Import String List Bool Arith ZArith Reals Lra Lia.
From Verif Require Import Base ModelArray ModelMath SpecMath ModelSurface SpecSurface ModelParams ModelField SpecField ProofField3 WitnessField
  ModelQuantity ModelWrapper SpecWrapper ModelPackage SpecPackage SpecConvex ProofConvex PropConvex
  SpecBest ProofSquares ProofBest PropBest ProofSuper.
Import ListNotations.
Open Scope R_scope.
Open Scope string_scope.
Open Scope list_scope.

(** ** C131 *)
(** Three problems on one device with the same weights.  When the net currents
    and the plasma field of the third are the combination of those of the first
    two, the same combination of best designs is a best design. *)
Theorem C131_best_designs_superpose :
  forall other a b q1 q2 q os x1 x2, made q -> superposed a b q1 q2 q -> sound q1 x1 -> sound q2 x2 -> ordered q ->
  (forall name c, In (name, c) os -> 0 <= c /\ In name quadratic_figures) ->
  least other q1 os [] x1 (fun _ => True) -> least other q2 os [] x2 (fun _ => True) ->
  exists fx, best other q os [] (lincomb a b x1 x2) fx.
Proof.
  intros other a b q1 q2 q os x1 x2 M Su S1 S2 O H B1 B2. pose proof (superposed_sound a b q1 q2 q x1 x2 M Su S1 S2) as S.
  eexists. split; [apply S|]. split; [intros ? ? ? []|]. split; [apply (objective_reads other q _ os S H); apply S|].
  now apply (best_superposed other a b q1 q2 q).
Qed.
Print Assumptions C131_best_designs_superpose.
(** With a figure that sees every unknown it is the only one. *)
Theorem C131_only_one :
  forall other a b q1 q2 q os x1 x2 y fy, made q -> superposed a b q1 q2 q -> sound q1 x1 -> sound q2 x2 -> ordered q -> resolved q -> regular (q_eval q) ->
  (forall name c, In (name, c) os -> 0 <= c /\ In name quadratic_figures) -> regularised q os ->
  least other q1 os [] x1 (fun _ => True) -> least other q2 os [] x2 (fun _ => True) ->
  best other q os [] y fy -> y = lincomb a b x1 x2.
Proof.
  intros other a b q1 q2 q os x1 x2 y fy M Su S1 S2 O Rs Rg H Reg B1 B2 (Ly & Fy & Wy & By).
  destruct (C131_best_designs_superpose other a b q1 q2 q os x1 x2 M Su S1 S2 O H B1 B2) as (fx & Lx & Fx & Wx & Bx).
  pose proof (superposed_sound a b q1 q2 q x1 x2 M Su S1 S2) as S. symmetry.
  apply (C124_unique_partial other q os [] (lincomb a b x1 x2) y fx fy); auto.
  - intros name c I. destruct (H name c I) as (Pc & Q). split; [exact Pc|]. apply (C111_convex_quantities other q (lincomb a b x1 x2) S O). cbn in *. tauto.
  - intros ? ? ? [].
Qed.
Print Assumptions C131_only_one.
(** In particular, with [c] times the net currents and plasma field, [c] times
    the design is best, with [c ^ 2] times the objective. *)
Theorem C131_proportional :
  forall other c q q' os x fx, made q' -> SpecField.scaled c q q' -> sound q x -> ordered q ->
  (forall name c, In (name, c) os -> 0 <= c /\ In name quadratic_figures) ->
  best other q os [] x fx -> best other q' os [] (map (Rmult c) x) (c ^ 2 * fx).
Proof.
  intros other c q q' os x fx M' Sc S O H (Lx & Fx & Wx & Bx). pose proof Sc as (G & HG & HI & HB).
  assert (Su : superposed c 0 q q q').
  { split; [exact G|]. split; [exact G|]. rewrite HG, HI, HB. split; [ring|]. split; [ring|]. unfold glincomb, lincomb.
    clear. induction (q_Bnormal q) as [|r g IH]; [reflexivity|]. cbn [map map2]. f_equal; [|exact IH]. clear. induction r; [reflexivity|]. cbn [map map2]. f_equal; [ring|assumption]. }
  assert (Ex : lincomb c 0 x x = map (Rmult c) x).
  { unfold lincomb. clear. induction x as [|a x IH]; [reflexivity|]. cbn [map map2]. f_equal; [ring|exact IH]. }
  assert (O' : ordered q'). { destruct G as (E1 & _ & _ & E4 & E5 & _). unfold ordered in *. rewrite E1, E4, E5. exact O. }
  destruct (C131_best_designs_superpose other c 0 q q q' os x x M' Su S S O' H Bx Bx) as (f' & L' & F' & W' & B'). rewrite Ex in *.
  split; [exact L'|]. split; [exact F'|]. split; [|exact B'].
  replace (c ^ 2 * fx) with f'; [exact W'|]. pose proof (superposed_sound c 0 q q q' x x M' Su S S) as S'. rewrite Ex in S'.
  rewrite (weighted_fun other q' os _ _ _ W' (objective_reads other q' _ os S' H _ L')).
  rewrite (weighted_fun other q os _ _ _ Wx (objective_reads other q _ os S H _ Lx)).
  rewrite (entries_same q q' os G). unfold en, ip. rewrite <- (Rplus_0_r (c ^ 2 * _)).
  set (f := fun u => wt q u * (val q x u * val q x u)). rewrite <- (Rmult_0_l (Rsum (map f (entries q os)))), <- Rsum_lin. apply Rsum_ext. intros u _.
  unfold f. rewrite (wt_same q q' u G), <- Ex, (val_superposed c 0 q q q' x x u Su) by (try apply S; reflexivity). ring.
Qed.
Print Assumptions C131_proportional.

(** Net currents and plasma field separately, and together. *)
Definition coils_only (st : bool) : params := fine 2 1 [[0; 0]; [0; 0]] st.
Definition plasma_only (st : bool) : params := fine 0 0 [[0; 1]; [2; 3]] st.
Lemma fine_sound G I a b c d (st : bool) x : length x = (if st then 4 else 9)%nat -> sound (fine G I [[a; b]; [c; d]] st) x.
Proof.
  intros L. split; [apply fine_made|]. split; [destruct st; reflexivity|]. split; [destruct st; reflexivity|]. split; [|destruct st; exact L].
  destruct st; (split; [reflexivity|repeat constructor]).
Qed.
Lemma fine_ordered G I Bn st : ordered (fine G I Bn st).
Proof. pose proof (lit_ordered st) as O. destruct st; exact O. Qed.
Example C131_example : exists x1 x2,
  made (lit true) /\ superposed 1 1 (coils_only true) (plasma_only true) (lit true) /\ sound (coils_only true) x1 /\ sound (plasma_only true) x2 /\
  ordered (lit true) /\ resolved (lit true) /\ regular (q_eval (lit true)) /\
  (forall name c, In (name, c) regcoil -> 0 <= c /\ In name quadratic_figures) /\ regularised (lit true) regcoil /\
  least [] (coils_only true) regcoil [] x1 (fun _ => True) /\ least [] (plasma_only true) regcoil [] x2 (fun _ => True) /\
  made (dark true) /\ SpecField.scaled 0 (lit true) (dark true).
Proof.
  destruct (C123_best_design_exists [] (coils_only true) [0; 0; 0; 0] regcoil (fine_sound _ _ _ _ _ _ true [0; 0; 0; 0] eq_refl) (fine_ordered _ _ _ _) regcoil_quadratic) as (x1 & f1 & L1 & _ & B1).
  destruct (C123_best_design_exists [] (plasma_only true) [0; 0; 0; 0] regcoil (fine_sound _ _ _ _ _ _ true [0; 0; 0; 0] eq_refl) (fine_ordered _ _ _ _) regcoil_quadratic) as (x2 & f2 & L2 & _ & B2).
  exists x1, x2. split; [apply fine_made|]. split.
  { split; [repeat split; reflexivity|]. split; [repeat split; reflexivity|]. split; [cbn; ring|]. split; [cbn; ring|]. cbn. repeat (f_equal; try ring). }
  split; [apply (fine_sound _ _ _ _ _ _ true), L1|]. split; [apply (fine_sound _ _ _ _ _ _ true), L2|]. split; [apply lit_ordered|]. split; [apply lit_resolved|]. split; [apply lit_regular|].
  split; [exact regcoil_quadratic|]. split; [exists 2; split; [lra|]; right; split; [cbn; tauto|reflexivity]|].
  split; [exact B1|]. split; [exact B2|]. apply dark_quiet.
Qed.
