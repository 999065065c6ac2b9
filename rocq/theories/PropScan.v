(** Property C151: what a scan of a weight or of a bound traces. *)
From Coq Require Import String List Bool Arith ZArith Reals Lra Lia.
From Verif Require Import Base ModelArray ModelMath SpecMath ModelSurface SpecSurface ModelParams ModelField SpecField ProofField3 ModelQuantity ModelWrapper SpecWrapper ModelPackage SpecPackage ProofPackage4 SpecConvex ProofConvex PropConvex
  SpecBest ProofBest ProofUnique2 PropBest ProofAttained2 ProofTrade PropAttained SpecScan.
Import ListNotations.
Open Scope R_scope.
Open Scope string_scope.
Open Scope list_scope.

(** ** C151 *)
(** [x] is best for the weight [w] of the quantity [n], [x'] for a larger
    weight [w']; [v] is the value of the quantity and [r] the rest of the
    objective.  What the rest loses per unit gained on the quantity lies
    between the two weights. *)
Theorem C151_slope_between_weights :
  forall other q o1 n o2 w w' cs x x' f f' v v' r r',
  best other q (o1 ++ (n, w) :: o2) cs x f -> best other q (o1 ++ (n, w') :: o2) cs x' f' ->
  reads other n q x (scal v) -> reads other n q x' (scal v') -> weighted other q (o1 ++ o2) x r -> weighted other q (o1 ++ o2) x' r' ->
  w * (v - v') <= r' - r <= w' * (v - v').
Proof.
  intros other q o1 n o2 w w' cs x x' f f' v v' r r' (Lx & Fx & Wx & Bx) (Lx' & Fx' & Wx' & Bx') Rv Rv' Wr Wr'.
  assert (A : forall c y ry vy, weighted other q (o1 ++ o2) y ry -> reads other n q y (scal vy) -> weighted other q (o1 ++ (n, c) :: o2) y (ry + c * vy)) by (intros; apply weighted_split; eauto).
  pose proof (Bx x' _ _ Lx' I Fx' (A w x r v Wr Rv) (A w x' r' v' Wr' Rv')) as H1. pose proof (Bx' x _ _ Lx I Fx (A w' x' r' v' Wr' Rv') (A w' x r v Wr Rv)) as H2. lra.
Qed.
Print Assumptions C151_slope_between_weights.

(** With a positive weight no admissible design is as good on one side of the
    trade and better on the other. *)
Theorem C151_no_better_on_both :
  forall other q o1 n o2 w cs x f v r y u s, 0 < w -> best other q (o1 ++ (n, w) :: o2) cs x f ->
  reads other n q x (scal v) -> weighted other q (o1 ++ o2) x r ->
  length y = q_ndofs q -> feasible other q cs y -> reads other n q y (scal u) -> weighted other q (o1 ++ o2) y s ->
  u <= v -> s <= r -> u = v /\ s = r.
Proof.
  intros other q o1 n o2 w cs x f v r y u s Pw (Lx & Fx & Wx & Bx) Rv Wr Ly Fy Ru Ws Hu Hs.
  assert (A : forall c y ry vy, weighted other q (o1 ++ o2) y ry -> reads other n q y (scal vy) -> weighted other q (o1 ++ (n, c) :: o2) y (ry + c * vy)) by (intros; apply weighted_split; eauto).
  pose proof (Bx y _ _ Ly I Fy (A w x r v Wr Rv) (A w y s u Ws Ru)) as H. assert (w * u <= w * v) by (apply Rmult_le_compat_l; lra).
  assert (w * u = w * v) by lra. split; [apply Rmult_eq_reg_l with w; lra|lra].
Qed.
Print Assumptions C151_no_better_on_both.

(** The two ends of the scan.  For any admissible design [y], a small weight
    brings the rest of the objective to within [w * (u - v)] of what [y] has,
    and a large weight brings the quantity to within [(s - r) / w] of what [y]
    has. *)
Theorem C151_ends_of_the_scan :
  forall other q o1 n o2 w cs x f v r y u s, 0 < w -> best other q (o1 ++ (n, w) :: o2) cs x f ->
  reads other n q x (scal v) -> weighted other q (o1 ++ o2) x r ->
  length y = q_ndofs q -> feasible other q cs y -> reads other n q y (scal u) -> weighted other q (o1 ++ o2) y s ->
  r <= s + w * (u - v) /\ v <= u + (s - r) / w.
Proof.
  intros other q o1 n o2 w cs x f v r y u s Pw (Lx & Fx & Wx & Bx) Rv Wr Ly Fy Ru Ws.
  assert (A : forall c y ry vy, weighted other q (o1 ++ o2) y ry -> reads other n q y (scal vy) -> weighted other q (o1 ++ (n, c) :: o2) y (ry + c * vy)) by (intros; apply weighted_split; eauto).
  pose proof (Bx y _ _ Ly I Fy (A w x r v Wr Rv) (A w y s u Ws Ru)) as H. split; [lra|].
  apply Rmult_le_reg_l with w; [exact Pw|]. replace (w * (u + (s - r) / w)) with (w * u + (s - r)) by (field; lra). lra.
Qed.
Print Assumptions C151_ends_of_the_scan.

(** The best objective is a concave function of all the weights. *)
Theorem C151_concave_in_the_weights :
  forall other q ns ws ws' cs t x f x' f' y g, 0 <= t <= 1 -> length ws = length ns -> length ws' = length ns ->
  best other q (with_weights ns ws) cs x f -> best other q (with_weights ns ws') cs x' f' ->
  best other q (with_weights ns (lincomb t (1 - t) ws ws')) cs y g ->
  t * f + (1 - t) * f' <= g.
Proof.
  intros other q ns ws ws' cs t x f x' f' y g Ht Lw Lw' (_ & _ & Wx & Bx) (_ & _ & Wx' & Bx') (Ly & Fy & Wy & _).
  assert (X : exists g1 g2, weighted other q (with_weights ns ws) y g1 /\ weighted other q (with_weights ns ws') y g2 /\ g = t * g1 + (1 - t) * g2).
  { clear - Wy Lw Lw'. destruct Wy as (vs & Fv & ->). revert ws ws' vs Lw Lw' Fv. induction ns as [|n ns IH]; intros [|w ws] [|w' ws'] vs Lw Lw' Fv; try discriminate.
    - inversion Fv; subst. exists 0, 0. split; [exists []; split; [constructor|reflexivity]|]. split; [exists []; split; [constructor|reflexivity]|]. cbn. ring.
    - unfold with_weights, lincomb in Fv. cbn [map2] in Fv. inversion Fv as [|? m ? vs' Rm Fv']; subst. injection Lw as Lw. injection Lw' as Lw'.
      destruct (IH ws ws' vs' Lw Lw' Fv') as (g1 & g2 & (u1 & F1 & E1) & (u2 & F2 & E2) & E). exists (w * m + g1), (w' * m + g2). split; [|split].
      + exists (m :: u1). split; [constructor; [exact Rm|exact F1]|]. subst g1. reflexivity.
      + exists (m :: u2). split; [constructor; [exact Rm|exact F2]|]. subst g2. reflexivity.
      + unfold with_weights, lincomb in *. cbn [map2]. unfold Rsum in *. cbn [fold_right snd]. rewrite E. ring. }
  destruct X as (g1 & g2 & W1 & W2 & ->). pose proof (Bx y f g1 Ly I Fy Wx W1) as H1. pose proof (Bx' y f' g2 Ly I Fy Wx' W2) as H2.
  assert (t * f <= t * g1) by (apply Rmult_le_compat_l; lra). assert ((1 - t) * f' <= (1 - t) * g2) by (apply Rmult_le_compat_l; lra). lra.
Qed.
Print Assumptions C151_concave_in_the_weights.

(** Between two designs of a convex problem lies one that meets the bounds
    halfway and costs no more than halfway: the best objective is a convex
    function of all the bounds. *)
Lemma between_bounds other q ks bs bs' t x x' : length bs = length ks -> length bs' = length ks -> 0 <= t <= 1 ->
  (forall n c, In (n, c) ks -> match c with LE => convex_quantity other n q | _ => affine_quantity other n q end) ->
  length x = q_ndofs q -> length x' = q_ndofs q -> feasible other q (with_bounds ks bs) x -> feasible other q (with_bounds ks bs') x' ->
  feasible other q (with_bounds ks (lincomb t (1 - t) bs bs')) (lincomb t (1 - t) x x').
Proof.
  intros Lb Lb' Ht Hc Lx Lx' Fx Fx' n c b Hi.
  assert (X : exists b1 b2, In (n, c, b1) (with_bounds ks bs) /\ In (n, c, b2) (with_bounds ks bs') /\ In (n, c) ks /\ b = t * b1 + (1 - t) * b2).
  { clear - Lb Lb' Hi. revert bs bs' Lb Lb' Hi. induction ks as [|[m d] ks IH]; intros [|b1 bs] [|b2 bs'] Lb Lb' Hi; try discriminate; [destruct Hi|].
    unfold with_bounds, lincomb in Hi. cbn [map2 fst snd] in Hi. destruct Hi as [E|Hi].
    - injection E as <- <- <-. exists b1, b2. split; [now left|]. split; [now left|]. split; [now left|reflexivity].
    - injection Lb as Lb. injection Lb' as Lb'. destruct (IH bs bs' Lb Lb' Hi) as (c1 & c2 & I1 & I2 & I3 & E). exists c1, c2. repeat split; try (right; assumption). exact E. }
  destruct X as (b1 & b2 & I1 & I2 & Ik & ->). destruct (Fx n c b1 I1) as (vx & Rx & Mx). destruct (Fx' n c b2 I2) as (vy & Ry & My). specialize (Hc n c Ik).
  assert (G : forall rel, on_chord rel other n q -> exists vz, reads other n q (lincomb t (1 - t) x x') vz /\ forall z, In z (el vz) -> exists u v, In u (el vx) /\ In v (el vy) /\ rel z (t * u + (1 - t) * v)).
  { intros rel Hr. destruct (Hr x x' t Lx Lx' Ht) as (ux & uy & uz & Qx & Qy & Qz & _ & _ & L1 & L2 & F).
    assert (Ex := reads_fun _ _ _ _ _ _ Qx Rx). assert (Ey := reads_fun _ _ _ _ _ _ Qy Ry). subst ux uy. exists uz. split; [exact Qz|].
    clear -L1 L2 F. revert L1 L2 F. generalize (el vx) (el vy) (el uz). intros lx ly lz. revert lx ly. induction lz as [|z lz IH]; intros [|u lx] [|v ly] L1 L2 F k Hk; try discriminate; [contradiction|].
    unfold lincomb in F. cbn [map2] in F. inversion F; subst. destruct Hk as [<-|Hk].
    - exists u, v. split; [now left|]. split; [now left|assumption].
    - destruct (IH lx ly) with (z := k) as (u' & v' & A & B & C); auto. exists u', v'. split; [now right|]. split; [now right|exact C]. }
  destruct c.
  - destruct (G Rle Hc) as (vz & Rz & H). exists vz. split; [exact Rz|]. intros z Hz. destruct (H z Hz) as (u & v & Iu & Iv & E). specialize (Mx u Iu). specialize (My v Iv). cbn in Mx, My |- *.
    assert (t * u <= t * b1) by (apply Rmult_le_compat_l; lra). assert ((1 - t) * v <= (1 - t) * b2) by (apply Rmult_le_compat_l; lra). lra.
  - destruct (G eq Hc) as (vz & Rz & H). exists vz. split; [exact Rz|]. intros z Hz. destruct (H z Hz) as (u & v & Iu & Iv & ->). specialize (Mx u Iu). specialize (My v Iv). cbn in Mx, My |- *.
    assert (t * b1 <= t * u) by (apply Rmult_le_compat_l; lra). assert ((1 - t) * b2 <= (1 - t) * v) by (apply Rmult_le_compat_l; lra). lra.
  - destruct (G eq Hc) as (vz & Rz & H). exists vz. split; [exact Rz|]. intros z Hz. destruct (H z Hz) as (u & v & Iu & Iv & ->). specialize (Mx u Iu). specialize (My v Iv). cbn in Mx, My |- *. subst. ring.
Qed.
Theorem C151_convex_in_the_bounds :
  forall other q os ks bs bs' t x f x' f' y g, 0 <= t <= 1 -> length bs = length ks -> length bs' = length ks ->
  convex_objective other q os -> convex_constraints other q (with_bounds ks bs) ->
  best other q os (with_bounds ks bs) x f -> best other q os (with_bounds ks bs') x' f' ->
  best other q os (with_bounds ks (lincomb t (1 - t) bs bs')) y g ->
  g <= t * f + (1 - t) * f'.
Proof.
  intros other q os ks bs bs' t x f x' f' y g Ht Lb Lb' Ho Hc (Lx & Fx & Wx & _) (Lx' & Fx' & Wx' & _) (Ly & Fy & Wy & By).
  assert (Hk : forall n c, In (n, c) ks -> match c with LE => convex_quantity other n q | _ => affine_quantity other n q end).
  { intros n c I0. assert (X : exists b, In (n, c, b) (with_bounds ks bs)).
    { clear - Lb I0. revert bs Lb. induction ks as [|[m d] ks IH]; intros [|b bs] Lb; try discriminate; [destruct I0|]. destruct I0 as [E|I0].
      - injection E as <- <-. exists b. now left.
      - injection Lb as Lb. destruct (IH I0 bs Lb) as (b' & I1). exists b'. now right. }
    destruct X as (b & I1). exact (Hc n c b I1). }
  destruct (weighted_convex other q os Ho x x' t f f' Lx Lx' Ht Wx Wx') as (fz & Wz & B).
  assert (Lz : length (lincomb t (1 - t) x x') = q_ndofs q) by (rewrite length_lincomb; congruence).
  pose proof (By _ g fz Lz I (between_bounds other q ks bs bs' t x x' Lb Lb' Ht Hk Lx Lx' Fx Fx') Wy Wz). lra.
Qed.
Print Assumptions C151_convex_in_the_bounds.

(** Non-trivial cases: regularised designs of a device for three weights of
    f_K, and for three bounds on the largest current density, each of which
    the design [1; 2; 3; 4] satisfies. *)
Example C151_example : let q := lit true in
  (exists x f x' f' y g v v', best [] q (with_weights ["f_B"; "f_K"] [1; 2]) [] x f /\ best [] q (with_weights ["f_B"; "f_K"] [1; 4]) [] x' f' /\
     best [] q (with_weights ["f_B"; "f_K"] (lincomb (/ 2) (1 - / 2) [1; 2] [1; 4])) [] y g /\
     reads [] "f_K" q x (scal v) /\ reads [] "f_K" q x' (scal v') /\ feasible [] q [] [1; 2; 3; 4]) /\
  (exists b x f x' f' y g, convex_objective [] q regcoil /\ convex_constraints [] q (with_bounds [("f_max_K2", LE)] [b]) /\
     best [] q regcoil (with_bounds [("f_max_K2", LE)] [b]) x f /\ best [] q regcoil (with_bounds [("f_max_K2", LE)] [b + 1]) x' f' /\
     best [] q regcoil (with_bounds [("f_max_K2", LE)] (lincomb (/ 2) (1 - / 2) [b] [b + 1])) y g).
Proof.
  cbv zeta. pose proof (lit_sound true [1; 2; 3; 4] eq_refl) as Sd. pose proof (sound_all _ _ Sd) as Sa. assert (Cv := C111_convex_quantities [] _ _ Sd (lit_ordered true) "f_max_K2" ltac:(cbn; tauto)).
  split.
  - assert (Bs : forall o w, 0 <= o -> 0 <= w -> exists x f v, best [] (lit true) [("f_B", o); ("f_K", w)] [] x f /\ reads [] "f_K" (lit true) x (scal v)).
    { intros o w Po Pw. destruct (C123_best_design_exists [] (lit true) [1; 2; 3; 4] [("f_B", o); ("f_K", w)] Sd (lit_ordered true)) as (x & f & Lx & Wx & Bx).
      - intros name c [E|[E|[]]]; injection E as <- <-; (split; [assumption|cbn; tauto]).
      - exists x, f. eexists. split; [split; [exact Lx|]; split; [intros ? ? ? []|]; split; assumption|]. apply (figure [] "f_K" (lit true) x (Sa x Lx)). cbn. tauto. }
    destruct (Bs 1 2 ltac:(lra) ltac:(lra)) as (x & f & v & B & Rv). destruct (Bs 1 4 ltac:(lra) ltac:(lra)) as (x' & f' & v' & B' & Rv').
    destruct (Bs (/ 2 * 1 + (1 - / 2) * 1) (/ 2 * 2 + (1 - / 2) * 4) ltac:(lra) ltac:(lra)) as (y & g & u & By & _).
    exists x, f, x', f', y, g, v, v'. repeat (split; [assumption|]). intros ? ? ? [].
  - destruct (largest_value [] (lit true) [1; 2; 3; 4] Sd "f_max_K2" "K2" (fun v => v) ltac:(cbn; tauto)) as (b & v & Rb & _).
    assert (Ho := regcoil_convex true regcoil regcoil_quadratic). assert (Wz := objective_reads [] _ _ regcoil Sd regcoil_quadratic [1; 2; 3; 4] eq_refl).
    assert (Rg : regularised (lit true) regcoil) by (exists 2; split; [lra|]; right; split; [cbn; tauto|reflexivity]).
    assert (Bs : forall c, b <= c -> convex_constraints [] (lit true) [("f_max_K2", LE, c)] /\ exists x f, best [] (lit true) regcoil [("f_max_K2", LE, c)] x f).
    { intros c Hbc. assert (Hc : convex_constraints [] (lit true) [("f_max_K2", LE, c)]) by (intros name k r [E|[]]; injection E as <- <- <-; exact Cv). split; [exact Hc|].
      assert (Fz : feasible [] (lit true) [("f_max_K2", LE, c)] [1; 2; 3; 4]) by (intros name k r [E|[]]; injection E as <- <- <-; exists (scal b); split; [exact Rb|]; intros y [<-|[]]; lra).
      destruct (C126_one_best_design [] (lit true) regcoil _ _ _ Sd (lit_ordered true) (lit_resolved true) (lit_regular true) Ho Hc Rg Fz Wz) as (x & fx & B & _). eauto. }
    destruct (Bs b ltac:(lra)) as (Hc & x & f & B1). destruct (Bs (b + 1) ltac:(lra)) as (_ & x' & f' & B2). destruct (Bs (/ 2 * b + (1 - / 2) * (b + 1)) ltac:(lra)) as (_ & y & g & B3).
    exists b, x, f, x', f', y, g. repeat (split; [assumption|]). assumption.
Qed.
