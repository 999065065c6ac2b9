(** Property C130: what the best designs on refined grids converge to. *)
From Coq Require Import String List Bool Arith ZArith Reals Lra Lia FunctionalExtensionality.
From Coquelicot Require Import Coquelicot.
From Verif Require Import Base ModelArray ModelMath SpecMath ModelSurface SpecSurface ProofSurface ProofSurface2 ModelParams ModelField SpecField ProofField ProofField2 ProofField3 ProofField4 ProofField6
  ModelQuantity ModelWrapper ModelPackage SpecPackage ProofPackage4 SpecConvex SpecBest ProofBest ProofAttained ProofAttained2 WitnessField SpecQuad ProofQuad ProofQuad2 ProofQuad3 ProofQuad4 PropQuad SpecLimit ProofLimit ProofLimit3 ProofLimit4.
Import ListNotations.
Open Scope R_scope.
Open Scope string_scope.
Open Scope list_scope.

Lemma off_points q P : legal (q_winding q) -> legal (q_plasma q) -> made q -> reports gamma (q_plasma q) P -> (forall gw w p t, gamma (q_winding q) = Ok gw -> In w (concat gw) -> P p t <> w) ->
  forall p t p' t', In p' (s_qphi (q_winding q)) -> In t' (s_qtheta (q_winding q)) -> pt (q_plasma q) 0 0 p t <> pt (q_winding q) 0 0 p' t'.
Proof.
  intros Lw Lp M HP Off p t p' t' I1 I2. rewrite (reports_gamma _ _ Lp HP) in Off. destruct (made_facts q M) as (_ & _ & _ & _ & _ & Cw & _). apply (Off _ _ p t (gammadash_copy _ _ _ _ 0 0 Lw Cw)). rewrite concat_sample. apply in_map_iff. exists (p', t'). split; [reflexivity|].
  apply in_flat_map. exists p'. split; [exact I1|]. now apply in_map.
Qed.

(** ** C130 *)
(** [nw] the normals of the winding surface, [P] the points and [nf] the normals of
    the plasma surface, [Bp] the normal field of the plasma. *)
Theorem C130_objective_converges :
  forall other q z os nw P nf Bp p0 t0, sound q z -> reports normal (q_winding q) nw -> (forall p t, nw p t <> zero3) ->
  reports gamma (q_plasma q) P -> reports normal (q_plasma q) nf -> (forall p t, nf p t <> zero3) ->
  (forall gw w p t, gamma (q_winding q) = Ok gw -> In w (concat gw) -> P p t <> w) -> continuous_field Bp ->
  (forall name c, In (name, c) os -> 0 <= c /\ In name grid_figures) ->
  forall x, length x = q_ndofs q ->
  exists r, exact_objective other q Bp p0 t0 os x r /\ (forall r', exact_objective other q Bp p0 t0 os x r' -> r' = r) /\
    forall e, 0 < e -> exists N0, forall n m, (N0 <= n)%nat -> (N0 <= m)%nat ->
    exists q' v, regridded q Bp p0 t0 n m = Ok q' /\ weighted other q' os x v /\ Rabs (v - r) <= e.
Proof.
  intros other q z os nw P nf Bp p0 t0 S Hw Nw HP Hn Nz Off CB Ho x L. pose proof S as (M & Lw & Lp & _). pose proof (off_points q P Lw Lp M HP Off) as Off'. rewrite (reports_nrm _ _ Lw Hw) in *. rewrite (reports_nrm _ _ Lp Hn) in *.
  destruct (objective_exists other q Bp p0 t0 z os S CB Nw Nz Off' Ho x L) as (r & Hr). exists r. split; [exact Hr|]. split.
  - intros r' Hr'. rewrite <- (limit_exact other q Bp p0 t0 z os S CB Nw Nz Off' x r L Hr). symmetry. now apply (limit_exact other q Bp p0 t0 z os S CB Nw Nz Off').
  - intros e Pe. destruct (objective_settles other q Bp p0 t0 z S CB Nw Nz Off' os x r L Hr e Pe) as (N & HN).
    destruct Hr as (vs & F & _).
    assert (X : eventually (fun n m => exists q', regridded q Bp p0 t0 n m = Ok q' /\ exists ws, Forall2 (fun o w => reads other (fst o) q' x (scal w)) os ws)).
    { clear HN Ho. induction F as [|o v l vs H F IH].
      - exists 2%nat. intros n m Hn' Hm'. destruct (regridded_facts q Bp p0 t0 n m z S Hn' Hm') as (q' & E & _). exists q'. split; [exact E|]. exists []. constructor.
      - generalize (eventually_and _ _ IH (exact_settles other q Bp p0 t0 z S CB Nw Nz Off' x (fst o) v L H 1 Rlt_0_1)). apply eventually_imp.
        intros n m ((q' & E & ws & Fw) & (q1 & w & E1 & Rw & _)). rewrite E in E1. injection E1 as <-. exists q'. split; [exact E|]. exists (w :: ws). now constructor. }
    destruct X as (N1 & H1). exists (Nat.max N N1). intros n m Hn' Hm'. destruct (H1 n m ltac:(lia) ltac:(lia)) as (q' & E & ws & Fw). exists q', (total other q' os x). split; [exact E|]. split; [|apply (HN n m ltac:(lia) ltac:(lia) q' E)].
    exists ws. split; [exact Fw|]. unfold total. clear - Fw. induction Fw as [|o w l ws R F IH]; [reflexivity|]. cbn [map map2 Rsum fold_right] in *. unfold Rsum in *. cbn [fold_right]. rewrite IH. rewrite (entry_reads _ _ _ 0 _ _ R). reflexivity.
Qed.
Print Assumptions C130_objective_converges.

Theorem C130_best_designs_converge :
  forall other q z os nw P nf Bp p0 t0, sound q z -> reports normal (q_winding q) nw -> (forall p t, nw p t <> zero3) ->
  reports gamma (q_plasma q) P -> reports normal (q_plasma q) nf -> (forall p t, nf p t <> zero3) ->
  (forall gw w p t, gamma (q_winding q) = Ok gw -> In w (concat gw) -> P p t <> w) -> continuous_field Bp ->
  (forall name c, In (name, c) os -> 0 <= c /\ In name grid_figures) -> regularised q os ->
  exists X fX, length X = q_ndofs q /\ exact_objective other q Bp p0 t0 os X fX /\
    (forall y fy, length y = q_ndofs q -> exact_objective other q Bp p0 t0 os y fy -> fX <= fy /\ (fy <= fX -> y = X)) /\
    forall e, 0 < e -> exists c N0, 0 < c /\ forall n m, (N0 <= n)%nat -> (N0 <= m)%nat ->
    exists q', regridded q Bp p0 t0 n m = Ok q' /\ (exists b fb, best other q' os [] b fb) /\
      forall x fx, length x = q_ndofs q -> weighted other q' os x fx ->
      (forall y fy, length y = q_ndofs q -> weighted other q' os y fy -> fx <= fy + c) ->
      (forall j, Rabs (nth j x 0 - nth j X 0) <= e) /\ Rabs (fx - fX) <= e.
Proof.
  intros other q z os nw P nf Bp p0 t0 S Hw Nw HP Hn Nz Off CB Ho Rg. pose proof S as (M & Lw & Lp & _). pose proof (off_points q P Lw Lp M HP Off) as Off'. rewrite (reports_nrm _ _ Lw Hw) in *. rewrite (reports_nrm _ _ Lp Hn) in *.
  destruct (designs_converge other q Bp p0 t0 z os S CB Nw Nz Off' Ho Rg) as (X & fX & LX & HX & B & Cv). exists X, fX. repeat (split; [assumption|]).
  intros e Pe. destruct (Cv e Pe) as (c & Pc & (N0 & H)). exists c, N0. split; [exact Pc|exact H].
Qed.
Print Assumptions C130_best_designs_converge.

(** Non-trivial case: two circular tori, the field error and the current density. *)
Example C130_example : let x := [1; 2; 3; 4] in let os := [("f_B", 1); ("f_K", / 10); ("f_max_K2", / 100)] in
  sound tori x /\ regularised tori os /\ (forall name c, In (name, c) os -> 0 <= c /\ In name grid_figures) /\
  (exists nw, reports normal (q_winding tori) nw /\ forall p t, nw p t <> zero3) /\
  (exists P nf, reports gamma (q_plasma tori) P /\ reports normal (q_plasma tori) nf /\ (forall p t, nf p t <> zero3) /\
     forall gw w p t, gamma (q_winding tori) = Ok gw -> In w (concat gw) -> P p t <> w) /\
  continuous_field (fun p t => cos (2 * PI * t)).
Proof.
  intros x os. destruct C128_example as (S & Hw & _ & _ & Hp & _ & C). split; [exact S|]. split; [exists (/ 10); split; [lra|]; right; split; [cbn; tauto|reflexivity]|].
  split; [|auto]. intros name c [E|[E|[E|[]]]]; injection E as <- <-; split; try lra; cbn; tauto.
Qed.
