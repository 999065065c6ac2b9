(** Property C113: problems in other units. *)
From Coq Require Import String List Bool Arith ZArith Reals Lra Lia.
From Verif Require Import Base ModelArray ModelMath SpecMath ModelSurface SpecSurface
  ModelParams ModelField SpecField ProofField3 WitnessField
  ModelQuantity SpecQuantity ModelWrapper SpecWrapper ModelShipped ModelPackage SpecPackage ProofPackage2 ProofPackage4 PropPackage SpecConvex ProofConvex PropConvex SpecScale ProofScale.
Import ListNotations.
Open Scope R_scope.
Open Scope string_scope.
Open Scope list_scope.

(** ** C113 *)
Theorem C113_quantities_scale :
  forall other c b q q' x name, 0 < c -> 0 < b -> sound q x -> made q' -> rescaled c b q q' -> usable q name ->
  exists v, reads other name q x v /\ reads other name q' (map (Rmult (c * b)) x) (amap (Rmult (factor c b name)) v).
Proof. exact scales. Qed.
Print Assumptions C113_quantities_scale.
Theorem C113_designs_scale :
  forall other c b q q' x os cs, 0 < c -> 0 < b -> sound q x -> made q' -> rescaled c b q q' ->
  (forall name w, In (name, w) os -> usable q name) -> (forall name k d, In (name, k, d) cs -> usable q name) ->
  (feasible other q cs x <-> feasible other q' (new_bounds c b cs) (map (Rmult (c * b)) x)) /\
  (forall r, weighted other q os x r <-> weighted other q' (new_weights c b os) (map (Rmult (c * b)) x) r) /\
  (least other q os cs x (fun _ => True) <->
   least other q' (new_weights c b os) (new_bounds c b cs) (map (Rmult (c * b)) x) (fun _ => True)).
Proof.
  intros other c b q q' x os cs Hc Hb S M' H Uo Uc. pose proof (sound_all q x S) as A. assert (L : length x = q_ndofs q) by apply S. split; [|split].
  - now apply feasible_scale.
  - intros r. now apply weighted_scale.
  - now apply least_scale.
Qed.
Print Assumptions C113_designs_scale.
(** Every problem can be written in the other units. *)
Theorem C113_other_units_exist :
  forall c b q, made q -> exists q', made q' /\ rescaled c b q q'.
Proof. exact rescale_exists. Qed.
Print Assumptions C113_other_units_exist.

Example C113_example : let os := [("f_max_Phi", 3); ("f_B", 2)] in let cs := [("f_max_Phi4", LE, 5); ("Phi", GE, -1)] in
  sound shown (repeat 0 4) /\ made shown /\ (exists q', made q' /\ rescaled 100 (1/10) shown q') /\
  (forall name w, In (name, w) os -> usable shown name) /\ (forall name k d, In (name, k, d) cs -> usable shown name) /\
  usable shown "K_theta" /\ feasible [] shown cs (repeat 0 4) /\
  least [] shown [("f_max_Phi", 3)] cs (repeat 0 4) (fun _ => True) /\
  factor 100 (1/10) "f_max_Phi" = 10.
Proof.
  cbv zeta. pose proof (shown_sound (repeat 0 4) eq_refl) as S. assert (M : made shown) by apply S.
  assert (Z : forall name, In name ["Phi"; "Phi2"; "f_max_Phi"; "f_max_Phi2"; "f_max_Phi4"; "f_l1_Phi"; "f_Phi"] -> exists u, reads [] name shown (repeat 0 4) u /\ List.Forall (eq 0) (el u)).
  { intros name I. destruct (zero_units [] shown S name I) as (u & A & F). exists u. split; [now apply automatic_reads in A|exact F]. }
  split; [exact S|]. split; [exact M|]. split; [now apply C113_other_units_exist|]. split; [|split; [|split; [|split; [|split]]]].
  - intros name w [E|[E|[]]]; injection E as <- <-; split; try discriminate; cbn; tauto.
  - intros name k d [E|[E|[]]]; injection E as <- <- <-; split; try discriminate; cbn; tauto.
  - split; [cbn; tauto|reflexivity].
  - intros name c b [E|[E|[]]]; injection E as <- <- <-.
    + destruct (Z "f_max_Phi4") as (u & R & F); [cbn; tauto|]. exists u. split; [exact R|]. intros y Hy. rewrite List.Forall_forall in F. rewrite <- (F y Hy). lra.
    + destruct (Z "Phi") as (u & R & F); [cbn; tauto|]. exists u. split; [exact R|]. intros y Hy. rewrite List.Forall_forall in F. rewrite <- (F y Hy). lra.
  - intros y fx fy L _ _ (vx & Fx & ->) (vy & Fy & ->).
    inversion Fx as [|? m ? ? Rx Fx']; subst. inversion Fx'; subst. inversion Fy as [|? m' ? ? Ry Fy']; subst. inversion Fy'; subst. cbn [fst] in *.
    destruct (Z "f_max_Phi") as (u & R & F); [cbn; tauto|]. rewrite (reads_fun _ _ _ _ _ _ R Rx) in F. inversion F; subst.
    destruct (largest_value [] shown y (shown_sound y L) "f_max_Phi" "Phi" Rabs ltac:(cbn; tauto)) as (m0 & v & R2 & Rv & Mx).
    pose proof (reads_fun _ _ _ _ _ _ Ry R2) as E. injection E as ->. destruct Mx as [Mx _]. apply in_map_iff in Mx as (z & <- & _).
    unfold Rsum. cbn [map2 fold_right snd]. pose proof (Rabs_pos z). lra.
  - unfold factor. cbn. change (Pos.to_nat 1) with 1%nat. field.
Qed.
