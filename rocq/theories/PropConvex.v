(** Property C111: convex problems. *)
From Coq Require Import String List Bool Arith ZArith Reals Lra Lia.
From Verif Require Import Base ModelArray ModelMath SpecMath ModelSurface SpecSurface
  ModelParams ModelField SpecField ProofField3 WitnessField
  ModelQuantity SpecQuantity ModelWrapper SpecWrapper ModelShipped ModelPackage SpecPackage ProofPackage4 PropPackage SpecConvex ProofConvex.
Import ListNotations.
Open Scope R_scope.
Open Scope string_scope.
Open Scope list_scope.

Lemma sound_all q x0 : sound q x0 -> forall z, length z = q_ndofs q -> sound q z.
Proof. intros (A & B & C & D & _) z L. repeat (split; [assumption|]). exact L. Qed.

(** ** C111 *)
Theorem C111_affine_quantities :
  forall other q x0, sound q x0 ->
  (forall name, In name ["K"; "winding_surface_B"; "Bnormal"; "Phi"; "Phi_with_net_current"] -> affine_quantity other name q) /\
  (q_stellsym q = true -> affine_quantity other "K_theta" q).
Proof.
  intros other q x0 S. split; [intros; eapply affine_quantities; [exact (sound_all q x0 S)|assumption]|].
  intros St. apply affine_K_theta; [exact (sound_all q x0 S)|exact St].
Qed.
Print Assumptions C111_affine_quantities.
Theorem C111_convex_quantities :
  forall other q x0, sound q x0 -> ordered q ->
  forall name, In name ["K2"; "Bnormal2"; "Phi2"; "f_B"; "f_K"; "f_Phi"; "f_max_Bnormal"; "f_max_Bnormal2"; "f_max_K2"; "f_huber_K";
    "f_max_Phi"; "f_max_Phi2"; "f_max_Phi4"; "f_l1_Phi"] -> convex_quantity other name q.
Proof. intros other q x0 S. exact (convex_quantities other q (sound_all q x0 S)). Qed.
Print Assumptions C111_convex_quantities.
(** The normalised error is a quotient by the error without coil modulation. *)
Theorem C111_normalised_error_convex :
  forall other q x0, sound q x0 -> ordered q ->
  (exists r0, reads other "f_B" q (repeat 0 (q_ndofs q)) (scal r0) /\ 0 < r0) -> convex_quantity other "f_B_normalized_by_Bnormal_IG" q.
Proof. intros other q x0 S. exact (normalised_convex other q (sound_all q x0 S)). Qed.
Print Assumptions C111_normalised_error_convex.
Theorem C111_local_minimum_is_global :
  forall other q os cs,
  (forall name w, In (name, w) os -> 0 <= w /\ convex_quantity other name q) ->
  (forall name c b, In (name, c, b) cs -> match c with LE => convex_quantity other name q | _ => affine_quantity other name q end) ->
  forall x, length x = q_ndofs q -> feasible other q cs x ->
    (exists e, 0 < e /\ least other q os cs x (near e x)) -> least other q os cs x (fun _ => True).
Proof. exact local_is_global. Qed.
Print Assumptions C111_local_minimum_is_global.

Example C111_example : let os := [("f_Phi", 3); ("f_max_Phi", 1)] in let cs := [("f_max_Phi4", LE, 5); ("Phi", GE, -1); ("Phi", EQ, 0)] in
  sound shown (repeat 0 4) /\ ordered shown /\
  (exists r0, reads [] "f_B" (device 1 2 1 unit_error true) (repeat 0 4) (scal r0) /\ 0 < r0) /\
  (forall name w, In (name, w) os -> 0 <= w /\ convex_quantity [] name shown) /\
  (forall name c b, In (name, c, b) cs -> match c with LE => convex_quantity [] name shown | _ => affine_quantity [] name shown end) /\
  feasible [] shown cs (repeat 0 4) /\
  exists fx, weighted [] shown os (repeat 0 4) fx.
Proof.
  cbv zeta. pose proof (shown_sound (repeat 0 4) eq_refl) as S. assert (O : ordered shown) by apply device_increasing.
  assert (Z : forall name, In name ["Phi"; "Phi2"; "f_max_Phi"; "f_max_Phi2"; "f_max_Phi4"; "f_l1_Phi"; "f_Phi"] -> exists u, reads [] name shown (repeat 0 4) u /\ List.Forall (eq 0) (el u)).
  { intros name I. destruct (zero_units [] shown S name I) as (u & A & F). exists u. split; [now apply automatic_reads in A|exact F]. }
  split; [exact S|]. split; [exact O|]. split; [|split; [|split; [|split]]].
  - assert (S' : sound (device 1 2 1 unit_error true) (repeat 0 4)).
    { split; [apply device_made|]. split; [reflexivity|]. split; [reflexivity|]. split; [apply device_shaped|reflexivity]. }
    destruct (reads_f_B [] _ _ S') as (r & E & R). exists r. split; [exact R|]. destruct device_error as (v0 & E0 & N). rewrite E in E0. injection E0 as <-.
    destruct (device_increasing 1 2 1 unit_error true) as (_ & _ & I3 & I4).
    destruct (f_B_convex (device 1 2 1 unit_error true) (device_made _ _ _ _ _) eq_refl eq_refl (proj1 (proj2 (proj2 (proj2 S')))) I3 I4 (repeat 0 4) (repeat 0 4) 1 eq_refl eq_refl ltac:(lra))
      as (fx & _ & _ & E1 & _ & _ & P & _). rewrite E in E1. injection E1 as <-. lra.
  - intros name w [E|[E|[]]]; injection E as <- <-; (split; [lra|]); eapply (C111_convex_quantities [] shown); eauto; cbn; tauto.
  - intros name c b [E|[E|[E|[]]]]; injection E as <- <- <-.
    + eapply (C111_convex_quantities [] shown); eauto; cbn; tauto.
    + eapply (C111_affine_quantities [] shown); eauto; cbn; tauto.
    + eapply (C111_affine_quantities [] shown); eauto; cbn; tauto.
  - intros name c b [E|[E|[E|[]]]]; injection E as <- <- <-.
    + destruct (Z "f_max_Phi4") as (u & R & F); [cbn; tauto|]. exists u. split; [exact R|]. intros y Hy. rewrite List.Forall_forall in F. rewrite <- (F y Hy). lra.
    + destruct (Z "Phi") as (u & R & F); [cbn; tauto|]. exists u. split; [exact R|]. intros y Hy. rewrite List.Forall_forall in F. rewrite <- (F y Hy). lra.
    + destruct (Z "Phi") as (u & R & F); [cbn; tauto|]. exists u. split; [exact R|]. intros y Hy. rewrite List.Forall_forall in F. now rewrite <- (F y Hy).
  - destruct (integral_value [] shown (repeat 0 4) S "f_Phi" "Phi" (q_eval shown) (fun y => y * y / 2) ltac:(cbn; tauto)) as (r & _ & _ & R1 & _).
    destruct (largest_value [] shown (repeat 0 4) S "f_max_Phi" "Phi" Rabs ltac:(cbn; tauto)) as (m & _ & R2 & _).
    eexists. exists [r; m]. split; [repeat constructor; assumption|reflexivity].
Qed.
