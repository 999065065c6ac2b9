(** Property C115: the resolution of the current potential. *)
From Coq Require Import String List Bool Arith ZArith Reals Lra Lia.
From Verif Require Import Base ModelArray ModelMath SpecMath ModelSurface SpecSurface
  ModelParams ModelField SpecField ProofField3 WitnessField
  ModelQuantity SpecQuantity ModelWrapper SpecWrapper ModelShipped ModelPackage SpecPackage ProofPackage4 PropPackage SpecConvex ProofConvex PropConvex SpecScale SpecRefine ProofRefine.
Import ListNotations.
Open Scope R_scope.
Open Scope string_scope.
Open Scope list_scope.

(** ** C115 *)
Theorem C115_only_the_potential_matters :
  forall other q q' x x' name, sound q x -> made q' -> same_device q q' -> length x' = q_ndofs q' ->
  same_potential q x q' x' -> usable q name -> usable q' name ->
  exists v, reads other name q x v /\ reads other name q' x' v.
Proof. intros. now apply (same_reads other q q'). Qed.
Print Assumptions C115_only_the_potential_matters.
Theorem C115_finer_contains :
  forall q q' x, made q -> made q' -> finer q q' -> length x = q_ndofs q ->
  exists x', length x' = q_ndofs q' /\ same_potential q x q' x'.
Proof. intros. now apply (finer_contains q q'). Qed.
Print Assumptions C115_finer_contains.
Theorem C115_designs_carry_over :
  forall other q q' x os cs r, sound q x -> made q' -> finer q q' ->
  (forall name w, In (name, w) os -> usable q name /\ usable q' name) ->
  (forall name k d, In (name, k, d) cs -> usable q name /\ usable q' name) ->
  feasible other q cs x -> weighted other q os x r ->
  exists x', length x' = q_ndofs q' /\ feasible other q' cs x' /\ weighted other q' os x' r.
Proof.
  intros other q q' x os cs r S M' H Uo Uc F W. assert (M : made q) by apply S. assert (L : length x = q_ndofs q) by apply S.
  destruct (finer_contains q q' x H M M' L) as (x' & L' & P). pose proof H as (D & _). exists x'. split; [exact L'|]. split.
  - now apply (same_feasible other q q' x x').
  - now apply (same_weighted other q q' x x').
Qed.
Print Assumptions C115_designs_carry_over.
Theorem C115_finer_is_no_worse :
  forall other q q' x z os cs fx fz, sound q x -> made q' -> finer q q' ->
  (forall name w, In (name, w) os -> usable q name /\ usable q' name) ->
  (forall name k d, In (name, k, d) cs -> usable q name /\ usable q' name) ->
  feasible other q cs x -> weighted other q os x fx ->
  least other q' os cs z (fun _ => True) -> weighted other q' os z fz -> fz <= fx.
Proof.
  intros other q q' x z os cs fx fz S M' H Uo Uc F W Z Wz.
  destruct (C115_designs_carry_over other q q' x os cs fx S M' H Uo Uc F W) as (x' & L' & F' & W'). exact (Z x' fz fx L' I F' Wz W').
Qed.
Print Assumptions C115_finer_is_no_worse.

(** The device of the other examples with more harmonics of both kinds. *)
Definition richer : params :=
  {| q_plasma := plasma_at 1; q_winding := coil_at 1; q_eval := ring (1 * 3) (1 * 1) 0 (1/8) (1/16) (1/3);
     q_G := 2; q_I := 1; q_Bnormal := [[0; 1]; [2; 3]]; q_qphi := [0; 1/8]; q_qtheta := [1/16; 1/3];
     q_stellsym := false; q_mpol := 3; q_ntor := 2; q_ndofs := 35; q_ndofs_half := 17 |}.
Lemma richer_made : made richer.
Proof.
  split; [apply ring_built|]. split; [apply ring_built|].
  exists (plasma_at 1), (coil_at 1), 2, 1, (Some [[0; 1]; [2; 3]]), 3%nat, 2%nat, (Some (arr1 [0; 1/8])), (Some (arr1 [1/16; 1/3])), (Some false). reflexivity.
Qed.
Example C115_example : let os := [("f_max_Phi", 3)] in let cs := [("f_max_Phi4", LE, 5); ("Phi", GE, -1)] in
  made shown /\ made richer /\ finer shown richer /\ ~ finer richer shown /\
  (forall name w, In (name, w) os -> usable shown name /\ usable richer name) /\
  (forall name k d, In (name, k, d) cs -> usable shown name /\ usable richer name) /\
  feasible [] shown cs (repeat 0 4) /\ weighted [] shown os (repeat 0 4) 0 /\
  least [] richer os cs (repeat 0 35) (fun _ => True) /\
  exists x', length x' = 35%nat /\ same_potential shown [1; 2; 3; 4] richer x' /\
    exists v, reads [] "f_B" shown [1; 2; 3; 4] v /\ reads [] "f_B" richer x' v.
Proof.
  cbv zeta. pose proof (shown_sound (repeat 0 4) eq_refl) as S. assert (M : made shown) by apply S. pose proof richer_made as M'.
  assert (Z : forall name, In name ["Phi"; "Phi2"; "f_max_Phi"; "f_max_Phi2"; "f_max_Phi4"; "f_l1_Phi"; "f_Phi"] -> exists u, reads [] name shown (repeat 0 4) u /\ List.Forall (eq 0) (el u)).
  { intros name I. destruct (zero_units [] shown S name I) as (u & A & F). exists u. split; [now apply automatic_reads in A|exact F]. }
  assert (Fi : finer shown richer).
  { split; [repeat split|]. cbn. split; [lia|]. split; [lia|reflexivity]. }
  assert (Sr : forall y, length y = 35%nat -> sound richer y).
  { intros y L. split; [exact M'|]. split; [reflexivity|]. split; [reflexivity|]. split; [split; [reflexivity|repeat constructor]|exact L]. }
  split; [exact M|]. split; [exact M'|]. split; [exact Fi|]. split; [intros (_ & H & _); cbn in H; lia|].
  split; [|split; [|split; [|split; [|split]]]].
  - intros name w [E|[]]; injection E as <- <-; split; split; try discriminate; cbn; tauto.
  - intros name k d [E|[E|[]]]; injection E as <- <- <-; split; split; try discriminate; cbn; tauto.
  - intros name c b [E|[E|[]]]; injection E as <- <- <-.
    + destruct (Z "f_max_Phi4") as (u & R & F); [cbn; tauto|]. exists u. split; [exact R|]. intros y Hy. rewrite List.Forall_forall in F. rewrite <- (F y Hy). lra.
    + destruct (Z "Phi") as (u & R & F); [cbn; tauto|]. exists u. split; [exact R|]. intros y Hy. rewrite List.Forall_forall in F. rewrite <- (F y Hy). lra.
  - destruct (largest_value [] shown (repeat 0 4) S "f_max_Phi" "Phi" Rabs ltac:(cbn; tauto)) as (m0 & v & R2 & _).
    destruct (Z "f_max_Phi") as (u & R & F); [cbn; tauto|]. rewrite (reads_fun _ _ _ _ _ _ R R2) in F. inversion F; subst.
    exists [0]. split; [repeat constructor; exact R2|]. unfold Rsum. cbn. ring.
  - intros y fx fy L _ _ (vx & Fx & ->) (vy & Fy & ->).
    inversion Fx as [|? m ? ? Rx Fx']; subst. inversion Fx'; subst. inversion Fy as [|? m' ? ? Ry Fy']; subst. inversion Fy'; subst. cbn [fst] in *.
    destruct (zero_units [] richer (Sr (repeat 0 35) eq_refl) "f_max_Phi" ltac:(cbn; tauto)) as (u & A & F). apply automatic_reads in A.
    change (q_ndofs richer) with 35%nat in A. rewrite (reads_fun _ _ _ _ _ _ A Rx) in F. inversion F; subst.
    destruct (largest_value [] richer y (Sr y L) "f_max_Phi" "Phi" Rabs ltac:(cbn; tauto)) as (m0 & v & R2 & Rv & Mx).
    pose proof (reads_fun _ _ _ _ _ _ Ry R2) as E. injection E as ->. destruct Mx as [Mx _]. apply in_map_iff in Mx as (z & <- & _).
    unfold Rsum. cbn [map2 fold_right snd]. pose proof (Rabs_pos z). lra.
  - destruct (C115_finer_contains shown richer [1; 2; 3; 4] M M' Fi eq_refl) as (x' & L' & P). exists x'. split; [exact L'|]. split; [exact P|].
    apply (C115_only_the_potential_matters [] shown richer [1; 2; 3; 4] x' "f_B" (shown_sound [1; 2; 3; 4] eq_refl) M' (proj1 Fi) L' P); (split; [cbn; tauto|discriminate]).
Qed.
