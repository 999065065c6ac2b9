(** The problem handed to the optimiser in slack mode is the problem the user wrote. *)
From Coq Require Import String List Bool Arith ZArith Reals Lra Lia.
From Verif Require Import Base ModelArray ModelMath SpecMath ModelSurface SpecSurface ModelParams ModelField SpecField ModelQuantity ModelWrapper SpecWrapper
  ProofWrapper ModelPackage SpecPackage ProofPackage ProofPackage2 ProofPackage4 PropPackage SpecConvex ProofConvex PropConvex WitnessField SpecProblem ProofProblem ProofProblem2.
Import ListNotations.
Open Scope R_scope.
Open Scope string_scope.
Open Scope list_scope.

(** ** C114 *)
Theorem C114_smooth_problem_is_the_users :
  forall other q U os cs sp f po pc, ordered q ->
  (forall o, In o os -> 0 <= ob_weight o /\ scaled_use U q (ob_name o) (ob_unit o)) ->
  (forall c, In c cs -> scaled_use U q (uc_name c) (uc_unit c)) ->
  parse_objectives q_ndofs (package other) (Objectives (map ob_name os) (map (fun o => UScalar (ob_unit o)) os)) (map ob_weight os) (Some "slack") sp = Ok (f, po) ->
  parse_constraints q_ndofs (package other) (map uc_name cs) (map (fun c => op_string (uc_cmp c)) cs) (map (fun c => UScalar (uc_unit c)) cs) (map uc_val cs) (Some "slack") sp = Ok pc ->
  forall x bound, sound q x ->
  (exists d y, solver_value f po pc q (Arr [length x] x) d y /\ y <= bound) <->
  feasible other q (asked_bounds cs) x /\ exists r, weighted other q (asked_terms os) x r /\ r <= bound.
Proof.
  intros other q U os cs sp f po pc O Uo Uc Eo Ec x bound S. split.
  - intros (d & y & V & B). destruct (to_user other q U os cs sp f po pc O Uo Uc Eo Ec x S d y V) as (F & r & W & L).
    split; [exact F|]. exists r. split; [exact W|lra].
  - intros (F & r & W & L). destruct (from_user other q U os cs sp f po pc O Uo Uc Eo Ec x S r F W) as (d & V). exists d, r. auto.
Qed.
Print Assumptions C114_smooth_problem_is_the_users.

(** A best state of the optimiser is a best design, and every best design is
    reached by a best state. *)
Theorem C114_same_optimum :
  forall other q x0 U os cs sp f po pc, sound q x0 -> ordered q ->
  (forall o, In o os -> 0 <= ob_weight o /\ scaled_use U q (ob_name o) (ob_unit o)) ->
  (forall c, In c cs -> scaled_use U q (uc_name c) (uc_unit c)) ->
  parse_objectives q_ndofs (package other) (Objectives (map ob_name os) (map (fun o => UScalar (ob_unit o)) os)) (map ob_weight os) (Some "slack") sp = Ok (f, po) ->
  parse_constraints q_ndofs (package other) (map uc_name cs) (map (fun c => op_string (uc_cmp c)) cs) (map (fun c => UScalar (uc_unit c)) cs) (map uc_val cs) (Some "slack") sp = Ok pc ->
  forall x y, length x = q_ndofs q ->
  ((exists d, solver_value f po pc q (Arr [length x] x) d y) /\
   (forall x' d' y', length x' = q_ndofs q -> solver_value f po pc q (Arr [length x'] x') d' y' -> y <= y')) <->
  (feasible other q (asked_bounds cs) x /\ weighted other q (asked_terms os) x y /\ least other q (asked_terms os) (asked_bounds cs) x (fun _ => True)).
Proof.
  intros other q x0 U os cs sp f po pc S0 O Uo Uc Eo Ec x y Lx. pose proof (sound_all q x0 S0) as Sa.
  assert (To := fun z S => to_user other q U os cs sp f po pc O Uo Uc Eo Ec z S). assert (Fr := fun z S => from_user other q U os cs sp f po pc O Uo Uc Eo Ec z S).
  assert (Wf : forall z r r', weighted other q (asked_terms os) z r -> weighted other q (asked_terms os) z r' -> r = r').
  { intros z r r' (v & F & ->) (v' & F' & ->). do 2 f_equal. clear - F F'. revert v' F'. induction F as [|o m l v R F IH]; intros v' F'; inversion F'; subst; [reflexivity|].
    f_equal; [|now apply IH]. pose proof (reads_fun _ _ _ _ _ _ R H1) as E. injection E as ->. reflexivity. }
  split.
  - intros ((d & V) & Best). destruct (To x (Sa x Lx) d y V) as (F & r & W & L). destruct (Fr x (Sa x Lx) r F W) as (d1 & V1).
    assert (r = y) as -> by (specialize (Best x d1 r Lx V1); lra). split; [exact F|]. split; [exact W|].
    intros z fx fz Lz _ Fz Wx Wz. rewrite (Wf _ _ _ Wx W). destruct (Fr z (Sa z Lz) fz Fz Wz) as (d2 & V2). exact (Best z d2 fz Lz V2).
  - intros (F & W & L). split; [exact (Fr x (Sa x Lx) y F W)|]. intros x' d' y' Lx' V'. destruct (To x' (Sa x' Lx') d' y' V') as (F' & r & W' & Hr).
    specialize (L x' y r Lx' I F' W W'). lra.
Qed.
Print Assumptions C114_same_optimum.

Example C114_example :
  let os := [OB "f_Phi" 2 1; OB "f_max_Phi" 3 (1 / 2); OB "f_l1_Phi" 4 0] in
  let cs := [UC "f_max_Phi" LE (-3) 5; UC "Phi" GE 7 (-1); UC "Phi" LE 1 0; UC "f_max_Phi4" LE 2 1] in
  let U n := if String.eqb n "f_max_Phi" then 3 else if String.eqb n "f_l1_Phi" then 4 else 2 in
  sound shown (repeat 0 4) /\ ordered shown /\
  (forall o, In o os -> 0 <= ob_weight o /\ scaled_use U shown (ob_name o) (ob_unit o)) /\
  (forall c, In c cs -> scaled_use U shown (uc_name c) (uc_unit c)) /\
  exists f po pc,
  parse_objectives q_ndofs (package []) (Objectives (map ob_name os) (map (fun o => UScalar (ob_unit o)) os)) (map ob_weight os) (Some "slack") [] = Ok (f, po) /\
  parse_constraints q_ndofs (package []) (map uc_name cs) (map (fun c => op_string (uc_cmp c)) cs) (map (fun c => UScalar (uc_unit c)) cs) (map uc_val cs) (Some "slack") [] = Ok pc /\
  feasible [] shown (asked_bounds cs) (repeat 0 4) /\
  exists d y, solver_value f po pc shown (Arr [4%nat] (repeat 0 4)) d y.
Proof.
  intros os cs U. pose proof (shown_sound (repeat 0 4) eq_refl) as S. assert (O : ordered shown) by apply device_increasing.
  assert (Uo : forall o, In o os -> 0 <= ob_weight o /\ scaled_use U shown (ob_name o) (ob_unit o)).
  { intros o [<-|[<-|[<-|[]]]]; (split; [cbn; lra|]); (split; [cbn; lra|]); cbn [ob_name ob_unit].
    - right. split; [cbn; tauto|discriminate].
    - left. split; [cbn; tauto|]. unfold U. cbn. rewrite Rabs_right; lra.
    - left. split; [cbn; tauto|]. unfold U. cbn. rewrite Rabs_right; lra. }
  assert (Uc : forall c, In c cs -> scaled_use U shown (uc_name c) (uc_unit c)).
  { intros c [<-|[<-|[<-|[<-|[]]]]]; (split; [cbn; lra|]); cbn [uc_name uc_unit].
    - left. split; [cbn; tauto|]. unfold U. cbn. rewrite Rabs_left; lra.
    - right. split; [cbn; tauto|discriminate].
    - right. split; [cbn; tauto|discriminate].
    - left. split; [cbn; tauto|]. unfold U. cbn. rewrite Rabs_right; lra. }
  split; [exact S|]. split; [exact O|]. split; [exact Uo|]. split; [exact Uc|].
  assert (Po : exists r, parse_objectives q_ndofs (package []) (Objectives (map ob_name os) (map (fun o => UScalar (ob_unit o)) os)) (map ob_weight os) (Some "slack") [] = Ok r).
  { apply parse_objectives_ok. split; [reflexivity|]. split; [cbn; lia|]. split; [right; right; left; reflexivity|].
    intros n u I. cbn [os map combine ob_name ob_unit In] in I. repeat destruct I as [I|I]; try contradiction; injection I as <- <-;
      (eexists; split; [reflexivity|split; [cbn; tauto|discriminate]]). }
  assert (Pc : exists r, parse_constraints q_ndofs (package []) (map uc_name cs) (map (fun c => op_string (uc_cmp c)) cs) (map (fun c => UScalar (uc_unit c)) cs) (map uc_val cs) (Some "slack") [] = Ok r).
  { apply parse_constraints_ok. do 3 (split; [reflexivity|]). split; [right; right; left; reflexivity|].
    intros n t u I. cbn [cs map combine uc_name uc_cmp uc_unit op_string In] in I. repeat destruct I as [I|I]; try contradiction; injection I as <- <- <-;
      (split; [eexists; split; [reflexivity|split; [cbn; tauto|discriminate]]|cbn; tauto]). }
  destruct Po as ([f po] & Eo). destruct Pc as (pc & Ec). exists f, po, pc. split; [exact Eo|]. split; [exact Ec|].
  match goal with |- ?A /\ _ => assert (F : A) end.
  { assert (Z : forall name, In name ["Phi"; "Phi2"; "f_max_Phi"; "f_max_Phi2"; "f_max_Phi4"; "f_l1_Phi"; "f_Phi"] -> exists u, reads [] name shown (repeat 0 4) u /\ List.Forall (eq 0) (el u)).
    { intros name I. destruct (zero_units [] shown S name I) as (u & A & F). exists u. split; [now apply automatic_reads in A|exact F]. }
    intros name c b I. unfold asked_bounds, cs in I. cbn [map uc_name uc_cmp uc_val] in I. destruct I as [I|[I|[I|[I|[]]]]]; injection I as <- <- <-;
      match goal with |- exists v, reads _ ?n _ _ _ /\ _ => destruct (Z n) as (u & R & F) end; try (cbn; tauto); exists u; (split; [exact R|]); intros y Hy;
      rewrite List.Forall_forall in F; rewrite <- (F y Hy); lra. }
  split; [exact F|].
  destruct (integral_value [] shown (repeat 0 4) S "f_Phi" "Phi" (q_eval shown) (fun y => y * y / 2) ltac:(cbn; tauto)) as (r & _ & _ & R1 & _).
  destruct (largest_value [] shown (repeat 0 4) S "f_max_Phi" "Phi" Rabs ltac:(cbn; tauto)) as (m & _ & R2 & _).
  destruct (integral_value [] shown (repeat 0 4) S "f_l1_Phi" "Phi" (q_eval shown) Rabs ltac:(cbn; tauto)) as (l & _ & _ & R3 & _).
  edestruct (C114_smooth_problem_is_the_users [] shown U os cs [] f po pc O Uo Uc Eo Ec (repeat 0 4)) as (_ & H); [exact S|].
  destruct H as (d & y & V & _); [|exists d, y; exact V].
  split; [exact F|]. eexists. split; [exists [r; m; l]; split; [repeat constructor; assumption|reflexivity]|apply Rle_refl].
Qed.
