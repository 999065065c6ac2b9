(** Properties of the differentiable wrapper and of the DESC interface. *)
From Coq Require Import String List Bool Arith ZArith Reals Lra Lia.
From Verif Require Import Base ModelArray ModelMath ModelQuantity ModelWrapper ModelSurface ModelParams ModelField
  ModelSolver ModelQuadcoil ModelDiff SpecMath SpecSurface SpecQuadcoil SpecDiff
  ProofQuadcoil ProofQuadcoil2 ProofDiff
  WitnessSurface WitnessField WitnessQuadcoil WitnessQuadcoil2 WitnessQuadcoil3 WitnessDiff.
Import ListNotations.
Open Scope R_scope.
Open Scope string_scope.
Open Scope list_scope.

(** ** C66 *)
(** Where the derivative is returned, it is the gradient contracted with the
    tangent, for exactly the requested metrics. *)
Theorem C66_jvp_contracts_gradient :
  forall ns E (a b : args (x_solver E)) i t o f vs ds,
    same_but_inputs a b -> has_inputs b i -> qc_value_only b = false -> quadcoil ns E b = Some (Ok o) ->
    (forall w, di_weight i = WArr w -> wf w) -> matching i t ->
    gen_quadcoil_for_diff ns E a false = Ok f -> df_jvp E f i t = Some (Ok (vs, ds)) ->
    forall m, (requested a m -> exists e g v, lookup m (o_out E o) = Some e /\ e_grad e = Some g /\ e_value e = Some v /\
                 lookup m vs = Some v /\ lookup m ds = Some (directional g t)) /\
              (~ requested a m -> lookup m vs = None /\ lookup m ds = None).
Proof.
  intros ns E a b i t o f vs ds Hs Hi V H Wf Mt Hf J. rewrite (call_is E a b i false Hs Hi V) in H. injection Hf as <-. cbn [df_jvp] in J.
  destruct (jvp_returns ns E a i t o _ H Mt Wf J) as (_ & K). destruct (K t Mt) as (vs' & ds' & J' & K').
  rewrite J in J'. injection J' as <- <-. exact K'.
Qed.
Print Assumptions C66_jvp_contracts_gradient.
(** Where it is returned for one perturbation, it is returned for all, and is
    linear. *)
Theorem C66_jvp_linear :
  forall ns E (a b : args (x_solver E)) i s t x y o f vs ds1,
    same_but_inputs a b -> has_inputs b i -> qc_value_only b = false -> quadcoil ns E b = Some (Ok o) ->
    (forall w, di_weight i = WArr w -> wf w) -> matching i s -> matching i t ->
    gen_quadcoil_for_diff ns E a false = Ok f -> df_jvp E f i s = Some (Ok (vs, ds1)) ->
    exists ds2 ds, df_jvp E f i t = Some (Ok (vs, ds2)) /\
      df_jvp E f i (combination x y s t) = Some (Ok (vs, ds)) /\
      forall m, requested a m -> exists d1 d2, lookup m ds1 = Some d1 /\ lookup m ds2 = Some d2 /\
        lookup m ds = Some (x * d1 + y * d2).
Proof.
  intros ns E a b i s t x y o f v1 d1 Hs Hi V H Wf Ms Mt Hf J1. rewrite (call_is E a b i false Hs Hi V) in H. injection Hf as <-. cbn [df_jvp] in *.
  destruct (jvp_returns ns E a i s o _ H Ms Wf J1) as (UW & K).
  destruct (K s Ms) as (v1' & d1' & J1' & K1). rewrite J1 in J1'. injection J1' as <- <-.
  destruct (K t Mt) as (v2 & d2 & J2 & K2).
  destruct (K _ (matching_combination i s t x y Ms Mt)) as (v3 & d3 & J3 & K3).
  assert (V2 : v2 = v1) by (apply (jvp_values ns E a i t s _ _ _ _ J2 J1)).
  assert (V3 : v3 = v1) by (apply (jvp_values ns E a i (combination x y s t) s _ _ _ _ J3 J1)).
  subst v2 v3. exists d2, d3. split; [exact J2|]. split; [exact J3|].
  intros m Rm.
  destruct (proj1 (K1 m) Rm) as (e & g & v & El & Eg & _ & _ & L1).
  destruct (proj1 (K2 m) Rm) as (e2 & g2 & v' & El2 & Eg2 & _ & _ & L2).
  destruct (proj1 (K3 m) Rm) as (e3 & g3 & v'' & El3 & Eg3 & _ & _ & L3).
  assert (g2 = g) by congruence. assert (g3 = g) by congruence. subst g2 g3.
  do 2 eexists. split; [exact L1|]. split; [exact L2|]. rewrite L3. apply f_equal.
  apply (directional_linear ns E _ i s t x y o m g e H eq_refl (with_inputs_has E a i false) Ms Mt (UW m Rm) Rm El Eg).
Qed.
Print Assumptions C66_jvp_linear.
(** It is returned for every call that is not verbose or that has constraints,
    with a weight the wrapper can use; for the other calls see C99. *)
Theorem C66_jvp_returns :
  forall ns E (a b : args (x_solver E)) i t o,
    same_but_inputs a b -> has_inputs b i -> qc_value_only b = false -> quadcoil ns E b = Some (Ok o) ->
    (qc_verbose a = false \/ exists d, o_results E o = Constrained E d) ->
    matching i t -> usable_weight (qc_objective_name a) (di_weight i) ->
    exists f vs ds, gen_quadcoil_for_diff ns E a false = Ok f /\ df_jvp E f i t = Some (Ok (vs, ds)).
Proof.
  intros ns E a b i t o Hs Hi V H Hv Mt UW. rewrite (call_is E a b i false Hs Hi V) in H.
  destruct (jvp_ok ns E a i t o H Hv Mt UW) as (vs & ds & K & _). eexists _, vs, ds. split; [reflexivity|exact K].
Qed.
Print Assumptions C66_jvp_returns.
Example C66_example : exists o e g,
  let b := free 5 (NStr "product") false false in
  same_but_inputs (L := x_solver EU) b b /\ has_inputs (L := x_solver EU) b (free_inputs (WNum 1)) /\
  quadcoil user_ns EU b = Some (Ok o) /\ matching (free_inputs (WNum 1)) (free_tangents (Some (scal 0))) /\
  usable_weight (NStr "gap") (WNum 1) /\ lookup "product" (o_out EU o) = Some e /\ e_grad e = Some g /\
  exists f r, gen_quadcoil_for_diff user_ns EU b false = Ok f /\ df_jvp EU f (free_inputs (WNum 1)) (free_tangents (Some (scal 0))) = Some (Ok r).
Proof.
  destruct (free_call 5 "product" (fun x G => x * G) false) as (o & H & _); [discriminate|reflexivity|].
  destruct (gradient_keys user_ns EU _ o H eq_refl "product" (or_introl eq_refl)) as (e & g & El & Eg & _).
  exists o, e, g. cbv zeta. split; [reflexivity|]. split; [apply free_has|]. split; [exact H|]. split; [apply free_matching|].
  split; [apply free_weight|]. split; [exact El|]. split; [exact Eg|].
  destruct (jvp_ok user_ns EU (free 5 (NStr "product") false false) (free_inputs (WNum 1)) (free_tangents (Some (scal 0))) o H (or_introl eq_refl) free_matching free_weight) as (vs & ds & J & _).
  eexists _, _. split; [reflexivity|exact J].
Qed.

(** ** C99 *)
(** What is missing: the three cases below. *)
Theorem C99_usable_partial :
  forall ns E (a b : args (x_solver E)) i t o,
    same_but_inputs a b -> has_inputs b i -> qc_value_only b = false -> quadcoil ns E b = Some (Ok o) ->
    (qc_verbose a = false \/ exists d, o_results E o = Constrained E d) -> ~ requested a "f_obj" ->
    (forall b, di_Bnormal i = Some b -> wf b) ->
    matching i t -> usable_weight (qc_objective_name a) (di_weight i) ->
    exists f vs vs' ds, gen_quadcoil_for_diff ns E a false = Ok f /\ df_for_diff E f i = Some (Ok vs) /\
      df_jvp E f i t = Some (Ok (vs', ds)) /\ forall m, lookup m vs' = lookup m vs.
Proof.
  intros ns E a b i t o Hs Hi V H Hv Nf W Mt UW. rewrite (call_is E a b i false Hs Hi V) in H.
  destruct (jvp_ok ns E a i t o H Hv Mt UW) as (vs' & ds & J & K).
  destruct (for_diff_ok ns E a i o W H) as (vs & F & K').
  eexists _, vs, vs', ds. split; [reflexivity|]. split; [exact F|]. split; [exact J|]. intros m.
  destruct (K m) as [Ka Kb]. destruct (K' m) as [Ka' Kb'].
  destruct (in_dec string_dec m (metrics a)) as [I|I].
  - apply requested_iff in I. assert (N : m <> "f_obj") by (intros ->; exact (Nf I)).
    destruct (Ka I) as (e & g & v & El & _ & Ev & L1 & _). destruct (Ka' I N) as (e' & v' & El' & Ev' & L1').
    rewrite L1, L1'. congruence.
  - assert (N : ~ requested a m) by (intros X; apply I, requested_iff, X).
    rewrite (proj1 (Kb N)), Kb' by tauto. reflexivity.
Qed.
Print Assumptions C99_usable_partial.
Example C99_example : exists o,
  quadcoil user_ns EU (free 5 (NStr "product") false false) = Some (Ok o) /\
  ~ requested (free 5 (NStr "product") false false) "f_obj" /\ di_Bnormal (free_inputs (WNum 1)) = None.
Proof.
  destruct (free_call 5 "product" (fun x G => x * G) false) as (o & H & _); [discriminate|reflexivity|].
  exists o. split; [exact H|]. split; [|reflexivity]. intros [K|(l & K & _)]; discriminate K.
Qed.
(** Verbose output of an unconstrained problem cannot be differentiated. *)
Theorem C99_verbose_refuted :
  exists ns E (a : args (x_solver E)) i t f o vs, quadcoil ns E a = Some (Ok o) /\ has_inputs a i /\ matching i t /\
    gen_quadcoil_for_diff ns E a false = Ok f /\ df_for_diff E f i = Some (Ok vs) /\
    df_jvp E f i t = Some (Raise TypeError).
Proof.
  destruct (free_call 5 "product" (fun x G => x * G) true) as (o & H & _); [discriminate|reflexivity|].
  destruct (for_diff_ok user_ns EU (free 5 (NStr "product") false true) (free_inputs (WNum 1)) o) as (vs & F & _); [discriminate|exact H|].
  exists user_ns, EU, (free 5 (NStr "product") false true), (free_inputs (WNum 1)), (free_tangents (Some (scal 0))).
  eexists _, o, vs. split; [exact H|]. split; [apply free_has|]. split; [apply free_matching|]. split; [reflexivity|].
  split; [exact F|]. apply verbose_fails, free_matching.
Qed.
Print Assumptions C99_verbose_refuted.
(** Nor a single objective given an array with its weight. *)
Theorem C99_weight_refuted :
  exists ns E (a : args (x_solver E)) i t f o, quadcoil ns E a = Some (Ok o) /\ has_inputs a i /\ matching i t /\
    gen_quadcoil_for_diff ns E a false = Ok f /\ df_jvp E f i t = Some (Raise KeyError).
Proof.
  destruct arr_call as (o & H).
  exists user_ns, EU, free_arr_weight, (free_inputs (WArr (Arr [1%nat] [1]))), (free_tangents (Some (Arr [1%nat] [0]))).
  assert (M : matching (free_inputs (WArr (Arr [1%nat] [1]))) (free_tangents (Some (Arr [1%nat] [0]))))
    by (unfold matching; cbn; repeat split; eexists; split; reflexivity).
  eexists _, o. split; [exact H|]. split; [apply with_inputs_has|]. split; [exact M|]. split; [reflexivity|].
  apply (weight_missing user_ns EU free_arr_weight (free_inputs (WArr (Arr [1%nat] [1]))) (free_tangents (Some (Arr [1%nat] [0]))) o (Arr [1%nat] [1]) "gap" "product");
    [exact H|exact M|left; reflexivity|left; reflexivity|reflexivity|reflexivity|discriminate].
Qed.
Print Assumptions C99_weight_refuted.
(** With the metric 'f_obj', evaluation and differentiation return different
    sets of values. *)
Theorem C99_f_obj_refuted :
  exists ns E (a : args (x_solver E)) i t f o vs vs' ds v, quadcoil ns E a = Some (Ok o) /\ has_inputs a i /\ matching i t /\
    requested a "f_obj" /\ gen_quadcoil_for_diff ns E a false = Ok f /\ df_for_diff E f i = Some (Ok vs) /\
    df_jvp E f i t = Some (Ok (vs', ds)) /\ lookup "f_obj" vs = None /\ lookup "f_obj" vs' = Some v.
Proof.
  destruct (two_result 1) as (o & H & _).
  set (i := DiffInputs [3; 1; 1] 2 0 None None (Some [3; 2; 2]) (WArr (Arr [2%nat] [1; 1])) (VSeq [])).
  set (t := free_tangents (Some (Arr [2%nat] [1; 0]))).
  assert (M : matching i t) by (unfold matching; cbn; repeat split; eexists; split; reflexivity).
  assert (UW : usable_weight (NTuple ["gap"; "square"]) (di_weight i)).
  { intros v Hv. injection Hv as <-. split; [reflexivity|right; eauto]. }
  destruct (for_diff_ok user_ns EN (two_call 1) i o) as (vs & F & K); [discriminate|exact H|].
  destruct (jvp_ok user_ns EN (two_call 1) i t o H (or_introl eq_refl) M UW) as (vs' & ds & J & K').
  destruct (proj1 (K' "f_obj") (or_introl eq_refl)) as (e & g & v & _ & _ & _ & L1 & _).
  exists user_ns, EN, (two_call 1), i, t. eexists _, o, vs, vs', ds, v.
  split; [exact H|]. split; [unfold has_inputs; cbn; tauto|]. split; [exact M|]. split; [left; reflexivity|]. split; [reflexivity|].
  split; [exact F|]. split; [exact J|]. split; [|exact L1]. apply K. tauto.
Qed.
Print Assumptions C99_f_obj_refuted.

(** ** C102 *)
Theorem C102_kwargs_ignored :
  forall ns E (a b : args (x_solver E)), same_but_inputs a b ->
    forall v, gen_quadcoil_for_diff ns E b v = gen_quadcoil_for_diff ns E a v.
Proof. intros ns E a b H v. red in H. rewrite H. reflexivity. Qed.
Print Assumptions C102_kwargs_ignored.
Theorem C102_values_are_the_solver :
  forall ns E (a b : args (x_solver E)) i f, gen_quadcoil_for_diff ns E a false = Ok f ->
    same_but_inputs a b -> has_inputs b i -> qc_value_only b = true -> df_values E f i = quadcoil ns E b.
Proof.
  intros ns E a b i f H Hs Hi V. injection H as <-. cbn [df_values]. rewrite (call_is E a b i true Hs Hi V). reflexivity.
Qed.
Print Assumptions C102_values_are_the_solver.
Theorem C102_value_only_rejected :
  forall ns E (a : args (x_solver E)), gen_quadcoil_for_diff ns E a true = Raise TypeError.
Proof. reflexivity. Qed.
Print Assumptions C102_value_only_rejected.
Example C102_example : same_but_inputs (free 5 (NStr "product") false false) (free 7 (NStr "product") false false) /\
  qc_G (free 5 (NStr "product") false false) <> qc_G (free 7 (NStr "product") false false).
Proof. split; [reflexivity|]. cbn. lra. Qed.

(** ** C67 *)
(** With DESC installed and whatever the equilibrium and the arguments, the
    solver is not reached. *)
Theorem C67_desc_refuted :
  forall ns E q redundant scaling unit_of (a : args (x_solver E)),
    quadcoil_desc ns E true (Ok q) redundant scaling unit_of a = Some (Raise NameError).
Proof.
  intros. unfold quadcoil_desc, quadcoil_desc_with. cbn [negb]. rewrite resolve_missing by (apply desc_missing; auto). reflexivity.
Qed.
Print Assumptions C67_desc_refuted.
(** What is missing: the module lacks the names; this is about a module that
    has them. *)
Theorem C67_desc_with_names_partial :
  forall ns E names q redundant scaling unit_of (a : args (x_solver E)),
    In "_DESC_DERIVED_ARGNAMES" names -> In "warnings" names ->
    (scaling = true -> exists uu, generate_desc_scaling unit_of (qc_objective_name a) (qc_constraint_name a) = Ok uu) ->
    exists b, equilibrium_call a q b /\
      quadcoil_desc_with ns E names true (Ok q) redundant scaling unit_of a = quadcoil ns E b /\
      (scaling = true -> generate_desc_scaling unit_of (qc_objective_name a) (qc_constraint_name a) =
                         Ok (qc_objective_unit b, qc_constraint_unit b)) /\
      (scaling = false -> qc_objective_unit b = qc_objective_unit a /\ qc_constraint_unit b = qc_constraint_unit a).
Proof.
  intros ns E names q redundant scaling unit_of a H1 H2 Hs. unfold quadcoil_desc_with. cbn [negb].
  rewrite (resolve_found _ _ H1), (resolve_found _ _ H2). cbn [bind].
  replace (if redundant then Ok tt else Ok tt) with (Ok tt) by (destruct redundant; reflexivity). cbn [bind].
  destruct scaling.
  - destruct (Hs eq_refl) as ([o c] & Eu). rewrite Eu. cbn [bind fst snd]. exists (with_units (with_equilibrium a q) o c).
    split; [reflexivity|]. split; [reflexivity|]. split; [reflexivity|discriminate].
  - exists (with_equilibrium a q). split; [reflexivity|]. split; [reflexivity|]. split; [discriminate|auto].
Qed.
Print Assumptions C67_desc_with_names_partial.
Theorem C67_needs_desc :
  forall ns E read redundant scaling unit_of (a : args (x_solver E)),
    quadcoil_desc ns E false read redundant scaling unit_of a = Some (Raise ImportError).
Proof. reflexivity. Qed.
Print Assumptions C67_needs_desc.
Example C67_example :
  generate_desc_scaling (fun n => if String.eqb n "gap" then Ok 2 else Raise ValueError)
    (qc_objective_name (free 5 (NStr "product") false false)) (qc_constraint_name (free 5 (NStr "product") false false))
  = Ok (UsNum 2, UsSeq []).
Proof. reflexivity. Qed.

(** ** C101 *)
Theorem C101_load_refuted :
  forall A phi (rest : list R -> result A), load_FourierCurrentPotentialField true (Ok phi) rest = Raise NameError.
Proof.
  intros. unfold load_FourierCurrentPotentialField, load_FourierCurrentPotentialField_with. cbn [negb bind].
  rewrite resolve_missing by (apply desc_missing; auto). reflexivity.
Qed.
Print Assumptions C101_load_refuted.

(** ** C103 *)
Theorem C103_scaling :
  forall unit_of o c ou cu, generate_desc_scaling unit_of o c = Ok (ou, cu) <->
  (exists names us, c = NTuple names /\ cu = UsSeq (map UScalar us) /\ Forall2 (fun n u => unit_of n = Ok u) names us) /\
  ((exists n u, o = NStr n /\ ou = UsNum u /\ unit_of n = Ok u) \/
   (exists names us, o = NTuple names /\ ou = UsSeq (map UScalar us) /\ Forall2 (fun n u => unit_of n = Ok u) names us)).
Proof. exact scaling_ok. Qed.
Print Assumptions C103_scaling.
Example C103_example :
  generate_desc_scaling (fun n => Ok (INR (String.length n))) (NTuple ["a"; "bc"]) (NTuple ["def"; "a"])
  = Ok (UsSeq [UScalar (INR 1); UScalar (INR 2)], UsSeq [UScalar (INR 3); UScalar (INR 1)]).
Proof. reflexivity. Qed.
