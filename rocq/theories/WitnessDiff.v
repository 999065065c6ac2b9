(** Concrete calls of the differentiable wrapper. *)
From Coq Require Import String List Bool Arith ZArith Reals Lra Lia.
From Verif Require Import Base ModelArray ModelMath ModelQuantity ModelWrapper ModelSurface ModelParams ModelField
  ModelSolver ModelQuadcoil ModelDiff SpecMath SpecSurface SpecQuadcoil SpecDiff
  ProofQuadcoil ProofQuadcoil2 ProofDiff
  WitnessSurface WitnessField WitnessQuadcoil WitnessQuadcoil2 WitnessQuadcoil3.
Import ListNotations.
Open Scope R_scope.
Open Scope string_scope.
Open Scope list_scope.

(** The inputs of the unconstrained call [free 5] and tangents along the net
    poloidal current; [w] is the weight. *)
Definition free_inputs (w : weight_arg) : diff_inputs := DiffInputs [3; 1; 1] 5 0 None None (Some [3; 2; 2]) w (VSeq []).
Definition free_tangents (w : option arr) : tangents :=
  Tangents (Some (Arr [3%nat] [0; 0; 0])) (Some (scal 1)) (Some (scal 0)) None None (Some (Arr [3%nat] [0; 0; 0])) w (Some (Arr [0%nat] [])).
Lemma free_has verb : has_inputs (free 5 (NStr "product") false verb) (free_inputs (WNum 1)).
Proof. unfold has_inputs. cbn. tauto. Qed.
Lemma free_matching : matching (free_inputs (WNum 1)) (free_tangents (Some (scal 0))).
Proof. unfold matching. cbn. repeat split; eexists; split; reflexivity. Qed.
Lemma free_weight : usable_weight (NStr "gap") (WNum 1).
Proof. intros v H. discriminate. Qed.
Definition free_arr_weight : args unit := with_inputs (free 5 (NStr "product") false false) (free_inputs (WArr (Arr [1%nat] [1]))) false.
Lemma arr_prepared : prepare (L := x_solver EU) user_ns free_arr_weight = prepare (L := x_solver EU) user_ns (free 5 (NStr "product") false false).
Proof. reflexivity. Qed.
Lemma arr_finish p r : finish user_ns EU free_arr_weight p r = finish user_ns EU (free 5 (NStr "product") false false) p r.
Proof. reflexivity. Qed.
Lemma arr_solve p : solve EU free_arr_weight p = solve EU (free 5 (NStr "product") false false) p.
Proof. reflexivity. Qed.
Lemma arr_call : exists o, quadcoil user_ns EU free_arr_weight = Some (Ok o).
Proof.
  destruct (free_call 5 "product" (fun x G => x * G) false) as (o & H & _); [discriminate|reflexivity|].
  exists o. rewrite <- H. unfold quadcoil. rewrite arr_prepared.
  destruct (prepare (L := x_solver EU) user_ns (free 5 (NStr "product") false false)) as [p|]; [|reflexivity].
  rewrite arr_solve.
  match goal with |- match ?A with _ => _ end = match ?B with _ => _ end => change B with A; destruct A as [r|]; [|reflexivity] end.
  rewrite arr_finish. reflexivity.
Qed.

(** ** Failures of the derivative rule *)
Lemma first_entry (out : ModelArray.dict ModelQuadcoil.entry) t k e ex : In (k, e) out ->
  (forall k e, In (k, e) out -> jvp_loop [(k, e)] t = Raise ex) -> jvp_loop out t = Raise ex.
Proof.
  destruct out as [|[k1 e1] out]; [intros []|]. intros _ H. specialize (H k1 e1 (or_introl eq_refl)).
  cbn [jvp_loop] in *. destruct (entry_value e1); cbn [bind] in *; [|exact H].
  destruct (jvp_entry e1 t); cbn [bind] in *; [discriminate H|exact H].
Qed.
(** A verbose call without constraints. *)
Lemma verbose_fails t : matching (free_inputs (WNum 1)) t ->
  quadcoil_for_diff_jvp user_ns EU (free 5 (NStr "product") false true) (free_inputs (WNum 1)) t = Some (Raise TypeError).
Proof.
  intros _. destruct (free_call 5 "product" (fun x G => x * G) true) as (o & H & Hr & _); [discriminate|reflexivity|].
  unfold quadcoil_for_diff_jvp.
  change (with_inputs (free 5 (NStr "product") false true) (free_inputs (WNum 1)) false) with (free 5 (NStr "product") false true).
  rewrite H. cbn [option_map bind]. f_equal.
  destruct (quadcoil_ok user_ns EU _ o H) as (p & r & d & Hp & Hs & Hf & _ & _ & _ & Er).
  destruct (finish_gradient user_ns EU _ _ _ _ Hf eq_refl) as (out0 & Hg & E0).
  rewrite Er in Hr. rewrite Hr in E0, Hg. cbn [qc_verbose free demo] in E0.
  change (metrics (free 5 (NStr "product") false true)) with ["product"] in Hg. cbn [grad_metrics] in Hg.
  rewrite E0 in Hg.
  match type of Hg with bind ?A _ = _ => destruct A as [v|]; [|discriminate Hg] end. cbn [bind] in Hg.
  destruct (isscalar v); [|discriminate Hg]. cbn [dict_set String.eqb] in Hg.
  assert (Ho : forall (x y : ModelArray.dict ModelQuadcoil.entry), Ok x = Ok y -> y = x) by congruence.
  apply Ho in Hg. rewrite Hg. reflexivity.
Qed.
