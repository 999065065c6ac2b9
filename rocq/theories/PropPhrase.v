(** Property C146: equivalent ways of writing a problem have the same answer. *)
From Coq Require Import String List Bool Arith ZArith Reals Lra Lia Permutation.
From Verif Require Import Base ModelArray ModelMath SpecMath ModelSurface SpecSurface ModelParams ModelField SpecField WitnessField
  ModelQuantity SpecQuantity ModelWrapper SpecWrapper ProofWrapper ModelPackage SpecPackage ProofPackage4 PropPackage SpecConvex ProofConvex PropConvex
  SpecProblem PropProblem SpecBest ProofBest PropBest SpecOrigin PropOrigin SpecPhrase ProofPhrase.
Import ListNotations.
Open Scope R_scope.
Open Scope string_scope.
Open Scope list_scope.

(** ** C146 *)
Theorem C146_same_best_designs :
  forall other q z os cs os' cs', sound q z -> rephrased (os, cs) (os', cs') -> forall x fx, best other q os cs x fx <-> best other q os' cs' x fx.
Proof.
  intros other q z os cs os' cs' S P x fx. split; apply asked_best; apply (rephrased_asked other q z S); [exact P|now apply ph_back].
Qed.
Print Assumptions C146_same_best_designs.

(** The problems handed to the optimiser have the same best coefficients and the same optimal value. *)
Theorem C146_same_optimum_handed :
  forall other q z U U' os cs os' cs' sp f po pc f' po' pc', sound q z -> ordered q ->
  rephrased (asked_terms os, asked_bounds cs) (asked_terms os', asked_bounds cs') ->
  (forall o, In o os -> 0 <= ob_weight o /\ scaled_use U q (ob_name o) (ob_unit o)) -> (forall c, In c cs -> scaled_use U q (uc_name c) (uc_unit c)) ->
  (forall o, In o os' -> 0 <= ob_weight o /\ scaled_use U' q (ob_name o) (ob_unit o)) -> (forall c, In c cs' -> scaled_use U' q (uc_name c) (uc_unit c)) ->
  parse_objectives q_ndofs (package other) (Objectives (map ob_name os) (map (fun o => UScalar (ob_unit o)) os)) (map ob_weight os) (Some "slack") sp = Ok (f, po) ->
  parse_constraints q_ndofs (package other) (map uc_name cs) (map (fun c => op_string (uc_cmp c)) cs) (map (fun c => UScalar (uc_unit c)) cs) (map uc_val cs) (Some "slack") sp = Ok pc ->
  parse_objectives q_ndofs (package other) (Objectives (map ob_name os') (map (fun o => UScalar (ob_unit o)) os')) (map ob_weight os') (Some "slack") sp = Ok (f', po') ->
  parse_constraints q_ndofs (package other) (map uc_name cs') (map (fun c => op_string (uc_cmp c)) cs') (map (fun c => UScalar (uc_unit c)) cs') (map uc_val cs') (Some "slack") sp = Ok pc' ->
  forall x y, length x = q_ndofs q ->
  ((exists d, solver_value f po pc q (Arr [length x] x) d y) /\
   (forall x' d' y', length x' = q_ndofs q -> solver_value f po pc q (Arr [length x'] x') d' y' -> y <= y')) <->
  ((exists d, solver_value f' po' pc' q (Arr [length x] x) d y) /\
   (forall x' d' y', length x' = q_ndofs q -> solver_value f' po' pc' q (Arr [length x'] x') d' y' -> y <= y')).
Proof.
  intros other q z U U' os cs os' cs' sp f po pc f' po' pc' S O P Uo Uc Uo' Uc' Eo Ec Eo' Ec' x y L.
  rewrite (C114_same_optimum other q z U os cs sp f po pc S O Uo Uc Eo Ec x y L), (C114_same_optimum other q z U' os' cs' sp f' po' pc' S O Uo' Uc' Eo' Ec' x y L).
  pose proof (C146_same_best_designs other q z _ _ _ _ S P x y) as H. unfold best in H. tauto.
Qed.
Print Assumptions C146_same_optimum_handed.

(** All weights multiplied by a positive number. *)
Theorem C146_common_factor :
  forall other q k os cs x fx, 0 < k -> (best other q os cs x fx <-> best other q (map (fun o => (fst o, k * snd o)) os) cs x (k * fx)).
Proof.
  intros other q k os cs x fx K.
  assert (A : forall k os y r, weighted other q os y r -> weighted other q (map (fun o => (fst o, k * snd o)) os) y (k * r)).
  { clear. intros k os y r (vs & F & ->). exists vs. induction F as [|[n w] m os vs Rm F (IH1 & IH2)]; [split; [constructor|unfold Rsum; cbn; ring]|].
    split; [constructor; assumption|]. unfold Rsum in *. cbn [map map2 fold_right fst snd] in *. rewrite <- IH2. ring. }
  assert (B : forall os y r, weighted other q (map (fun o => (fst o, k * snd o)) os) y r -> exists s, r = k * s /\ weighted other q os y s).
  { intros os0 y r W. exists (/ k * r). split; [field; lra|]. apply (A (/ k)) in W. rewrite map_map in W.
    replace (map (fun x0 => (fst (fst x0, k * snd x0), / k * snd (fst x0, k * snd x0))) os0) with os0 in W; [exact W|].
    rewrite <- (map_id os0) at 1. apply map_ext. intros [n w]. cbn [fst snd]. f_equal. field. lra. }
  split; intros (L & F & W & Le); (split; [exact L|]); (split; [exact F|]).
  - split; [now apply A|]. intros y f1 f2 Ly _ Fy W1 W2. destruct (B _ _ _ W1) as (s1 & -> & V1). destruct (B _ _ _ W2) as (s2 & -> & V2). apply Rmult_le_compat_l; [lra|]. exact (Le y s1 s2 Ly I Fy V1 V2).
  - destruct (B _ _ _ W) as (s & E & V). apply Rmult_eq_reg_l in E; [|lra]. rewrite E. split; [exact V|]. intros y f1 f2 Ly _ Fy W1 W2. apply Rmult_le_reg_l with k; [exact K|]. exact (Le y _ _ Ly I Fy (A _ _ _ _ W1) (A _ _ _ _ W2)).
Qed.
Print Assumptions C146_common_factor.

(** The problem of C143 with a term in two parts, in another order, and with the bound at every point. *)
Example C146_example : exists x fx b, sound (lit false) nine /\
  rephrased (penalised, [("f_max_K2", LE, b)]) ([("f_Phi", 1); ("f_B", 1); ("f_Phi", 1)], [("K2", LE, b)]) /\
  best [] (lit false) penalised [("f_max_K2", LE, b)] x fx /\ best [] (lit false) [("f_Phi", 1); ("f_B", 1); ("f_Phi", 1)] [("K2", LE, b)] x fx.
Proof.
  destruct C143_example as (_ & x & _ & fx & b & S & _ & _ & _ & _ & _ & B & _). exists x, fx, b. split; [exact S|].
  assert (P : rephrased (penalised, [("f_max_K2", LE, b)]) ([("f_Phi", 1); ("f_B", 1); ("f_Phi", 1)], [("K2", LE, b)])).
  { apply ph_then with (penalised, [("K2", LE, b)]); [apply ph_density|].
    apply ph_then with ([("f_Phi", 1 + 1); ("f_B", 1)], [("K2", LE, b)]); [apply ph_order; [apply perm_swap|apply Permutation_refl]|].
    apply ph_then with ([("f_Phi", 1); ("f_Phi", 1); ("f_B", 1)], [("K2", LE, b)]); [apply ph_parts|]. apply ph_order; [|apply Permutation_refl]. apply perm_skip, perm_swap. }
  split; [exact P|]. split; [exact B|]. now apply (C146_same_best_designs [] (lit false) nine _ _ _ _ S P).
Qed.
(** Two ways of asking for a design with small potential, the potential bounded by 5. *)
Example C146_example_handed :
  let os := [OB "f_Phi" 2 1] in let cs := [UC "f_max_Phi" LE (-3) 5] in
  let os' := [OB "f_Phi" 4 1; OB "f_Phi" 1 (1 / 4)] in let cs' := [UC "Phi" GE 7 (-5); UC "Phi" LE 1 5; UC "f_max_Phi4" LE 2 625] in
  let U n := if String.eqb n "f_max_Phi" then 3 else 2 in
  sound shown (repeat 0 4) /\ ordered shown /\ rephrased (asked_terms os, asked_bounds cs) (asked_terms os', asked_bounds cs') /\
  (forall o, In o (os ++ os') -> 0 <= ob_weight o /\ scaled_use U shown (ob_name o) (ob_unit o)) /\ (forall c, In c (cs ++ cs') -> scaled_use U shown (uc_name c) (uc_unit c)) /\
  exists f po pc f' po' pc',
  parse_objectives q_ndofs (package []) (Objectives (map ob_name os) (map (fun o => UScalar (ob_unit o)) os)) (map ob_weight os) (Some "slack") [] = Ok (f, po) /\
  parse_constraints q_ndofs (package []) (map uc_name cs) (map (fun c => op_string (uc_cmp c)) cs) (map (fun c => UScalar (uc_unit c)) cs) (map uc_val cs) (Some "slack") [] = Ok pc /\
  parse_objectives q_ndofs (package []) (Objectives (map ob_name os') (map (fun o => UScalar (ob_unit o)) os')) (map ob_weight os') (Some "slack") [] = Ok (f', po') /\
  parse_constraints q_ndofs (package []) (map uc_name cs') (map (fun c => op_string (uc_cmp c)) cs') (map (fun c => UScalar (uc_unit c)) cs') (map uc_val cs') (Some "slack") [] = Ok pc'.
Proof.
  intros os cs os' cs' U. destruct C114_example as (S & O & _). split; [exact S|]. split; [exact O|]. split.
  { unfold asked_terms, asked_bounds, os, cs, os', cs'. cbn [map ob_name ob_weight ob_unit uc_name uc_cmp uc_val]. rewrite (Rabs_right 2), (Rabs_right 4), (Rabs_right 1) by lra.
    replace (1 / 2) with (1 / 4 + 1 / 4 / 1) by field.
    apply ph_then with ([("f_Phi", 1 / 4); ("f_Phi", 1 / 4 / 1)], [("f_max_Phi", LE, 5)]); [apply ph_parts|].
    apply ph_then with ([("f_Phi", 1 / 4); ("f_Phi", 1 / 4 / 1)], [("f_max_Phi", LE, 5); ("f_max_Phi", LE, 5)]); [apply ph_back, ph_looser; lra|].
    apply ph_then with ([("f_Phi", 1 / 4); ("f_Phi", 1 / 4 / 1)], [("f_max_Phi4", LE, 5 ^ 4); ("f_max_Phi", LE, 5)]); [apply ph_back, ph_Phi4; lra|].
    replace (5 ^ 4) with 625 by ring.
    apply ph_then with ([("f_Phi", 1 / 4); ("f_Phi", 1 / 4 / 1)], [("f_max_Phi", LE, 5); ("f_max_Phi4", LE, 625)]); [apply ph_order; [apply Permutation_refl|apply perm_swap]|].
    apply ph_then with ([("f_Phi", 1 / 4); ("f_Phi", 1 / 4 / 1)], [("Phi", LE, 5); ("Phi", GE, - (5)); ("f_max_Phi4", LE, 625)]); [apply ph_peak; cbn; tauto|].
    apply ph_order; [apply Permutation_refl|]. replace (- (5)) with (-5) by lra. apply perm_swap. }
  split; [|split].
  - intros o [<-|[<-|[<-|[]]]]; (split; [cbn; lra|]); (split; [cbn; lra|]); cbn [ob_name ob_unit]; right; (split; [cbn; tauto|discriminate]).
  - intros c [<-|[<-|[<-|[<-|[]]]]]; (split; [cbn; lra|]); cbn [uc_name uc_unit].
    + left. split; [cbn; tauto|]. unfold U. cbn. rewrite Rabs_left; lra.
    + right. split; [cbn; tauto|discriminate].
    + right. split; [cbn; tauto|discriminate].
    + left. split; [cbn; tauto|]. unfold U. cbn. rewrite Rabs_right; lra.
  - assert (Po : forall l, l = os \/ l = os' -> exists r, parse_objectives q_ndofs (package []) (Objectives (map ob_name l) (map (fun o => UScalar (ob_unit o)) l)) (map ob_weight l) (Some "slack") [] = Ok r).
    { intros l [-> | ->]; apply parse_objectives_ok; (split; [reflexivity|]); (split; [cbn; lia|]); (split; [right; right; left; reflexivity|]);
      intros n u I; cbn [os os' map combine ob_name ob_unit In] in I; repeat destruct I as [I|I]; try contradiction; injection I as <- <-;
      (eexists; split; [reflexivity|split; [cbn; tauto|discriminate]]). }
    assert (Pc : forall l, l = cs \/ l = cs' -> exists r, parse_constraints q_ndofs (package []) (map uc_name l) (map (fun c => op_string (uc_cmp c)) l) (map (fun c => UScalar (uc_unit c)) l) (map uc_val l) (Some "slack") [] = Ok r).
    { intros l [-> | ->]; apply parse_constraints_ok; (do 3 (split; [reflexivity|])); (split; [right; right; left; reflexivity|]);
      intros n t u I; cbn [cs cs' map combine uc_name uc_cmp uc_unit op_string In] in I; repeat destruct I as [I|I]; try contradiction; injection I as <- <- <-;
      (split; [eexists; split; [reflexivity|split; [cbn; tauto|discriminate]]|cbn; tauto]). }
    destruct (Po os (or_introl eq_refl)) as ([f po] & E1). destruct (Pc cs (or_introl eq_refl)) as (pc & E2). destruct (Po os' (or_intror eq_refl)) as ([f' po'] & E3). destruct (Pc cs' (or_intror eq_refl)) as (pc' & E4).
    exists f, po, pc, f', po', pc'. auto.
Qed.
