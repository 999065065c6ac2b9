(** Properties C30-C36: parsing of objectives and constraints. *)
From Coq Require Import String List Bool Arith ZArith Reals Lra Lia.
From Verif Require Import Base ModelArray ModelMath ModelQuantity ModelWrapper ModelShipped
  SpecMath SpecQuantity SpecWrapper ProofArray ProofMath ProofQuantity ProofSlack ProofSlackInit
  ProofWrapper ProofWrapper2 WitnessQuantity WitnessWrapper.
Import ListNotations.
Open Scope R_scope.
Open Scope string_scope.
Open Scope list_scope.

(** ** C30 *)
(** A list of constraints with nonzero numeric units, no smoothing (any
    quantity) or slack smoothing (smooth quantities): the generated system holds
    exactly when every constraint holds at every grid point, and no slack
    variable is introduced. *)
Theorem C30_constraint_meaning :
  forall P ndofs (ns : namespace P) cs mode sp qp d p, not_approx mode ->
    (forall c, In c cs -> uc_unit c <> 0 /\
       exists q fld, ns (uc_name c) = Some (AQuantity q) /\ plain q mode qp d fld) ->
    parse_constraints ndofs ns (map uc_name cs) (map (fun c => op_string (uc_cmp c)) cs)
      (map (fun c => UScalar (uc_unit c)) cs) (map uc_val cs) mode sp = Ok p ->
    p_slack p = [] /\
    (system_holds p qp d <->
     forall c q fld, In c cs -> ns (uc_name c) = Some (AQuantity q) -> plain q mode qp d fld ->
       meets (uc_cmp c) (uc_val c) fld).
Proof. exact constraint_meaning. Qed.
Print Assumptions C30_constraint_meaning.

(** Slack smoothing of a non-smooth quantity: some admissible slack value makes
    the generated system hold exactly when the raw value meets the bound.  The
    hypothesis [slack_exact] is what C23 and C24 prove of every L-infinity and
    L1 quantity. *)
Theorem C30_slack_constraint_meaning :
  forall P ndofs (ns : namespace P) name u val sp p (q : quantity P) qp phi aux raw adm,
    parse_constraints ndofs ns [name] ["<="] [UScalar u] [val] (Some "slack") sp = Ok p ->
    ns name = Some (AQuantity q) -> u <> 0 ->
    slack_exact q qp phi aux (Rabs u) (raw / Rabs u) adm ->
    ((exists s, adm s /\ system_holds p qp (state phi aux s)) <-> raw <= val).
Proof. exact slack_constraint_exact. Qed.
Print Assumptions C30_slack_constraint_meaning.

Example C30_example :
  (exists p, parse_constraints one_dof demo_ns ["id"; "shifted"] ["<="; "=="] [UScalar 2; UScalar (-3)] [5; 1]
     (Some "slack") [] = Ok p) /\
  plain smooth_id (Some "slack") tt (state1 [2]) (Arr [1%nat] [2]) /\
  plain smooth_shifted (Some "slack") tt (state1 [2]) (Arr [1%nat] [2 - 1]) /\
  meets LE 5 (Arr [1%nat] [2]) /\ meets EQ 1 (Arr [1%nat] [2 - 1]).
Proof. exact ex_c30. Qed.
Example C30_example_slack :
  (exists p, parse_constraints one_dof demo_ns ["max"] ["<="] [UScalar 2] [5] (Some "slack") [] = Ok p) /\
  exists M, is_max M (map Rabs [3; -4]) /\
    slack_exact max_id tt (Arr [2%nat] [3; -4]) "t" (Rabs 2) (M / Rabs 2) (fun s => exists t, s = scal t).
Proof. exact ex_c30_slack. Qed.

(** ** C31 *)
(** With unit None the reference value keeps its sign: a negative reference
    turns the inequality round. *)
Theorem C31_auto_unit_refuted :
  exists (ns : namespace unit) q p fld,
  parse_constraints one_dof ns ["shifted"] ["<="] [UNone] [2] None [] = Ok p /\
  ns "shifted" = Some (AQuantity q) /\ plain q None tt (state1 [6]) fld /\
  system_holds p tt (state1 [6]) /\ ~ meets LE 2 fld.
Proof. exact auto_unit_witness. Qed.
Print Assumptions C31_auto_unit_refuted.

(** Positive reference values keep the meaning, negative ones reverse it.
    Missing: the general claim, which is false; reference values of mixed sign
    are treated point by point in C31_auto_unit_pointwise_partial. *)
Theorem C31_auto_unit_partial :
  forall P ndofs (ns : namespace P) name c val mode sp qp d p q fld ref,
    parse_constraints ndofs ns [name] [op_string c] [UNone] [val] mode sp = Ok p ->
    not_approx mode -> ns name = Some (AQuantity q) -> plain q mode qp d fld ->
    call q qp [("phi", Arr [ndofs qp] (repeat 0 (ndofs qp)))] = Ok ref ->
    wf ref -> sh ref = sh fld ->
    ((forall r, In r (el ref) -> 0 < r) -> (system_holds p qp d <-> meets c val fld)) /\
    ((forall r, In r (el ref) -> r < 0) -> (system_holds p qp d <-> meets (flip c) val fld)).
Proof. exact auto_unit_positive. Qed.
Print Assumptions C31_auto_unit_partial.

Theorem C31_auto_unit_pointwise_partial :
  forall P ndofs (ns : namespace P) name c val mode sp qp d p q fld ref,
    parse_constraints ndofs ns [name] [op_string c] [UNone] [val] mode sp = Ok p ->
    not_approx mode -> ns name = Some (AQuantity q) -> plain q mode qp d fld ->
    call q qp [("phi", Arr [ndofs qp] (repeat 0 (ndofs qp)))] = Ok ref ->
    wf ref -> sh ref = sh fld -> (forall r, In r (el ref) -> r <> 0) ->
    (system_holds p qp d <->
     forall x r, In (x, r) (combine (el fld) (el ref)) ->
       meets1 (if Rlt_dec r 0 then flip c else c) val x).
Proof. exact auto_unit_meaning. Qed.
Print Assumptions C31_auto_unit_pointwise_partial.

Example C31_example :
  (exists p, parse_constraints one_dof demo_ns ["shifted"] [">="] [UNone] [2] None [] = Ok p) /\
  call smooth_shifted tt [("phi", Arr [one_dof tt] (repeat 0 (one_dof tt)))] = Ok (Arr [1%nat] [0 - 1]) /\
  plain smooth_shifted None tt (state1 [6]) (Arr [1%nat] [6 - 1]) /\ not_approx None.
Proof. exact ex_c31. Qed.
Example C31_example_positive :
  exists q reg, init_quantity [] (generate_c2 const_field all_uses) = (reg, Ok q) /\
  call q tt [("phi", Arr [1%nat] [0])] = Ok (Arr [1%nat] [3]) /\
  plain q None tt (state1 [6]) (Arr [1%nat] [3]) /\ (forall r, In r (el (Arr [1%nat] [3])) -> 0 < r).
Proof. exact ex_c31_pos. Qed.

(** ** C32 *)
(** An equality on a field is accepted although it holds nowhere. *)
Theorem C32_approx_equality_refuted :
  exists p,
  parse_constraints one_dof demo_ns ["id"] ["=="] [UScalar 1] [0] (Some "approx") [("lse_epsilon", 1)] = Ok p /\
  system_holds p tt (state1 [- ln 2; - ln 2]) /\
  ~ meets EQ 0 (Arr [2%nat] [- ln 2; - ln 2]).
Proof. exact approx_eq_witness. Qed.
Print Assumptions C32_approx_equality_refuted.

(** Inequalities are conservative.  Missing: equalities, where it is false. *)
Theorem C32_approx_conservative_partial :
  forall P ndofs (ns : namespace P) cs sp eps qp d p,
    parse_constraints ndofs ns (map uc_name cs) (map (fun c => op_string (uc_cmp c)) cs)
      (map (fun c => UScalar (uc_unit c)) cs) (map uc_val cs) (Some "approx") sp = Ok p ->
    lookup "lse_epsilon" sp = Some eps -> 0 < eps ->
    system_holds p qp d ->
    forall c q func fld, In c cs -> uc_unit c <> 0 -> uc_cmp c <> EQ ->
      ns (uc_name c) = Some (AQuantity q) -> smooth_quantity q func ->
      func qp d = Ok fld -> wf fld -> sh fld <> [] ->
      meets (uc_cmp c) (uc_val c) fld.
Proof. exact approx_conservative. Qed.
Print Assumptions C32_approx_conservative_partial.

(** And not needlessly so: a margin of |unit| eps ln(n) suffices. *)
Theorem C32_approx_margin_partial :
  forall P ndofs (ns : namespace P) cs sp eps qp d p,
    parse_constraints ndofs ns (map uc_name cs) (map (fun c => op_string (uc_cmp c)) cs)
      (map (fun c => UScalar (uc_unit c)) cs) (map uc_val cs) (Some "approx") sp = Ok p ->
    lookup "lse_epsilon" sp = Some eps -> 0 < eps ->
    (forall c, In c cs -> uc_unit c <> 0 /\ uc_cmp c <> EQ /\ exists q func fld,
       ns (uc_name c) = Some (AQuantity q) /\ smooth_quantity q func /\ func qp d = Ok fld /\ wf fld /\
       sh fld <> [] /\ el fld <> [] /\
       let margin := Rabs (uc_unit c) * (eps * ln (INR (length (el fld)))) in
       meets (uc_cmp c) (match uc_cmp c with GE => uc_val c + margin | _ => uc_val c - margin end) fld) ->
    system_holds p qp d.
Proof. exact approx_margin. Qed.
Print Assumptions C32_approx_margin_partial.

Example C32_example :
  (exists p, parse_constraints one_dof demo_ns ["id"] ["<="] [UScalar 1] [5] (Some "approx") [("lse_epsilon", 1)] = Ok p) /\
  smooth_quantity smooth_id id_field /\
  id_field tt (state1 [1; 2]) = Ok (Arr [2%nat] [1; 2]) /\
  meets LE (5 - Rabs 1 * (1 * ln (INR 2))) (Arr [2%nat] [1; 2]).
Proof. exact ex_c32. Qed.

(** ** C33 *)
(** Parsing a tuple of objectives adds each quantity in order; the total is the
    weighted sum of their scaled values; every generated constraint and slack
    variable of every objective is kept. *)
Theorem C33_weighted_sum :
  forall P ndofs (ns : namespace P) names units ws mode sp f acc,
    parse_objectives ndofs ns (Objectives names units) ws mode sp = Ok (f, acc) ->
    exists l, Forall2 (fun nu a => add_quantity ndofs ns (fst nu) (snd nu) "f" mode sp = Ok a)
                (combine names units) l /\ length l = length names /\
      (forall g, In g (p_g acc) <-> exists a, In a l /\ In g (ad_g a)) /\
      (forall h, In h (p_h acc) <-> exists a, In a l /\ In h (ad_h a)) /\
      (forall a k, In a l -> lookup k (ad_slack a) <> None -> lookup k (p_slack acc) <> None) /\
      forall qp d vs, Forall2 (fun a v => ad_f a qp d = Ok (scal v)) l vs ->
        f qp d = Ok (scal (Rsum (map (fun p => fst p * snd p) (combine ws vs)))).
Proof. exact objective_sum. Qed.
Print Assumptions C33_weighted_sum.

(** Without smoothing the summand is the raw value over the size of the unit. *)
Theorem C33_scaled_value :
  forall P ndofs (ns : namespace P) name u use sp a q qp d r,
    add_quantity ndofs ns name (UScalar u) use None sp = Ok a -> ns name = Some (AQuantity q) ->
    q_raw q qp d = Ok (scal r) -> ad_f a qp d = Ok (scal (r / Rabs u)).
Proof. exact added_value_none. Qed.
Print Assumptions C33_scaled_value.

(** A single name is its own objective with weight one. *)
Theorem C33_single_name :
  forall P ndofs (ns : namespace P) name u ws ws' mode sp,
    parse_objectives ndofs ns (OneObjective name u) ws mode sp
    = parse_objectives ndofs ns (OneObjective name u) ws' mode sp /\
    parse_objectives ndofs ns (OneObjective name u) ws mode sp
    = parse_objectives ndofs ns (Objectives [name] [u]) [1] mode sp.
Proof. exact single_objective. Qed.
Print Assumptions C33_single_name.

Theorem C33_mismatch_rejected :
  forall P ndofs (ns : namespace P) names units ws mode sp, length names <> length ws ->
    parse_objectives ndofs ns (Objectives names units) ws mode sp = Raise ValueError.
Proof. exact mismatch_rejected. Qed.
Print Assumptions C33_mismatch_rejected.

Example C33_example : exists f po,
  parse_objectives one_dof demo_ns (Objectives ["max"; "max"] [UScalar 2; UScalar 4]) [10; 100] None [] = Ok (f, po) /\
  f tt (state1 [-3]) = Ok (scal (10 * (3 / 2) + 100 * (3 / 4))).
Proof. exact ex_c33. Qed.

(** ** C34 *)
(** Parsing succeeds exactly on supported uses. *)
Theorem C34_constraints_accepted_iff :
  forall P ndofs (ns : namespace P) names types units vals mode sp,
    (exists r, parse_constraints ndofs ns names types units vals mode sp = Ok r) <->
    length types = length names /\ length units = length names /\ length vals = length names /\
    (names = [] \/ known_mode mode) /\
    (forall n t u, In (n, (t, u)) (combine names (combine types units)) ->
        supported ns n t u /\ In t ["<="; ">="; "=="]).
Proof. exact parse_constraints_ok. Qed.
Print Assumptions C34_constraints_accepted_iff.

Theorem C34_objectives_accepted_iff :
  forall P ndofs (ns : namespace P) names units ws mode sp,
    (exists r, parse_objectives ndofs ns (Objectives names units) ws mode sp = Ok r) <->
    length ws = length names /\ (length names <= length units)%nat /\
    (names = [] \/ known_mode mode) /\
    (forall n u, In (n, u) (combine names units) -> supported ns n "f" u).
Proof. exact parse_objectives_ok. Qed.
Print Assumptions C34_objectives_accepted_iff.

(** Every rejection of a single quantity is a ValueError, or a TypeError for a
    unit that is no number. *)
Theorem C34_rejection_class :
  forall P ndofs (ns : namespace P) name u use mode sp e,
    add_quantity ndofs ns name u use mode sp = Raise e ->
    e = ValueError \/ (e = TypeError /\ u = UOther).
Proof. exact add_raises. Qed.
Print Assumptions C34_rejection_class.

Example C34_example :
  supported demo_ns "id" "<=" (UScalar 1) /\ ~ supported demo_ns "max" ">=" (UScalar 1) /\
  ~ supported demo_ns "jnp" "f" UNone /\ ~ supported demo_ns "missing" "f" UNone.
Proof. exact ex_c34. Qed.

(** ** C35 *)
Theorem C35_merge_keeps_every_constraint :
  forall P (fs : list (option (callable P))) mode sp qp d,
    (forall f, In (Some f) fs -> exists o, f qp d = Ok o) ->
    exists out, merge_callables fs false mode sp qp d = Ok out /\
      (all_le0 out <-> forall f o, In (Some f) fs -> f qp d = Ok o -> all_le0 o) /\
      (all_eq0 out <-> forall f o, In (Some f) fs -> f qp d = Ok o -> all_eq0 o).
Proof. exact merge_plain. Qed.
Print Assumptions C35_merge_keeps_every_constraint.

Theorem C35_merge_to_one_is_sound :
  forall P (fs : list (option (callable P))) sp qp d out eps,
    lookup "lse_epsilon" sp = Some eps -> 0 < eps ->
    merge_callables fs true (Some "approx") sp qp d = Ok out ->
    (exists f, In (Some f) fs) ->
    length (el out) = 1%nat /\
    (all_le0 out -> forall f o, In (Some f) fs -> f qp d = Ok o -> all_le0 o).
Proof. exact merge_single. Qed.
Print Assumptions C35_merge_to_one_is_sound.

Theorem C35_merge_refused_without_approx :
  forall P (fs : list (option (callable P))) mode sp qp d,
    mode <> Some "approx" -> (exists f, In (Some f) fs) ->
    (forall f, In (Some f) fs -> exists o, f qp d = Ok o) ->
    merge_callables fs true mode sp qp d = Raise AttributeError.
Proof. exact merge_refused. Qed.
Print Assumptions C35_merge_refused_without_approx.

Example C35_example :
  let fs : list (option (callable unit)) :=
    [Some (fun _ _ => Ok (scal (-1))); None; Some (fun _ _ => Ok (Arr [1%nat] [2]))] in
  merge_callables fs false None [] tt [] = Ok (Arr [2%nat] [-1; 2]) /\
  (exists out, merge_callables fs true (Some "approx") [("lse_epsilon", 1)] tt [] = Ok out).
Proof. split; [reflexivity|eexists; reflexivity]. Qed.

(** ** C36 *)
(** Different units for the same slack quantity: one slack variable serves two
    scales and a feasible problem becomes infeasible. *)
Theorem C36_mixed_units_refuted :
  exists f po pc,
  parse_objectives one_dof demo_ns (Objectives ["max"] [UScalar 1]) [1] (Some "slack") [] = Ok (f, po) /\
  parse_constraints one_dof demo_ns ["max"] ["<="] [UScalar 2] [4] (Some "slack") [] = Ok pc /\
  call max_id tt (state1 [3]) = Ok (scal 3) /\ 3 <= 4 /\
  forall t, ~ (system_holds po tt (state (Arr [1%nat] [3]) "t" (scal t)) /\
               system_holds pc tt (state (Arr [1%nat] [3]) "t" (scal t))).
Proof. exact mixed_units_witness. Qed.
Print Assumptions C36_mixed_units_refuted.

(** With units of equal size and non-negative weights the combined problem is
    equivalent, for any number of objectives and upper bounds.  Missing: units
    of different size, where it is false. *)
Theorem C36_equal_units_partial :
  forall P ndofs ss func aux pd sqr au reg reg' q (ns : namespace P) name sp
      (ounits : list R) (ws : list R) (cs : list (R * R)) f po pc,
    init_quantity reg (generate_linf_norm P ss func aux pd sqr au) = (reg', Ok q) ->
    ns name = Some (AQuantity q) -> aux <> "phi" -> phi_only func ->
    forall u, 0 < u -> (forall v : R, In v ounits -> Rabs v = u) -> (forall v : R * R, In v cs -> Rabs (fst v) = u) ->
    (ounits <> [] \/ cs <> []) -> (forall w, In w ws -> 0 <= w) ->
    parse_objectives ndofs ns (Objectives (map (fun _ => name) ounits) (map UScalar ounits)) ws (Some "slack") sp = Ok (f, po) ->
    parse_constraints ndofs ns (map (fun _ => name) cs) (map (fun _ => "<=") cs)
      (map (fun c => UScalar (fst c)) cs) (map snd cs) (Some "slack") sp = Ok pc ->
    forall (qp : P) phi fld raw, func qp [("phi", phi)] = Ok fld -> el fld <> [] ->
    (pd = true -> forall x, In x (el fld) -> 0 <= x) ->
    call q qp [("phi", phi)] = Ok (scal raw) ->
    forall bound,
    (exists t y, let d := state phi aux (scal t) in
       system_holds po qp d /\ system_holds pc qp d /\ f qp d = Ok (scal y) /\ y <= bound)
    <-> (forall c, In c cs -> raw <= snd c) /\ Rsum ws * (raw / u) <= bound.
Proof. exact repeated_equal_units. Qed.
Print Assumptions C36_equal_units_partial.

Example C36_example :
  (exists r, parse_objectives one_dof demo_ns (Objectives (map (fun _ => "max") [2; -2]) (map UScalar [2; -2])) [1; 3]
     (Some "slack") [] = Ok r) /\
  (exists p, parse_constraints one_dof demo_ns (map (fun _ => "max") [(2, 5)]) (map (fun _ => "<=") [(2, 5)])
     (map (fun c => UScalar (fst c)) [(2, 5)]) (map snd [(2, 5)]) (Some "slack") [] = Ok p) /\
  (forall v, In v [2; -2] -> Rabs v = 2).
Proof. exact ex_c36. Qed.
