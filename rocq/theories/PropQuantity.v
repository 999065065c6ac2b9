(** Properties C23-C29 and C71: quantities, their slack and smoothed forms. *)
From Coq Require Import String List Bool Arith ZArith Reals Lra Lia.
From Verif Require Import Base ModelArray ModelMath ModelQuantity ModelWrapper ModelShipped
  SpecMath SpecQuantity ProofArray ProofMath ProofQuantity ProofSlack ProofSlackInit ProofSlackLim
  WitnessQuantity.
Import ListNotations.
Open Scope R_scope.
Open Scope string_scope.
Open Scope list_scope.

(** ** C23 *)
(** A slack value is feasible exactly when it bounds the scaled field. *)
Theorem C23_linf_feasible :
  forall P ss func aux pd sqr au reg reg' q,
    init_quantity reg (generate_linf_norm P ss func aux pd sqr au) = (reg', Ok q) ->
    aux <> "phi" ->
    forall qp phi fld u t, func qp (state phi aux (scal t)) = Ok fld -> 0 < u ->
    (pd = true -> forall x, In x (el fld) -> 0 <= x) ->
    exists G gv, scaled_g_ineq_impl q (Some "slack") = Ok (Some G) /\
      G qp (state phi aux (scal t)) (scal u) = Ok gv /\
      (all_le0 gv <-> forall x, In x (el fld) -> Rabs x / (if sqr then sqrt u else u) <= t).
Proof. exact linf_feasible. Qed.
Print Assumptions C23_linf_feasible.

(** The constrained minimum of the generated objective is the raw quantity over
    the unit. *)
Theorem C23_linf_slack_exact :
  forall P ss func aux pd sqr au reg reg' q,
  init_quantity reg (generate_linf_norm P ss func aux pd sqr au) = (reg', Ok q) ->
  aux <> "phi" -> phi_only func ->
  forall qp phi fld u, func qp [("phi", phi)] = Ok fld -> el fld <> [] -> 0 < u ->
  (pd = true -> forall x, In x (el fld) -> 0 <= x) ->
  exists M, is_max M (map Rabs (el fld)) /\
    call q qp [("phi", phi)] = Ok (scal (if sqr then M * M else M)) /\
    slack_exact q qp phi aux u ((if sqr then M * M else M) / u) (fun p => exists t, p = scal t).
Proof. exact linf_slack_exact. Qed.
Print Assumptions C23_linf_slack_exact.

Theorem C23_linf4_feasible :
  forall P (func : field P) aux reg reg' q,
  init_quantity reg (generate_linf_norm_4 func aux) = (reg', Ok q) ->
  aux <> "phi" ->
  forall qp phi fld u t, func qp (state phi aux (scal t)) = Ok fld -> wf fld ->
  exists G gv, scaled_g_ineq_impl q (Some "slack") = Ok (Some G) /\
    G qp (state phi aux (scal t)) (scal u) = Ok gv /\
    (all_le0 gv <-> forall x, In x (el fld) -> x * x / sqrt u <= t).
Proof. exact linf4_feasible. Qed.
Print Assumptions C23_linf4_feasible.

Theorem C23_linf4_slack_exact :
  forall P (func : field P) aux reg reg' q,
  init_quantity reg (generate_linf_norm_4 func aux) = (reg', Ok q) ->
  aux <> "phi" -> phi_only func ->
  forall qp phi fld u, func qp [("phi", phi)] = Ok fld -> wf fld -> el fld <> [] -> 0 < u ->
  exists M, is_max M (map Rabs (el fld)) /\
    call q qp [("phi", phi)] = Ok (scal (M * M * (M * M))) /\
    slack_exact q qp phi aux u (M * M * (M * M) / u) (fun p => exists t, p = scal t).
Proof. exact linf4_slack_exact. Qed.
Print Assumptions C23_linf4_slack_exact.

Example C23_example : exists reg q,
  init_quantity [] (generate_linf_norm unit no_sym id_field "t" false true true) = (reg, Ok q) /\
  phi_only id_field /\
  id_field tt [("phi", Arr [2%nat] [3; -4])] = Ok (Arr [2%nat] [3; -4]) /\
  is_max 4 (map Rabs [3; -4]).
Proof. exact ex_c23. Qed.

(** ** C24 *)
Theorem C24_l1_slack_exact :
  forall P da nfp ss (func : field P) aux pd sqr au reg reg' q,
  init_quantity reg (generate_l1_norm P da nfp ss func aux pd sqr au) = (reg', Ok q) ->
  aux <> "phi" -> phi_only func ->
  forall qp phi fld u, func qp [("phi", phi)] = Ok fld -> wf fld ->
  wf (da qp) -> sh (da qp) = sh fld -> (forall a, In a (el (da qp)) -> 0 <= a) -> 0 <= nfp qp -> 0 < u ->
  (pd = true -> forall x, In x (el fld) -> 0 <= x) ->
  let n := length (el fld) in
  let L1 := Rsum (map (fun p => fst p * Rabs (snd p)) (combine (el (da qp)) (el fld))) * nfp qp in
  call q qp [("phi", phi)] = Ok (scal L1) /\
  slack_exact q qp phi aux u (L1 / u) (fun p => exists l, length l = n /\ p = Arr [n] l) /\
  forall l, length l = n -> exists G gv,
    scaled_g_ineq_impl q (Some "slack") = Ok (Some G) /\
    G qp (state phi aux (Arr [n] l)) (scal u) = Ok gv /\
    (all_le0 gv <-> forall x t, In (x, t) (combine (el fld) l) -> Rabs x / u <= t).
Proof. exact l1_slack_exact. Qed.
Print Assumptions C24_l1_slack_exact.

Example C24_example : exists reg q,
  init_quantity [] (generate_l1_norm unit da2 nfp1 no_sym id_field "s" false false true) = (reg, Ok q) /\
  sh (da2 tt) = sh (Arr [2%nat] [3; -4]) /\ wf (da2 tt) /\ wf (Arr [2%nat] [3; -4]) /\
  (forall a, In a (el (da2 tt)) -> 0 <= a) /\ 0 <= nfp1 tt /\
  call q tt [("phi", Arr [2%nat] [3; -4])] = Ok (scal 15).
Proof. exact ex_c24. Qed.

(** ** C25 *)
(** Squared quantities (for instance the shipped f_max_Phi2): the start value
    is computed from the squared maximum and is infeasible below 1. *)
Theorem C25_initial_slack_refuted :
  exists (q : quantity unit) phi u M reg,
  init_quantity [] (generate_linf_norm unit no_sym id_field "t" false true true) = (reg, Ok q) /\
  0 < u /\ call q tt [("phi", phi)] = Ok (scal M) /\
  ~ init_feasible_tight q tt phi "t" u (M / u) /\
  exists I G p gv, scaled_slack_dofs_init q (Some "slack") = Ok (Some [("t", I)]) /\
    scaled_g_ineq_impl q (Some "slack") = Ok (Some G) /\
    I tt [("phi", phi)] (scal u) = Ok p /\
    G tt (state phi "t" p) (scal u) = Ok gv /\ ~ all_le0 gv.
Proof. exact init_sq_witness. Qed.
Print Assumptions C25_initial_slack_refuted.

(** Exactly when the squared variant is right. *)
Theorem C25_squared_characterised_partial :
  forall P ss func aux pd au reg reg' q,
  init_quantity reg (generate_linf_norm P ss func aux pd true au) = (reg', Ok q) ->
  aux <> "phi" -> phi_only func ->
  forall qp phi fld u M, func qp [("phi", phi)] = Ok fld -> 0 < u ->
  (pd = true -> forall x, In x (el fld) -> 0 <= x) ->
  is_max M (map Rabs (el fld)) ->
  (init_feasible_tight q qp phi aux u (M * M / u) <-> M = 0 \/ M = 1) /\
  exists I G p gv, scaled_slack_dofs_init q (Some "slack") = Ok (Some [(aux, I)]) /\
    scaled_g_ineq_impl q (Some "slack") = Ok (Some G) /\
    I qp [("phi", phi)] (scal u) = Ok p /\
    G qp (state phi aux p) (scal u) = Ok gv /\ (all_le0 gv <-> M = 0 \/ 1 <= M).
Proof. exact linf_sq_init. Qed.
Print Assumptions C25_squared_characterised_partial.

(** Plain, fourth-power and L1 quantities are right.  Missing: the squared
    variant, where the claim is false. *)
Theorem C25_linf_initial_partial :
  forall P ss func aux pd au reg reg' q,
  init_quantity reg (generate_linf_norm P ss func aux pd false au) = (reg', Ok q) ->
  aux <> "phi" -> phi_only func ->
  forall qp phi fld u raw, func qp [("phi", phi)] = Ok fld -> el fld <> [] -> 0 < u ->
  (pd = true -> forall x, In x (el fld) -> 0 <= x) ->
  call q qp [("phi", phi)] = Ok (scal raw) ->
  init_feasible_tight q qp phi aux u (raw / u).
Proof. exact linf_init_ok. Qed.
Print Assumptions C25_linf_initial_partial.

Theorem C25_linf4_initial_partial :
  forall P (func : field P) aux reg reg' q,
  init_quantity reg (generate_linf_norm_4 func aux) = (reg', Ok q) ->
  aux <> "phi" -> phi_only func ->
  forall qp phi fld u raw, func qp [("phi", phi)] = Ok fld -> wf fld -> el fld <> [] -> 0 < u ->
  call q qp [("phi", phi)] = Ok (scal raw) ->
  init_feasible_tight q qp phi aux u (raw / u).
Proof. exact linf4_init_ok. Qed.
Print Assumptions C25_linf4_initial_partial.

Theorem C25_l1_initial_partial :
  forall P da nfp ss (func : field P) aux pd sqr au reg reg' q,
  init_quantity reg (generate_l1_norm P da nfp ss func aux pd sqr au) = (reg', Ok q) ->
  aux <> "phi" -> phi_only func ->
  forall qp phi fld u raw, func qp [("phi", phi)] = Ok fld -> wf fld ->
  wf (da qp) -> sh (da qp) = sh fld -> 0 < u ->
  (pd = true -> forall x, In x (el fld) -> 0 <= x) ->
  call q qp [("phi", phi)] = Ok (scal raw) ->
  init_feasible_tight q qp phi aux u (raw / u).
Proof. exact l1_init_ok. Qed.
Print Assumptions C25_l1_initial_partial.

(** The hypotheses are those of C23_example and C24_example. *)
Example C25_example : exists reg q,
  init_quantity [] (generate_linf_norm unit no_sym id_field "t" false true true) = (reg, Ok q) /\
  phi_only id_field /\
  id_field tt [("phi", Arr [2%nat] [3; -4])] = Ok (Arr [2%nat] [3; -4]) /\
  is_max 4 (map Rabs [3; -4]).
Proof. exact ex_c23. Qed.

(** ** C26 *)
(** Squared and fourth-power variants converge to a wrong power of the unit. *)
Theorem C26_approx_squared_refuted :
  exists (q : quantity unit) phi u raw reg,
  init_quantity [] (generate_linf_norm unit no_sym id_field "t" false true true) = (reg, Ok q) /\
  0 < u /\ call q tt [("phi", phi)] = Ok (scal raw) /\ ~ approx_converges q tt phi u (raw / u).
Proof. exact approx_sq_witness. Qed.
Print Assumptions C26_approx_squared_refuted.

Theorem C26_approx_fourth_refuted :
  exists (q : quantity unit) phi u raw reg,
  init_quantity [] (generate_linf_norm_4 id_field "t") = (reg, Ok q) /\
  0 < u /\ call q tt [("phi", phi)] = Ok (scal raw) /\ ~ approx_converges q tt phi u (raw / u).
Proof. exact approx_4_witness. Qed.
Print Assumptions C26_approx_fourth_refuted.

Theorem C26_linf_limit_partial :
  forall P ss func aux pd au reg reg' q,
  init_quantity reg (generate_linf_norm P ss func aux pd false au) = (reg', Ok q) ->
  forall qp phi fld u, func qp [("phi", phi)] = Ok fld -> wf fld -> el fld <> [] -> 0 < u ->
  exists raw, call q qp [("phi", phi)] = Ok (scal raw) /\
    approx_converges q qp phi u (raw / u).
Proof. exact approx_plain_limit. Qed.
Print Assumptions C26_linf_limit_partial.

Theorem C26_l1_limit_partial :
  forall P da nfp ss (func : field P) aux pd sqr au reg reg' q,
  init_quantity reg (generate_l1_norm P da nfp ss func aux pd sqr au) = (reg', Ok q) ->
  forall qp phi fld u t, func qp [("phi", phi)] = Ok fld -> wf fld -> wf (da qp) ->
  sh fld = sh (da qp) ++ t -> 0 < u ->
  exists raw, call q qp [("phi", phi)] = Ok (scal raw) /\
    approx_converges q qp phi u (raw / u).
Proof. exact approx_l1_limit. Qed.
Print Assumptions C26_l1_limit_partial.

Theorem C26_huber_limit_partial :
  forall P da nfp (func : field P) reg reg' q,
  init_quantity reg (generate_huber P da nfp func) = (reg', Ok q) ->
  forall qp phi fld u a b c t, func qp [("phi", phi)] = Ok fld -> wf fld -> wf (da qp) ->
  sh fld = a :: b :: c :: t -> sh (da qp) = [a; b] -> 0 < u ->
  exists raw, call q qp [("phi", phi)] = Ok (scal raw) /\
    approx_converges q qp phi u (raw / u).
Proof. exact approx_huber_limit. Qed.
Print Assumptions C26_huber_limit_partial.

(** Squared: the limit is raw/unit^2, right only for unit 1 (or raw 0). *)
Theorem C26_squared_limit_partial :
  forall P ss func aux pd au reg reg' q,
  init_quantity reg (generate_linf_norm P ss func aux pd true au) = (reg', Ok q) ->
  forall qp phi fld u, func qp [("phi", phi)] = Ok fld -> wf fld -> el fld <> [] -> 0 < u ->
  exists raw, call q qp [("phi", phi)] = Ok (scal raw) /\
    approx_converges q qp phi u (raw / (u * u)).
Proof. exact approx_sq_limit. Qed.
Print Assumptions C26_squared_limit_partial.

(** Fourth power: the limit is raw/unit^4. *)
Theorem C26_fourth_limit_partial :
  forall P (func : field P) aux reg reg' q,
  init_quantity reg (generate_linf_norm_4 func aux) = (reg', Ok q) ->
  forall qp phi fld u, func qp [("phi", phi)] = Ok fld -> wf fld -> el fld <> [] -> 0 < u ->
  exists raw, call q qp [("phi", phi)] = Ok (scal raw) /\
    approx_converges q qp phi u (raw / (u * u * (u * u))).
Proof. exact approx_4_limit. Qed.
Print Assumptions C26_fourth_limit_partial.

Example C26_example : exists reg q,
  init_quantity [] (generate_huber unit da22 nfp1 id_field) = (reg, Ok q) /\
  wf (Arr [2%nat; 2%nat; 3%nat] (repeat 1 12)) /\ wf (da22 tt) /\ sh (da22 tt) = [2%nat; 2%nat].
Proof. exact ex_c26_huber. Qed.

(** ** C27 *)
Theorem C27_smooth_quantity_any_mode :
  forall P (func : field P) compat reg, exists q,
  init_quantity reg (generate_c2 func compat) = (reg, Ok q) /\
  slack_names q = [] /\ q_compat q = compat /\
  (forall qp phi, call q qp [("phi", phi)] = func qp [("phi", phi)]) /\
  (forall mode sp, known_mode mode -> exists F,
     scaled_f_impl q mode sp = Ok F /\
     scaled_g_ineq_impl q mode = Ok None /\ scaled_h_eq_impl q mode = Ok None /\
     scaled_slack_dofs_init q mode = Ok None /\
     forall qp d fld u, func qp d = Ok fld -> wf fld ->
       F qp d (scal u) = Ok (Arr (sh fld) (map (fun x => x / u) (el fld)))).
Proof. exact c2_any_mode. Qed.
Print Assumptions C27_smooth_quantity_any_mode.

Theorem C27_unknown_mode_rejected :
  forall P (q : quantity P) mode sp, ~ known_mode mode ->
  scaled_f_impl q mode sp = Raise ValueError /\
  scaled_g_ineq_impl q mode = Raise ValueError /\
  scaled_h_eq_impl q mode = Raise ValueError /\
  scaled_slack_dofs_init q mode = Raise ValueError.
Proof. exact unknown_mode. Qed.
Print Assumptions C27_unknown_mode_rejected.

Example C27_example : known_mode (Some "slack") /\ ~ known_mode (Some "exact") /\
  id_field tt [("phi", Arr [2%nat] [3; -4])] = Ok (Arr [2%nat] [3; -4]) /\ wf (Arr [2%nat] [3; -4]).
Proof. exact ex_c27. Qed.

(** ** C28 *)
(** [owned_names rs] is the list, per successful definition, of the slack names
    it owns. *)
Theorem C28_slack_names_distinct :
  forall P (defs : list (string * quantity_args P)) reg reg' rs,
  define_all reg defs = (reg', rs) ->
  reg' = reg ++ concat (owned_names rs) /\
  (forall i l n, nth_error (owned_names rs) i = Some l -> In n l -> ~ In n reg) /\
  (forall i j l m n, i <> j -> nth_error (owned_names rs) i = Some l ->
     nth_error (owned_names rs) j = Some m -> In n l -> In n m -> False).
Proof. exact registry_invariant. Qed.
Print Assumptions C28_slack_names_distinct.

Theorem C28_failed_definition_leaves_registry :
  forall P reg (a : quantity_args P) reg' r, init_quantity reg a = (reg', r) ->
  match r with
  | Ok q => reg' = reg ++ slack_names q /\ (forall n, In n (slack_names q) -> ~ In n reg) /\
            a_compat a = q_compat q
  | Raise _ => reg' = reg
  end.
Proof. exact init_registry. Qed.
Print Assumptions C28_failed_definition_leaves_registry.

(** The package's own 27 definitions all succeed and own 11 names. *)
Example C28_example :
  forall P da nfp ss (F : string -> field P),
  forallb (fun p => is_ok (snd p)) (snd (define_all [] (shipped P da nfp ss F))) = true /\
  length (fst (define_all [] (shipped P da nfp ss F))) = 11%nat.
Proof. exact shipped_all_ok. Qed.
(** A second definition with a taken name fails. *)
Example C28_example_clash :
  snd (init_quantity ["t"] (generate_linf_norm unit no_sym id_field "t" false false true)) = Raise ValueError.
Proof. reflexivity. Qed.

(** ** C29 *)
Theorem C29_one_point_per_orbit :
  forall n_phi n_theta i j, (i < n_theta)%nat -> (j < n_phi)%nat ->
  let i' := ((n_theta - i) mod n_theta)%nat in let j' := ((n_phi - j) mod n_phi)%nat in
  (((i', j') = (i, j) /\ In (i, j) (unique_indices n_phi n_theta)) \/
   ((i', j') <> (i, j) /\
    (In (i, j) (unique_indices n_phi n_theta) <-> ~ In (i', j') (unique_indices n_phi n_theta)))) /\
  NoDup (unique_indices n_phi n_theta).
Proof. exact one_per_orbit. Qed.
Print Assumptions C29_one_point_per_orbit.

Theorem C29_only_grid_points :
  forall n_phi n_theta i j, In (i, j) (unique_indices n_phi n_theta) ->
  (i < n_theta)%nat /\ (j < n_phi)%nat.
Proof. exact unique_in_grid. Qed.
Print Assumptions C29_only_grid_points.

Example C29_example : unique_indices 3 4 =
  [(0, 0); (0, 1); (1, 0); (1, 1); (1, 2); (2, 0); (2, 1)]%nat.
Proof. reflexivity. Qed.

(** ** C71 *)
(** The L1 slack objective of a vector-valued field (as in the shipped
    f_l1_force_cyl) cannot be evaluated, although its raw value can. *)
Theorem C71_l1_slack_vector_refuted :
  exists (q : quantity unit) phi reg,
  init_quantity [] (generate_l1_norm unit da22 nfp1 no_sym id_field "s" false false true) = (reg, Ok q) /\
  sh phi = sh (da22 tt) ++ [3%nat] /\
  (exists raw, call q tt [("phi", phi)] = Ok (scal raw)) /\
  forall sp u (l : list R), length l = length (el phi) ->
  exists F, scaled_f_impl q (Some "slack") sp = Ok F /\
    F tt (state phi "s" (Arr [length (el phi)] l)) (scal u) = Raise ValueError.
Proof. exact l1_vector_witness. Qed.
Print Assumptions C71_l1_slack_vector_refuted.

(** It fails on every grid whose poloidal size is neither 1 nor 3.  Missing:
    scalar fields, which are C24. *)
Theorem C71_l1_slack_vector_partial :
  forall P da nfp ss (func : field P) aux pd sqr au reg reg' q,
  init_quantity reg (generate_l1_norm P da nfp ss func aux pd sqr au) = (reg', Ok q) ->
  aux <> "phi" -> phi_only func ->
  forall qp phi fld a b u l, func qp [("phi", phi)] = Ok fld -> wf fld ->
  sh fld = [a; b; 3%nat] -> sh (da qp) = [a; b] -> (b <> 1)%nat -> (b <> 3)%nat ->
  length l = length (el fld) ->
  forall sp, exists F, scaled_f_impl q (Some "slack") sp = Ok F /\
    F qp (state phi aux (Arr [length (el fld)] l)) (scal u) = Raise ValueError.
Proof. exact l1_vector_raises. Qed.
Print Assumptions C71_l1_slack_vector_partial.

(** ** C72 *)
(** For every smoothing parameter and unit the smoothed penalty of the zero
    field exceeds that of another field, and a field and its negative differ.
    What holds up to a gap is [C72_huber_almost_even_partial] (PropHuber.v). *)
Theorem C72_huber_even_and_least_at_zero_refuted :
  exists reg q, init_quantity [] (generate_huber unit da11 nfp1 id_field) = (reg, Ok q) /\
  forall eps u, 0 < eps -> 0 < u -> exists at_zero at_field at_minus : R,
    let value phi := bind (scaled_f_impl q (Some "approx") [("lse_epsilon", eps)]) (fun F =>
       scalar_value (F tt [("phi", phi)] (scal u))) in
    let e := eps * eps * u in
    value (vec_field 0 0 0) = Ok at_zero /\ value (vec_field (- e) (- e) (- e)) = Ok at_field /\
    value (vec_field e e e) = Ok at_minus /\ at_field < at_zero /\ at_minus <> at_field.
Proof. exact huber_witness. Qed.
Print Assumptions C72_huber_even_and_least_at_zero_refuted.
