(** Model of src/quadcoil/quadcoil.py over the reals.  No proofs here.

    The function [quadcoil] is cut into the three stages that its comments
    mark: building the problem (63-640), solving it (642-742) and computing
    metrics and gradients (743-1061).  What lies outside the repository is a
    parameter: the optax optimiser, automatic differentiation, the linear
    solvers of lineax and the singular value decomposition.  Printing and
    compilation are left out. *)
From Coq Require Import String List Bool Arith ZArith Reals.
From Verif Require Import Base ModelArray ModelMath ModelQuantity ModelWrapper
  ModelSurface ModelParams ModelField ModelSolver SpecSolver.
Import ListNotations.
Open Scope R_scope.
Open Scope string_scope.
Open Scope list_scope.

(** ** Arguments *)
(** A value given for objective_name, constraint_name or constraint_type: a
    string, a tuple of strings or something else (quadcoil.py 1104-1117). *)
Inductive names_arg : Type := NStr (s : string) | NTuple (l : list string) | NOther.
(** A value given for objective_weight: a number, an array or something else,
    such as a list (quadcoil.py 1108). *)
Inductive weight_arg : Type := WNum (w : R) | WArr (a : arr) | WOther.
(** A value given for objective_unit or constraint_unit: None, a number, a
    sequence with one unit per entry, or an object without a length
    (quadcoil.py 1110, 1120). *)
Inductive units_arg : Type := UsNone | UsNum (u : R) | UsSeq (l : list unit_arg) | UsOther.
(** A value given for constraint_value: a one-dimensional sequence, or an
    object without a length (quadcoil.py 1121). *)
Inductive values_arg : Type := VSeq (l : list R) | VOther.

(** The signature of a winding surface generator (quadcoil.py 429-435):
    plasma points, distance, nfp, stellsym, mpol, ntor. *)
Definition generator : Type := grid vec3 -> R -> nat -> bool -> nat -> nat -> result (list R).
(** The signature of a thresholding function, applied to g(x), mu, c
    (solver.py 231-243). *)
Definition mask : Type := list R -> list R -> R -> list R.

(** The arguments of [quadcoil] that influence its result (quadcoil.py 63-153).
    [None] is the default None.  The numbers [qc_tol] are the nine tolerances
    in the order xstop_outer, ctol_outer, fstop_inner, xstop_inner, gtol_inner,
    fstop_inner_last, xstop_inner_last, gtol_inner_last, svtol.
    [max_linesearch_steps] is an option of the optimiser, which is a
    parameter of the model. *)
Record tolerances : Type := Tolerances {
  xstop_outer : R; ctol_outer : R; fstop_inner : R; xstop_inner : R; gtol_inner : R;
  fstop_inner_last : R; xstop_inner_last : R; gtol_inner_last : R; svtol : R }.
(** See above (quadcoil.py 63-153); [L] is the type of linear solvers. *)
Record args (L : Type) : Type := Args {
  qc_nfp : nat; qc_stellsym : bool;
  qc_plasma_mpol : nat; qc_plasma_ntor : nat; qc_plasma_dofs : list R;
  qc_G : R; qc_I : R; qc_mpol : nat; qc_ntor : nat;
  qc_qphi : option (list R); qc_qtheta : option (list R);
  qc_phi_init : option (list R); qc_phi_unit : option R;
  qc_plasma_stellsym : bool;
  qc_plasma_qphi : option (list R); qc_plasma_qtheta : option (list R);
  qc_Bnormal : option arr;
  qc_distance : option R; qc_generator : generator;
  qc_winding_dofs : option (list R); qc_winding_mpol : nat; qc_winding_ntor : nat;
  qc_winding_qphi : option (list R); qc_winding_qtheta : option (list R);
  qc_winding_stellsym : bool;
  qc_objective_name : names_arg; qc_objective_weight : weight_arg; qc_objective_unit : units_arg;
  qc_constraint_name : names_arg; qc_constraint_type : names_arg;
  qc_constraint_unit : units_arg; qc_constraint_value : values_arg;
  qc_metric_name : names_arg;
  qc_value_only : bool; qc_smoothing : option string; qc_smoothing_params : smoothing_params;
  qc_verbose : bool; qc_merge : bool;
  qc_c_init : R; qc_c_growth : R; qc_tol : tolerances;
  qc_maxiter_tot : nat; qc_maxiter_inner : nat;
  qc_gplus_mask : mask; qc_linear_solver : option L }.
Arguments qc_nfp {L} _. Arguments qc_stellsym {L} _. Arguments qc_plasma_mpol {L} _.
Arguments qc_plasma_ntor {L} _. Arguments qc_plasma_dofs {L} _. Arguments qc_G {L} _.
Arguments qc_I {L} _. Arguments qc_mpol {L} _. Arguments qc_ntor {L} _. Arguments qc_qphi {L} _.
Arguments qc_qtheta {L} _. Arguments qc_phi_init {L} _. Arguments qc_phi_unit {L} _.
Arguments qc_plasma_stellsym {L} _. Arguments qc_plasma_qphi {L} _. Arguments qc_plasma_qtheta {L} _.
Arguments qc_Bnormal {L} _. Arguments qc_distance {L} _. Arguments qc_generator {L} _.
Arguments qc_winding_dofs {L} _. Arguments qc_winding_mpol {L} _. Arguments qc_winding_ntor {L} _.
Arguments qc_winding_qphi {L} _. Arguments qc_winding_qtheta {L} _. Arguments qc_winding_stellsym {L} _.
Arguments qc_objective_name {L} _. Arguments qc_objective_weight {L} _. Arguments qc_objective_unit {L} _.
Arguments qc_constraint_name {L} _. Arguments qc_constraint_type {L} _. Arguments qc_constraint_unit {L} _.
Arguments qc_constraint_value {L} _. Arguments qc_metric_name {L} _. Arguments qc_value_only {L} _.
Arguments qc_smoothing {L} _. Arguments qc_smoothing_params {L} _. Arguments qc_verbose {L} _.
Arguments qc_merge {L} _. Arguments qc_c_init {L} _. Arguments qc_c_growth {L} _. Arguments qc_tol {L} _.
Arguments qc_maxiter_tot {L} _. Arguments qc_maxiter_inner {L} _. Arguments qc_gplus_mask {L} _.
Arguments qc_linear_solver {L} _.

(** ** Input checking *)
(** [len(x)] of the arguments checked (quadcoil.py 1110, 1118-1122); an object
    without a length raises TypeError. *)
Definition len_units (u : units_arg) : result nat :=
  match u with UsSeq l => Ok (length l) | _ => Raise TypeError end.
(** The same for the values (quadcoil.py 1118-1122). *)
Definition len_values (v : values_arg) : result nat :=
  match v with VSeq l => Ok (length l) | VOther => Raise TypeError end.
(** [is_ndarray(objective_weight, 1)] (math_utils.py 13-14), with the length. *)
Definition weight_len (w : weight_arg) : option nat :=
  match w with WArr a => if Nat.eqb (ndim a) 1 then Some (length (el a)) else None | _ => None end.
(** [a != b or rest]: the rest is only evaluated when a = b (quadcoil.py 1110, 1118-1122). *)
Definition or_else (b : bool) (rest : result bool) : result bool := if b then Ok true else rest.

(** quadcoil.py 1094-1129, [_input_checking]. *)
Definition input_checking (objective_name : names_arg) (objective_weight : weight_arg)
    (objective_unit : units_arg) (constraint_name constraint_type : names_arg)
    (constraint_unit : units_arg) (constraint_value : values_arg) : result unit :=
  bind (match objective_name with
        | NStr _ => Ok tt
        | NOther => Raise TypeError
        | NTuple names =>
            match weight_len objective_weight with
            | None => Raise TypeError
            | Some n =>
                bind (or_else (negb (Nat.eqb (length names) n))
                     (bind (len_units objective_unit) (fun m => Ok (negb (Nat.eqb (length names) m)))))
                     (fun bad => if bad then Raise ValueError else Ok tt)
            end
        end) (fun _ =>
  match constraint_name with
  | NTuple names =>
      match constraint_type with
      | NTuple types =>
          bind (or_else (negb (Nat.eqb (length names) (length types)))
               (bind (len_units constraint_unit) (fun m =>
                or_else (negb (Nat.eqb (length names) m))
               (bind (len_values constraint_value) (fun k => Ok (negb (Nat.eqb (length names) k)))))))
               (fun bad => if bad then Raise ValueError else Ok tt)
      | _ => Raise TypeError
      end
  | _ => Raise TypeError
  end).

(** ** Dictionaries as pytrees *)
(** [d[k] = v] on a dict: an existing key keeps its place (quadcoil.py 310-333, 605-612). *)
Fixpoint dict_set {A} (d : ModelArray.dict A) (k : string) (v : A) : ModelArray.dict A :=
  match d with
  | [] => [(k, v)]
  | (k', v') :: d => if String.eqb k k' then (k, v) :: d else (k', v') :: dict_set d k v
  end.
(** jax flattens a dict in the order of its sorted keys
    (used by ravel_pytree, quadcoil.py 599, 758). *)
Fixpoint insert_key {A} (kv : string * A) (d : ModelArray.dict A) : ModelArray.dict A :=
  match d with
  | [] => [kv]
  | kv' :: d' => if String.leb (fst kv) (fst kv') then kv :: d else kv' :: insert_key kv d'
  end.
(** The sorted dict (ravel_pytree, quadcoil.py 599, 758). *)
Definition sort_keys {A} (d : ModelArray.dict A) : ModelArray.dict A := fold_right insert_key [] d.
(** [flatten_util.ravel_pytree(d)] (quadcoil.py 599, 758): the flat vector ... *)
Definition ravel (d : ModelArray.dict arr) : list R := concat (map (fun kv => el (snd kv)) (sort_keys d)).
(** ... and what its inverse remembers: the sorted keys and shapes (quadcoil.py 599, 758). *)
Definition structure (d : ModelArray.dict arr) : list (string * list nat) :=
  map (fun kv => (fst kv, sh (snd kv))) (sort_keys d).
(** The inverse function.  (JAX raises when the length of the vector is not
    that of the structure; here it is only applied to vectors of that length.)
    (quadcoil.py 599, 758). *)
Fixpoint unravel (s : list (string * list nat)) (v : list R) : ModelArray.dict arr :=
  match s with
  | [] => []
  | (k, shp) :: s => (k, Arr shp (firstn (size shp) v)) :: unravel s (skipn (size shp) v)
  end.

(** ** Building the problem *)
(** [jnp.linspace(0, stop, n, endpoint=False)] (quadcoil.py 271-277). *)
Definition linspace_open (stop : R) (n : nat) : list R := map (fun i => INR i * (stop / INR n)) (seq 0 n).
(** A two-dimensional array as the list of its rows (Bnormal_plasma, quadcoil.py 320-330). *)
Definition rows_of (a : arr) : result (grid R) :=
  match sh a with [n; m] => Ok (chunks n m (el a)) | _ => Raise TypeError end.
(** A zero-dimensional array as a number (quadcoil.py 473-528). *)
Definition item (a : arr) : result R := match el a with [x] => Ok x | _ => Raise TypeError end.
(** [jnp.array(x)] of a one-dimensional sequence (quadcoil.py 310-333). *)
Definition vec_arr (l : list R) : arr := Arr [length l] l.

(** Quadrature points after the defaults (quadcoil.py 270-286); [1/nfp] and
    [len//nfp] raise for nfp = 0. *)
Record quadpoints : Type := Quadpoints {
  qd_plasma_phi : list R; qd_plasma_theta : list R;
  qd_winding_phi : list R; qd_winding_theta : list R;
  qd_phi : list R; qd_theta : list R }.
(** See above (quadcoil.py 270-286). *)
Definition default_quadpoints {L} (a : args L) : result quadpoints :=
  let nfp := qc_nfp a in
  let zero_div := Nat.eqb nfp 0 in
  match qc_plasma_qphi a, qc_qphi a, zero_div with
  | None, _, true | _, None, true => Raise ZeroDivisionError
  | _, _, _ =>
    let wphi := match qc_winding_qphi a with Some p => p | None => linspace_open 1 (32 * nfp) end in
    let wtheta := match qc_winding_qtheta a with Some t => t | None => linspace_open 1 34 end in
    Ok {| qd_plasma_phi := match qc_plasma_qphi a with Some p => p | None => linspace_open (1 / INR nfp) 32 end;
          qd_plasma_theta := match qc_plasma_qtheta a with Some t => t | None => linspace_open 1 34 end;
          qd_winding_phi := wphi; qd_winding_theta := wtheta;
          qd_phi := match qc_qphi a with Some p => p | None => firstn (length wphi / nfp) wphi end;
          qd_theta := match qc_qtheta a with Some t => t | None => wtheta end |}
  end.

(** quadcoil.py 287-290. *)
Definition one_surface {L} (a : args L) : result unit :=
  match qc_distance a, qc_winding_dofs a with
  | None, None => Raise ValueError
  | Some _, Some _ => Raise ValueError
  | _, _ => Ok tt
  end.
(** quadcoil.py 291-292. *)
Definition metrics {L} (a : args L) : list string :=
  match qc_metric_name a with NStr s => [s] | NTuple l => l | NOther => [] end.
(** The names in a tuple argument that passed [_input_checking] (quadcoil.py 1094-1128). *)
Definition names_of (n : names_arg) : list string := match n with NTuple l => l | _ => [] end.
(** The weights in an array argument that passed [_input_checking] (quadcoil.py 1094-1128). *)
Definition weights_of (w : weight_arg) : list R := match w with WArr a => el a | _ => [] end.
(** The units in a sequence argument (quadcoil.py 1094-1128). *)
Definition units_of (u : units_arg) : list unit_arg := match u with UsSeq l => l | _ => [] end.
(** The values in a sequence argument (quadcoil.py 1094-1128). *)
Definition values_of (v : values_arg) : list R := match v with VSeq l => l | VOther => [] end.

(** quadcoil.py 310-333: the dictionary of differentiable inputs. *)
Definition y_dict {L} (a : args L) : ModelArray.dict arr :=
  let d := [("plasma_dofs", vec_arr (qc_plasma_dofs a));
            ("net_poloidal_current_amperes", scal (qc_G a));
            ("net_toroidal_current_amperes", scal (qc_I a))] in
  let d := match qc_objective_name a with
           | NStr _ => d
           | _ => dict_set d "objective_weight" (vec_arr (weights_of (qc_objective_weight a))) end in
  let d := match names_of (qc_constraint_name a) with
           | [] => d
           | _ => dict_set d "constraint_value" (vec_arr (values_of (qc_constraint_value a))) end in
  let d := match qc_Bnormal a with
           | None => d
           | Some b => dict_set d "Bnormal_plasma" b end in
  match qc_distance a with
  | None => dict_set d "winding_dofs" (vec_arr (match qc_winding_dofs a with Some w => w | None => [] end))
  | Some x => dict_set d "plasma_coil_distance" (scal x)
  end.

(** quadcoil.py 408-465, [y_to_qp].  The generator is given the symmetry of
    the plasma (432); the surface is built with [stellsym] (438). *)
Definition y_to_qp {L} (a : args L) (qd : quadpoints) (y : ModelArray.dict arr) : result params :=
  bind (getitem y "plasma_dofs") (fun pd =>
  bind (make_surface (qc_nfp a) (qc_plasma_stellsym a) (qc_plasma_mpol a) (qc_plasma_ntor a)
          (arr1 (qd_plasma_phi qd)) (arr1 (qd_plasma_theta qd)) (PyArr pd)) (fun plasma =>
  bind (match qc_distance a with
        | None =>
            bind (getitem y "winding_dofs") (fun wd =>
            make_surface (qc_nfp a) (qc_winding_stellsym a) (qc_winding_mpol a) (qc_winding_ntor a)
              (arr1 (qd_winding_phi qd)) (arr1 (qd_winding_theta qd)) (PyArr wd))
        | Some _ =>
            bind (gamma plasma) (fun pts =>
            bind (bind (getitem y "plasma_coil_distance") item) (fun dist =>
            bind (qc_generator a pts dist (s_nfp plasma) (s_stellsym plasma)
                    (qc_winding_mpol a) (qc_winding_ntor a)) (fun wd =>
            make_surface (qc_nfp a) (qc_stellsym a) (qc_winding_mpol a) (qc_winding_ntor a)
              (arr1 (qd_winding_phi qd)) (arr1 (qd_winding_theta qd)) (arr1 wd))))
        end) (fun winding =>
  bind (match qc_Bnormal a with
        | None => Ok (gzeros (length (qd_plasma_phi qd)) (length (qd_plasma_theta qd)))
        | Some _ => bind (getitem y "Bnormal_plasma") rows_of
        end) (fun Bn =>
  bind (bind (getitem y "net_poloidal_current_amperes") item) (fun G =>
  bind (bind (getitem y "net_toroidal_current_amperes") item) (fun I =>
  make_params plasma winding G I (Some Bn) (qc_mpol a) (qc_ntor a)
    (Some (arr1 (qd_phi qd))) (Some (arr1 (qd_theta qd))) (Some (qc_stellsym a)))))))).

(** The objective arguments in the form the wrapper takes (wrapper.py 226-229). *)
Definition objective_of {L} (a : args L) : objective_arg :=
  match qc_objective_name a with
  | NStr n => OneObjective n (match qc_objective_unit a with
                              | UsNone => UNone | UsNum u => UScalar u | _ => UOther end)
  | _ => Objectives (names_of (qc_objective_name a)) (units_of (qc_objective_unit a))
  end.

(** The problem functions at one value of the inputs (quadcoil.py 528): the
    parameter object they are bound to, f, g, h as functions of a parameter
    object and unknowns, their numbers, and the slack initialisers. *)
Record functions : Type := Functions {
  fn_qp : params; fn_f : callable params; fn_g : callable params; fn_h : callable params;
  fn_ng : nat; fn_nh : nat; fn_aux : ModelArray.dict (callable params) }.

(** ** External functions *)
(** What [quadcoil] takes from libraries: which remembered values optax reuses
    ([x_fin]), the optimiser, jax.grad and bounds for the two loops (see
    ModelSolver.v); automatic differentiation ([jacrev(l, argnums=0)],
    [jacrev(l, argnums=1)], the tangent returned by [jvp], the matrix of second
    derivatives); the lineax solvers ([x_default] is the one chosen by
    [linear_solve] itself from the tags set by [convex], quadcoil.py 777-786;
    [x_auto] is AutoLinearSolver(well_posed=False), 296) and
    [jnp.linalg.svd] (the singular values and VH). *)
Record library : Type := Library {
  x_fin : R -> bool;
  x_opt : optimiser (R_num x_fin);
  x_autograd : (list R -> R) -> list R -> list R;
  x_fuel_out : nat; x_fuel_in : nat;
  x_jac_x : (list R -> list R -> R) -> list R -> list R -> list R;
  x_jac_y : (list R -> list R -> R) -> list R -> list R -> list R;
  x_jvp : (list R -> list R) -> list R -> list R -> list R;
  x_hessian : (list R -> R) -> list R -> matrix;
  x_solver : Type; x_default : x_solver; x_auto : x_solver;
  x_linear_solve : x_solver -> matrix -> list R -> list R;
  x_svd : matrix -> list R * matrix }.

Section Problem.
  (** The quantities known to the package, and those the user defined. *)
  Variable ns : namespace params.
  (** The attribute [qp.ndofs] (quadcoil_params.py 162, read in wrapper.py 146). *)
  Notation ndofs_of := q_ndofs.

  (** quadcoil.py 473-528, [f_g_ineq_h_eq_from_y]. *)
  Definition f_g_h_from_y {L} (a : args L) (qd : quadpoints) (y : ModelArray.dict arr) : result functions :=
    bind (y_to_qp a qd y) (fun qp =>
    let weights := match lookup "objective_weight" y with Some w => el w | None => [1] end in
    let vals := match lookup "constraint_value" y with Some v => el v | None => [] end in
    bind (parse_objectives ndofs_of ns (objective_of a) weights (qc_smoothing a) (qc_smoothing_params a))
      (fun '(f, po) =>
    bind (parse_constraints ndofs_of ns (names_of (qc_constraint_name a)) (names_of (qc_constraint_type a))
            (units_of (qc_constraint_unit a)) vals (qc_smoothing a) (qc_smoothing_params a)) (fun pc =>
    let g_list := ModelWrapper.p_g po ++ ModelWrapper.p_g pc in
    let h_list := ModelWrapper.p_h po ++ ModelWrapper.p_h pc in
    Ok {| fn_qp := qp; fn_f := f;
          fn_g := merge_callables (map Some g_list) (qc_merge a) (qc_smoothing a) (qc_smoothing_params a);
          fn_h := merge_callables (map Some h_list) false None [];
          fn_ng := if qc_merge a then 1%nat else length g_list;
          fn_nh := length h_list;
          fn_aux := dict_union (p_slack po) (p_slack pc) |}))).

  (** quadcoil.py 537. *)
  Definition unconstrained (fn : functions) : bool := Nat.eqb (fn_ng fn) 0 && Nat.eqb (fn_nh fn) 0.

  (** [jnp.average] of all elements (quadcoil.py 549-561). *)
  Definition gaverage (g : grid R) : R := gsum g / INR (length (concat g)).
  (** quadcoil.py 549-561: the unit of the current potential.  Indexing beyond
      the end is clamped by jax.numpy. *)
  Definition phi_unit_of {L} (a : args L) (qp : params) (phi_init : list R) : result R :=
    match qc_phi_unit a with
    | Some u => Ok u
    | None =>
        bind (Bnormal qp phi_init) (fun b =>
        let est := gaverage (gmap Rabs b) in
        match qc_distance a with
        | Some d => Ok (est * 10000000 * Rabs d)
        | None =>
            bind (getclamp (qc_plasma_dofs a) (qc_plasma_ntor a * 2 + 1)) (fun pm =>
            bind (getclamp (match qc_winding_dofs a with Some w => w | None => [] end)
                           (qc_winding_ntor a * 2 + 1)) (fun wm =>
            Ok (est * 10000000 * Rabs (pm - wm))))
        end)
    end.

  (** quadcoil.py 582-594: slack variables evaluated at the initial guess. *)
  Fixpoint add_aux (aux : ModelArray.dict (callable params)) (qp : params) (phi_init : list R)
      (x : ModelArray.dict arr) : result (ModelArray.dict arr) :=
    match aux with
    | [] => Ok x
    | (k, init) :: aux =>
        bind (init qp [("phi", vec_arr phi_init)]) (fun v => add_aux aux qp phi_init (dict_set x k v))
    end.
  (** quadcoil.py 573-594: the dictionary of scaled unknowns. *)
  Definition x_dict (aux : ModelArray.dict (callable params)) (qp : params) (phi_init : list R) (phi_unit : R)
    : result (ModelArray.dict arr) :=
    add_aux aux qp phi_init [("phi_scaled", vec_arr (map (fun p => p / phi_unit) phi_init))].
  (** quadcoil.py 605-611, [unravel_unscale_x]. *)
  Definition unscale (s : list (string * list nat)) (phi_unit : R) (x : list R) : result (ModelArray.dict arr) :=
    let d := unravel s x in
    bind (getitem d "phi_scaled") (fun p =>
    Ok (filter (fun kv => negb (String.eqb (fst kv) "phi_scaled"))
               (dict_set d "phi" (amap (fun v => v * phi_unit) p)))).

  (** The value of a scalar function, and of an array function, of the
      unknowns.  JAX traces these functions once with abstract values, and
      raises then if at all (shapes do not depend on the values), which
      [prepare] models by evaluating them at the initial guess; the values
      used for a raising evaluation elsewhere are immaterial (quadcoil.py 616-618). *)
  Definition real_of (r : result arr) : R := match r with Ok a => nth 0 (el a) 0 | Raise _ => 0 end.
  (** See above (quadcoil.py 616-618). *)
  Definition list_of (r : result arr) : list R := match r with Ok a => el a | Raise _ => [] end.

  (** The state after the building stage (quadcoil.py 531-621). *)
  Record prepared : Type := Prepared {
    pr_qd : quadpoints; pr_y : ModelArray.dict arr; pr_fn : functions; pr_unit : R;
    pr_x0 : list R; pr_structure : list (string * list nat);
    pr_mu0 : list R; pr_lam0 : list R }.

  (** quadcoil.py 616-618: f, g and h as functions of the flat unknowns. *)
  Definition f_scaled (p : prepared) (x : list R) : result arr :=
    bind (unscale (pr_structure p) (pr_unit p) x) (fn_f (pr_fn p) (fn_qp (pr_fn p))).
  (** quadcoil.py 617. *)
  Definition g_scaled (p : prepared) (x : list R) : result arr :=
    bind (unscale (pr_structure p) (pr_unit p) x) (fn_g (pr_fn p) (fn_qp (pr_fn p))).
  (** quadcoil.py 618. *)
  Definition h_scaled (p : prepared) (x : list R) : result arr :=
    bind (unscale (pr_structure p) (pr_unit p) x) (fn_h (pr_fn p) (fn_qp (pr_fn p))).

  (** quadcoil.py 268-621.  The objective must be a scalar to be
      differentiated by the optimiser. *)
  Definition prepare {L} (a : args L) : result prepared :=
    bind (default_quadpoints a) (fun qd =>
    bind (one_surface a) (fun _ =>
    bind (input_checking (qc_objective_name a) (qc_objective_weight a) (qc_objective_unit a)
            (qc_constraint_name a) (qc_constraint_type a) (qc_constraint_unit a) (qc_constraint_value a)) (fun _ =>
    let y := y_dict a in
    bind (f_g_h_from_y a qd y) (fun fn =>
    let phi_init := match qc_phi_init a with Some x => x | None => repeat 0 (q_ndofs (fn_qp fn)) end in
    bind (phi_unit_of a (fn_qp fn) phi_init) (fun u =>
    bind (x_dict (fn_aux fn) (fn_qp fn) phi_init u) (fun x =>
    let p m l := {| pr_qd := qd; pr_y := y; pr_fn := fn; pr_unit := u; pr_x0 := ravel x;
                    pr_structure := structure x; pr_mu0 := m; pr_lam0 := l |} in
    bind (g_scaled (p [] []) (ravel x)) (fun g0 =>
    bind (h_scaled (p [] []) (ravel x)) (fun h0 =>
    bind (f_scaled (p [] []) (ravel x)) (fun f0 =>
    if isscalar f0 then Ok (p (map (fun _ => 0) (el g0)) (map (fun _ => 0) (el h0)))
    else Raise TypeError))))))))).

  (** ** Solving *)
  Variable E : library.
  (** Short names for the members of [library], documented there (calls in quadcoil.py 640-996). *)
  Notation fin := (x_fin E). Notation opt := (x_opt E). Notation autograd := (x_autograd E).
  (** As above (quadcoil.py 640-996). *)
  Notation fuel_out := (x_fuel_out E). Notation fuel_in := (x_fuel_in E).
  (** As above (quadcoil.py 640-996). *)
  Notation jac_x := (x_jac_x E). Notation jac_y := (x_jac_y E). Notation jvp := (x_jvp E).
  (** As above (quadcoil.py 640-996). *)
  Notation hessian := (x_hessian E). Notation L := (x_solver E).
  (** As above (quadcoil.py 640-996). *)
  Notation lx_default := (x_default E). Notation lx_auto := (x_auto E).
  (** As above (quadcoil.py 640-996). *)
  Notation linear_solve := (x_linear_solve E). Notation svd := (x_svd E).

  (** What [solve_results] holds in the two cases (quadcoil.py 660-670,
      691-714). *)
  Inductive solve_results : Type :=
  | Direct (r : opt_out (R_num fin))
  | Constrained (d : ModelSolver.dict (R_num fin)).
  (** The optimum found (quadcoil.py 650, 714). *)
  Definition optimum (r : solve_results) : list R :=
    match r with Direct r => r_x _ r | Constrained d => d_x _ d end.

  (** The arguments with which solve_constrained is called (quadcoil.py
      691-712).  [gplus_mask] is not among them, so solver.py 277 supplies
      gplus_hard; c_k_safe keeps its default 1e15 (276). *)
  Definition solver_problem {L} (a : args L) (p : prepared) : problem (R_num fin) :=
    let t := qc_tol a in
    Build_problem (R_num fin)
      (* f, g, h *) (fun x => real_of (f_scaled p x)) (fun x => list_of (g_scaled p x))
      (fun x => list_of (h_scaled p x))
      (* gplus_mask *) (gplus_hard (R_num fin))
      (* c_growth_rate, c_k_safe *) (qc_c_growth a) (10 ^ 15)
      (xstop_outer t) (ctol_outer t) (fstop_inner t) (xstop_inner t) (gtol_inner t)
      (fstop_inner_last t) (xstop_inner_last t) (gtol_inner_last t)
      (qc_maxiter_tot a) (qc_maxiter_inner a).
  (** quadcoil.py 649-714.  Without constraints the last-stage tolerances are
      used, except for the gradient tolerance (656). *)
  Definition solve {L} (a : args L) (p : prepared) : option solve_results :=
    if unconstrained (pr_fn p) then
      match run_opt (R_num fin) opt autograd fuel_in (pr_x0 p) (fun x => real_of (f_scaled p x))
              (qc_maxiter_tot a) (fstop_inner_last (qc_tol a)) (xstop_inner_last (qc_tol a))
              (gtol_inner (qc_tol a)) with
      | Some r => Some (Direct r) | None => None end
    else
      match solve_constrained (R_num fin) opt autograd (solver_problem a p) fuel_out fuel_in
              (pr_x0 p) (qc_c_init a) (pr_lam0 p) (pr_mu0 p) with
      | Some d => Some (Constrained d) | None => None end.

  (** ** Metrics and gradients *)
  (** Matrix product; [n] is the number of columns of the second factor (quadcoil.py 886-909). *)
  Definition matmul (n : nat) (A B : matrix) : matrix := map (fun r => map (fun j => ldot r (col B j)) (seq 0 n)) A.
  (** Elementwise sum and multiples (quadcoil.py 902-909). *)
  Definition matadd (A B : matrix) : matrix := map2 (map2 Rplus) A B.
  (** See above (quadcoil.py 902-909). *)
  Definition matscale (c : R) (A : matrix) : matrix := map (map (Rmult c)) A.
  (** Elementwise operations on vectors (quadcoil.py 967-996). *)
  Definition ladd (a b : list R) : list R := map2 Rplus a b.
  (** See above (quadcoil.py 992-993). *)
  Definition lsub (a b : list R) : list R := map2 Rminus a b.
  (** See above (quadcoil.py 967-996). *)
  Definition lscale (c : R) (a : list R) : list R := map (Rmult c) a.
  (** [jnp.linalg.norm] of a vector (quadcoil.py 992-993). *)
  Definition lnorm (a : list R) : R := sqrt (fold_right Rplus 0 (map (fun x => x * x) a)).
  (** [jnp.max] of a vector of non-negative numbers (quadcoil.py 866, 892). *)
  Definition smax (s : list R) : R := fold_right Rmax 0 s.

  (** The entries of out_dict: the value, the gradient and the further keys
      added in verbose mode (quadcoil.py 1049-1060); ['hess_cond'] (791) is an
      entry without value or gradient. *)
  Record entry : Type := Entry {
    e_value : option arr; e_grad : option (ModelArray.dict arr); e_extra : list string }.
  (** The four results (quadcoil.py 756, 1061). *)
  Record output : Type := Output {
    o_out : ModelArray.dict entry; o_qp : params; o_dofs : ModelArray.dict arr; o_results : solve_results }.

  (** quadcoil.py 744-756; the assignment to out_dict is inside the else branch. *)
  Fixpoint value_metrics (names : list string) (fn : functions) (dofs : ModelArray.dict arr)
      (out : ModelArray.dict entry) : result (ModelArray.dict entry) :=
    match names with
    | [] => Ok out
    | m :: names =>
        if String.eqb m "f_obj"
        then bind (fn_f fn (fn_qp fn) dofs) (fun _ => value_metrics names fn dofs out)
        else bind (bind (get_quantity ns m) (fun q => call q (fn_qp fn) dofs)) (fun v =>
             value_metrics names fn dofs (dict_set out m {| e_value := Some v; e_grad := None; e_extra := [] |}))
    end.

  (** quadcoil.py 949-958, [f_metric]: a function of the flat unknowns and of
      the flat inputs.  For 'f_obj' the objective of the original inputs is
      evaluated on the parameter object of the new inputs. *)
  Definition f_metric (a : args L) (p : prepared) (name : string) (x y : list R) : result arr :=
    bind (y_to_qp a (pr_qd p) (unravel (structure (pr_y p)) y)) (fun qp =>
    bind (unscale (pr_structure p) (pr_unit p) x) (fun d =>
    if String.eqb name "f_obj" then fn_f (pr_fn p) qp d
    else bind (get_quantity ns name) (fun q => call q qp d))).

  (** quadcoil.py 764-767: the unconstrained objective as a function of both. *)
  Definition l_direct (a : args L) (p : prepared) (x y : list R) : R :=
    real_of (bind (f_g_h_from_y a (pr_qd p) (unravel (structure (pr_y p)) y)) (fun fn =>
             bind (unscale (pr_structure p) (pr_unit p) x) (fn_f fn (fn_qp fn)))).
  (** quadcoil.py 802-818: the three terms of the augmented Lagrangian, with
      the thresholding function chosen by the user. *)
  Definition l_terms (a : args L) (p : prepared) (mu lam : list R) (c : R) (x y : list R) : R * R * R :=
    match f_g_h_from_y a (pr_qd p) (unravel (structure (pr_y p)) y) with
    | Raise _ => (0, 0, 0)
    | Ok fn =>
        let at_x (f : callable params) := bind (unscale (pr_structure p) (pr_unit p) x) (f (fn_qp fn)) in
        let h := list_of (at_x (fn_h fn)) in
        let gp := qc_gplus_mask a (list_of (at_x (fn_g fn))) mu c in
        (real_of (at_x (fn_f fn)),
         ldot lam h + ldot mu gp,
         c / 2 * (ldot h h + ldot gp gp))
    end.
  (** quadcoil.py 820. *)
  Definition l_sum (a : args L) (p : prepared) (mu lam : list R) (c : R) (x y : list R) : R :=
    let '(t1, t2, t3) := l_terms a p mu lam c x y in t1 + t2 + t3.

  (** quadcoil.py 856-859: 0.5 * (M + M.T). *)
  Definition symmetrise (n : nat) (M : matrix) : matrix := matscale (1 / 2) (matadd M (transpose n M)).
  (** [VH.T @ (sel[:, None] * VH)]: the projector onto the selected rows (886-888, 895-896). *)
  Definition projector (n : nat) (sel : list bool) (VH : matrix) : matrix :=
    matmul n (transpose n VH) (map2 (fun (b : bool) row => if b then row else map (fun _ => 0) row) sel VH).
  (** [s >= svtol * s_max] (quadcoil.py 870, 892). *)
  Definition selection (tol : R) (s : list R) : list bool :=
    map (fun x => if Rle_dec (tol * smax s) x then true else false) s.

  (** The three Hessians in ascending order of their largest singular value
      ([jnp.argsort], quadcoil.py 874, is a stable sort); each with its decomposition. *)
  Fixpoint insert_term (t : matrix * (list R * matrix)) (l : list (matrix * (list R * matrix)))
    : list (matrix * (list R * matrix)) :=
    match l with
    | [] => [t]
    | t' :: l' => if Rle_dec (smax (fst (snd t))) (smax (fst (snd t')))
                  then t :: l else t' :: insert_term t l'
    end.
  (** The sorted terms (quadcoil.py 874-885). *)
  Definition sort_terms (l : list (matrix * (list R * matrix))) := fold_right insert_term [] l.

  (** quadcoil.py 886-909: the preconditioner and the preconditioned Hessian,
      from the sorted terms A, B, C with their decompositions. *)
  Record precond : Type := Precond {
    pc_proj_C : matrix; pc_annil_C : matrix; pc_proj_BC : matrix; pc_annil_BC : matrix;
    pc_scale_AC : R; pc_scale_BC : R; pc_Ohess : matrix }.
  (** quadcoil.py 886-909, as described above. *)
  Definition preconditioner (n : nat) (tol : R) (tA tB tC : matrix * (list R * matrix)) : precond :=
    let '(A, (sA, _)) := tA in let '(B, (sB, VB)) := tB in let '(C, (sC, VC)) := tC in
    let selB := selection tol sB in
    let selC := selection tol sC in
    let proj_C := projector n selC VC in
    let proj_B := projector n selB VB in
    let annil_C := projector n (map negb selC) VC in
    let '(sBC, VBC) := svd (proj_B ++ proj_C) in
    let selBC := selection tol sBC in
    let proj_BC := projector n selBC VBC in
    let annil_BC := projector n (map negb selBC) VBC in
    let scale_AC := if Rlt_dec 0 (smax sA) then smax sC / smax sA else 0 in
    let scale_BC := if Rlt_dec 0 (smax sB) then smax sC / smax sB else 0 in
    let mul := matmul n in
    let OC := C in
    let OB := matadd (mul (mul (matscale scale_BC proj_BC) annil_C) B) (mul proj_C B) in
    let OA := matadd (matadd (mul (mul (matscale scale_AC annil_BC) annil_C) A)
                             (mul (mul (matscale scale_BC proj_BC) annil_C) A)) (mul proj_C A) in
    {| pc_proj_C := proj_C; pc_annil_C := annil_C; pc_proj_BC := proj_BC; pc_annil_BC := annil_BC;
       pc_scale_AC := scale_AC; pc_scale_BC := scale_BC; pc_Ohess := matadd (matadd OA OB) OC |}.
  (** quadcoil.py 967-971: the preconditioned right-hand side. *)
  Definition precond_rhs (n : nat) (pc : precond) (b : list R) : list R :=
    let mul := matmul n in
    ladd (ladd (matvec (mul (matscale (pc_scale_AC pc) (pc_annil_BC pc)) (pc_annil_C pc)) b)
               (matvec (mul (matscale (pc_scale_BC pc) (pc_proj_BC pc)) (pc_annil_C pc)) b))
         (matvec (pc_proj_C pc) b).
  (** quadcoil.py 979-996: both solutions, and the choice between them.
      (nan_to_num is the identity on reals.) *)
  Definition choose (H : matrix) (b raw pre : list R) : list R :=
    if Rlt_dec (lnorm (lsub (matvec H raw) b)) (lnorm (lsub (matvec H pre) b)) then raw else pre.
  (** quadcoil.py 979-996, as described above. *)
  Definition vihp_constrained (solver : L) (n : nat) (H : matrix) (pc : precond) (b : list R) : list R :=
    choose H b (linear_solve solver H b) (linear_solve solver (pc_Ohess pc) (precond_rhs n pc b)).

  (** What the metric loop takes from the preparation of the gradients
      (quadcoil.py 763-947): l_k(x, y) and the solution operator. *)
  Record grad_setup : Type := GradSetup { gs_l : list R -> list R -> R; gs_vihp : list R -> list R }.
  (** quadcoil.py 763-947. *)
  Definition setup (a : args L) (p : prepared) (r : solve_results) : grad_setup :=
    let y := ravel (pr_y p) in
    let x := optimum r in
    let n := length x in
    let solver := match qc_linear_solver a with Some s => s | None => lx_auto end in
    match r with
    | Direct _ =>
        {| gs_l := l_direct a p;
           gs_vihp := linear_solve lx_default (hessian (fun x => l_direct a p x y) x) |}
    | Constrained d =>
        let l := l_sum a p (d_mu _ d) (d_lam _ d) (d_c _ d) in
        let term sel x := sel (l_terms a p (d_mu _ d) (d_lam _ d) (d_c _ d) x y) in
        let h1 := hessian (term (fun t => fst (fst t))) x in
        let h2 := hessian (term (fun t => snd (fst t))) x in
        let h3 := hessian (term snd) x in
        let hess := matadd (matadd h1 h2) h3 in
        let sym := map (symmetrise n) [h1; h2; h3] in
        match sort_terms (map (fun M => (M, svd M)) sym) with
        | [tA; tB; tC] =>
            {| gs_l := l;
               gs_vihp := vihp_constrained solver n hess (preconditioner n (svtol (qc_tol a)) tA tB tC) |}
        | _ => {| gs_l := l; gs_vihp := fun b => b |}
        end
    end.

  (** quadcoil.py 960-1004: the gradient of one scalar metric [f] with respect
      to the flat inputs. *)
  Definition metric_gradient (s : grad_setup) (f : list R -> list R -> R) (x y : list R) : list R :=
    let grad_x_f := jac_x f x y in
    let grad_y_f := jac_y f x y in
    let vihp := gs_vihp s grad_x_f in
    let dfdy1 := jvp (fun x => jac_y (gs_l s) x y) x vihp in
    ladd (map Ropp dfdy1) grad_y_f.

  (** quadcoil.py 948-1061, the metric loop.  A metric that is not a scalar has
      a matrix of derivatives, which linear_solve rejects. *)
  Fixpoint grad_metrics (names : list string) (a : args L) (p : prepared) (r : solve_results)
      (out : ModelArray.dict entry) : result (ModelArray.dict entry) :=
    match names with
    | [] => Ok out
    | m :: names =>
        let y := ravel (pr_y p) in
        let x := optimum r in
        bind (f_metric a p m x y) (fun v =>
        if isscalar v then
          let g := metric_gradient (setup a p r) (fun x y => real_of (f_metric a p m x y)) x y in
          let grad := map (fun kv => (String.append "df_d" (fst kv), snd kv)) (unravel (structure (pr_y p)) g) in
          let extra := if qc_verbose a
                       then "vihp" :: match r with
                            | Direct _ => []
                            | Constrained _ => ["hess_rank"; "Ohess_rank"; "hess_cond"; "Ohess_cond"; "hess_err"; "Ohess_err"]
                            end
                       else [] in
          grad_metrics names a p r (dict_set out m {| e_value := Some v; e_grad := Some grad; e_extra := extra |})
        else Raise ValueError)
    end.

  (** quadcoil.py 743-1061. *)
  Definition finish (a : args L) (p : prepared) (r : solve_results) : result output :=
    bind (unscale (pr_structure p) (pr_unit p) (optimum r)) (fun dofs =>
    bind (if qc_value_only a then value_metrics (metrics a) (pr_fn p) dofs []
          else grad_metrics (metrics a) a p r
                 (match r, qc_verbose a with
                  | Direct _, true => [("hess_cond", {| e_value := None; e_grad := None; e_extra := [] |})]
                  | _, _ => [] end)) (fun out =>
    Ok {| o_out := out; o_qp := fn_qp (pr_fn p); o_dofs := dofs; o_results := r |})).

  (** quadcoil.py 63-1061, [quadcoil].  [None]: the loops did not end within
      the given fuel. *)
  Definition quadcoil (a : args L) : option (result output) :=
    match prepare a with
    | Raise e => Some (Raise e)
    | Ok p => match solve a p with
              | None => None
              | Some r => Some (finish a p r)
              end
    end.
End Problem.
