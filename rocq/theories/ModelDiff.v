(** Model of the differentiable wrapper src/quadcoil/io/jax.py and of the DESC
    interface src/quadcoil/io/desc.py over the reals.  No proofs here. *)
From Coq Require Import String List Bool Arith ZArith Reals.
From Verif Require Import Base ModelArray ModelMath ModelQuantity ModelWrapper ModelSurface ModelParams ModelSolver
  ModelQuadcoil.
Import ListNotations.
Open Scope R_scope.
Open Scope string_scope.
Open Scope list_scope.

(** ** The differentiable wrapper *)
(** The eight arguments of [quadcoil_for_diff] (jax.py 60-69). *)
Record diff_inputs : Type := DiffInputs {
  di_plasma_dofs : list R; di_G : R; di_I : R; di_Bnormal : option arr; di_distance : option R;
  di_winding_dofs : option (list R); di_weight : weight_arg; di_value : values_arg }.
(** jax.py 33-55, 70-79: the call of quadcoil.  The keyword arguments given to
    [gen_quadcoil_for_diff] are those of [a]; the differentiable ones among
    them are dropped (35-37) and the eight inputs take their place. *)
Definition with_inputs {L} (a : args L) (i : diff_inputs) (value_only : bool) : args L :=
  {| qc_nfp := qc_nfp a; qc_stellsym := qc_stellsym a; qc_plasma_mpol := qc_plasma_mpol a;
     qc_plasma_ntor := qc_plasma_ntor a; qc_plasma_dofs := di_plasma_dofs i; qc_G := di_G i; qc_I := di_I i;
     qc_mpol := qc_mpol a; qc_ntor := qc_ntor a; qc_qphi := qc_qphi a; qc_qtheta := qc_qtheta a;
     qc_phi_init := qc_phi_init a; qc_phi_unit := qc_phi_unit a; qc_plasma_stellsym := qc_plasma_stellsym a;
     qc_plasma_qphi := qc_plasma_qphi a; qc_plasma_qtheta := qc_plasma_qtheta a; qc_Bnormal := di_Bnormal i;
     qc_distance := di_distance i; qc_generator := qc_generator a; qc_winding_dofs := di_winding_dofs i;
     qc_winding_mpol := qc_winding_mpol a; qc_winding_ntor := qc_winding_ntor a;
     qc_winding_qphi := qc_winding_qphi a; qc_winding_qtheta := qc_winding_qtheta a;
     qc_winding_stellsym := qc_winding_stellsym a; qc_objective_name := qc_objective_name a;
     qc_objective_weight := di_weight i; qc_objective_unit := qc_objective_unit a;
     qc_constraint_name := qc_constraint_name a; qc_constraint_type := qc_constraint_type a;
     qc_constraint_unit := qc_constraint_unit a; qc_constraint_value := di_value i;
     qc_metric_name := qc_metric_name a; qc_value_only := value_only; qc_smoothing := qc_smoothing a;
     qc_smoothing_params := qc_smoothing_params a; qc_verbose := qc_verbose a; qc_merge := qc_merge a;
     qc_c_init := qc_c_init a; qc_c_growth := qc_c_growth a; qc_tol := qc_tol a;
     qc_maxiter_tot := qc_maxiter_tot a; qc_maxiter_inner := qc_maxiter_inner a;
     qc_gplus_mask := qc_gplus_mask a; qc_linear_solver := qc_linear_solver a |}.

(** The tangents handed to the derivative rule (jax.py 105-114); [None] is
    None, and a tuple of numbers is the array made of it (jax.py 150, 153). *)
Record tangents : Type := Tangents {
  dt_plasma_dofs : option arr; dt_G : option arr; dt_I : option arr; dt_Bnormal : option arr;
  dt_distance : option arr; dt_winding_dofs : option arr; dt_weight : option arr; dt_value : option arr }.

(** [out_dict[key]['value']] (jax.py 82, 131).  The only entry without a value
    is 'hess_cond' (quadcoil.py 791), an array; indexing it with a string
    raises TypeError. *)
Definition entry_value (e : entry) : result arr :=
  match e_value e with Some v => Ok v | None => Raise TypeError end.
(** jax.py 80-82. *)
Fixpoint simple_values (out : ModelArray.dict entry) : result (ModelArray.dict arr) :=
  match out with
  | [] => Ok []
  | (k, e) :: out => bind (entry_value e) (fun v => bind (simple_values out) (fun vs => Ok ((k, v) :: vs)))
  end.

(** jax.py 135-136 and the like: one term; 0 when the tangent is None. *)
Definition jvp_term (e : entry) (key : string) (t : option arr) : result R :=
  match t with
  | None => Ok 0
  | Some t =>
      bind (match e_grad e with Some g => Ok g | None => Raise KeyError end) (fun g =>
      bind (getitem g key) (fun d => bind (op2 Rmult d t) (fun p => Ok (asum p))))
  end.
(** jax.py 147-150: a scalar tangent of objective_weight is skipped. *)
Definition jvp_weight (e : entry) (t : option arr) : result R :=
  match t with
  | None => Ok 0
  | Some t => if isscalar t then Ok 0 else jvp_term e "df_dobjective_weight" (Some t)
  end.
(** jax.py 151-153: an empty tangent of constraint_value is skipped; len of a
    zero-dimensional array raises TypeError. *)
Definition jvp_value (e : entry) (t : option arr) : result R :=
  match t with
  | None => Ok 0
  | Some t => match sh t with
              | [] => Raise TypeError
              | O :: _ => Ok 0
              | _ => jvp_term e "df_dconstraint_value" (Some t)
              end
  end.
(** jax.py 134-154: the derivative of one metric. *)
Definition jvp_entry (e : entry) (t : tangents) : result R :=
  bind (jvp_term e "df_dplasma_dofs" (dt_plasma_dofs t)) (fun s1 =>
  bind (jvp_term e "df_dnet_poloidal_current_amperes" (dt_G t)) (fun s2 =>
  bind (jvp_term e "df_dnet_toroidal_current_amperes" (dt_I t)) (fun s3 =>
  bind (jvp_term e "df_dBnormal_plasma" (dt_Bnormal t)) (fun s4 =>
  bind (jvp_term e "df_dplasma_coil_distance" (dt_distance t)) (fun s5 =>
  bind (jvp_term e "df_dwinding_dofs" (dt_winding_dofs t)) (fun s6 =>
  bind (jvp_weight e (dt_weight t)) (fun s7 =>
  bind (jvp_value e (dt_value t)) (fun s8 =>
  Ok (0 + s1 + s2 + s3 + s4 + s5 + s6 + s7 + s8))))))))).
(** jax.py 126-162: the loop over the entries; values and derivatives. *)
Fixpoint jvp_loop (out : ModelArray.dict entry) (t : tangents)
    : result (ModelArray.dict arr * ModelArray.dict R) :=
  match out with
  | [] => Ok ([], [])
  | (k, e) :: out =>
      bind (entry_value e) (fun v => bind (jvp_entry e t) (fun s =>
      bind (jvp_loop out t) (fun r => Ok ((k, v) :: fst r, (k, s) :: snd r))))
  end.

Section Diff.
  (** The quantities and what lies outside the repository, as in
      ModelQuadcoil.v. *)
  Variable ns : namespace params.
  Variable E : library.

  (** jax.py 59-87, [quadcoil_for_diff]. *)
  Definition quadcoil_for_diff (a : args (x_solver E)) (i : diff_inputs) : option (result (ModelArray.dict arr)) :=
    option_map (fun r => bind r (fun o => simple_values (o_out E o))) (quadcoil ns E (with_inputs a i true)).
  (** jax.py 89-162, [quadcoil_for_diff_jvp]. *)
  Definition quadcoil_for_diff_jvp (a : args (x_solver E)) (i : diff_inputs) (t : tangents)
      : option (result (ModelArray.dict arr * ModelArray.dict R)) :=
    option_map (fun r => bind r (fun o => jvp_loop (o_out E o) t)) (quadcoil ns E (with_inputs a i false)).
  (** What [gen_quadcoil_for_diff] returns (jax.py 163): quadcoil_values, and
      quadcoil_for_diff with its derivative rule. *)
  Record diff_functions : Type := DiffFunctions {
    df_values : diff_inputs -> option (result (output E));
    df_for_diff : diff_inputs -> option (result (ModelArray.dict arr));
    df_jvp : diff_inputs -> tangents -> option (result (ModelArray.dict arr * ModelArray.dict R)) }.
  (** jax.py 20-163, [gen_quadcoil_for_diff], called with [gives_value_only]
      telling whether value_only is among the keyword arguments: then
      [partial] gets it twice and raises TypeError (43-47). *)
  Definition gen_quadcoil_for_diff (a : args (x_solver E)) (gives_value_only : bool) : result diff_functions :=
    if gives_value_only then Raise TypeError
    else Ok {| df_values := fun i => quadcoil ns E (with_inputs a i true);
               df_for_diff := quadcoil_for_diff a; df_jvp := quadcoil_for_diff_jvp a |}.
End Diff.

(** ** The DESC interface *)
(** The names a reader of desc.py can see at module level: its imports (1-3)
    and definitions (6, 27, 156), and the built-in functions it uses. *)
Definition desc_names : list string :=
  ["quadcoil"; "SurfaceRZFourierJAX"; "get_quantity"; "jnp"; "mu_0"; "generate_desc_scaling"; "quadcoil_desc";
   "load_FourierCurrentPotentialField"; "set"; "str"; "len"; "print"; "type"; "isinstance"; "tuple"].
(** Python's lookup of a name that is no local variable, such as
    _DESC_DERIVED_ARGNAMES (desc.py 114). *)
Definition resolve (names : list string) (name : string) : result unit :=
  if mem name names then Ok tt else Raise NameError.

(** desc.py 20-23: the unit of each name, in order; [unit_of] stands for
    get_quantity(name).desc_unit(scales). *)
Fixpoint units_from (unit_of : string -> result R) (names : list string) : result (list R) :=
  match names with
  | [] => Ok []
  | n :: names => bind (unit_of n) (fun u => bind (units_from unit_of names) (fun us => Ok (u :: us)))
  end.
(** desc.py 6-24, [generate_desc_scaling].  Iterating over an object that is
    no sequence raises TypeError; a string given for constraint_name would be
    iterated letter by letter and is left out. *)
Definition generate_desc_scaling (unit_of : string -> result R) (objective constraint : names_arg)
    : result (units_arg * units_arg) :=
  bind (match objective with
        | NStr n => bind (unit_of n) (fun u => Ok (UsNum u))
        | NTuple l => bind (units_from unit_of l) (fun us => Ok (UsSeq (map UScalar us)))
        | NOther => Raise TypeError
        end) (fun o =>
  bind (match constraint with
        | NTuple l => bind (units_from unit_of l) (fun us => Ok (UsSeq (map UScalar us)))
        | _ => Raise TypeError
        end) (fun c => Ok (o, c))).

(** What is read from a DESC equilibrium (desc.py 70-108); DESC is outside the
    repository. *)
Record equilibrium : Type := Equilibrium {
  dq_nfp : nat; dq_sym : bool; dq_mpol : nat; dq_ntor : nat; dq_qphi : list R; dq_qtheta : list R;
  dq_dofs : list R; dq_G : R; dq_Bnormal : arr }.
(** desc.py 59-64, 128-137: the keyword arguments after the equilibrium's data
    have replaced those of [a].  A plasma_coil_distance given as None, whose
    negation raises TypeError, is left out. *)
Definition with_equilibrium {L} (a : args L) (q : equilibrium) : args L :=
  {| qc_nfp := dq_nfp q; qc_stellsym := dq_sym q; qc_plasma_mpol := dq_mpol q; qc_plasma_ntor := dq_ntor q;
     qc_plasma_dofs := dq_dofs q; qc_G := dq_G q; qc_I := qc_I a; qc_mpol := qc_mpol a; qc_ntor := qc_ntor a;
     qc_qphi := qc_qphi a; qc_qtheta := qc_qtheta a; qc_phi_init := qc_phi_init a; qc_phi_unit := qc_phi_unit a;
     qc_plasma_stellsym := qc_plasma_stellsym a; qc_plasma_qphi := Some (dq_qphi q);
     qc_plasma_qtheta := Some (dq_qtheta q); qc_Bnormal := Some (dq_Bnormal q);
     qc_distance := option_map Ropp (qc_distance a); qc_generator := qc_generator a;
     qc_winding_dofs := qc_winding_dofs a; qc_winding_mpol := qc_winding_mpol a;
     qc_winding_ntor := qc_winding_ntor a; qc_winding_qphi := qc_winding_qphi a;
     qc_winding_qtheta := qc_winding_qtheta a; qc_winding_stellsym := qc_winding_stellsym a;
     qc_objective_name := qc_objective_name a; qc_objective_weight := qc_objective_weight a;
     qc_objective_unit := qc_objective_unit a; qc_constraint_name := qc_constraint_name a;
     qc_constraint_type := qc_constraint_type a; qc_constraint_unit := qc_constraint_unit a;
     qc_constraint_value := qc_constraint_value a; qc_metric_name := qc_metric_name a;
     qc_value_only := qc_value_only a; qc_smoothing := qc_smoothing a;
     qc_smoothing_params := qc_smoothing_params a; qc_verbose := qc_verbose a; qc_merge := qc_merge a;
     qc_c_init := qc_c_init a; qc_c_growth := qc_c_growth a; qc_tol := qc_tol a;
     qc_maxiter_tot := qc_maxiter_tot a; qc_maxiter_inner := qc_maxiter_inner a;
     qc_gplus_mask := qc_gplus_mask a; qc_linear_solver := qc_linear_solver a |}.
(** desc.py 150-151. *)
Definition with_units {L} (a : args L) (o c : units_arg) : args L :=
  {| qc_nfp := qc_nfp a; qc_stellsym := qc_stellsym a; qc_plasma_mpol := qc_plasma_mpol a;
     qc_plasma_ntor := qc_plasma_ntor a; qc_plasma_dofs := qc_plasma_dofs a; qc_G := qc_G a; qc_I := qc_I a;
     qc_mpol := qc_mpol a; qc_ntor := qc_ntor a; qc_qphi := qc_qphi a; qc_qtheta := qc_qtheta a;
     qc_phi_init := qc_phi_init a; qc_phi_unit := qc_phi_unit a; qc_plasma_stellsym := qc_plasma_stellsym a;
     qc_plasma_qphi := qc_plasma_qphi a; qc_plasma_qtheta := qc_plasma_qtheta a; qc_Bnormal := qc_Bnormal a;
     qc_distance := qc_distance a; qc_generator := qc_generator a; qc_winding_dofs := qc_winding_dofs a;
     qc_winding_mpol := qc_winding_mpol a; qc_winding_ntor := qc_winding_ntor a;
     qc_winding_qphi := qc_winding_qphi a; qc_winding_qtheta := qc_winding_qtheta a;
     qc_winding_stellsym := qc_winding_stellsym a; qc_objective_name := qc_objective_name a;
     qc_objective_weight := qc_objective_weight a; qc_objective_unit := o;
     qc_constraint_name := qc_constraint_name a; qc_constraint_type := qc_constraint_type a;
     qc_constraint_unit := c; qc_constraint_value := qc_constraint_value a; qc_metric_name := qc_metric_name a;
     qc_value_only := qc_value_only a; qc_smoothing := qc_smoothing a;
     qc_smoothing_params := qc_smoothing_params a; qc_verbose := qc_verbose a; qc_merge := qc_merge a;
     qc_c_init := qc_c_init a; qc_c_growth := qc_c_growth a; qc_tol := qc_tol a;
     qc_maxiter_tot := qc_maxiter_tot a; qc_maxiter_inner := qc_maxiter_inner a;
     qc_gplus_mask := qc_gplus_mask a; qc_linear_solver := qc_linear_solver a |}.

Section Desc.
  (** As above. *)
  Variable ns : namespace params.
  Variable E : library.

  (** desc.py 27-154, [quadcoil_desc], for a module whose visible names are
      [names].  [installed]: DESC can be imported.  [read]: what the reading of
      the equilibrium gives or raises.  [redundant]: the user gave one of the
      arguments that are taken from the equilibrium. *)
  Definition quadcoil_desc_with (names : list string) (installed : bool) (read : result equilibrium)
      (redundant desc_scaling : bool) (unit_of : string -> result R) (a : args (x_solver E))
      : option (result (output E)) :=
    if negb installed then Some (Raise ImportError)
    else match read with
    | Raise e => Some (Raise e)
    | Ok q =>
      match bind (resolve names "_DESC_DERIVED_ARGNAMES") (fun _ =>
            bind (if redundant then resolve names "warnings" else Ok tt) (fun _ =>
            if desc_scaling
            then bind (generate_desc_scaling unit_of (qc_objective_name a) (qc_constraint_name a)) (fun oc =>
                 Ok (with_units (with_equilibrium a q) (fst oc) (snd oc)))
            else Ok (with_equilibrium a q))) with
      | Raise e => Some (Raise e)
      | Ok a' => quadcoil ns E a'
      end
    end.
  (** desc.py 27-154 with the names of desc.py. *)
  Definition quadcoil_desc := quadcoil_desc_with desc_names.
End Desc.

(** desc.py 156-195, [load_FourierCurrentPotentialField].  [transform]: what
    DESC's ptolemy_identity_rev and the attributes of the arguments give or
    raise (164-176).  The names in line 177 are no parameters (those are called
    winding_quadpoints_phi, winding_quadpoints_theta).  The value returned by a
    version with these names is left abstract. *)
Definition load_FourierCurrentPotentialField_with {A} (names : list string) (installed : bool) (transform : result (list R))
    (rest : list R -> result A) : result A :=
  if negb installed then Raise ImportError
  else bind transform (fun phi =>
       bind (resolve names "quadpoints_phi") (fun _ => rest phi)).
(** desc.py 156-195 with the names of desc.py. *)
Definition load_FourierCurrentPotentialField {A} := @load_FourierCurrentPotentialField_with A desc_names.
