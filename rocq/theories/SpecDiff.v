(** Vocabulary for the statements about the differentiable wrapper, the DESC
    interface and the plots. *)
From Coq Require Import String List Bool Arith ZArith Reals.
From Verif Require Import Base ModelArray ModelMath ModelQuantity ModelWrapper ModelSurface ModelParams ModelSolver
  ModelQuadcoil ModelDiff SpecMath SpecSurface.
Import ListNotations.
Open Scope R_scope.
Open Scope string_scope.
Open Scope list_scope.

(** Two calls that differ at most in the eight differentiable arguments and in
    value_only. *)
Definition same_but_inputs {L} (a b : args L) : Prop :=
  b = {| qc_nfp := qc_nfp a; qc_stellsym := qc_stellsym a; qc_plasma_mpol := qc_plasma_mpol a;
     qc_plasma_ntor := qc_plasma_ntor a; qc_plasma_dofs := qc_plasma_dofs b; qc_G := qc_G b; qc_I := qc_I b;
     qc_mpol := qc_mpol a; qc_ntor := qc_ntor a; qc_qphi := qc_qphi a; qc_qtheta := qc_qtheta a;
     qc_phi_init := qc_phi_init a; qc_phi_unit := qc_phi_unit a; qc_plasma_stellsym := qc_plasma_stellsym a;
     qc_plasma_qphi := qc_plasma_qphi a; qc_plasma_qtheta := qc_plasma_qtheta a; qc_Bnormal := qc_Bnormal b;
     qc_distance := qc_distance b; qc_generator := qc_generator a; qc_winding_dofs := qc_winding_dofs b;
     qc_winding_mpol := qc_winding_mpol a; qc_winding_ntor := qc_winding_ntor a;
     qc_winding_qphi := qc_winding_qphi a; qc_winding_qtheta := qc_winding_qtheta a;
     qc_winding_stellsym := qc_winding_stellsym a; qc_objective_name := qc_objective_name a;
     qc_objective_weight := qc_objective_weight b; qc_objective_unit := qc_objective_unit a;
     qc_constraint_name := qc_constraint_name a; qc_constraint_type := qc_constraint_type a;
     qc_constraint_unit := qc_constraint_unit a; qc_constraint_value := qc_constraint_value b;
     qc_metric_name := qc_metric_name a; qc_value_only := qc_value_only b; qc_smoothing := qc_smoothing a;
     qc_smoothing_params := qc_smoothing_params a; qc_verbose := qc_verbose a; qc_merge := qc_merge a;
     qc_c_init := qc_c_init a; qc_c_growth := qc_c_growth a; qc_tol := qc_tol a;
     qc_maxiter_tot := qc_maxiter_tot a; qc_maxiter_inner := qc_maxiter_inner a;
     qc_gplus_mask := qc_gplus_mask a; qc_linear_solver := qc_linear_solver a |}.
(** [a] is the call with these inputs. *)
Definition has_inputs {L} (a : args L) (i : diff_inputs) : Prop :=
  qc_plasma_dofs a = di_plasma_dofs i /\ qc_G a = di_G i /\ qc_I a = di_I i /\ qc_Bnormal a = di_Bnormal i /\
  qc_distance a = di_distance i /\ qc_winding_dofs a = di_winding_dofs i /\
  qc_objective_weight a = di_weight i /\ qc_constraint_value a = di_value i.

(** ** Tangents *)
(** A tangent of the given shape. *)
Definition of_shape (t : option arr) (s : list nat) : Prop := exists v, t = Some v /\ sh v = s.
(** What JAX hands to a derivative rule: to each input a tangent of its shape,
    None to None. *)
Definition matching (i : diff_inputs) (t : tangents) : Prop :=
  of_shape (dt_plasma_dofs t) [length (di_plasma_dofs i)] /\ of_shape (dt_G t) [] /\ of_shape (dt_I t) [] /\
  match di_Bnormal i with Some b => of_shape (dt_Bnormal t) (sh b) | None => dt_Bnormal t = None end /\
  match di_distance i with Some _ => of_shape (dt_distance t) [] | None => dt_distance t = None end /\
  match di_winding_dofs i with Some w => of_shape (dt_winding_dofs t) [length w] | None => dt_winding_dofs t = None end /\
  match di_weight i with
  | WNum _ => of_shape (dt_weight t) []
  | WArr w => of_shape (dt_weight t) (sh w)
  | WOther => dt_weight t = None
  end /\
  match di_value i with VSeq l => of_shape (dt_value t) [length l] | VOther => dt_value t = None end.
(** The tangent belonging to an entry of the gradient. *)
Definition tangent_for (t : tangents) (key : string) : option arr :=
  match lookup key [("df_dplasma_dofs", dt_plasma_dofs t); ("df_dnet_poloidal_current_amperes", dt_G t);
                    ("df_dnet_toroidal_current_amperes", dt_I t); ("df_dBnormal_plasma", dt_Bnormal t);
                    ("df_dplasma_coil_distance", dt_distance t); ("df_dwinding_dofs", dt_winding_dofs t);
                    ("df_dobjective_weight", dt_weight t); ("df_dconstraint_value", dt_value t)] with
  | Some t => t
  | None => None
  end.
(** Sum of the products of corresponding elements. *)
Definition pairing (v t : arr) : R :=
  Rsum (map (fun i => nth i (el v) 0 * nth i (el t) 0) (seq 0 (size (sh v)))).
(** The change of a metric with gradient [g] along [t], to first order. *)
Definition directional (g : ModelArray.dict arr) (t : tangents) : R :=
  Rsum (map (fun kv => match tangent_for t (fst kv) with Some v => pairing (snd kv) v | None => 0 end) g).
(** [a x + b y]. *)
Definition combine_arr (a b : R) (x y : option arr) : option arr :=
  match x, y with
  | Some x, Some y => Some (Arr (sh x) (map (fun i => a * nth i (el x) 0 + b * nth i (el y) 0) (seq 0 (size (sh x)))))
  | _, _ => None
  end.
Definition combination (a b : R) (s t : tangents) : tangents :=
  {| dt_plasma_dofs := combine_arr a b (dt_plasma_dofs s) (dt_plasma_dofs t); dt_G := combine_arr a b (dt_G s) (dt_G t);
     dt_I := combine_arr a b (dt_I s) (dt_I t); dt_Bnormal := combine_arr a b (dt_Bnormal s) (dt_Bnormal t);
     dt_distance := combine_arr a b (dt_distance s) (dt_distance t);
     dt_winding_dofs := combine_arr a b (dt_winding_dofs s) (dt_winding_dofs t);
     dt_weight := combine_arr a b (dt_weight s) (dt_weight t); dt_value := combine_arr a b (dt_value s) (dt_value t) |}.

(** A single objective is not given an array of weights; an array of weights
    has as many elements as its shape says. *)
Definition usable_weight (name : names_arg) (w : weight_arg) : Prop :=
  forall v, w = WArr v -> wf v /\ (sh v = [] \/ exists l, name = NTuple l).

(** ** DESC *)
(** The call made for an equilibrium: its data for the plasma, the distance
    with the other sign, the rest from the user's call [a]. *)
Definition equilibrium_call {L} (a : args L) (q : equilibrium) (b : args L) : Prop :=
  b = {| qc_nfp := dq_nfp q; qc_stellsym := dq_sym q; qc_plasma_mpol := dq_mpol q;
     qc_plasma_ntor := dq_ntor q; qc_plasma_dofs := dq_dofs q; qc_G := dq_G q; qc_I := qc_I a;
     qc_mpol := qc_mpol a; qc_ntor := qc_ntor a; qc_qphi := qc_qphi a; qc_qtheta := qc_qtheta a;
     qc_phi_init := qc_phi_init a; qc_phi_unit := qc_phi_unit a; qc_plasma_stellsym := qc_plasma_stellsym a;
     qc_plasma_qphi := Some (dq_qphi q); qc_plasma_qtheta := Some (dq_qtheta q); qc_Bnormal := Some (dq_Bnormal q);
     qc_distance := match qc_distance a with Some d => Some (- d) | None => None end;
     qc_generator := qc_generator a; qc_winding_dofs := qc_winding_dofs a;
     qc_winding_mpol := qc_winding_mpol a; qc_winding_ntor := qc_winding_ntor a;
     qc_winding_qphi := qc_winding_qphi a; qc_winding_qtheta := qc_winding_qtheta a;
     qc_winding_stellsym := qc_winding_stellsym a; qc_objective_name := qc_objective_name a;
     qc_objective_weight := qc_objective_weight a; qc_objective_unit := qc_objective_unit b;
     qc_constraint_name := qc_constraint_name a; qc_constraint_type := qc_constraint_type a;
     qc_constraint_unit := qc_constraint_unit b; qc_constraint_value := qc_constraint_value a;
     qc_metric_name := qc_metric_name a; qc_value_only := qc_value_only a; qc_smoothing := qc_smoothing a;
     qc_smoothing_params := qc_smoothing_params a; qc_verbose := qc_verbose a; qc_merge := qc_merge a;
     qc_c_init := qc_c_init a; qc_c_growth := qc_c_growth a; qc_tol := qc_tol a;
     qc_maxiter_tot := qc_maxiter_tot a; qc_maxiter_inner := qc_maxiter_inner a;
     qc_gplus_mask := qc_gplus_mask a; qc_linear_solver := qc_linear_solver a |}.
