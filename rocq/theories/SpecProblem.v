(** Vocabulary for the statements about the problem handed to the optimiser. *)
From Coq Require Import String List Bool Arith ZArith Reals.
From Verif Require Import Base ModelArray ModelMath SpecMath ModelSurface SpecSurface ModelParams SpecField
  ModelQuantity ModelWrapper SpecWrapper ModelPackage SpecPackage SpecConvex.
Import ListNotations.
Open Scope R_scope.
Open Scope string_scope.
Open Scope list_scope.

(** One term of the objective as the user writes it. *)
Record objective : Type := OB { ob_name : string; ob_unit : R; ob_weight : R }.

(** A state of the optimiser for the coefficients [phi]: the coefficients, and
    for every slack variable an array of the shape of its initial value. *)
Definition solver_state {P} (po pc : parsed P) (qp : P) (phi : arr) (d : dofs) : Prop :=
  lookup "phi" d = Some phi /\
  forall k init, lookup k (dict_union (p_slack po) (p_slack pc)) = Some init ->
    exists v a, init qp [("phi", phi)] = Ok v /\ lookup k d = Some a /\ sh a = sh v /\ wf a.
(** A state that satisfies the generated system, and its objective value. *)
Definition solver_value {P} (f : callable P) (po pc : parsed P) (qp : P) (phi : arr) (d : dofs) (y : R) : Prop :=
  solver_state po pc qp phi d /\ system_holds po qp d /\ system_holds pc qp d /\ f qp d = Ok (scal y).

(** The quantities that are handed to the optimiser through a slack variable. *)
Definition slack_quantities : list string :=
  ["f_max_K2"; "f_max_K_dot_grad_K_cyl"; "f_max_Bnormal"; "f_max_Bnormal2"; "f_max_force_cyl"; "f_max_force2_cyl";
   "f_max_Phi"; "f_max_Phi2"; "f_max_Phi4"; "f_l1_Phi"].
(** The quantities that are handed over as they are. *)
Definition direct_quantities : list string :=
  ["K"; "K2"; "K_theta"; "f_K"; "K_dot_grad_K"; "K_dot_grad_K_cyl"; "winding_surface_B"; "Bnormal"; "Bnormal2"; "f_B";
   "f_B_normalized_by_Bnormal_IG"; "Phi"; "Phi_with_net_current"; "Phi2"; "f_Phi"].
(** A use of a quantity with a unit: the unit is not zero, and all uses of a
    slack quantity [name] share the scale [U name]. *)
Definition scaled_use (U : string -> R) (q : params) (name : string) (unit : R) : Prop :=
  unit <> 0 /\ (In name slack_quantities /\ Rabs unit = U name \/ In name direct_quantities /\ (name = "K_theta" -> q_stellsym q = true)).

(** What the user asked for: the terms with their effective weights, the bounds. *)
Definition asked_terms (os : list objective) : list (string * R) :=
  map (fun o => (ob_name o, ob_weight o / Rabs (ob_unit o))) os.
Definition asked_bounds (cs : list user_constraint) : list (string * cmp * R) :=
  map (fun c => (uc_name c, uc_cmp c, uc_val c)) cs.
