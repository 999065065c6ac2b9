(** Vocabulary for the end-to-end statements about a call of quadcoil (C120, C121). *)
From Coq Require Import String List Bool Arith ZArith Reals.
From Verif Require Import Base ModelArray ModelMath SpecMath ModelWrapper SpecWrapper ModelQuadcoil SpecQuadcoil SpecProblem
  ModelSurface ModelParams ModelPackage SpecPackage.
Import ListNotations.
Open Scope R_scope.
Open Scope string_scope.
Open Scope list_scope.

(** The objective and constraint arguments of the call ask for the terms [os]
    (one name with one unit, or a tuple with weights) and the constraints [cs]. *)
Definition asks {L} (a : args L) (os : list objective) (cs : list user_constraint) : Prop :=
  ((exists n u, os = [OB n u 1] /\ qc_objective_name a = NStr n /\ qc_objective_unit a = UsNum u) \/
   (qc_objective_name a = NTuple (map ob_name os) /\ qc_objective_weight a = WArr (Arr [length os] (map ob_weight os)) /\
      qc_objective_unit a = UsSeq (map (fun o => UScalar (ob_unit o)) os))) /\
  qc_constraint_name a = NTuple (map uc_name cs) /\
  qc_constraint_type a = NTuple (map (fun c => op_string (uc_cmp c)) cs) /\
  qc_constraint_unit a = UsSeq (map (fun c => UScalar (uc_unit c)) cs) /\
  qc_constraint_value a = VSeq (map uc_val cs).

(** The surfaces and the parameter object of the call can be built: [q] is the result. *)
Definition builds {L} (a : args L) (q : params) : Prop :=
  one_winding a /\ exists qd, default_quadpoints a = Ok qd /\ y_to_qp a qd (y_dict a) = Ok q.
(** A metric that can be reported; with gradients when [number] is set. *)
Definition reportable (q : params) (number : bool) (m : string) : Prop :=
  m = "f_obj" \/
  exists kind, In (m, kind) (documented ++ undocumented) /\ ~ In m ["f_max_Bnormal_abs"; "Phi_abs"] /\
    (m = "K_theta" -> q_stellsym q = true) /\ (number = true -> kind = Number).
