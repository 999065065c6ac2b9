(** Vocabulary for the statements about problems handed over with smoothing="approx". *)
From Coq Require Import String List Bool Arith ZArith Reals.
From Verif Require Import Base ModelArray ModelMath SpecMath ModelSurface SpecSurface ModelParams SpecField
  ModelQuantity ModelWrapper SpecWrapper ModelPackage SpecPackage SpecConvex SpecProblem.
Import ListNotations.
Open Scope R_scope.
Open Scope string_scope.
Open Scope list_scope.

(** The largest values that are smoothed in units of the given unit, and the
    field they are the largest value of. *)
Definition smoothed_peaks : list (string * shape_kind) :=
  [ ("f_max_K2", CoilField); ("f_max_K_dot_grad_K_cyl", CoilVector); ("f_max_Bnormal", PlasmaField);
    ("f_max_Bnormal2", PlasmaField); ("f_max_force_cyl", CoilVector); ("f_max_Phi", CoilField) ].
(** A use of a quantity in approx mode. *)
Definition smooth_use (q : params) (name : string) (unit : R) : Prop :=
  unit <> 0 /\ (In name (map fst smoothed_peaks) \/ name = "f_l1_Phi" \/ In name direct_quantities /\ (name = "K_theta" -> q_stellsym q = true)).
(** What smoothing may add to a quantity, in units of [unit], per lse_epsilon:
    ln(2n) for the largest of n values, ln 2 times the area for the integral of
    an absolute value, ln n for a bound at n points, nothing for a number that
    is smooth itself. *)
Definition loss (q : params) (name : string) (unit : R) : R :=
  match lookup name smoothed_peaks with
  | Some k => ln (2 * INR (size (shape_of q k)))
  | None =>
      if String.eqb name "f_l1_Phi"
      then match da (q_eval q) with Ok d => ln 2 * (INR (q_nfp q) * Rsum (concat d)) / Rabs unit | Raise _ => 0 end
      else match lookup name (documented ++ undocumented) with
           | Some Number | None => 0
           | Some k => ln (INR (size (shape_of q k)))
           end
  end.
(** What smoothing may add to an objective, per lse_epsilon. *)
Definition objective_loss (q : params) (os : list objective) : R :=
  Rsum (map (fun o => ob_weight o * loss q (ob_name o) (ob_unit o)) os).
(** A bound moved inwards by what smoothing may add to the quantity. *)
Definition tightened (q : params) (eps : R) (c : user_constraint) : user_constraint :=
  let margin := Rabs (uc_unit c) * (eps * loss q (uc_name c) (uc_unit c)) in
  UC (uc_name c) (uc_cmp c) (uc_unit c) (match uc_cmp c with GE => uc_val c + margin | _ => uc_val c - margin end).
(** The parsers accept the objective and the constraints in approx mode and
    generate [f], [po], [pc]. *)
Definition smoothed_problem (other : list string) (os : list objective) (cs : list user_constraint) (eps : R)
    (f : callable params) (po pc : parsed params) : Prop :=
  parse_objectives q_ndofs (package other) (Objectives (map ob_name os) (map (fun o => UScalar (ob_unit o)) os)) (map ob_weight os) (Some "approx") [("lse_epsilon", eps)] = Ok (f, po) /\
  parse_constraints q_ndofs (package other) (map uc_name cs) (map (fun c => op_string (uc_cmp c)) cs) (map (fun c => UScalar (uc_unit c)) cs) (map uc_val cs) (Some "approx") [("lse_epsilon", eps)] = Ok pc.
(** The coefficients [x] satisfy the generated system, with objective [y]. *)
Definition smoothed_value (f : callable params) (po pc : parsed params) (q : params) (x : list R) (y : R) : Prop :=
  let d := [("phi", Arr [length x] x)] in
  system_holds po q d /\ system_holds pc q d /\ f q d = Ok (scal y).
(** [x] is a best point of the generated problem. *)
Definition smoothed_best (f : callable params) (po pc : parsed params) (q : params) (x : list R) : Prop :=
  length x = q_ndofs q /\ exists y, smoothed_value f po pc q x y /\
  forall x' y', length x' = q_ndofs q -> smoothed_value f po pc q x' y' -> y <= y'.
(** [x] meets every bound with room to spare. *)
Definition strictly_feasible (other : list string) (q : params) (cs : list (string * cmp * R)) (x : list R) : Prop :=
  forall name c b, In (name, c, b) cs -> exists v, reads other name q x v /\
    forall y, In y (el v) -> match c with LE => y < b | GE => b < y | EQ => y = b end.
