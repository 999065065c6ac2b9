(** Vocabulary for the statements about changes of units. *)
From Coq Require Import String List Bool Arith ZArith Reals.
From Verif Require Import Base ModelArray ModelMath SpecMath ModelSurface SpecSurface ModelParams SpecField
  ModelQuantity ModelWrapper SpecWrapper ModelPackage SpecPackage SpecConvex.
Import ListNotations.
Open Scope R_scope.
Open Scope string_scope.
Open Scope list_scope.

(** The physical dimension of every quantity of the package, as powers of a
    length and of a magnetic field; a current is a field times a length. *)
Definition dimensions : list (string * (Z * Z)) :=
  [ ("K", (0, 1)); ("K2", (0, 2)); ("K_theta", (1, 1)); ("f_max_K2", (0, 2)); ("f_huber_K", (2, 1)); ("f_K", (2, 2));
    ("K_dot_grad_K", (-1, 2)); ("K_dot_grad_K_cyl", (-1, 2)); ("f_max_K_dot_grad_K_cyl", (-1, 2));
    ("winding_surface_B", (0, 1)); ("Bnormal", (0, 1)); ("Bnormal2", (0, 2)); ("f_B", (2, 2));
    ("f_B_normalized_by_Bnormal_IG", (0, 0)); ("f_max_Bnormal", (0, 1)); ("f_max_Bnormal2", (0, 2));
    ("f_max_force_cyl", (0, 2)); ("f_l1_force_cyl", (2, 2)); ("f_max_force2_cyl", (0, 4));
    ("Phi", (1, 1)); ("Phi_with_net_current", (1, 1)); ("Phi2", (2, 2)); ("f_max_Phi", (1, 1));
    ("f_max_Phi2", (2, 2)); ("f_max_Phi4", (4, 4)); ("f_l1_Phi", (3, 1)); ("f_Phi", (4, 2)) ]%Z.
(** What a quantity is multiplied by when lengths are multiplied by [c] and
    fields by [b]; 1 for names that are not in the package. *)
Definition factor (c b : R) (name : string) : R :=
  match lookup name dimensions with Some (l, f) => powerRZ c l * powerRZ b f | None => 1 end.
(** A quantity of the package that can be evaluated on this problem. *)
Definition usable (q : params) (name : string) : Prop :=
  In name (map fst dimensions) /\ (name = "K_theta" -> q_stellsym q = true).
(** The problem in the new units: weights that leave the weighted terms
    unchanged, and bounds in the new units. *)
Definition new_weights (c b : R) (os : list (string * R)) : list (string * R) :=
  map (fun o => (fst o, snd o / factor c b (fst o))) os.
Definition new_bounds (c b : R) (cs : list (string * cmp * R)) : list (string * cmp * R) :=
  map (fun k => (fst (fst k), snd (fst k), factor c b (fst (fst k)) * snd k)) cs.
