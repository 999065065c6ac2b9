(** Vocabulary for the prices of the bounds of a call (C153). *)
From Coq Require Import String List Bool Arith ZArith Reals.
From Verif Require Import Base ModelArray ModelMath SpecMath ModelSurface ModelParams ModelWrapper SpecWrapper ModelPackage SpecPackage SpecProblem.
Import ListNotations.
Open Scope R_scope.
Open Scope string_scope.
Open Scope list_scope.

(** The constraints [cs] with the bounds [bs] in place of their own. *)
Definition rebound (cs : list user_constraint) (bs : list R) : list user_constraint :=
  map2 (fun c b => UC (uc_name c) (uc_cmp c) (uc_unit c) b) cs bs.
(** By how much the bound [b] loosens the constraint, in its unit; for an
    equality, by how much it moves the required value. *)
Definition relief (c : user_constraint) (b : R) : R :=
  match uc_cmp c with GE => uc_val c - b | _ => b - uc_val c end / Rabs (uc_unit c).
(** Each constraint owns consecutive entries of the multipliers, one per entry
    of its quantity: of [mu] for an inequality and of [lam] for an equality.
    Its price is their sum.  In [mu] they may come after the multipliers of the
    slack variables of the quantity, if it has any. *)
Inductive shares (other : list string) (q : params) (x : list R) : list user_constraint -> list R -> list R -> list R -> Prop :=
| no_shares : shares other q x [] [] [] []
| bound_share c cs s own mu lam ps v : uc_cmp c <> EQ -> (In (uc_name c) direct_quantities -> s = []) ->
    reads other (uc_name c) q x v -> length own = length (el v) ->
    shares other q x cs mu lam ps -> shares other q x (c :: cs) (s ++ own ++ mu) lam (Rsum own :: ps)
| value_share c cs own mu lam ps v : uc_cmp c = EQ ->
    reads other (uc_name c) q x v -> length own = length (el v) ->
    shares other q x cs mu lam ps -> shares other q x (c :: cs) mu (own ++ lam) (Rsum own :: ps).
(** What the bounds [bs] instead of their own are worth at the prices [ps]. *)
Definition worth (ps : list R) (cs : list user_constraint) (bs : list R) : R := Rsum (map2 Rmult ps (map2 relief cs bs)).
