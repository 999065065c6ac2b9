(** Vocabulary for the statements about best designs. *)
From Coq Require Import String List Bool Arith ZArith Reals.
From Verif Require Import Base ModelArray ModelMath SpecMath ModelSurface SpecSurface ModelParams SpecField ModelQuantity ModelWrapper SpecWrapper ModelPackage SpecPackage SpecConvex.
Import ListNotations.
Open Scope R_scope.
Open Scope string_scope.
Open Scope list_scope.

(** The figures of merit that are sums of squares. *)
Definition quadratic_figures : list string := ["f_B"; "f_K"; "f_Phi"].
(** The evaluation points cover one field period and one poloidal turn with more
    than twice as many points as the highest harmonic in each direction. *)
Definition resolved (q : params) : Prop :=
  exists x0 t0 N M, q_qphi q = equispaced x0 (/ (INR (q_nfp q) * INR N)) N /\ q_qtheta q = equispaced t0 (/ INR M) M /\
    (2 <= N)%nat /\ (2 <= M)%nat /\ (2 * q_ntor q < N)%nat /\ (2 * q_mpol q < M)%nat.
(** The terms of an objective that are sums of squares. *)
Definition quadratic_part (os : list (string * R)) : list (string * R) :=
  filter (fun o => existsb (String.eqb (fst o)) quadratic_figures) os.
(** Constraints whose admissible designs form a convex set. *)
Definition convex_constraints (other : list string) (q : params) (cs : list (string * cmp * R)) : Prop :=
  forall name c b, In (name, c, b) cs -> match c with LE => convex_quantity other name q | _ => affine_quantity other name q end.
(** Objectives that are sums of convex figures. *)
Definition convex_objective (other : list string) (q : params) (os : list (string * R)) : Prop :=
  forall name w, In (name, w) os -> 0 <= w /\ convex_quantity other name q.
(** [x] is admissible and no admissible design has a smaller objective. *)
Definition best (other : list string) (q : params) (os : list (string * R)) (cs : list (string * cmp * R)) (x : list R) (fx : R) : Prop :=
  length x = q_ndofs q /\ feasible other q cs x /\ weighted other q os x fx /\ least other q os cs x (fun _ => True).
(** A positive weight on a figure that sees every unknown. *)
Definition regularised (q : params) (os : list (string * R)) : Prop :=
  exists c, 0 < c /\ (In ("f_Phi", c) os \/ In ("f_K", c) os /\ q_stellsym q = true).
