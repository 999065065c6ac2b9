(** Vocabulary for C159 and C160. *)
From Coq Require Import List Reals.
From Verif Require Import Base ModelSolver SpecSolver SpecCert SpecCertify.
Import ListNotations.
Open Scope R_scope.

(** How far the reported state [d] is from meeting its constraints: the sum of
    the squares of the positive inequalities and of the equalities. *)
Definition violation {N_fin} (d : dict (R_num N_fin)) : R :=
  squares (map (Rmax 0) (d_g _ d)) + squares (d_h _ d).

(** [d] is reached from [d0] by outer passes over which the violations after
    each pass, weighted with the penalty weight of the pass, add up to [w]; [k]
    of them ended with a violation of at least [v]. *)
Inductive spent {fin} (o : optimiser (R_num fin)) ag (P : problem (R_num fin)) (v : R) (d0 : dict (R_num fin)) : R -> nat -> dict (R_num fin) -> Prop :=
| spent_none : spent o ag P v d0 0 0 d0
| spent_met : forall w k d d' fuel fs xs gt, spent o ag P v d0 w k d -> body _ o ag P fuel fs xs gt d = Some d' -> violation d' < v ->
    spent o ag P v d0 (w + d_c _ d * violation d') k d'
| spent_off : forall w k d d' fuel fs xs gt, spent o ag P v d0 w k d -> body _ o ag P fuel fs xs gt d = Some d' -> v <= violation d' ->
    spent o ag P v d0 (w + d_c _ d * violation d') (S k) d'.

(** Objective and inequalities are convex and the equalities affine, for points
    with [n] coordinates. *)
Definition convex_problem_of {fin} (P : problem (R_num fin)) (n : nat) : Prop :=
  forall (x z : list R) t, length x = n -> length z = n -> 0 <= t <= 1 ->
    p_f _ P (between x z t) <= p_f _ P x + t * (p_f _ P z - p_f _ P x) /\
    Forall2 Rle (p_g _ P (between x z t)) (between (p_g _ P x) (p_g _ P z) t) /\
    p_h _ P (between x z t) = between (p_h _ P x) (p_h _ P z) t.

(** Every pass from [d0] on ends at a point that is level for its augmented Lagrangian. *)
Definition exact_passes {fin} (o : optimiser (R_num fin)) ag (P : problem (R_num fin)) (n : nat) (d0 : dict (R_num fin)) : Prop :=
  forall d d' fuel fs xs gt, passes o ag P d0 d -> body _ o ag P fuel fs xs gt d = Some d' ->
    level n 0 (augmented (p_f _ P) (p_g _ P) (p_h _ P) (d_c _ d) (d_lam _ d) (d_mu _ d)) (d_x _ d').
