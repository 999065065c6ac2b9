(** Vocabulary for C144. *)
From Coq Require Import List Reals.
From Verif Require Import Base ModelSolver SpecSolver SpecCert.
Import ListNotations.
Open Scope R_scope.

(** [y] meets the constraints with the inequalities allowed up to [dg] instead
    of 0 and the equalities required to be [dh] instead of 0. *)
Definition relaxed {fin} (P : problem (R_num fin)) (dg dh y : list R) : Prop :=
  Forall2 Rle (p_g _ P y) dg /\ p_h _ P y = dh.
(** [y] meets the constraints that have a multiplier. *)
Definition priced {fin} (P : problem (R_num fin)) (lam mu y : list R) : Prop :=
  Forall2 (fun m v => m = 0 \/ v <= 0) mu (p_g _ P y) /\ Forall2 (fun l v => l = 0 \/ v = 0) lam (p_h _ P y).
(** [P'] is [P] with the inequalities loosened by [delta] (tightened where it is
    negative); the settings of the solver may differ too. *)
Definition loosened {fin} (delta : list R) (P P' : problem (R_num fin)) : Prop :=
  forall y : list R, p_f _ P' y = p_f _ P y /\ p_g _ P' y = map2 Rminus (p_g _ P y) delta /\ p_h _ P' y = p_h _ P y.
(** A finished solve of [P] by an inner optimiser that ends where no slope is
    below [-eta], from a start with positive penalty weight and non-negative
    multipliers: [d] is reported and [u] is the last scale of the unknown. *)
Definition solved {fin} (P : problem (R_num fin)) (n ng nh : nat) (eta : R) (d : dict (R_num fin)) (u : R) : Prop :=
  exists (o : optimiser (R_num fin)) ag (x0 : list R) c0 (lam0 mu0 : list R) fuel_out fuel_in d1,
    counted o /\ shaped o /\ p_mask _ P = gplus_hard (R_num fin) /\ 0 < p_growth _ P /\ sized P n ng nh /\
    length x0 = n /\ 0 < c0 /\ length mu0 = ng /\ length lam0 = nh /\ List.Forall (fun m => 0 <= m) mu0 /\ stationary o ag P n ng nh eta /\
    main_loop (R_num fin) o ag P fuel_out fuel_in (init_dict (R_num fin) P x0 c0 lam0 mu0) = Some d1 /\ u = d_xunit _ d1 /\
    solve_constrained (R_num fin) o ag P fuel_out fuel_in x0 c0 lam0 mu0 = Some d.
