(** Vocabulary for the solver properties (C37-C48). *)
From Coq Require Import List Bool Arith Reals.
From Verif Require Import Base ModelSolver.
Import ListNotations.

(** Contract of the optimiser's iteration counter: it starts at 0 and each
    update adds one (optax's ScaleByLBFGSState.count). *)
Definition counted {N : Num} (o : optimiser N) : Prop :=
  (forall x, o_count N o (o_init N o x) = 0) /\
  (forall f g s x v, o_count N o (snd (o_update N o f g s x v)) = S (o_count N o s)).

(** [traj o ag f x0 n x s u vals]: making [n] optimiser updates from [x0] leads
    to point [x] and optimiser state [s]; [u] is the last update; [vals] are
    the objective values used for the updates, oldest first.  The value used
    is the one remembered by the optimiser if it is finite, otherwise a fresh
    evaluation at the current point. *)
Inductive traj {N : Num} (o : optimiser N) (ag : (list N -> N) -> list N -> list N)
          (f : list N -> N) (x0 : list N)
  : nat -> list N -> o_state N o -> list N -> list N -> Prop :=
| traj_start : traj o ag f x0 0 x0 (o_init N o x0) (map (fun _ => n_zero N) x0) []
| traj_update : forall n x s u vals v g u' s',
    traj o ag f x0 n x s u vals ->
    (n_finite N (o_value N o s) = true -> v = o_value N o s /\ g = o_grad N o s) ->
    (n_finite N (o_value N o s) = false -> v = f x /\ g = ag f x) ->
    o_update N o f g s x v = (u', s') ->
    traj o ag f x0 (S n) (map2 (n_add N) x u') s' u' (vals ++ [v]).

(** The optimiser never remembers a wrong value: along its run, a remembered
    finite value is the objective at the current point. *)
Definition honest {N : Num} (o : optimiser N) ag (f : list N -> N) (x0 : list N) : Prop :=
  forall n x s u vals, traj o ag f x0 n x s u vals ->
    n_finite N (o_value N o s) = true -> o_value N o s = f x.

(** [d'] is reached from [d] by some number of outer passes, each with any
    tolerances and any inner fuel. *)
Inductive passes {N : Num} (o : optimiser N) ag (P : problem N) (d : dict N) : dict N -> Prop :=
| passes_none : passes o ag P d d
| passes_more : forall d1 d2 fuel fs xs gt,
    passes o ag P d d1 ->
    body N o ag P fuel fs xs gt d1 = Some d2 ->
    passes o ag P d d2.

(** Real arithmetic.  Over the reals no value is NaN or infinite; [fin] says
    which remembered values the optimiser reuses ([fun _ => false]: none). *)
Open Scope R_scope.
Definition R_num (fin : R -> bool) : Num :=
  {| T := R; n_zero := 0; n_one := 1; n_add := Rplus; n_sub := Rminus; n_mul := Rmult;
     n_div := Rdiv; n_opp := Ropp; n_abs := Rabs; n_max := Rmax; n_sqrt := sqrt;
     n_exp := exp; n_ln := ln;
     n_ltb := fun a b => if Rlt_dec a b then true else false;
     n_leb := fun a b => if Rle_dec a b then true else false;
     n_neb := fun a b => if Req_EM_T a b then false else true;
     n_finite := fin;
     n_nat := INR |}.

(** Euclidean norm of a list of reals, sum of squares. *)
Definition sumR (l : list R) : R := fold_right Rplus 0 l.
Definition normR (l : list R) : R := sqrt (sumR (map (fun x => x * x) l)).
Definition dotR (a b : list R) : R := sumR (map2 Rmult a b).
