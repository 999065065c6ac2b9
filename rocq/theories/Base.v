(** Shared vocabulary of the model: Python results, an arbitrary arithmetic,
    vectors as lists, and [jax.lax.while_loop].  No proofs here. *)
From Coq Require Import List Bool Arith String.
Import ListNotations.

(** The outcome of a Python call: a value, or the class of the exception that
    it raises.  Only the exception class is kept; messages are not modelled.
    Classes are those raised by the code cited in the model files
    (raise statements throughout src/quadcoil). *)
Inductive exn : Type :=
| TypeError | ValueError | KeyError | AttributeError | NameError
| IndexError | AssertionError | ImportError | ZeroDivisionError.

(** A value or an exception, see above (raise statements throughout src/quadcoil, e.g. quadcoil.py 287-290). *)
Inductive result (A : Type) : Type :=
| Ok (a : A)
| Raise (e : exn).
Arguments Ok {A} _.
Arguments Raise {A} _.

(** Sequencing of Python statements: an exception ends the call (no try in the modelled code except where cited, e.g. quadcoil.py 287-333). *)
Definition bind {A B} (r : result A) (k : A -> result B) : result B :=
  match r with Ok a => k a | Raise e => Raise e end.

(** An arithmetic without laws.  The solver model (src/quadcoil/solver.py) is
    written over an arbitrary record of operations, so that what is proved
    about its control flow holds for reals, for IEEE doubles (with NaN, for
    which every comparison is false) or for anything else.  The names are
    those of the jax.numpy operations the solver uses. *)
Record Num : Type := {
  T :> Type;
  n_zero : T; n_one : T;
  n_add : T -> T -> T; n_sub : T -> T -> T; n_mul : T -> T -> T; n_div : T -> T -> T;
  n_opp : T -> T; n_abs : T -> T; n_max : T -> T -> T;
  n_sqrt : T -> T; n_exp : T -> T; n_ln : T -> T;
  n_ltb : T -> T -> bool;   (* a < b *)
  n_leb : T -> T -> bool;   (* a <= b *)
  n_neb : T -> T -> bool;   (* a != b *)
  n_finite : T -> bool;     (* ~isinf & ~isnan *)
  n_nat : nat -> T
}.

Section Vec.
  Variable N : Num.
  (** One-dimensional arrays (solver.py 83-226). *)
  Definition vec := list N.

  (** Elementwise operations of jax.numpy on one-dimensional arrays of equal
      shape (solver.py 143-160, 476-519).  On arrays of unequal length JAX
      raises; [map2] truncates, so the model is only meant for equal lengths
      (theorems that depend on it carry the length hypothesis). *)
  Fixpoint map2 {A B C} (f : A -> B -> C) (l : list A) (l' : list B) : list C :=
    match l, l' with
    | a :: l, b :: l' => f a b :: map2 f l l'
    | _, _ => []
    end.
  (** [a + b] (solver.py 149, 476-480). *)
  Definition vadd (a b : vec) : vec := map2 (n_add N) a b.
  (** [a - b] (solver.py 153-154). *)
  Definition vsub (a b : vec) : vec := map2 (n_sub N) a b.
  (** [a * b] (solver.py 478-480). *)
  Definition vmul (a b : vec) : vec := map2 (n_mul N) a b.
  (** [c * a] (solver.py 476-480). *)
  Definition vscale (c : N) (a : vec) : vec := map (fun x => n_mul N c x) a.
  (** [a * c] (solver.py 476-480). *)
  Definition vmuls (a : vec) (c : N) : vec := map (fun x => n_mul N x c) a.
  (** [a / c] (solver.py 231, 476). *)
  Definition vdivs (a : vec) (c : N) : vec := map (fun x => n_div N x c) a.
  (** [jnp.abs(a)] (solver.py 153-154). *)
  Definition vabs (a : vec) : vec := map (n_abs N) a.
  (** jnp.sum, with its result 0 on an empty array (solver.py 478-480). *)
  Definition vsum (a : vec) : N := fold_left (n_add N) a (n_zero N).
  (** [a @ b] for one-dimensional arrays (solver.py 478-479). *)
  Definition vdot (a b : vec) : N := vsum (vmul a b).
  (** jnp.linalg.norm / optax tree_norm: square root of the sum of squares (solver.py 166-172). *)
  Definition vnorm (a : vec) : N := n_sqrt N (vsum (vmul a a)).
  (** [jnp.zeros_like(a)] (solver.py 127-131). *)
  Definition vzeros_like (a : vec) : vec := map (fun _ => n_zero N) a.
  (** [jnp.any] of a comparison (solver.py 447). *)
  Definition vany (p : N -> bool) (a : vec) : bool := existsb p a.
  (** [jnp.all] of a comparison (solver.py 508-509). *)
  Definition vall (p : N -> bool) (a : vec) : bool := forallb p a.
End Vec.

(** [jax.lax.while_loop cond body init].  The fuel bounds the number of body
    executions; [None] means that the fuel ran out before the condition became
    false, so termination is a statement about the existence of enough fuel.
    The body may itself run out of fuel (nested loops) (solver.py 215, 622). *)
Fixpoint while_fuel {S : Type} (fuel : nat) (cond : S -> bool) (body : S -> option S) (s : S)
  : option S :=
  if cond s then
    match fuel with
    | O => None
    | Datatypes.S n =>
        match body s with
        | None => None
        | Some s' => while_fuel n cond body s'
        end
    end
  else Some s.
