(** The part of [jax.numpy] arrays that the quantity and wrapper code relies
    on: shapes, row-major data, broadcasting, reductions.  No proofs here.

    JAX itself is not in /repo; these definitions state the library behaviour
    which src/quadcoil/quantity/quantity.py and src/quadcoil/wrapper.py assume.
    Data are real numbers (no rounding, NaN or infinity). *)
From Coq Require Import String List Bool Arith ZArith Reals.
From Verif Require Import Base.
Import ListNotations.
Open Scope R_scope.

(** An ndarray: a shape and its elements in row-major order
    (wrapper.py 46-92, quantity/quantity.py 23-57, 300-631). *)
Record arr : Type := Arr { sh : list nat; el : list R }.

(** Number of elements of a shape ([math.prod(shape)])
    (the length of a flattened array, quantity/quantity.py 36, 57). *)
Definition size (s : list nat) : nat := fold_right Nat.mul 1%nat s.
(** A number as a zero-dimensional array (jnp.abs(unit), wrapper.py 148). *)
Definition scal (x : R) : arr := Arr [] [x].
(** [x.ndim] (quantity/quantity.py 473, 486, 567, 590). *)
Definition ndim (a : arr) : nat := length (sh a).
(** [jnp.isscalar(x)] for array-valued x: true exactly for zero-dimensional
    arrays (wrapper.py 366). *)
Definition isscalar (a : arr) : bool := match sh a with [] => true | _ => false end.

(** All multi-indices of a shape, in row-major order
    (used for broadcasting, quantity/quantity.py 581, 591). *)
Fixpoint indices (s : list nat) : list (list nat) :=
  match s with
  | [] => [[]]
  | n :: s => flat_map (fun i => map (cons i) (indices s)) (seq 0 n)
  end.

(** Row-major position of a multi-index (used for broadcasting, quantity/quantity.py 581, 591). *)
Fixpoint ravel_index (s idx : list nat) : nat :=
  match s, idx with
  | n :: s, i :: idx => (i * size s + ravel_index s idx)%nat
  | _, _ => 0%nat
  end.

(** Left padding of a shape with ones up to rank [n] (NumPy broadcasting)
    (used for quantity/quantity.py 581, 591). *)
Definition pad_shape (n : nat) (s : list nat) : list nat :=
  repeat 1%nat (n - length s) ++ s.

(** Can every dimension of the (padded) shape [s] be stretched to [t]?
    (used for quantity/quantity.py 581, 591). *)
Definition fits (s t : list nat) : bool :=
  Nat.eqb (length s) (length t)
  && forallb (fun p => Nat.eqb (fst p) (snd p) || Nat.eqb (fst p) 1) (combine s t).

(** [jnp.broadcast_to(a, t)] (quantity.py 581, 591): right-aligned shapes; a
    dimension of length one is repeated; ValueError otherwise.  [nth] is only
    evaluated at positions below [size (sh a)]. *)
Definition broadcast_to (a : arr) (t : list nat) : result arr :=
  let p := pad_shape (length t) (sh a) in
  if fits p t
  then Ok (Arr t (map (fun idx =>
         nth (ravel_index p (map2 (fun n i => if Nat.eqb n 1 then 0%nat else i) p idx))
             (el a) 0) (indices t)))
  else Raise ValueError.

(** Result shape of a binary elementwise operation, on reversed shapes
    (library rule behind func/unit, quantity/quantity.py 328-334). *)
Fixpoint bshape_rev (s t : list nat) : option (list nat) :=
  match s, t with
  | [], t => Some t
  | s, [] => Some s
  | n :: s, m :: t =>
      match bshape_rev s t with
      | None => None
      | Some r => if Nat.eqb n m then Some (n :: r)
                  else if Nat.eqb n 1 then Some (m :: r)
                  else if Nat.eqb m 1 then Some (n :: r)
                  else None
      end
  end.

(** A binary elementwise operation with broadcasting ([a + b], [a / b], ...);
    incompatible shapes raise
    (as in func(qp, dofs)/unit, quantity/quantity.py 334, and f*weight, wrapper.py 261). *)
Definition op2 (f : R -> R -> R) (a b : arr) : result arr :=
  match bshape_rev (rev (sh a)) (rev (sh b)) with
  | None => Raise ValueError
  | Some r =>
      bind (broadcast_to a (rev r)) (fun a' =>
      bind (broadcast_to b (rev r)) (fun b' =>
      Ok (Arr (rev r) (map2 f (el a') (el b')))))
  end.

(** A unary elementwise operation (as in jnp.abs(func(...)), quantity/quantity.py 324, 330). *)
Definition amap (f : R -> R) (a : arr) : arr := Arr (sh a) (map f (el a)).
(** [a.flatten()], [a.ravel()]: one-dimensional, same elements
    (quantity/quantity.py 36, 346, 599, 620; wrapper.py 73). *)
Definition flatten (a : arr) : arr := Arr [length (el a)] (el a).
(** [jnp.atleast_1d] (wrapper.py 71). *)
Definition atleast_1d (a : arr) : arr := match sh a with [] => Arr [1%nat] (el a) | _ => a end.
(** [a.reshape(t)]; a change of the number of elements raises (JAX: TypeError)
    (quantity/quantity.py 57, 474, 487, 567, 580, 590). *)
Definition reshape (a : arr) (t : list nat) : result arr :=
  if Nat.eqb (size t) (length (el a)) then Ok (Arr t (el a)) else Raise TypeError.
(** [jnp.stack([a, b], axis=0)]; the shapes must agree (quantity/quantity.py 353, 606). *)
Definition stack2 (a b : arr) : result arr :=
  if list_eq_dec Nat.eq_dec (sh a) (sh b)
  then Ok (Arr (2%nat :: sh a) (el a ++ el b)) else Raise ValueError.
(** [jnp.sum(a)] over all elements (quantity/quantity.py 481, 497, 568, 582, 592). *)
Definition asum (a : arr) : R := fold_right Rplus 0 (el a).
(** [jnp.max(a)] over all elements; an empty array raises ValueError
    (quantity/quantity.py 324, 330, 404, 424). *)
Fixpoint lmax (x : R) (l : list R) : R :=
  match l with [] => x | y :: l => Rmax x (lmax y l) end.
(** [jnp.max(a)], see above (quantity/quantity.py 324, 330, 404, 424). *)
Definition amax (a : arr) : result R :=
  match el a with [] => Raise ValueError | x :: l => Ok (lmax x l) end.
(** Consecutive blocks of length [k] of a list: the rows seen by a reduction
    along the last axis (the norm of quantity/quantity.py 479, 493). *)
Fixpoint chunks (n k : nat) (l : list R) : list (list R) :=
  match n with O => [] | S n => firstn k l :: chunks n k (skipn k l) end.
(** Euclidean norm of one row
    (used for the norm along the last axis, quantity/quantity.py 479, 493). *)
Definition rownorm (l : list R) : R := sqrt (fold_right Rplus 0 (map (fun x => x * x) l)).
(** [jnp.linalg.norm(a, axis=-1)]; a zero-dimensional array raises
    (quantity/quantity.py 479, 493). *)
Definition norm_last (a : arr) : result arr :=
  match rev (sh a) with
  | [] => Raise ValueError
  | k :: s => Ok (Arr (rev s) (map rownorm (chunks (size (rev s)) k (el a))))
  end.
(** Arrays whose data match their shape
    (an invariant of the library, assumed for every array in /repo; vocabulary of the proofs only). *)
Definition wf (a : arr) : Prop := length (el a) = size (sh a).

(** Python [dict] with string keys, as an association list
    (the dofs argument and the slack dictionaries, wrapper.py 161-168, quantity/quantity.py 166-183). *)
Definition dict (A : Type) := list (string * A).
(** [d.get(k)], used by the two definitions below (quantity/quantity.py 325, 580). *)
Fixpoint lookup {A} (k : string) (d : dict A) : option A :=
  match d with
  | [] => None
  | (k', v) :: d => if String.eqb k k' then Some v else lookup k d
  end.
(** [d[k]] (quantity/quantity.py 325, 580). *)
Definition getitem {A} (d : dict A) (k : string) : result A :=
  match lookup k d with Some v => Ok v | None => Raise KeyError end.
(** [d | e] (PEP 584): keys of [d] first, values of [e] win. *)
Definition dict_union {A} (d e : dict A) : dict A :=
  map (fun kv => (fst kv, match lookup (fst kv) e with Some v => v | None => snd kv end)) d
  ++ filter (fun kv => match lookup (fst kv) d with Some _ => false | None => true end) e.
