(** Vocabulary for the statements about the wrapper (parsing of objectives and
    constraints). *)
From Coq Require Import String List Bool Arith ZArith Reals Lra.
From Verif Require Import Base ModelArray ModelMath ModelQuantity ModelWrapper SpecMath SpecQuantity.
Import ListNotations.
Open Scope R_scope.
Open Scope string_scope.
Open Scope list_scope.

(** What a user means by a constraint "quantity type value" on an array: it
    holds at every grid point. *)
Inductive cmp : Type := LE | GE | EQ.
Definition op_string (c : cmp) : string := match c with LE => "<=" | GE => ">=" | EQ => "==" end.
Definition meets (c : cmp) (val : R) (a : arr) : Prop :=
  forall x, In x (el a) -> match c with LE => x <= val | GE => x >= val | EQ => x = val end.

(** All generated inequality functions evaluate to components <= 0 and all
    generated equality functions to components = 0. *)
Definition system_holds {P} (p : parsed P) (qp : P) (d : dofs) : Prop :=
  (forall g, In g (p_g p) -> exists o, g qp d = Ok o /\ all_le0 o) /\
  (forall h, In h (p_h p) -> exists o, h qp d = Ok o /\ all_eq0 o).

(** [q] is the smooth quantity with field [func]. *)
Definition smooth_quantity {P} (q : quantity P) (func : field P) : Prop :=
  exists reg compat, init_quantity reg (generate_c2 func compat) = (reg, Ok q).

(** One constraint as the user writes it, with a numeric unit. *)
Record user_constraint : Type := UC { uc_name : string; uc_cmp : cmp; uc_unit : R; uc_val : R }.

(** A use of a quantity that the package supports. *)
Definition supported {P} (ns : namespace P) (name use : string) (u : unit_arg) : Prop :=
  exists q, ns name = Some (AQuantity q) /\ In use (q_compat q) /\ u <> UOther.

(** One constraint as handed to the parser: any operator text, any unit. *)
Record raw_constraint : Type := RC { rc_name : string; rc_type : string; rc_unit : unit_arg; rc_val : R }.

(** Reversing an inequality. *)
Definition flip (c : cmp) : cmp := match c with LE => GE | GE => LE | EQ => EQ end.
Definition meets1 (c : cmp) (val x : R) : Prop :=
  match c with LE => x <= val | GE => x >= val | EQ => x = val end.

(** The array that a constraint on [q] talks about, in mode [mode]: the raw
    value without smoothing, the field of a smooth quantity with slack. *)
Definition plain {P} (q : quantity P) (mode : option string) (qp : P) (d : dofs) (fld : arr) : Prop :=
  wf fld /\
  ((mode = None /\ q_raw q qp d = Ok fld) \/
   (mode = Some "slack" /\ exists func, smooth_quantity q func /\ func qp d = Ok fld)).
Definition not_approx (mode : option string) : Prop := mode <> Some "approx".
