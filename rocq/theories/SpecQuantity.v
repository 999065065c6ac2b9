(** Vocabulary for the statements about quantities and the wrapper. *)
From Coq Require Import String List Bool Arith ZArith Reals Lra.
From Verif Require Import Base ModelArray ModelMath ModelQuantity SpecMath.
Import ListNotations.
Open Scope R_scope.
Open Scope string_scope.
Open Scope list_scope.

(** Every component is at most 0 / equal to 0. *)
Definition all_le0 (a : arr) : Prop := forall x, In x (el a) -> x <= 0.
Definition all_eq0 (a : arr) : Prop := forall x, In x (el a) -> x = 0.

(** A field that reads no degree of freedom but 'phi'. *)
Definition phi_only {P} (func : field P) : Prop :=
  forall qp d d', lookup "phi" d = lookup "phi" d' -> func qp d = func qp d'.

(** The degrees of freedom of a slack problem with one slack array. *)
Definition state (phi : arr) (aux : string) (p : arr) : dofs := [("phi", phi); (aux, p)].

(** Slack names owned by a constructed quantity. *)
Definition slack_names {P} (q : quantity P) : list string :=
  match q_slack_init q with Some d => map fst d | None => [] end.

(** The slack reformulation of [q] at one input: [F] is the generated
    objective, [G] the generated inequality, [slack] the admissible slack
    arrays.  It is exact when the value [L] is a lower bound of the objective on
    the feasible set and is attained there. *)
Definition slack_exact {P} (q : quantity P) (qp : P) (phi : arr) (aux : string)
    (u L : R) (slack : arr -> Prop) : Prop :=
  forall sp, exists F G,
    scaled_f_impl q (Some "slack") sp = Ok F /\
    scaled_g_ineq_impl q (Some "slack") = Ok (Some G) /\
    scaled_h_eq_impl q (Some "slack") = Ok None /\
    (forall p, slack p -> exists v gv,
       F qp (state phi aux p) (scal u) = Ok (scal v) /\
       G qp (state phi aux p) (scal u) = Ok gv /\
       (all_le0 gv -> L <= v)) /\
    (exists p gv, slack p /\ G qp (state phi aux p) (scal u) = Ok gv /\ all_le0 gv /\
       F qp (state phi aux p) (scal u) = Ok (scal L)).

(** The initial slack value handed to the solver is feasible and tight. *)
Definition init_feasible_tight {P} (q : quantity P) (qp : P) (phi : arr) (aux : string)
    (u L : R) : Prop :=
  forall sp, exists F G I p gv,
    scaled_f_impl q (Some "slack") sp = Ok F /\
    scaled_g_ineq_impl q (Some "slack") = Ok (Some G) /\
    scaled_slack_dofs_init q (Some "slack") = Ok (Some [(aux, I)]) /\
    I qp [("phi", phi)] (scal u) = Ok p /\
    G qp (state phi aux p) (scal u) = Ok gv /\ all_le0 gv /\
    F qp (state phi aux p) (scal u) = Ok (scal L).

(** Scalar content of a result. *)
Definition scalar_value (r : result arr) : result R :=
  match r with
  | Ok a => match sh a, el a with [], [x] => Ok x | _, _ => Raise TypeError end
  | Raise e => Raise e
  end.

(** The smoothed form of [q] at one input converges to [L]. *)
Definition approx_converges {P} (q : quantity P) (qp : P) (phi : arr) (u L : R) : Prop :=
  tends_to_0plus (fun eps =>
    bind (scaled_f_impl q (Some "approx") [("lse_epsilon", eps)]) (fun F =>
    scalar_value (F qp [("phi", phi)] (scal u)))) L.

(** The smoothing modes the package documents. *)
Definition known_mode (m : option string) : Prop :=
  m = None \/ m = Some "slack" \/ m = Some "approx".

(** Slack names per definition; a failed definition owns none. *)
Definition owned_names {P} (rs : list (string * result (quantity P))) : list (list string) :=
  map (fun r => match snd r with Ok q => slack_names q | Raise _ => [] end) rs.
