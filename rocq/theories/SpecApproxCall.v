(** Vocabulary for the statements about whole calls with smoothing="approx" (C149). *)
From Coq Require Import String List Bool Arith ZArith Reals.
From Verif Require Import Base SpecWrapper ModelParams SpecProblem SpecApprox.
Import ListNotations.
Open Scope R_scope.

(** A bound moved inwards (outwards, when [m] is negative) by [m] of its units. *)
Definition moved (m : R) (c : user_constraint) : user_constraint :=
  let margin := Rabs (uc_unit c) * m in
  UC (uc_name c) (uc_cmp c) (uc_unit c) (match uc_cmp c with GE => uc_val c + margin | _ => uc_val c - margin end).
(** What merging [n] constraints into one adds, per lse_epsilon. *)
Definition merging (merge : bool) (n : nat) : R := if merge then ln (INR n) else 0.
(** A bound moved inwards by what smoothing and merging may add. *)
Definition cautious (q : params) (eps : R) (merge : bool) (cs : list user_constraint) : list user_constraint :=
  map (fun c => moved (eps * (loss q (uc_name c) (uc_unit c) + merging merge (length cs))) c) cs.
(** Bounds moved outwards by [m] of their units. *)
Definition relaxed (m : R) (cs : list user_constraint) : list user_constraint := map (moved (- m)) cs.
