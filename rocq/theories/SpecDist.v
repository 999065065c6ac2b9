(** Vocabulary for C141. *)
From Coq Require Import String List Arith Reals.
From Verif Require Import Base ModelArray ModelMath SpecMath ModelSurface SpecSurface ModelParams ModelField.
Import ListNotations.
Open Scope R_scope.

(** Every point of the plasma surface is at least [d] away from every point of the winding surface. *)
Definition apart (q : params) (d : R) : Prop :=
  0 < d /\ forall gp gw P W, gamma (q_plasma q) = Ok gp -> gamma (q_winding q) = Ok gw -> In P (concat gp) -> In W (concat gw) -> d <= norm3 (sub3 P W).
(** The winding surface is sampled uniformly over the whole torus, and the evaluation points are those of its first field period, as by default. *)
Definition default_grid (q : params) : Prop :=
  exists x0 t0 n m, (2 <= n)%nat /\ (2 <= m)%nat /\
    q_qphi q = equispaced x0 (/ (INR (q_nfp q) * INR n)) n /\ s_qphi (q_winding q) = equispaced x0 (/ (INR (q_nfp q) * INR n)) (q_nfp q * n) /\
    q_qtheta q = equispaced t0 (/ INR m) m /\ s_qtheta (q_winding q) = q_qtheta q.
