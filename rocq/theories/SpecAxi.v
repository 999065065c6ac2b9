(** Vocabulary for the statements about axisymmetric machines (C138). *)
From Coq Require Import String List Bool Arith ZArith Reals.
From Verif Require Import Base ModelArray ModelMath SpecMath ModelSurface SpecSurface ModelParams ModelField SpecField.
Import ListNotations.
Open Scope R_scope.

(** Turning the surface about the axis by any angle moves it along itself. *)
Definition axisymmetric (s : surface) : Prop :=
  exists F, reports gamma s F /\ forall p t d, F (p + d) t = rotz (2 * PI * d) (F p t).
(** Axisymmetric surfaces and an axisymmetric required field. *)
Definition axisymmetric_machine (q : params) : Prop :=
  axisymmetric (q_plasma q) /\ axisymmetric (q_winding q) /\
  exists b : R -> R, q_Bnormal q = sample (fun _ t => b t) (s_qphi (q_plasma q)) (s_qtheta (q_plasma q)).
(** Toroidally the grids are uniform over a field period (the winding surface:
    over the torus), with a multiple of [k] points per field period. *)
Definition uniform_grids (k : nat) (q : params) : Prop :=
  s_nfp (q_plasma q) = q_nfp q /\
  (exists x0 n, (2 <= n)%nat /\ q_qphi q = equispaced x0 (/ (INR (q_nfp q) * INR (k * n))) (k * n)) /\
  (exists x0 n, (2 <= n)%nat /\ s_qphi (q_plasma q) = equispaced x0 (/ (INR (q_nfp q) * INR (k * n))) (k * n)) /\
  exists x0 n, (n <> 0)%nat /\ s_qphi (q_winding q) = equispaced x0 (/ (INR (q_nfp q) * INR (k * n))) (q_nfp q * (k * n)).
(** The current potential described by [x] depends on the poloidal angle only. *)
Definition axisymmetric_design (q : params) (x : list R) : Prop :=
  exists F, qreports (fun q => Phi q x) q F /\ forall p p' t, F p t = F p' t.
