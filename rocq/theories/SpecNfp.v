(** Vocabulary for the statements about the declared number of field periods. *)
From Coq Require Import String List Bool Arith ZArith Reals.
From Verif Require Import Base ModelArray ModelMath SpecMath ModelSurface SpecSurface ModelParams ModelField SpecField
  ModelQuantity ModelWrapper SpecWrapper ModelPackage SpecPackage SpecConvex SpecRefine SpecMirror.
Import ListNotations.
Open Scope R_scope.
Open Scope string_scope.
Open Scope list_scope.

(** Two descriptions of one surface. *)
Definition same_shape (s s' : surface) : Prop := exists F, reports gamma s F /\ reports gamma s' F.
(** [l] covers one period out of [nfp] of the torus, [l'] covers [k] of them,
    at the same spacing and from the same angle. *)
Definition periods_covered (nfp k : nat) (l l' : list R) : Prop :=
  exists x0 n, (2 <= n)%nat /\ l = equispaced x0 (/ (INR nfp * INR n)) n /\ l' = equispaced x0 (/ (INR nfp * INR n)) (k * n).
(** [q'] describes the machine [q], but declares [k] times fewer field periods:
    the same surfaces, net currents and required field, the same whole turn of
    the winding surface, and points that cover the longer period. *)
Definition fewer_periods (k : nat) (q q' : params) : Prop :=
  s_nfp (q_winding q) = (k * s_nfp (q_winding q'))%nat /\ s_nfp (q_plasma q) = s_nfp (q_winding q) /\
  same_shape (q_plasma q) (q_plasma q') /\ same_shape (q_winding q) (q_winding q') /\
  q_G q' = q_G q /\ q_I q' = q_I q /\
  s_qphi (q_winding q') = s_qphi (q_winding q) /\ s_qtheta (q_winding q') = s_qtheta (q_winding q) /\
  (exists x0 n, (n <> 0)%nat /\ s_qphi (q_winding q) = equispaced x0 (/ (INR (q_nfp q) * INR n)) (q_nfp q * n)) /\
  periods_covered (q_nfp q) k (q_qphi q) (q_qphi q') /\ q_qtheta q' = q_qtheta q /\
  periods_covered (q_nfp q) k (s_qphi (q_plasma q)) (s_qphi (q_plasma q')) /\ s_qtheta (q_plasma q') = s_qtheta (q_plasma q) /\
  exists Bn : R -> R -> R,
    q_Bnormal q = sample Bn (s_qphi (q_plasma q)) (s_qtheta (q_plasma q)) /\
    q_Bnormal q' = sample Bn (s_qphi (q_plasma q')) (s_qtheta (q_plasma q')) /\
    forall p t, Bn (p + / INR (q_nfp q)) t = Bn p t.
(** The harmonics of [q] are those of [q'] that have the period of [q]. *)
Definition periodic_harmonics (k : nat) (q q' : params) : Prop :=
  q_stellsym q = q_stellsym q' /\ q_mpol q = q_mpol q' /\ q_ntor q = (q_ntor q' / k)%nat.
(** Upper bounds on convex quantities, any bounds on the potential and on the
    normal field. *)
Definition turned_constraints (other : list string) (q : params) (cs : list (string * cmp * R)) : Prop :=
  forall name c b, In (name, c, b) cs -> (even_quantity other q name /\ c = LE) \/ In name odd_names.
