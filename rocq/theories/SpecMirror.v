(** Vocabulary for the statements about stellarator-symmetric problems. *)
From Coq Require Import String List Bool Arith ZArith Reals.
From Verif Require Import Base ModelArray ModelMath SpecMath ModelSurface SpecSurface ModelParams ModelField SpecField
  ModelQuantity ModelWrapper SpecWrapper ModelPackage SpecPackage SpecConvex SpecRefine.
Import ListNotations.
Open Scope R_scope.
Open Scope string_scope.
Open Scope list_scope.

(** Equispaced angles covering the interval length [T], starting at a multiple
    of half the spacing. *)
Definition symmetric_span (T : R) (l : list R) : Prop :=
  exists k n, n <> 0%nat /\ l = equispaced (INR k / 2 * (T / INR n)) (T / INR n) n.
(** The same covering a whole number of field periods. *)
Definition symmetric_periods (nfp : nat) (l : list R) : Prop :=
  exists j, j <> 0%nat /\ symmetric_span (INR j / INR nfp) l.
(** Both surfaces symmetric with the same number of field periods, sampled
    on symmetric grids, and an odd field of the plasma. *)
Definition symmetric_problem (q : params) : Prop :=
  s_stellsym (q_winding q) = true /\ s_stellsym (q_plasma q) = true /\ s_nfp (q_plasma q) = s_nfp (q_winding q) /\
  symmetric_turn (s_qphi (q_winding q)) /\ symmetric_turn (s_qtheta (q_winding q)) /\
  symmetric_periods (q_nfp q) (q_qphi q) /\ symmetric_turn (q_qtheta q) /\
  symmetric_periods (q_nfp q) (s_qphi (q_plasma q)) /\ symmetric_turn (s_qtheta (q_plasma q)) /\
  exists Bn : R -> R -> R, q_Bnormal q = sample Bn (s_qphi (q_plasma q)) (s_qtheta (q_plasma q)) /\
    forall p t, Bn (- p) (- t) = - Bn p t /\ Bn (p + / INR (q_nfp q)) t = Bn p t /\ Bn p (t + 1) = Bn p t.

(** Quantities that do not see the difference between a design and its mirror
    image, and are convex; the normalised error where it is defined. *)
Definition even_names : list string :=
  ["K2"; "Bnormal2"; "Phi2"; "f_B"; "f_K"; "f_Phi"; "f_max_Bnormal"; "f_max_Bnormal2"; "f_max_K2"; "f_huber_K";
   "f_max_Phi"; "f_max_Phi2"; "f_max_Phi4"; "f_l1_Phi"].
Definition even_quantity (other : list string) (q : params) (name : string) : Prop :=
  In name even_names \/
  name = "f_B_normalized_by_Bnormal_IG" /\ exists r0, reads other "f_B" q (repeat 0 (q_ndofs q)) (scal r0) /\ 0 < r0.
(** Fields that change sign. *)
Definition odd_names : list string := ["Phi"; "Bnormal"].
(** The comparison after a change of sign. *)
Definition opposite (c : cmp) : cmp := match c with LE => GE | GE => LE | EQ => EQ end.
(** Upper bounds on even quantities, and bounds on odd ones in pairs -b, b. *)
Definition even_constraints (other : list string) (q : params) (cs : list (string * cmp * R)) : Prop :=
  forall name c b, In (name, c, b) cs ->
    (even_quantity other q name /\ c = LE) \/ (In name odd_names /\ In (name, opposite c, - b) cs).
(** The same device and resolution, restricted to symmetric potentials. *)
Definition symmetric_version (q q' : params) : Prop :=
  same_device q q' /\ q_mpol q' = q_mpol q /\ q_ntor q' = q_ntor q /\ q_stellsym q' = true.
