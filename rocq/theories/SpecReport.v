(** Vocabulary for the statements about the options that only concern what a
    call reports. *)
From Coq Require Import String List Bool Arith ZArith Reals.
From Verif Require Import Base ModelArray ModelMath ModelQuantity ModelWrapper ModelSurface ModelParams
  ModelSolver ModelQuadcoil SpecQuadcoil SpecProblem.
Import ListNotations.
Open Scope R_scope.
Open Scope string_scope.
Open Scope list_scope.

(** The tolerances with another one for the singular values. *)
Definition with_svtol (t : tolerances) (sv : R) : tolerances :=
  {| xstop_outer := xstop_outer t; ctol_outer := ctol_outer t; fstop_inner := fstop_inner t; xstop_inner := xstop_inner t;
     gtol_inner := gtol_inner t; fstop_inner_last := fstop_inner_last t; xstop_inner_last := xstop_inner_last t;
     gtol_inner_last := gtol_inner_last t; svtol := sv |}.
(** The same call with other metrics, value_only, verbose, linear solver for
    the gradients, and tolerance for the singular values. *)
Definition with_reporting {L} (a : args L) (mets : names_arg) (vo vb : bool) (ls : option L) (sv : R) : args L :=
  {| qc_nfp := qc_nfp a; qc_stellsym := qc_stellsym a; qc_plasma_mpol := qc_plasma_mpol a;
     qc_plasma_ntor := qc_plasma_ntor a; qc_plasma_dofs := qc_plasma_dofs a; qc_G := qc_G a; qc_I := qc_I a;
     qc_mpol := qc_mpol a; qc_ntor := qc_ntor a; qc_qphi := qc_qphi a; qc_qtheta := qc_qtheta a;
     qc_phi_init := qc_phi_init a; qc_phi_unit := qc_phi_unit a; qc_plasma_stellsym := qc_plasma_stellsym a;
     qc_plasma_qphi := qc_plasma_qphi a; qc_plasma_qtheta := qc_plasma_qtheta a; qc_Bnormal := qc_Bnormal a;
     qc_distance := qc_distance a; qc_generator := qc_generator a; qc_winding_dofs := qc_winding_dofs a;
     qc_winding_mpol := qc_winding_mpol a; qc_winding_ntor := qc_winding_ntor a;
     qc_winding_qphi := qc_winding_qphi a; qc_winding_qtheta := qc_winding_qtheta a;
     qc_winding_stellsym := qc_winding_stellsym a; qc_objective_name := qc_objective_name a;
     qc_objective_weight := qc_objective_weight a; qc_objective_unit := qc_objective_unit a;
     qc_constraint_name := qc_constraint_name a; qc_constraint_type := qc_constraint_type a;
     qc_constraint_unit := qc_constraint_unit a; qc_constraint_value := qc_constraint_value a;
     qc_metric_name := mets; qc_value_only := vo; qc_smoothing := qc_smoothing a;
     qc_smoothing_params := qc_smoothing_params a; qc_verbose := vb; qc_merge := qc_merge a;
     qc_c_init := qc_c_init a; qc_c_growth := qc_c_growth a; qc_tol := with_svtol (qc_tol a) sv;
     qc_maxiter_tot := qc_maxiter_tot a; qc_maxiter_inner := qc_maxiter_inner a;
     qc_gplus_mask := qc_gplus_mask a; qc_linear_solver := ls |}.

(** The values that the output shows under the names of the objective terms. *)
Definition shown_terms (E : library) (o : output E) (os : list objective) (vs : list R) : Prop :=
  Forall2 (fun t v => exists e, lookup (ob_name t) (o_out E o) = Some e /\ e_value e = Some (scal v)) os vs.
