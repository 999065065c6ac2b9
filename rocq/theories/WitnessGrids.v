(** A call that gives no grids, for the example of C150. *)
From Coq Require Import String List Bool Arith ZArith Reals Lra Lia.
From Verif Require Import Base ModelArray ProofArray ModelMath SpecMath ModelSurface SpecSurface ModelParams ModelField SpecField ProofField ProofField2 ProofField3
  ModelQuantity ModelWrapper SpecWrapper ModelPackage SpecPackage SpecConvex SpecQuad ModelSolver SpecSolver ProofSolver
  ModelQuadcoil SpecQuadcoil ProofQuadcoil SpecProblem SpecEnd SpecCert ProofEnd ProofEnd4 ProofEnd5 ProofGrids ProofForce ProofLimit4 PropEnd PropPackage
  WitnessField WitnessSolver WitnessQuadcoil WitnessCert WitnessEnd.
Import ListNotations.
Open Scope R_scope.
Open Scope string_scope.
Open Scope list_scope.

(** Two coaxial tori with two field periods, no grid given. *)
Definition call150 : args unit :=
  {| qc_nfp := 2; qc_stellsym := true; qc_plasma_mpol := 1; qc_plasma_ntor := 0; qc_plasma_dofs := [3; / 2; / 2];
     qc_G := 2; qc_I := 1; qc_mpol := 1; qc_ntor := 1; qc_qphi := None; qc_qtheta := None;
     qc_phi_init := None; qc_phi_unit := Some 1; qc_plasma_stellsym := true;
     qc_plasma_qphi := None; qc_plasma_qtheta := None; qc_Bnormal := None;
     qc_distance := None; qc_generator := no_gen; qc_winding_dofs := Some [3; 1; 1]; qc_winding_mpol := 1; qc_winding_ntor := 0;
     qc_winding_qphi := None; qc_winding_qtheta := None; qc_winding_stellsym := true;
     qc_objective_name := NTuple ["f_Phi"]; qc_objective_weight := WArr (Arr [1%nat] [1/2]); qc_objective_unit := UsSeq [UScalar 2];
     qc_constraint_name := NTuple []; qc_constraint_type := NTuple []; qc_constraint_unit := UsSeq []; qc_constraint_value := VSeq [];
     qc_metric_name := NTuple ["f_B"; "f_K"; "f_max_K2"]; qc_value_only := true; qc_smoothing := Some "slack"; qc_smoothing_params := [];
     qc_verbose := false; qc_merge := false; qc_c_init := 1; qc_c_growth := 2; qc_tol := loose;
     qc_maxiter_tot := 1; qc_maxiter_inner := 1; qc_gplus_mask := some_mask; qc_linear_solver := None |}.
Definition qd150 : quadpoints := match default_quadpoints call150 with Ok qd => qd | Raise _ => {| qd_plasma_phi := []; qd_plasma_theta := []; qd_winding_phi := []; qd_winding_theta := []; qd_phi := []; qd_theta := [] |} end.
Lemma qd150_ok : default_quadpoints call150 = Ok qd150.
Proof. reflexivity. Qed.
Definition q150 : params := match y_to_qp call150 qd150 (y_dict call150) with Ok q => q | Raise _ => shown end.
Lemma q150_ok : y_to_qp call150 qd150 (y_dict call150) = Ok q150.
Proof. reflexivity. Qed.
Lemma q150_sound x : length x = 4%nat -> sound q150 x.
Proof.
  intros Lx. destruct (call_params _ _ _ _ q150_ok) as (_ & _ & _ & _ & _ & _ & _ & _ & _ & _ & Mk).
  split; [split; [|split]|split; [reflexivity|split; [reflexivity|split; [|exact Lx]]]].
  - exists 2%nat, true, 1%nat, 0%nat, (arr1 (qd_plasma_phi qd150)), (arr1 (qd_plasma_theta qd150)), (arr1 [3; / 2; / 2]). reflexivity.
  - exists 2%nat, true, 1%nat, 0%nat, (arr1 (qd_winding_phi qd150)), (arr1 (qd_winding_theta qd150)), (arr1 [3; 1; 1]). reflexivity.
  - do 10 eexists. exact Mk.
  - unfold plasma_shaped. change (q_Bnormal q150) with (gzeros 32 34). change (s_qphi (q_plasma q150)) with (linspace_open (1 / INR 2) 32). change (s_qtheta (q_plasma q150)) with (linspace_open 1 34).
    unfold gzeros, linspace_open. rewrite !map_length, !seq_length, repeat_length. split; [reflexivity|].
    apply List.Forall_forall. intros r I. apply repeat_spec in I as ->. apply repeat_length.
Qed.
Lemma firstn_increasing n l : increasing l -> increasing (firstn n l).
Proof.
  intros H i j (H1 & H2). pose proof (firstn_length n l). assert (j < n /\ j < length l)%nat by lia. rewrite !ProofForce.nth_firstn' by lia. apply H. lia.
Qed.
Lemma linspace_increasing s n : 0 < s -> increasing (linspace_open s n).
Proof.
  intros H. rewrite linspace_equi. destruct n; [intros i j (_ & X); cbn in X; lia|]. apply increasing_equi. apply Rmult_lt_0_compat; [exact H|]. apply Rinv_0_lt_compat, lt_0_INR. lia.
Qed.
Lemma q150_ordered : ordered q150.
Proof.
  repeat split.
  - change (q_qphi q150) with (firstn (length (linspace_open 1 (32 * 2)) / 2) (linspace_open 1 (32 * 2))). apply firstn_increasing, linspace_increasing. lra.
  - apply (linspace_increasing 1 34). lra.
  - apply (linspace_increasing (1 / INR 2) 32). cbn. lra.
  - apply (linspace_increasing 1 34). lra.
Qed.
Lemma call150_returns : exists o, quadcoil (package []) E120 call150 = Some (Ok o) /\ o_qp E120 o = q150.
Proof.
  destruct (C121_valid_calls_return [] E120 call150 q150 U120 terms120 []) as (o & Hq & Eq & _).
  - exact stay_counted.
  - exact stay_shaped.
  - split; [left; split; [reflexivity|]; eexists; reflexivity|]. exists qd150. split; [exact qd150_ok|exact q150_ok].
  - split; [right; repeat split|repeat split].
  - reflexivity.
  - reflexivity.
  - cbn. lra.
  - cbn. lra.
  - exact q150_ordered.
  - exists [1; 2; 3; 4]. apply q150_sound. reflexivity.
  - discriminate.
  - discriminate.
  - discriminate.
  - intros p Hp. destruct (prepare_fields _ _ _ Hp) as (_ & _ & _ & _ & _ & _ & phi & x & _ & Hu & _). unfold phi_unit_of in Hu. cbn [qc_phi_unit call150] in Hu. injection Hu as <-. lra.
  - intros t [<-|[]]. split; [cbn; lra|]. split.
    + split; [cbn; lra|]. right. split; [cbn; tauto|discriminate].
    + eexists. split; [reflexivity|split; [cbn; tauto|discriminate]].
  - intros c [].
  - intros m [<-|[<-|[<-|[]]]]; right; exists Number; (split; [cbn; tauto|]); (split; [cbn; intuition discriminate|]); (split; [discriminate|reflexivity]).
  - reflexivity.
  - reflexivity.
  - exists o. split; [exact Hq|exact Eq].
Qed.
