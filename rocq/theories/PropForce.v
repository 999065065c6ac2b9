(** Properties of the self-force (C69, C87-C89). *)
From Coq Require Import String List Bool Arith ZArith Reals Lra Lia.
From Verif Require Import Base ModelArray ModelMath SpecMath ModelSurface SpecSurface SpecWinding ModelParams ModelField SpecField
  ModelForce SpecForce ProofForce ProofForce2 ProofForce3 WitnessField WitnessForce.
Import ListNotations.
Open Scope R_scope.

(** ** C69 *)
(** On the default evaluation points (those of the first field period of the
    winding surface), with no two grid points of the winding surface
    coinciding.  The missing part is refuted below. *)
Theorem C69_default_grid_partial :
  forall q x, made q -> legal (q_winding q) -> length x = q_ndofs q -> default_eval q ->
  (forall gx, gamma (q_winding q) = Ok gx -> distinct_nodes (length (s_qphi (q_winding q))) (length (s_qtheta (q_winding q))) gx) ->
  let nfp := s_nfp (q_winding q) in
  let n := (length (s_qphi (q_winding q)) / nfp)%nat in
  let m := length (s_qtheta (q_winding q)) in
  exists gx nx a gy k S D out,
    gamma (q_winding q) = Ok gx /\ unitnormal (q_winding q) = Ok nx /\ da (q_winding q) = Ok a /\
    gamma (q_eval q) = Ok gy /\ K q x OnEval = Ok k /\ force_integrands_xyz q x OnDivide = Ok (S, D) /\
    force_cyl q x = Ok out /\ rect n m out /\
    forall i j, (i < n)%nat -> (j < m)%nat ->
      at2 zero3 out i j = pairwise_sum gx nx a S D gy k nfp n m i j.
Proof. exact force_sum. Qed.
Print Assumptions C69_default_grid_partial.

(** The integral itself, for arrays of any shape, when the masked pairs are
    exactly the coinciding ones. *)
Theorem C69_masked_integral_partial :
  forall nfp n m ny my gy gx nx k a S D,
  rect (nfp * n) m gx -> rect (nfp * n) m nx -> rect n m a -> rect n m S -> rect n m D ->
  rect ny my gy -> rect ny my k ->
  (forall i j fp p t, (i < ny)%nat -> (j < my)%nat -> (fp < nfp)%nat -> (p < n)%nat -> (t < m)%nat ->
     at2 zero3 gx (fp * n + p) t = at2 zero3 gy i j <-> fp = 0%nat /\ p = i /\ t = j) ->
  exists s d, integrate_force gy gx nx k a S D nfp = Ok (s, d) /\ rect ny my s /\ rect ny my d /\
    forall i j, (i < ny)%nat -> (j < my)%nat ->
      add3 (at2 zero3 s i j) (at2 zero3 d i j) = direct_force gx nx a S D nfp n m (at2 zero3 gy i j) (at2 zero3 k i j).
Proof. exact masked_integral. Qed.
Print Assumptions C69_masked_integral_partial.

(** The legacy version has no such restriction. *)
Theorem C69_legacy_integral :
  forall nfp n m ny my gy gx nx k a S D,
  rect (nfp * n) m gx -> rect (nfp * n) m nx -> rect n m a -> rect n m S -> rect n m D ->
  rect ny my gy -> rect ny my k ->
  exists s d, integrate_force_legacy gy gx nx k a S D nfp = Ok (s, d) /\ rect ny my s /\ rect ny my d /\
    forall i j, (i < ny)%nat -> (j < my)%nat ->
      add3 (at2 zero3 s i j) (at2 zero3 d i j) = direct_force gx nx a S D nfp n m (at2 zero3 gy i j) (at2 zero3 k i j).
Proof. exact legacy_integral. Qed.
Print Assumptions C69_legacy_integral.

Theorem C69_versions_agree :
  forall q x, made q -> legal (q_winding q) -> length x = q_ndofs q -> default_eval q ->
  (forall gx, gamma (q_winding q) = Ok gx -> distinct_nodes (length (s_qphi (q_winding q))) (length (s_qtheta (q_winding q))) gx) ->
  exists f, force_cyl q x = Ok f /\ force_cyl_legacy q x = Ok f.
Proof. exact legacy_agrees. Qed.
Print Assumptions C69_versions_agree.

(** With evaluation points of the caller's choice a pair of different points is
    left out. *)
Theorem C69_other_grid_refuted : exists q x gx nx a S D gy k out,
  made q /\ legal (q_winding q) /\ length x = q_ndofs q /\
  gamma (q_winding q) = Ok gx /\ unitnormal (q_winding q) = Ok nx /\ da (q_winding q) = Ok a /\
  gamma (q_eval q) = Ok gy /\ K q x OnEval = Ok k /\ force_integrands_xyz q x OnDivide = Ok (S, D) /\
  force_cyl q x = Ok out /\
  (forall u v, In u (concat gx) -> In v (concat gy) -> u <> v) /\
  at2 zero3 out 0 0 <> pairwise_sum gx nx a S D gy k (s_nfp (q_winding q))
    (length (s_qphi (q_winding q)) / s_nfp (q_winding q)) (length (s_qtheta (q_winding q))) 0 0.
Proof. exact dropped_pair. Qed.
Print Assumptions C69_other_grid_refuted.

Example C69_example : let q := loops 1 0 in
  made q /\ legal (q_winding q) /\ length idle = q_ndofs q /\ default_eval q /\
  forall gx, gamma (q_winding q) = Ok gx -> distinct_nodes (length (s_qphi (q_winding q))) (length (s_qtheta (q_winding q))) gx.
Proof.
  split; [apply loops_made|]. split; [reflexivity|]. split; [reflexivity|]. split; [apply loops_default|]. exact torus_distinct.
Qed.
(** Two points in one period, evaluated on themselves. *)
Example C69_arrays : let g := [[V3 1 0 0; V3 2 0 0]] in
  rect 1 2 g /\ forall i j fp p t, (i < 1)%nat -> (j < 2)%nat -> (fp < 1)%nat -> (p < 1)%nat -> (t < 2)%nat ->
     at2 zero3 g (fp * 1 + p) t = at2 zero3 g i j <-> fp = 0%nat /\ p = i /\ t = j.
Proof.
  split; [split; [reflexivity|repeat constructor]|]. intros i j fp p t Hi Hj Hf Hp Ht.
  destruct i as [|i]; [|lia]. destruct fp as [|fp]; [|lia]. destruct p as [|p]; [|lia].
  destruct j as [|[|j]], t as [|[|t]]; try lia; cbn; split; intros H; try tauto.
  - injection H; intros; lra.
  - destruct H as (_ & _ & H). discriminate.
  - injection H; intros; lra.
  - destruct H as (_ & _ & H). discriminate.
Qed.

(** ** C87 *)
Theorem C87_frame_refuted : exists q x gx nx a S D gy k out,
  made q /\ legal (q_winding q) /\ length x = q_ndofs q /\ default_eval q /\
  gamma (q_winding q) = Ok gx /\ unitnormal (q_winding q) = Ok nx /\ da (q_winding q) = Ok a /\
  gamma (q_eval q) = Ok gy /\ K q x OnEval = Ok k /\ force_integrands_xyz q x OnDivide = Ok (S, D) /\
  force_cyl q x = Ok out /\
  distinct_nodes (length (s_qphi (q_winding q))) (length (s_qtheta (q_winding q))) gx /\
  at2 zero3 out 0 0 <> frame_components (at2 zero3 gy 0 0)
    (cartesian_force gx nx a S D (s_nfp (q_winding q)) (length (s_qphi (q_winding q)) / s_nfp (q_winding q))
       (length (s_qtheta (q_winding q))) (at2 zero3 gy 0 0) (at2 zero3 k 0 0)).
Proof. exact wrong_frame. Qed.
Print Assumptions C87_frame_refuted.

(** ** C88 *)
Theorem C88_force_orthogonal_to_current :
  forall q x, made q -> legal (q_winding q) -> length x = q_ndofs q ->
  exists out gy k, force_cyl q x = Ok out /\ gamma (q_eval q) = Ok gy /\ K q x OnEval = Ok k /\
    rect (length (q_qphi q)) (length (q_qtheta q)) out /\
    forall i j, (i < length (q_qphi q))%nat -> (j < length (q_qtheta q))%nat ->
      dot3 (at2 zero3 out i j) (project_arr_cylindrical (at2 zero3 gy i j) (at2 zero3 k i j)) = 0.
Proof. exact force_orthogonal. Qed.
Print Assumptions C88_force_orthogonal_to_current.

Example C88_example : let q := device 1 2 1 unit_error true in
  made q /\ legal (q_winding q) /\ length [1; 2; 3; 4] = q_ndofs q /\ length (q_qphi q) = 2%nat /\ length (q_qtheta q) = 2%nat.
Proof. split; [apply device_made|]. repeat split. Qed.

(** ** C89 *)
Theorem C89_force_quadratic :
  forall c q q' x, made q -> made q' -> legal (q_winding q) -> length x = q_ndofs q -> scaled c q q' ->
  exists f f', force_cyl q x = Ok f /\ force_cyl q' (map (Rmult c) x) = Ok f' /\
    rect (length (q_qphi q)) (length (q_qtheta q)) f /\ rect (length (q_qphi q)) (length (q_qtheta q)) f' /\
    forall i j, (i < length (q_qphi q))%nat -> (j < length (q_qtheta q))%nat ->
      at2 zero3 f' i j = scale3 (c * c) (at2 zero3 f i j).
Proof. exact force_quadratic. Qed.
Print Assumptions C89_force_quadratic.

Example C89_example : let q := device 1 2 1 unit_error true in
  let q' := device 1 (3 * 2) (3 * 1) (map (map (Rmult 3)) unit_error) true in
  made q /\ made q' /\ legal (q_winding q) /\ length [1; 2; 3; 4] = q_ndofs q /\ scaled 3 q q'.
Proof. split; [apply device_made|]. split; [apply device_made|]. repeat split. Qed.
