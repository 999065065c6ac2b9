(** Property C122: what the default evaluation points stand for. *)
From Coq Require Import String List Bool Arith ZArith Reals Lra Lia.
From Verif Require Import Base ModelArray ModelMath SpecMath ModelSurface SpecSurface ModelParams ModelField SpecField ProofField
  ModelQuantity ModelWrapper ModelPackage SpecPackage WitnessField ProofPeriods.
Import ListNotations.
Open Scope R_scope.
Open Scope string_scope.
Open Scope list_scope.

(** ** C122 *)
(** [q] is built without evaluation points, on a winding surface sampled with
    [n] equispaced angles per field period over the whole torus; [qf] is the
    same object evaluated at every point of that grid.  The integrals reported
    for [q] are sums over the whole winding grid, and the maxima reported for
    [q] are maxima over the whole winding grid. *)
Theorem C122_default_points :
  forall other plasma winding G I Bn mpol ntor st x0 n q qf x, (2 <= n)%nat ->
  s_qphi winding = equispaced x0 (/ (INR (s_nfp winding) * INR n)) (s_nfp winding * n) ->
  make_params plasma winding G I Bn mpol ntor None None st = Ok q ->
  make_params plasma winding G I Bn mpol ntor (Some (arr1 (s_qphi winding))) (Some (arr1 (s_qtheta winding))) st = Ok qf ->
  sound q x ->
  q_qphi q = equispaced x0 (/ (INR (s_nfp winding) * INR n)) n /\ q_qtheta q = s_qtheta winding /\
  (forall name fld h, In (name, fld, h)
     [("f_K", "K2", fun y => y / 2); ("f_Phi", "Phi", fun y => y * y / 2); ("f_l1_Phi", "Phi", Rabs); ("f_huber_K", "K2", sqrt)] ->
     exists r v d, reads other name q x (scal r) /\ reads other fld qf x v /\ da winding = Ok d /\
       r = fold_right Rplus 0 (map2 (fun w y => w * h y) (concat d) (el v))) /\
  (forall name fld h, In (name, fld, h)
     [("f_max_K2", "K2", fun y : R => y); ("f_max_Phi", "Phi", Rabs); ("f_max_Phi2", "Phi", fun y => y * y); ("f_max_Phi4", "Phi", fun y => y ^ 4)] ->
     exists m v, reads other name q x (scal m) /\ reads other fld qf x v /\ is_max m (map h (el v))).
Proof.
  intros other plasma winding G I Bn mpol ntor st x0 n q qf x Hn Hps Hq Hqf S.
  pose proof (default_points plasma winding G I Bn mpol ntor st x0 n q qf Hps Hq Hqf) as (_ & _ & _ & E1 & E2 & _). split; [exact E1|]. split; [exact E2|]. split.
  - intros name fld h Hi. exact (whole_integral other plasma winding G I Bn mpol ntor st x0 n q qf x Hn Hps Hq Hqf S name fld h Hi).
  - intros name fld h Hi. exact (whole_max other plasma winding G I Bn mpol ntor st x0 n q qf x Hn Hps Hq Hqf S name fld h Hi).
Qed.
Print Assumptions C122_default_points.

(** Non-trivial case: a torus with two field periods, two angles in each. *)
Definition four : list R := equispaced 0 (/ (INR 2 * INR 2)) 4.
Definition coil4 : surface := match make_surface 2 true 1 0 (arr1 four) (arr1 [0; 1/2]) (arr1 [3; 1; 1]) with Ok s => s | Raise _ => plasma_at 1 end.
Example C122_example : exists q qf,
  s_qphi coil4 = equispaced 0 (/ (INR (s_nfp coil4) * INR 2)) (s_nfp coil4 * 2) /\
  make_params (plasma_at 1) coil4 2 1 (Some [[0; 1]; [2; 3]]) 1 1 None None (Some true) = Ok q /\
  make_params (plasma_at 1) coil4 2 1 (Some [[0; 1]; [2; 3]]) 1 1 (Some (arr1 (s_qphi coil4))) (Some (arr1 (s_qtheta coil4))) (Some true) = Ok qf /\
  sound q [1; 2; 3; 4].
Proof.
  eexists. eexists. split; [reflexivity|]. split; [reflexivity|]. split; [reflexivity|].
  split; [split; [apply ring_built|split; [exists 2%nat, true, 1%nat, 0%nat, (arr1 four), (arr1 [0; 1/2]), (arr1 [3; 1; 1]); reflexivity|
    exists (plasma_at 1), coil4, 2, 1, (Some [[0; 1]; [2; 3]]), 1%nat, 1%nat, None, None, (Some true); reflexivity]]|]. split; [reflexivity|]. split; [reflexivity|].
  split; [|reflexivity]. apply (device_shaped 1 2 1 0 1 2 3 true).
Qed.
