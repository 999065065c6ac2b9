(** Witnesses and examples for C20-C22. *)
From Coq Require Import String List Bool Arith ZArith Reals Lra Lia.
From Coquelicot Require Import Coquelicot.
From Verif Require Import Base ModelArray ModelMath SpecMath ProofMath.
Import ListNotations.
Open Scope R_scope.

Lemma ex_c20 : 0 < 1/10 /\ is_max 2 [1; 2] /\ is_max 4 (map Rabs [3; -4]).
Proof.
  split; [lra|]. split.
  - split; [simpl; auto|]. intros y [<-|[<-|[]]]; lra.
  - simpl. rewrite (Rabs_right 3), (Rabs_left (-4)) by lra.
    split; [right; left; lra|]. intros y [<-|[<-|[]]]; lra.
Qed.

Lemma sqrt_25 : sqrt 25 = 5.
Proof. replace 25 with (5 * 5) by lra. apply sqrt_square; lra. Qed.

Lemma c21_witness : exists gamma v : vec3, (vx gamma <> 0 \/ vy gamma <> 0) /\
    norm3 (project_arr_cylindrical gamma v) <> norm3 v.
Proof.
  exists (V3 3 0 4), (V3 1 0 0). split; [left; simpl; lra|].
  intros E. assert (N : norm3 (V3 3 0 4) <> 0).
  { unfold norm3. simpl. replace (3 * 3 + 0 * 0 + 4 * 4) with 25 by lra. rewrite sqrt_25. lra. }
  pose proof (proj_cyl_sq (V3 3 0 4) (V3 1 0 0) N) as H. cbv zeta in H.
  rewrite <- norm3_sq, E, !norm3_sq in H. simpl in H. lra.
Qed.

Lemma ex_c21 : vz (V3 3 4 0) = 0 /\ (vx (V3 3 4 0) <> 0 \/ vy (V3 3 4 0) <> 0) /\
  project_arr_cylindrical (V3 3 4 0) (V3 3 4 7) = V3 5 0 7 /\ norm3 (V3 3 4 0) <> 0.
Proof.
  assert (N : norm3 (V3 3 4 0) = 5).
  { unfold norm3. simpl. replace (3 * 3 + 4 * 4 + 0 * 0) with 25 by lra. apply sqrt_25. }
  split; [reflexivity|]. split; [left; simpl; lra|]. split.
  - unfold project_arr_cylindrical, project_arr_coord, r_unit, cross3, z_unit, dot3. rewrite N. simpl.
    f_equal; field.
  - rewrite N. lra.
Qed.

(** A solver for 1x1 systems: division. *)
Definition div_solve (M : matrix) (rhs : list R) : list ext :=
  [Fin (nth 0 rhs 0 / entry M 0 0)].

Lemma ex_c22 :
  solves 1 (entry [[2]]) [2] [4] /\
  (exists v, solves 1 (fun i j => entry [[2]] j i) v (map counts [Fin 6])) /\
  safe_linear_solve_bwd div_solve [[2]] [2] [Fin 6] = ([[-6]], [3]) /\
  safe_linear_solve_bwd div_solve [[2]] [2] [NaN] = ([[0]], [0]).
Proof.
  split; [|split; [|split]].
  - split; [reflexivity|]. intros [|i] Hi; [|lia]. unfold entry, Rsum. simpl. lra.
  - exists [3]. split; [reflexivity|]. intros [|i] Hi; [|lia]. unfold entry, Rsum. simpl. lra.
  - unfold safe_linear_solve_bwd, div_solve, entry. simpl. f_equal; [do 2 f_equal; lra|f_equal; lra].
  - unfold safe_linear_solve_bwd, div_solve, entry. simpl. f_equal; [do 2 f_equal; lra|f_equal; lra].
Qed.

Lemma ex_c22b :
  (forall t, square 1 [[2 + t]]) /\
  (forall t, solves 1 (entry [[2 + t]]) [2] [4 + 2 * t]) /\
  (forall i j, (i < 1)%nat -> (j < 1)%nat -> is_derive (fun t => entry [[2 + t]] i j) 0 (entry [[1]] i j)) /\
  (forall i, (i < 1)%nat -> is_derive (fun t => nth i [4 + 2 * t] 0) 0 (nth i [2] 0)) /\
  (forall i, (i < 1)%nat -> is_derive (fun _ : R => nth i [2] 0) 0 (nth i [0] 0)) /\
  (forall M rhs v, square 1 M -> solves 1 (entry M) v rhs ->
     exists w, div_solve M rhs = map Fin w /\ solves 1 (entry M) w rhs).
Proof.
  split; [intros t; split; [reflexivity|repeat constructor]|].
  split; [intros t; split; [reflexivity|]; intros [|i] Hi; [|lia]; unfold entry, Rsum; simpl; lra|].
  split; [intros [|i] [|j] Hi Hj; try lia; unfold entry; simpl; auto_derive; auto; ring|].
  split; [intros [|i] Hi; [|lia]; simpl; auto_derive; auto; ring|].
  split; [intros [|i] Hi; [|lia]; simpl; auto_derive; auto|].
  intros M rhs v HM [Lv Hv]. exists [nth 0 rhs 0 / entry M 0 0]. split; [reflexivity|].
  split; [reflexivity|]. intros [|i] Hi; [|lia]. specialize (Hv 0%nat Hi).
  unfold Rsum in *. simpl in *. rewrite <- Hv.
  destruct (Req_dec (entry M 0 0) 0) as [Z|Z]; [rewrite Z; lra|]. field; auto.
Qed.
