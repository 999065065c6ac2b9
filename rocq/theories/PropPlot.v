(** Properties of the plots and of the VTK files. *)
From Coq Require Import String List Bool Arith ZArith Reals Lra Lia.
From Verif Require Import Base ModelArray ModelMath ModelQuantity ModelWrapper ModelSurface ModelParams ModelQuadcoil
  ModelPlot SpecMath SpecQuantity SpecWrapper SpecWinding SpecPlot
  ProofArray ProofPlot WitnessQuantity WitnessWrapper.
Import ListNotations.
Open Scope R_scope.
Open Scope string_scope.
Open Scope list_scope.

(** ** C68 *)
(** Neither spelling of the equality can be plotted, whatever the quantity. *)
Theorem C68_equality_refuted : forall P ndofs (ns : namespace P) name qp d i j ri rj u n t val, t = "==" \/ t = "=" ->
  exists e, plot_quantity P ndofs ns name qp d i j ri rj u n true t (Some val) = Raise e.
Proof.
  intros. unfold plot_quantity. destruct (getitem d "phi") as [phi|]; [|cbn; eauto]. cbn [bind].
  destruct (getclamp (el phi) i); [|cbn; eauto]. cbn [bind]. destruct (getclamp (el phi) j); [|cbn; eauto]. cbn [bind].
  destruct (equality_fails P ndofs ns name u t val H) as (e & ->). cbn. eauto.
Qed.
Print Assumptions C68_equality_refuted.
(** The same quantity, state and axes can be plotted with an inequality. *)
Example C68_example :
  (exists r, plot_quantity unit one_dof demo_ns "id" tt (state1 [1; 2]) 0 1 1 1 (UScalar 1) 2 true "<=" (Some 1) = Ok r) /\
  plot_quantity unit one_dof demo_ns "id" tt (state1 [1; 2]) 0 1 1 1 (UScalar 1) 2 true "==" (Some 1) = Raise IndexError /\
  supported demo_ns "id" "==" (UScalar 1).
Proof.
  split; [eexists; reflexivity|]. split; [reflexivity|].
  exists smooth_id. split; [reflexivity|]. split; [cbn; auto|discriminate].
Qed.
(** What is missing: the equality type, refuted above. *)
Theorem C68_inequalities_partial : forall P ndofs (ns : namespace P) name u c val q func, c <> EQ -> u <> 0 ->
  supported ns name (op_string c) (UScalar u) -> ns name = Some (AQuantity q) -> smooth_quantity q func ->
  exists f, plot_function P ndofs ns name (UScalar u) true (op_string c) val = Ok f /\
    forall qp d fld, func qp d = Ok fld -> wf fld -> el fld <> [] ->
      exists v, f qp d = Ok (scal v) /\ (v <= 0 -> meets c val fld) /\
        let margin := Rabs u * (/ 10 ^ 10 * ln (INR (length (el fld)))) in
        (meets c (match c with GE => val + margin | _ => val - margin end) fld -> v <= 0).
Proof. exact inequality_plot. Qed.
Print Assumptions C68_inequalities_partial.
Example C68_inequalities_example : LE <> EQ /\ (-2 : R) <> 0 /\ supported demo_ns "id" (op_string LE) (UScalar (-2)) /\
  demo_ns "id" = Some (AQuantity smooth_id) /\ smooth_quantity smooth_id id_field /\
  id_field tt (state1 [1; 2]) = Ok (Arr [2%nat] [1; 2]) /\ wf (Arr [2%nat] [1; 2]).
Proof.
  split; [discriminate|]. split; [lra|]. split.
  { exists smooth_id. split; [reflexivity|]. split; [cbn; auto|discriminate]. }
  split; [reflexivity|]. split; [apply smooth_id_ok|]. split; reflexivity.
Qed.

(** ** C100 *)
Lemma rect_rows {A} m n (g : grid A) : rect m n g -> length g = m /\ forall r, In r g -> length r = n.
Proof. intros [H K]. rewrite Forall_forall in K. auto. Qed.
Lemma rect_ncols {A} m n (g : grid A) : rect m n g -> (0 < m)%nat -> ncols g = n.
Proof. intros H Hm. apply rect_rows in H. destruct H as [L H]. apply ncols_rows; auto. intros ->. cbn in L. lia. Qed.
Lemma rect_concat {A} m n (g : grid A) : rect m n g -> length (concat g) = (m * n)%nat.
Proof. intros H. apply rect_rows in H. destruct H as [<- H]. apply length_rows. auto. Qed.

Theorem C100_points : forall gamma name m n, rect m n gamma -> (0 < m)%nat -> exists f,
  gamma_to_vtk gamma name = Ok f /\ vt_dims f = (n, m, 1%nat) /\ length (vt_points f) = (m * n)%nat /\
  forall i j, (i < m)%nat -> (j < n)%nat -> vtk_point f j i = SpecWinding.node i j gamma.
Proof.
  intros gamma name m n Hr Hm. unfold gamma_to_vtk, structured_grid. rewrite (rect_ncols m n gamma Hr Hm), (rect_concat m n gamma Hr).
  destruct (rect_rows m n gamma Hr) as [L Hrow]. rewrite L, Nat.mul_1_r, (Nat.mul_comm n m), Nat.eqb_refl. cbn [negb].
  eexists. split; [reflexivity|]. cbn [vt_dims vt_points]. split; [reflexivity|]. split; [apply rect_concat; auto|].
  intros i j Hi Hj. unfold vtk_point, vtk_index, SpecWinding.node. cbn [vt_dims vt_points].
  replace (j + n * i)%nat with (i * n + j)%nat by lia. apply nth_rows; auto. lia.
Qed.
Print Assumptions C100_points.
Theorem C100_scalar_field : forall gamma s name m n, rect m n gamma -> rect m n s -> (0 < m)%nat -> exists f,
  gamma_and_scalar_field_to_vtk gamma s name = Ok f /\ vt_dims f = (n, m, 1%nat) /\
  forall i j, (i < m)%nat -> (j < n)%nat -> vtk_point f j i = SpecWinding.node i j gamma /\ vtk_value f 0 j i = nth j (nth i s []) 0.
Proof.
  intros gamma s name m n Hr Hs Hm. unfold gamma_and_scalar_field_to_vtk, structured_grid.
  rewrite (rect_ncols m n gamma Hr Hm), (rect_concat m n gamma Hr), (rect_concat m n s Hs).
  destruct (rect_rows m n gamma Hr) as [L Hrow]. destruct (rect_rows m n s Hs) as [L' Hrow'].
  rewrite L, Nat.mul_1_r, (Nat.mul_comm n m), !Nat.eqb_refl. cbn [negb].
  eexists. split; [reflexivity|]. cbn [vt_dims vt_points]. split; [reflexivity|].
  intros i j Hi Hj. unfold vtk_point, vtk_value, vtk_index, SpecWinding.node. cbn [vt_dims vt_points vt_data].
  replace (j + n * i)%nat with (i * n + j)%nat by lia. split; apply nth_rows; auto; lia.
Qed.
Print Assumptions C100_scalar_field.
(** The vector export: points and values stay together, and the grid lines are
    kept on square grids.  What is missing: grids that are not square, refuted
    below. *)
Theorem C100_vector_field_partial : forall gamma v name m n, rect m n gamma -> rect m n v -> (0 < m)%nat -> exists f,
  gamma_and_field_to_vtk gamma v name = Ok f /\ length (vt_points f) = (m * n)%nat /\
  (forall i j, (i < m)%nat -> (j < n)%nat -> exists k,
     nth k (vt_points f) (V3 0 0 0) = SpecWinding.node i j gamma /\ nth k (vt_data f) (V3 0 0 0) = SpecWinding.node i j v /\ (k < m * n)%nat) /\
  (m = n -> keeps_grid f gamma m n).
Proof.
  intros gamma v name m n Hr Hs Hm. unfold gamma_and_field_to_vtk, structured_grid.
  rewrite (rect_ncols m n gamma Hr Hm), (rect_concat m n gamma Hr), (rect_concat m n v Hs).
  destruct (rect_rows m n gamma Hr) as [L Hrow]. destruct (rect_rows m n v Hs) as [L' Hrow'].
  rewrite L, Nat.mul_1_r, !Nat.eqb_refl. cbn [negb].
  eexists. split; [reflexivity|]. cbn [vt_dims vt_points vt_data]. split; [apply rect_concat; auto|]. split.
  - intros i j Hi Hj. exists (i * n + j)%nat. unfold SpecWinding.node. split; [apply nth_rows; auto; lia|]. split; [apply nth_rows; auto; lia|nia].
  - intros ->. left. cbn [vt_dims]. split; [reflexivity|]. intros i j Hi Hj. unfold vtk_point, vtk_index, SpecWinding.node. cbn [vt_dims vt_points].
    replace (j + n * i)%nat with (i * n + j)%nat by lia. apply nth_rows; auto. lia.
Qed.
Print Assumptions C100_vector_field_partial.
(** A surface with 2 rows of 3 points. *)
Definition oblong : grid vec3 := [[V3 0 0 0; V3 0 1 0; V3 0 2 0]; [V3 1 0 0; V3 1 1 0; V3 1 2 0]].
Theorem C100_vector_field_refuted : exists gamma v m n f, rect m n gamma /\ rect m n v /\ (0 < m)%nat /\
  gamma_and_field_to_vtk gamma v "a" = Ok f /\ ~ keeps_grid f gamma m n.
Proof.
  exists oblong, oblong, 2%nat, 3%nat. eexists.
  assert (R : rect 2 3 oblong) by (split; [reflexivity|repeat constructor]).
  split; [exact R|]. split; [exact R|]. split; [lia|]. split; [reflexivity|].
  intros [[H _]|[_ H]]; [discriminate H|].
  specialize (H 0%nat 1%nat ltac:(lia) ltac:(lia)). cbv in H. injection H. lra.
Qed.
Print Assumptions C100_vector_field_refuted.
Theorem C100_file_name : forall name,
  (exists stem, vts_name name = String.append stem ".vts") /\
  (forall stem, name = String.append stem ".vts" -> vts_name name = name).
Proof. exact vts_name_ends. Qed.
Print Assumptions C100_file_name.
Example C100_example : rect 2 3 oblong /\ rect 2 3 [[1; 2; 3]; [4; 5; 6 : R]] /\
  (exists f, gamma_and_scalar_field_to_vtk oblong [[1; 2; 3]; [4; 5; 6]] "a" = Ok f /\ vtk_value f 0 2 1 = 6 /\
     vtk_point f 2 1 = V3 1 2 0 /\ vt_name f = "a.vts") /\ vts_name "b.vts" = "b.vts".
Proof.
  split; [split; [reflexivity|repeat constructor]|]. split; [split; [reflexivity|repeat constructor]|].
  split; [eexists; split; [reflexivity|]; repeat split|reflexivity].
Qed.

(** ** C104 *)
Theorem C104_values : forall P ndofs (ns : namespace P) name qp d i j ri rj u n ct cv q xs ys Z phi,
  ns name = Some (AQuantity q) ->
  plot_quantity P ndofs ns name qp d i j ri rj (UScalar u) n false ct cv = Ok (xs, ys, Z) -> lookup "phi" d = Some phi ->
  i <> j -> (i < length (el phi))%nat -> (j < length (el phi))%nat ->
  length xs = n /\ length ys = n /\ length Z = n /\ (forall r, In r Z -> length r = n) /\
  forall k l, (k < n)%nat -> (l < n)%nat -> exists d' phi' v,
    (forall key, key <> "phi" -> lookup key d' = lookup key d) /\
    lookup "phi" d' = Some phi' /\ sh phi' = sh phi /\ length (el phi') = length (el phi) /\
    nth i (el phi') 0 = nth k xs 0 /\ nth j (el phi') 0 = nth l ys 0 /\
    (forall m, m <> i -> m <> j -> nth m (el phi') 0 = nth m (el phi) 0) /\
    call q qp d' = Ok v /\ op2 Rdiv v (scal u) = Ok (nth l (nth k Z []) (scal 0)).
Proof.
  intros P ndofs ns name qp d i j ri rj u n ct cv q xs ys Z phi Hq H Hphi Nij Hi Hj.
  destruct (plot_values _ _ _ _ _ _ _ _ _ _ _ _ _ _ _ _ _ _ _ H Hphi Nij Hi Hj) as (Ex & Ey & LZ & LR & f & Ef & K).
  split; [rewrite Ex; apply linspace_length|]. split; [rewrite Ey; apply linspace_length|]. split; [exact LZ|]. split; [exact LR|].
  intros k l Hk Hl. destruct (K k l Hk Hl) as (d' & phi' & Ed & Kk & Lp & Es & Le & Ki & Kj & Km).
  exists d', phi'. cbn in Ef. injection Ef as <-. unfold get_quantity in Ed. rewrite Hq in Ed. cbn [bind] in Ed.
  destruct (call q qp d') as [v|]; [|discriminate Ed]. cbn [bind] in Ed. exists v. repeat (split; [assumption|]). split; [reflexivity|exact Ed].
Qed.
Print Assumptions C104_values.
(** What is missing: coefficients that are zero, refuted below. *)
Theorem C104_axes_partial : forall P ndofs (ns : namespace P) name qp d i j ri rj u n cm ct cv xs ys Z phi,
  plot_quantity P ndofs ns name qp d i j ri rj u n cm ct cv = Ok (xs, ys, Z) -> lookup "phi" d = Some phi ->
  i <> j -> (i < length (el phi))%nat -> (j < length (el phi))%nat -> (2 <= n)%nat ->
  nth i (el phi) 0 <> 0 -> nth j (el phi) 0 <> 0 -> ri <> 0 -> rj <> 0 ->
  NoDup xs /\ NoDup ys /\
  nth 0 xs 0 = nth i (el phi) 0 - ri * nth i (el phi) 0 /\ nth (n - 1) xs 0 = nth i (el phi) 0 + ri * nth i (el phi) 0 /\
  nth 0 ys 0 = nth j (el phi) 0 - rj * nth j (el phi) 0 /\ nth (n - 1) ys 0 = nth j (el phi) 0 + rj * nth j (el phi) 0.
Proof.
  intros P ndofs ns name qp d i j ri rj u n cm ct cv xs ys Z phi H Hphi Nij Hi Hj Hn Zi Zj Ri Rj.
  destruct (plot_values _ _ _ _ _ _ _ _ _ _ _ _ _ _ _ _ _ _ _ H Hphi Nij Hi Hj) as (Ex & Ey & _).
  assert (D : forall r v, v <> 0 -> r <> 0 -> (1 - r) * v <> (1 + r) * v).
  { intros r v Hv Hr E. apply Hr. apply (Rmult_eq_reg_r v); auto. lra. }
  assert (N0 : INR (n - 1) <> 0) by (apply not_0_INR; lia).
  subst xs ys. split; [apply linspace_distinct; auto|]. split; [apply linspace_distinct; auto|].
  rewrite !linspace_nth by lia. repeat split; try (cbn [INR]; field; exact N0); field; exact N0.
Qed.
Print Assumptions C104_axes_partial.
(** At the all-zero state both axes collapse to a single point. *)
Theorem C104_axes_refuted : exists d phi xs ys Z,
  plot_quantity unit one_dof demo_ns "id" tt d 0 1 (/ 10) (/ 10) (UScalar 1) 3 false "<=" None = Ok (xs, ys, Z) /\
  lookup "phi" d = Some phi /\ length (el phi) = 2%nat /\ (forall x, In x xs -> x = 0) /\ (forall y, In y ys -> y = 0).
Proof.
  exists (state1 [0; 0]), (Arr [2%nat] [0; 0]). do 3 eexists. split; [reflexivity|]. split; [reflexivity|]. split; [reflexivity|].
  split; intros x Hx; cbn in Hx; repeat (destruct Hx as [<-|Hx]; [field|]); contradiction.
Qed.
Print Assumptions C104_axes_refuted.
Example C104_example : exists xs ys Z, demo_ns "id" = Some (AQuantity smooth_id) /\
  plot_quantity unit one_dof demo_ns "id" tt (state1 [1; 2]) 0 1 1 1 (UScalar 2) 2 false "<=" None = Ok (xs, ys, Z) /\
  lookup "phi" (state1 [1; 2]) = Some (Arr [2%nat] [1; 2]) /\ nth 1 (el (nth 1 (nth 0 Z []) (scal 0))) 0 = 2 /\ nth 1 ys 0 = 4.
Proof.
  do 3 eexists. split; [reflexivity|]. split; [reflexivity|]. split; [reflexivity|]. split; cbn; field.
Qed.
