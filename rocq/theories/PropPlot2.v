(** Properties of the plot of a whole problem. *)
From Coq Require Import String List Bool Arith ZArith Reals Lra Lia.
From Verif Require Import Base ModelArray ModelMath ModelQuantity ModelWrapper ModelSurface ModelParams ModelQuadcoil
  ModelPlot SpecMath SpecQuantity SpecWrapper SpecWinding SpecPlot
  ProofArray ProofPlot ProofPlot2 WitnessQuantity WitnessWrapper.
Import ListNotations.
Open Scope R_scope.
Open Scope string_scope.
Open Scope list_scope.

(** ** C112 *)
(** A tuple of objectives, as [quadcoil] takes it, is never drawn. *)
Theorem C112_several_objectives_refuted : forall P ndofs (ns : namespace P) qp d l u names types units values i j ri rj kw,
  exists e, plot_quadcoil P ndofs ns qp d (Names l) u names types units values i j ri rj kw = Raise e.
Proof. exact no_tuple. Qed.
Print Assumptions C112_several_objectives_refuted.
(** Nor is an objective without a numerical unit, the default of [quadcoil]. *)
Theorem C112_default_unit_refuted : forall P ndofs (ns : namespace P) qp d o u names types units values i j ri rj kw,
  (forall k, u <> UScalar k) ->
  exists e, plot_quadcoil P ndofs ns qp d o u names types units values i j ri rj kw = Raise e.
Proof. exact no_unit. Qed.
Print Assumptions C112_default_unit_refuted.
(** The extra options, such as the number of grid points, are not used. *)
Theorem C112_options_refuted : forall P ndofs (ns : namespace P) qp d o u names types units values i j ri rj kw kw',
  plot_quadcoil P ndofs ns qp d o u names types units values i j ri rj kw = plot_quadcoil P ndofs ns qp d o u names types units values i j ri rj kw'.
Proof. reflexivity. Qed.
Print Assumptions C112_options_refuted.
(** What is missing: several objectives, automatic units, equality constraints
    and options, refuted above and in C68; constraints on quantities that are not
    smooth. *)
Theorem C112_figure_partial : forall P ndofs (ns : namespace P) qp d phi i j ri rj name q u gs ms kw,
  lookup "phi" d = Some phi -> i <> j -> (i < length (el phi))%nat -> (j < length (el phi))%nat ->
  ns name = Some (AQuantity q) -> (forall a b d', moved d i j a b d' -> exists v, call q qp d' = Ok (scal v)) ->
  Forall2 (drawable ns qp d i j) gs ms ->
  exists p ps xs ys,
    plot_quadcoil P ndofs ns qp d (OneName name) (UScalar u) (names_of gs) (types_of gs) (units_of gs) (values_of gs) i j ri rj kw = Ok (p :: ps) /\
    pn_name p = name /\ pn_constraint p = false /\
    panel_over 100 d i j xs ys (fun d' z => exists v, call q qp d' = Ok (scal v) /\ z = v / u) p /\
    length ps = length gs /\
    (forall m g ms', nth_error gs m = Some g -> nth_error ms m = Some ms' ->
       exists p', nth_error ps m = Some p' /\ marks qp d i j xs ys g ms' p') /\
    nth 0 xs 0 = (1 - ri) * nth i (el phi) 0 /\ nth 99 xs 0 = (1 + ri) * nth i (el phi) 0 /\
    nth 0 ys 0 = (1 - rj) * nth j (el phi) 0 /\ nth 99 ys 0 = (1 + rj) * nth j (el phi) 0.
Proof.
  intros P ndofs ns qp d phi i j ri rj name q u gs ms kw Hphi Nij Hi Hj Hq Hv F.
  destruct (figure P ndofs ns qp d i j ri rj phi Hphi Nij Hi Hj name q u gs ms kw Hq Hv F) as (p & ps & E & E1 & E2 & E3 & L & K).
  exists p, ps. do 2 eexists. split; [exact E|]. split; [exact E1|]. split; [exact E2|]. split; [exact E3|]. split; [exact L|]. split; [exact K|].
  clear. assert (H : forall a b, nth 0 (linspace_closed a b 100) 0 = a /\ nth 99 (linspace_closed a b 100) 0 = b).
  { intros a b. unfold linspace_closed. rewrite (nth_indep _ 0 (a + INR 0 * ((b - a) / INR (100 - 1)))) by (rewrite map_length, seq_length; lia).
    rewrite (nth_indep (n := 99) _ 0 (a + INR 0 * ((b - a) / INR (100 - 1)))) by (rewrite map_length, seq_length; lia).
    rewrite !(map_nth (fun i => a + INR i * ((b - a) / INR (100 - 1)))), !seq_nth by lia. cbn [Nat.add].
    split; [cbn [INR]; ring|]. replace (100 - 1)%nat with 99%nat by reflexivity. field. apply not_0_INR. lia. }
  repeat split; apply H.
Qed.
Print Assumptions C112_figure_partial.
(** The largest of two coefficients, with a bound on each of them. *)
Example C112_example : lookup "phi" (state1 [1; -2]) = Some (Arr [2%nat] [1; -2]) /\
  demo_ns "max" = Some (AQuantity max_id) /\
  (forall a b d', moved (state1 [1; -2]) 0 1 a b d' -> exists v, call max_id tt d' = Ok (scal v)) /\
  Forall2 (drawable demo_ns tt (state1 [1; -2]) 0 1) [("id", "<=", UScalar (-2), 1); ("id", ">=", UScalar 3, -1)]
    [(id_field, LE, -2); (id_field, GE, 3)].
Proof.
  assert (M : forall a b d', moved (state1 [1; -2]) 0 1 a b d' -> id_field tt d' = Ok (Arr [2%nat] [a; b])).
  { intros a b d' (phi & phi' & H1 & H2 & H3 & H4 & H5 & H6 & _). cbn in H1. injection H1 as <-. cbn [sh el length] in *.
    unfold id_field, getitem. rewrite H2. destruct phi' as [s e]. cbn [sh el] in *. subst s.
    destruct e as [|x [|y [|]]]; try discriminate H4. cbn [nth] in *. now subst. }
  split; [reflexivity|]. split; [reflexivity|]. split.
  - intros a b d' H. apply M in H. change (exists v, linf_raw id_field false tt d' = Ok (scal v)). unfold linf_raw. rewrite H. cbn [bind]. eexists. reflexivity.
  - assert (D : forall t v c k, c <> EQ -> t = op_string c -> In t all_uses -> k <> 0 ->
      drawable demo_ns tt (state1 [1; -2]) 0 1 ("id", t, UScalar k, v) (id_field, c, k)).
    { intros t v c k Nc Et It Nk. split; [exact Nc|]. split; [exact Et|]. split; [reflexivity|]. split; [exact Nk|]. split.
      { exists smooth_id. split; [reflexivity|]. split; [|discriminate]. cbn in *. tauto. }
      split; [exists smooth_id; split; [reflexivity|apply smooth_id_ok]|].
      intros a b d' H. apply M in H. eexists. split; [exact H|]. split; [reflexivity|discriminate]. }
    constructor; [|constructor; [|constructor]]; apply D; try discriminate; try reflexivity; try lra; cbn; auto.
Qed.
