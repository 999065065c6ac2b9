(** Witnesses and examples for the wrapper properties. *)
From Coq Require Import String List Bool Arith ZArith Reals Lra Lia.
From Verif Require Import Base ModelArray ModelMath ModelQuantity ModelWrapper ModelShipped
  SpecMath SpecQuantity SpecWrapper ProofArray ProofMath ProofQuantity ProofSlack ProofSlackInit
  ProofWrapper ProofWrapper2 WitnessQuantity.
Import ListNotations.
Open Scope R_scope.
Open Scope string_scope.
Open Scope list_scope.

Definition quantity_of {P} (a : quantity_args P) (d : quantity P) : quantity P :=
  match snd (init_quantity [] a) with Ok q => q | Raise _ => d end.

(** The field phi - 1: negative at phi = 0. *)
Definition shifted_field : field unit := fun _ d =>
  bind (getitem d "phi") (fun a => Ok (amap (fun x => x - 1) a)).

Definition dummy : quantity unit :=
  {| q_raw := id_field; q_approx := fun _ _ _ _ => Raise ValueError; q_slack_f := fun _ _ _ => Raise ValueError;
     q_slack_g := None; q_slack_h := None; q_slack_init := None; q_compat := [] |}.

Definition all_uses := ["f"; "<="; ">="; "=="].
Definition smooth_id : quantity unit := quantity_of (generate_c2 id_field all_uses) dummy.
Definition smooth_shifted : quantity unit := quantity_of (generate_c2 shifted_field all_uses) dummy.
Definition max_id : quantity unit :=
  quantity_of (generate_linf_norm unit no_sym id_field "t" false false true) dummy.

(** A package with these three quantities and one attribute that is not a
    quantity. *)
Definition demo_ns : namespace unit := fun n =>
  if String.eqb n "id" then Some (AQuantity smooth_id)
  else if String.eqb n "shifted" then Some (AQuantity smooth_shifted)
  else if String.eqb n "max" then Some (AQuantity max_id)
  else if String.eqb n "jnp" then Some AOther
  else None.
Definition one_dof : unit -> nat := fun _ => 1%nat.

Definition state1 (l : list R) : dofs := [("phi", Arr [length l] l)].

Lemma smooth_id_ok : smooth_quantity smooth_id id_field.
Proof. exists [], all_uses. reflexivity. Qed.
Lemma smooth_shifted_ok : smooth_quantity smooth_shifted shifted_field.
Proof. exists [], all_uses. reflexivity. Qed.
Lemma max_id_ok : init_quantity [] (generate_linf_norm unit no_sym id_field "t" false false true) = (["t"], Ok max_id).
Proof. reflexivity. Qed.

(** ** C30 *)
Lemma ex_c30 :
  (exists p, parse_constraints one_dof demo_ns ["id"; "shifted"] ["<="; "=="] [UScalar 2; UScalar (-3)] [5; 1]
     (Some "slack") [] = Ok p) /\
  plain smooth_id (Some "slack") tt (state1 [2]) (Arr [1%nat] [2]) /\
  plain smooth_shifted (Some "slack") tt (state1 [2]) (Arr [1%nat] [2 - 1]) /\
  meets LE 5 (Arr [1%nat] [2]) /\ meets EQ 1 (Arr [1%nat] [2 - 1]).
Proof.
  split; [eexists; reflexivity|]. split.
  { split; [reflexivity|]. right. split; [reflexivity|]. exists id_field. split; [apply smooth_id_ok|reflexivity]. }
  split.
  { split; [reflexivity|]. right. split; [reflexivity|]. exists shifted_field. split; [apply smooth_shifted_ok|reflexivity]. }
  split; intros x [<-|[]]; simpl; lra.
Qed.
Lemma ex_c30_slack :
  (exists p, parse_constraints one_dof demo_ns ["max"] ["<="] [UScalar 2] [5] (Some "slack") [] = Ok p) /\
  exists M, is_max M (map Rabs [3; -4]) /\
    slack_exact max_id tt (Arr [2%nat] [3; -4]) "t" (Rabs 2) (M / Rabs 2) (fun s => exists t, s = scal t).
Proof.
  split; [eexists; reflexivity|].
  destruct (linf_slack_exact _ _ _ _ _ _ _ _ _ _ max_id_ok) with (qp := tt) (phi := Arr [2%nat] [3; -4])
    (fld := Arr [2%nat] [3; -4]) (u := Rabs 2) as [M [H1 [_ H3]]]; auto; try discriminate.
  - apply id_field_phi_only.
  - rewrite Rabs_right; lra.
  - exists M. auto.
Qed.

(** ** C31 *)
Lemma auto_unit_witness : exists (ns : namespace unit) q p fld,
  parse_constraints one_dof ns ["shifted"] ["<="] [UNone] [2] None [] = Ok p /\
  ns "shifted" = Some (AQuantity q) /\ plain q None tt (state1 [6]) fld /\
  system_holds p tt (state1 [6]) /\ ~ meets LE 2 fld.
Proof.
  destruct (parse_constraints one_dof demo_ns ["shifted"] ["<="] [UNone] [2] None []) as [p|e] eqn:E; [|discriminate E].
  exists demo_ns, smooth_shifted, p, (Arr [1%nat] [6 - 1]).
  assert (Pl : plain smooth_shifted None tt (state1 [6]) (Arr [1%nat] [6 - 1])).
  { split; [reflexivity|]. left. split; reflexivity. }
  split; [exact E|]. split; [reflexivity|]. split; [exact Pl|]. split.
  - destruct (auto_unit_positive unit one_dof demo_ns "shifted" LE 2 None [] tt (state1 [6]) p smooth_shifted
      (Arr [1%nat] [6 - 1]) (Arr [1%nat] [0 - 1]) E) as [_ H]; auto; try reflexivity.
    { discriminate. }
    apply H.
    + intros r [<-|[]]. lra.
    + intros x [<-|[]]. simpl. lra.
  - intros H. specialize (H _ (or_introl eq_refl)). lra.
Qed.
Lemma ex_c31 :
  (exists p, parse_constraints one_dof demo_ns ["shifted"] [">="] [UNone] [2] None [] = Ok p) /\
  call smooth_shifted tt [("phi", Arr [one_dof tt] (repeat 0 (one_dof tt)))] = Ok (Arr [1%nat] [0 - 1]) /\
  plain smooth_shifted None tt (state1 [6]) (Arr [1%nat] [6 - 1]) /\ not_approx None.
Proof.
  split; [eexists; reflexivity|]. split; [reflexivity|]. split; [|discriminate].
  split; [reflexivity|]. left. split; reflexivity.
Qed.
(** A positive reference: the constant field 3. *)
Definition const_field : field unit := fun _ _ => Ok (Arr [1%nat] [3]).
Lemma ex_c31_pos : exists q reg, init_quantity [] (generate_c2 const_field all_uses) = (reg, Ok q) /\
  call q tt [("phi", Arr [1%nat] [0])] = Ok (Arr [1%nat] [3]) /\
  plain q None tt (state1 [6]) (Arr [1%nat] [3]) /\ (forall r, In r (el (Arr [1%nat] [3])) -> 0 < r).
Proof.
  do 2 eexists. split; [reflexivity|]. split; [reflexivity|]. split.
  - split; [reflexivity|]. left. split; reflexivity.
  - intros r [<-|[]]. lra.
Qed.

(** ** C32 *)
Lemma exp_half : exp (- ln 2 / 1) = / 2.
Proof. replace (- ln 2 / 1) with (- ln 2) by field. rewrite exp_Ropp, exp_ln; lra. Qed.
Lemma approx_eq_witness : exists p,
  parse_constraints one_dof demo_ns ["id"] ["=="] [UScalar 1] [0] (Some "approx") [("lse_epsilon", 1)] = Ok p /\
  system_holds p tt (state1 [- ln 2; - ln 2]) /\
  ~ meets EQ 0 (Arr [2%nat] [- ln 2; - ln 2]).
Proof.
  destruct (parse_constraints one_dof demo_ns ["id"] ["=="] [UScalar 1] [0] (Some "approx") [("lse_epsilon", 1)])
    as [p|e] eqn:E; [|discriminate E].
  exists p. split; [reflexivity|]. split.
  - destruct (parse_constraints_val unit one_dof demo_ns [RC "id" "==" (UScalar 1) 0] _ _ p E) as [l [F [HG HH]]].
    inversion F as [|c0 a cs l' A F' E1 E2]; subst. inversion F'; subst. clear F F'.
    cbn [rc_name rc_type rc_unit] in A.
    destruct (smooth_approx_add unit one_dof demo_ns "id" 1 "==" [("lse_epsilon", 1)] a smooth_id id_field tt (state1 [- ln 2; - ln 2])
      (Arr [2%nat] [- ln 2; - ln 2]) A eq_refl smooth_id_ok eq_refl eq_refl) as [Vf [Vu [Vg Vh]]].
    split.
    + intros g Hg. apply HG in Hg as [c [a' [[X|[]] Y]]]. inversion X; subst c a'.
      destruct Y as [Y|[Y _]]; [rewrite Vg in Y; destruct Y|exfalso; apply Y; reflexivity].
    + intros h Hh. apply HH in Hh as [c [a' [[X|[]] Y]]]. inversion X; subst c a'.
      destruct Y as [Y|[_ ->]]; [rewrite Vh in Y; destruct Y|].
      unfold cf. rewrite (centered_approx unit (ad_f a) _ (ad_unit a) _ [("lse_epsilon", 1)] 1 tt _ (Arr [2%nat] [- ln 2; - ln 2]) (Rabs 1) Vf);
        [|reflexivity|discriminate|rewrite Vu; reflexivity|reflexivity].
      eexists. split; [reflexivity|]. intros y [<-|[]]. cbn [el rc_val rc_type].
      unfold max_lse, sign_of. simpl. rewrite (Rabs_right 1) by lra.
      replace (1 * (- ln 2 / 1 - 0 / 1) / 1) with (- ln 2 / 1) by field. rewrite exp_half.
      replace (/ 2 + (/ 2 + 0)) with 1 by field. rewrite ln_1. ring.
  - intros H. specialize (H _ (or_introl eq_refl)). simpl in H.
    assert (0 < ln 2) by (rewrite <- ln_1; apply ln_increasing; lra). lra.
Qed.
Lemma ex_c32 :
  (exists p, parse_constraints one_dof demo_ns ["id"] ["<="] [UScalar 1] [5] (Some "approx") [("lse_epsilon", 1)] = Ok p) /\
  smooth_quantity smooth_id id_field /\
  id_field tt (state1 [1; 2]) = Ok (Arr [2%nat] [1; 2]) /\
  meets LE (5 - Rabs 1 * (1 * ln (INR 2))) (Arr [2%nat] [1; 2]).
Proof.
  split; [eexists; reflexivity|]. split; [apply smooth_id_ok|]. split; [reflexivity|].
  assert (L : ln (INR 2) < 1).
  { rewrite <- (ln_exp 1). apply ln_increasing; [simpl; lra|]. simpl.
    pose proof (exp_ineq1 1 ltac:(lra)). lra. }
  rewrite Rabs_right by lra. intros x [<-|[<-|[]]]; lra.
Qed.

(** ** C33 *)
Lemma ex_c33 : exists f po,
  parse_objectives one_dof demo_ns (Objectives ["max"; "max"] [UScalar 2; UScalar 4]) [10; 100] None [] = Ok (f, po) /\
  f tt (state1 [-3]) = Ok (scal (10 * (3 / 2) + 100 * (3 / 4))).
Proof.
  destruct (parse_objectives one_dof demo_ns (Objectives ["max"; "max"] [UScalar 2; UScalar 4]) [10; 100] None [])
    as [[f po]|e] eqn:E; [|discriminate E].
  exists f, po. split; [reflexivity|].
  destruct (objective_sum _ _ _ _ _ _ _ _ _ _ E) as [l [F [L [_ [_ [_ V]]]]]].
  inversion F as [|x1 a1 y1 l1 A1 F1 Q1 Q2]; subst. inversion F1 as [|x2 a2 y2 l2 A2 F2 Q3 Q4]; subst. inversion F2; subst.
  assert (R3 : q_raw max_id tt (state1 [-3]) = Ok (scal 3)).
  { simpl. unfold linf_raw. simpl. do 2 f_equal. rewrite Rabs_left; lra. }
  rewrite (V tt (state1 [-3]) [3 / 2; 3 / 4]).
  - do 2 f_equal. unfold Rsum. simpl. lra.
  - constructor; [|constructor; [|constructor]].
    + pose proof (added_value_none unit one_dof demo_ns "max" 2 "f" [] a1 max_id tt (state1 [-3]) 3 A1 eq_refl R3) as X.
      rewrite Rabs_right in X by lra. exact X.
    + pose proof (added_value_none unit one_dof demo_ns "max" 4 "f" [] a2 max_id tt (state1 [-3]) 3 A2 eq_refl R3) as X.
      rewrite Rabs_right in X by lra. exact X.
Qed.

(** ** C34 *)
Lemma ex_c34 :
  supported demo_ns "id" "<=" (UScalar 1) /\ ~ supported demo_ns "max" ">=" (UScalar 1) /\
  ~ supported demo_ns "jnp" "f" UNone /\ ~ supported demo_ns "missing" "f" UNone.
Proof.
  split; [exists smooth_id; repeat split; [simpl; auto|discriminate]|].
  split; [intros [q [E [H _]]]; injection E as <-; destruct H as [H|[H|[]]]; discriminate H|].
  split; intros [q [E _]]; discriminate E.
Qed.

(** ** C36 *)
Lemma mixed_units_witness : exists f po pc,
  parse_objectives one_dof demo_ns (Objectives ["max"] [UScalar 1]) [1] (Some "slack") [] = Ok (f, po) /\
  parse_constraints one_dof demo_ns ["max"] ["<="] [UScalar 2] [4] (Some "slack") [] = Ok pc /\
  call max_id tt (state1 [3]) = Ok (scal 3) /\ 3 <= 4 /\
  forall t, ~ (system_holds po tt (state (Arr [1%nat] [3]) "t" (scal t)) /\
               system_holds pc tt (state (Arr [1%nat] [3]) "t" (scal t))).
Proof.
  destruct (parse_objectives one_dof demo_ns (Objectives ["max"] [UScalar 1]) [1] (Some "slack") []) as [[f po]|e] eqn:E; [|discriminate E].
  destruct (parse_constraints one_dof demo_ns ["max"] ["<="] [UScalar 2] [4] (Some "slack") []) as [pc|e] eqn:E2; [|discriminate E2].
  exists f, po, pc. split; [reflexivity|]. split; [reflexivity|]. split.
  { unfold call. simpl. unfold linf_raw. simpl. rewrite Rabs_right by lra. reflexivity. }
  split; [lra|]. intros t [[S1 _] [S2 _]].
  destruct (objective_sum _ _ _ _ _ _ _ _ _ _ E) as [l [F [L [OG _]]]].
  inversion F as [|x1 a1 y1 l1 A1 F1 Q1 Q2]; subst. inversion F1; subst. clear F F1.
  cbn [fst snd] in A1. destruct (slack_add unit one_dof _ _ _ _ _ _ _ _ max_id demo_ns "max" 1 "f" [] a1 max_id_ok eq_refl A1) as [_ [Xg _]].
  destruct (S1 (apply_unit (fun _ => Ok (scal (Rabs 1))) (linf_slack_g unit no_sym id_field "t" false false true))) as [o [Eo Ho]].
  { apply OG. exists a1. split; [left; auto|]. rewrite Xg. left. reflexivity. }
  destruct (parse_constraints_val unit one_dof demo_ns [RC "max" "<=" (UScalar 2) 4] _ _ pc E2) as [l [F [CG _]]].
  inversion F as [|c0 a cs l' A F' Q1 Q2]; subst. inversion F'; subst. clear F F'.
  cbn [rc_name rc_type rc_unit] in A.
  destruct (slack_add unit one_dof _ _ _ _ _ _ _ _ max_id demo_ns "max" 2 "<=" [] a max_id_ok eq_refl A) as [Xf [_ [_ Xu]]].
  destruct (S2 (cf unit (RC "max" "<=" (UScalar 2) 4) a (Some "slack") [])) as [o2 [Eo2 Ho2]].
  { apply CG. eexists _, a. split; [left; reflexivity|]. right. split; [discriminate|reflexivity]. }
  destruct (linf_g_value unit no_sym id_field "t" false false true tt (state (Arr [1%nat] [3]) "t" (scal t)) (Arr [1%nat] [3]) (Rabs 1) t)
    as [gv [Eg El]]; [reflexivity|reflexivity|].
  unfold apply_unit in Eo. cbn [bind] in Eo. rewrite Eg in Eo. inversion Eo; subst o.
  unfold all_le0 in Ho. rewrite El in Ho.
  rewrite (linf_g_le0 false (Rabs 1) t [3]) in Ho; [|rewrite Rabs_right; lra|discriminate].
  specialize (Ho 3 (or_introl eq_refl)). rewrite (Rabs_right 3), (Rabs_right 1) in Ho by lra.
  unfold cf, cons_func_centered in Eo2. rewrite Xf, Xu in Eo2. unfold apply_unit in Eo2. cbn [bind] in Eo2.
  rewrite slack_f_val in Eo2 by discriminate. cbn [bind] in Eo2. rewrite op2_scal in Eo2. cbn [bind] in Eo2.
  rewrite op2_scal in Eo2. cbn [bind] in Eo2. inversion Eo2; subst o2.
  specialize (Ho2 _ (or_introl eq_refl)). unfold sign_of in Ho2. simpl in Ho2. rewrite (Rabs_right 2) in Ho2 by lra. lra.
Qed.
Lemma ex_c36 :
  (exists r, parse_objectives one_dof demo_ns (Objectives (map (fun _ => "max") [2; -2]) (map UScalar [2; -2])) [1; 3]
     (Some "slack") [] = Ok r) /\
  (exists p, parse_constraints one_dof demo_ns (map (fun _ => "max") [(2, 5)]) (map (fun _ => "<=") [(2, 5)])
     (map (fun c => UScalar (fst c)) [(2, 5)]) (map snd [(2, 5)]) (Some "slack") [] = Ok p) /\
  (forall v, In v [2; -2] -> Rabs v = 2).
Proof.
  split; [eexists; reflexivity|]. split; [eexists; reflexivity|].
  intros v [<-|[<-|[]]]; [rewrite Rabs_right; lra|rewrite Rabs_left; lra].
Qed.
