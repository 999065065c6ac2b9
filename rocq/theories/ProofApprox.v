(** The problem handed to the optimiser in approx mode. *)
From Coq Require Import String List Bool Arith ZArith Reals Lra Lia.
From Verif Require Import Base ModelArray ProofArray ModelMath SpecMath ProofMath
  ModelQuantity SpecQuantity ProofQuantity ProofSlack ModelWrapper SpecWrapper ProofWrapper ProofWrapper2 ModelParams SpecProblem ProofProblem.
Import ListNotations.
Open Scope R_scope.
Open Scope string_scope.
Open Scope list_scope.

Section Smooth.
  Variable P : Type.
  Variable ndofs : P -> nat.
  Variable ns : namespace P.
  Variable qp : P.
  Variable X : arr.
  Notation D := [("phi", X)].

  Lemma add_approx name un use sp a Q : add_quantity ndofs ns name (UScalar un) use (Some "approx") sp = Ok a ->
    ns name = Some (AQuantity Q) ->
    (forall d, ad_f a qp d = q_approx Q sp qp d (scal (Rabs un))) /\ ad_unit a = (fun _ => Ok (scal (Rabs un))) /\
    ad_g a = [] /\ ad_h a = [] /\ In use (q_compat Q).
  Proof using.
    intros H E. pose proof (proj1 (add_ok_iff P ndofs ns name (UScalar un) use (Some "approx") sp) (ex_intro _ a H)) as [(Q' & E' & Iu & _) _].
    rewrite E in E'. injection E' as <-. revert H.
    unfold add_quantity, get_quantity. intros H. rewrite E in H. cbn [bind] in H.
    unfold scaled_f_impl, scaled_g_ineq_impl, scaled_h_eq_impl, scaled_slack_dofs_init, slack_only in H.
    change (String.eqb "approx" "slack") with false in H. change (String.eqb "approx" "approx") with true in H. cbn [bind] in H. destruct (mem use (q_compat Q)); [|discriminate H].
    cbn [negb unit_callable bind] in H. assert (H' : forall a b : added P, Ok a = Ok b -> a = b) by congruence. apply H' in H. subst a.
    cbn [ad_f ad_unit ad_g ad_h]. repeat split. exact Iu.
  Qed.

  Lemma objective_parts (os : list objective) sp f po :
    parse_objectives ndofs ns (Objectives (map ob_name os) (map (fun o => UScalar (ob_unit o)) os)) (map ob_weight os) (Some "approx") sp = Ok (f, po) ->
    exists l, Forall2 (fun o a => add_quantity ndofs ns (ob_name o) (UScalar (ob_unit o)) "f" (Some "approx") sp = Ok a) os l /\
      f = f_tot_from (scal 0) (map ad_f l) (map ob_weight os) /\
      p_g po = concat (map ad_g l) /\ p_h po = concat (map ad_h l) /\ p_slack po = fold_left (fun s a => dict_union s (ad_slack a)) l [].
  Proof using.
    unfold parse_objectives. rewrite !map_length, Nat.eqb_refl. cbn [negb]. intros H.
    destruct (parse_obj_loop _ _ _ _ _ _ _ _) as [[fs acc]|e] eqn:E; [|discriminate H]. cbn [bind] in H. injection H as <- <-.
    destruct (parse_obj_loop_val _ _ _ _ _ _ _ _ _ _ _ E) as (l & F & _ & E1 & E2 & E3 & E4). exists l.
    rewrite combine_map, F2_map_l in F. cbn [fst snd] in F. subst fs. auto.
  Qed.
  Lemma con_slack (cs : list user_constraint) sp acc pc :
    parse_cons_loop ndofs ns (map uc_name cs) (map (fun c => op_string (uc_cmp c)) cs) (map (fun c => UScalar (uc_unit c)) cs) (map uc_val cs) (Some "approx") sp acc = Ok pc ->
    exists l, Forall2 (fun c a => add_quantity ndofs ns (uc_name c) (UScalar (uc_unit c)) (op_string (uc_cmp c)) (Some "approx") sp = Ok a) cs l /\
      p_slack pc = fold_left (fun s a => dict_union s (ad_slack a)) l (p_slack acc).
  Proof using.
    revert acc. induction cs as [|c cs IH]; intros acc H.
    - exists []. cbn in H. injection H as <-. split; [constructor|reflexivity].
    - cbn [map parse_cons_loop] in H. destruct (add_quantity _ _ _ _ _ _ _) as [a|e] eqn:E; [|discriminate H]. cbn [bind] in H. cbv zeta in H.
      destruct (String.eqb _ "=="); [|destruct (mem _ _); [|discriminate H]]; destruct (IH _ H) as (l & F & S);
        (exists (a :: l); split; [constructor; assumption|exact S]).
  Qed.
  Lemma constraint_parts (cs : list user_constraint) sp pc :
    parse_constraints ndofs ns (map uc_name cs) (map (fun c => op_string (uc_cmp c)) cs) (map (fun c => UScalar (uc_unit c)) cs) (map uc_val cs) (Some "approx") sp = Ok pc ->
    exists l, Forall2 (fun c a => add_quantity ndofs ns (uc_name c) (UScalar (uc_unit c)) (op_string (uc_cmp c)) (Some "approx") sp = Ok a) cs l /\
      p_slack pc = fold_left (fun s a => dict_union s (ad_slack a)) l [] /\
      (forall d, system_holds pc qp d <-> forall c a, In (c, a) (combine cs l) ->
         (forall g, In g (ad_g a) -> exists o, g qp d = Ok o /\ all_le0 o) /\ (forall h, In h (ad_h a) -> exists o, h qp d = Ok o /\ all_eq0 o) /\
         exists o, cons_func_centered (ad_f a) (uc_val c) (ad_unit a) (sign_of (op_string (uc_cmp c))) (Some "approx") sp qp d = Ok o /\
           match uc_cmp c with EQ => all_eq0 o | _ => all_le0 o end).
  Proof using.
    intros H. assert (H0 := H). unfold parse_constraints in H0. rewrite !map_length, Nat.eqb_refl in H0. cbn [andb] in H0.
    destruct (con_slack _ _ _ _ H0) as (l & F & Sl). exists l. split; [exact F|]. split; [exact Sl|].
    set (rc := fun c => RC (uc_name c) (op_string (uc_cmp c)) (UScalar (uc_unit c)) (uc_val c)).
    assert (H1 : parse_constraints ndofs ns (map rc_name (map rc cs)) (map rc_type (map rc cs)) (map rc_unit (map rc cs)) (map rc_val (map rc cs)) (Some "approx") sp = Ok pc).
    { rewrite !map_map. exact H. }
    destruct (parse_constraints_val P ndofs ns (map rc cs) (Some "approx") sp pc H1) as (l' & F' & Cg & Ch).
    rewrite F2_map_l in F'. assert (l' = l) as -> by (eapply F2_fun; [|exact F'|exact F]; cbn; intros ? ? ? A B; congruence).
    assert (CM : forall c a, In (c, a) (combine cs l) <-> In (rc c, a) (combine (map rc cs) l)).
    { clear. intros c a. revert cs. induction l as [|b l IH]; intros [|k cs]; cbn; try tauto. rewrite IH. split; (intros [E|E]; [left|now right]).
      - congruence.
      - injection E as E1 E2 E3 E4 <-. f_equal. destruct c, k. cbn in *. subst. destruct uc_cmp, uc_cmp0; try discriminate E2; reflexivity. }
    intros d. split.
    - intros [Sg Sh] c a I. pose proof (proj1 (CM c a) I) as I'. split; [|split].
      + intros g Ig. apply Sg, Cg. eauto.
      + intros h Ih. apply Sh, Ch. eauto.
      + destruct (uc_cmp c) eqn:Ec.
        * apply Sg, Cg. exists (rc c), a. split; [exact I'|]. right. unfold rc, cf. cbn. rewrite Ec. split; [discriminate|reflexivity].
        * apply Sg, Cg. exists (rc c), a. split; [exact I'|]. right. unfold rc, cf. cbn. rewrite Ec. split; [discriminate|reflexivity].
        * apply Sh, Ch. exists (rc c), a. split; [exact I'|]. right. unfold rc, cf. cbn. rewrite Ec. split; reflexivity.
    - intros A.
      assert (CM' : forall c a, In (c, a) (combine (map rc cs) l) -> exists c0, c = rc c0 /\ In (c0, a) (combine cs l)).
      { clear. intros c a. revert cs. induction l as [|b l IH]; intros [|k cs]; cbn; try tauto. intros [E|E]; [injection E as <- <-; eauto|].
        destruct (IH _ E) as (c0 & -> & I). eauto. }
      split.
      + intros g Ig. apply Cg in Ig as (c & a & I & Ig). destruct (CM' _ _ I) as (c0 & -> & I0). destruct (A c0 a I0) as (Ag & _ & o & Eo & Ho).
        destruct Ig as [Ig|[T ->]]; [now apply Ag|]. unfold cf, rc in *. cbn in *. exists o. split; [exact Eo|]. destruct (uc_cmp c0); [exact Ho|exact Ho|now contradiction T].
      + intros h Ih. apply Ch in Ih as (c & a & I & Ih). destruct (CM' _ _ I) as (c0 & -> & I0). destruct (A c0 a I0) as (_ & Ah & o & Eo & Ho).
        destruct Ih as [Ih|[T ->]]; [now apply Ah|]. unfold cf, rc in *. cbn in *. exists o. split; [exact Eo|]. destruct (uc_cmp c0); [discriminate T|discriminate T|exact Ho].
  Qed.


  (** ** One use of a quantity *)
  Variables (eps : R) (L : string -> R -> R).
  Hypothesis Heps : 0 < eps.
  Definition exact_use (Q : quantity P) (v : arr) (u l : R) : Prop :=
    wf v /\ q_approx Q [("lse_epsilon", eps)] qp D (scal u) = Ok (Arr (sh v) (map (fun y => y / u) (el v))) /\
    (sh v = [] /\ l = 0 \/ sh v <> [] /\ el v <> [] /\ l = ln (INR (length (el v)))).
  Definition soft_use (Q : quantity P) (v : arr) (u l : R) : Prop :=
    exists M m, v = scal M /\ q_approx Q [("lse_epsilon", eps)] qp D (scal u) = Ok (scal m) /\ M / u <= m <= M / u + eps * l /\ ~ In ">=" (q_compat Q) /\ ~ In "==" (q_compat Q).
  Notation sp := [("lse_epsilon", eps)].

  Lemma centred_scalar sgn a c un m : ad_f a qp D = Ok (scal m) -> ad_unit a = (fun _ => Ok (scal un)) ->
    cons_func_centered (ad_f a) c (ad_unit a) sgn (Some "approx") sp qp D = Ok (scal (sgn * (m - c / un))).
  Proof using.
    intros Ef Eu. unfold cons_func_centered. rewrite Ef. cbn [bind]. rewrite Eu. cbn [bind]. reflexivity.
  Qed.

  Variables (os : list objective) (cs : list user_constraint) (f : callable P) (po pc : parsed P).
  Hypothesis HQ : forall n un, used os cs n un -> un <> 0 /\ exists Q v, ns n = Some (AQuantity Q) /\ call Q qp D = Ok v /\
    (exact_use Q v (Rabs un) (L n un) \/ soft_use Q v (Rabs un) (L n un)).
  Hypothesis Hw : forall o, In o os -> 0 <= ob_weight o.
  Hypothesis Hs : forall o Q v, In o os -> ns (ob_name o) = Some (AQuantity Q) -> call Q qp D = Ok v -> exists m, v = scal m.
  Hypothesis Hne : forall c, In c cs -> uc_cmp c <> EQ.
  Hypothesis Eo : parse_objectives ndofs ns (Objectives (map ob_name os) (map (fun o => UScalar (ob_unit o)) os)) (map ob_weight os) (Some "approx") sp = Ok (f, po).
  Hypothesis Ec : parse_constraints ndofs ns (map uc_name cs) (map (fun c => op_string (uc_cmp c)) cs) (map (fun c => UScalar (uc_unit c)) cs) (map uc_val cs) (Some "approx") sp = Ok pc.

  Definition near (o : objective) (a : added P) : Prop :=
    exists Q M v, ns (ob_name o) = Some (AQuantity Q) /\ call Q qp D = Ok (scal M) /\ ad_f a qp D = Ok (scal v) /\
      M / Rabs (ob_unit o) <= v <= M / Rabs (ob_unit o) + eps * L (ob_name o) (ob_unit o).
  Lemma term_near o a : In o os -> add_quantity ndofs ns (ob_name o) (UScalar (ob_unit o)) "f" (Some "approx") sp = Ok a -> near o a.
  Proof using HQ Hs.
    intros Io A. assert (Un : used os cs (ob_name o) (ob_unit o)) by (left; eauto). destruct (HQ _ _ Un) as (Nz & Q & v & EQ & Ev & K).
    destruct (Hs o Q v Io EQ Ev) as (m & ->). destruct (add_approx _ _ _ _ _ _ A EQ) as (Af & _).
    destruct K as [(W & Ea & K)|(M & m' & Em & Ea & B & _)].
    - exists Q, m, (m / Rabs (ob_unit o)). split; [exact EQ|]. split; [exact Ev|]. split; [rewrite Af; exact Ea|].
      destruct K as [(_ & ->)|(K & _)]; [lra|]. now contradiction K.
    - injection Em as <-. exists Q, m, m'. split; [exact EQ|]. split; [exact Ev|]. split; [rewrite Af; exact Ea|exact B].
  Qed.

  Lemma sum_near os' lo : length os' = length lo -> (forall o, In o os' -> 0 <= ob_weight o) ->
    (forall o a, In (o, a) (combine os' lo) -> near o a) ->
    exists ms vs, Forall2 (fun o m => exists Q, ns (ob_name o) = Some (AQuantity Q) /\ call Q qp D = Ok (scal m)) os' ms /\
      Forall2 (fun (g : callable P) v => g qp D = Ok (scal v)) (map ad_f lo) vs /\
      let r := Rsum (map2 (fun o m => ob_weight o / Rabs (ob_unit o) * m) os' ms) in
      let y := Rsum (map (fun p => fst p * snd p) (combine (map ob_weight os') vs)) in
      r <= y <= r + eps * Rsum (map (fun o => ob_weight o * L (ob_name o) (ob_unit o)) os').
  Proof using.
    revert lo. induction os' as [|o os' IH]; intros [|a lo] Ln W H; try discriminate Ln.
    - exists [], []. split; [constructor|]. split; [constructor|]. unfold Rsum. cbn. lra.
    - destruct (IH lo) as (ms & vs & F1 & F2 & S); [now injection Ln|intros; apply W; now right|intros; apply H; now right|].
      destruct (H o a (or_introl eq_refl)) as (Q & M & v & E1 & E2 & E3 & E4). exists (M :: ms), (v :: vs).
      split; [constructor; eauto|]. split; [cbn [map]; constructor; assumption|]. specialize (W o (or_introl eq_refl)).
      cbv zeta in S |- *. unfold Rsum in *. cbn [map map2 combine fold_right fst snd].
      pose proof (Rmult_le_compat_l _ _ _ W (proj1 E4)) as U1. pose proof (Rmult_le_compat_l _ _ _ W (proj2 E4)) as U2.
      replace (ob_weight o / Rabs (ob_unit o) * M) with (ob_weight o * (M / Rabs (ob_unit o))) by (unfold Rdiv; ring). lra.
  Qed.

  Lemma objective_near : exists r y, total P ns qp X os r /\ f qp D = Ok (scal y) /\
    r <= y <= r + eps * Rsum (map (fun o => ob_weight o * L (ob_name o) (ob_unit o)) os).
  Proof using HQ Hw Hs Eo.
    destruct (objective_parts os sp f po Eo) as (lo & Fo & Ef & _).
    destruct (sum_near os lo (F2_len _ _ _ Fo) Hw) as (ms & vs & F1 & F2 & B).
    { intros o a Ia. apply term_near; [eapply in_combine_l; exact Ia|exact (F2_combine _ _ _ _ _ Fo Ia)]. }
    eexists. eexists. split; [exists ms; split; [exact F1|reflexivity]|]. split.
    - rewrite Ef, (f_tot_value P _ _ vs qp D 0); [reflexivity|rewrite !map_length; exact (F2_len _ _ _ Fo)|exact F2].
    - cbv zeta in B. lra.
  Qed.
  Lemma objective_system : system_holds po qp D.
  Proof using HQ Eo.
    destruct (objective_parts os sp f po Eo) as (lo & Fo & _ & Gg & Gh & _).
    assert (Z : forall a, In a lo -> ad_g a = [] /\ ad_h a = []).
    { intros a Ia. destruct (F2_in_r _ _ _ _ Fo Ia) as (o & Io & A).
      assert (Un : used os cs (ob_name o) (ob_unit o)) by (left; exists o; repeat split; eapply in_combine_l; exact Io).
      destruct (HQ _ _ Un) as (_ & Q & v & EQ & _). destruct (add_approx _ _ _ _ _ _ A EQ) as (_ & _ & A1 & A2 & _). now split. }
    split; intros g Ig; [rewrite Gg in Ig|rewrite Gh in Ig]; apply in_concat in Ig as (l & Il & Ig); apply in_map_iff in Il as (a & <- & Ia);
      destruct (Z a Ia) as (Z1 & Z2); [rewrite Z1 in Ig|rewrite Z2 in Ig]; destruct Ig.
  Qed.

  (** A constraint that the generated system accepts holds. *)
  Lemma accepted c a : In c cs -> add_quantity ndofs ns (uc_name c) (UScalar (uc_unit c)) (op_string (uc_cmp c)) (Some "approx") sp = Ok a ->
    exists Q v o, ns (uc_name c) = Some (AQuantity Q) /\ call Q qp D = Ok v /\
      cons_func_centered (ad_f a) (uc_val c) (ad_unit a) (sign_of (op_string (uc_cmp c))) (Some "approx") sp qp D = Ok o /\
      (all_le0 o -> meets (uc_cmp c) (uc_val c) v) /\
      let mg := Rabs (uc_unit c) * (eps * L (uc_name c) (uc_unit c)) in
      (meets (uc_cmp c) (match uc_cmp c with GE => uc_val c + mg | _ => uc_val c - mg end) v -> all_le0 o).
  Proof using HQ Hne Heps.
    intros Ic A. assert (Un : used os cs (uc_name c) (uc_unit c)) by (right; eauto). destruct (HQ _ _ Un) as (Nz & Q & v & EQ & Ev & K).
    pose proof (Rabs_pos_lt _ Nz) as Pu. destruct (add_approx _ _ _ _ _ _ A EQ) as (Af & Au & _ & _ & Cu). exists Q, v.
    pose proof (Hne c Ic) as Hc. set (u := Rabs (uc_unit c)) in *. set (l := L (uc_name c) (uc_unit c)) in *. set (s := sign_of (op_string (uc_cmp c))).
    assert (Emg : u * (eps * l) / u = eps * l) by (field; lra).
    assert (One : forall x, s * (x / u - uc_val c / u) <= 0 -> match uc_cmp c with LE => x <= uc_val c | GE => x >= uc_val c | EQ => x = uc_val c end).
    { intros x Hx. unfold s in Hx. destruct (uc_cmp c); cbn [op_string sign_of String.eqb Ascii.eqb Bool.eqb] in Hx; [|now apply (scaled_ge x (uc_val c) u)|now contradiction Hc].
      rewrite Rmult_1_l in Hx. now apply (scaled_le x (uc_val c) u). }
    assert (Two : forall x, match uc_cmp c with LE => x <= uc_val c - u * (eps * l) | GE => x >= uc_val c + u * (eps * l) | EQ => False end -> s * (x / u - uc_val c / u) + eps * l <= 0).
    { intros x Hx. unfold s. destruct (uc_cmp c); cbn [op_string sign_of String.eqb Ascii.eqb Bool.eqb]; [| |contradiction].
      - pose proof (div_mono _ _ _ Pu Hx) as E. unfold Rdiv in E, Emg |- *. rewrite Rmult_minus_distr_r in E. lra.
      - apply Rge_le in Hx. pose proof (div_mono _ _ _ Pu Hx) as E. unfold Rdiv in E, Emg |- *. rewrite Rmult_plus_distr_r in E. lra. }
    destruct K as [(W & Ea & K)|(M & m & -> & Ea & B & C1 & C2)].
    - destruct K as [(Sv & El)|(Ns & Ne & El)].
      + destruct v as [sv [|x [|]]]; cbn [sh] in Sv; subst sv; unfold wf in W; cbn [sh el size fold_right length] in W; try discriminate W.
        eexists. split; [exact EQ|]. split; [exact Ev|]. split; [apply centred_scalar; [rewrite Af; exact Ea|exact Au]|]. split.
        * intros H z [<-|[]]. apply One. apply H. now left.
        * intros mg H z [<-|[]]. specialize (H x (or_introl eq_refl)). pose proof (Two x) as T. rewrite El in T. fold l in T.
          assert (T' : match uc_cmp c with LE => x <= uc_val c - u * (eps * 0) | GE => x >= uc_val c + u * (eps * 0) | EQ => False end).
          { unfold mg in H. fold l in El. rewrite El in H. destruct (uc_cmp c); [exact H|exact H|now contradiction Hc]. }
          specialize (T T'). fold s. lra.
      + eexists. split; [exact EQ|]. split; [exact Ev|]. split; [eapply (centered_approx P); [rewrite Af; exact Ea|exact W|exact Ns|rewrite Au; reflexivity|reflexivity]|].
        fold s. set (f0 := fun x => s * (x / u - uc_val c / u)).
        assert (Ne' : map f0 (el v) <> []) by (apply map_nonempty; auto). destruct (exists_max _ Ne') as [M HM]. pose proof (max_lse_bounds _ eps M Heps HM) as B.
        rewrite map_length in B. split.
        * intros H z Hz. apply One. pose proof (H _ (or_introl eq_refl)) as H0. fold f0 in H0. pose proof (proj2 HM (f0 z) (in_map f0 _ _ Hz)). unfold f0 in *. lra.
        * intros mg H z [<-|[]]. destruct HM as [HM _]. apply in_map_iff in HM as [x [<- Hx]]. specialize (H x Hx). pose proof (Two x) as T. rewrite <- El in B. unfold mg in H.
          assert (T' : match uc_cmp c with LE => x <= uc_val c - u * (eps * l) | GE => x >= uc_val c + u * (eps * l) | EQ => False end) by (destruct (uc_cmp c); [exact H|exact H|now contradiction Hc]).
          specialize (T T'). eapply Rle_trans; [exact (proj2 B)|exact T].
    - assert (Cl : uc_cmp c = LE) by (destruct (uc_cmp c); [reflexivity|now contradiction C1|now contradiction C2]).
      eexists. split; [exact EQ|]. split; [exact Ev|]. split; [apply centred_scalar; [rewrite Af; exact Ea|exact Au]|]. fold s.
      assert (s = 1) as Es by (unfold s; rewrite Cl; reflexivity). split.
      + intros H z [<-|[]]. apply One. pose proof (H _ (or_introl eq_refl)) as H0. rewrite Es in *. lra.
      + intros mg H z [<-|[]]. specialize (H M (or_introl eq_refl)). pose proof (Two M) as T. rewrite Cl in *. unfold mg in H. specialize (T H). rewrite Es in *. fold l in B. lra.
  Qed.

  Lemma smooth_met : system_holds pc qp D -> all_met P ns qp X cs.
  Proof using HQ Hne Heps Ec.
    intros Sc c Q v Ic EQ Ev. destruct (constraint_parts cs sp pc Ec) as (lc & Fc & _ & Hc). destruct (F2_left _ _ _ c Fc Ic) as [a Ia]. pose proof (F2_combine _ _ _ _ _ Fc Ia) as A.
    destruct (proj1 (Hc D) Sc c a Ia) as (_ & _ & o & Eo' & Ho). destruct (accepted c a Ic A) as (Q' & v' & o' & EQ' & Ev' & Eo2 & Yes & _).
    assert (Q' = Q) by congruence. subst Q'. assert (v' = v) by congruence. subst v'. assert (o' = o) by congruence. subst o'. apply Yes. pose proof (Hne c Ic). destruct (uc_cmp c); [exact Ho|exact Ho|congruence].
  Qed.
  Lemma smooth_holds : (forall c Q v, In c cs -> ns (uc_name c) = Some (AQuantity Q) -> call Q qp D = Ok v ->
      let mg := Rabs (uc_unit c) * (eps * L (uc_name c) (uc_unit c)) in
      meets (uc_cmp c) (match uc_cmp c with GE => uc_val c + mg | _ => uc_val c - mg end) v) -> system_holds pc qp D.
  Proof using HQ Hne Heps Ec.
    intros H. destruct (constraint_parts cs sp pc Ec) as (lc & Fc & _ & Hc). apply Hc. intros c a Ia. pose proof (F2_combine _ _ _ _ _ Fc Ia) as A.
    assert (Ic : In c cs) by (eapply in_combine_l; exact Ia). destruct (accepted c a Ic A) as (Q & v & o & EQ & Ev & Eo2 & _ & No).
    destruct (add_approx _ _ _ _ _ _ A EQ) as (_ & _ & Ag & Ah & _). rewrite Ag, Ah. split; [intros g []|]. split; [intros g []|]. exists o. split; [exact Eo2|].
    specialize (No (H c Q v Ic EQ Ev)). pose proof (Hne c Ic). destruct (uc_cmp c); [exact No|exact No|congruence].
  Qed.
End Smooth.
