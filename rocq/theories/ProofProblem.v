(** The problem handed to the optimiser in slack mode. *)
From Coq Require Import String List Bool Arith ZArith Reals Lra Lia.
From Verif Require Import Base ModelArray ProofArray ModelMath SpecMath ProofMath
  ModelQuantity SpecQuantity ProofQuantity ProofSlack ModelWrapper SpecWrapper ProofWrapper ProofWrapper2 ModelParams SpecProblem.
Import ListNotations.
Open Scope R_scope.
Open Scope string_scope.
Open Scope list_scope.

Section Problem.
  Variable P : Type.
  Variable ndofs : P -> nat.
  Variable ns : namespace P.
  Variable qp : P.
  Variable X : arr.

  (** A slack array for which the slack form is exact. *)
  Definition tight (Q : quantity P) (G : scaled P) (aux : string) (u M : R) (a : arr) : Prop :=
    forall d, lookup "phi" d = Some X -> lookup aux d = Some a ->
      exists gv, G qp d (scal u) = Ok gv /\ all_le0 gv /\ q_slack_f Q qp d (scal u) = Ok (scal (M / u)).
  (** The value [v] of [Q] and its slack form. *)
  Definition direct (Q : quantity P) (v : arr) : Prop :=
    q_slack_g Q = None /\ q_slack_h Q = None /\ q_slack_init Q = None /\ wf v /\
    forall u d, 0 < u -> lookup "phi" d = Some X -> q_slack_f Q qp d (scal u) = Ok (Arr (sh v) (map (fun y => y / u) (el v))).
  Definition through_slack (Q : quantity P) (aux : string) (v : arr) : Prop :=
    exists G I M, v = scal M /\ ~ In ">=" (q_compat Q) /\ ~ In "==" (q_compat Q) /\ q_slack_g Q = Some G /\ q_slack_h Q = None /\ q_slack_init Q = Some [(aux, I)] /\ aux <> "phi" /\
    exists s, (forall u, 0 < u -> exists i, I qp [("phi", X)] (scal u) = Ok i /\ sh i = s) /\
    (forall u d a, 0 < u -> lookup "phi" d = Some X -> lookup aux d = Some a -> sh a = s -> wf a ->
       exists m gv, q_slack_f Q qp d (scal u) = Ok (scal m) /\ G qp d (scal u) = Ok gv /\ (all_le0 gv -> M / u <= m)) /\
    (forall u, 0 < u -> exists a, sh a = s /\ wf a /\ tight Q G aux u M a).

  Lemma add_slack name un use sp a Q : add_quantity ndofs ns name (UScalar un) use (Some "slack") sp = Ok a ->
    ns name = Some (AQuantity Q) ->
    (forall d, ad_f a qp d = q_slack_f Q qp d (scal (Rabs un))) /\ ad_unit a = (fun _ => Ok (scal (Rabs un))) /\
    ad_g a = match q_slack_g Q with Some G => [fun qp d => G qp d (scal (Rabs un))] | None => [] end /\
    ad_h a = match q_slack_h Q with Some G => [fun qp d => G qp d (scal (Rabs un))] | None => [] end /\
    ad_slack a = match q_slack_init Q with Some d => map (fun kv => (fst kv, fun qp d => snd kv qp d (scal (Rabs un)))) d | None => [] end.
  Proof using.
    unfold add_quantity, get_quantity. intros H E. rewrite E in H. cbn [bind] in H.
    unfold scaled_f_impl, scaled_g_ineq_impl, scaled_h_eq_impl, scaled_slack_dofs_init, slack_only in H.
    change (String.eqb "slack" "slack") with true in H. cbn [bind] in H. destruct (mem use (q_compat Q)); [|discriminate H].
    cbn [negb unit_callable bind] in H. assert (H' : forall a b : added P, Ok a = Ok b -> a = b) by congruence. apply H' in H. subst a.
    cbn [ad_f ad_unit ad_g ad_h ad_slack]. repeat split; destruct (q_slack_g Q), (q_slack_h Q), (q_slack_init Q); reflexivity.
  Qed.

  Lemma add_compat name un use sp a Q : add_quantity ndofs ns name (UScalar un) use (Some "slack") sp = Ok a ->
    ns name = Some (AQuantity Q) -> In use (q_compat Q).
  Proof using.
    intros H E. destruct (proj1 (add_ok_iff P ndofs ns name (UScalar un) use (Some "slack") sp) (ex_intro _ a H)) as [(Q' & E' & I & _) _].
    rewrite E in E'. injection E' as <-. exact I.
  Qed.

  (** ** What the parsers collect *)
  Lemma fold_union_origin (l : list (added P)) k c s : lookup k (fold_left (fun s a => dict_union s (ad_slack a)) l s) = Some c ->
    lookup k s = Some c \/ exists a, In a l /\ lookup k (ad_slack a) = Some c.
  Proof using.
    revert s. induction l as [|a l IH]; intros s H; [now left|]. cbn [fold_left] in H. destruct (IH _ H) as [E|(b & I & E)].
    - rewrite lookup_union in E. destruct (lookup k (ad_slack a)) eqn:L; [|now left]. right. exists a. split; [now left|congruence].
    - right. exists b. split; [now right|exact E].
  Qed.
  Lemma F2_fun {A B} (R : A -> B -> Prop) l m m' : (forall a b b', R a b -> R a b' -> b = b') -> Forall2 R l m -> Forall2 R l m' -> m = m'.
  Proof using.
    intros F H. revert m'. induction H as [|a b l m H1 H IH]; intros m' H'; inversion H'; subst; [reflexivity|].
    f_equal; [eapply F; eassumption|now apply IH].
  Qed.
  Lemma F2_map_l {A B C} (R : B -> C -> Prop) (g : A -> B) l m : Forall2 R (map g l) m <-> Forall2 (fun a c => R (g a) c) l m.
  Proof using.
    split; revert m; induction l as [|a l IH]; intros m H; inversion H; subst; constructor; auto.
  Qed.
  Lemma combine_map {A B C} (f : A -> B) (g : A -> C) l : combine (map f l) (map g l) = map (fun a => (f a, g a)) l.
  Proof using. induction l; cbn; congruence. Qed.

  Lemma objective_parts (os : list objective) sp f po :
    parse_objectives ndofs ns (Objectives (map ob_name os) (map (fun o => UScalar (ob_unit o)) os)) (map ob_weight os) (Some "slack") sp = Ok (f, po) ->
    exists l, Forall2 (fun o a => add_quantity ndofs ns (ob_name o) (UScalar (ob_unit o)) "f" (Some "slack") sp = Ok a) os l /\
      f = f_tot_from (scal 0) (map ad_f l) (map ob_weight os) /\
      p_g po = concat (map ad_g l) /\ p_h po = concat (map ad_h l) /\ p_slack po = fold_left (fun s a => dict_union s (ad_slack a)) l [].
  Proof using.
    unfold parse_objectives. rewrite !map_length, Nat.eqb_refl. cbn [negb]. intros H.
    destruct (parse_obj_loop _ _ _ _ _ _ _ _) as [[fs acc]|e] eqn:E; [|discriminate H]. cbn [bind] in H. injection H as <- <-.
    destruct (parse_obj_loop_val _ _ _ _ _ _ _ _ _ _ _ E) as (l & F & _ & E1 & E2 & E3 & E4). exists l.
    rewrite combine_map, F2_map_l in F. cbn [fst snd] in F. subst fs. auto.
  Qed.
  Lemma con_slack (cs : list user_constraint) sp acc pc :
    parse_cons_loop ndofs ns (map uc_name cs) (map (fun c => op_string (uc_cmp c)) cs) (map (fun c => UScalar (uc_unit c)) cs) (map uc_val cs) (Some "slack") sp acc = Ok pc ->
    exists l, Forall2 (fun c a => add_quantity ndofs ns (uc_name c) (UScalar (uc_unit c)) (op_string (uc_cmp c)) (Some "slack") sp = Ok a) cs l /\
      p_slack pc = fold_left (fun s a => dict_union s (ad_slack a)) l (p_slack acc).
  Proof using.
    revert acc. induction cs as [|c cs IH]; intros acc H.
    - exists []. cbn in H. injection H as <-. split; [constructor|reflexivity].
    - cbn [map parse_cons_loop] in H. destruct (add_quantity _ _ _ _ _ _ _) as [a|e] eqn:E; [|discriminate H]. cbn [bind] in H. cbv zeta in H.
      destruct (String.eqb _ "=="); [|destruct (mem _ _); [|discriminate H]]; destruct (IH _ H) as (l & F & S);
        (exists (a :: l); split; [constructor; assumption|exact S]).
  Qed.
  Lemma constraint_parts (cs : list user_constraint) sp pc :
    parse_constraints ndofs ns (map uc_name cs) (map (fun c => op_string (uc_cmp c)) cs) (map (fun c => UScalar (uc_unit c)) cs) (map uc_val cs) (Some "slack") sp = Ok pc ->
    exists l, Forall2 (fun c a => add_quantity ndofs ns (uc_name c) (UScalar (uc_unit c)) (op_string (uc_cmp c)) (Some "slack") sp = Ok a) cs l /\
      p_slack pc = fold_left (fun s a => dict_union s (ad_slack a)) l [] /\
      (forall d, system_holds pc qp d <-> forall c a, In (c, a) (combine cs l) ->
         (forall g, In g (ad_g a) -> exists o, g qp d = Ok o /\ all_le0 o) /\ (forall h, In h (ad_h a) -> exists o, h qp d = Ok o /\ all_eq0 o) /\
         exists o, cons_func_centered (ad_f a) (uc_val c) (ad_unit a) (sign_of (op_string (uc_cmp c))) (Some "slack") sp qp d = Ok o /\
           match uc_cmp c with EQ => all_eq0 o | _ => all_le0 o end).
  Proof using.
    intros H. assert (H0 := H). unfold parse_constraints in H0. rewrite !map_length, Nat.eqb_refl in H0. cbn [andb] in H0.
    destruct (con_slack _ _ _ _ H0) as (l & F & Sl). exists l. split; [exact F|]. split; [exact Sl|].
    set (rc := fun c => RC (uc_name c) (op_string (uc_cmp c)) (UScalar (uc_unit c)) (uc_val c)).
    assert (H1 : parse_constraints ndofs ns (map rc_name (map rc cs)) (map rc_type (map rc cs)) (map rc_unit (map rc cs)) (map rc_val (map rc cs)) (Some "slack") sp = Ok pc).
    { rewrite !map_map. exact H. }
    destruct (parse_constraints_val P ndofs ns (map rc cs) (Some "slack") sp pc H1) as (l' & F' & Cg & Ch).
    rewrite F2_map_l in F'. assert (l' = l) as -> by (eapply F2_fun; [|exact F'|exact F]; cbn; intros ? ? ? A B; congruence).
    assert (CM : forall c a, In (c, a) (combine cs l) <-> In (rc c, a) (combine (map rc cs) l)).
    { clear. intros c a. revert cs. induction l as [|b l IH]; intros [|k cs]; cbn; try tauto. rewrite IH. split; (intros [E|E]; [left|now right]).
      - congruence.
      - injection E as E1 E2 E3 E4 <-. f_equal. destruct c, k. cbn in *. subst. destruct uc_cmp, uc_cmp0; try discriminate E2; reflexivity. }
    intros d. split.
    - intros [Sg Sh] c a I. pose proof (proj1 (CM c a) I) as I'. split; [|split].
      + intros g Ig. apply Sg, Cg. eauto.
      + intros h Ih. apply Sh, Ch. eauto.
      + destruct (uc_cmp c) eqn:Ec.
        * apply Sg, Cg. exists (rc c), a. split; [exact I'|]. right. unfold rc, cf. cbn. rewrite Ec. split; [discriminate|reflexivity].
        * apply Sg, Cg. exists (rc c), a. split; [exact I'|]. right. unfold rc, cf. cbn. rewrite Ec. split; [discriminate|reflexivity].
        * apply Sh, Ch. exists (rc c), a. split; [exact I'|]. right. unfold rc, cf. cbn. rewrite Ec. split; reflexivity.
    - intros A.
      assert (CM' : forall c a, In (c, a) (combine (map rc cs) l) -> exists c0, c = rc c0 /\ In (c0, a) (combine cs l)).
      { clear. intros c a. revert cs. induction l as [|b l IH]; intros [|k cs]; cbn; try tauto. intros [E|E]; [injection E as <- <-; eauto|].
        destruct (IH _ E) as (c0 & -> & I). eauto. }
      split.
      + intros g Ig. apply Cg in Ig as (c & a & I & Ig). destruct (CM' _ _ I) as (c0 & -> & I0). destruct (A c0 a I0) as (Ag & _ & o & Eo & Ho).
        destruct Ig as [Ig|[T ->]]; [now apply Ag|]. unfold cf, rc in *. cbn in *. exists o. split; [exact Eo|]. destruct (uc_cmp c0); [exact Ho|exact Ho|now contradiction T].
      + intros h Ih. apply Ch in Ih as (c & a & I & Ih). destruct (CM' _ _ I) as (c0 & -> & I0). destruct (A c0 a I0) as (_ & Ah & o & Eo & Ho).
        destruct Ih as [Ih|[T ->]]; [now apply Ah|]. unfold cf, rc in *. cbn in *. exists o. split; [exact Eo|]. destruct (uc_cmp c0); [discriminate T|discriminate T|exact Ho].
  Qed.

  (** ** One use of a quantity *)
  Definition slack_of (Q : quantity P) (n : string) : Prop := exists aux I, q_slack_init Q = Some [(aux, I)] /\ aux = n.
  (** The value of one use in a state: exact, or over-estimated through a slack. *)
  Lemma use_slack name un use sp a Q aux v : add_quantity ndofs ns name (UScalar un) use (Some "slack") sp = Ok a ->
    ns name = Some (AQuantity Q) -> through_slack Q aux v -> un <> 0 ->
    exists G I M s, v = scal M /\ ad_g a = [fun qp d => G qp d (scal (Rabs un))] /\ ad_h a = [] /\ use <> ">=" /\ use <> "==" /\
      ad_slack a = [(aux, fun qp d => I qp d (scal (Rabs un)))] /\ aux <> "phi" /\ q_slack_g Q = Some G /\ q_slack_init Q = Some [(aux, I)] /\
      (forall u, 0 < u -> exists i, I qp [("phi", X)] (scal u) = Ok i /\ sh i = s) /\
      (forall d b, lookup "phi" d = Some X -> lookup aux d = Some b -> sh b = s -> wf b ->
         exists m gv, ad_f a qp d = Ok (scal m) /\ G qp d (scal (Rabs un)) = Ok gv /\ (all_le0 gv -> M / Rabs un <= m)) /\
      (forall u, 0 < u -> exists b, sh b = s /\ wf b /\ tight Q G aux u M b).
  Proof using.
    intros A E (G & I & M & -> & C1 & C2 & Eg & Eh & Ei & Na & s & HI & HL & HT) Hu. pose proof (Rabs_pos_lt un Hu) as Pu.
    destruct (add_slack _ _ _ _ _ _ A E) as (Ef & _ & Ag & Ah & As). rewrite Eg in Ag. rewrite Eh in Ah. rewrite Ei in As. cbn [map fst snd] in As.
    pose proof (add_compat _ _ _ _ _ _ A E) as Cu.
    exists G, I, M, s. split; [reflexivity|]. split; [exact Ag|]. split; [exact Ah|].
    split; [intros ->; contradiction|]. split; [intros ->; contradiction|]. split; [exact As|]. split; [exact Na|]. split; [exact Eg|]. split; [exact Ei|]. split; [exact HI|]. split; [|exact HT].
    intros d b L1 L2 Sb Wb. rewrite Ef. apply (HL (Rabs un) d b); assumption.
  Qed.
  Lemma use_direct name un use sp a Q v : add_quantity ndofs ns name (UScalar un) use (Some "slack") sp = Ok a ->
    ns name = Some (AQuantity Q) -> direct Q v -> un <> 0 ->
    ad_g a = [] /\ ad_h a = [] /\ ad_slack a = [] /\ wf v /\
    forall d, lookup "phi" d = Some X -> ad_f a qp d = Ok (Arr (sh v) (map (fun y => y / Rabs un) (el v))).
  Proof using.
    intros A E (Eg & Eh & Ei & W & Hf) Hu. pose proof (Rabs_pos_lt un Hu) as Pu.
    destruct (add_slack _ _ _ _ _ _ A E) as (Ef & _ & Ag & Ah & As). rewrite Eg in Ag. rewrite Eh in Ah. rewrite Ei in As.
    repeat (split; [assumption|]). intros d L. rewrite Ef. now apply Hf.
  Qed.

  (** ** Whole problems *)
  Variables (U : string -> R) (aux : string -> string) (slacked : string -> Prop).
  Variables (os : list objective) (cs : list user_constraint).
  Variables (sp : smoothing_params) (f : callable P) (po pc : parsed P).
  Definition used (n : string) (un : R) : Prop :=
    (exists o, In o os /\ ob_name o = n /\ ob_unit o = un) \/ (exists c, In c cs /\ uc_name c = n /\ uc_unit c = un).
  Hypothesis HQ : forall n un, used n un -> un <> 0 /\ exists Q v, ns n = Some (AQuantity Q) /\ call Q qp [("phi", X)] = Ok v /\
    (direct Q v \/ through_slack Q (aux n) v /\ slacked n /\ Rabs un = U n).
  Hypothesis Haux : forall n n', slacked n -> slacked n' -> aux n = aux n' -> n = n'.
  Hypothesis Hw : forall o, In o os -> 0 <= ob_weight o.
  Hypothesis Hs : forall o Q v, In o os -> ns (ob_name o) = Some (AQuantity Q) -> call Q qp [("phi", X)] = Ok v -> exists m, v = scal m.
  Hypothesis Eo : parse_objectives ndofs ns (Objectives (map ob_name os) (map (fun o => UScalar (ob_unit o)) os)) (map ob_weight os) (Some "slack") sp = Ok (f, po).
  Hypothesis Ec : parse_constraints ndofs ns (map uc_name cs) (map (fun c => op_string (uc_cmp c)) cs) (map (fun c => UScalar (uc_unit c)) cs) (map uc_val cs) (Some "slack") sp = Ok pc.

  Definition all_met : Prop := forall c Q v, In c cs -> ns (uc_name c) = Some (AQuantity Q) -> call Q qp [("phi", X)] = Ok v -> meets (uc_cmp c) (uc_val c) v.
  Definition total (r : R) : Prop := exists ms, Forall2 (fun o m => exists Q, ns (ob_name o) = Some (AQuantity Q) /\ call Q qp [("phi", X)] = Ok (scal m)) os ms /\
    r = Rsum (map2 (fun o m => ob_weight o / Rabs (ob_unit o) * m) os ms).

  (** Every slack variable comes from a use. *)
  Lemma origin k init : lookup k (dict_union (p_slack po) (p_slack pc)) = Some init ->
    exists n' un' use' a', used n' un' /\ add_quantity ndofs ns n' (UScalar un') use' (Some "slack") sp = Ok a' /\ lookup k (ad_slack a') = Some init.
  Proof using qp Eo Ec.
    intros L. destruct (objective_parts os sp f po Eo) as (lo & Fo & _ & _ & _ & So). destruct (constraint_parts cs sp pc Ec) as (lc & Fc & Sc & _).
    rewrite lookup_union in L. destruct (lookup k (p_slack pc)) as [i0|] eqn:L1.
      - injection L as ->. rewrite Sc in L1. apply fold_union_origin in L1 as [L1|(a' & Ia & La)]; [discriminate L1|].
                assert (G : forall cs' l', Forall2 (fun c a => add_quantity ndofs ns (uc_name c) (UScalar (uc_unit c)) (op_string (uc_cmp c)) (Some "slack") sp = Ok a) cs' l' -> In a' l' -> exists c, In c cs' /\ add_quantity ndofs ns (uc_name c) (UScalar (uc_unit c)) (op_string (uc_cmp c)) (Some "slack") sp = Ok a').
        { intros cs' l' F. induction F as [|c a0 cs0 l0 H1 F IH]; [intros []|]. intros [->|J]; [exists c; split; [now left|exact H1]|]. destruct (IH J) as (c' & J' & H'). exists c'. split; [now right|exact H']. }
        destruct (G _ _ Fc Ia) as (c & Jc & Hc). exists (uc_name c), (uc_unit c), (op_string (uc_cmp c)), a'. split; [right; eauto|]. split; [exact Hc|exact La].
      - rewrite So in L. apply fold_union_origin in L as [L|(a' & Ia & La)]; [discriminate L|].
        assert (G : forall os' l', Forall2 (fun o a => add_quantity ndofs ns (ob_name o) (UScalar (ob_unit o)) "f" (Some "slack") sp = Ok a) os' l' -> In a' l' -> exists o, In o os' /\ add_quantity ndofs ns (ob_name o) (UScalar (ob_unit o)) "f" (Some "slack") sp = Ok a').
        { intros os' l' F. induction F as [|c a0 cs0 l0 H1 F IH]; [intros []|]. intros [->|J]; [exists c; split; [now left|exact H1]|]. destruct (IH J) as (c' & J' & H'). exists c'. split; [now right|exact H']. }
        destruct (G _ _ Fo Ia) as (o & Jo & Ho). exists (ob_name o), (ob_unit o), "f", a'. split; [left; eauto|]. split; [exact Ho|exact La].
  Qed.
  (** The slack variable of a use in a state. *)
  Lemma state_lookup d n un use a Q v : solver_state po pc qp X d -> used n un ->
    add_quantity ndofs ns n (UScalar un) use (Some "slack") sp = Ok a -> ns n = Some (AQuantity Q) -> through_slack Q (aux n) v -> slacked n ->
    lookup (aux n) (dict_union (p_slack po) (p_slack pc)) <> None ->
    forall I, q_slack_init Q = Some [(aux n, I)] -> forall i u, 0 < u -> I qp [("phi", X)] (scal u) = Ok i ->
    (exists s, forall u, 0 < u -> exists i, I qp [("phi", X)] (scal u) = Ok i /\ sh i = s) ->
    exists b, lookup (aux n) d = Some b /\ sh b = sh i /\ wf b.
  Proof using HQ Haux Eo Ec.
    intros [_ St] Un A E T Sn Nn I EI i u Pu Ei (s & Hs').
    destruct (lookup (aux n) (dict_union (p_slack po) (p_slack pc))) as [init|] eqn:L; [|contradiction]. destruct (St _ _ L) as (w & b & Ew & Lb & Sb & Wb).
    exists b. split; [exact Lb|]. split; [|exact Wb]. rewrite Sb. 
    destruct (origin _ _ L) as (n' & un' & use' & a' & U' & A' & La). destruct (HQ n' un' U') as (Nz & Q' & v' & E' & _ & D').
    destruct D' as [D'|(T' & S' & _)].
    - destruct (use_direct _ _ _ _ _ _ _ A' E' D' Nz) as (_ & _ & Z & _). rewrite Z in La. discriminate La.
    - destruct (use_slack _ _ _ _ _ _ _ _ A' E' T' Nz) as (G' & I' & M' & s' & _ & _ & _ & _ & _ & As' & _ & _ & EI' & _).
      rewrite As' in La. cbn [lookup] in La. destruct (String.eqb_spec (aux n) (aux n')) as [En|]; [|discriminate La].
      assert (n = n') as <- by (now apply Haux). rewrite E in E'. injection E' as <-. rewrite EI in EI'. injection EI' as <-. injection La as <-.
      destruct (Hs' (Rabs un') (Rabs_pos_lt _ Nz)) as (i1 & Ei1 & S1). destruct (Hs' u Pu) as (i2 & Ei2 & S2). rewrite Ew in Ei1. rewrite Ei in Ei2. injection Ei1 as ->. injection Ei2 as ->. congruence.
  Qed.

  Lemma F2_exists {A B} (R : A -> B -> Prop) l : (forall a, In a l -> exists b, R a b) -> exists m, Forall2 R l m.
  Proof using.
    induction l as [|a l IH]; intros H; [exists []; constructor|]. destruct (H a (or_introl eq_refl)) as [b Hb]. destruct IH as [m Hm]; [intros; apply H; now right|].
    exists (b :: m). now constructor.
  Qed.
  Lemma F2_in_r {A B} (R : A -> B -> Prop) l m b : Forall2 R l m -> In b m -> exists a, In (a, b) (combine l m) /\ R a b.
  Proof using.
    intros F. induction F as [|a b' l m H F IH]; [intros []|]. intros [->|J]; [exists a; split; [now left|exact H]|].
    destruct (IH J) as (a' & J' & H'). exists a'. split; [now right|exact H'].
  Qed.

  Definition lower (rel : R -> R -> Prop) (d : dofs) (o : objective) (a : added P) : Prop :=
    exists Q M v, ns (ob_name o) = Some (AQuantity Q) /\ call Q qp [("phi", X)] = Ok (scal M) /\ ad_f a qp d = Ok (scal v) /\ rel (M / Rabs (ob_unit o)) v.
  Lemma sum_lower rel d os' lo : (rel = Rle \/ rel = eq) -> length os' = length lo -> (forall o, In o os' -> 0 <= ob_weight o) ->
    (forall o a, In (o, a) (combine os' lo) -> lower rel d o a) ->
    exists ms vs, Forall2 (fun o m => exists Q, ns (ob_name o) = Some (AQuantity Q) /\ call Q qp [("phi", X)] = Ok (scal m)) os' ms /\
      Forall2 (fun (g : callable P) v => g qp d = Ok (scal v)) (map ad_f lo) vs /\
      rel (Rsum (map2 (fun o m => ob_weight o / Rabs (ob_unit o) * m) os' ms)) (Rsum (map (fun p => fst p * snd p) (combine (map ob_weight os') vs))).
  Proof using.
    intros Hr. revert lo. induction os' as [|o os' IH]; intros [|a lo] L W H; try discriminate L.
    - exists [], []. split; [constructor|]. split; [constructor|]. unfold Rsum. cbn. destruct Hr as [-> | ->]; [lra|reflexivity].
    - destruct (IH lo) as (ms & vs & F1 & F2 & S); [now injection L|intros; apply W; now right|intros; apply H; now right|].
      destruct (H o a (or_introl eq_refl)) as (Q & M & v & E1 & E2 & E3 & E4). exists (M :: ms), (v :: vs).
      split; [constructor; eauto|]. split; [cbn [map]; constructor; assumption|]. specialize (W o (or_introl eq_refl)).
      unfold Rsum in *. cbn [map map2 combine fold_right fst snd]. destruct Hr as [-> | ->].
      + apply Rplus_le_compat; [|exact S]. unfold Rdiv. rewrite Rmult_assoc. apply Rmult_le_compat_l; [exact W|]. unfold Rdiv in E4. lra.
      + rewrite S, <- E4. f_equal. unfold Rdiv. ring.
  Qed.

  Lemma F2_len {A B} (R : A -> B -> Prop) l m : Forall2 R l m -> length l = length m.
  Proof using. intros F; induction F; cbn; congruence. Qed.
  Lemma fold_has a l k s : In a l -> lookup k (ad_slack a) <> None -> lookup k (fold_left (fun s a => dict_union s (ad_slack a)) l s : dict (callable P)) <> None.
  Proof using. intros I N. apply lookup_fold_union. right. eauto. Qed.

  (** A use in a state that satisfies its own inequalities. *)
  Lemma use_holds d n un use a Q v : solver_state po pc qp X d -> used n un ->
    add_quantity ndofs ns n (UScalar un) use (Some "slack") sp = Ok a -> ns n = Some (AQuantity Q) -> call Q qp [("phi", X)] = Ok v ->
    (forall k, lookup k (ad_slack a) <> None -> lookup k (dict_union (p_slack po) (p_slack pc)) <> None) ->
    (forall g, In g (ad_g a) -> exists o, g qp d = Ok o /\ all_le0 o) ->
    wf v /\ (ad_f a qp d = Ok (Arr (sh v) (map (fun y => y / Rabs un) (el v))) \/
    exists M m, v = scal M /\ ad_f a qp d = Ok (scal m) /\ M / Rabs un <= m /\ use <> ">=" /\ use <> "==").
  Proof using HQ Haux Eo Ec.
    intros St Un A E Ev Hk Hg. destruct (HQ n un Un) as (Nz & Q' & v' & E' & Ev' & D). rewrite E in E'. injection E' as <-. rewrite Ev in Ev'. injection Ev' as <-.
    pose proof (Rabs_pos_lt un Nz) as Pu. destruct D as [D|(T & Sn & _)].
    - destruct (use_direct _ _ _ _ _ _ _ A E D Nz) as (_ & _ & _ & W & Hf). split; [exact W|]. left. apply Hf, St.
    - destruct (use_slack _ _ _ _ _ _ _ _ A E T Nz) as (G & I & M & s & -> & Ag & _ & U1 & U2 & As & Na & EG & EI & HI & HL & _). split; [reflexivity|]. right.
      destruct (HI (Rabs un) Pu) as (i & Ei & Si).
      destruct (state_lookup d n un use a Q (scal M) St Un A E T Sn) with (I := I) (i := i) (u := Rabs un) as (b & Lb & Sb & Wb); auto.
      { apply Hk. rewrite As. cbn [lookup]. rewrite String.eqb_refl. discriminate. }
      { exists s. exact HI. }
      destruct (HL d b (proj1 St) Lb ltac:(congruence) Wb) as (m & gv & Em & Eg & Hm). exists M, m. split; [reflexivity|]. split; [exact Em|]. split; [|tauto].
      destruct (Hg (fun qp d => G qp d (scal (Rabs un)))) as (gv' & Eg' & Hg'); [rewrite Ag; now left|]. apply Hm. cbv beta in Eg'. rewrite Eg in Eg'. injection Eg' as ->. exact Hg'.
  Qed.

  Lemma centred sgn d a c un w : ad_f a qp d = Ok w -> wf w -> ad_unit a = (fun _ => Ok (scal un)) ->
    cons_func_centered (ad_f a) c (ad_unit a) sgn (Some "slack") sp qp d = Ok (Arr (sh w) (map (fun y => sgn * (y - c / un)) (el w))).
  Proof using.
    intros Ef W Eu. unfold cons_func_centered. rewrite Ef. cbn [bind]. rewrite Eu. cbn [bind].
    change (op2 Rdiv (scal c) (scal un)) with (Ok (scal (c / un))). cbn [bind]. rewrite op2_scal_r by exact W. cbn [bind].
    change (String.eqb "slack" "approx") with false. cbn [andb]. unfold amap. cbn [sh el]. now rewrite map_map.
  Qed.

  Lemma forward d y : solver_value f po pc qp X d y -> all_met /\ exists r, total r /\ r <= y.
  Proof using HQ Haux Hw Hs Eo Ec.
    intros (St & So & Sc & Ey). destruct (objective_parts os sp f po Eo) as (lo & Fo & Ef & Gg & Gh & Go). destruct (constraint_parts cs sp pc Ec) as (lc & Fc & Gc & Hc). split.
    - intros c Q v Ic EQ Ev. destruct (F2_left _ _ _ c Fc Ic) as [a Ia]. pose proof (F2_combine _ _ _ _ _ Fc Ia) as A.
      destruct (proj1 (Hc d) Sc c a Ia) as (Ag & _ & o & Eo' & Ho).
      assert (Un : used (uc_name c) (uc_unit c)) by (right; eauto). destruct (HQ _ _ Un) as (Nz & _). pose proof (Rabs_pos_lt _ Nz) as Pu.
      destruct (use_holds d _ _ _ a Q v St Un A EQ Ev) as (W & K); [|exact Ag|].
      { intros k Hk. rewrite lookup_union, Gc. destruct (lookup k (fold_left _ lc _)) eqn:L; [discriminate|]. exfalso. revert L. apply (fold_has a); [eapply in_combine_r; exact Ia|exact Hk]. }
      destruct (add_slack _ _ _ _ _ _ A EQ) as (_ & Au & _). destruct K as [K|(M & m & -> & K & Le & U1 & U2)].
      + assert (W' : wf (Arr (sh v) (map (fun y => y / Rabs (uc_unit c)) (el v)))) by (red; cbn; rewrite map_length; exact W).
        rewrite (centred _ d a _ _ _ K W' Au) in Eo'. injection Eo' as <-. intros z Hz. cbn [sh el] in *. rewrite map_map in Ho.
        set (sg := sign_of (op_string (uc_cmp c))) in *.
        assert (J : In (sg * (z / Rabs (uc_unit c) - uc_val c / Rabs (uc_unit c))) (map (fun x => sg * (x / Rabs (uc_unit c) - uc_val c / Rabs (uc_unit c))) (el v))) by now apply (in_map (fun x => sg * (x / Rabs (uc_unit c) - uc_val c / Rabs (uc_unit c)))).
        destruct (uc_cmp c); specialize (Ho _ J); unfold sg in Ho; cbn [op_string sign_of String.eqb Ascii.eqb Bool.eqb] in Ho.
        * rewrite Rmult_1_l in Ho. now apply (scaled_le _ _ _ Pu).
        * now apply (scaled_ge _ _ _ Pu).
        * now apply (scaled_eq _ _ _ Pu).
      + rewrite (centred _ d a _ _ (scal m) K eq_refl Au) in Eo'. injection Eo' as <-. intros z [<-|[]].
        destruct (uc_cmp c); [|contradiction U1; reflexivity|contradiction U2; reflexivity].
        specialize (Ho _ (or_introl eq_refl)). cbn [op_string sign_of String.eqb Ascii.eqb Bool.eqb] in Ho. rewrite Rmult_1_l in Ho. apply (scaled_le _ _ _ Pu). lra.
    - destruct (sum_lower Rle d os lo (or_introl eq_refl) (F2_len _ _ _ Fo) Hw) as (ms & vs & F1 & F2 & Le).
      + intros o a Ia. pose proof (F2_combine _ _ _ _ _ Fo Ia) as A. assert (Io : In o os) by (eapply in_combine_l; exact Ia).
        assert (Un : used (ob_name o) (ob_unit o)) by (left; eauto). destruct (HQ _ _ Un) as (Nz & Q & v & EQ & Ev & _).
        destruct (Hs o Q v Io EQ Ev) as (m & ->). exists Q, m.
        destruct (use_holds d _ _ _ a Q (scal m) St Un A EQ Ev) as (W & K).
        { intros k Hk. rewrite lookup_union. destruct (lookup k (p_slack pc)); [discriminate|]. rewrite Go. apply (fold_has a); [eapply in_combine_r; exact Ia|exact Hk]. }
        { intros g Ig. apply So. rewrite Gg. apply in_concat. exists (ad_g a). split; [apply in_map; eapply in_combine_r; exact Ia|exact Ig]. }
        destruct K as [K|(M & m' & Em & K & Le & _)].
        * exists (m / Rabs (ob_unit o)). repeat (split; [assumption|]). lra.
        * injection Em as <-. exists m'. repeat (split; [assumption|]). exact Le.
      + exists (Rsum (map2 (fun o m => ob_weight o / Rabs (ob_unit o) * m) os ms)). split; [exists ms; auto|].
        rewrite Ef, (f_tot_value P _ _ vs qp d 0) in Ey; [|rewrite !map_length; exact (F2_len _ _ _ Fo)|exact F2]. injection Ey as <-. lra.
  Qed.

  (** ** The tight state *)
  Definition fits (Q : quantity P) (n : string) (v b : arr) : Prop :=
    wf b /\ forall G I M, q_slack_g Q = Some G -> q_slack_init Q = Some [(aux n, I)] -> v = scal M ->
      (forall i u, 0 < u -> I qp [("phi", X)] (scal u) = Ok i -> sh b = sh i) /\ tight Q G (aux n) (U n) M b.
  Lemma build N : (forall n, In n N -> exists un, used n un) -> exists D, lookup "phi" D = Some X /\
    forall n Q v, In n N -> ns n = Some (AQuantity Q) -> call Q qp [("phi", X)] = Ok v -> through_slack Q (aux n) v -> slacked n -> 0 < U n ->
      exists b, lookup (aux n) D = Some b /\ fits Q n v b.
  Proof using HQ Haux.
    induction N as [|n N IH]; intros H.
    - exists [("phi", X)]. split; [reflexivity|]. intros n Q v [].
    - destruct IH as (D & LD & HD); [intros; apply H; now right|]. destruct (H n (or_introl eq_refl)) as (un & Un). destruct (HQ n un Un) as (Nz & Q & v & E & Ev & K).
      assert (KD : direct Q v -> forall Q' v', ns n = Some (AQuantity Q') -> call Q' qp [("phi", X)] = Ok v' -> ~ through_slack Q' (aux n) v').
      { intros (Eg & _) Q' v' E' _ (G & I & M & _ & _ & _ & Eg' & _). rewrite E in E'. injection E' as <-. congruence. }
      destruct K as [K|(T & Sn & EU)].
      + exists D. split; [exact LD|]. intros n' Q' v' [<-|In'] E' Ev' T'; [exfalso; exact (KD K Q' v' E' Ev' T')|now apply HD].
      + pose proof T as (G & I & M & -> & _ & _ & Eg & _ & Ei & Na & s & HI & _ & HT). assert (PU : 0 < U n) by (rewrite <- EU; now apply Rabs_pos_lt).
        destruct (HT (U n) PU) as (b & Sb & Wb & Tb). exists ((aux n, b) :: D). split.
        { cbn [lookup]. destruct (String.eqb_spec "phi" (aux n)) as [e|]; [congruence|exact LD]. }
        assert (Fb : fits Q n (scal M) b).
        { split; [exact Wb|]. intros G' I' M' Eg' Ei' EM. rewrite Eg in Eg'. injection Eg' as <-. rewrite Ei in Ei'. injection Ei' as <-. injection EM as <-. split; [|exact Tb].
          intros i u Pu Eiu. destruct (HI u Pu) as (i' & Ei' & Si). rewrite Eiu in Ei'. injection Ei' as <-. congruence. }
        intros n' Q' v' In' E' Ev' T' Sn' PU'. cbn [lookup]. destruct (String.eqb_spec (aux n') (aux n)) as [e|ne].
        * assert (n' = n) as -> by (now apply Haux). rewrite E in E'. injection E' as <-. rewrite Ev in Ev'. injection Ev' as <-. exists b. split; [reflexivity|exact Fb].
        * destruct In' as [<-|In']; [congruence|]. now apply HD.
  Qed.

  (** The slack variable of a use is among the unknowns. *)
  Lemma has_slack n un Q v : used n un -> un <> 0 -> ns n = Some (AQuantity Q) -> through_slack Q (aux n) v ->
    lookup (aux n) (dict_union (p_slack po) (p_slack pc)) <> None.
  Proof using Eo Ec.
    intros Un Nz E T. destruct (objective_parts os sp f po Eo) as (lo & Fo & _ & _ & _ & Go). destruct (constraint_parts cs sp pc Ec) as (lc & Fc & Gc & _).
    rewrite lookup_union. destruct Un as [(o & Io & <- & <-)|(c & Ic & <- & <-)].
    - destruct (lookup (aux (ob_name o)) (p_slack pc)); [discriminate|]. destruct (F2_left _ _ _ o Fo Io) as [a Ia]. pose proof (F2_combine _ _ _ _ _ Fo Ia) as A.
      destruct (use_slack _ _ _ _ _ _ _ _ A E T Nz) as (G & I & M & s & _ & _ & _ & _ & _ & As & _). rewrite Go. apply (fold_has a); [eapply in_combine_r; exact Ia|].
      rewrite As. cbn [lookup]. rewrite String.eqb_refl. discriminate.
    - destruct (lookup (aux (uc_name c)) (p_slack pc)) eqn:L; [discriminate|]. exfalso. revert L. destruct (F2_left _ _ _ c Fc Ic) as [a Ia]. pose proof (F2_combine _ _ _ _ _ Fc Ia) as A.
      destruct (use_slack _ _ _ _ _ _ _ _ A E T Nz) as (G & I & M & s & _ & _ & _ & _ & _ & As & _). rewrite Gc. apply (fold_has a); [eapply in_combine_r; exact Ia|].
      rewrite As. cbn [lookup]. rewrite String.eqb_refl. discriminate.
  Qed.

  Lemma backward_ext r : all_met -> total r -> exists D : dofs, lookup "phi" D = Some X /\ forall d, (forall k, k = "phi" \/ lookup k (dict_union (p_slack po) (p_slack pc)) <> None -> lookup k d = lookup k D) -> solver_value f po pc qp X d r.
  Proof using HQ Haux Hw Hs Eo Ec.
    intros Am (ms0 & Fm & ->). destruct (objective_parts os sp f po Eo) as (lo & Fo & Ef & Gg & Gh & Go). destruct (constraint_parts cs sp pc Ec) as (lc & Fc & Gc & Hc).
    destruct (build (map ob_name os ++ map uc_name cs)) as (D0 & Ld0 & Hd0).
    { intros n I. apply in_app_iff in I as [I|I]; apply in_map_iff in I as (o & <- & Io); [exists (ob_unit o); left; eauto|exists (uc_unit o); right; eauto]. }
    assert (InN : forall n un, used n un -> In n (map ob_name os ++ map uc_name cs)).
    { intros n un [(o & I & <- & _)|(c & I & <- & _)]; apply in_app_iff; [left|right]; now apply in_map. }
    exists D0. split; [exact Ld0|]. intros d Agree.
    assert (Ld : lookup "phi" d = Some X) by (rewrite Agree by (now left); exact Ld0).
    assert (Hd : forall n Q v, In n (map ob_name os ++ map uc_name cs) -> ns n = Some (AQuantity Q) -> call Q qp [("phi", X)] = Ok v -> through_slack Q (aux n) v -> slacked n -> 0 < U n ->
      exists b, lookup (aux n) d = Some b /\ fits Q n v b).
    { intros n Q v I E Ev T Sn PU. destruct (Hd0 n Q v I E Ev T Sn PU) as (b & Lb & Fb). exists b. split; [|exact Fb]. rewrite Agree; [exact Lb|]. right.
      assert (exists un, used n un) as (un & Un).
      { apply in_app_iff in I as [I|I]; apply in_map_iff in I as (o & <- & Io); [exists (ob_unit o); left; eauto|exists (uc_unit o); right; eauto]. }
      destruct (HQ n un Un) as (Nz & _). exact (has_slack n un Q v Un Nz E T). }
    (* one use *)
    assert (One : forall n un use a Q v, used n un -> add_quantity ndofs ns n (UScalar un) use (Some "slack") sp = Ok a -> ns n = Some (AQuantity Q) -> call Q qp [("phi", X)] = Ok v ->
      wf v /\ ad_f a qp d = Ok (Arr (sh v) (map (fun y => y / Rabs un) (el v))) /\ ad_h a = [] /\ (forall g, In g (ad_g a) -> exists o, g qp d = Ok o /\ all_le0 o)).
    { intros n un use a Q v Un A E Ev. destruct (HQ n un Un) as (Nz & Q' & v' & E' & Ev' & D). rewrite E in E'. injection E' as <-. rewrite Ev in Ev'. injection Ev' as <-. destruct D as [D|(T & Sn & EU)].
      - destruct (use_direct _ _ _ _ _ _ _ A E D Nz) as (-> & -> & _ & W & Hf). split; [exact W|]. split; [now apply Hf|]. split; [reflexivity|intros g []].
      - destruct (use_slack _ _ _ _ _ _ _ _ A E T Nz) as (G & I & M & s & -> & Ag & Ah & _ & _ & _ & _ & EG & EI & _ & _ & _). split; [reflexivity|].
        assert (PU : 0 < U n) by (rewrite <- EU; now apply Rabs_pos_lt). destruct (Hd n Q (scal M) (InN n un Un) E Ev T Sn PU) as (b & Lb & _ & Fb).
        destruct (Fb G I M EG EI eq_refl) as (_ & Tb). destruct (Tb d Ld Lb) as (gv & E1 & H1 & E2). rewrite <- EU in E1, E2.
        destruct (add_slack _ _ _ _ _ _ A E) as (Ef' & _). split; [rewrite Ef'; exact E2|]. split; [exact Ah|]. rewrite Ag. intros g [<-|[]]. exists gv. split; [exact E1|exact H1]. }
    destruct (sum_lower eq d os lo (or_intror eq_refl) (F2_len _ _ _ Fo) Hw) as (ms & vs & F0 & F1 & Le).
    { intros o a Ia. pose proof (F2_combine _ _ _ _ _ Fo Ia) as A. assert (Io : In o os) by (eapply in_combine_l; exact Ia).
      assert (Un : used (ob_name o) (ob_unit o)) by (left; eauto). destruct (HQ _ _ Un) as (Nz & Q & v & EQ & Ev & _).
      destruct (Hs o Q v Io EQ Ev) as (m & ->). exists Q, m, (m / Rabs (ob_unit o)). split; [exact EQ|]. split; [exact Ev|]. split; [|reflexivity].
      exact (proj1 (proj2 (One _ _ _ a Q (scal m) Un A EQ Ev))). }
    assert (ms = ms0) as ->.
    { eapply F2_fun; [|exact F0|exact Fm]. cbv beta. intros o m m' (Q & E1 & E2) (Q' & E1' & E2'). rewrite E1 in E1'. injection E1' as <-. rewrite E2 in E2'. injection E2' as ->. reflexivity. }
    split; [|split; [|split]].
    - split; [exact Ld|]. intros k init L. destruct (origin _ _ L) as (n & un & use & a & Un & A & La).
      destruct (HQ n un Un) as (Nz & Q & v & E & Ev & [D|(T & Sn & EU)]).
      + destruct (use_direct _ _ _ _ _ _ _ A E D Nz) as (_ & _ & Z & _). rewrite Z in La. discriminate La.
      + destruct (use_slack _ _ _ _ _ _ _ _ A E T Nz) as (G & I & M & s & -> & _ & _ & _ & _ & As & _ & EG & EI & HI & _).
        rewrite As in La. cbn [lookup] in La. destruct (String.eqb_spec k (aux n)) as [->|]; [|discriminate La]. injection La as <-.
        assert (PU : 0 < U n) by (rewrite <- EU; now apply Rabs_pos_lt). destruct (Hd n Q (scal M) (InN n un Un) E Ev T Sn PU) as (b & Lb & Wb & Fb).
        destruct (Fb G I M EG EI eq_refl) as (Sb & _). destruct (HI (Rabs un) (Rabs_pos_lt _ Nz)) as (i & Ei & Si). exists i, b.
        split; [exact Ei|]. split; [exact Lb|]. split; [|exact Wb]. apply (Sb i (Rabs un)); [now apply Rabs_pos_lt|exact Ei].
    - split.
      + intros g Ig. rewrite Gg in Ig. apply in_concat in Ig as (l & Il & Ig). apply in_map_iff in Il as (a & <- & Ia). destruct (F2_in_r _ _ _ _ Fo Ia) as (o & Io & A).
        assert (Un : used (ob_name o) (ob_unit o)) by (left; exists o; split; [eapply in_combine_l; exact Io|auto]). destruct (HQ _ _ Un) as (_ & Q & v & E & Ev & _).
        now apply (One _ _ _ a Q v Un A E Ev).
      + intros h Ih. rewrite Gh in Ih. apply in_concat in Ih as (l & Il & Ih). apply in_map_iff in Il as (a & <- & Ia). destruct (F2_in_r _ _ _ _ Fo Ia) as (o & Io & A).
        assert (Un : used (ob_name o) (ob_unit o)) by (left; exists o; split; [eapply in_combine_l; exact Io|auto]). destruct (HQ _ _ Un) as (_ & Q & v & E & Ev & _).
        destruct (One _ _ _ a Q v Un A E Ev) as (_ & _ & Z & _). rewrite Z in Ih. destruct Ih.
    - apply Hc. intros c a Ia. pose proof (F2_combine _ _ _ _ _ Fc Ia) as A. assert (Ic : In c cs) by (eapply in_combine_l; exact Ia).
      assert (Un : used (uc_name c) (uc_unit c)) by (right; eauto). destruct (HQ _ _ Un) as (Nz & Q & v & E & Ev & _). pose proof (Rabs_pos_lt _ Nz) as Pu.
      destruct (One _ _ _ a Q v Un A E Ev) as (W & Ea & Ah & Ag). split; [exact Ag|]. split; [rewrite Ah; intros h []|].
      destruct (add_slack _ _ _ _ _ _ A E) as (_ & Au & _).
      assert (W' : wf (Arr (sh v) (map (fun y => y / Rabs (uc_unit c)) (el v)))) by (red; cbn; rewrite map_length; exact W).
      eexists. split; [exact (centred _ d a _ _ _ Ea W' Au)|]. pose proof (Am c Q v Ic E Ev) as Me. unfold meets in Me. cbn [sh el].
      destruct (uc_cmp c); cbn [op_string sign_of String.eqb Ascii.eqb Bool.eqb]; intros z Hz; cbn [el] in Hz; rewrite map_map in Hz; apply in_map_iff in Hz as (w & <- & Iw); specialize (Me w Iw).
      + change (1 * (w / Rabs (uc_unit c) - uc_val c / Rabs (uc_unit c)) <= 0). rewrite Rmult_1_l. now apply (scaled_le _ _ _ Pu).
      + now apply (scaled_ge _ _ _ Pu).
      + now apply (scaled_eq _ _ _ Pu).
    - pose proof (f_tot_value P (map ad_f lo) (map ob_weight os) vs qp d 0) as V. rewrite !map_length in V. specialize (V (F2_len _ _ _ Fo) F1).
      rewrite Ef, V, Rplus_0_l. do 2 f_equal. symmetry. exact Le.
  Qed.
  Lemma backward r : all_met -> total r -> exists d, solver_value f po pc qp X d r.
  Proof using HQ Haux Hw Hs Eo Ec. intros A T. destruct (backward_ext r A T) as (D & _ & H). exists D. apply H. auto. Qed.
End Problem.
