(** Every state of the optimiser can be evaluated, with values of fixed length. *)
From Coq Require Import String List Bool Arith ZArith Reals Lra Lia.
From Verif Require Import Base ModelArray ProofArray ModelMath SpecMath ProofMath ModelSurface SpecSurface ModelParams ModelField SpecField
  ModelQuantity SpecQuantity ProofQuantity ProofSlack ModelWrapper SpecWrapper ProofWrapper ProofWrapper2 ModelShipped ModelPackage SpecPackage
  SpecConvex ProofPackage ProofPackage2 ProofPackage3 ProofPackage4 ProofConvex SpecProblem ProofProblem ProofProblem2 ProofEnd.
Import ListNotations.
Open Scope R_scope.
Open Scope string_scope.
Open Scope list_scope.

Lemma merge_els {P} (gs : list (callable P)) outs mode sp qp d :
  map (fun g : callable P => g qp d) gs = map Ok outs ->
  exists out, merge_callables (map Some gs) false mode sp qp d = Ok out /\ el out = concat (map el outs).
Proof.
  intros E. unfold merge_callables.
  assert (Pr : flat_map (fun o : option (callable P) => match o with Some f => [f] | None => [] end) (map Some gs) = gs)
    by (clear; induction gs; cbn; congruence).
  rewrite Pr, (proj2 (collect_ok _ outs) E). cbn [bind].
  assert (EL : concat (map el (map (fun o => flatten (atleast_1d o)) outs)) = concat (map el outs)).
  { rewrite map_map. f_equal. apply map_ext. intros. apply el_flat. }
  destruct outs as [|o outs]; [eexists; split; reflexivity|]. cbn [map] in *. eexists. split; [reflexivity|exact EL].
Qed.

Section Fixed.
  Variables (other : list string) (q : params) (U : string -> R) (os : list objective) (cs : list user_constraint) (sp : smoothing_params).
  Variables (f : callable params) (po pc : parsed params).
  Hypothesis O : ordered q.
  Hypothesis Uo : forall o, In o os -> 0 <= ob_weight o /\ scaled_use U q (ob_name o) (ob_unit o).
  Hypothesis Uc : forall c, In c cs -> scaled_use U q (uc_name c) (uc_unit c).
  Hypothesis Eo : parse_objectives q_ndofs (package other) (Objectives (map ob_name os) (map (fun o => UScalar (ob_unit o)) os)) (map ob_weight os) (Some "slack") sp = Ok (f, po).
  Hypothesis Ec : parse_constraints q_ndofs (package other) (map uc_name cs) (map (fun c => op_string (uc_cmp c)) cs) (map (fun c => UScalar (uc_unit c)) cs) (map uc_val cs) (Some "slack") sp = Ok pc.
  Hypothesis Some_sound : exists x, sound q x.
  Notation aux := (dict_union (p_slack po) (p_slack pc)).
  Definition state (x : list R) (d : dofs) : Prop := sound q x /\ solver_state po pc q (vec x) d.

  Definition fixed (g : callable params) (L : nat) : Prop :=
    forall x d, state x d -> exists o, g q d = Ok o /\ wf o /\ length (el o) = L.

  Lemma scaled_used n un : used os cs n un -> scaled_use U q n un.
  Proof using Uo Uc. intros [(o & I & <- & <-)|(c & I & <- & <-)]; [apply (Uo o I)|apply (Uc c I)]. Qed.

  Lemma fixed_use n un use a : used os cs n un -> add_quantity q_ndofs (package other) n (UScalar un) use (Some "slack") sp = Ok a ->
    (forall k, lookup k (ad_slack a) <> None -> lookup k aux <> None) ->
    ad_h a = [] /\ (forall g, In g (ad_g a) -> exists L, forall x d, state x d -> exists o, g q d = Ok o /\ length (el o) = L) /\ exists L, fixed (ad_f a) L.
  Proof using O Uo Uc Eo Ec Some_sound.
    intros Un A Hk. destruct (scaled_used n un Un) as (Nz & [(I & EU)|(I & St)]).
    - destruct (slack_lengths other q Some_sound n I) as (Q & G & In_ & s & L & Ep & Eg & Ei & H). destruct Some_sound as (x0 & S0).
      destruct (slack_use other q x0 S0 O n I) as (Q0 & v0 & Ep0 & _ & T0). assert (Q0 = Q) by congruence. subst Q0.
      destruct (use_slack _ _ _ _ _ _ _ _ _ _ _ _ _ A Ep T0 Nz) as (G0 & I0 & M0 & s0 & _ & Ag & Ah & _ & _ & As & _ & Eg0 & _). assert (G0 = G) by congruence. subst G0.
      assert (One : forall x d, state x d -> exists m gv, ad_f a q d = Ok (scal m) /\ G q d (scal (Rabs un)) = Ok gv /\ length (el gv) = L).
      { intros x d (S & Sd). destruct (slack_use other q x S O n I) as (Q1 & v & Ep1 & Ev & T). assert (Q1 = Q) by congruence. subst Q1.
        destruct (use_slack _ _ _ _ _ _ _ _ _ _ _ _ _ A Ep T Nz) as (G1 & I1 & M & s1 & -> & _ & _ & _ & _ & As1 & Na & Eg1 & Ei1 & HI & HL & _).
        assert (G1 = G) by congruence. assert (I1 = In_) by congruence. subst G1 I1. destruct (H x S) as (HIx & HGx). pose proof (Rabs_pos_lt un Nz) as Pu.
        destruct (HIx (Rabs un) Pu) as (i & Eii & Si & _). destruct (HI (Rabs un) Pu) as (i' & Eii' & Si'). assert (i' = i) by congruence. subst i'.
        destruct (state_lookup params q_ndofs (package other) q (vec x) U slack_name (fun n => In n slack_quantities) os cs sp f po pc
          (uses_ok other q U os cs O Uo Uc x S) slack_name_inj Eo Ec d n un use a Q (scal M) Sd Un A Ep T I) with (I := In_) (i := i) (u := Rabs un) as (b & Lb & Sb & Wb); auto.
        { apply Hk. rewrite As1. cbn [lookup]. rewrite String.eqb_refl. discriminate. }
        { exists s1. exact HI. }
        destruct (HL d b (proj1 Sd) Lb ltac:(congruence) Wb) as (m & gv & Em & Egv & _). exists m, gv. split; [exact Em|]. split; [exact Egv|].
        apply (HGx (Rabs un) d b gv Pu (proj1 Sd) Lb ltac:(congruence) Wb Egv). }
      split; [exact Ah|]. split.
      + rewrite Ag. intros g [<-|[]]. exists L. intros x d Sd. destruct (One x d Sd) as (m & gv & _ & E1 & E2). eauto.
      + exists 1%nat. intros x d Sd. destruct (One x d Sd) as (m & gv & E1 & _). exists (scal m). split; [exact E1|]. split; reflexivity.
    - destruct (direct_shape other q Some_sound n I St) as (Q & s & Ep & Hs). destruct Some_sound as (x0 & S0).
      destruct (direct_use other q x0 S0 n I St) as (Q0 & v0 & Ep0 & _ & D0). assert (Q0 = Q) by congruence. subst Q0.
      destruct (use_direct _ _ _ _ _ _ _ _ _ _ _ _ A Ep D0 Nz) as (Ag & Ah & _). split; [exact Ah|]. split; [rewrite Ag; intros g []|].
      exists (size s). intros x d (S & Sd). destruct (direct_use other q x S n I St) as (Q1 & v & Ep1 & Ev & D). assert (Q1 = Q) by congruence. subst Q1.
      destruct (use_direct _ _ _ _ _ _ _ _ _ _ _ _ A Ep D Nz) as (_ & _ & _ & W & Hf). eexists. split; [apply Hf, Sd|].
      pose proof W as W'. red in W'. rewrite (Hs x v S Ev) in W'. split; [apply wf_map_arr; exact W|]. cbn [el]. now rewrite map_length.
  Qed.

  Definition steady (g : callable params) : Prop := exists L, forall x d, state x d -> exists o, g q d = Ok o /\ length (el o) = L.

  Lemma in_union_o lo a : p_slack po = fold_left (fun s a => dict_union s (ad_slack a)) lo [] -> In a lo ->
    forall k, lookup k (ad_slack a) <> None -> lookup k aux <> None.
  Proof using. intros Go Ia k Hk. rewrite lookup_union. destruct (lookup k (p_slack pc)); [discriminate|]. rewrite Go. now apply (fold_has params a). Qed.
  Lemma in_union_c lc a : p_slack pc = fold_left (fun s a => dict_union s (ad_slack a)) lc [] -> In a lc ->
    forall k, lookup k (ad_slack a) <> None -> lookup k aux <> None.
  Proof using.
    intros Gc Ia k Hk. rewrite lookup_union. destruct (lookup k (p_slack pc)) eqn:L; [discriminate|]. exfalso. revert L. rewrite Gc. now apply (fold_has params a).
  Qed.

  Lemma all_steady g : In g (ModelWrapper.p_g po ++ ModelWrapper.p_g pc) \/ In g (ModelWrapper.p_h po ++ ModelWrapper.p_h pc) -> steady g.
  Proof using O Uo Uc Eo Ec Some_sound.
    destruct (objective_parts params q_ndofs (package other) os sp f po Eo) as (lo & Fo & Ef & Gg & Gh & Go).
    assert (Gc := constraint_parts params q_ndofs (package other) q cs sp pc Ec). destruct Gc as (lc & Fc & Gc & _).
    assert (UO : forall a, In a lo -> (forall g, In g (ad_g a) -> steady g) /\ ad_h a = []).
    { intros a Ia. destruct (F2_in_r _ _ _ _ Fo Ia) as (o & Io & A).
      destruct (fixed_use (ob_name o) (ob_unit o) "f" a) as (H1 & H2 & _); auto.
      - left. exists o. split; [eapply in_combine_l; exact Io|auto].
      - exact (in_union_o lo a Go Ia). }
    set (rc := fun c => RC (uc_name c) (op_string (uc_cmp c)) (UScalar (uc_unit c)) (uc_val c)).
    assert (H1 : parse_constraints q_ndofs (package other) (map rc_name (map rc cs)) (map rc_type (map rc cs)) (map rc_unit (map rc cs)) (map rc_val (map rc cs)) (Some "slack") sp = Ok pc).
    { rewrite !map_map. exact Ec. }
    destruct (parse_constraints_val params q_ndofs (package other) (map rc cs) (Some "slack") sp pc H1) as (l' & F' & Cg & Ch).
    rewrite F2_map_l in F'. assert (l' = lc) as -> by (eapply F2_fun; [|exact F'|exact Fc]; cbn; intros ? ? ? A B; congruence).
    assert (UC : forall c a, In (c, a) (combine (map rc cs) lc) -> (forall g, In g (ad_g a) -> steady g) /\ ad_h a = [] /\ steady (cf params c a (Some "slack") sp)).
    { intros c a Ia.
      assert (CM' : exists c0, c = rc c0 /\ In (c0, a) (combine cs lc)).
      { revert Ia. clear. revert cs. induction lc as [|b l IH]; intros [|k cs]; cbn; try tauto. intros [E|E]; [injection E as <- <-; eauto|].
        destruct (IH _ E) as (c0 & -> & I). eauto. }
      destruct CM' as (c0 & -> & I0). pose proof (F2_combine _ _ _ _ _ Fc I0) as A.
      assert (Un : used os cs (uc_name c0) (uc_unit c0)) by (right; exists c0; split; [eapply in_combine_l; exact I0|auto]).
      destruct (fixed_use _ _ _ a Un A) as (K1 & K2 & L & K3).
      { apply (in_union_c lc); [exact Gc|eapply in_combine_r; exact I0]. }
      split; [exact K2|]. split; [exact K1|]. exists L. intros x d Sd. destruct (K3 x d Sd) as (w & Ew & Ww & Lw).
      assert (exists Q, package other (uc_name c0) = Some (AQuantity Q)) as (Q & EQ).
      { destruct (uses_ok other q U os cs O Uo Uc x (proj1 Sd) _ _ Un) as (_ & Q & _ & E & _). eauto. }
      destruct (add_slack params q_ndofs (package other) q _ _ _ _ _ _ A EQ) as (_ & Au & _).
      eexists. split; [exact (centred params q sp _ d a _ _ w Ew Ww Au)|]. cbn [el]. now rewrite map_length. }
    intros [I|I]; apply in_app_iff in I as [I|I].
    - rewrite Gg in I. apply in_concat in I as (l & Il & Ig). apply in_map_iff in Il as (a & <- & Ia). now apply (UO a Ia).
    - apply Cg in I as (c & a & Ia & [Ig|[_ ->]]); destruct (UC c a Ia) as (K1 & K2 & K3); [now apply K1|exact K3].
    - rewrite Gh in I. apply in_concat in I as (l & Il & Ig). apply in_map_iff in Il as (a & <- & Ia). destruct (UO a Ia) as (_ & E). rewrite E in Ig. destruct Ig.
    - apply Ch in I as (c & a & Ia & [Ig|[_ ->]]); destruct (UC c a Ia) as (K1 & K2 & K3); [rewrite K2 in Ig; destruct Ig|exact K3].
  Qed.

  Lemma merged_steady gs mode sp' : (forall g, In g gs -> steady g) ->
    exists L, forall x d, state x d -> exists out, merge_callables (map Some gs) false mode sp' q d = Ok out /\ length (el out) = L.
  Proof using.
    intros H.
    assert (K : exists L, forall x d, state x d -> exists outs, map (fun g : callable params => g q d) gs = map Ok outs /\ length (concat (map el outs)) = L).
    { induction gs as [|g gs IH]; [exists 0%nat; intros x d _; exists []; split; reflexivity|].
      destruct IH as (L & IH); [intros; apply H; now right|]. destruct (H g (or_introl eq_refl)) as (L1 & H1). exists (L1 + L)%nat. intros x d Sd.
      destruct (H1 x d Sd) as (o & Eo1 & Lo). destruct (IH x d Sd) as (outs & Es & Ls). exists (o :: outs). cbn [map concat]. split; [congruence|]. rewrite app_length. lia. }
    destruct K as (L & K). exists L. intros x d Sd. destruct (K x d Sd) as (outs & E & Lo). destruct (merge_els gs outs mode sp' q d E) as (out & E1 & E2).
    exists out. split; [exact E1|]. now rewrite E2.
  Qed.

  Lemma objective_value x d : state x d -> exists y, f q d = Ok (scal y).
  Proof using O Uo Uc Eo Ec Some_sound.
    intros Sd. destruct (objective_parts params q_ndofs (package other) os sp f po Eo) as (lo & Fo & Ef & Gg & Gh & Go).
    assert (K : exists vs, Forall2 (fun (g : callable params) v => g q d = Ok (scal v)) (map ad_f lo) vs).
    { destruct (F2_exists (fun a v => ad_f a q d = Ok (scal v)) lo) as (vs & F).
      - intros a Ia. destruct (F2_in_r _ _ _ _ Fo Ia) as (o & Io & A).
        assert (Io' : In o os) by (eapply in_combine_l; exact Io). assert (Un : used os cs (ob_name o) (ob_unit o)) by (left; exists o; auto).
        destruct (fixed_use _ _ _ a Un A (in_union_o lo a Go Ia)) as (_ & _ & L & HL).
        destruct (scaled_used _ _ Un) as (Nz & [(I & EU)|(I & St)]).
        + destruct (slack_use other q x (proj1 Sd) O _ I) as (Q & v & Ep & Ev & T). destruct (HL x d Sd) as (w & Ew & _).
          (* the slack objective is a number *)
          destruct (slack_lengths other q Some_sound _ I) as (Q' & G & In_ & s & L' & Ep' & _ & Ei' & Hx). assert (Q' = Q) by congruence. subst Q'.
          destruct (use_slack _ _ _ _ _ _ _ _ _ _ _ _ _ A Ep T Nz) as (G1 & I1 & M & s1 & -> & _ & _ & _ & _ & As1 & Na & Eg1 & Ei1 & HI & HL1 & _). pose proof (Rabs_pos_lt _ Nz) as Pu.
          destruct (HI (Rabs (ob_unit o)) Pu) as (i & Eii & Si).
          destruct (state_lookup params q_ndofs (package other) q (vec x) U slack_name (fun n => In n slack_quantities) os cs sp f po pc
            (uses_ok other q U os cs O Uo Uc x (proj1 Sd)) slack_name_inj Eo Ec d (ob_name o) (ob_unit o) "f" a Q (scal M) (proj2 Sd) Un A Ep T I) with (I := I1) (i := i) (u := Rabs (ob_unit o)) as (b & Lb & Sb & Wb); auto.
          { apply (in_union_o lo a Go Ia). rewrite As1. cbn [lookup]. rewrite String.eqb_refl. discriminate. }
          { exists s1. exact HI. }
          destruct (HL1 d b (proj1 (proj2 Sd)) Lb ltac:(congruence) Wb) as (m & gv & Em & _). exists m. exact Em.
        + destruct (direct_use other q x (proj1 Sd) _ I St) as (Q & v & Ep & Ev & D). destruct (use_direct _ _ _ _ _ _ _ _ _ _ _ _ A Ep D Nz) as (_ & _ & _ & W & Hf).
          destruct (objective_scalar other q U os cs sp f po O Uo Uc Eo x (proj1 Sd) o Q v Io' Ep Ev) as (m & ->).
          exists (m / Rabs (ob_unit o)). exact (Hf d (proj1 (proj2 Sd))).
      - exists vs. clear - F. induction F; cbn; constructor; auto. }
    destruct K as (vs & F). exists (0 + Rsum (map (fun p => fst p * snd p) (combine (map ob_weight os) vs))).
    rewrite Ef. apply (f_tot_value params (map ad_f lo) (map ob_weight os) vs q d 0); [rewrite !map_length; exact (F2_len _ _ _ Fo)|exact F].
  Qed.
End Fixed.
