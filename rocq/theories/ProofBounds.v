(** The rows of the problem of a call that belong to each constraint. *)
From Coq Require Import String List Bool Arith ZArith Reals Lra Lia Permutation.
From Verif Require Import Base ModelArray ProofArray ModelMath SpecMath ProofMath ModelSurface SpecSurface ModelParams ModelField SpecField
  ModelQuantity SpecQuantity ProofQuantity ProofSlack ModelWrapper SpecWrapper ProofWrapper ProofWrapper2 ModelShipped ModelPackage SpecPackage
  SpecConvex ProofPackage ProofPackage2 ProofPackage3 ProofPackage4 ProofConvex ModelSolver SpecSolver ProofSolver ModelQuadcoil SpecQuadcoil ProofQuadcoil ProofQuadcoil2
  SpecProblem ProofProblem ProofProblem2 ProofEnd ProofEnd2 SpecEnd ProofEnd3 ProofEnd4 SpecCert ProofCert PropConvex SpecBounds.
Import ListNotations.
Open Scope R_scope.
Open Scope string_scope.
Open Scope list_scope.

Lemma dot_app (a : list R) : forall b c d : list R, length a = length b -> dotR (a ++ c) (b ++ d) = dotR a b + dotR c d.
Proof. unfold dotR, sumR. induction a as [|x a IH]; intros [|y b] c d L; try discriminate; cbn; [lra|]. rewrite IH by (now injection L). lra. Qed.
Lemma dot_upper (m : list R) : forall g r, List.Forall (fun a => 0 <= a) m -> (forall v, In v g -> v <= r) -> length m = length g -> dotR m g <= Rsum m * r.
Proof.
  unfold dotR, sumR, Rsum. induction m as [|a m IH]; intros [|v g] r Hm Hg L; try discriminate; cbn; try lra. inversion Hm; subst.
  pose proof (IH g r ltac:(assumption) (fun v I => Hg v (or_intror I)) ltac:(now injection L)). pose proof (Hg v (or_introl eq_refl)).
  assert (a * v <= a * r) by (apply Rmult_le_compat_l; assumption). lra.
Qed.
Lemma dot_exact (m : list R) : forall g r, (forall v, In v g -> v = r) -> length m = length g -> dotR m g = Rsum m * r.
Proof.
  unfold dotR, sumR, Rsum. induction m as [|a m IH]; intros [|v g] r Hg L; try discriminate; cbn; try lra.
  rewrite (IH g r (fun v I => Hg v (or_intror I))) by (now injection L). rewrite (Hg v (or_introl eq_refl)). lra.
Qed.
Lemma split_at {A} (l : list A) n m : length l = (n + m)%nat -> exists a b, l = a ++ b /\ length a = n /\ length b = m.
Proof. intros H. exists (firstn n l), (skipn n l). rewrite firstn_skipn, firstn_length, skipn_length. repeat split; lia. Qed.

Lemma worth_cons p ps c cs b bs : worth (p :: ps) (c :: cs) (b :: bs) = p * relief c b + worth ps cs bs.
Proof. reflexivity. Qed.

Section Loop.
  Variables (P : Type) (ndofs : P -> nat) (ns : namespace P) (sp : smoothing_params).
  Definition adds (c : user_constraint) (a : added P) : Prop :=
    add_quantity ndofs ns (uc_name c) (UScalar (uc_unit c)) (op_string (uc_cmp c)) (Some "slack") sp = Ok a.
  Definition own_row (c : user_constraint) (a : added P) : callable P :=
    cons_func_centered (ad_f a) (uc_val c) (ad_unit a) (sign_of (op_string (uc_cmp c))) (Some "slack") sp.
  Definition g_part (c : user_constraint) (a : added P) : list (callable P) := ad_g a ++ match uc_cmp c with EQ => [] | _ => [own_row c a] end.
  Definition h_part (c : user_constraint) (a : added P) : list (callable P) := ad_h a ++ match uc_cmp c with EQ => [own_row c a] | _ => [] end.
  Definition parsed_as (cs : list user_constraint) (l : list (added P)) : parsed P :=
    {| ModelWrapper.p_g := concat (map2 g_part cs l); ModelWrapper.p_h := concat (map2 h_part cs l); p_slack := fold_left (fun s a => dict_union s (ad_slack a)) l [] |}.

  Lemma loop_value cs l : Forall2 adds cs l -> forall acc,
    parse_cons_loop ndofs ns (map uc_name cs) (map (fun c => op_string (uc_cmp c)) cs) (map (fun c => UScalar (uc_unit c)) cs) (map uc_val cs) (Some "slack") sp acc =
    Ok {| ModelWrapper.p_g := ModelWrapper.p_g acc ++ concat (map2 g_part cs l); ModelWrapper.p_h := ModelWrapper.p_h acc ++ concat (map2 h_part cs l);
          p_slack := fold_left (fun s a => dict_union s (ad_slack a)) l (p_slack acc) |}.
  Proof using.
    induction 1 as [|c a cs l A F IH]; intros acc.
    - cbn. rewrite !app_nil_r. now destruct acc.
    - cbn [map parse_cons_loop]. unfold adds in A. rewrite A. cbn [bind]. cbv zeta.
      assert (T : match uc_cmp c with EQ => String.eqb (op_string (uc_cmp c)) "==" = true
                  | _ => String.eqb (op_string (uc_cmp c)) "==" = false /\ mem (op_string (uc_cmp c)) ["<="; ">="] = true end) by (destruct (uc_cmp c); repeat split; reflexivity).
      cbn [map2 concat fold_left]. unfold g_part at 1, h_part at 1. fold (own_row c a).
      destruct (uc_cmp c); [destruct T as (-> & ->)|destruct T as (-> & ->)|rewrite T]; rewrite IH; cbn [ModelWrapper.p_g ModelWrapper.p_h p_slack]; rewrite <- ?app_assoc; reflexivity.
  Qed.
  Lemma constraints_value cs pc :
    parse_constraints ndofs ns (map uc_name cs) (map (fun c => op_string (uc_cmp c)) cs) (map (fun c => UScalar (uc_unit c)) cs) (map uc_val cs) (Some "slack") sp = Ok pc ->
    exists l, Forall2 adds cs l /\ pc = parsed_as cs l.
  Proof using.
    unfold parse_constraints. rewrite !map_length, Nat.eqb_refl. cbn [andb]. intros H. destruct (con_slack _ _ _ _ _ _ _ H) as (l & F & _).
    exists l. split; [exact F|]. rewrite (loop_value cs l F) in H. injection H as <-. reflexivity.
  Qed.
  Lemma value_constraints cs l : Forall2 adds cs l ->
    parse_constraints ndofs ns (map uc_name cs) (map (fun c => op_string (uc_cmp c)) cs) (map (fun c => UScalar (uc_unit c)) cs) (map uc_val cs) (Some "slack") sp = Ok (parsed_as cs l).
  Proof using. intros F. unfold parse_constraints. rewrite !map_length, Nat.eqb_refl. cbn [andb]. now rewrite (loop_value cs l F). Qed.
  Lemma adds_rebound cs l : Forall2 adds cs l -> forall bs, length bs = length cs -> Forall2 adds (rebound cs bs) l.
  Proof using. unfold rebound. induction 1 as [|c a cs l A F IH]; intros [|b bs] L; try discriminate; cbn; constructor; [exact A|]. apply IH. now injection L. Qed.
End Loop.

(** The values of a list of callables, one after the other. *)
Definition rows {P} (qp : P) (d : dofs) (gs : list (callable P)) : list R := flat_map (fun g : callable P => list_of (g qp d)) gs.
Lemma rows_app {P} (qp : P) d a b : rows qp d (a ++ b) = rows qp d a ++ rows qp d b.
Proof. apply flat_map_app. Qed.
Lemma rows_merged {P} (gs : list (callable P)) mode sp qp d : (forall g, In g gs -> exists o, g qp d = Ok o) ->
  list_of (merge_callables (map Some gs) false mode sp qp d) = rows qp d gs.
Proof.
  intros H. assert (X : exists outs, map (fun g : callable P => g qp d) gs = map Ok outs /\ concat (map el outs) = rows qp d gs).
  { clear mode sp. induction gs as [|g gs IH]; [exists []; split; reflexivity|]. destruct IH as (outs & E1 & E2); [intros; apply H; now right|].
    destruct (H g (or_introl eq_refl)) as (o & Eo). exists (o :: outs). cbn [map concat]. unfold rows in *. cbn [flat_map]. rewrite Eo, E1, E2. split; reflexivity. }
  destruct X as (outs & E1 & E2). destruct (merge_els gs outs mode sp qp d E1) as (out & -> & El). cbn [list_of]. congruence.
Qed.
Lemma rows_below {P} (qp : P) d gs : (forall g, In g gs -> exists o, g qp d = Ok o /\ all_le0 o) -> List.Forall (fun v => v <= 0) (rows qp d gs).
Proof.
  intros H. apply List.Forall_forall. intros v I. unfold rows in I. apply in_flat_map in I as (g & Ig & Iv). destruct (H g Ig) as (o & Eo & Ho). rewrite Eo in Iv. now apply Ho.
Qed.
Lemma dot_under (m : list R) : forall g, List.Forall (fun a => 0 <= a) m -> List.Forall (fun v => v <= 0) g -> dotR m g <= 0.
Proof.
  unfold dotR, sumR. induction m as [|a m IH]; intros [|v g] Hm Hg; cbn; try lra. inversion Hm; inversion Hg; subst.
  pose proof (IH g ltac:(assumption) ltac:(assumption)). nra.
Qed.

Section Rows.
  Variables (other : list string) (q : params) (U : string -> R) (os : list objective) (cs : list user_constraint) (sp : smoothing_params).
  Variables (f : callable params) (po pc : parsed params).
  Hypothesis O : ordered q.
  Hypothesis Uo : forall o, In o os -> 0 <= ob_weight o /\ scaled_use U q (ob_name o) (ob_unit o).
  Hypothesis Uc : forall c, In c cs -> scaled_use U q (uc_name c) (uc_unit c).
  Hypothesis Eo : parse_objectives q_ndofs (package other) (Objectives (map ob_name os) (map (fun o => UScalar (ob_unit o)) os)) (map ob_weight os) (Some "slack") sp = Ok (f, po).
  Hypothesis Ec : parse_constraints q_ndofs (package other) (map uc_name cs) (map (fun c => op_string (uc_cmp c)) cs) (map (fun c => UScalar (uc_unit c)) cs) (map uc_val cs) (Some "slack") sp = Ok pc.
  Hypothesis Some_sound : exists x, sound q x.
  Notation state := (state q po pc).

  (** What is needed of one constraint. *)
  Definition regular (c : user_constraint) (a : added params) : Prop :=
    uc_unit c <> 0 /\ ad_unit a = (fun _ => Ok (scal (Rabs (uc_unit c)))) /\ ad_h a = [] /\ (In (uc_name c) direct_quantities -> ad_g a = []) /\ (uc_cmp c = EQ -> ad_g a = []) /\
    (exists L, forall x d, state x d -> (forall g, In g (ad_g a) -> exists o, g q d = Ok o) /\ length (rows q d (ad_g a)) = L) /\
    forall x d, state x d -> exists w v, ad_f a q d = Ok w /\ wf w /\ reads other (uc_name c) q x v /\ length (el w) = length (el v) /\
      (exists L, forall x d w, state x d -> ad_f a q d = Ok w -> length (el w) = L).

  Lemma steady_rows gs : (forall g, In g gs -> steady q po pc g) -> exists L, forall x d, state x d -> (forall g, In g gs -> exists o, g q d = Ok o) /\ length (rows q d gs) = L.
  Proof using.
    induction gs as [|g gs IH]; intros H; [exists 0%nat; intros; split; [intros ? []|reflexivity]|].
    destruct IH as (L & IH); [intros; apply H; now right|]. destruct (H g (or_introl eq_refl)) as (L1 & H1). exists (L1 + L)%nat. intros x d Sd.
    destruct (IH x d Sd) as (Ev & Ln). destruct (H1 x d Sd) as (o & Eo1 & Lo). split.
    - intros g' [<-|I]; [eauto|now apply Ev].
    - unfold rows in *. cbn [flat_map]. rewrite Eo1. cbn [list_of]. rewrite app_length. lia.
  Qed.

  Lemma regular_all l : Forall2 (adds params q_ndofs (package other) sp) cs l -> p_slack pc = fold_left (fun s a => dict_union s (ad_slack a)) l [] ->
    Forall2 regular cs l.
  Proof using O Uo Uc Eo Ec Some_sound.
    intros F Sl.
    assert (H : forall c a, In (c, a) (combine cs l) -> regular c a).
    { intros c a Ia. pose proof (F2_combine _ _ _ _ _ F Ia) as A. unfold adds in A. pose proof (in_combine_l _ _ _ _ Ia) as Ic.
      assert (Un : used os cs (uc_name c) (uc_unit c)) by (right; exists c; auto). pose proof (Uc c Ic) as (Nz & Kind).
      destruct (fixed_use other q U os cs sp f po pc O Uo Uc Eo Ec Some_sound _ _ _ a Un A) as (K1 & K2 & L & K3).
      { apply (in_union_c po pc l); [exact Sl|eapply in_combine_r; exact Ia]. }
      destruct Some_sound as (x0 & S0). destruct (uses_ok other q U os cs O Uo Uc x0 S0 _ _ Un) as (_ & Q & v0 & EQ & Ev0 & D0).
      destruct (add_slack params q_ndofs (package other) q _ _ _ _ _ _ A EQ) as (_ & Au & _).
      split; [exact Nz|]. split; [exact Au|]. split; [exact K1|]. split; [|split; [|split]].
      - intros I. destruct (direct_use other q x0 S0 (uc_name c) I) as (Q1 & v1 & E1 & _ & D1).
        { destruct Kind as [(Is & _)|(_ & St)]; [|exact St]. intros E. exfalso. rewrite E in Is. cbn in Is. intuition discriminate. }
        exact (proj1 (use_direct _ _ _ _ _ _ _ _ _ _ _ _ A E1 D1 Nz)).
      - intros E. destruct D0 as [D0|(T & _)]; [exact (proj1 (use_direct _ _ _ _ _ _ _ _ _ _ _ _ A EQ D0 Nz))|].
        destruct (use_slack _ _ _ _ _ _ _ _ _ _ _ _ _ A EQ T Nz) as (_ & _ & _ & _ & _ & _ & _ & _ & Ne & _). exfalso. apply Ne. rewrite E. reflexivity.
      - apply steady_rows. intros g Ig. exact (K2 g Ig).
      - intros x d Sd. destruct (K3 x d Sd) as (w & Ew & Ww & Lw). destruct (uses_ok other q U os cs O Uo Uc x (proj1 Sd) _ _ Un) as (_ & Q1 & v & E1 & Ev & D).
        assert (Q1 = Q) by congruence. subst Q1. exists w, v. split; [exact Ew|]. split; [exact Ww|]. split; [|split].
        + exists Q. split; [unfold get_quantity; now rewrite EQ|]. exact Ev.
        + destruct D as [D|D].
          * destruct (use_direct _ _ _ _ _ _ _ _ _ _ _ _ A EQ D Nz) as (_ & _ & _ & _ & Hf). rewrite (Hf d (proj1 (proj2 Sd))) in Ew. injection Ew as <-. cbn [el]. apply map_length.
          * destruct D as (T & In_ & EU). destruct (slack_lengths other q (ex_intro _ x0 S0) (uc_name c) In_) as (Q1 & G & I0 & s & L1 & Ep & Eg & Ei & H).
            assert (Q1 = Q) by congruence. subst Q1. destruct (use_slack _ _ _ _ _ _ _ _ _ _ _ _ _ A EQ T Nz) as (G1 & I1 & M & s1 & -> & _ & _ & _ & _ & As1 & Na & Eg1 & Ei1 & HI & HL & _).
            assert (I1 = I0) by congruence. subst I1. destruct (H x (proj1 Sd)) as (HIx & _). pose proof (Rabs_pos_lt _ Nz) as Pu.
            destruct (HIx _ Pu) as (i & Eii & Si & _). destruct (HI _ Pu) as (i' & Eii' & Si'). assert (i' = i) by congruence. subst i'.
            destruct (state_lookup params q_ndofs (package other) q (vec x) U slack_name (fun n => In n slack_quantities) os cs sp f po pc
              (uses_ok other q U os cs O Uo Uc x (proj1 Sd)) slack_name_inj Eo Ec d _ _ _ a Q (scal M) (proj2 Sd) Un A EQ T In_) with (I := I0) (i := i) (u := Rabs (uc_unit c)) as (b & Lb & Sb & Wb); auto.
            { apply (in_union_c po pc l a Sl (in_combine_r _ _ _ _ Ia)). rewrite As1. cbn [lookup]. rewrite String.eqb_refl. discriminate. }
            { exists s1. exact HI. }
            destruct (HL d b (proj1 (proj2 Sd)) Lb ltac:(congruence) Wb) as (m & gv & Em & _). rewrite Em in Ew. injection Ew as <-. reflexivity.
        + exists L. intros x1 d1 w1 S1 E2. destruct (K3 x1 d1 S1) as (w2 & E3 & _ & L3). congruence. }
    clear - H F. revert H. induction F as [|c a cs l A F IH]; intros H; constructor; [apply H; now left|]. apply IH. intros; apply H. now right.
  Qed.

  Notation gp := (g_part params sp).
  Notation hp := (h_part params sp).
  Lemma sum_nonneg m : List.Forall (fun a => 0 <= a) m -> 0 <= Rsum m.
  Proof using. unfold Rsum. induction 1 as [|a m Ha F IH]; cbn; lra. Qed.
  (** The value of the constraint's own row in terms of the bound [b]. *)
  Lemma own_value c a x d : regular c a -> state x d -> exists o w v, own_row params sp c a q d = Ok o /\ ad_f a q d = Ok w /\ reads other (uc_name c) q x v /\ el o = map (fun y => sign_of (op_string (uc_cmp c)) * (y - uc_val c / Rabs (uc_unit c))) (el w) /\ length (el w) = length (el v).
  Proof using.
    intros (_ & Au & _ & _ & _ & _ & H) Sd. destruct (H x d Sd) as (w & v & Ew & Ww & Rv & Lv & _).
    eexists _, w, v. split; [exact (centred params q sp _ d a _ _ w Ew Ww Au)|]. auto.
  Qed.
  Lemma steady_own c a x d x' d' w w' : regular c a -> state x d -> state x' d' -> ad_f a q d = Ok w -> ad_f a q d' = Ok w' -> length (el w) = length (el w').
  Proof using.
    intros (_ & _ & _ & _ & _ & _ & H) Sd Sd' Ew Ew'. destruct (H x d Sd) as (_ & _ & _ & _ & _ & _ & L & HL). rewrite (HL x d w Sd Ew), (HL x' d' w' Sd' Ew'). reflexivity.
  Qed.
  Lemma steady_slack c a x d x' d' : regular c a -> state x d -> state x' d' -> length (rows q d (ad_g a)) = length (rows q d' (ad_g a)).
  Proof using. intros (_ & _ & _ & _ & _ & (L & H) & _) Sd Sd'. rewrite (proj2 (H x d Sd)), (proj2 (H x' d' Sd')). reflexivity. Qed.

  Lemma split_shares ks l : Forall2 regular ks l -> forall x d, state x d -> forall mu lam,
    length mu = length (rows q d (concat (map2 gp ks l))) -> length lam = length (rows q d (concat (map2 hp ks l))) -> List.Forall (fun m => 0 <= m) mu ->
    exists ps, shares other q x ks mu lam ps /\ Forall2 (fun c p => uc_cmp c <> EQ -> 0 <= p) ks ps /\
      forall bs y dy, length bs = length ks -> state y dy ->
        (forall g, In g (concat (map2 gp (rebound ks bs) l)) -> exists o, g q dy = Ok o /\ all_le0 o) ->
        (forall h, In h (concat (map2 hp (rebound ks bs) l)) -> exists o, h q dy = Ok o /\ all_eq0 o) ->
        dotR mu (rows q dy (concat (map2 gp ks l))) + dotR lam (rows q dy (concat (map2 hp ks l))) <= worth ps ks bs.
  Proof using.
    induction 1 as [|c a ks l Rg F IH]; intros x d Sd mu lam Lm Ll Pm.
    - cbn in Lm, Ll. destruct mu; [|discriminate]. destruct lam; [|discriminate]. exists []. split; [constructor|]. split; [constructor|].
      intros [|b bs] y dy L _ _ _; [|discriminate]. cbn. unfold worth, Rsum. cbn. lra.
    - pose proof Rg as (Nz & Au & Ah & Ad & Aq & (Ls & Hs) & _). pose proof (Rabs_pos_lt _ Nz) as Pu.
      destruct (own_value c a x d Rg Sd) as (o & w & v & Eown & Ew & Rv & Eel & Lv).
      cbn [map2 concat] in Lm, Ll. rewrite rows_app, app_length in Lm, Ll. unfold g_part at 1 in Lm. unfold h_part at 1 in Ll. rewrite Ah in Ll. cbn [app] in Ll.
      rewrite rows_app, app_length in Lm.
      assert (Lo : length (list_of (own_row params sp c a q d)) = length (el v)) by (rewrite Eown; cbn [list_of]; rewrite Eel, map_length; exact Lv).
      assert (L1 : forall d0, rows q d0 [own_row params sp c a] = list_of (own_row params sp c a q d0)) by (intros; unfold rows; cbn; apply app_nil_r).
      assert (Own : forall y dy b bs, state y dy -> length bs = length ks ->
        (forall g, In g (concat (map2 gp (rebound (c :: ks) (b :: bs)) (a :: l))) -> exists o, g q dy = Ok o /\ all_le0 o) ->
        (forall h, In h (concat (map2 hp (rebound (c :: ks) (b :: bs)) (a :: l))) -> exists o, h q dy = Ok o /\ all_eq0 o) ->
        length (list_of (own_row params sp c a q dy)) = length (el v) /\
        (forall r, In r (list_of (own_row params sp c a q dy)) -> match uc_cmp c with EQ => r = relief c b | _ => r <= relief c b end) /\
        (forall g, In g (ad_g a) -> exists o, g q dy = Ok o /\ all_le0 o) /\
        (forall g, In g (concat (map2 gp (rebound ks bs) l)) -> exists o, g q dy = Ok o /\ all_le0 o) /\
        (forall h, In h (concat (map2 hp (rebound ks bs) l)) -> exists o, h q dy = Ok o /\ all_eq0 o)).
      { intros y dy b bs Sy Lb Hg Hh. destruct (own_value c a y dy Rg Sy) as (o1 & w1 & v1 & Eo1 & Ew1 & _ & Eel1 & _).
        set (cb := UC (uc_name c) (uc_cmp c) (uc_unit c) b). assert (Rb : regular cb a) by exact Rg.
        destruct (own_value cb a y dy Rb Sy) as (o2 & w2 & v2 & Eo2 & Ew2 & _ & Eel2 & _). assert (w2 = w1) by congruence. subst w2.
        unfold rebound in Hg, Hh. cbn [map2 concat] in Hg, Hh. fold (rebound ks bs) in Hg, Hh. fold cb in Hg, Hh.
        split; [|split; [|split; [|split]]].
        - rewrite Eo1. cbn [list_of]. rewrite Eel1, map_length. rewrite <- Lv. symmetry. exact (steady_own c a x d y dy w w1 Rg Sd Sy Ew Ew1).
        - rewrite Eo1. cbn [list_of]. rewrite Eel1. intros r I. apply in_map_iff in I as (t & <- & It).
          assert (Ic : In (sign_of (op_string (uc_cmp cb)) * (t - uc_val cb / Rabs (uc_unit cb))) (el o2)) by (rewrite Eel2; apply in_map_iff; exists t; auto).
          assert (K : match uc_cmp c with EQ => all_eq0 o2 | _ => all_le0 o2 end).
          { unfold g_part at 1 in Hg. unfold h_part at 1 in Hh. cbn [uc_cmp cb] in Hg, Hh. destruct (uc_cmp c).
            - destruct (Hg (own_row params sp cb a)) as (o3 & E3 & H3); [apply in_app_iff; left; apply in_app_iff; right; now left|]. assert (o3 = o2) by congruence. now subst o3.
            - destruct (Hg (own_row params sp cb a)) as (o3 & E3 & H3); [apply in_app_iff; left; apply in_app_iff; right; now left|]. assert (o3 = o2) by congruence. now subst o3.
            - destruct (Hh (own_row params sp cb a)) as (o3 & E3 & H3); [apply in_app_iff; left; apply in_app_iff; right; now left|]. assert (o3 = o2) by congruence. now subst o3. }
          unfold relief. cbn [uc_cmp uc_val uc_unit cb] in Ic. destruct (uc_cmp c); specialize (K _ Ic); revert K; unfold sign_of, op_string.
          + change (String.eqb "<=" ">=") with false. cbv iota. unfold Rdiv. intros K. lra.
          + change (String.eqb ">=" ">=") with true. cbv iota. unfold Rdiv. intros K. lra.
          + change (String.eqb "==" ">=") with false. cbv iota. unfold Rdiv. intros K. lra.
        - intros g I. apply Hg. apply in_app_iff. left. unfold g_part. apply in_app_iff. now left.
        - intros g I. apply Hg. apply in_app_iff. now right.
        - intros h I. apply Hh. apply in_app_iff. now right. }
      destruct (uc_cmp c) eqn:Ecmp.
      3: { rewrite (Aq eq_refl) in Lm. change (rows q d []) with (@nil R) in Lm. cbn [length Nat.add] in Lm. rewrite L1, Lo in Ll.
        destruct (split_at lam _ _ Ll) as (own & lam' & -> & Lown & Llam').
        destruct (IH x d Sd mu lam' Lm Llam' Pm) as (ps & Sh & Pp & Wp). exists (Rsum own :: ps). split; [|split].
        - apply (value_share other q x c ks own mu lam' ps v Ecmp Rv Lown Sh).
        - constructor; [intros E; now contradiction E|exact Pp].
        - intros [|b bs] y dy Lb Sy Hg Hh; [discriminate|]. injection Lb as Lb. destruct (Own y dy b bs Sy Lb Hg Hh) as (Ly & Hy & _ & Hg' & Hh').
          cbn [map2 concat]. rewrite !rows_app. unfold g_part at 1, h_part at 1. rewrite Ecmp, Ah, (Aq eq_refl). cbn [app]. change (rows q dy []) with (@nil R). cbn [app].
          rewrite L1, (dot_app own _ lam' _) by congruence. rewrite (dot_exact own _ (relief c b) Hy) by congruence.
          rewrite worth_cons. specialize (Wp bs y dy Lb Sy Hg' Hh'). lra. }
      all: change (rows q d []) with (@nil R) in Ll; cbn [length Nat.add] in Ll; rewrite L1, Lo in Lm;
        destruct (split_at mu _ _ Lm) as (mc & mu' & -> & Lmc & Lmu'); destruct (split_at mc _ _ Lmc) as (s & own & -> & Lsl & Lown);
        apply List.Forall_app in Pm as (Pm & Pmu'); apply List.Forall_app in Pm as (Psl & Pown);
        destruct (IH x d Sd mu' lam Lmu' Ll Pmu') as (ps & Sh & Pp & Wp); exists (Rsum own :: ps); (split; [|split]);
        [rewrite <- app_assoc; apply (bound_share other q x c ks s own mu' lam ps v); [congruence| |exact Rv|exact Lown|exact Sh];
           intros I; rewrite (Ad I) in Lsl; destruct s; [reflexivity|discriminate]
        |constructor; [intros _; now apply sum_nonneg|exact Pp]
        |intros [|b bs] y dy Lb Sy Hg Hh; [discriminate|]; injection Lb as Lb; destruct (Own y dy b bs Sy Lb Hg Hh) as (Ly & Hy & Hs' & Hg' & Hh');
           cbn [map2 concat]; rewrite !rows_app; unfold g_part at 1, h_part at 1; rewrite Ecmp, Ah; cbn [app]; rewrite rows_app, L1;
           change (rows q dy []) with (@nil R); cbn [app];
           rewrite (dot_app (s ++ own) _ mu' _) by (rewrite !app_length, Lsl, Lown, Ly, (steady_slack c a x d y dy Rg Sd Sy); reflexivity);
           rewrite (dot_app s _ own _) by (rewrite Lsl; apply (steady_slack c a x d y dy Rg Sd Sy));
           pose proof (dot_under s _ Psl (rows_below q dy (ad_g a) Hs')); pose proof (dot_upper own _ (relief c b) Pown Hy ltac:(congruence));
           rewrite worth_cons; specialize (Wp bs y dy Lb Sy Hg' Hh'); lra].
  Qed.
End Rows.

Section Call.
  Variables (other : list string) (E : library) (a : args (x_solver E)) (p : prepared) (U : string -> R) (os : list objective) (cs : list user_constraint).
  Notation q := (fn_qp (pr_fn p)).
  Notation P := (solver_problem E a p).
  Hypothesis Hp : prepare (package other) a = Ok p.
  Hypothesis As : asks a os cs.
  Hypothesis Hs : qc_smoothing a = Some "slack".
  Hypothesis Hm : qc_merge a = false.
  Hypothesis O : ordered q.
  Hypothesis Sx : exists x, sound q x.
  Hypothesis Uo : forall o, In o os -> 0 <= ob_weight o /\ scaled_use U q (ob_name o) (ob_unit o).
  Hypothesis Uc : forall c, In c cs -> scaled_use U q (uc_name c) (uc_unit c).
  Hypothesis Hu : pr_unit p <> 0.
  Hypothesis Hphi : forall x, qc_phi_init a = Some x -> length x = q_ndofs q.

  Lemma price_facts : forall zx (mu lam : list R), length zx = length (pr_x0 p) -> length mu = length (p_g _ P zx : list R) -> length lam = length (p_h _ P zx : list R) ->
    List.Forall (fun m => 0 <= m) mu ->
    exists dx x mo mc ps, stands_for p zx dx x /\ mu = mo ++ mc /\ ((forall t, In t os -> In (ob_name t) direct_quantities) -> mo = []) /\
      shares other q x cs mc lam ps /\ Forall2 (fun c r => uc_cmp c <> EQ -> 0 <= r) cs ps /\
      forall bs y r, length bs = length cs -> length y = q_ndofs q ->
        SpecConvex.feasible other q (asked_bounds (rebound cs bs)) y -> weighted other q (asked_terms os) y r ->
        exists z dz, length z = length (pr_x0 p) /\ stands_for p z dz y /\ p_f _ P z = r /\
          dotR mu (p_g _ P z) + dotR lam (p_h _ P z) <= worth ps cs bs.
  Proof using Hp As Hs Hm O Sx Uo Uc Hu Hphi.
    destruct (handed_problem (package other) a p os cs Hp As Hs Hm) as (f & po & pc & Eo & Ec & Ff & Fg & Fh & Ng & Nh & Fa).
    destruct (prepare_fields (package other) a p Hp) as (_ & _ & _ & _ & _ & _ & phi & x0 & Ephi & _ & Ex & Ex0 & Est).
    rewrite Fa in Ex. pose proof (all_sound p Sx) as Sa.
    assert (Lphi : length phi = q_ndofs q).
    { rewrite Ephi. destruct (qc_phi_init a) as [v|] eqn:Ev; [now apply Hphi|apply repeat_length]. }
    destruct (x0_facts other q U os cs (qc_smoothing_params a) f po pc O Uo Uc Eo Ec Sa phi (pr_unit p) x0 Lphi Ex) as (N0 & _ & _ & W0).
    assert (Ltot : length (pr_x0 p) = total (structure x0)).
    { rewrite Ex0. apply ravel_length. intros [k v] I. cbn. apply lookup_in in I; [|exact N0]. exact (proj1 (W0 k v I)). }
    pose proof (all_steady other q U os cs (qc_smoothing_params a) f po pc O Uo Uc Eo Ec Sx) as Ast.
    assert (Unp : forall z, length z = length (pr_x0 p) -> exists d x, unscale (pr_structure p) (pr_unit p) z = Ok d /\ length x = q_ndofs q /\ solver_state po pc q (vec x) d).
    { intros z Lz. rewrite Est. apply (unpack other q U os cs (qc_smoothing_params a) f po pc O Uo Uc Eo Ec Sa phi (pr_unit p) x0 Lphi Ex). congruence. }
    assert (Val : forall z d x, unscale (pr_structure p) (pr_unit p) z = Ok d -> length x = q_ndofs q -> solver_state po pc q (vec x) d ->
      p_g _ P z = rows q d (ModelWrapper.p_g po ++ ModelWrapper.p_g pc) /\ p_h _ P z = rows q d (ModelWrapper.p_h po ++ ModelWrapper.p_h pc)).
    { intros z d x Ed Lx St. pose proof (conj (Sa x Lx) St : state q po pc x d) as Sd. cbn [solver_problem ModelSolver.p_g ModelSolver.p_h].
      assert (Ev : forall g, In g (ModelWrapper.p_g po ++ ModelWrapper.p_g pc) \/ In g (ModelWrapper.p_h po ++ ModelWrapper.p_h pc) -> exists o, g q d = Ok o).
      { intros g I. destruct (Ast g I) as (Lg & HL). destruct (HL x d Sd) as (o & Eo' & _). eauto. }
      unfold g_scaled, h_scaled. rewrite Ed. cbn [bind]. rewrite Fg, Fh. split; apply rows_merged; auto. }
    destruct (constraints_value params q_ndofs (package other) (qc_smoothing_params a) cs pc Ec) as (l & Fl & Epc).
    pose proof (regular_all other q U os cs (qc_smoothing_params a) f po pc O Uo Uc Eo Ec Sx l Fl ltac:(now rewrite Epc)) as Rl.
    destruct (objective_parts params q_ndofs (package other) os (qc_smoothing_params a) f po Eo) as (lo & Fo & Ef & Gg & Gh & Go).
    assert (UO : forall t b, In (t, b) (combine os lo) -> ad_h b = [] /\ (In (ob_name t) direct_quantities -> ad_g b = [])).
    { intros t b Ib. pose proof (F2_combine _ _ _ _ _ Fo Ib) as A. cbv beta in A. pose proof (in_combine_l _ _ _ _ Ib) as It.
      assert (Un : used os cs (ob_name t) (ob_unit t)) by (left; exists t; auto). destruct (Uo t It) as (_ & Nz & Kind). destruct Sx as (x1 & S1).
      destruct (uses_ok other q U os cs O Uo Uc x1 S1 _ _ Un) as (_ & Q & v0 & EQ & Ev0 & D0). split.
      - destruct D0 as [D0|(T & _)]; [exact (proj1 (proj2 (use_direct _ _ _ _ _ _ _ _ _ _ _ _ A EQ D0 Nz)))|].
        destruct (use_slack _ _ _ _ _ _ _ _ _ _ _ _ _ A EQ T Nz) as (_ & _ & _ & _ & _ & _ & Ah & _). exact Ah.
      - intros I. destruct (direct_use other q x1 S1 (ob_name t) I) as (Q1 & v1 & E1 & _ & D1).
        { destruct Kind as [(Is & _)|(_ & St)]; [|exact St]. intros E0. exfalso. rewrite E0 in Is. cbn in Is. intuition discriminate. }
        exact (proj1 (use_direct _ _ _ _ _ _ _ _ _ _ _ _ A E1 D1 Nz)). }
    assert (Eh : ModelWrapper.p_h po = []).
    { rewrite Gh. clear - UO Fo. revert UO. induction Fo as [|t b os lo A F IH]; intros UO; [reflexivity|]. cbn [map concat].
      rewrite (proj1 (UO t b (or_introl eq_refl))). apply IH. intros; apply UO. now right. }
    assert (Eg : (forall t, In t os -> In (ob_name t) direct_quantities) -> ModelWrapper.p_g po = []).
    { rewrite Gg. clear - UO Fo. intros D. revert UO D. induction Fo as [|t b os lo A F IH]; intros UO D; [reflexivity|]. cbn [map concat].
      rewrite (proj2 (UO t b (or_introl eq_refl)) (D t (or_introl eq_refl))). apply IH; intros; [apply UO|apply D]; now right. }
    intros zx mu lam Lz Lmu Llam Pm. destruct (Unp zx Lz) as (dx & x & Ed & Lx & St). destruct (Val zx dx x Ed Lx St) as (Vg & Vh).
    rewrite Vg, rows_app, app_length in Lmu. rewrite Vh, Eh in Llam. cbn [app] in Llam. destruct (split_at mu _ _ Lmu) as (mo & mc & -> & Lmo & Lmc).
    apply List.Forall_app in Pm as (Pmo & Pmc). rewrite Epc in Lmc, Llam. cbn [parsed_as ModelWrapper.p_g ModelWrapper.p_h] in Lmc, Llam.
    pose proof (conj (Sa x Lx) St : state q po pc x dx) as Sd.
    destruct (split_shares other q (qc_smoothing_params a) po pc cs l Rl x dx Sd mc lam Lmc Llam Pmc) as (ps & Sh & Pp & Wp).
    exists dx, x, mo, mc, ps. split; [exact (conj Ed (conj Lx (proj1 St)))|]. split; [reflexivity|]. split.
    { intros D. rewrite (Eg D) in Lmo. destruct mo; [reflexivity|discriminate]. }
    split; [exact Sh|]. split; [exact Pp|]. intros bs y r Lb Ly Fy Wy.
    pose proof (adds_rebound params q_ndofs (package other) (qc_smoothing_params a) cs l Fl bs Lb) as Fl'.
    set (pc' := parsed_as params (qc_smoothing_params a) (rebound cs bs) l).
    assert (Ec' := value_constraints params q_ndofs (package other) (qc_smoothing_params a) (rebound cs bs) l Fl' : _ = Ok pc').
    assert (Uc' : forall c, In c (rebound cs bs) -> scaled_use U q (uc_name c) (uc_unit c)).
    { clear - Uc. revert bs Uc. unfold rebound. induction cs as [|c0 ks IH]; intros [|b bs] Uc c I; try (destruct I; fail). destruct I as [<-|I]; [exact (Uc c0 (or_introl eq_refl))|].
      apply (IH bs); [intros; apply Uc; now right|exact I]. }
    destruct (from_user_ext other q U os (rebound cs bs) (qc_smoothing_params a) f po pc' O Uo Uc' Eo Ec' y (Sa y Ly) r Fy Wy) as (D & _ & HD).
    destruct (HD D) as (StD & _); [auto|].
    assert (StD' : solver_state po pc q (vec y) D) by (rewrite Epc; exact StD).
    destruct (repack other q U os cs (qc_smoothing_params a) f po pc O Uo Uc Eo Ec Sa phi (pr_unit p) x0 Lphi Ex Hu y D Ly StD') as (z & d & Lz' & Ed' & Hd).
    rewrite <- Est in Ed'. destruct (HD d) as (St' & S1 & S2 & Ey); [rewrite Epc in Hd; exact Hd|].
    assert (St1 : solver_state po pc q (vec y) d) by (rewrite Epc; exact St').
    exists z, d. split; [congruence|]. split; [exact (conj Ed' (conj Ly (proj1 St')))|].
    assert (Ez : p_f _ P z = r).
    { cbn [solver_problem ModelSolver.p_f]. unfold f_scaled. rewrite Ed'. cbn [bind]. rewrite Ff, Ey. reflexivity. }
    split; [exact Ez|]. destruct (Val z d y Ed' Ly St1) as (Vg' & Vh'). rewrite Vg', Vh', Eh, rows_app. cbn [app].
    assert (Lmo' : length mo = length (rows q d (ModelWrapper.p_g po))).
    { rewrite Lmo. destruct (steady_rows q po pc (ModelWrapper.p_g po)) as (L & HL); [intros g I; apply Ast; left; apply in_app_iff; now left|].
      rewrite (proj2 (HL x dx Sd)), (proj2 (HL y d (conj (Sa y Ly) St1))). reflexivity. }
    rewrite (dot_app mo _ mc _ Lmo'). pose proof (dot_under mo _ Pmo (rows_below q d _ (proj1 S1))).
    rewrite Epc. cbn [parsed_as ModelWrapper.p_g ModelWrapper.p_h].
    pose proof (Wp bs y d Lb (conj (Sa y Ly) St1) (proj1 S2) (proj2 S2)). lra.
  Qed.
End Call.
