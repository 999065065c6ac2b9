(** Proofs about the wrapper. *)
From Coq Require Import String List Bool Arith ZArith Reals Lra Lia.
From Coquelicot Require Import Coquelicot.
From Verif Require Import Base ModelArray ModelMath ModelQuantity ModelWrapper ModelShipped
  SpecMath SpecQuantity SpecWrapper ProofArray ProofMath ProofQuantity ProofSlack ProofSlackInit.
Import ListNotations.
Open Scope R_scope.
Open Scope string_scope.
Open Scope list_scope.

Section W.
  Variable P : Type.
  Variable ndofs : P -> nat.

  (** ** C34 *)
  Lemma add_ok_iff (ns : namespace P) name u use mode sp :
    (exists a, add_quantity ndofs ns name u use mode sp = Ok a) <->
    supported ns name use u /\ known_mode mode.
  Proof.
    unfold add_quantity, get_quantity, supported. split.
    - intros [a H]. destruct (ns name) as [[q|]|]; try discriminate H. cbn [bind] in H.
      assert (K : known_mode mode).
      { destruct mode as [s|]; [|red; auto]. unfold scaled_f_impl in H.
        destruct (String.eqb_spec s "slack"); [subst; red; auto|].
        destruct (String.eqb_spec s "approx"); [subst; red; auto|]. discriminate H. }
      split; auto. exists q. split; auto.
      assert (G : forall X (f : X -> result (added P)) (r : result X), bind r f = Ok a -> exists x, r = Ok x /\ f x = Ok a).
      { intros X f r Hr. destruct r; [eauto|discriminate]. }
      do 4 (apply G in H; destruct H as [? [_ H]]).
      destruct (mem use (q_compat q)) eqn:M; [|discriminate H]. cbn [negb] in H.
      split; [apply mem_In; auto|].
      apply G in H as [uc [Hu _]]. destruct u; simpl in Hu; congruence.
    - intros [[q [E [M Hu]]] K]. rewrite E. cbn [bind].
      apply mem_In in M.
      assert (U : exists uc, unit_callable ndofs q u = Ok uc) by (destruct u; simpl; eauto; congruence).
      destruct U as [uc U].
      destruct K as [-> |[-> | ->]]; unfold scaled_f_impl, scaled_g_ineq_impl, scaled_h_eq_impl,
        scaled_slack_dofs_init, slack_only; cbn [String.eqb Ascii.eqb Bool.eqb bind]; rewrite M; cbn [negb];
        rewrite U; cbn [bind]; eauto.
  Qed.

  (** The exception classes. *)
  Lemma add_raises (ns : namespace P) name u use mode sp e :
    add_quantity ndofs ns name u use mode sp = Raise e ->
    e = ValueError \/ (e = TypeError /\ u = UOther).
  Proof.
    unfold add_quantity, get_quantity. intros H.
    destruct (ns name) as [[q|]|]; cbn [bind] in H; try (inversion H; auto; fail).
    destruct mode as [s|]; unfold scaled_f_impl, scaled_g_ineq_impl, scaled_h_eq_impl,
        scaled_slack_dofs_init, slack_only in H.
    - destruct (String.eqb s "slack"); [|destruct (String.eqb s "approx")]; cbn [bind] in H;
        try (inversion H; auto; fail);
        destruct (mem use (q_compat q)); cbn [negb] in H; try (inversion H; auto; fail);
        destruct u; cbn [bind unit_callable] in H; inversion H; auto.
    - cbn [bind] in H.
      destruct (mem use (q_compat q)); cbn [negb] in H; try (inversion H; auto; fail);
        destruct u; cbn [bind unit_callable] in H; inversion H; auto.
  Qed.

  Lemma parse_obj_loop_ok (ns : namespace P) names units mode sp fs acc :
    (exists r, parse_obj_loop ndofs ns names units mode sp fs acc = Ok r) <->
    (length names <= length units)%nat /\
    (names = [] \/ known_mode mode) /\
    (forall n u, In (n, u) (combine names units) -> supported ns n "f" u).
  Proof.
    revert units fs acc. induction names as [|n names IH]; intros units fs acc; simpl.
    - split; [intros _; split; [lia|split; [auto|easy]]|eauto].
    - destruct units as [|u units]; simpl.
      + split; [intros [r H]; discriminate H|intros [H _]; lia].
      + destruct (add_quantity ndofs ns n u "f" mode sp) as [a|e] eqn:A.
        * assert (S : supported ns n "f" u /\ known_mode mode) by (apply add_ok_iff with (sp := sp); eauto).
          cbn [bind]. rewrite IH. split.
          -- intros [H1 [H2 H3]]. split; [lia|]. split; [tauto|].
             intros n' u' [E|E]; [inversion E; subst; tauto|auto].
          -- intros [H1 [H2 H3]]. split; [lia|]. split; [tauto|auto].
        * cbn [bind]. split; [intros [r H]; discriminate H|].
          intros [H1 [H2 H3]]. exfalso.
          assert (S : exists a, add_quantity ndofs ns n u "f" mode sp = Ok a).
          { apply add_ok_iff. split; [auto|]. destruct H2 as [C|]; [discriminate C|auto]. }
          rewrite A in S. destruct S as [a S]. discriminate S.
  Qed.

  Lemma parse_cons_loop_ok (ns : namespace P) names types units vals mode sp acc :
    length types = length names -> length units = length names -> length vals = length names ->
    (exists r, parse_cons_loop ndofs ns names types units vals mode sp acc = Ok r) <->
    (names = [] \/ known_mode mode) /\
    (forall n t u, In (n, (t, u)) (combine names (combine types units)) ->
        supported ns n t u /\ In t ["<="; ">="; "=="]).
  Proof.
    revert types units vals acc.
    induction names as [|n names IH]; intros [|t types] [|u units] [|v vals] acc Lt Lu Lv;
      simpl in Lt, Lu, Lv; try discriminate.
    - simpl. split; [intros _; split; [auto|easy]|eauto].
    - cbn [parse_cons_loop combine].
      destruct (add_quantity ndofs ns n u t mode sp) as [a|e] eqn:A.
      + assert (S : supported ns n t u /\ known_mode mode) by (apply add_ok_iff with (sp := sp); eauto).
        cbn [bind]. cbv zeta.
        assert (T : forall acc', (exists r, parse_cons_loop ndofs ns names types units vals mode sp acc' = Ok r) /\ In t ["<="; ">="; "=="]  <->
          (n :: names = [] \/ known_mode mode) /\
          (forall n' t' u', In (n', (t', u')) ((n, (t, u)) :: combine names (combine types units)) ->
             supported ns n' t' u' /\ In t' ["<="; ">="; "=="])).
        { intros acc'. rewrite IH by lia. split.
          - intros [[H1 H2] H3]. split; [tauto|]. intros n' t' u' [E|E]; [inversion E; subst; tauto|auto].
          - intros [H1 H2]. split; [split; [tauto|]|].
            + intros n' t' u' E. apply H2. right; auto.
            + apply (H2 n t u). left; auto. }
        destruct (String.eqb_spec t "==").
        * rewrite <- T. subst. split; [intros H; split; [exact H|simpl; auto]|intros [H _]; exact H].
        * unfold mem. cbn [existsb].
          destruct (String.eqb_spec t "<="); [|destruct (String.eqb_spec t ">=")]; cbn [orb].
          -- rewrite <- T. subst. split; [intros H; split; [exact H|simpl; auto]|intros [H _]; exact H].
          -- rewrite <- T. subst. split; [intros H; split; [exact H|simpl; auto]|intros [H _]; exact H].
          -- split; [intros [r H]; discriminate H|].
             intros [_ H]. exfalso. destruct (H n t u (or_introl eq_refl)) as [_ [C|[C|[C|[]]]]]; congruence.
      + cbn [bind]. split; [intros [r H]; discriminate H|].
        intros [H1 H2]. exfalso.
        assert (S : exists a, add_quantity ndofs ns n u t mode sp = Ok a).
        { apply add_ok_iff. split; [apply (H2 n t u); left; auto|].
          destruct H1 as [C|]; [discriminate C|auto]. }
        rewrite A in S. destruct S as [a S]. discriminate S.
  Qed.

  Lemma parse_constraints_ok (ns : namespace P) names types units vals mode sp :
    (exists r, parse_constraints ndofs ns names types units vals mode sp = Ok r) <->
    length types = length names /\ length units = length names /\ length vals = length names /\
    (names = [] \/ known_mode mode) /\
    (forall n t u, In (n, (t, u)) (combine names (combine types units)) ->
        supported ns n t u /\ In t ["<="; ">="; "=="]).
  Proof.
    unfold parse_constraints. cbv zeta.
    destruct (Nat.eqb_spec (length names) (length types)),
      (Nat.eqb_spec (length names) (length units)),
      (Nat.eqb_spec (length names) (length vals)); cbn [andb];
      try (split; [intros [r H]; discriminate H|intros H; exfalso; intuition congruence]).
    rewrite parse_cons_loop_ok by congruence. split; [|tauto].
    intros [H1 H2]. split; [congruence|]. split; [congruence|]. split; [congruence|]. split; auto.
  Qed.

  Lemma parse_objectives_ok (ns : namespace P) names units ws mode sp :
    (exists r, parse_objectives ndofs ns (Objectives names units) ws mode sp = Ok r) <->
    length ws = length names /\ (length names <= length units)%nat /\
    (names = [] \/ known_mode mode) /\
    (forall n u, In (n, u) (combine names units) -> supported ns n "f" u).
  Proof.
    unfold parse_objectives. destruct (Nat.eqb_spec (length names) (length ws)); cbn [negb].
    - pose proof (parse_obj_loop_ok ns names units mode sp [] empty_parsed) as L.
      destruct (parse_obj_loop ndofs ns names units mode sp [] empty_parsed) as [[fs acc]|e'] eqn:E; cbn [bind].
      + split; [intros _; split; [congruence|apply L; eauto]|eauto].
      + split; [intros [r H]; discriminate H|]. intros [_ H]. apply L in H. destruct H as [r H]. discriminate H.
    - split; [intros [r H]; discriminate H|intros [H _]; congruence].
  Qed.

  (** ** C33 *)
  Lemma op2_plus_scal a b : op2 Rplus (scal a) (scal b) = Ok (scal (a + b)).
  Proof. reflexivity. Qed.

  Lemma f_tot_value fs ws vs qp d acc : length ws = length fs ->
    Forall2 (fun (f : callable P) v => f qp d = Ok (scal v)) fs vs ->
    f_tot_from (scal acc) fs ws qp d
    = Ok (scal (acc + Rsum (map (fun p => fst p * snd p) (combine ws vs)))).
  Proof.
    intros L H. revert ws L acc. induction H as [|f v fs vs Hf H IH]; intros ws L acc.
    - destruct ws; [|discriminate L]. simpl. unfold Rsum. simpl. rewrite Rplus_0_r. reflexivity.
    - destruct ws as [|w ws]; [discriminate L|]. cbn [f_tot_from]. rewrite Hf. cbn [bind].
      change (amap (fun x => x * w) (scal v)) with (scal (v * w)).
      rewrite op2_plus_scal. cbn [bind]. rewrite IH by (simpl in L; lia).
      do 2 f_equal. unfold Rsum. simpl. ring.
  Qed.

  Lemma parse_obj_loop_val (ns : namespace P) names units mode sp fs acc fs' acc' :
    parse_obj_loop ndofs ns names units mode sp fs acc = Ok (fs', acc') ->
    exists l, Forall2 (fun nu a => add_quantity ndofs ns (fst nu) (snd nu) "f" mode sp = Ok a)
                (combine names units) l /\ length l = length names /\
      fs' = fs ++ map ad_f l /\
      p_g acc' = p_g acc ++ concat (map ad_g l) /\
      p_h acc' = p_h acc ++ concat (map ad_h l) /\
      p_slack acc' = fold_left (fun s a => dict_union s (ad_slack a)) l (p_slack acc).
  Proof.
    revert units fs acc. induction names as [|n names IH]; intros units fs acc H.
    - simpl in H. inversion H; subst. exists []. simpl. rewrite !app_nil_r. repeat split; auto.
    - destruct units as [|u units]; [discriminate H|]. cbn [parse_obj_loop] in H.
      destruct (add_quantity ndofs ns n u "f" mode sp) as [a|e] eqn:A; [|discriminate H].
      cbn [bind] in H. destruct (IH _ _ _ H) as [l [F [L [E1 [E2 [E3 E4]]]]]].
      exists (a :: l). cbn [p_g p_h p_slack] in *. split; [constructor; auto|].
      split; [simpl; auto|]. rewrite E1, E2, E3, E4. simpl. rewrite <- !app_assoc. auto.
  Qed.

  Lemma lookup_fold_union l k (s : dict (callable P)) :
    (lookup k s <> None \/ exists a : added P, In a l /\ lookup k (ad_slack a) <> None) ->
    lookup k (fold_left (fun s a => dict_union s (ad_slack a)) l s) <> None.
  Proof.
    revert s. induction l as [|a l IH]; simpl; intros s H.
    - destruct H as [H|[a [[] _]]]; auto.
    - apply IH. rewrite lookup_union. destruct H as [H|[b [[->|Hb] H]]].
      + left. destruct (lookup k (ad_slack a)); [discriminate|auto].
      + left. destruct (lookup k (ad_slack b)); [discriminate|auto].
      + right. eauto.
  Qed.

  Lemma objective_sum (ns : namespace P) names units ws mode sp f acc :
    parse_objectives ndofs ns (Objectives names units) ws mode sp = Ok (f, acc) ->
    exists l, Forall2 (fun nu a => add_quantity ndofs ns (fst nu) (snd nu) "f" mode sp = Ok a)
                (combine names units) l /\ length l = length names /\
      (forall g, In g (p_g acc) <-> exists a, In a l /\ In g (ad_g a)) /\
      (forall h, In h (p_h acc) <-> exists a, In a l /\ In h (ad_h a)) /\
      (forall a k, In a l -> lookup k (ad_slack a) <> None -> lookup k (p_slack acc) <> None) /\
      forall qp d vs, Forall2 (fun a v => ad_f a qp d = Ok (scal v)) l vs ->
        f qp d = Ok (scal (Rsum (map (fun p => fst p * snd p) (combine ws vs)))).
  Proof.
    unfold parse_objectives. intros H.
    destruct (Nat.eqb_spec (length names) (length ws)) as [L|]; [|discriminate H]. cbn [negb] in H.
    destruct (parse_obj_loop ndofs ns names units mode sp [] empty_parsed) as [[fs acc']|e] eqn:E; [|discriminate H].
    cbn [bind] in H. inversion H; subst f acc'.
    destruct (parse_obj_loop_val _ _ _ _ _ _ _ _ _ E) as [l [F [Ll [E1 [E2 [E3 E4]]]]]].
    exists l. split; auto. split; auto. simpl in E1, E2, E3.
    assert (C : forall X (m : list (list X)) x, In x (concat m) <-> exists y, In y m /\ In x y).
    { intros. apply in_concat. }
    split; [|split; [|split]].
    - intros g. rewrite E2, C. split.
      + intros [y [Hy Hg]]. apply in_map_iff in Hy as [a [<- Ha]]. eauto.
      + intros [a [Ha Hg]]. exists (ad_g a). split; auto. apply in_map; auto.
    - intros g. rewrite E3, C. split.
      + intros [y [Hy Hg]]. apply in_map_iff in Hy as [a [<- Ha]]. eauto.
      + intros [a [Ha Hg]]. exists (ad_h a). split; auto. apply in_map; auto.
    - intros a k Ha Hk. rewrite E4. apply lookup_fold_union. right. eauto.
    - intros qp d vs Hv. rewrite E1.
      rewrite (f_tot_value _ _ vs) with (acc := 0).
      + rewrite Rplus_0_l. reflexivity.
      + rewrite map_length. congruence.
      + clear -Hv. induction Hv; simpl; constructor; auto.
  Qed.

  (** The scaled value of one objective, without smoothing. *)
  Lemma added_value_none (ns : namespace P) name u use sp a q qp d r :
    add_quantity ndofs ns name (UScalar u) use None sp = Ok a -> ns name = Some (AQuantity q) ->
    q_raw q qp d = Ok (scal r) -> ad_f a qp d = Ok (scal (r / Rabs u)).
  Proof.
    unfold add_quantity, get_quantity. intros H E. rewrite E in H. cbn [bind] in H.
    unfold scaled_f_impl, scaled_g_ineq_impl, scaled_h_eq_impl, scaled_slack_dofs_init, slack_only in H.
    cbn [bind] in H. destruct (mem use (q_compat q)); [|discriminate H]. cbn [negb unit_callable bind] in H.
    inversion H; subst a. cbn [ad_f]. unfold apply_unit. cbn [bind]. intros ->. reflexivity.
  Qed.

  (** ** C30 *)
  Lemma plain_add (ns : namespace P) name u use mode sp a q qp d fld :
    add_quantity ndofs ns name (UScalar u) use mode sp = Ok a -> ns name = Some (AQuantity q) ->
    plain q mode qp d fld ->
    ad_f a qp d = Ok (Arr (sh fld) (map (fun x => x / Rabs u) (el fld))) /\
    ad_unit a = (fun _ => Ok (scal (Rabs u))) /\
    ad_g a = [] /\ ad_h a = [] /\ ad_slack a = [].
  Proof.
    unfold add_quantity, get_quantity. intros H E. rewrite E in H. cbn [bind] in H.
    intros [W [[-> Hr]|[-> [func [[reg [compat I]] Hr]]]]].
    - unfold scaled_f_impl, scaled_g_ineq_impl, scaled_h_eq_impl, scaled_slack_dofs_init, slack_only in H.
      cbn [bind] in H. destruct (mem use (q_compat q)); [|discriminate H].
      cbn [negb unit_callable bind] in H. inversion H; subst a. cbn [ad_f ad_unit ad_g ad_h ad_slack].
      repeat split; auto. unfold apply_unit. cbn [bind]. rewrite Hr. cbn [bind]. apply op2_scal_r; auto.
    - unfold init_quantity in I. cbn in I. inversion I; subst q.
      unfold scaled_f_impl, scaled_g_ineq_impl, scaled_h_eq_impl, scaled_slack_dofs_init, slack_only in H.
      cbn [bind String.eqb Ascii.eqb Bool.eqb q_slack_f q_slack_g q_slack_h q_slack_init] in H.
      destruct (mem use _); [|discriminate H].
      cbn [negb unit_callable bind] in H. inversion H; subst a. cbn [ad_f ad_unit ad_g ad_h ad_slack].
      repeat split; auto. unfold apply_unit. cbn [bind]. rewrite Hr. cbn [bind]. apply op2_scal_r; auto.
  Qed.

  Lemma centered_value (f : callable P) val uc sign mode sp qp d fld u :
    not_approx mode ->
    f qp d = Ok (Arr (sh fld) (map (fun x => x / u) (el fld))) -> wf fld ->
    uc qp = Ok (scal u) ->
    cons_func_centered f val uc sign mode sp qp d
    = Ok (Arr (sh fld) (map (fun x => sign * (x / u - val / u)) (el fld))).
  Proof.
    intros M Hf W Hu. unfold cons_func_centered. rewrite Hf. cbn [bind]. rewrite Hu. cbn [bind].
    rewrite op2_scal. cbn [bind].
    rewrite op2_scal_r by (red; cbn [el sh]; rewrite map_length; exact W). cbn [bind].
    unfold amap. cbn [sh el]. rewrite !map_map.
    destruct mode as [s|]; [|reflexivity].
    destruct (String.eqb_spec s "approx"); [subst; exfalso; apply M; reflexivity|]. reflexivity.
  Qed.

  Lemma scaled_le x v u : 0 < u -> (x / u - v / u <= 0 <-> x <= v).
  Proof.
    intros Hu. split; intros H.
    - apply Rmult_le_reg_r with (/ u); [apply Rinv_0_lt_compat; auto|]. unfold Rdiv in H. lra.
    - pose proof (div_mono x v u Hu H). lra.
  Qed.
  Lemma scaled_ge x v u : 0 < u -> (-1 * (x / u - v / u) <= 0 <-> x >= v).
  Proof.
    intros Hu. pose proof (scaled_le v x u Hu). split; intros H1; [apply Rle_ge, H|]; [lra|].
    apply Rge_le, H in H1. lra.
  Qed.
  Lemma scaled_eq x v u : 0 < u -> (1 * (x / u - v / u) = 0 <-> x = v).
  Proof.
    intros Hu. split; intros H; [|subst; lra].
    apply Rmult_eq_reg_r with (/ u); [unfold Rdiv in H; lra|]. apply Rinv_neq_0_compat. lra.
  Qed.

  Lemma cons_loop_system (ns : namespace P) cs mode sp qp d acc p : not_approx mode ->
    (forall c, In c cs -> uc_unit c <> 0 /\ exists q fld, ns (uc_name c) = Some (AQuantity q) /\ plain q mode qp d fld) ->
    parse_cons_loop ndofs ns (map uc_name cs) (map (fun c => op_string (uc_cmp c)) cs)
      (map (fun c => UScalar (uc_unit c)) cs) (map uc_val cs) mode sp acc = Ok p ->
    (system_holds p qp d <->
     system_holds acc qp d /\
     forall c q fld, In c cs -> ns (uc_name c) = Some (AQuantity q) -> plain q mode qp d fld ->
       meets (uc_cmp c) (uc_val c) fld) /\
    p_slack p = p_slack acc.
  Proof.
    intros NA. revert acc. induction cs as [|c cs IH]; intros acc Hc H.
    - simpl in H. inversion H; subst. split; [|reflexivity]. split; [intros X; split; [auto|easy]|tauto].
    - cbn [map parse_cons_loop] in H.
      destruct (Hc c (or_introl eq_refl)) as [Hu [q [fld [Eq Pl]]]].
      destruct (add_quantity ndofs ns (uc_name c) (UScalar (uc_unit c)) (op_string (uc_cmp c)) mode sp)
        as [a|e] eqn:A; [|discriminate H].
      cbn [bind] in H. cbv zeta in H.
      destruct (plain_add _ _ _ _ _ _ _ _ _ _ _ A Eq Pl) as [Hf [Huc [Hg [Hh Hs]]]].
      rewrite Hg, Hh, Hs in H. rewrite !app_nil_r in H. cbn [p_g p_h p_slack] in H.
      assert (Hpos : 0 < Rabs (uc_unit c)) by (apply Rabs_pos_lt; auto).
      assert (W : wf fld) by apply Pl.
      assert (DU : dict_union (p_slack acc) ([] : dict (callable P)) = p_slack acc).
      { unfold dict_union. simpl. rewrite app_nil_r. clear. induction (p_slack acc) as [|[k v] s IHs]; simpl; [auto|].
        rewrite IHs. reflexivity. }
      rewrite DU in H.
      (* any other witness for the same constraint gives the same array *)
      assert (Uq : forall q' fld', ns (uc_name c) = Some (AQuantity q') -> plain q' mode qp d fld' -> el fld' = el fld).
      { intros q' fld' E' Pl'. rewrite Eq in E'. inversion E'; subst q'.
        destruct Pl as [_ [[M1 R1]|[M1 [f1 [[r1 [c1 I1]] R1]]]]];
        destruct Pl' as [_ [[M2 R2]|[M2 [f2 [[r2 [c2 I2]] R2]]]]]; try congruence.
        unfold init_quantity in I1, I2. cbn in I1, I2. inversion I1. inversion I2.
        assert (f1 = f2) by (apply (f_equal q_raw) in H2; apply (f_equal q_raw) in H1; cbn in H1, H2; congruence).
        congruence. }
      set (cf := cons_func_centered (ad_f a) (uc_val c) (ad_unit a) (sign_of (op_string (uc_cmp c))) mode sp) in *.
      assert (Ecf : cf qp d = Ok (Arr (sh fld) (map (fun x => sign_of (op_string (uc_cmp c)) * (x / Rabs (uc_unit c) - uc_val c / Rabs (uc_unit c))) (el fld)))).
      { unfold cf. apply centered_value; auto. rewrite Huc. reflexivity. }
      assert (K : meets (uc_cmp c) (uc_val c) fld <->
         (exists o, cf qp d = Ok o /\ match uc_cmp c with EQ => all_eq0 o | _ => all_le0 o end)).
      { rewrite Ecf. unfold meets, all_le0, all_eq0. split.
        - intros Hm. eexists. split; [reflexivity|].
          destruct (uc_cmp c) eqn:Cc; intros y Hy; cbn [el] in Hy; apply in_map_iff in Hy as [x [<- Hx]];
          specialize (Hm x Hx); cbn [op_string sign_of] in *; unfold sign_of; simpl.
          + rewrite Rmult_1_l. apply scaled_le; auto.
          + apply scaled_ge; auto.
          + apply scaled_eq; auto.
        - intros [o [Eo Ho]] x Hx. inversion Eo; subst o. clear Eo.
          destruct (uc_cmp c) eqn:Cc; cbn [el] in Ho;
          specialize (Ho _ (in_map _ _ _ Hx)); unfold sign_of in Ho; simpl in Ho.
          + rewrite Rmult_1_l in Ho. apply scaled_le in Ho; auto.
          + apply scaled_ge in Ho; auto.
          + apply scaled_eq in Ho; auto. }
      assert (Hm : forall acc', parse_cons_loop ndofs ns (map uc_name cs) (map (fun c0 => op_string (uc_cmp c0)) cs)
              (map (fun c0 => UScalar (uc_unit c0)) cs) (map uc_val cs) mode sp acc' = Ok p ->
              p_slack acc' = p_slack acc ->
              (system_holds acc' qp d <-> system_holds acc qp d /\ meets (uc_cmp c) (uc_val c) fld) ->
              (system_holds p qp d <->
               system_holds acc qp d /\
               forall c0 q0 fld0, In c0 (c :: cs) -> ns (uc_name c0) = Some (AQuantity q0) -> plain q0 mode qp d fld0 ->
               meets (uc_cmp c0) (uc_val c0) fld0) /\ p_slack p = p_slack acc).
      { intros acc' Hp Sl Hacc'. destruct (IH acc' (fun c0 H0 => Hc c0 (or_intror H0)) Hp) as [I1 I2].
        split; [|congruence]. rewrite I1, Hacc'. split.
        - intros [[H1 H2] H3]. split; auto. intros c0 q0 fld0 [<-|Hi] E0 P0.
          + unfold meets. rewrite (Uq _ _ E0 P0). exact H2.
          + apply (H3 c0 q0 fld0); auto.
        - intros [H1 H2]. split; [split; auto|].
          + apply (H2 c q fld); auto. left; auto.
          + intros c0 q0 fld0 Hi. apply H2. right; auto. }
      destruct (uc_cmp c) eqn:Cc; cbn [op_string] in H; simpl in H.
      + apply (Hm _ H); [reflexivity|]. rewrite K. unfold system_holds. cbn [p_g p_h]. split.
        * intros [H1 H2]. split; [split; auto; intros g Hgi; apply H1, in_app_iff; auto|].
          apply H1, in_app_iff. right. left. reflexivity.
        * intros [[H1 H2] H3]. split; auto. intros g Hgi. apply in_app_iff in Hgi as [Hgi|[<-|[]]]; auto.
      + apply (Hm _ H); [reflexivity|]. rewrite K. unfold system_holds. cbn [p_g p_h]. split.
        * intros [H1 H2]. split; [split; auto; intros g Hgi; apply H1, in_app_iff; auto|].
          apply H1, in_app_iff. right. left. reflexivity.
        * intros [[H1 H2] H3]. split; auto. intros g Hgi. apply in_app_iff in Hgi as [Hgi|[<-|[]]]; auto.
      + apply (Hm _ H); [reflexivity|]. rewrite K. unfold system_holds. cbn [p_g p_h]. split.
        * intros [H1 H2]. split; [split; auto; intros g Hgi; apply H2, in_app_iff; auto|].
          apply H2, in_app_iff. right. left. reflexivity.
        * intros [[H1 H2] H3]. split; auto. intros g Hgi. apply in_app_iff in Hgi as [Hgi|[<-|[]]]; auto.
  Qed.

  Lemma constraint_meaning (ns : namespace P) cs mode sp qp d p : not_approx mode ->
    (forall c, In c cs -> uc_unit c <> 0 /\ exists q fld, ns (uc_name c) = Some (AQuantity q) /\ plain q mode qp d fld) ->
    parse_constraints ndofs ns (map uc_name cs) (map (fun c => op_string (uc_cmp c)) cs)
      (map (fun c => UScalar (uc_unit c)) cs) (map uc_val cs) mode sp = Ok p ->
    p_slack p = [] /\
    (system_holds p qp d <->
     forall c q fld, In c cs -> ns (uc_name c) = Some (AQuantity q) -> plain q mode qp d fld ->
       meets (uc_cmp c) (uc_val c) fld).
  Proof.
    intros NA Hc H. unfold parse_constraints in H. rewrite !map_length, Nat.eqb_refl in H. cbn [andb] in H.
    destruct (cons_loop_system _ _ _ _ _ _ _ _ NA Hc H) as [H1 H2]. split; auto.
    rewrite H1. split; [tauto|]. intros X. split; auto. split; simpl; easy.
  Qed.
End W.
