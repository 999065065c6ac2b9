(** Proofs about the wrapper, continued: automatic units, smoothed
    constraints, merging, repeated slack quantities. *)
From Coq Require Import String List Bool Arith ZArith Reals Lra Lia.
From Coquelicot Require Import Coquelicot.
From Verif Require Import Base ModelArray ModelMath ModelQuantity ModelWrapper ModelShipped
  SpecMath SpecQuantity SpecWrapper ProofArray ProofMath ProofQuantity ProofSlack ProofSlackInit ProofWrapper.
Import ListNotations.
Open Scope R_scope.
Open Scope string_scope.
Open Scope list_scope.

Section W.
  Variable P : Type.
  Variable ndofs : P -> nat.

  Definition cf (c : raw_constraint) (a : added P) (mode : option string) (sp : smoothing_params) : callable P :=
    cons_func_centered (ad_f a) (rc_val c) (ad_unit a) (sign_of (rc_type c)) mode sp.

  (** Exactly which functions a parsed list of constraints contains. *)
  Lemma cons_loop_val (ns : namespace P) cs mode sp acc p :
    parse_cons_loop ndofs ns (map rc_name cs) (map rc_type cs) (map rc_unit cs) (map rc_val cs) mode sp acc = Ok p ->
    exists l, Forall2 (fun c a => add_quantity ndofs ns (rc_name c) (rc_unit c) (rc_type c) mode sp = Ok a) cs l /\
      (forall g, In g (p_g p) <-> In g (p_g acc) \/
         exists c a, In (c, a) (combine cs l) /\ (In g (ad_g a) \/ (rc_type c <> "==" /\ g = cf c a mode sp))) /\
      (forall h, In h (p_h p) <-> In h (p_h acc) \/
         exists c a, In (c, a) (combine cs l) /\ (In h (ad_h a) \/ (rc_type c = "==" /\ h = cf c a mode sp))).
  Proof.
    revert acc. induction cs as [|c cs IH]; intros acc H.
    - simpl in H. inversion H; subst. exists []. split; [constructor|].
      split; intros g; (split; [auto|intros [X|[c [a [[] _]]]]; auto]).
    - cbn [map parse_cons_loop] in H.
      destruct (add_quantity ndofs ns (rc_name c) (rc_unit c) (rc_type c) mode sp) as [a|e] eqn:A; [|discriminate H].
      cbn [bind] in H. cbv zeta in H. cbn [p_g p_h p_slack] in H.
      fold (cf c a mode sp) in H.
      destruct (String.eqb_spec (rc_type c) "==") as [T|T].
      + destruct (IH _ H) as [l [F [HG HH]]]. exists (a :: l). split; [constructor; auto|].
        cbn [p_g p_h] in HG, HH. split; intros g.
        * rewrite HG, in_app_iff. split.
          -- intros [[X|X]|[c' [a' [X Y]]]]; [auto| |].
             ++ right. exists c, a. split; [left; auto|auto].
             ++ right. exists c', a'. split; [right; auto|auto].
          -- intros [X|[c' [a' [[X|X] Y]]]]; [auto| |].
             ++ inversion X; subst c' a'. destruct Y as [Y|[Y _]]; [auto|congruence].
             ++ right. eauto.
        * rewrite HH, !in_app_iff. split.
          -- intros [[[X|X]|[X|[]]]|[c' [a' [X Y]]]]; [auto| | |].
             ++ right. exists c, a. split; [left; auto|auto].
             ++ right. exists c, a. split; [left; auto|right; auto].
             ++ right. exists c', a'. split; [right; auto|auto].
          -- intros [X|[c' [a' [[X|X] Y]]]]; [auto| |].
             ++ inversion X; subst c' a'. destruct Y as [Y|[_ Y]]; [auto|]. left; right; left; auto.
             ++ right. eauto.
      + destruct (mem (rc_type c) ["<="; ">="]); [|discriminate H].
        destruct (IH _ H) as [l [F [HG HH]]]. exists (a :: l). split; [constructor; auto|].
        cbn [p_g p_h] in HG, HH. split; intros g.
        * rewrite HG, !in_app_iff. split.
          -- intros [[[X|X]|[X|[]]]|[c' [a' [X Y]]]]; [auto| | |].
             ++ right. exists c, a. split; [left; auto|auto].
             ++ right. exists c, a. split; [left; auto|right; auto].
             ++ right. exists c', a'. split; [right; auto|auto].
          -- intros [X|[c' [a' [[X|X] Y]]]]; [auto| |].
             ++ inversion X; subst c' a'. destruct Y as [Y|[_ Y]]; [auto|]. left; right; left; auto.
             ++ right. eauto.
        * rewrite HH, in_app_iff. split.
          -- intros [[X|X]|[c' [a' [X Y]]]]; [auto| |].
             ++ right. exists c, a. split; [left; auto|auto].
             ++ right. exists c', a'. split; [right; auto|auto].
          -- intros [X|[c' [a' [[X|X] Y]]]]; [auto| |].
             ++ inversion X; subst c' a'. destruct Y as [Y|[Y _]]; [auto|congruence].
             ++ right. eauto.
  Qed.

  Lemma parse_constraints_val (ns : namespace P) cs mode sp p :
    parse_constraints ndofs ns (map rc_name cs) (map rc_type cs) (map rc_unit cs) (map rc_val cs) mode sp = Ok p ->
    exists l, Forall2 (fun c a => add_quantity ndofs ns (rc_name c) (rc_unit c) (rc_type c) mode sp = Ok a) cs l /\
      (forall g, In g (p_g p) <-> 
         exists c a, In (c, a) (combine cs l) /\ (In g (ad_g a) \/ (rc_type c <> "==" /\ g = cf c a mode sp))) /\
      (forall h, In h (p_h p) <->
         exists c a, In (c, a) (combine cs l) /\ (In h (ad_h a) \/ (rc_type c = "==" /\ h = cf c a mode sp))).
  Proof.
    intros H. unfold parse_constraints in H. rewrite !map_length, Nat.eqb_refl in H. cbn [andb] in H.
    destruct (cons_loop_val _ _ _ _ _ _ H) as [l [F [HG HH]]]. exists l. split; auto.
    simpl in HG, HH. split; intros g; [rewrite HG|rewrite HH]; tauto.
  Qed.

  Lemma F2_combine {A B} (Q : A -> B -> Prop) l m a b : Forall2 Q l m -> In (a, b) (combine l m) -> Q a b.
  Proof. intros H. induction H; simpl; [easy|]. intros [E|E]; [inversion E; subst; auto|auto]. Qed.
  Lemma F2_left {A B} (Q : A -> B -> Prop) l m a : Forall2 Q l m -> In a l -> exists b, In (a, b) (combine l m).
  Proof. intros H. induction H; simpl; [easy|]. intros [->|E]; [eauto|]. destruct (IHForall2 E) as [b Hb]. eauto. Qed.

  (** ** C31 *)
  Lemma div_sub_neg x v r : r < 0 -> (x / r - v / r <= 0 <-> x >= v).
  Proof.
    intros Hr. assert (/ r < 0) by (apply Rinv_lt_0_compat; auto). unfold Rdiv. split; intros H1.
    - apply Rle_ge. nra.
    - nra.
  Qed.
  Lemma auto_sign c x v r : r <> 0 ->
    (match c with EQ => sign_of (op_string c) * (x / r - v / r) = 0 | _ => sign_of (op_string c) * (x / r - v / r) <= 0 end
     <-> meets1 (if Rlt_dec r 0 then flip c else c) v x).
  Proof.
    intros Hr. destruct (Rlt_dec r 0) as [N|N].
    - destruct c; unfold sign_of; cbn [op_string flip meets1 String.eqb Ascii.eqb Bool.eqb].
      + rewrite Rmult_1_l. apply div_sub_neg; auto.
      + pose proof (div_sub_neg v x r N) as H. split; intros H1.
        * apply Rge_le, H. lra.
        * apply Rle_ge, H in H1. lra.
      + rewrite Rmult_1_l. split; intros H; [|subst; lra].
        apply Rmult_eq_reg_r with (/ r); [unfold Rdiv in H; lra|apply Rinv_neq_0_compat; auto].
    - assert (Hp : 0 < r) by lra. destruct c; unfold sign_of; cbn [op_string meets1 String.eqb Ascii.eqb Bool.eqb].
      + rewrite Rmult_1_l. apply scaled_le; auto.
      + apply scaled_ge; auto.
      + apply scaled_eq; auto.
  Qed.

  Lemma map2_combine {A B C} (f : A -> B -> C) l m : map2 f l m = map (fun p => f (fst p) (snd p)) (combine l m).
  Proof. revert m; induction l; destruct m; simpl; auto. f_equal; auto. Qed.

  Lemma auto_unit_meaning (ns : namespace P) name c val mode sp qp d p q fld ref :
    parse_constraints ndofs ns [name] [op_string c] [UNone] [val] mode sp = Ok p ->
    not_approx mode -> ns name = Some (AQuantity q) -> plain q mode qp d fld ->
    call q qp [("phi", Arr [ndofs qp] (repeat 0 (ndofs qp)))] = Ok ref ->
    wf ref -> sh ref = sh fld -> (forall r, In r (el ref) -> r <> 0) ->
    (system_holds p qp d <->
     forall x r, In (x, r) (combine (el fld) (el ref)) ->
       meets1 (if Rlt_dec r 0 then flip c else c) val x).
  Proof.
    intros H NA E Pl Er Wr Sr Nz.
    destruct (parse_constraints_val ns [RC name (op_string c) UNone val] mode sp p H) as [l [F [HG HH]]].
    inversion F as [|c0 a cs l' A F' E1 E2]; subst. inversion F'; subst. clear F F'.
    cbn [rc_name rc_type rc_unit rc_val] in A.
    assert (W : wf fld) by apply Pl.
    (* the parts of [a] *)
    assert (Ha : ad_g a = [] /\ ad_h a = [] /\ ad_unit a qp = Ok ref /\
              ad_f a qp d = Ok (Arr (sh fld) (map2 Rdiv (el fld) (el ref)))).
    { revert A. unfold add_quantity, get_quantity. rewrite E. cbn [bind].
      destruct Pl as [_ [[-> Hr]|[-> [func [[reg [compat I]] Hr]]]]].
      - unfold scaled_f_impl, scaled_g_ineq_impl, scaled_h_eq_impl, scaled_slack_dofs_init, slack_only.
        cbn [bind]. destruct (mem _ (q_compat q)); [|discriminate].
        cbn [negb unit_callable bind]. intros H0. inversion H0. cbn [ad_f ad_g ad_h ad_unit].
        repeat split; auto. unfold apply_unit. rewrite Er. cbn [bind]. rewrite Hr. cbn [bind].
        apply op2_same; auto.
      - unfold init_quantity in I. cbn in I. inversion I; subst q.
        unfold scaled_f_impl, scaled_g_ineq_impl, scaled_h_eq_impl, scaled_slack_dofs_init, slack_only.
        cbn [bind String.eqb Ascii.eqb Bool.eqb q_slack_f q_slack_g q_slack_h q_slack_init].
        destruct (mem _ _); [|discriminate].
        cbn [negb unit_callable bind]. intros H0. inversion H0. cbn [ad_f ad_g ad_h ad_unit].
        repeat split; auto. unfold apply_unit. rewrite Er. cbn [bind]. rewrite Hr. cbn [bind].
        apply op2_same; auto. }
    destruct Ha as [Hg [Hh [Hu Hf]]].
    assert (L2 : length (el fld) = length (el ref)) by (rewrite W, Wr, Sr; auto).
    set (k := cf (RC name (op_string c) UNone val) a mode sp) in *.
    assert (Ek : k qp d = Ok (Arr (sh fld) (map (fun pr => sign_of (op_string c) * (fst pr / snd pr - val / snd pr)) (combine (el fld) (el ref))))).
    { unfold k, cf, cons_func_centered. cbn [rc_val rc_type]. rewrite Hf. cbn [bind]. rewrite Hu. cbn [bind].
      rewrite op2_scal_l by auto. cbn [bind].
      rewrite op2_same; [| |red; cbn [sh el]; rewrite map_length; exact Wr|cbn [sh]; auto].
      2: { red. cbn [sh el]. rewrite map2_length by auto. rewrite <- L2. exact W. }
      cbn [bind]. unfold amap. cbn [sh el].
      assert (EL : map (fun x => sign_of (op_string c) * x) (map2 Rminus (map2 Rdiv (el fld) (el ref)) (map (fun y => val / y) (el ref)))
        = map (fun pr => sign_of (op_string c) * (fst pr / snd pr - val / snd pr)) (combine (el fld) (el ref))).
      { clear. generalize (el ref). induction (el fld) as [|x l IH]; intros [|r m]; simpl; auto. f_equal; auto. }
      rewrite EL.
      destruct mode as [s|]; [|reflexivity].
      destruct (String.eqb_spec s "approx"); [subst; exfalso; apply NA; reflexivity|]. reflexivity. }
    assert (EQV : system_holds p qp d <->
       exists o, k qp d = Ok o /\ match c with EQ => all_eq0 o | _ => all_le0 o end).
    { unfold system_holds. split.
      - intros [H1 H2]. destruct c.
        + apply H1, HG. exists (RC name (op_string LE) UNone val), a. split; [left; auto|]. right. split; [discriminate|auto].
        + apply H1, HG. exists (RC name (op_string GE) UNone val), a. split; [left; auto|]. right. split; [discriminate|auto].
        + apply H2, HH. exists (RC name (op_string EQ) UNone val), a. split; [left; auto|]. right. auto.
      - intros Hk. split.
        + intros g Hgi. apply HG in Hgi as [c' [a' [[X|[]] Y]]]. inversion X; subst c' a'.
          destruct Y as [Y|[Y ->]]; [rewrite Hg in Y; destruct Y|].
          destruct c; [exact Hk|exact Hk|exfalso; apply Y; reflexivity].
        + intros g Hgi. apply HH in Hgi as [c' [a' [[X|[]] Y]]]. inversion X; subst c' a'.
          destruct Y as [Y|[Y ->]]; [rewrite Hh in Y; destruct Y|].
          destruct c; [discriminate Y|discriminate Y|exact Hk]. }
    rewrite EQV, Ek. clear EQV. split.
    - intros [o [Eo Ho]] x r Hxr. inversion Eo; subst o. clear Eo.
      apply auto_sign; [apply in_combine_r in Hxr; auto|].
      destruct c; cbn [all_le0 all_eq0] in Ho; apply (Ho _ (in_map _ _ _ Hxr)).
    - intros Hm. eexists. split; [reflexivity|].
      destruct c; intros y Hy; cbn [el] in Hy; apply in_map_iff in Hy as [[x r] [<- Hxr]]; cbn [fst snd];
        pose proof (Hm x r Hxr) as Hx; apply auto_sign in Hx; auto; apply in_combine_r in Hxr; auto.
  Qed.

  (** With a positive reference everywhere the meaning is preserved; with a
      negative one it is reversed. *)
  Lemma auto_unit_positive (ns : namespace P) name c val mode sp qp d p q fld ref :
    parse_constraints ndofs ns [name] [op_string c] [UNone] [val] mode sp = Ok p ->
    not_approx mode -> ns name = Some (AQuantity q) -> plain q mode qp d fld ->
    call q qp [("phi", Arr [ndofs qp] (repeat 0 (ndofs qp)))] = Ok ref ->
    wf ref -> sh ref = sh fld ->
    ((forall r, In r (el ref) -> 0 < r) -> (system_holds p qp d <-> meets c val fld)) /\
    ((forall r, In r (el ref) -> r < 0) -> (system_holds p qp d <-> meets (flip c) val fld)).
  Proof.
    intros H NA E Pl Er Wr Sr.
    assert (W : wf fld) by apply Pl.
    assert (L2 : length (el fld) = length (el ref)) by (rewrite W, Wr, Sr; auto).
    assert (X : forall x, In x (el fld) -> exists r, In (x, r) (combine (el fld) (el ref))).
    { revert L2. clear. generalize (el ref). induction (el fld) as [|y l IH]; intros [|r m] L x Hx;
        simpl in *; try discriminate; try easy. destruct Hx as [->|Hx]; [eauto|].
      injection L as L. destruct (IH m L x Hx) as [r' Hr']. eauto. }
    split; intros Hs; rewrite (auto_unit_meaning _ _ _ _ _ _ _ _ _ _ _ _ H NA E Pl Er Wr Sr)
      by (intros r Hr; specialize (Hs r Hr); lra); unfold meets; split.
    - intros Hm x Hx. destruct (X x Hx) as [r Hr]. pose proof (Hm x r Hr) as Y.
      apply in_combine_r in Hr. specialize (Hs r Hr). destruct (Rlt_dec r 0); [lra|]. destruct c; exact Y.
    - intros Hm x r Hr. pose proof (Hm x (in_combine_l _ _ _ _ Hr)) as Y.
      apply in_combine_r in Hr. specialize (Hs r Hr). destruct (Rlt_dec r 0); [lra|]. destruct c; exact Y.
    - intros Hm x Hx. destruct (X x Hx) as [r Hr]. pose proof (Hm x r Hr) as Y.
      apply in_combine_r in Hr. specialize (Hs r Hr). destruct (Rlt_dec r 0); [|lra]. destruct c; exact Y.
    - intros Hm x r Hr. pose proof (Hm x (in_combine_l _ _ _ _ Hr)) as Y.
      apply in_combine_r in Hr. specialize (Hs r Hr). destruct (Rlt_dec r 0); [|lra]. destruct c; exact Y.
  Qed.

  (** ** C32 *)
  Lemma smooth_approx_add (ns : namespace P) name u use sp a q func qp d fld :
    add_quantity ndofs ns name (UScalar u) use (Some "approx") sp = Ok a -> ns name = Some (AQuantity q) ->
    smooth_quantity q func -> func qp d = Ok fld -> wf fld ->
    ad_f a qp d = Ok (Arr (sh fld) (map (fun x => x / Rabs u) (el fld))) /\
    ad_unit a = (fun _ => Ok (scal (Rabs u))) /\ ad_g a = [] /\ ad_h a = [].
  Proof.
    unfold add_quantity, get_quantity. intros H E [reg [compat I]] Hr W. rewrite E in H. cbn [bind] in H.
    unfold init_quantity in I. cbn in I. inversion I; subst q.
    unfold scaled_f_impl, scaled_g_ineq_impl, scaled_h_eq_impl, scaled_slack_dofs_init, slack_only in H.
    cbn [bind String.eqb Ascii.eqb Bool.eqb q_slack_f q_slack_g q_slack_h q_slack_init q_approx] in H.
    destruct (mem use _); [|discriminate H].
    cbn [negb unit_callable bind] in H. inversion H; subst a. cbn [ad_f ad_unit ad_g ad_h].
    repeat split; auto. unfold apply_unit. cbn [bind]. rewrite Hr. cbn [bind]. apply op2_scal_r; auto.
  Qed.

  Lemma centered_approx (f : callable P) val uc sign sp eps qp d fld u :
    f qp d = Ok (Arr (sh fld) (map (fun x => x / u) (el fld))) -> wf fld -> sh fld <> [] ->
    uc qp = Ok (scal u) -> lookup "lse_epsilon" sp = Some eps ->
    cons_func_centered f val uc sign (Some "approx") sp qp d
    = Ok (scal (max_lse (map (fun x => sign * (x / u - val / u)) (el fld)) eps)).
  Proof.
    intros Hf W Ns Hu He. unfold cons_func_centered. rewrite Hf. cbn [bind]. rewrite Hu. cbn [bind].
    rewrite op2_scal. cbn [bind].
    rewrite op2_scal_r by (red; cbn [el sh]; rewrite map_length; exact W). cbn [bind].
    unfold amap. cbn [sh el]. rewrite !map_map.
    cbn [String.eqb Ascii.eqb Bool.eqb andb]. unfold isscalar. cbn [sh].
    destruct (sh fld) eqn:S; [congruence|]. cbn [negb]. unfold getitem. rewrite He. reflexivity.
  Qed.

  Lemma approx_conservative (ns : namespace P) cs sp eps qp d p :
    parse_constraints ndofs ns (map uc_name cs) (map (fun c => op_string (uc_cmp c)) cs)
      (map (fun c => UScalar (uc_unit c)) cs) (map uc_val cs) (Some "approx") sp = Ok p ->
    lookup "lse_epsilon" sp = Some eps -> 0 < eps ->
    system_holds p qp d ->
    forall c q func fld, In c cs -> uc_unit c <> 0 -> uc_cmp c <> EQ ->
      ns (uc_name c) = Some (AQuantity q) -> smooth_quantity q func ->
      func qp d = Ok fld -> wf fld -> sh fld <> [] ->
      meets (uc_cmp c) (uc_val c) fld.
  Proof.
    intros H He Ep [SG SH] c q func fld Hc Hu Hc2 E Sm Hf W Ns.
    set (conv := fun c => RC (uc_name c) (op_string (uc_cmp c)) (UScalar (uc_unit c)) (uc_val c)).
    assert (H' : parse_constraints ndofs ns (map rc_name (map conv cs)) (map rc_type (map conv cs))
       (map rc_unit (map conv cs)) (map rc_val (map conv cs)) (Some "approx") sp = Ok p)
      by (rewrite !map_map; exact H).
    destruct (parse_constraints_val _ _ _ _ _ H') as [l [F [HG HH]]].
    destruct (F2_left _ _ _ (conv c) F (in_map conv _ _ Hc)) as [a Ha].
    pose proof (F2_combine _ _ _ _ _ F Ha) as A. cbn [conv rc_name rc_type rc_unit] in A.
    destruct (smooth_approx_add _ _ _ _ _ _ _ _ _ _ _ A E Sm Hf W) as [Vf [Vu [Vg Vh]]].
    assert (Hpos : 0 < Rabs (uc_unit c)) by (apply Rabs_pos_lt; auto).
    destruct (SG (cf (conv c) a (Some "approx") sp)) as [o [Eo Ho]].
    { apply HG. exists (conv c), a. split; auto. right. split; auto. cbn. destruct (uc_cmp c); [discriminate|discriminate|congruence]. }
    unfold cf in Eo.
    rewrite (centered_approx (ad_f a) _ (ad_unit a) _ sp eps qp d fld (Rabs (uc_unit c)) Vf W Ns) in Eo;
      [|rewrite Vu; reflexivity|auto].
    inversion Eo; subst o. specialize (Ho _ (or_introl eq_refl)).
    intros x Hx.
    set (m := map (fun x => sign_of (rc_type (conv c)) * (x / Rabs (uc_unit c) - rc_val (conv c) / Rabs (uc_unit c))) (el fld)) in *.
    assert (Hm : In (sign_of (op_string (uc_cmp c)) * (x / Rabs (uc_unit c) - uc_val c / Rabs (uc_unit c))) m)
      by (apply (in_map (fun x => sign_of (rc_type (conv c)) * (x / Rabs (uc_unit c) - rc_val (conv c) / Rabs (uc_unit c)))); auto).
    assert (Ho' : max_lse m eps <= 0) by exact Ho.
    assert (Ne : m <> []) by (intros Z; rewrite Z in Hm; destruct Hm).
    destruct (exists_max m Ne) as [M HM]. pose proof (max_lse_bounds m eps M Ep HM) as B.
    destruct HM as [_ HM]. specialize (HM _ Hm).
    destruct (uc_cmp c); [|  |congruence]; unfold sign_of in HM; simpl in HM.
    - rewrite Rmult_1_l in HM. apply (scaled_le x (uc_val c) (Rabs (uc_unit c))); auto. lra.
    - apply (scaled_ge x (uc_val c) (Rabs (uc_unit c))); auto. lra.
  Qed.

  (** The price of smoothing: a margin of eps*ln(n) (in units of the unit) is
      enough to be accepted. *)
  Lemma approx_margin (ns : namespace P) cs sp eps qp d p :
    parse_constraints ndofs ns (map uc_name cs) (map (fun c => op_string (uc_cmp c)) cs)
      (map (fun c => UScalar (uc_unit c)) cs) (map uc_val cs) (Some "approx") sp = Ok p ->
    lookup "lse_epsilon" sp = Some eps -> 0 < eps ->
    (forall c, In c cs -> uc_unit c <> 0 /\ uc_cmp c <> EQ /\ exists q func fld,
       ns (uc_name c) = Some (AQuantity q) /\ smooth_quantity q func /\ func qp d = Ok fld /\ wf fld /\
       sh fld <> [] /\ el fld <> [] /\
       let margin := Rabs (uc_unit c) * (eps * ln (INR (length (el fld)))) in
       meets (uc_cmp c) (match uc_cmp c with GE => uc_val c + margin | _ => uc_val c - margin end) fld) ->
    system_holds p qp d.
  Proof.
    intros H He Ep Hcs.
    set (conv := fun c => RC (uc_name c) (op_string (uc_cmp c)) (UScalar (uc_unit c)) (uc_val c)).
    assert (H' : parse_constraints ndofs ns (map rc_name (map conv cs)) (map rc_type (map conv cs))
       (map rc_unit (map conv cs)) (map rc_val (map conv cs)) (Some "approx") sp = Ok p)
      by (rewrite !map_map; exact H).
    destruct (parse_constraints_val _ _ _ _ _ H') as [l [F [HG HH]]].
    assert (K : forall c0 a, In (c0, a) (combine (map conv cs) l) -> exists c, In c cs /\ c0 = conv c).
    { intros c0 a Hi. apply in_combine_l in Hi. apply in_map_iff in Hi as [c [<- Hc]]. eauto. }
    split.
    - intros g Hg. apply HG in Hg as [c0 [a [Hi Y]]]. destruct (K _ _ Hi) as [c [Hc ->]].
      destruct (Hcs c Hc) as [Hu [Hc2 [q [func [fld [E [Sm [Hf [W [Ns [Ne Hm]]]]]]]]]]].
      pose proof (F2_combine _ _ _ _ _ F Hi) as A. cbn [conv rc_name rc_type rc_unit] in A.
      destruct (smooth_approx_add _ _ _ _ _ _ _ _ _ _ _ A E Sm Hf W) as [Vf [Vu [Vg Vh]]].
      destruct Y as [Y|[_ ->]]; [rewrite Vg in Y; destruct Y|].
      unfold cf.
      rewrite (centered_approx (ad_f a) _ (ad_unit a) _ sp eps qp d fld (Rabs (uc_unit c)) Vf W Ns);
        [|rewrite Vu; reflexivity|auto].
      eexists. split; [reflexivity|]. intros y [<-|[]].
      assert (Hpos : 0 < Rabs (uc_unit c)) by (apply Rabs_pos_lt; auto).
      set (f0 := fun x => sign_of (rc_type (conv c)) * (x / Rabs (uc_unit c) - rc_val (conv c) / Rabs (uc_unit c))).
      assert (Ne' : map f0 (el fld) <> []) by (apply map_nonempty; auto).
      destruct (exists_max _ Ne') as [M HM]. pose proof (max_lse_bounds _ eps M Ep HM) as B.
      rewrite map_length in B. destruct HM as [HM _]. apply in_map_iff in HM as [x [<- Hx]].
      specialize (Hm x Hx). apply Rle_trans with (1 := proj2 B). unfold f0. cbn [conv rc_type rc_val].
      set (mg := eps * ln (INR (length (el fld)))) in *.
      assert (Emg : Rabs (uc_unit c) * mg / Rabs (uc_unit c) = mg) by (field; lra).
      destruct (uc_cmp c); [| |congruence]; unfold sign_of; simpl.
      + pose proof (div_mono _ _ _ Hpos Hm) as D. unfold Rdiv in D, Emg |- *. rewrite Rmult_minus_distr_r in D. lra.
      + apply Rge_le in Hm. pose proof (div_mono _ _ _ Hpos Hm) as D. unfold Rdiv in D, Emg |- *. rewrite Rmult_plus_distr_r in D. lra.
    - intros h Hh. apply HH in Hh as [c0 [a [Hi Y]]]. destruct (K _ _ Hi) as [c [Hc ->]].
      destruct (Hcs c Hc) as [Hu [Hc2 [q [func [fld [E [Sm [Hf [W [Ns [Ne Hm]]]]]]]]]]].
      pose proof (F2_combine _ _ _ _ _ F Hi) as A. cbn [conv rc_name rc_type rc_unit] in A.
      destruct (smooth_approx_add _ _ _ _ _ _ _ _ _ _ _ A E Sm Hf W) as [Vf [Vu [Vg Vh]]].
      destruct Y as [Y|[Y _]]; [rewrite Vh in Y; destruct Y|].
      cbn in Y. destruct (uc_cmp c); [discriminate|discriminate|congruence].
  Qed.

  (** ** C35 *)
  Lemma collect_ok (rs : list (result arr)) outs : collect rs = Ok outs <-> rs = map Ok outs.
  Proof.
    revert outs. induction rs as [|r rs IH]; intros outs; simpl.
    - split; [intros H; inversion H; auto|destruct outs; [auto|discriminate]].
    - destruct r as [x|e]; cbn [bind].
      + destruct (collect rs) as [y|e] eqn:C; cbn [bind].
        * split.
          -- intros H. inversion H; subst. simpl. f_equal. apply IH. auto.
          -- destruct outs as [|o outs]; [discriminate|]. simpl. intros H. inversion H; subst.
             destruct (IH outs) as [_ I]. specialize (I eq_refl). inversion I; subst. auto.
        * split; [discriminate|]. destruct outs as [|o outs]; [discriminate|]. simpl. intros H. inversion H.
          destruct (IH outs) as [_ I]. specialize (I H2). discriminate I.
      + split; [discriminate|]. destruct outs; discriminate.
  Qed.
  Lemma el_flat o : el (flatten (atleast_1d o)) = el o.
  Proof. unfold flatten, atleast_1d. destruct (sh o); reflexivity. Qed.

  Definition present (fs : list (option (callable P))) : list (callable P) :=
    flat_map (fun o => match o with Some f => [f] | None => [] end) fs.

  Lemma in_present f fs : In f (present fs) <-> In (Some f) fs.
  Proof.
    unfold present. rewrite in_flat_map. split.
    - intros [[g|] [H1 H2]]; [destruct H2 as [->|[]]; auto|destruct H2].
    - intros H. exists (Some f). split; [auto|left; auto].
  Qed.

  Lemma merge_plain (fs : list (option (callable P))) mode sp qp d :
    (forall f, In (Some f) fs -> exists o, f qp d = Ok o) ->
    exists out, merge_callables fs false mode sp qp d = Ok out /\
      (all_le0 out <-> forall f o, In (Some f) fs -> f qp d = Ok o -> all_le0 o) /\
      (all_eq0 out <-> forall f o, In (Some f) fs -> f qp d = Ok o -> all_eq0 o).
  Proof.
    intros Hall. unfold merge_callables. fold (present fs).
    assert (X : exists outs, map (fun f : callable P => f qp d) (present fs) = map Ok outs).
    { assert (Y : forall f, In f (present fs) -> exists o, f qp d = Ok o) by (intros f Hf; apply Hall, in_present; auto).
      revert Y. generalize (present fs). clear. induction l as [|f l IH]; intros Y; [exists []; auto|].
      destruct (Y f (or_introl eq_refl)) as [o Ho]. destruct IH as [outs E]; [intros; apply Y; right; auto|].
      exists (o :: outs). simpl. rewrite Ho, E. auto. }
    destruct X as [outs E]. rewrite (proj2 (collect_ok _ outs) E). cbn [bind].
    assert (EL : concat (map el (map (fun o => flatten (atleast_1d o)) outs)) = concat (map el outs)).
    { rewrite map_map. f_equal. apply map_ext. intros. apply el_flat. }
    assert (R : forall Q : R -> Prop, (forall x, In x (concat (map el outs)) -> Q x) <->
       forall f o, In (Some f) fs -> f qp d = Ok o -> forall x, In x (el o) -> Q x).
    { intros Q. split.
      - intros H f o Hf Ho x Hx. apply H, in_concat. exists (el o). split; auto. apply in_map.
        apply in_present in Hf. apply (in_map (fun f : callable P => f qp d)) in Hf. rewrite E, Ho in Hf.
        apply in_map_iff in Hf as [o' [Eo Ho']]. inversion Eo; subst; auto.
      - intros H x Hx. apply in_concat in Hx as [y [Hy Hxy]]. apply in_map_iff in Hy as [o [<- Ho]].
        apply (in_map Ok) in Ho. rewrite <- E in Ho. apply in_map_iff in Ho as [f [Ef Hf]].
        apply (H f o); auto. apply in_present; auto. }
    assert (M : exists out, (match map (fun o => flatten (atleast_1d o)) outs with
              | [] => Ok (Arr [0%nat] [])
              | _ :: _ => Ok (Arr [length (concat (map el (map (fun o => flatten (atleast_1d o)) outs)))]
                    (concat (map el (map (fun o => flatten (atleast_1d o)) outs)))) end) = Ok out /\
              el out = concat (map el outs)).
    { destruct outs as [|o outs].
      - eexists. split; reflexivity.
      - eexists. split; [reflexivity|]. cbn [el]. exact EL. }
    destruct M as [out [M1 M2]]. exists out. split.
    - destruct outs; exact M1.
    - unfold all_le0, all_eq0. rewrite M2. split; [apply R|apply R].
  Qed.

  Lemma merge_single (fs : list (option (callable P))) sp qp d out eps :
    lookup "lse_epsilon" sp = Some eps -> 0 < eps ->
    merge_callables fs true (Some "approx") sp qp d = Ok out ->
    (exists f, In (Some f) fs) ->
    length (el out) = 1%nat /\
    (all_le0 out -> forall f o, In (Some f) fs -> f qp d = Ok o -> all_le0 o).
  Proof.
    intros He Ep H [f0 Hf0]. unfold merge_callables in H. fold (present fs) in H.
    destruct (collect (map (fun f : callable P => f qp d) (present fs))) as [outs|e] eqn:C; [|discriminate H].
    cbn [bind] in H. apply collect_ok in C.
    destruct outs as [|o0 outs].
    { apply in_present in Hf0. destruct (present fs); [destruct Hf0|discriminate C]. }
    set (l := o0 :: outs) in *. simpl in H. unfold getitem in H. rewrite He in H. cbn [bind] in H.
    destruct (_ && _) in H; [|discriminate H]. inversion H; subst out. split; [reflexivity|].
    intros Hle f o Hf Ho x Hx. specialize (Hle _ (or_introl eq_refl)).
    set (m := el (flatten (atleast_1d o0)) ++ concat (map el (map (fun o1 => flatten (atleast_1d o1)) outs))) in *.
    assert (Hm : In x m).
    { change m with (concat (map el (map (fun o1 => flatten (atleast_1d o1)) l))).
      apply in_concat. exists (el o). split; auto.
      apply in_present in Hf. apply (in_map (fun f : callable P => f qp d)) in Hf. rewrite C, Ho in Hf.
      apply in_map_iff in Hf as [o' [Eo Ho']]. inversion Eo; subst. rewrite map_map.
      apply in_map_iff. exists o. split; auto. apply el_flat. }
    assert (Hle' : max_lse m eps <= 0) by exact Hle.
    assert (Ne : m <> []) by (intros Z; rewrite Z in Hm; destruct Hm).
    destruct (exists_max m Ne) as [M HM]. pose proof (max_lse_bounds m eps M Ep HM) as B.
    destruct HM as [_ HM]. specialize (HM _ Hm). lra.
  Qed.

  Lemma merge_refused (fs : list (option (callable P))) mode sp qp d :
    mode <> Some "approx" -> (exists f, In (Some f) fs) ->
    (forall f, In (Some f) fs -> exists o, f qp d = Ok o) ->
    merge_callables fs true mode sp qp d = Raise AttributeError.
  Proof.
    intros Hm [f0 Hf0] Hall. unfold merge_callables. fold (present fs).
    assert (X : exists outs, map (fun f : callable P => f qp d) (present fs) = map Ok outs).
    { assert (Y : forall f, In f (present fs) -> exists o, f qp d = Ok o) by (intros f Hf; apply Hall, in_present; auto).
      revert Y. generalize (present fs). clear. induction l as [|f l IH]; intros Y; [exists []; auto|].
      destruct (Y f (or_introl eq_refl)) as [o Ho]. destruct IH as [outs E]; [intros; apply Y; right; auto|].
      exists (o :: outs). simpl. rewrite Ho, E. auto. }
    destruct X as [outs E]. rewrite (proj2 (collect_ok _ outs) E). cbn [bind].
    destruct outs as [|o outs].
    { apply in_present in Hf0. destruct (present fs); [destruct Hf0|discriminate E]. }
    cbn [map]. destruct mode as [s|]; [|reflexivity].
    destruct (String.eqb_spec s "approx"); [subst; congruence|reflexivity].
  Qed.

  (** ** C36 *)
  Lemma slack_add ss func aux pd sqr au reg reg' q (ns : namespace P) name u use sp a :
    init_quantity reg (generate_linf_norm P ss func aux pd sqr au) = (reg', Ok q) ->
    ns name = Some (AQuantity q) ->
    add_quantity ndofs ns name (UScalar u) use (Some "slack") sp = Ok a ->
    ad_f a = apply_unit (fun _ => Ok (scal (Rabs u))) (linf_slack_f aux sqr) /\
    ad_g a = [apply_unit (fun _ => Ok (scal (Rabs u))) (linf_slack_g P ss func aux pd sqr au)] /\
    ad_h a = [] /\ ad_unit a = (fun _ => Ok (scal (Rabs u))).
  Proof.
    intros I E H. apply linf_built in I. subst q.
    unfold add_quantity, get_quantity in H. rewrite E in H. cbn [bind] in H.
    unfold scaled_f_impl, scaled_g_ineq_impl, scaled_h_eq_impl, scaled_slack_dofs_init, slack_only in H.
    cbn [bind String.eqb Ascii.eqb Bool.eqb q_slack_f q_slack_g q_slack_h q_slack_init q_compat] in H.
    destruct (mem use _); [|discriminate H].
    cbn [negb unit_callable bind] in H. inversion H; subst a. cbn [ad_f ad_unit ad_g ad_h]. auto.
  Qed.

  Lemma sq_le_iff a b : 0 <= a -> (forall t, a <= t -> sq t <= b) \/ True -> (exists t, a <= t /\ sq t <= b) <-> sq a <= b.
  Proof.
    intros Ha _. split.
    - intros [t [H1 H2]]. apply Rle_trans with (sq t); auto. apply sq_mono; auto.
    - intros H. exists a. split; [lra|auto].
  Qed.

  Lemma slack_f_val aux sqr (qp : P) phi t u : aux <> "phi" ->
    linf_slack_f aux sqr qp (state phi aux (scal t)) u = Ok (scal (if sqr then sq t else t)).
  Proof.
    intros Ha. unfold linf_slack_f, getitem. rewrite lookup_state_aux by auto. cbn [bind]. destruct sqr; reflexivity.
  Qed.

  Lemma raw_div_sq (sqr : bool) M u : 0 < u ->
    (if sqr then sq (M / (if sqr then sqrt u else u)) else M / (if sqr then sqrt u else u)) = (if sqr then sq M else M) / u.
  Proof. intros Hu. destruct sqr; [apply sqrt_div_sq; auto|reflexivity]. Qed.

  (** A slack quantity used in any number of objectives (weights >= 0) and
      upper bounds, all with units of the same size. *)
  Lemma repeated_equal_units ss func aux pd sqr au reg reg' q (ns : namespace P) name sp
      (ounits : list R) (ws : list R) (cs : list (R * R)) f po pc :
    init_quantity reg (generate_linf_norm P ss func aux pd sqr au) = (reg', Ok q) ->
    ns name = Some (AQuantity q) -> aux <> "phi" -> phi_only func ->
    forall u, 0 < u -> (forall v : R, In v ounits -> Rabs v = u) -> (forall v : R * R, In v cs -> Rabs (fst v) = u) ->
    (ounits <> [] \/ cs <> []) -> (forall w, In w ws -> 0 <= w) ->
    parse_objectives ndofs ns (Objectives (map (fun _ => name) ounits) (map UScalar ounits)) ws (Some "slack") sp = Ok (f, po) ->
    parse_constraints ndofs ns (map (fun _ => name) cs) (map (fun _ => "<=") cs)
      (map (fun c => UScalar (fst c)) cs) (map snd cs) (Some "slack") sp = Ok pc ->
    forall (qp : P) phi fld raw, func qp [("phi", phi)] = Ok fld -> el fld <> [] ->
    (pd = true -> forall x, In x (el fld) -> 0 <= x) ->
    call q qp [("phi", phi)] = Ok (scal raw) ->
    forall bound,
    (exists t y, let d := state phi aux (scal t) in
       system_holds po qp d /\ system_holds pc qp d /\ f qp d = Ok (scal y) /\ y <= bound)
    <-> (forall c, In c cs -> raw <= snd c) /\ Rsum ws * (raw / u) <= bound.
  Proof.
    intros I E Ha Hphi u Hu Ho Hc Hne Hw HO HC qp phi fld raw Hf Hel Hpd Hraw bound.
    pose proof (linf_built _ _ _ _ _ _ _ _ _ _ I) as Hq.
    destruct (exists_max _ (map_nonempty Rabs _ Hel)) as [M HM].
    assert (HM0 : 0 <= M) by (eapply is_max_abs_nonneg; eauto).
    assert (Eraw : raw = if sqr then sq M else M).
    { rewrite Hq in Hraw. unfold call in Hraw. cbn in Hraw.
      rewrite (linf_raw_value func sqr qp _ fld M) in Hraw; [|auto|auto]. inversion Hraw; auto. }
    set (ue := if sqr then sqrt u else u).
    assert (Hue : 0 < ue) by (unfold ue; destruct sqr; auto; apply sqrt_lt_R0; auto).
    set (val := fun t => if sqr then sq t else t).
    assert (Vmono : forall a b, 0 <= a -> a <= b -> val a <= val b) by (intros; unfold val; destruct sqr; auto; apply sq_mono; auto).
    assert (Vraw : val (M / ue) = raw / u) by (unfold val, ue; rewrite Eraw; apply raw_div_sq; auto).
    assert (HMu : 0 <= M / ue) by (apply Rmult_le_pos; [auto|]; left; apply Rinv_0_lt_compat; auto).
    (* one generated slack inequality *)
    set (G := apply_unit (fun _ => Ok (scal u)) (linf_slack_g P ss func aux pd sqr au)).
    assert (HG : forall t, exists gv, G qp (state phi aux (scal t)) = Ok gv /\ (all_le0 gv <-> M / ue <= t)).
    { intros t. destruct (linf_g_value P ss func aux pd sqr au qp (state phi aux (scal t)) fld u t) as [gv [Eg El]].
      - rewrite phi_state; auto.
      - apply lookup_state_aux; auto.
      - exists gv. split; [exact Eg|]. unfold all_le0. rewrite El.
        fold ue. rewrite linf_g_le0 by auto. split.
        + intros H. destruct HM as [Hi _]. apply in_map_iff in Hi as [x [<- Hx]]. auto.
        + intros H x Hx. apply Rle_trans with (M / ue); auto. apply div_mono; auto. apply HM. apply in_map; auto. }
    (* objectives *)
    destruct (objective_sum _ _ _ _ _ _ _ _ _ _ HO) as [lo [FO [Lo [OG [OH [_ OV]]]]]].
    assert (Ao : forall a, In a lo -> ad_f a = apply_unit (fun _ => Ok (scal u)) (linf_slack_f aux sqr) /\ ad_g a = [G] /\ ad_h a = []).
    { intros a Hin. clear -FO Hin Ho I E. revert lo FO Hin.
      induction ounits as [|v ou IH]; intros lo FO Hin; simpl in FO; inversion FO; subst; [destruct Hin|].
      destruct Hin as [->|Hin].
      - cbn [fst snd] in H1. destruct (slack_add _ _ _ _ _ _ _ _ _ _ _ _ _ _ _ I E H1) as [X1 [X2 [X3 X4]]].
        rewrite (Ho v (or_introl eq_refl)) in X1, X2. auto.
      - eapply IH; eauto. intros; apply Ho; right; auto. }
    assert (Lw : length ws = length ounits).
    { unfold parse_objectives in HO. rewrite map_length in HO.
      destruct (Nat.eqb_spec (length ounits) (length ws)); [auto|discriminate HO]. }
    rewrite map_length in Lo.
    assert (Fv : forall t, f qp (state phi aux (scal t)) = Ok (scal (Rsum ws * val t))).
    { intros t. rewrite (OV qp _ (map (fun _ => val t) lo)).
      - do 2 f_equal. clear -Lw Lo. assert (length ws = length lo) by congruence. clear Lw Lo.
        revert lo H. induction ws as [|w ws IH]; intros [|a lo] L; try discriminate; unfold Rsum in *; simpl; [ring|].
        simpl in L. rewrite (IH lo) by lia. ring.
      - clear -Ao Ha. induction lo as [|a lo IH]; simpl; constructor.
        + destruct (Ao a (or_introl eq_refl)) as [-> _]. unfold apply_unit. cbn [bind]. apply slack_f_val; auto.
        + apply IH. intros; apply Ao; right; auto. }
    assert (So : forall t, system_holds po qp (state phi aux (scal t)) <-> (ounits <> [] -> M / ue <= t)).
    { intros t. destruct (HG t) as [gv [Eg Kg]]. unfold system_holds. split.
      - intros [H1 _] Hn. destruct lo as [|a lo]; [destruct ounits; [congruence|discriminate Lo]|].
        destruct (H1 G) as [o [Eo Hle]]; [apply OG; exists a; split; [left; auto|]; destruct (Ao a (or_introl eq_refl)) as [_ [-> _]]; left; auto|].
        rewrite Eg in Eo. inversion Eo; subst. apply Kg; auto.
      - intros H. split.
        + intros g Hg. apply OG in Hg as [a [Hin Hg]]. destruct (Ao a Hin) as [_ [X _]]. rewrite X in Hg.
          destruct Hg as [<-|[]]. exists gv. split; auto. apply Kg. apply H. destruct ounits; [destruct lo; [destruct Hin|discriminate Lo]|discriminate].
        + intros h Hh. apply OH in Hh as [a [Hin Hh]]. destruct (Ao a Hin) as [_ [_ X]]. rewrite X in Hh. destruct Hh. }
    (* constraints *)
    set (conv := fun c : R * R => RC name "<=" (UScalar (fst c)) (snd c)).
    assert (HC' : parse_constraints ndofs ns (map rc_name (map conv cs)) (map rc_type (map conv cs))
       (map rc_unit (map conv cs)) (map rc_val (map conv cs)) (Some "slack") sp = Ok pc)
      by (rewrite !map_map; exact HC).
    destruct (parse_constraints_val _ _ _ _ _ HC') as [lc [FC [CG CH]]].
    assert (Ac : forall c a, In (c, a) (combine (map conv cs) lc) -> exists c0, In c0 cs /\ c = conv c0 /\
        ad_f a = apply_unit (fun _ => Ok (scal u)) (linf_slack_f aux sqr) /\ ad_g a = [G] /\ ad_h a = [] /\
        ad_unit a = (fun _ => Ok (scal u))).
    { intros c a Hin. pose proof (F2_combine _ _ _ _ _ FC Hin) as A.
      apply in_combine_l in Hin. apply in_map_iff in Hin as [c0 [<- Hc0]]. exists c0. split; auto. split; auto.
      cbn [conv rc_name rc_type rc_unit] in A.
      destruct (slack_add _ _ _ _ _ _ _ _ _ _ _ _ _ _ _ I E A) as [X1 [X2 [X3 X4]]].
      rewrite (Hc c0 Hc0) in X1, X2, X4. auto. }
    assert (Cv : forall c a t, In (c, a) (combine (map conv cs) lc) ->
       cf c a (Some "slack") sp qp (state phi aux (scal t)) = Ok (scal (val t - rc_val c / u))).
    { intros c a t Hin. destruct (Ac _ _ Hin) as [c0 [Hc0 [-> [X1 [X2 [X3 X4]]]]]].
      unfold cf, cons_func_centered. rewrite X1, X4. unfold apply_unit. cbn [bind]. rewrite slack_f_val by auto.
      cbn [bind]. rewrite !op2_scal. cbn [bind]. rewrite op2_scal. cbn [bind]. unfold amap. cbn [sh el scal map conv rc_type sign_of].
      unfold scal. cbn. unfold sign_of. simpl. rewrite Rmult_1_l. reflexivity. }
    assert (Sc : forall t, system_holds pc qp (state phi aux (scal t)) <->
       forall c, In c cs -> M / ue <= t /\ val t <= snd c / u).
    { intros t. destruct (HG t) as [gv [Eg Kg]]. unfold system_holds. split.
      - intros [H1 _] c Hcin. destruct (F2_left _ _ _ (conv c) FC (in_map conv _ _ Hcin)) as [a Hin].
        destruct (Ac _ _ Hin) as [c0 [Hc0 [Ec0 [X1 [X2 [X3 X4]]]]]]. split.
        + destruct (H1 G) as [o [Eo Hle]]; [apply CG; exists (conv c), a; split; auto; left; rewrite X2; left; auto|].
          rewrite Eg in Eo. inversion Eo; subst. apply Kg; auto.
        + destruct (H1 (cf (conv c) a (Some "slack") sp)) as [o [Eo Hle]];
            [apply CG; exists (conv c), a; split; auto; right; split; [discriminate|auto]|].
          rewrite (Cv _ _ _ Hin) in Eo. inversion Eo; subst. specialize (Hle _ (or_introl eq_refl)).
          cbn [conv rc_val] in Hle. lra.
      - intros H. split.
        + intros g Hg. apply CG in Hg as [c [a [Hin Y]]]. destruct (Ac _ _ Hin) as [c0 [Hc0 [-> [X1 [X2 [X3 X4]]]]]].
          destruct Y as [Y|[_ ->]].
          * rewrite X2 in Y. destruct Y as [<-|[]]. exists gv. split; auto. apply Kg. apply (H c0); auto.
          * rewrite (Cv _ _ _ Hin). eexists. split; [reflexivity|]. intros y [<-|[]]. cbn [conv rc_val].
            pose proof (proj2 (H c0 Hc0)). lra.
        + intros h Hh. apply CH in Hh as [c [a [Hin Y]]]. destruct (Ac _ _ Hin) as [c0 [Hc0 [-> [X1 [X2 [X3 X4]]]]]].
          destruct Y as [Y|[Y _]]; [rewrite X3 in Y; destruct Y|discriminate Y]. }
    assert (Ws : 0 <= Rsum ws).
    { clear -Hw. induction ws as [|w ws IH]; unfold Rsum in *; simpl; [lra|].
      pose proof (Hw w (or_introl eq_refl)). assert (0 <= fold_right Rplus 0 ws) by (apply IH; intros; apply Hw; right; auto). lra. }
    split.
    - intros [t [y [H1 [H2 [H3 H4]]]]]. cbv zeta in *. rewrite Fv in H3. inversion H3; subst y.
      pose proof (proj1 (So t) H1) as K1. pose proof (proj1 (Sc t) H2) as K2.
      assert (Kt : M / ue <= t).
      { destruct Hne as [Hn|Hn]; [auto|]. destruct cs as [|c cs']; [congruence|]. apply (K2 c). left; auto. }
      pose proof (Vmono _ _ HMu Kt) as Vt. rewrite Vraw in Vt. split.
      + intros c Hcin. destruct (K2 c Hcin) as [_ K3].
        assert (D : raw / u <= snd c / u) by lra. apply Rmult_le_reg_r with (/ u); [apply Rinv_0_lt_compat; auto|exact D].
      + apply Rle_trans with (2 := H4). apply Rmult_le_compat_l; auto.
    - intros [H1 H2]. exists (M / ue), (Rsum ws * val (M / ue)). cbv zeta.
      split; [apply So; intros; lra|]. split.
      + apply Sc. intros c Hcin. split; [lra|]. rewrite Vraw. apply div_mono; auto.
      + split; [apply Fv|]. rewrite Vraw. auto.
  Qed.

  (** ** C30, slack-type quantities *)
  Lemma slack_constraint_exact (ns : namespace P) name u val sp p (q : quantity P) qp phi aux raw adm :
    parse_constraints ndofs ns [name] ["<="] [UScalar u] [val] (Some "slack") sp = Ok p ->
    ns name = Some (AQuantity q) -> u <> 0 ->
    slack_exact q qp phi aux (Rabs u) (raw / Rabs u) adm ->
    ((exists s, adm s /\ system_holds p qp (state phi aux s)) <-> raw <= val).
  Proof.
    intros H E Hu SE. assert (Hpos : 0 < Rabs u) by (apply Rabs_pos_lt; auto).
    destruct (SE sp) as [F [G [EF [EG [EH [Hall [p0 [gv0 [Ap [Eg0 [Le0 Ef0]]]]]]]]]]].
    destruct (parse_constraints_val ns [RC name "<=" (UScalar u) val] (Some "slack") sp p H) as [l [FF [HG HH]]].
    inversion FF as [|c0 a cs l' A F' E1 E2]; subst. inversion F'; subst. clear FF F'.
    cbn [rc_name rc_type rc_unit rc_val] in A.
    assert (Ha : ad_f a = apply_unit (fun _ => Ok (scal (Rabs u))) F /\
                 ad_g a = [apply_unit (fun _ => Ok (scal (Rabs u))) G] /\ ad_h a = [] /\
                 ad_unit a = (fun _ => Ok (scal (Rabs u)))).
    { revert A. unfold add_quantity, get_quantity. rewrite E. cbn [bind]. rewrite EF. cbn [bind].
      rewrite EG. cbn [bind]. rewrite EH. cbn [bind]. unfold scaled_slack_dofs_init, slack_only.
      cbn [String.eqb Ascii.eqb Bool.eqb bind]. destruct (mem "<=" (q_compat q)); [|discriminate].
      cbn [negb unit_callable bind]. intros X. inversion X; subst a. cbn [ad_f ad_g ad_h ad_unit]. auto. }
    destruct Ha as [Hf [Hg [Hh Huu]]].
    set (k := cf (RC name "<=" (UScalar u) val) a (Some "slack") sp) in *.
    assert (Ek : forall s v, F qp (state phi aux s) (scal (Rabs u)) = Ok (scal v) ->
        k qp (state phi aux s) = Ok (scal (v - val / Rabs u))).
    { intros s v Ev. unfold k, cf, cons_func_centered. cbn [rc_val rc_type]. rewrite Hf, Huu. unfold apply_unit. cbn [bind].
      rewrite Ev. cbn [bind]. rewrite op2_scal. cbn [bind]. rewrite op2_scal. cbn [bind].
      unfold amap, scal. cbn. unfold sign_of. simpl. rewrite Rmult_1_l. reflexivity. }
    split.
    - intros [s [As [SG _]]]. destruct (Hall s As) as [v [gv [Ev [Eg Hl]]]].
      destruct (SG (apply_unit (fun _ => Ok (scal (Rabs u))) G)) as [o [Eo Ho]].
      { apply HG. eexists _, a. split; [left; reflexivity|]. left. rewrite Hg. left. reflexivity. }
      unfold apply_unit in Eo. cbn [bind] in Eo. rewrite Eg in Eo. inversion Eo; subst o.
      specialize (Hl Ho).
      destruct (SG k) as [o [Eo2 Ho2]].
      { apply HG. eexists _, a. split; [left; reflexivity|]. right. split; [discriminate|reflexivity]. }
      rewrite (Ek s v Ev) in Eo2. inversion Eo2; subst o. specialize (Ho2 _ (or_introl eq_refl)).
      apply Rmult_le_reg_r with (/ Rabs u); [apply Rinv_0_lt_compat; auto|]. unfold Rdiv in *. lra.
    - intros Hle. exists p0. split; auto. split.
      + intros g Hgi. apply HG in Hgi as [c' [a' [[X|[]] Y]]]. inversion X; subst c' a'.
        destruct Y as [Y|[_ ->]].
        * rewrite Hg in Y. destruct Y as [<-|[]]. exists gv0. split; auto.
        * exists (scal (raw / Rabs u - val / Rabs u)). split; [apply (Ek p0); auto|].
          intros y [<-|[]]. pose proof (div_mono _ _ _ Hpos Hle). lra.
      + intros h Hhi. apply HH in Hhi as [c' [a' [[X|[]] Y]]]. inversion X; subst c' a'.
        destruct Y as [Y|[Y _]]; [rewrite Hh in Y; destruct Y|discriminate Y].
  Qed.
End W.

Lemma single_objective P ndofs (ns : namespace P) name u ws ws' mode sp :
  parse_objectives ndofs ns (OneObjective name u) ws mode sp
  = parse_objectives ndofs ns (OneObjective name u) ws' mode sp /\
  parse_objectives ndofs ns (OneObjective name u) ws mode sp
  = parse_objectives ndofs ns (Objectives [name] [u]) [1] mode sp.
Proof. split; reflexivity. Qed.
Lemma mismatch_rejected P ndofs (ns : namespace P) names units ws mode sp : length names <> length ws ->
  parse_objectives ndofs ns (Objectives names units) ws mode sp = Raise ValueError.
Proof.
  intros H. unfold parse_objectives. destruct (Nat.eqb_spec (length names) (length ws)); [congruence|reflexivity].
Qed.
