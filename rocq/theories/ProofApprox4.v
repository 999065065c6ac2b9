(** The functions generated in approx mode, one number per constraint, and what they are worth. *)
From Coq Require Import String List Bool Arith ZArith Reals Lra Lia.
From Verif Require Import Base ModelArray ProofArray ModelMath SpecMath ProofMath ModelSurface SpecSurface ModelParams SpecField
  ModelQuantity SpecQuantity ProofQuantity ProofSlack ModelWrapper SpecWrapper ProofWrapper ProofWrapper2 ModelShipped ModelPackage SpecPackage
  SpecConvex ProofField3 ProofConvex PropConvex SpecBest SpecProblem ProofProblem ProofProblem2 SpecApprox ProofApprox ProofApprox2 ProofApprox3 SpecApproxCall.
Import ListNotations.
Open Scope R_scope.
Open Scope string_scope.
Open Scope list_scope.

Lemma add_approx_slack P ndofs ns name un use sp (a : added P) : add_quantity ndofs ns name (UScalar un) use (Some "approx") sp = Ok a -> ad_slack a = [] /\ ad_g a = [] /\ ad_h a = [].
Proof.
  unfold add_quantity. destruct (get_quantity ns name) as [Q|]; [|discriminate]. cbn [bind].
  unfold scaled_f_impl, scaled_g_ineq_impl, scaled_h_eq_impl, scaled_slack_dofs_init, slack_only.
  change (String.eqb "approx" "slack") with false. change (String.eqb "approx" "approx") with true. cbn [bind]. destruct (mem use (q_compat Q)); [|discriminate].
  cbn [negb unit_callable bind]. intros H. assert (H' : forall a b : added P, Ok a = Ok b -> a = b) by congruence. apply H' in H. subst a. auto.
Qed.

Section Generated.
  Variables (other : list string) (q : params) (eps : R) (os : list objective) (cs : list user_constraint).
  Variables (f : callable params) (po pc : parsed params).
  Hypothesis He : 0 < eps.
  Hypothesis O : ordered q.
  Hypothesis Uo : forall o, In o os -> 0 <= ob_weight o /\ smooth_use q (ob_name o) (ob_unit o).
  Hypothesis Uc : forall c, In c cs -> uc_cmp c <> EQ /\ smooth_use q (uc_name c) (uc_unit c).
  Hypothesis Sm : smoothed_problem other os cs eps f po pc.
  Notation sp := [("lse_epsilon", eps)].
  Definition centred (c : user_constraint) (a : added params) : callable params :=
    cons_func_centered (ad_f a) (uc_val c) (ad_unit a) (sign_of (op_string (uc_cmp c))) (Some "approx") sp.
  Definition added_for (c : user_constraint) (a : added params) : Prop :=
    add_quantity q_ndofs (package other) (uc_name c) (UScalar (uc_unit c)) (op_string (uc_cmp c)) (Some "approx") sp = Ok a.

  Lemma objective_lists : p_g po = [] /\ p_h po = [] /\ p_slack po = [].
  Proof using Sm.
    destruct (objective_parts _ _ _ _ _ _ _ (proj1 Sm)) as (l & F & _ & G & H & Sl). rewrite G, H, Sl. clear - F.
    assert (Z : forall a, In a l -> ad_slack a = [] /\ ad_g a = [] /\ ad_h a = []).
    { intros a I. destruct (F2_in_r _ _ _ _ F I) as (o & _ & A). exact (add_approx_slack _ _ _ _ _ _ _ _ A). }
    clear F. induction l as [|a l IH]; [auto|]. destruct (Z a (or_introl eq_refl)) as (Z1 & Z2 & Z3). cbn [map concat fold_left]. rewrite Z1, Z2, Z3. cbn [app].
    apply IH. intros; apply Z. now right.
  Qed.
  Lemma con_lists (ks : list user_constraint) acc p : (forall c, In c ks -> uc_cmp c <> EQ) -> p_slack acc = [] ->
    parse_cons_loop q_ndofs (package other) (map uc_name ks) (map (fun c => op_string (uc_cmp c)) ks) (map (fun c => UScalar (uc_unit c)) ks) (map uc_val ks) (Some "approx") sp acc = Ok p ->
    exists l, Forall2 added_for ks l /\ p_g p = p_g acc ++ map2 centred ks l /\ p_h p = p_h acc /\ p_slack p = [].
  Proof using.
    revert acc. induction ks as [|c ks IH]; intros acc Ne Ns H.
    - cbn in H. injection H as <-. exists []. split; [constructor|]. cbn [map2]. rewrite app_nil_r. auto.
    - cbn [map parse_cons_loop] in H. destruct (add_quantity _ _ _ _ _ _ _) as [a|e] eqn:E; [|discriminate H]. cbn [bind] in H. cbv zeta in H.
      destruct (add_approx_slack _ _ _ _ _ _ _ _ E) as (Z1 & Z2 & Z3). rewrite Z1, Z2, Z3, Ns, !app_nil_r in H.
      assert (Nc : uc_cmp c <> EQ) by (apply Ne; now left).
      assert (Ec : String.eqb (op_string (uc_cmp c)) "==" = false) by (destruct (uc_cmp c); [reflexivity|reflexivity|congruence]). rewrite Ec in H.
      assert (Em : mem (op_string (uc_cmp c)) ["<="; ">="] = true) by (destruct (uc_cmp c); [reflexivity|reflexivity|congruence]). rewrite Em in H.
      apply IH in H as (l & F & G & Hh & Sl); [|intros; apply Ne; now right|reflexivity]. exists (a :: l). split; [constructor; assumption|].
      cbn [p_g p_h] in *. split; [|split; [exact Hh|exact Sl]]. rewrite G, <- app_assoc. reflexivity.
  Qed.
  Lemma constraint_lists : exists l, Forall2 added_for cs l /\ p_g pc = map2 centred cs l /\ p_h pc = [] /\ p_slack pc = [].
  Proof using Sm Uc.
    pose proof (proj2 Sm) as H. unfold parse_constraints in H. rewrite !map_length, Nat.eqb_refl in H. cbn [andb] in H.
    exact (con_lists cs empty_parsed pc (fun c I => proj1 (Uc c I)) eq_refl H).
  Qed.

  Variable x : list R.
  Hypothesis S : sound q x.
  Notation X := (Arr [length x] x).
  Notation D := [("phi", X)].

  Lemma bounded_value c a : In c cs -> added_for c a -> exists Q v m, package other (uc_name c) = Some (AQuantity Q) /\ call Q q D = Ok v /\ centred c a q D = Ok (scal m) /\
    (forall k, m <= k -> meets (uc_cmp c) (uc_val (moved (- k) c)) v) /\
    (forall k, meets (uc_cmp c) (uc_val (moved (eps * loss q (uc_name c) (uc_unit c) - k) c)) v -> m <= k).
  Proof using Uo Uc O S He.
    intros Ic A. assert (Un : used os cs (uc_name c) (uc_unit c)) by (right; eauto).
    destruct (uses_smooth other q eps os cs He O Uo Uc x S _ _ Un) as (Nz & Q & v & EQ & Ev & K).
    pose proof (Rabs_pos_lt _ Nz) as Pu. destruct (add_approx params q_ndofs (package other) q _ _ _ _ _ _ A EQ) as (Af & Au & _ & _ & Cu). exists Q, v.
    pose proof (proj1 (Uc c Ic)) as Hc. unfold centred. cbn [moved uc_val]. set (u := Rabs (uc_unit c)) in *. set (l := loss q (uc_name c) (uc_unit c)) in *. set (s := sign_of (op_string (uc_cmp c))).
    assert (Div : forall a, u * a / u = a) by (intros; field; lra).
    assert (One : forall k x, s * (x / u - uc_val c / u) <= k -> match uc_cmp c with LE => x <= match uc_cmp c with GE => uc_val c + u * - k | _ => uc_val c - u * - k end | GE => x >= match uc_cmp c with GE => uc_val c + u * - k | _ => uc_val c - u * - k end | EQ => x = match uc_cmp c with GE => uc_val c + u * - k | _ => uc_val c - u * - k end end).
    { intros k y Hy. unfold s in Hy. assert (Ey : y = u * (y / u)) by (field; lra). assert (Eb : uc_val c = u * (uc_val c / u)) by (field; lra).
      destruct (uc_cmp c); cbn [op_string sign_of String.eqb Ascii.eqb Bool.eqb] in Hy; [| |now contradiction Hc].
      - assert (D1 : u * (y / u) <= u * (uc_val c / u + k)) by (apply Rmult_le_compat_l; lra). lra.
      - assert (D1 : u * (uc_val c / u - k) <= u * (y / u)) by (apply Rmult_le_compat_l; lra). lra. }
    assert (Two : forall m x, match uc_cmp c with LE => x <= match uc_cmp c with GE => uc_val c + u * m | _ => uc_val c - u * m end | GE => x >= match uc_cmp c with GE => uc_val c + u * m | _ => uc_val c - u * m end | EQ => x = match uc_cmp c with GE => uc_val c + u * m | _ => uc_val c - u * m end end -> s * (x / u - uc_val c / u) <= - m).
    { intros m y Hy. unfold s. destruct (uc_cmp c); cbn [op_string sign_of String.eqb Ascii.eqb Bool.eqb]; [| |now contradiction Hc].
      - pose proof (div_mono _ _ _ Pu Hy) as E. pose proof (Div m). unfold Rdiv in *. rewrite Rmult_minus_distr_r in E. lra.
      - apply Rge_le in Hy. pose proof (div_mono _ _ _ Pu Hy) as E. pose proof (Div m). unfold Rdiv in *. rewrite Rmult_plus_distr_r in E. lra. }
    destruct K as [(W & Ea & K)|(M & m & -> & Ea & B & C1 & C2)].
    - destruct K as [(Sv & El)|(Ns & Ne & El)].
      + destruct v as [sv [|y [|]]]; cbn [sh] in Sv; subst sv; unfold wf in W; cbn [sh el size fold_right length] in W; try discriminate W.
        eexists. split; [exact EQ|]. split; [exact Ev|]. split; [apply centred_scalar; [rewrite Af; exact Ea|exact Au]|]. split.
        * intros k H z [<-|[]]. apply One. exact H.
        * intros k H. specialize (H y (or_introl eq_refl)). apply Two in H. fold l in El. rewrite El in H. fold s. lra.
      + eexists. split; [exact EQ|]. split; [exact Ev|]. split; [eapply (centered_approx params); [rewrite Af; exact Ea|exact W|exact Ns|rewrite Au; reflexivity|reflexivity]|].
        fold s. set (f0 := fun x => s * (x / u - uc_val c / u)).
        assert (Ne' : map f0 (el v) <> []) by (apply map_nonempty; auto). destruct (exists_max _ Ne') as [M HM]. pose proof (max_lse_bounds _ eps M He HM) as B.
        rewrite map_length in B. split.
        * intros k H z Hz. apply One. pose proof (proj2 HM (f0 z) (in_map f0 _ _ Hz)). unfold f0 in *. lra.
        * intros k H. destruct HM as [HM _]. apply in_map_iff in HM as [y [<- Hy]]. specialize (H y Hy). apply Two in H. fold l in El. rewrite <- El in B. fold (f0 y) in H. lra.
    - assert (Cl : uc_cmp c = LE) by (destruct (uc_cmp c); [reflexivity|now contradiction C1|now contradiction C2]).
      eexists. split; [exact EQ|]. split; [exact Ev|]. split; [apply centred_scalar; [rewrite Af; exact Ea|exact Au]|]. fold s.
      assert (s = 1) as Es by (unfold s; rewrite Cl; reflexivity). split.
      + intros k H z [<-|[]]. apply One. rewrite Es in *. fold l in B. lra.
      + intros k H. specialize (H M (or_introl eq_refl)). apply Two in H. rewrite Es in *. fold l in B. lra.
  Qed.

  Lemma bounded_values : exists vs, Forall2 (fun (g : callable params) v => g q D = Ok (scal v)) (p_g pc) vs /\ length vs = length cs /\
    (forall k, (forall v, In v vs -> v <= k) -> SpecConvex.feasible other q (asked_bounds (relaxed k cs)) x) /\
    (forall k, SpecConvex.feasible other q (asked_bounds (map (fun c => moved (eps * loss q (uc_name c) (uc_unit c) - k) c) cs)) x -> forall v, In v vs -> v <= k).
  Proof using Uo Uc O S He Sm.
    destruct constraint_lists as (l & F & G & _). rewrite G. clear G.
    assert (H : forall ks, (forall c, In c ks -> In c cs) -> forall l, Forall2 added_for ks l ->
      exists vs, Forall2 (fun (g : callable params) v => g q D = Ok (scal v)) (map2 centred ks l) vs /\ length vs = length ks /\
      (forall k, (forall v, In v vs -> v <= k) -> SpecConvex.feasible other q (asked_bounds (relaxed k ks)) x) /\
      (forall k, SpecConvex.feasible other q (asked_bounds (map (fun c => moved (eps * loss q (uc_name c) (uc_unit c) - k) c) ks)) x -> forall v, In v vs -> v <= k)).
    { clear F l. intros ks I l F. induction F as [|c a ks l A F IH].
      - exists []. split; [constructor|]. split; [reflexivity|]. split; [intros k _ ? ? ? []|intros k _ v []].
      - destruct IH as (vs & F' & Ln & H1 & H2); [intros; apply I; now right|]. destruct (bounded_value c a (I c (or_introl eq_refl)) A) as (Q & v & m & EQ & Ev & Em & K1 & K2).
        exists (m :: vs). split; [constructor; assumption|]. split; [cbn; congruence|]. split.
        + intros k Hk name cm b Ib. cbn [relaxed asked_bounds map In] in Ib. destruct Ib as [E|Ib].
          * injection E as <- <- <-. exists v. split; [exists Q; split; [now apply get_package|exact Ev]|]. exact (K1 k (Hk m (or_introl eq_refl))).
          * apply (H1 k); [intros w Iw; apply Hk; now right|exact Ib].
        + intros k Hk w [<-|Iw].
          * apply K2. destruct (Hk (uc_name c) (uc_cmp c) (uc_val (moved (eps * loss q (uc_name c) (uc_unit c) - k) c))) as (v' & (Q' & Eg & Ev') & Hm); [left; reflexivity|].
            apply get_package in Eg. assert (Q' = Q) by congruence. subst Q'. assert (v' = v) by (unfold value_of in Ev'; congruence). subst v'. exact Hm.
          * apply (H2 k); [|exact Iw]. intros name cm b Ib. apply Hk. now right. }
    exact (H cs (fun c I => I) l F).
  Qed.

  (** What the merged function returns. *)
  Definition as_merged (merge : bool) (vs : list R) : list R := if merge then match vs with [] => [] | _ => [max_lse vs eps] end else vs.
  Lemma merged_value merge gs vs : Forall2 (fun (g : callable params) v => g q D = Ok (scal v)) gs vs ->
    exists o, merge_callables (map Some gs) merge (Some "approx") sp q D = Ok o /\ el o = as_merged merge vs.
  Proof using.
    intros F. unfold merge_callables.
    assert (E1 : flat_map (fun o => match o with Some f => [f] | None => [] end) (map Some gs) = gs) by (clear; induction gs; [reflexivity|cbn; now f_equal]).
    assert (E2 : collect (map (fun g : callable params => g q D) gs) = Ok (map scal vs)).
    { clear - F. induction F as [|g v gs vs Hg F IH]; [reflexivity|]. cbn [map collect]. rewrite Hg. cbn [bind]. rewrite IH. reflexivity. }
    rewrite E1, E2. cbn [bind]. clear F E1 E2.
    assert (E3 : map (fun o => flatten (atleast_1d o)) (map scal vs) = map (fun v => Arr [1%nat] [v]) vs) by (rewrite map_map; reflexivity). rewrite E3.
    assert (E4 : concat (map el (map (fun v => Arr [1%nat] [v]) vs)) = vs) by (clear; rewrite map_map; induction vs as [|w vs IH]; [reflexivity|]; cbn [map concat el app] in *; now rewrite IH).
    destruct vs as [|v vs]; [exists (Arr [0%nat] []); split; [reflexivity|destruct merge; reflexivity]|]. cbn [map] in *. rewrite E4. destruct merge.
    - change (String.eqb "approx" "approx") with true. cbn [getitem lookup String.eqb Ascii.eqb Bool.eqb bind].
      assert (E5 : forallb (fun o => (length (el o) =? length (el (Arr [1%nat] [v])))%nat) (Arr [1%nat] [v] :: map (fun v => Arr [1%nat] [v]) vs) = true).
      { apply forallb_forall. intros o [<-|I]; [reflexivity|]. apply in_map_iff in I as (w & <- & _). reflexivity. }
      rewrite E5. eexists. split; reflexivity.
    - eexists. split; reflexivity.
  Qed.
  Lemma merged_length merge vs : length (as_merged merge vs) = if merge then Nat.min 1 (length vs) else length vs.
  Proof using. destruct merge; [|reflexivity]. destruct vs; reflexivity. Qed.
  Lemma merged_below merge vs k : (forall v, In v (as_merged merge vs) -> v <= k) -> forall v, In v vs -> v <= k.
  Proof using He.
    destruct merge; [|auto]. destruct vs as [|v0 vs]; [intros _ v []|]. intros H v Iv. specialize (H _ (or_introl eq_refl)).
    destruct (exists_max (v0 :: vs)) as (M & HM); [discriminate|]. pose proof (max_lse_bounds _ eps M He HM) as B. pose proof (proj2 HM v Iv). lra.
  Qed.
  Lemma merged_above merge vs k : (forall v, In v vs -> v <= k - eps * merging merge (length vs)) -> forall v, In v (as_merged merge vs) -> v <= k.
  Proof using He.
    destruct merge; cbn [merging as_merged].
    - destruct vs as [|v0 vs]; [intros _ v []|]. intros H v [<-|[]]. destruct (exists_max (v0 :: vs)) as (M & HM); [discriminate|]. pose proof (max_lse_bounds _ eps M He HM) as B.
      specialize (H M (proj1 HM)). lra.
    - intros H v Iv. specialize (H v Iv). lra.
  Qed.
End Generated.
