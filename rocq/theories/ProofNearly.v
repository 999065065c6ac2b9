(** How far unknowns that nearly satisfy the problem of a call are from the bounds of the user. *)
From Coq Require Import String List Bool Arith ZArith Reals Lra Lia Permutation.
From Verif Require Import Base ModelArray ProofArray ModelMath SpecMath ProofMath ModelSurface SpecSurface ModelParams ModelField SpecField
  ModelQuantity SpecQuantity ProofQuantity ProofSlack ModelWrapper SpecWrapper ProofWrapper ProofWrapper2 ModelShipped ModelPackage SpecPackage
  SpecConvex ProofPackage ProofPackage2 ProofPackage3 ProofPackage4 ProofConvex ModelSolver SpecSolver ProofSolver ModelQuadcoil SpecQuadcoil ProofQuadcoil ProofQuadcoil2
  SpecProblem ProofProblem ProofProblem2 ProofEnd ProofEnd2 SpecEnd ProofEnd3 ProofEnd4 SpecCert ProofCert PropConvex SpecBounds ProofBounds SpecNearly.
Import ListNotations.
Open Scope R_scope.
Open Scope string_scope.
Open Scope list_scope.

Lemma max_slacks n : In n max_quantities -> In n slack_quantities.
Proof. cbn. tauto. Qed.
Lemma power_slacks n : In n power_quantities -> In n slack_quantities.
Proof. cbn. tauto. Qed.
Section Max.
  Variables (other : list string) (q : params) (x : list R).
  Hypothesis S : sound q x.
  Let M0 : made q. Proof. apply S. Qed.
  Notation X := (vec x).
  (** A largest value, when the rows of its slack variable exceed 0 by at most [e]. *)
  Definition margin (n : string) (sqr : bool) : Prop := exists Q G I M, 0 <= M /\ package other n = Some (AQuantity Q) /\ call Q q [("phi", X)] = Ok (scal (if sqr then sq M else M)) /\ q_slack_g Q = Some G /\
    q_slack_init Q = Some [(slack_name n, I)] /\ (forall u, 0 < u -> exists i, I q [("phi", X)] (scal u) = Ok i /\ sh i = []) /\
    forall u d t e, 0 < u -> lookup "phi" d = Some X -> lookup (slack_name n) d = Some (scal t) ->
      exists gv, q_slack_f Q q d (scal u) = Ok (scal (if sqr then sq t else t)) /\ G q d (scal u) = Ok gv /\
        ((forall v, In v (el gv) -> v <= e) -> M / (if sqr then sqrt u else u) <= t + e).
  Ltac impl_of lem := let v := fresh "v" in let V := fresh "V" in let Sv := fresh "Sv" in let W := fresh "W" in
    destruct (lem 1 1 q q x Rlt_0_1 (rescaled_self q) S M0) as (v & V & _ & Sv & W).
  Lemma max_margin n (sqr : bool) : In n (if sqr then power_quantities else max_quantities) -> margin n sqr.
  Proof using S.
    destruct (sizes q x S) as (Z1 & Z2 & Z3 & Z4).
    assert (G : forall (sqr : bool) im n Q v s reg reg' pd au, package other n = Some (AQuantity Q) ->
      init_quantity reg (generate_linf_norm params q_stellsym (implementation im) (slack_name n) pd sqr au) = (reg', Ok Q) ->
      implementation im q (at_phi x) = Ok v -> sh v = s -> wf v -> (size s <> 0)%nat -> (pd = true -> forall y, In y (el v) -> 0 <= y) -> margin n sqr).
    { clear sqr. intros sqr im n0 Q v s reg reg' pd au Ep B V Sv W Z Pd. rewrite (linf_built _ _ _ _ _ _ _ _ _ _ B) in Ep. pose proof (nonempty _ _ Sv W Z) as N.
      destruct (exists_max (map Rabs (el v))) as [M HM]; [now apply map_nonempty|].
      assert (Fd : forall d, lookup "phi" d = Some X -> implementation im q d = Ok v).
      { intros d L. rewrite (implementation_phi im q d [("phi", X)]); [exact V|rewrite L; reflexivity]. }
      eexists _, _, _, M. split; [exact (is_max_abs_nonneg _ _ HM)|]. split; [exact Ep|]. split.
      { unfold call, getitem. cbn [lookup q_raw]. change (String.eqb "phi" "phi") with true. cbn [bind]. exact (linf_raw_value _ sqr _ _ v M V HM). }
      cbn [q_slack_g q_slack_init q_slack_f]. split; [reflexivity|]. split; [reflexivity|]. split.
      - intros u Hu. unfold linf_init. rewrite (linf_raw_value (implementation im) sqr q [("phi", X)] v M V HM). cbn [bind].
        replace (if sqr then amap sqrt (scal u) else scal u) with (scal (if sqr then sqrt u else u)) by (destruct sqr; reflexivity).
        eexists. split; [apply op2_scal_r; reflexivity|reflexivity].
      - intros u d t e Hu L La.
        destruct (linf_g_value params q_stellsym (implementation im) (slack_name n0) pd sqr au q d v u t (Fd d L) La) as [gv [Eg El]].
        exists gv. split; [unfold linf_slack_f, getitem; rewrite La; destruct sqr; reflexivity|]. split; [exact Eg|]. intros Hle. rewrite El in Hle.
        assert (Hue : 0 < if sqr then sqrt u else u) by (destruct sqr; [now apply sqrt_lt_R0|exact Hu]). set (ue := if sqr then sqrt u else u) in *.
        assert (H0 : forall y, In y (linf_g_els pd ue (t + e) (el v)) -> y <= 0).
        { intros y Iy. cut (In (y + e) (linf_g_els pd ue t (el v))); [intros I; specialize (Hle _ I); lra|]. unfold linf_g_els in *. apply in_app_iff in Iy. apply in_app_iff.
          destruct Iy as [Iy|Iy]; [left|right].
          - apply in_map_iff in Iy as (z & <- & Iz). apply in_map_iff. exists z. split; [ring|exact Iz].
          - destruct pd; [destruct Iy|]. apply in_map_iff in Iy as (z & <- & Iz). apply in_map_iff. exists z. split; [ring|exact Iz]. }
        rewrite linf_g_le0 in H0 by auto. destruct HM as [Hin _]. apply in_map_iff in Hin as [z [<- Hz]]. auto. }
    assert (G4 : forall im n Q v s reg reg', package other n = Some (AQuantity Q) ->
      init_quantity reg (generate_linf_norm_4 (implementation im) (slack_name n)) = (reg', Ok Q) ->
      implementation im q (at_phi x) = Ok v -> sh v = s -> wf v -> (size s <> 0)%nat -> margin n true).
    { clear sqr G. intros im n0 Q v s reg reg' Ep B V Sv W Z. rewrite (linf4_built _ _ _ _ _ _ B) in Ep. pose proof (nonempty _ _ Sv W Z) as N.
      destruct (exists_max (map Rabs (el v))) as [M HM]; [now apply map_nonempty|].
      assert (Fd : forall d, lookup "phi" d = Some X -> implementation im q d = Ok v).
      { intros d L. rewrite (implementation_phi im q d [("phi", X)]); [exact V|rewrite L; reflexivity]. }
      assert (Hmax : is_max (sq M) (map sq (el v))).
      { apply (is_max_map_mono sq sq M); auto; [intros; apply sq_mono; auto|intros; apply sq_abs]. }
      eexists _, _, _, (sq M). split; [apply sq_pos|]. split; [exact Ep|]. split.
      { unfold call, getitem. cbn [lookup q_raw]. change (String.eqb "phi" "phi") with true. cbn [bind]. unfold linf4_raw. rewrite (Fd [("phi", X)] eq_refl). cbn [bind].
        destruct (amax_spec (amap (fun x => sq (sq x)) v)) as [M' [E' H']]; [now apply map_nonempty|].
        rewrite E'. cbn [bind]. simpl in H'. now rewrite (is_max_unique _ _ _ H' (linf4_max _ _ HM)). }
      cbn [q_slack_g q_slack_init q_slack_f]. split; [reflexivity|]. split; [reflexivity|]. split.
      - intros u Hu. unfold linf4_init. rewrite (Fd [("phi", X)] eq_refl). cbn [bind].
        destruct (amax_spec (amap sq v)) as [M' [E' H']]; [now apply map_nonempty|]. rewrite E'. cbn [bind].
        change (amap sqrt (scal u)) with (scal (sqrt u)). eexists. split; [apply op2_scal_r; reflexivity|reflexivity].
      - intros u d t e Hu L La. destruct (linf4_g_value (implementation im) (slack_name n0) q d v u t (Fd d L) W La) as [gv [Eg El]].
        exists gv. split; [unfold linf_slack_f, getitem; rewrite La; reflexivity|]. split; [exact Eg|]. intros Hle. rewrite El in Hle.
        destruct Hmax as [Hin _]. apply in_map_iff in Hin as [z [<- Hz]]. specialize (Hle (sq z / sqrt u - t) ltac:(apply in_map_iff; eauto)). lra. }
    intros I. destruct sqr.
    { unfold power_quantities in I. cbn [In] in I. destruct I as [<-|[<-|[<-|[]]]].
      - impl_of both_force. eapply (G true "_force_cyl") with (reg := []); [reflexivity|reflexivity|eassumption|eassumption|assumption|assumption|discriminate].
      - impl_of both_Phi. eapply (G true "_Phi") with (reg := []); [reflexivity|reflexivity|eassumption|eassumption|assumption|assumption|discriminate].
      - impl_of both_Phi. eapply (G4 "_Phi") with (reg := []); [reflexivity|reflexivity|eassumption|eassumption|assumption|assumption]. }
    unfold max_quantities in I. cbn [In] in I. repeat destruct I as [<-|I]; try contradiction.
    - impl_of both_K2. eapply (G false "_K2") with (reg := []); [reflexivity|reflexivity|eassumption|eassumption|assumption|assumption|discriminate].
    - impl_of both_KKc. eapply (G false "_K_dot_grad_K_cyl") with (reg := []); [reflexivity|reflexivity|eassumption|eassumption|assumption|assumption|discriminate].
    - impl_of both_Bnormal. eapply (G false "_Bnormal") with (reg := []); [reflexivity|reflexivity|eassumption|eassumption|assumption|assumption|discriminate].
    - impl_of both_Bnormal2. eapply (G false "_Bnormal2") with (reg := []); [reflexivity|reflexivity|eassumption|eassumption|assumption|assumption|].
      intros _ y Hy. change (bind (Bnormal2 q x) (fun v => Ok (of_grid v)) = Ok v) in V. unfold Bnormal2 in V.
      destruct (Bnormal q x) as [g|]; [|discriminate V]. cbn [bind] in V. assert (of_grid (gmap (fun y => y * y) g) = v) as <- by congruence.
      unfold of_grid, gmap in Hy. cbn [el] in Hy. apply in_concat in Hy as (r & Hr & Hy). apply in_map_iff in Hr as (r' & <- & _).
      apply in_map_iff in Hy as (z & <- & _). nra.
    - impl_of both_force. eapply (G false "_force_cyl") with (reg := []); [reflexivity|reflexivity|eassumption|eassumption|assumption|assumption|discriminate].
    - impl_of both_Phi. eapply (G false "_Phi") with (reg := []); [reflexivity|reflexivity|eassumption|eassumption|assumption|assumption|discriminate].
  Qed.
  (** The sum of the absolute potential, when the rows of its slack variables exceed 0 by at most [e]. *)
  Lemma sum_margin : ordered q -> exists Q G I M n A, package other "f_l1_Phi" = Some (AQuantity Q) /\ call Q q [("phi", X)] = Ok (scal M) /\ q_slack_g Q = Some G /\ summed_area q A /\
    q_slack_init Q = Some [(slack_name "f_l1_Phi", I)] /\ (forall u, 0 < u -> exists i, I q [("phi", X)] (scal u) = Ok i /\ sh i = [n]) /\
    forall u d l e, 0 < u -> lookup "phi" d = Some X -> lookup (slack_name "f_l1_Phi") d = Some (Arr [n] l) -> length l = n ->
      exists f gv, q_slack_f Q q d (scal u) = Ok (scal f) /\ G q d (scal u) = Ok gv /\ ((forall v, In v (el gv) -> v <= e) -> M / u <= f + e * A).
  Proof using S.
    intros O. impl_of both_Phi. impl_of both_da. assert (params_da q = v0) as Ed by congruence.
    assert (G1 : forall n Q reg reg', package other n = Some (AQuantity Q) ->
        init_quantity reg (generate_l1_norm params params_da (fun q => INR (q_nfp q)) q_stellsym (implementation "_Phi") (slack_name n) false false true) = (reg', Ok Q) ->
        exists Q G I M k A, package other n = Some (AQuantity Q) /\ call Q q [("phi", X)] = Ok (scal M) /\ q_slack_g Q = Some G /\ summed_area q A /\
    q_slack_init Q = Some [(slack_name n, I)] /\ (forall u, 0 < u -> exists i, I q [("phi", X)] (scal u) = Ok i /\ sh i = [k]) /\
    forall u d l e, 0 < u -> lookup "phi" d = Some X -> lookup (slack_name n) d = Some (Arr [k] l) -> length l = k ->
      exists f gv, q_slack_f Q q d (scal u) = Ok (scal f) /\ G q d (scal u) = Ok gv /\ ((forall v, In v (el gv) -> v <= e) -> M / u <= f + e * A)).
    { intros n Q reg reg' Ep Ei. exists Q. rewrite (l1_built _ _ _ _ _ _ _ _ _ _ _ _ Ei) in *. clear Ei.
      assert (Wd : wf (params_da q)) by (rewrite Ed; exact W0). assert (Es : sh (params_da q) = sh v) by (rewrite Ed, Sv0; symmetry; exact Sv).
      assert (Ld : length (el (params_da q)) = length (el v)) by (red in W, Wd; congruence).
      assert (Pw : forall a, In a (el (params_da q)) -> 0 <= a).
      { intros a Ha. unfold params_da in Ha. destruct (da (q_eval q)) as [g|] eqn:D; [|contradiction]. unfold of_grid in Ha. cbn [el] in Ha.
        refine (eval_weights q _ O g D a Ha). destruct S as (? & ? & ? & ? & _). intros z Lz. repeat (split; [assumption|]). exact Lz. }
      assert (Fd : forall d, lookup "phi" d = Some X -> implementation "_Phi" q d = Ok v).
      { intros d L. rewrite (implementation_phi "_Phi" q d [("phi", X)]); [exact V|rewrite L; reflexivity]. }
      eexists _, _, _, (length (el v)), (INR (q_nfp q) * Rsum (el (params_da q))). split; [exact Ep|]. split.
      { unfold call, getitem. cbn [lookup q_raw]. change (String.eqb "phi" "phi") with true. cbn [bind]. apply (l1_raw_value params params_da _ _ q _ v); [exact V|exact W|exact Wd|exact Es]. }
      cbn [q_slack_g q_slack_init q_slack_f]. split; [reflexivity|]. split.
      { unfold summed_area. unfold params_da in *. destruct (da (q_eval q)) as [g|]; [exists g; split; reflexivity|].
        exfalso. rewrite Sv in Es. cbn in Es. discriminate Es. }
      split; [reflexivity|]. split.
      - intros u Hu. unfold l1_init. rewrite (Fd [("phi", X)] eq_refl). cbn [bind].
        replace (if true && q_stellsym q then compress_by_stellsym v else flatten v) with (flatten v) by (unfold compress_by_stellsym; destruct (true && q_stellsym q); reflexivity).
        eexists. split; [apply op2_scal_r, wf_amap, wf_flatten|reflexivity].
      - intros u d l e Hu L La Ll. destruct (l1_g_value params q_stellsym (implementation "_Phi") (slack_name n) false true q d v u l (Fd d L) La Ll) as [gv [Eg El]].
        eexists _, gv. split; [apply (l1_f_value params params_da _ q_stellsym (implementation "_Phi") (slack_name n) true q d v (scal u) l); auto|]. split; [exact Eg|].
        intros Hle. rewrite El in Hle. pose proof (pos_INR (q_nfp q)) as Pn.
        assert (Hb : forall y t, In (y, t) (combine (el v) l) -> Rabs y / u <= t + e).
        { intros y t I. pose proof (Hle (y / u - t) ltac:(apply in_app_iff; left; exact (in_combine_map2 (fun y t => y / u - t) _ _ _ _ I))).
          pose proof (Hle (- y / u - t) ltac:(apply in_app_iff; right; exact (in_combine_map2 (fun y t => - y / u - t) _ _ _ _ I))).
          unfold Rabs. destruct (Rcase_abs y); lra. }
        assert (Hs : wsum (el (params_da q)) (el v) / u <= wsum (el (params_da q)) l + e * Rsum (el (params_da q))).
        { clear - Hb Pw Ld Ll Hu. revert Hb Pw Ld Ll. generalize (el (params_da q)) as w. generalize (el v) as ys. intros ys w. revert ys l. unfold wsum, Rsum.
          induction w as [|a w IH]; intros [|y ys] [|t l] Hb Pw Ld Ll; try discriminate; cbn [map2 fold_right]; [unfold Rdiv; lra|].
          specialize (IH ys l (fun y' t' I => Hb y' t' (or_intror I)) (fun a' I => Pw a' (or_intror I)) ltac:(cbn in Ld; lia) ltac:(cbn in Ll; lia)).
          pose proof (Hb y t (or_introl eq_refl)) as H1. pose proof (Pw a (or_introl eq_refl)) as H2. pose proof (Rle_abs t) as H3.
          assert (a * (Rabs y / u) <= a * (Rabs t + e)) by (apply Rmult_le_compat_l; lra). unfold Rdiv in *. lra. }
        unfold Rdiv in *. set (s1 := wsum (el (params_da q)) (el v)) in *. set (s2 := wsum (el (params_da q)) l) in *. set (s3 := Rsum (el (params_da q))) in *.
        replace (s1 * INR (q_nfp q) * / u) with (s1 * / u * INR (q_nfp q)) by ring. replace (s2 * INR (q_nfp q) + e * (INR (q_nfp q) * s3)) with ((s2 + e * s3) * INR (q_nfp q)) by ring.
        apply Rmult_le_compat_r; [exact Pn|exact Hs]. }
    eapply (G1 "f_l1_Phi") with (reg := []); reflexivity.
  Qed.
End Max.

Section Call.
  Variables (other : list string) (E : library) (a : args (x_solver E)) (p : prepared) (U : string -> R) (os : list objective) (cs : list user_constraint).
  Notation q := (fn_qp (pr_fn p)).
  Notation P := (solver_problem E a p).
  Hypothesis Hp : prepare (package other) a = Ok p.
  Hypothesis As : asks a os cs.
  Hypothesis Hs : qc_smoothing a = Some "slack".
  Hypothesis Hm : qc_merge a = false.
  Hypothesis O : ordered q.
  Hypothesis Sx : exists x, sound q x.
  Hypothesis Uo : forall o, In o os -> 0 <= ob_weight o /\ scaled_use U q (ob_name o) (ob_unit o).
  Hypothesis Uc : forall c, In c cs -> scaled_use U q (uc_name c) (uc_unit c).
  Hypothesis Hu : pr_unit p <> 0.
  Hypothesis Hphi : forall x, qc_phi_init a = Some x -> length x = q_ndofs q.


  (** If no inequality exceeds [e] and no equality is off by more than [e], the
      bounds are met up to [e] units. *)
  Lemma near_facts zx e : length zx = length (pr_x0 p) -> (forall v, In v (p_g _ P zx : list R) -> v <= e) -> (forall v, In v (p_h _ P zx : list R) -> Rabs v <= e) ->
    exists dx x, stands_for p zx dx x /\ nearly_feasible other q cs e x /\ powers_nearly_bounded other q cs e x /\ sums_nearly_bounded other q cs e x.
  Proof using Hp As Hs Hm O Sx Uo Uc Hu Hphi.
    destruct (handed_problem (package other) a p os cs Hp As Hs Hm) as (f & po & pc & Eo & Ec & Ff & Fg & Fh & Ng & Nh & Fa).
    destruct (prepare_fields (package other) a p Hp) as (_ & _ & _ & _ & _ & _ & phi & x0 & Ephi & _ & Ex & Ex0 & Est).
    rewrite Fa in Ex. pose proof (all_sound p Sx) as Sa.
    assert (Lphi : length phi = q_ndofs q).
    { rewrite Ephi. destruct (qc_phi_init a) as [v|] eqn:Ev; [now apply Hphi|apply repeat_length]. }
    destruct (x0_facts other q U os cs (qc_smoothing_params a) f po pc O Uo Uc Eo Ec Sa phi (pr_unit p) x0 Lphi Ex) as (N0 & _ & _ & W0).
    assert (Ltot : length (pr_x0 p) = total (structure x0)).
    { rewrite Ex0. apply ravel_length. intros [k v] I. cbn. apply lookup_in in I; [|exact N0]. exact (proj1 (W0 k v I)). }
    pose proof (all_steady other q U os cs (qc_smoothing_params a) f po pc O Uo Uc Eo Ec Sx) as Ast.
    assert (Unp : forall z, length z = length (pr_x0 p) -> exists d x, unscale (pr_structure p) (pr_unit p) z = Ok d /\ length x = q_ndofs q /\ solver_state po pc q (vec x) d).
    { intros z Lz. rewrite Est. apply (unpack other q U os cs (qc_smoothing_params a) f po pc O Uo Uc Eo Ec Sa phi (pr_unit p) x0 Lphi Ex). congruence. }
    assert (Val : forall z d x, unscale (pr_structure p) (pr_unit p) z = Ok d -> length x = q_ndofs q -> solver_state po pc q (vec x) d ->
      p_g _ P z = rows q d (ModelWrapper.p_g po ++ ModelWrapper.p_g pc) /\ p_h _ P z = rows q d (ModelWrapper.p_h po ++ ModelWrapper.p_h pc)).
    { intros z d x Ed Lx St. pose proof (conj (Sa x Lx) St : state q po pc x d) as Sd. cbn [solver_problem ModelSolver.p_g ModelSolver.p_h].
      assert (Ev : forall g, In g (ModelWrapper.p_g po ++ ModelWrapper.p_g pc) \/ In g (ModelWrapper.p_h po ++ ModelWrapper.p_h pc) -> exists o, g q d = Ok o).
      { intros g I. destruct (Ast g I) as (Lg & HL). destruct (HL x d Sd) as (o & Eo' & _). eauto. }
      unfold g_scaled, h_scaled. rewrite Ed. cbn [bind]. rewrite Fg, Fh. split; apply rows_merged; auto. }
    destruct (constraints_value params q_ndofs (package other) (qc_smoothing_params a) cs pc Ec) as (l & Fl & Epc).
    pose proof (regular_all other q U os cs (qc_smoothing_params a) f po pc O Uo Uc Eo Ec Sx l Fl ltac:(now rewrite Epc)) as Rl.
    destruct (objective_parts params q_ndofs (package other) os (qc_smoothing_params a) f po Eo) as (lo & Fo & Ef & Gg & Gh & Go).
    assert (UO : forall t b, In (t, b) (combine os lo) -> ad_h b = [] /\ (In (ob_name t) direct_quantities -> ad_g b = [])).
    { intros t b Ib. pose proof (F2_combine _ _ _ _ _ Fo Ib) as A. cbv beta in A. pose proof (in_combine_l _ _ _ _ Ib) as It.
      assert (Un : used os cs (ob_name t) (ob_unit t)) by (left; exists t; auto). destruct (Uo t It) as (_ & Nz & Kind). destruct Sx as (x1 & S1).
      destruct (uses_ok other q U os cs O Uo Uc x1 S1 _ _ Un) as (_ & Q & v0 & EQ & Ev0 & D0). split.
      - destruct D0 as [D0|(T & _)]; [exact (proj1 (proj2 (use_direct _ _ _ _ _ _ _ _ _ _ _ _ A EQ D0 Nz)))|].
        destruct (use_slack _ _ _ _ _ _ _ _ _ _ _ _ _ A EQ T Nz) as (_ & _ & _ & _ & _ & _ & Ah & _). exact Ah.
      - intros I. destruct (direct_use other q x1 S1 (ob_name t) I) as (Q1 & v1 & E1 & _ & D1).
        { destruct Kind as [(Is & _)|(_ & St)]; [|exact St]. intros E0. exfalso. rewrite E0 in Is. cbn in Is. intuition discriminate. }
        exact (proj1 (use_direct _ _ _ _ _ _ _ _ _ _ _ _ A E1 D1 Nz)). }
    assert (Eh : ModelWrapper.p_h po = []).
    { rewrite Gh. clear - UO Fo. revert UO. induction Fo as [|t b os lo A F IH]; intros UO; [reflexivity|]. cbn [map concat].
      rewrite (proj1 (UO t b (or_introl eq_refl))). apply IH. intros; apply UO. now right. }
    assert (Eg : (forall t, In t os -> In (ob_name t) direct_quantities) -> ModelWrapper.p_g po = []).
    { rewrite Gg. clear - UO Fo. intros D. revert UO D. induction Fo as [|t b os lo A F IH]; intros UO D; [reflexivity|]. cbn [map concat].
      rewrite (proj2 (UO t b (or_introl eq_refl)) (D t (or_introl eq_refl))). apply IH; intros; [apply UO|apply D]; now right. }
    intros Lz Bg Bh. destruct (Unp zx Lz) as (dx & x & Ed & Lx & St). destruct (Val zx dx x Ed Lx St) as (Vg & Vh). rewrite Vg in Bg. rewrite Vh, Eh in Bh. cbn [app] in Bh.
    pose proof (conj (Sa x Lx) St : state q po pc x dx) as Sd. exists dx, x. split; [exact (conj Ed (conj Lx (proj1 St)))|].
    cut (forall c k, In c cs -> In (uc_name c) direct_quantities /\ k = 1 \/ (exists sqr : bool, In (uc_name c) (if sqr then power_quantities else max_quantities) /\ k = if sqr then 3 else 2) \/ uc_name c = "f_l1_Phi" /\ k = 4 ->
      exists v, reads other (uc_name c) q x v /\ (k < 3 -> meets_within (uc_cmp c) (uc_val c) (k * e * Rabs (uc_unit c)) v) /\
        (k = 3 -> exists y, v = scal y /\ y <= Rabs (uc_unit c) * (sqrt (uc_val c / Rabs (uc_unit c) + e) + e) ^ 2) /\
        (k = 4 -> exists y A, v = scal y /\ summed_area q A /\ y <= uc_val c + (1 + A) * e * Rabs (uc_unit c))).
    { intros Main. split; [|split].
      - intros c k Ic Kd. destruct (Main c k Ic) as (v & Rv & Mv & _).
        + destruct Kd as [Kd|Kd]; [now left|right; left; exists false; exact Kd].
        + exists v. split; [exact Rv|]. apply Mv. destruct Kd as [(_ & ->)|(_ & ->)]; lra.
      - intros c Ic Kd. destruct (Main c 3 Ic) as (v & Rv & _ & Mv & _); [right; left; exists true; now split|]. destruct (Mv eq_refl) as (y & -> & Hy). exists y, (Rabs (uc_unit c)). auto.
      - intros c Ic Kd. destruct (Main c 4 Ic) as (v & Rv & _ & _ & Mv); [right; right; now split|]. destruct (Mv eq_refl) as (y & A & -> & HA & Hy). exists y, A. rewrite Kd in Rv. auto. }
    intros c k Ic Kd.
    assert (Ia : exists b, In (c, b) (combine cs l)).
    { clear - Ic Fl. induction Fl as [|c0 b cs l A F IH]; [destruct Ic|]. destruct Ic as [->|Ic]; [exists b; now left|]. destruct (IH Ic) as (b' & I). exists b'. now right. }
    destruct Ia as (b & Ib). pose proof (F2_combine _ _ _ _ _ Fl Ib) as A. unfold adds in A. pose proof (F2_combine _ _ _ _ _ Rl Ib) as Rg.
    destruct (Uc c Ic) as (Nz & Kind). pose proof (Rabs_pos_lt _ Nz) as Pu.
    assert (Row : forall gs g o r, In g gs -> g q dx = Ok o -> In r (el o) -> In r (rows q dx gs)).
    { intros gs g o r I Eo1 Ir. apply in_flat_map. eexists. split; [exact I|]. cbv beta. rewrite Eo1. exact Ir. }
    assert (Ing : forall (part : user_constraint -> added params -> list (callable params)) g, In g (part c b) -> In g (concat (map2 part cs l))).
    { intros part g I. clear - I Ib. revert l Ib. induction cs as [|c0 ks IH]; intros [|b0 l] Ib; try (destruct Ib; fail). cbn [map2 concat]. apply in_app_iff. destruct Ib as [Eb|Ib]; [injection Eb as -> ->; now left|right; now apply IH]. }
    destruct (own_value other q (qc_smoothing_params a) po pc c b x dx Rg Sd) as (o & w & v' & Eown & Ew & _ & Eel & _).
    assert (Bd : forall r, In r (el o) -> match uc_cmp c with EQ => Rabs r <= e | _ => r <= e end).
    { intros r Ir. destruct (uc_cmp c) eqn:Ecmp; [apply Bg|apply Bg|apply Bh]; (eapply Row; [|exact Eown|exact Ir]); rewrite Epc; cbn [parsed_as ModelWrapper.p_g ModelWrapper.p_h]; try (apply in_app_iff; right); apply Ing;
        unfold g_part, h_part; rewrite Ecmp; apply in_app_iff; right; now left. }
    set (u := Rabs (uc_unit c)) in *.
    destruct Kd as [(Idir & ->)|[(sqr & Imax & ->)|(Inm & ->)]].
    - destruct (direct_use other q x (Sa x Lx) (uc_name c) Idir) as (Q & v & E1 & Ev & D1).
      { destruct Kind as [(Is & _)|(_ & St')]; [|exact St']. intros E0. exfalso. rewrite E0 in Is. cbn in Is. intuition discriminate. }
      destruct (use_direct _ _ _ _ _ _ _ _ _ _ _ _ A E1 D1 Nz) as (_ & _ & _ & _ & Hf). specialize (Hf dx (proj1 St)).
      rewrite Hf in Ew. injection Ew as <-. cbn [el] in Eel. rewrite map_map in Eel.
      exists v. split; [exists Q; split; [unfold get_quantity; now rewrite E1|exact Ev]|]. split; [intros _|split; intros E0; exfalso; lra]. intros y Iy.
      assert (Ir : In (sign_of (op_string (uc_cmp c)) * (y / u - uc_val c / u)) (el o)) by (rewrite Eel; apply in_map_iff; exists y; auto).
      specialize (Bd _ Ir). replace (y / u - uc_val c / u) with ((y - uc_val c) / u) in Bd by (field; lra). clear - Bd Pu.
      assert (Ey : y - uc_val c = (y - uc_val c) / u * u) by (field; lra). set (t := (y - uc_val c) / u) in *.
      destruct (uc_cmp c); unfold sign_of, op_string in Bd; [change (String.eqb "<=" ">=") with false in Bd|change (String.eqb ">=" ">=") with true in Bd|change (String.eqb "==" ">=") with false in Bd]; cbv iota in Bd.
      + assert (t * u <= e * u) by (apply Rmult_le_compat_r; lra). lra.
      + assert (- t * u <= e * u) by (apply Rmult_le_compat_r; lra). lra.
      + rewrite Ey, Rabs_mult, (Rabs_pos_eq u) by lra. rewrite Rmult_1_l in *. apply Rmult_le_compat_r; [lra|exact Bd].
    - assert (Isl : In (uc_name c) slack_quantities) by (destruct sqr; [now apply power_slacks|now apply max_slacks]).
      destruct (max_margin other q x (Sa x Lx) (uc_name c) sqr Imax) as (Q & G & I & M0 & Pm & E1 & Ev & EG & EI & HI & HM).
      set (M := if sqr then sq M0 else M0) in *. set (ue := if sqr then sqrt u else u) in *.
      assert (Un : used os cs (uc_name c) (uc_unit c)) by (right; exists c; auto).
      destruct (slack_use other q x (Sa x Lx) O (uc_name c) Isl) as (Q1 & v1 & E2 & Ev1 & T). assert (Q1 = Q) by congruence. subst Q1. assert (v1 = scal M) by congruence. subst v1.
      destruct (use_slack _ _ _ _ _ _ _ _ _ _ _ _ _ A E1 T Nz) as (G1 & I1 & M1 & s1 & EM & Ag & _ & N1 & N2 & As1 & _ & EG1 & EI1 & _).
      assert (G1 = G) by congruence. subst G1. assert (I1 = I) by congruence. subst I1.
      destruct (HI u Pu) as (i & Ei & Si).
      destruct (state_lookup params q_ndofs (package other) q (vec x) U slack_name (fun n => In n slack_quantities) os cs (qc_smoothing_params a) f po pc
        (uses_ok other q U os cs O Uo Uc x (Sa x Lx)) slack_name_inj Eo Ec dx _ _ _ b Q (scal M) St Un A E1 T Isl) with (I := I) (i := i) (u := u) as (s & Ls & Ss & Ws); auto.
      { apply (in_union_c po pc l b ltac:(now rewrite Epc) (in_combine_r _ _ _ _ Ib)). rewrite As1. cbn [lookup]. rewrite String.eqb_refl. discriminate. }
      { exists []. exact HI. }
      destruct (sh_nil s ltac:(congruence) Ws) as (t & ->).
      destruct (HM u dx t e Pu (proj1 St) Ls) as (gv & Efu & Egv & Hgv).
      destruct (add_slack params q_ndofs (package other) q _ _ _ _ _ _ A E1) as (Efb & _). rewrite Efb in Ew. fold u in Ew. rewrite Efu in Ew. injection Ew as <-.
      assert (Ht : M0 / (if sqr then sqrt u else u) <= t + e).
      { apply Hgv. intros r Ir. apply Bg. apply (Row _ (fun qp d => G qp d (scal u)) gv r); [|exact Egv|exact Ir]. rewrite Epc. cbn [parsed_as ModelWrapper.p_g]. apply in_app_iff. right. 
        apply (Ing (g_part params (qc_smoothing_params a)) (fun qp d => G qp d (scal u))). unfold g_part. apply in_app_iff. left. rewrite Ag. now left. }
      exists (scal M). split; [exists Q; split; [unfold get_quantity; now rewrite E1|exact Ev]|].
      assert (Ir : In (sign_of (op_string (uc_cmp c)) * ((if sqr then sq t else t) - uc_val c / u)) (el o)) by (rewrite Eel; now left).
      specialize (Bd _ Ir). destruct (uc_cmp c); [|now contradiction N1|now contradiction N2]. revert Bd. unfold sign_of, op_string. change (String.eqb "<=" ">=") with false. cbv iota. intros Bd.
      destruct sqr; (split; [intros Hk|split; intros Hk]); try (exfalso; lra).
      + exists M. split; [reflexivity|]. unfold M. pose proof (sqrt_lt_R0 u Pu) as Hs'. pose proof (sqrt_sqrt u ltac:(lra)) as Hss.
        assert (H0 : 0 <= M0 / sqrt u) by (apply Rmult_le_pos; [exact Pm|left; now apply Rinv_0_lt_compat]).
        assert (H1 : t <= sqrt (uc_val c / u + e)).
        { destruct (Rle_dec t 0) as [Ht0|Ht0]; [pose proof (sqrt_pos (uc_val c / u + e)); lra|]. rewrite <- (sqrt_Rsqr t) by lra. apply sqrt_le_1_alt. unfold Rsqr, sq in *. lra. }
        assert (H2 : sq (M0 / sqrt u) <= (sqrt (uc_val c / u + e) + e) ^ 2) by (unfold sq; rewrite <- Rsqr_pow2; unfold Rsqr; apply Rmult_le_compat; lra).
        replace (sq M0) with (u * sq (M0 / sqrt u)); [apply Rmult_le_compat_l; lra|]. unfold sq. rewrite <- Hss at 1. field. lra.
      + intros y [<-|[]]. unfold M. assert (Em : M0 = M0 / u * u) by (field; lra). assert (Eb : uc_val c = uc_val c / u * u) by (field; lra).
        assert (M0 / u * u <= (uc_val c / u + 2 * e) * u) by (apply Rmult_le_compat_r; lra). lra.
    - assert (Isl : In (uc_name c) slack_quantities) by (rewrite Inm; cbn; tauto).
      destruct (sum_margin other q x (Sa x Lx) O) as (Q & G & I & M & n0 & A0 & E1 & Ev & EG & HA & EI & HI & HM). rewrite <- Inm in E1, EI, HM.
      assert (Un : used os cs (uc_name c) (uc_unit c)) by (right; exists c; auto).
      destruct (slack_use other q x (Sa x Lx) O (uc_name c) Isl) as (Q1 & v1 & E2 & Ev1 & T). assert (Q1 = Q) by congruence. subst Q1. assert (v1 = scal M) by congruence. subst v1.
      destruct (use_slack _ _ _ _ _ _ _ _ _ _ _ _ _ A E1 T Nz) as (G1 & I1 & M1 & s1 & EM & Ag & _ & N1 & N2 & As1 & _ & EG1 & EI1 & _).
      assert (G1 = G) by congruence. subst G1. assert (I1 = I) by congruence. subst I1.
      destruct (HI u Pu) as (i & Ei & Si).
      destruct (state_lookup params q_ndofs (package other) q (vec x) U slack_name (fun n => In n slack_quantities) os cs (qc_smoothing_params a) f po pc
        (uses_ok other q U os cs O Uo Uc x (Sa x Lx)) slack_name_inj Eo Ec dx _ _ _ b Q (scal M) St Un A E1 T Isl) with (I := I) (i := i) (u := u) as (s & Ls & Ss & Ws); auto.
      { apply (in_union_c po pc l b ltac:(now rewrite Epc) (in_combine_r _ _ _ _ Ib)). rewrite As1. cbn [lookup]. rewrite String.eqb_refl. discriminate. }
      { exists [n0]. exact HI. }
      destruct s as [ss tl]. cbn [sh] in Ss. rewrite Si in Ss. subst ss.
      assert (Lt : length tl = n0) by exact (eq_trans Ws (size_single n0)).
      destruct (HM u dx tl e Pu (proj1 St) Ls Lt) as (fs & gv & Efu & Egv & Hgv).
      destruct (add_slack params q_ndofs (package other) q _ _ _ _ _ _ A E1) as (Efb & _). rewrite Efb in Ew. fold u in Ew. rewrite Efu in Ew. injection Ew as <-.
      assert (Ht : M / u <= fs + e * A0).
      { apply Hgv. intros r Ir. apply Bg. apply (Row _ (fun qp d => G qp d (scal u)) gv r); [|exact Egv|exact Ir]. rewrite Epc. cbn [parsed_as ModelWrapper.p_g]. apply in_app_iff. right. 
        apply (Ing (g_part params (qc_smoothing_params a)) (fun qp d => G qp d (scal u))). unfold g_part. apply in_app_iff. left. rewrite Ag. now left. }
      exists (scal M). split; [exists Q; split; [unfold get_quantity; now rewrite E1|exact Ev]|].
      split; [intros Hk; exfalso; lra|]. split; [intros Hk; exfalso; lra|]. intros _. exists M, A0. split; [reflexivity|]. split; [exact HA|].
      assert (Ir : In (sign_of (op_string (uc_cmp c)) * (fs - uc_val c / u)) (el o)) by (rewrite Eel; now left).
      specialize (Bd _ Ir). destruct (uc_cmp c); [|now contradiction N1|now contradiction N2]. revert Bd. unfold sign_of, op_string. change (String.eqb "<=" ">=") with false. cbv iota. intros Bd.
      assert (Em : M = M / u * u) by (field; lra). assert (Eb : uc_val c = uc_val c / u * u) by (field; lra).
      assert (M / u * u <= (uc_val c / u + (1 + A0) * e) * u) by (apply Rmult_le_compat_r; lra). lra.
  Qed.

  (** With objectives that need no slack variable, the solver's objective is
      nowhere below the user's. *)
  Lemma direct_value zx : length zx = length (pr_x0 p) -> (forall t, In t os -> In (ob_name t) direct_quantities) ->
    exists dx x r, stands_for p zx dx x /\ weighted other q (asked_terms os) x r /\ r <= p_f _ P zx.
  Proof using Hp As Hs Hm O Sx Uo Uc Hu Hphi.
    destruct (handed_problem (package other) a p os cs Hp As Hs Hm) as (f & po & pc & Eo & Ec & Ff & Fg & Fh & Ng & Nh & Fa).
    destruct (prepare_fields (package other) a p Hp) as (_ & _ & _ & _ & _ & _ & phi & x0 & Ephi & _ & Ex & Ex0 & Est).
    rewrite Fa in Ex. pose proof (all_sound p Sx) as Sa.
    assert (Lphi : length phi = q_ndofs q).
    { rewrite Ephi. destruct (qc_phi_init a) as [v|] eqn:Ev; [now apply Hphi|apply repeat_length]. }
    destruct (x0_facts other q U os cs (qc_smoothing_params a) f po pc O Uo Uc Eo Ec Sa phi (pr_unit p) x0 Lphi Ex) as (N0 & _ & _ & W0).
    assert (Ltot : length (pr_x0 p) = total (structure x0)).
    { rewrite Ex0. apply ravel_length. intros [k v] I. cbn. apply lookup_in in I; [|exact N0]. exact (proj1 (W0 k v I)). }
    pose proof (all_steady other q U os cs (qc_smoothing_params a) f po pc O Uo Uc Eo Ec Sx) as Ast.
    assert (Unp : forall z, length z = length (pr_x0 p) -> exists d x, unscale (pr_structure p) (pr_unit p) z = Ok d /\ length x = q_ndofs q /\ solver_state po pc q (vec x) d).
    { intros z Lz. rewrite Est. apply (unpack other q U os cs (qc_smoothing_params a) f po pc O Uo Uc Eo Ec Sa phi (pr_unit p) x0 Lphi Ex). congruence. }
    assert (Val : forall z d x, unscale (pr_structure p) (pr_unit p) z = Ok d -> length x = q_ndofs q -> solver_state po pc q (vec x) d ->
      p_g _ P z = rows q d (ModelWrapper.p_g po ++ ModelWrapper.p_g pc) /\ p_h _ P z = rows q d (ModelWrapper.p_h po ++ ModelWrapper.p_h pc)).
    { intros z d x Ed Lx St. pose proof (conj (Sa x Lx) St : state q po pc x d) as Sd. cbn [solver_problem ModelSolver.p_g ModelSolver.p_h].
      assert (Ev : forall g, In g (ModelWrapper.p_g po ++ ModelWrapper.p_g pc) \/ In g (ModelWrapper.p_h po ++ ModelWrapper.p_h pc) -> exists o, g q d = Ok o).
      { intros g I. destruct (Ast g I) as (Lg & HL). destruct (HL x d Sd) as (o & Eo' & _). eauto. }
      unfold g_scaled, h_scaled. rewrite Ed. cbn [bind]. rewrite Fg, Fh. split; apply rows_merged; auto. }
    destruct (constraints_value params q_ndofs (package other) (qc_smoothing_params a) cs pc Ec) as (l & Fl & Epc).
    pose proof (regular_all other q U os cs (qc_smoothing_params a) f po pc O Uo Uc Eo Ec Sx l Fl ltac:(now rewrite Epc)) as Rl.
    destruct (objective_parts params q_ndofs (package other) os (qc_smoothing_params a) f po Eo) as (lo & Fo & Ef & Gg & Gh & Go).
    assert (UO : forall t b, In (t, b) (combine os lo) -> ad_h b = [] /\ (In (ob_name t) direct_quantities -> ad_g b = [])).
    { intros t b Ib. pose proof (F2_combine _ _ _ _ _ Fo Ib) as A. cbv beta in A. pose proof (in_combine_l _ _ _ _ Ib) as It.
      assert (Un : used os cs (ob_name t) (ob_unit t)) by (left; exists t; auto). destruct (Uo t It) as (_ & Nz & Kind). destruct Sx as (x1 & S1).
      destruct (uses_ok other q U os cs O Uo Uc x1 S1 _ _ Un) as (_ & Q & v0 & EQ & Ev0 & D0). split.
      - destruct D0 as [D0|(T & _)]; [exact (proj1 (proj2 (use_direct _ _ _ _ _ _ _ _ _ _ _ _ A EQ D0 Nz)))|].
        destruct (use_slack _ _ _ _ _ _ _ _ _ _ _ _ _ A EQ T Nz) as (_ & _ & _ & _ & _ & _ & Ah & _). exact Ah.
      - intros I. destruct (direct_use other q x1 S1 (ob_name t) I) as (Q1 & v1 & E1 & _ & D1).
        { destruct Kind as [(Is & _)|(_ & St)]; [|exact St]. intros E0. exfalso. rewrite E0 in Is. cbn in Is. intuition discriminate. }
        exact (proj1 (use_direct _ _ _ _ _ _ _ _ _ _ _ _ A E1 D1 Nz)). }
    assert (Eh : ModelWrapper.p_h po = []).
    { rewrite Gh. clear - UO Fo. revert UO. induction Fo as [|t b os lo A F IH]; intros UO; [reflexivity|]. cbn [map concat].
      rewrite (proj1 (UO t b (or_introl eq_refl))). apply IH. intros; apply UO. now right. }
    assert (Eg : (forall t, In t os -> In (ob_name t) direct_quantities) -> ModelWrapper.p_g po = []).
    { rewrite Gg. clear - UO Fo. intros D. revert UO D. induction Fo as [|t b os lo A F IH]; intros UO D; [reflexivity|]. cbn [map concat].
      rewrite (proj2 (UO t b (or_introl eq_refl)) (D t (or_introl eq_refl))). apply IH; intros; [apply UO|apply D]; now right. }
    intros Lz Dir. destruct (Unp zx Lz) as (dx & x & Ed & Lx & St). exists dx, x.
    assert (Es : p_slack po = []).
    { assert (US : forall b, In b lo -> ad_slack b = []).
      { intros b Ib. destruct (F2_in_r _ _ _ _ Fo Ib) as (t & Itb & A). pose proof (in_combine_l _ _ _ _ Itb) as It. destruct (Uo t It) as (_ & Nz & Kind). destruct Sx as (x1 & S1).
        destruct (direct_use other q x1 S1 (ob_name t) (Dir t It)) as (Q1 & v1 & E1 & _ & D1).
        { destruct Kind as [(Is & _)|(_ & St')]; [|exact St']. intros E0. exfalso. rewrite E0 in Is. cbn in Is. intuition discriminate. }
        exact (proj1 (proj2 (proj2 (use_direct _ _ _ _ _ _ _ _ _ _ _ _ A E1 D1 Nz)))). }
      rewrite Go. clear - US. assert (G : forall s : ModelArray.dict (callable params), s = [] -> fold_left (fun s a => dict_union s (ad_slack a)) lo s = []).
      { induction lo as [|b lo IH]; intros s ->; [reflexivity|]. cbn [fold_left]. rewrite (US b (or_introl eq_refl)). apply IH; [intros; apply US; now right|reflexivity]. }
      now apply G. }
    pose proof (conj (Sa x Lx) St : state q po pc x dx) as Sd.
    set (pe := parsed_as params (qc_smoothing_params a) [] []).
    assert (Ee := value_constraints params q_ndofs (package other) (qc_smoothing_params a) [] [] (Forall2_nil _) : _ = Ok pe).
    destruct (objective_value other q U os cs (qc_smoothing_params a) f po pc O Uo Uc Eo Ec Sx x dx Sd) as (y & Ey).
    destruct (to_user other q U os [] (qc_smoothing_params a) f po pe O Uo ltac:(intros ? []) Eo Ee x (Sa x Lx) dx y) as (_ & r & Wr & Hr).
    { split; [split; [exact (proj1 St)|rewrite Es; intros k init L; discriminate L]|]. split; [|split; [split; intros ? []|exact Ey]].
      unfold system_holds. rewrite Eh, (Eg Dir). split; intros ? []. }
    exists r. split; [exact (conj Ed (conj Lx (proj1 St)))|]. split; [exact Wr|]. cbn [solver_problem ModelSolver.p_f]. unfold f_scaled. rewrite Ed. cbn [bind]. rewrite Ff, Ey. exact Hr.
  Qed.
End Call.
