(** The quantities of the package meet the assumptions of ProofProblem. *)
From Coq Require Import String List Bool Arith ZArith Reals Lra Lia.
From Verif Require Import Base ModelArray ProofArray ModelMath SpecMath ProofMath ModelSurface SpecSurface ModelParams ModelField SpecField
  ModelQuantity SpecQuantity ProofQuantity ProofSlack ModelWrapper SpecWrapper ProofWrapper ProofWrapper2 ModelShipped ModelPackage SpecPackage
  SpecConvex ProofPackage ProofPackage2 ProofPackage3 ProofPackage4 ProofConvex SpecProblem ProofProblem.
Import ListNotations.
Open Scope R_scope.
Open Scope string_scope.
Open Scope list_scope.

Lemma sh_nil a : sh a = [] -> wf a -> exists t, a = scal t.
Proof.
  destruct a as [s l]. cbn [sh]. intros ->. unfold wf. cbn [sh el size fold_right]. destruct l as [|t [|]]; try discriminate. now exists t.
Qed.

Section Kinds.
  Context {P : Type} (qp : P) (X : arr).

  Lemma c2_direct (func : field P) Q fld reg reg' compat : init_quantity reg (generate_c2 func compat) = (reg', Ok Q) ->
    phi_only func -> func qp [("phi", X)] = Ok fld -> wf fld -> direct P qp X Q fld.
  Proof.
    intros B F E W. assert (Q = {| q_raw := func; q_approx := fun _ qp d unit => bind (func qp d) (fun r => op2 Rdiv r unit);
      q_slack_f := fun qp d unit => bind (func qp d) (fun r => op2 Rdiv r unit); q_slack_g := None; q_slack_h := None; q_slack_init := None; q_compat := compat |}) as ->.
    { unfold init_quantity in B. cbn in B. congruence. }
    repeat (split; [reflexivity|]). split; [exact W|]. intros u d Hu L. cbn [q_slack_f].
    rewrite (F qp d [("phi", X)]) by (rewrite L; reflexivity). rewrite E. cbn [bind]. rewrite op2_scal_r by exact W. reflexivity.
  Qed.

  Lemma linf_through ss (func : field P) aux pd sqr au Q fld reg reg' : init_quantity reg (generate_linf_norm P ss func aux pd sqr au) = (reg', Ok Q) ->
    phi_only func -> func qp [("phi", X)] = Ok fld -> el fld <> [] -> aux <> "phi" -> (pd = true -> forall x, In x (el fld) -> 0 <= x) ->
    exists v, call Q qp [("phi", X)] = Ok v /\ through_slack P qp X Q aux v.
  Proof.
    intros B F E N Ha Hpd. rewrite (linf_built _ _ _ _ _ _ _ _ _ _ B).
    destruct (exists_max (map Rabs (el fld))) as [M HM]; [now apply map_nonempty|]. exists (scal (if sqr then sq M else M)). split.
    { unfold call, getitem. cbn [lookup q_raw]. change (String.eqb "phi" "phi") with true. cbn [bind]. now apply (linf_raw_value _ _ _ _ fld). }
    assert (Fd : forall d, lookup "phi" d = Some X -> func qp d = Ok fld).
    { intros d L. rewrite (F qp d [("phi", X)]); [exact E|rewrite L; reflexivity]. }
    eexists. eexists. exists (if sqr then sq M else M). split; [reflexivity|]. cbn [q_compat q_slack_g q_slack_h q_slack_init].
    split; [cbn; intuition discriminate|]. split; [cbn; intuition discriminate|].
    do 3 (split; [reflexivity|]). split; [exact Ha|]. exists [].
    assert (HM0 := is_max_abs_nonneg _ _ HM).
    split; [|split].
    - intros u Hu. unfold linf_init. rewrite (linf_raw_value func sqr qp [("phi", X)] fld M E HM). cbn [bind].
      replace (if sqr then amap sqrt (scal u) else scal u) with (scal (if sqr then sqrt u else u)) by (destruct sqr; reflexivity).
      eexists. split; [apply op2_scal_r; reflexivity|reflexivity].
    - intros u d a Hu L La Sa Wa. destruct (sh_nil a Sa Wa) as [t ->]. set (ue := if sqr then sqrt u else u).
      assert (Hue : 0 < ue) by (unfold ue; destruct sqr; auto; apply sqrt_lt_R0; auto).
      destruct (linf_g_value P ss func aux pd sqr au qp d fld u t (Fd d L) La) as [gv [Eg El]].
      exists (if sqr then sq t else t), gv. split; [|split; [exact Eg|]].
      + cbn [q_slack_f]. unfold linf_slack_f, getitem. rewrite La. cbn [bind]. destruct sqr; reflexivity.
      + intros Hle. unfold all_le0 in Hle. rewrite El in Hle. fold ue in Hle. rewrite linf_g_le0 in Hle by auto.
        assert (Hb : M / ue <= t) by (destruct HM as [Hin _]; apply in_map_iff in Hin as [x [<- Hx]]; auto).
        assert (Hq : 0 <= M / ue) by (apply Rmult_le_pos; auto; left; apply Rinv_0_lt_compat; auto).
        unfold ue in *. destruct sqr; [|exact Hb]. rewrite <- sqrt_div_sq by auto. now apply sq_mono.
    - intros u Hu. set (ue := if sqr then sqrt u else u).
      assert (Hue : 0 < ue) by (unfold ue; destruct sqr; auto; apply sqrt_lt_R0; auto).
      exists (scal (M / ue)). split; [reflexivity|]. split; [reflexivity|]. intros d L La.
      destruct (linf_g_value P ss func aux pd sqr au qp d fld u (M / ue) (Fd d L) La) as [gv [Eg El]]. exists gv. split; [exact Eg|]. split.
      + unfold all_le0. rewrite El. fold ue. rewrite linf_g_le0 by auto. intros x Hx. apply div_mono; auto. destruct HM as [_ H]. apply H, in_map; auto.
      + cbn [q_slack_f]. unfold linf_slack_f, getitem. rewrite La. cbn [bind]. unfold ue. destruct sqr; [|reflexivity].
        change (amap sq (scal (M / sqrt u))) with (scal (sq (M / sqrt u))). do 2 f_equal. now apply sqrt_div_sq.
  Qed.

  Lemma linf4_through (func : field P) aux Q fld reg reg' : init_quantity reg (generate_linf_norm_4 func aux) = (reg', Ok Q) ->
    phi_only func -> func qp [("phi", X)] = Ok fld -> el fld <> [] -> wf fld -> aux <> "phi" ->
    exists v, call Q qp [("phi", X)] = Ok v /\ through_slack P qp X Q aux v.
  Proof.
    intros B F E N W Ha. rewrite (linf4_built _ _ _ _ _ _ B).
    destruct (exists_max (map Rabs (el fld))) as [M HM]; [now apply map_nonempty|]. exists (scal (sq (sq M))). split.
    { unfold call, getitem. cbn [lookup q_raw]. change (String.eqb "phi" "phi") with true. cbn [bind]. unfold linf4_raw. rewrite E. cbn [bind].
      destruct (amax_spec (amap (fun x => sq (sq x)) fld)) as [M' [E' H']]; [now apply map_nonempty|].
      rewrite E'. cbn [bind]. cbn [el amap] in H'. now rewrite (is_max_unique _ _ _ H' (linf4_max _ _ HM)). }
    assert (Fd : forall d, lookup "phi" d = Some X -> func qp d = Ok fld).
    { intros d L. rewrite (F qp d [("phi", X)]); [exact E|rewrite L; reflexivity]. }
    assert (Hmax : is_max (sq M) (map sq (el fld))).
    { apply (is_max_map_mono sq sq M); auto; [intros; apply sq_mono; auto|intros; apply sq_abs]. }
    eexists. eexists. exists (sq (sq M)). split; [reflexivity|]. cbn [q_compat q_slack_g q_slack_h q_slack_init].
    split; [cbn; intuition discriminate|]. split; [cbn; intuition discriminate|].
    do 3 (split; [reflexivity|]). split; [exact Ha|]. exists [].
    split; [|split].
    - intros u Hu. unfold linf4_init. rewrite E. cbn [bind]. destruct (amax_spec (amap sq fld)) as [M' [E' H']]; [now apply map_nonempty|].
      rewrite E'. cbn [bind]. change (amap sqrt (scal u)) with (scal (sqrt u)). eexists. split; [apply op2_scal_r; reflexivity|reflexivity].
    - intros u d a Hu L La Sa Wa. destruct (sh_nil a Sa Wa) as [t ->]. pose proof (sqrt_lt_R0 u Hu) as Hue.
      destruct (linf4_g_value func aux qp d fld u t (Fd d L) W La) as [gv [Eg El]]. exists (sq t), gv. split; [|split; [exact Eg|]].
      + cbn [q_slack_f]. unfold linf_slack_f, getitem. rewrite La. reflexivity.
      + intros Hle. unfold all_le0 in Hle. rewrite El in Hle.
        assert (Hb : sq M / sqrt u <= t).
        { destruct Hmax as [Hin _]. apply in_map_iff in Hin as [x [<- Hx]].
          assert (sq x / sqrt u - t <= 0) by (apply Hle, in_map_iff; eauto). lra. }
        assert (Hq : 0 <= sq M / sqrt u) by (apply Rmult_le_pos; [apply sq_pos|left; apply Rinv_0_lt_compat; auto]).
        rewrite <- sqrt_div_sq by auto. now apply sq_mono.
    - intros u Hu. pose proof (sqrt_lt_R0 u Hu) as Hue.
      exists (scal (sq M / sqrt u)). split; [reflexivity|]. split; [reflexivity|]. intros d L La.
      destruct (linf4_g_value func aux qp d fld u (sq M / sqrt u) (Fd d L) W La) as [gv [Eg El]]. exists gv. split; [exact Eg|]. split.
      + unfold all_le0. rewrite El. intros y Hy. apply in_map_iff in Hy as [x [<- Hx]].
        assert (sq x / sqrt u <= sq M / sqrt u) by (apply div_mono; auto; destruct Hmax as [_ H]; apply H, in_map; auto). lra.
      + cbn [q_slack_f]. unfold linf_slack_f, getitem. rewrite La. cbn [bind].
        change (amap sq (scal (sq M / sqrt u))) with (scal (sq (sq M / sqrt u))). do 2 f_equal. now apply sqrt_div_sq.
  Qed.

  Lemma l1_through da nfp ss (func : field P) aux pd sqr au Q fld reg reg' : init_quantity reg (generate_l1_norm P da nfp ss func aux pd sqr au) = (reg', Ok Q) ->
    phi_only func -> func qp [("phi", X)] = Ok fld -> wf fld -> aux <> "phi" -> wf (da qp) -> sh (da qp) = sh fld ->
    (forall a, In a (el (da qp)) -> 0 <= a) -> 0 <= nfp qp -> (pd = true -> forall x, In x (el fld) -> 0 <= x) ->
    exists v, call Q qp [("phi", X)] = Ok v /\ through_slack P qp X Q aux v.
  Proof.
    intros B F E W Ha Wd Es Hda Hn Hpd. rewrite (l1_built _ _ _ _ _ _ _ _ _ _ _ _ B). set (L1 := wsum (el (da qp)) (el fld) * nfp qp).
    assert (Ld : length (el (da qp)) = length (el fld)) by (red in W, Wd; congruence). exists (scal L1). split.
    { unfold call, getitem. cbn [lookup q_raw]. change (String.eqb "phi" "phi") with true. cbn [bind]. now rewrite (l1_raw_value P da nfp func qp _ fld) by auto. }
    assert (Fd : forall d, lookup "phi" d = Some X -> func qp d = Ok fld).
    { intros d L. rewrite (F qp d [("phi", X)]); [exact E|rewrite L; reflexivity]. }
    eexists. eexists. exists L1. split; [reflexivity|]. cbn [q_compat q_slack_g q_slack_h q_slack_init].
    split; [cbn; intuition discriminate|]. split; [cbn; intuition discriminate|].
    do 3 (split; [reflexivity|]). split; [exact Ha|]. set (n := length (el fld)). exists [n].
    split; [|split].
    - intros u Hu. unfold l1_init. rewrite E. cbn [bind].
      replace (if au && ss qp then compress_by_stellsym fld else flatten fld) with (flatten fld)
        by (unfold compress_by_stellsym; destruct (au && ss qp); reflexivity).
      eexists. split; [apply op2_scal_r, wf_amap, wf_flatten|reflexivity].
    - intros u d a Hu L La Sa Wa. destruct a as [s l]. cbn [sh] in Sa. subst s.
      assert (Ll : length l = n) by (unfold wf in Wa; cbn [sh el] in Wa; rewrite size_single in Wa; exact Wa).
      destruct (l1_g_value P ss func aux pd au qp d fld u l (Fd d L) La Ll) as [gv [Eg El]].
      exists (wsum (el (da qp)) l * nfp qp), gv. split; [|split; [exact Eg|]].
      + cbn [q_slack_f]. apply (l1_f_value P da nfp ss func aux au qp _ fld); auto.
      + intros Hle. unfold all_le0 in Hle. rewrite El in Hle. rewrite l1_g_le0 in Hle by auto.
        pose proof (wsum_bound (el (da qp)) (el fld) l u Hu Ld Ll Hda Hle) as Hb. unfold L1.
        unfold Rdiv in *. rewrite Rmult_assoc, (Rmult_comm (nfp qp)), <- Rmult_assoc. apply Rmult_le_compat_r; auto.
    - intros u Hu. set (l := map (fun x => Rabs x / u) (el fld)). assert (Ll : length l = n) by apply map_length.
      exists (Arr [n] l). split; [reflexivity|]. split; [unfold wf; cbn [sh el]; now rewrite size_single|]. intros d L La.
      destruct (l1_g_value P ss func aux pd au qp d fld u l (Fd d L) La Ll) as [gv [Eg El]]. exists gv. split; [exact Eg|]. split.
      + unfold all_le0. rewrite El. rewrite l1_g_le0 by auto. intros x t Hx. unfold l in Hx. rewrite (in_combine_map _ _ _ _ Hx). lra.
      + cbn [q_slack_f]. rewrite (l1_f_value P da nfp ss func aux au qp _ fld (scal u) l); auto.
        unfold l. rewrite wsum_scaled_abs by auto. unfold L1. do 2 f_equal. field. lra.
  Qed.
End Kinds.

Lemma implementation_phi name : phi_only (implementation name).
Proof. intros q d d' E. unfold implementation, coefficients, getitem. now rewrite E. Qed.

(** The slack variable of each slack quantity. *)
Definition slack_name (n : string) : string :=
  match lookup n
    [("f_max_K2", "scaled_max_K2_f_max_K2"); ("f_max_K_dot_grad_K_cyl", "max_KK_cyl"); ("f_max_Bnormal", "scaled max Bnormal");
     ("f_max_Bnormal2", "scaled max Bnormal2"); ("f_max_force_cyl", "max_force_cyl"); ("f_max_force2_cyl", "max_force2_cyl");
     ("f_max_Phi", "scaled_max_Phi"); ("f_max_Phi2", "scaled_max_Phi_f_max_Phi2"); ("f_max_Phi4", "scaled_max_Phi2_f_max_Phi4"); ("f_l1_Phi", "scaled_abs_Phi")] with
  | Some a => a | None => "" end.
Lemma slack_name_inj n n' : In n slack_quantities -> In n' slack_quantities -> slack_name n = slack_name n' -> n = n'.
Proof.
  intros I I' E. unfold slack_quantities in *. cbn [In] in I, I'. repeat destruct I as [<-|I]; try contradiction;
    repeat destruct I' as [<-|I']; try contradiction; solve [reflexivity|discriminate E].
Qed.

Section PackageUses.
  Variables (other : list string) (q : params) (x : list R).
  Hypothesis S : sound q x.
  Let M : made q. Proof. apply S. Qed.
  Notation X := (Arr [length x] x).

  Lemma nonempty (v : arr) s : sh v = s -> wf v -> (size s <> 0)%nat -> el v <> [].
  Proof using. intros <- W Z E. unfold wf in W. rewrite E in W. now apply Z. Qed.

  Ltac impl_of lem := let v := fresh "v" in let V := fresh "V" in let Sv := fresh "Sv" in let W := fresh "W" in
    destruct (lem 1 1 q q x Rlt_0_1 (rescaled_self q) S M) as (v & V & _ & Sv & W).

  Lemma direct_use n : In n direct_quantities -> (n = "K_theta" -> q_stellsym q = true) ->
    exists Q v, package other n = Some (AQuantity Q) /\ call Q q [("phi", X)] = Ok v /\ direct params q X Q v.
  Proof using S.
    assert (G : forall im n Q v reg reg' compat, package other n = Some (AQuantity Q) -> init_quantity reg (generate_c2 (implementation im) compat) = (reg', Ok Q) ->
      (forall d, call Q q d = bind (getitem d "phi") (fun phi => implementation im q [("phi", phi)])) ->
      implementation im q (at_phi x) = Ok v -> wf v -> exists Q v, package other n = Some (AQuantity Q) /\ call Q q [("phi", X)] = Ok v /\ direct params q X Q v).
    { intros im n0 Q v reg reg' compat Ep Ei Ec V W. exists Q, v. split; [exact Ep|]. split; [rewrite Ec; exact V|].
      eapply c2_direct; [exact Ei|apply implementation_phi|exact V|exact W]. }
    intros I St. unfold direct_quantities in I. cbn [In] in I. repeat destruct I as [<-|I]; try contradiction.
    - impl_of both_K. eapply (G "_K") with (reg := []); [reflexivity|reflexivity|reflexivity|eassumption|assumption].
    - impl_of both_K2. eapply (G "_K2") with (reg := []); [reflexivity|reflexivity|reflexivity|eassumption|assumption].
    - destruct (both_K_theta 1 1 q q x Rlt_0_1 (rescaled_self q) S M (St eq_refl)) as (v & V & _ & Sv & W).
      eapply (G "_K_theta") with (reg := []); [reflexivity|reflexivity|reflexivity|eassumption|assumption].
    - impl_of both_f_K. eapply (G "_f_K") with (reg := []); [reflexivity|reflexivity|reflexivity|eassumption|assumption].
    - impl_of both_KK. eapply (G "_K_dot_grad_K") with (reg := []); [reflexivity|reflexivity|reflexivity|eassumption|assumption].
    - impl_of both_KKc. eapply (G "_K_dot_grad_K_cyl") with (reg := []); [reflexivity|reflexivity|reflexivity|eassumption|assumption].
    - impl_of both_B. eapply (G "_winding_surface_B") with (reg := []); [reflexivity|reflexivity|reflexivity|eassumption|assumption].
    - impl_of both_Bnormal. eapply (G "_Bnormal") with (reg := []); [reflexivity|reflexivity|reflexivity|eassumption|assumption].
    - impl_of both_Bnormal2. eapply (G "_Bnormal2") with (reg := []); [reflexivity|reflexivity|reflexivity|eassumption|assumption].
    - impl_of both_f_B. eapply (G "_f_B") with (reg := []); [reflexivity|reflexivity|reflexivity|eassumption|assumption].
    - destruct (both_f_B_normalized 1 1 q q x Rlt_0_1 Rlt_0_1 (rescaled_self q) S M) as (v & V & _ & Sv & W).
      eapply (G "_f_B_normalized_by_Bnormal_IG") with (reg := []); [reflexivity|reflexivity|reflexivity|eassumption|assumption].
    - impl_of both_Phi. eapply (G "_Phi") with (reg := []); [reflexivity|reflexivity|reflexivity|eassumption|assumption].
    - impl_of both_Phi_net. eapply (G "_Phi_with_net_current") with (reg := []); [reflexivity|reflexivity|reflexivity|eassumption|assumption].
    - impl_of both_Phi2. eapply (G "_Phi2") with (reg := []); [reflexivity|reflexivity|reflexivity|eassumption|assumption].
    - impl_of both_f_Phi. eapply (G "_f_Phi") with (reg := []); [reflexivity|reflexivity|reflexivity|eassumption|assumption].
  Qed.

  Hypothesis O : ordered q.
  Lemma slack_use n : In n slack_quantities ->
    exists Q v, package other n = Some (AQuantity Q) /\ call Q q [("phi", X)] = Ok v /\ through_slack params q X Q (slack_name n) v.
  Proof using S O.
    destruct (sizes q x S) as (Z1 & Z2 & Z3 & Z4).
    assert (G : forall im n Q v s reg reg' pd sqr au, package other n = Some (AQuantity Q) ->
      init_quantity reg (generate_linf_norm params q_stellsym (implementation im) (slack_name n) pd sqr au) = (reg', Ok Q) -> slack_name n <> "phi" ->
      implementation im q (at_phi x) = Ok v -> sh v = s -> wf v -> (size s <> 0)%nat -> (pd = true -> forall y, In y (el v) -> 0 <= y) ->
      exists Q v, package other n = Some (AQuantity Q) /\ call Q q [("phi", X)] = Ok v /\ through_slack params q X Q (slack_name n) v).
    { intros im n0 Q v s reg reg' pd sqr au Ep Ei Na V Sv W Z Pd. exists Q.
      destruct (linf_through q X q_stellsym _ _ _ _ _ _ _ _ _ Ei (implementation_phi im) V (nonempty _ _ Sv W Z) Na Pd) as (w & Ew & T).
      exists w. auto. }
    intros I. unfold slack_quantities in I. cbn [In] in I. repeat destruct I as [<-|I]; try contradiction.
    - impl_of both_K2. eapply (G "_K2") with (reg := []); [reflexivity|reflexivity|discriminate|eassumption|eassumption|assumption|assumption|discriminate].
    - impl_of both_KKc. eapply (G "_K_dot_grad_K_cyl") with (reg := []); [reflexivity|reflexivity|discriminate|eassumption|eassumption|assumption|assumption|discriminate].
    - impl_of both_Bnormal. eapply (G "_Bnormal") with (reg := []); [reflexivity|reflexivity|discriminate|eassumption|eassumption|assumption|assumption|discriminate].
    - impl_of both_Bnormal2. eapply (G "_Bnormal2") with (reg := []); [reflexivity|reflexivity|discriminate|eassumption|eassumption|assumption|assumption|].
      intros _ y Hy. change (bind (Bnormal2 q x) (fun v => Ok (of_grid v)) = Ok v) in V. unfold Bnormal2 in V.
      destruct (Bnormal q x) as [g|]; [|discriminate V]. cbn [bind] in V. assert (of_grid (gmap (fun y => y * y) g) = v) as <- by congruence.
      unfold of_grid, gmap in Hy. cbn [el] in Hy. apply in_concat in Hy as (r & Hr & Hy). apply in_map_iff in Hr as (r' & <- & _).
      apply in_map_iff in Hy as (z & <- & _). nra.
    - impl_of both_force. eapply (G "_force_cyl") with (reg := []); [reflexivity|reflexivity|discriminate|eassumption|eassumption|assumption|assumption|discriminate].
    - impl_of both_force. eapply (G "_force_cyl") with (reg := []); [reflexivity|reflexivity|discriminate|eassumption|eassumption|assumption|assumption|discriminate].
    - impl_of both_Phi. eapply (G "_Phi") with (reg := []); [reflexivity|reflexivity|discriminate|eassumption|eassumption|assumption|assumption|discriminate].
    - impl_of both_Phi. eapply (G "_Phi") with (reg := []); [reflexivity|reflexivity|discriminate|eassumption|eassumption|assumption|assumption|discriminate].
    - impl_of both_Phi.
      assert (G4 : forall n Q reg reg', package other n = Some (AQuantity Q) -> init_quantity reg (generate_linf_norm_4 (implementation "_Phi") (slack_name n)) = (reg', Ok Q) ->
        slack_name n <> "phi" -> exists Q v, package other n = Some (AQuantity Q) /\ call Q q [("phi", X)] = Ok v /\ through_slack params q X Q (slack_name n) v).
      { intros n Q reg reg' Ep Ei Na. exists Q.
        destruct (linf4_through q X _ _ _ _ _ _ Ei (implementation_phi "_Phi") V (nonempty _ _ Sv W Z2) W Na) as (w & Ew & T). exists w. auto. }
      eapply G4 with (reg := []); [reflexivity|reflexivity|discriminate].
    - impl_of both_Phi. impl_of both_da. assert (params_da q = v0) as Ed by congruence.
      assert (G1 : forall n Q reg reg', package other n = Some (AQuantity Q) ->
        init_quantity reg (generate_l1_norm params params_da (fun q => INR (q_nfp q)) q_stellsym (implementation "_Phi") (slack_name n) false false true) = (reg', Ok Q) ->
        slack_name n <> "phi" -> exists Q v, package other n = Some (AQuantity Q) /\ call Q q [("phi", X)] = Ok v /\ through_slack params q X Q (slack_name n) v).
      { intros n Q reg reg' Ep Ei Na. exists Q.
        destruct (l1_through q X _ _ _ _ _ _ _ _ _ _ _ _ Ei (implementation_phi "_Phi") V W Na) as (w & Ew & T).
        - now rewrite Ed.
        - rewrite Ed, Sv0. symmetry. exact Sv.
        - intros a Ha. unfold params_da in Ha. destruct (da (q_eval q)) as [g|] eqn:D; [|contradiction]. unfold of_grid in Ha. cbn [el] in Ha.
          refine (eval_weights q _ O g D a Ha). destruct S as (? & ? & ? & ? & _). intros z Lz. repeat (split; [assumption|]). exact Lz.
        - apply pos_INR.
        - discriminate.
        - exists w. auto. }
      eapply G1 with (reg := []); [reflexivity|reflexivity|discriminate].
  Qed.
End PackageUses.

Lemma get_package other n Q : get_quantity (package other) n = Ok Q <-> package other n = Some (AQuantity Q).
Proof. unfold get_quantity. destruct (package other n) as [[Q'|]|]; split; intros E; congruence. Qed.

Section Equivalence.
  Variables (other : list string) (q : params) (U : string -> R) (os : list objective) (cs : list user_constraint) (sp : smoothing_params).
  Variables (f : callable params) (po pc : parsed params).
  Hypothesis O : ordered q.
  Hypothesis Uo : forall o, In o os -> 0 <= ob_weight o /\ scaled_use U q (ob_name o) (ob_unit o).
  Hypothesis Uc : forall c, In c cs -> scaled_use U q (uc_name c) (uc_unit c).
  Hypothesis Eo : parse_objectives q_ndofs (package other) (Objectives (map ob_name os) (map (fun o => UScalar (ob_unit o)) os)) (map ob_weight os) (Some "slack") sp = Ok (f, po).
  Hypothesis Ec : parse_constraints q_ndofs (package other) (map uc_name cs) (map (fun c => op_string (uc_cmp c)) cs) (map (fun c => UScalar (uc_unit c)) cs) (map uc_val cs) (Some "slack") sp = Ok pc.
  Variable x : list R.
  Hypothesis S : sound q x.
  Notation X := (Arr [length x] x).
  Let slacked n := In n slack_quantities.

  Lemma uses_ok n un : used os cs n un -> un <> 0 /\ exists Q v, package other n = Some (AQuantity Q) /\ call Q q [("phi", X)] = Ok v /\
    (direct params q X Q v \/ through_slack params q X Q (slack_name n) v /\ slacked n /\ Rabs un = U n).
  Proof using Uo Uc O S.
    intros H. assert (Us : scaled_use U q n un).
    { destruct H as [(o & I & <- & <-)|(c & I & <- & <-)]; [apply (Uo o I)|apply (Uc c I)]. }
    destruct Us as (Nz & [(I & Eu)|(I & St)]); (split; [exact Nz|]).
    - destruct (slack_use other q x S O n I) as (Q & v & A & B & C). exists Q, v. split; [exact A|]. split; [exact B|]. right. split; [exact C|]. split; [exact I|exact Eu].
    - destruct (direct_use other q x S n I St) as (Q & v & A & B & C). exists Q, v. auto.
  Qed.
  Lemma objective_scalar o Q v : In o os -> package other (ob_name o) = Some (AQuantity Q) -> call Q q [("phi", X)] = Ok v -> exists m, v = scal m.
  Proof using Uo Uc Eo O S.
    intros Io Ep Ev. destruct (objective_parts _ _ _ _ _ _ _ Eo) as (l & F & _).
    assert (Cf : In "f" (q_compat Q)).
    { clear - Io F Ep. induction F as [|o' a os l A F IH]; [contradiction|]. destruct Io as [->|Io]; [|now apply IH].
      eapply (add_compat params q_ndofs (package other)); eassumption. }
    destruct (Uo o Io) as (_ & _ & [(I & _)|(I & _)]).
    - destruct (slack_use other q x S O _ I) as (Q' & v' & A & B & (G & In & m & Em & _)). assert (Q' = Q) by congruence. subst Q'. exists m. congruence.
    - remember (ob_name o) as n eqn:En. clear En. unfold direct_quantities in I. cbn [List.In] in I.
      assert (Gen : forall r : result R, bind r (fun v => Ok (scal v)) = Ok v -> exists m, v = scal m) by (intros [m|] E; cbn in E; [exists m; congruence|discriminate E]).
      repeat destruct I as [<-|I]; try contradiction;
        (apply (f_equal (fun o => match o with Some (AQuantity Q) => Some Q | _ => None end)) in Ep;
         match type of Ep with ?a = _ => let b := eval cbn in a in change a with b in Ep end);
        injection Ep as <-; cbn [q_compat] in Cf;
        solve [exfalso; cbn in Cf; intuition discriminate|eapply Gen; exact Ev].
  Qed.
  Lemma met_feasible : all_met params (package other) q X cs <-> feasible other q (asked_bounds cs) x.
  Proof using Uo Uc O S.
    split.
    - intros A name c b I. unfold asked_bounds in I. apply in_map_iff in I as (k & E & Ik). injection E as <- <- <-.
      destruct (uses_ok (uc_name k) (uc_unit k)) as (_ & Q & v & Ep & Ev & _); [right; exists k; auto|].
      exists v. split; [exists Q; split; [now apply get_package|exact Ev]|]. exact (A k Q v Ik Ep Ev).
    - intros A c Q v Ic Ep Ev. destruct (A (uc_name c) (uc_cmp c) (uc_val c)) as (v' & (Q' & Eg & Ev') & Hm); [unfold asked_bounds; apply in_map_iff; exists c; auto|].
      apply get_package in Eg. assert (Q' = Q) by congruence. subst Q'. unfold value_of in Ev'. assert (v' = v) as <- by congruence. exact Hm.
  Qed.
  Lemma total_weighted r : total params (package other) q X os r <-> weighted other q (asked_terms os) x r.
  Proof using.
    unfold total, weighted, asked_terms. split.
    - intros (ms & F & ->). exists ms. split.
      + clear - F. induction F as [|o m os ms (Q & A & B) F IH]; constructor; [|exact IH]. exists Q. split; [now apply get_package|exact B].
      + clear. f_equal. revert ms. induction os as [|o os' IH]; intros [|m ms]; try reflexivity. cbn. now rewrite IH.
    - intros (ms & F & ->). exists ms. split.
      + rewrite F2_map_l in F. clear - F. induction F as [|o m os ms (Q & A & B) F IH]; constructor; [|exact IH]. exists Q. split; [now apply get_package in A|exact B].
      + clear. f_equal. revert ms. induction os as [|o os' IH]; intros [|m ms]; try reflexivity. cbn. now rewrite IH.
  Qed.
  Lemma to_user d y : solver_value f po pc q X d y -> feasible other q (asked_bounds cs) x /\ exists r, weighted other q (asked_terms os) x r /\ r <= y.
  Proof using Uo Uc Eo Ec O S.
    intros H. edestruct (forward params q_ndofs (package other) q X U slack_name slacked os cs sp f po pc) as (A & r & T & Hr); try eassumption.
    - exact uses_ok.
    - exact slack_name_inj.
    - intros o I. apply (Uo o I).
    - exact objective_scalar.
    - split; [now apply met_feasible|]. exists r. split; [now apply total_weighted|exact Hr].
  Qed.
  Lemma from_user_ext r : feasible other q (asked_bounds cs) x -> weighted other q (asked_terms os) x r -> exists D : dofs, lookup "phi" D = Some X /\
    forall d, (forall k, k = "phi" \/ lookup k (dict_union (p_slack po) (p_slack pc)) <> None -> lookup k d = lookup k D) -> solver_value f po pc q X d r.
  Proof using Uo Uc Eo Ec O S.
    intros H T. eapply (backward_ext params q_ndofs (package other) q X U slack_name slacked os cs sp f po pc); try eassumption.
    - exact uses_ok.
    - exact slack_name_inj.
    - intros o I. apply (Uo o I).
    - exact objective_scalar.
    - now apply met_feasible.
    - now apply total_weighted.
  Qed.
  Lemma from_user r : feasible other q (asked_bounds cs) x -> weighted other q (asked_terms os) x r -> exists d, solver_value f po pc q X d r.
  Proof using Uo Uc Eo Ec O S. intros H T. destruct (from_user_ext r H T) as (D & _ & A). exists D. apply A. auto. Qed.
End Equivalence.
