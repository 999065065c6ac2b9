(** The shapes of the problem handed to the optimiser do not depend on the
    unknowns. *)
From Coq Require Import String List Bool Arith ZArith Reals Lra Lia.
From Verif Require Import Base ModelArray ProofArray ModelMath SpecMath ProofMath ModelSurface SpecSurface ModelParams ModelField SpecField
  ModelQuantity SpecQuantity ProofQuantity ProofSlack ModelWrapper SpecWrapper ProofWrapper ProofWrapper2 ModelShipped ModelPackage SpecPackage
  SpecConvex ProofPackage ProofPackage2 ProofPackage3 ProofPackage4 ProofConvex SpecProblem ProofProblem ProofProblem2.
Import ListNotations.
Open Scope R_scope.
Open Scope string_scope.
Open Scope list_scope.

Notation vec x := (Arr [length x] x).

Section Shapes.
  Variables (other : list string) (q : params).

  (** The value of an implementation has one shape. *)
  Definition one_shape (im : string) : Prop :=
    exists s, (exists x, sound q x) -> (size s <> 0)%nat /\ forall x, sound q x -> exists v, implementation im q (at_phi x) = Ok v /\ sh v = s /\ wf v.
  Ltac shape_of lem := eexists; intros (x0 & S0); destruct (sizes q x0 S0) as (Z1 & Z2 & Z3 & Z4); split;
    [|intros x S; destruct (lem 1 1 q q x Rlt_0_1 (rescaled_self q) S ltac:(apply S)) as (v & V & _ & Sv & W); exists v; split; [exact V|split; [exact Sv|exact W]]];
    first [assumption|discriminate].
  Lemma shape_K : one_shape "_K". Proof. shape_of both_K. Qed.
  Lemma shape_K2 : one_shape "_K2". Proof. shape_of both_K2. Qed.
  Lemma shape_f_K : one_shape "_f_K". Proof. shape_of both_f_K. Qed.
  Lemma shape_KK : one_shape "_K_dot_grad_K". Proof. shape_of both_KK. Qed.
  Lemma shape_KKc : one_shape "_K_dot_grad_K_cyl". Proof. shape_of both_KKc. Qed.
  Lemma shape_B : one_shape "_winding_surface_B". Proof. shape_of both_B. Qed.
  Lemma shape_Bnormal : one_shape "_Bnormal". Proof. shape_of both_Bnormal. Qed.
  Lemma shape_Bnormal2 : one_shape "_Bnormal2". Proof. shape_of both_Bnormal2. Qed.
  Lemma shape_f_B : one_shape "_f_B". Proof. shape_of both_f_B. Qed.
  Lemma shape_force : one_shape "_force_cyl". Proof. shape_of both_force. Qed.
  Lemma shape_Phi : one_shape "_Phi". Proof. shape_of both_Phi. Qed.
  Lemma shape_Phi_net : one_shape "_Phi_with_net_current". Proof. shape_of both_Phi_net. Qed.
  Lemma shape_Phi2 : one_shape "_Phi2". Proof. shape_of both_Phi2. Qed.
  Lemma shape_f_Phi : one_shape "_f_Phi". Proof. shape_of both_f_Phi. Qed.

  Hypothesis Some_sound : exists x, sound q x.

  Lemma direct_shape n : In n direct_quantities -> (n = "K_theta" -> q_stellsym q = true) ->
    exists Q s, package other n = Some (AQuantity Q) /\ forall x v, sound q x -> call Q q [("phi", vec x)] = Ok v -> sh v = s.
  Proof using Some_sound.
    assert (G : forall im n Q, one_shape im -> package other n = Some (AQuantity Q) ->
      (forall d, call Q q d = bind (getitem d "phi") (fun phi => implementation im q [("phi", phi)])) ->
      exists Q s, package other n = Some (AQuantity Q) /\ forall x v, sound q x -> call Q q [("phi", vec x)] = Ok v -> sh v = s).
    { intros im n0 Q (s & Hs) Ep Ec. exists Q, s. split; [exact Ep|]. intros x v S Ev. rewrite Ec in Ev.
      destruct (proj2 (Hs Some_sound) x S) as (v' & V & Sv & _). change (implementation im q (at_phi x) = Ok v) in Ev. congruence. }
    intros I St. unfold direct_quantities in I. cbn [In] in I. repeat destruct I as [<-|I]; try contradiction.
    - eapply G; [apply shape_K|reflexivity|reflexivity].
    - eapply G; [apply shape_K2|reflexivity|reflexivity].
    - eapply (G "_K_theta"); [|reflexivity|reflexivity]. eexists. intros (x0 & S0). destruct (sizes q x0 S0) as (Z1 & Z2 & Z3 & Z4). split;
      [|intros x S; destruct (both_K_theta 1 1 q q x Rlt_0_1 (rescaled_self q) S ltac:(apply S) (St eq_refl)) as (v & V & _ & Sv & W); exists v; split; [exact V|split; [exact Sv|exact W]]]. assumption.
    - eapply G; [apply shape_f_K|reflexivity|reflexivity].
    - eapply G; [apply shape_KK|reflexivity|reflexivity].
    - eapply G; [apply shape_KKc|reflexivity|reflexivity].
    - eapply G; [apply shape_B|reflexivity|reflexivity].
    - eapply G; [apply shape_Bnormal|reflexivity|reflexivity].
    - eapply G; [apply shape_Bnormal2|reflexivity|reflexivity].
    - eapply G; [apply shape_f_B|reflexivity|reflexivity].
    - eapply (G "_f_B_normalized_by_Bnormal_IG"); [|reflexivity|reflexivity]. eexists. intros (x0 & S0). split;
      [|intros x S; destruct (both_f_B_normalized 1 1 q q x Rlt_0_1 Rlt_0_1 (rescaled_self q) S ltac:(apply S)) as (v & V & _ & Sv & W); exists v; split; [exact V|split; [exact Sv|exact W]]]. discriminate.
    - eapply G; [apply shape_Phi|reflexivity|reflexivity].
    - eapply G; [apply shape_Phi_net|reflexivity|reflexivity].
    - eapply G; [apply shape_Phi2|reflexivity|reflexivity].
    - eapply G; [apply shape_f_Phi|reflexivity|reflexivity].
  Qed.

  (** The inequality of a slack quantity has one length, its initial value one
      shape. *)
  Definition one_length (n : string) : Prop :=
    exists Q G I s L, package other n = Some (AQuantity Q) /\ q_slack_g Q = Some G /\ q_slack_init Q = Some [(slack_name n, I)] /\
      forall x, sound q x ->
        (forall u, 0 < u -> exists i, I q [("phi", vec x)] (scal u) = Ok i /\ sh i = s /\ wf i) /\
        (forall u d a gv, 0 < u -> lookup "phi" d = Some (vec x) -> lookup (slack_name n) d = Some a -> sh a = s -> wf a ->
           G q d (scal u) = Ok gv -> length (el gv) = L).

  Lemma wf_map_arr s (g : R -> R) l : length l = size s -> wf (Arr s (map g l)).
  Proof using. intros H. red. cbn [sh el]. now rewrite map_length. Qed.

  Lemma slack_lengths n : In n slack_quantities -> one_length n.
  Proof using Some_sound.
    assert (Fd : forall im x v d, implementation im q (at_phi x) = Ok v -> lookup "phi" d = Some (vec x) -> implementation im q d = Ok v).
    { intros im x v d V L. rewrite (implementation_phi im q d (at_phi x)); [exact V|]. unfold at_phi. cbn [lookup]. rewrite L. reflexivity. }
    assert (G : forall im n Q pd sqr au, one_shape im -> package other n = Some (AQuantity Q) ->
      (exists reg reg', init_quantity reg (generate_linf_norm params q_stellsym (implementation im) (slack_name n) pd sqr au) = (reg', Ok Q)) -> one_length n).
    { intros im n0 Q pd sqr au (s & Hs) Ep (reg & reg' & Ei). destruct (Hs Some_sound) as (Z & H). rewrite (linf_built _ _ _ _ _ _ _ _ _ _ Ei) in Ep.
      eexists. eexists. eexists. exists []. exists (if pd then size s else size s + size s)%nat. split; [exact Ep|]. split; [reflexivity|]. split; [reflexivity|].
      intros x S. destruct (H x S) as (v & V & Sv & W). split.
      - intros u Hu. destruct (exists_max (map Rabs (el v))) as [M HM]; [apply map_nonempty; apply (nonempty v s Sv W Z)|].
        unfold linf_init. rewrite (linf_raw_value (implementation im) sqr q [("phi", vec x)] v M V HM). cbn [bind].
        replace (if sqr then amap sqrt (scal u) else scal u) with (scal (if sqr then sqrt u else u)) by (destruct sqr; reflexivity).
        eexists. split; [apply op2_scal_r; destruct sqr; reflexivity|]. split; [destruct sqr; reflexivity|]. apply wf_map_arr. destruct sqr; reflexivity.
      - intros u d a gv Hu Lp La Sa Wa Eg. destruct (sh_nil a Sa Wa) as [t ->].
        destruct (linf_g_value params q_stellsym (implementation im) (slack_name n0) pd sqr au q d v u t (Fd _ _ _ _ V Lp) La) as [gv' [Eg' El]].
        assert (gv' = gv) as -> by congruence. rewrite El. red in W. rewrite Sv in W. unfold linf_g_els. destruct pd; rewrite ?app_length, ?map_length; cbn [length]; lia. }
    intros I. unfold slack_quantities in I. cbn [In] in I. repeat destruct I as [<-|I]; try contradiction.
    - eapply G; [apply shape_K2|reflexivity|exists []; eexists; reflexivity].
    - eapply G; [apply shape_KKc|reflexivity|exists []; eexists; reflexivity].
    - eapply G; [apply shape_Bnormal|reflexivity|exists []; eexists; reflexivity].
    - eapply G; [apply shape_Bnormal2|reflexivity|exists []; eexists; reflexivity].
    - eapply G; [apply shape_force|reflexivity|exists []; eexists; reflexivity].
    - eapply G; [apply shape_force|reflexivity|exists []; eexists; reflexivity].
    - eapply G; [apply shape_Phi|reflexivity|exists []; eexists; reflexivity].
    - eapply G; [apply shape_Phi|reflexivity|exists []; eexists; reflexivity].
    - destruct shape_Phi as (s & Hs). destruct (Hs Some_sound) as (Z & H).
      eexists. eexists. eexists. exists []. exists (size s). split; [reflexivity|]. split; [reflexivity|]. split; [reflexivity|].
      intros x S. destruct (H x S) as (v & V & Sv & W). split.
      + intros u Hu. unfold linf4_init. change [("phi", vec x)] with (at_phi x). rewrite V. cbn [bind].
        destruct (amax_spec (amap sq v)) as [M' [E' H']]; [apply map_nonempty; apply (nonempty v s Sv W Z)|].
        rewrite E'. cbn [bind]. change (amap sqrt (scal u)) with (scal (sqrt u)). eexists. split; [apply op2_scal_r; reflexivity|]. split; reflexivity.
      + intros u d a gv Hu Lp La Sa Wa Eg. destruct (sh_nil a Sa Wa) as [t ->].
        destruct (linf4_g_value (implementation "_Phi") _ q d v u t (Fd _ _ _ _ V Lp) W La) as [gv' [Eg' El]].
        assert (K : Ok gv' = Ok gv) by (rewrite <- Eg'; exact Eg). injection K as ->. rewrite El, map_length. red in W. now rewrite W, Sv.
    - destruct shape_Phi as (s & Hs). destruct (Hs Some_sound) as (Z & H).
      eexists. eexists. eexists. exists [size s]. exists (size s + size s)%nat. split; [reflexivity|]. split; [reflexivity|]. split; [reflexivity|].
      intros x S. destruct (H x S) as (v & V & Sv & W). assert (Lv : length (el v) = size s) by (red in W; congruence). split.
      + intros u Hu. unfold l1_init. change [("phi", vec x)] with (at_phi x). rewrite V. cbn [bind].
        match goal with |- context [if ?b then compress_by_stellsym v else flatten v] =>
          replace (if b then compress_by_stellsym v else flatten v) with (flatten v) by (unfold compress_by_stellsym; destruct b; reflexivity) end.
        eexists. split; [apply op2_scal_r, wf_amap, wf_flatten|]. split; [cbn; now rewrite Lv|]. apply wf_map_arr. cbn [sh amap flatten el]. rewrite map_length. cbn. lia.
      + intros u d a gv Hu Lp La Sa Wa Eg. destruct a as [sa l]. cbn [sh] in Sa. subst sa.
        assert (Ll : length l = size s) by (unfold wf in Wa; cbn [sh el] in Wa; rewrite size_single in Wa; exact Wa). rewrite <- Lv in La, Ll.
        match type of Eg with l1_slack_g ?P ?ss ?f ?ax ?pd ?au ?q ?d ?uu = _ =>
          destruct (l1_g_value P ss f ax pd au q d v u l (Fd _ _ _ _ V Lp) La Ll) as [gv' [Eg' El]] end.
        assert (gv' = gv) as -> by congruence. rewrite El, app_length. 
        assert (M2 : forall (g : R -> R -> R) a b, length a = length b -> length (map2 g a b) = length a).
        { clear. intros g a. induction a as [|y a IH]; intros [|z b] H; try discriminate; cbn; [reflexivity|]. f_equal. apply IH. now injection H. }
        rewrite !M2 by congruence. lia.
  Qed.
End Shapes.
