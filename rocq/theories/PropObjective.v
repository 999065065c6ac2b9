(** Property C155: the reported objective is made of the reported quantities. *)
From Coq Require Import String List Bool Arith ZArith Reals Lra Lia.
From Verif Require Import Base ModelArray ProofArray ModelMath SpecMath ModelSurface SpecSurface ModelParams SpecField
  ModelQuantity ModelWrapper SpecWrapper ProofWrapper ProofWrapper2 ModelPackage SpecPackage
  SpecConvex ModelSolver SpecSolver ProofSolver ModelQuadcoil SpecQuadcoil ProofQuadcoil ProofQuadcoil2
  SpecProblem ProofProblem ProofProblem2 ProofConvex ProofEnd SpecEnd ProofEnd4 ProofEnd5 SpecCert ProofCert ProofPackage ProofPackage2 ProofPackage3 ProofPackage4 PropConvex
  WitnessField WitnessSolver WitnessQuadcoil PropPackage WitnessEnd PropEnd SpecBest SpecCertify PropCertify SpecReport PropReport.
Import ListNotations.
Open Scope R_scope.
Open Scope string_scope.
Open Scope list_scope.

(** An objective all of whose terms are handed over as they are. *)
Lemma direct_objective other q U os sp f po x d :
  ordered q -> sound q x -> (forall t, In t os -> 0 <= ob_weight t /\ scaled_use U q (ob_name t) (ob_unit t)) ->
  (forall t, In t os -> In (ob_name t) direct_quantities) ->
  parse_objectives q_ndofs (package other) (Objectives (map ob_name os) (map (fun o => UScalar (ob_unit o)) os)) (map ob_weight os) (Some "slack") sp = Ok (f, po) ->
  lookup "phi" d = Some (Arr [length x] x) ->
  exists r, weighted other q (asked_terms os) x r /\ f q d = Ok (scal r).
Proof.
  intros O S Uo Dir Eo L. destruct (objective_parts _ _ _ _ _ _ _ Eo) as (lo & Fo & -> & _).
  pose proof (fun o Q v => objective_scalar other q U os [] sp _ po O Uo (fun c (I : In c []) => match I with end) Eo x S o Q v) as Sc.
  destruct (sum_lower params (package other) q (Arr [length x] x) eq d os lo (or_intror eq_refl) (F2_len _ _ _ Fo) (fun o I => proj1 (Uo o I))) as (ms & vs & F1 & F2 & Es).
  { intros o a Ia. pose proof (F2_combine _ _ _ _ _ Fo Ia) as A. assert (Io : In o os) by (eapply in_combine_l; exact Ia).
    destruct (Uo o Io) as (_ & Nz & K).
    assert (St : ob_name o = "K_theta" -> q_stellsym q = true).
    { destruct K as [(I & _)|(_ & St)]; [|exact St]. intros En. exfalso. rewrite En in I. cbn in I. intuition discriminate. }
    destruct (direct_use other q x S _ (Dir o Io) St) as (Q & v & EQ & Ev & D).
    destruct (Sc o Q v Io EQ Ev) as (m & ->). destruct (use_direct _ _ _ _ _ _ _ _ _ _ _ _ A EQ D Nz) as (_ & _ & _ & _ & Hf).
    exists Q, m, (m / Rabs (ob_unit o)). split; [exact EQ|]. split; [exact Ev|]. split; [exact (Hf d L)|reflexivity]. }
  exists (Rsum (map2 (fun o m => ob_weight o / Rabs (ob_unit o) * m) os ms)). split.
  - apply (total_weighted other q os x). exists ms. auto.
  - rewrite (f_tot_value params _ _ vs q d 0); [|rewrite !map_length; exact (F2_len _ _ _ Fo)|exact F2]. rewrite Es. do 2 f_equal. ring.
Qed.

(** ** C155 *)
(** A call in slack mode that returned with gradients and was asked for f_obj:
    f_obj is reported, it is the objective value of the solver, and if the terms
    of the objective are reported as well ([vs]) then it is their sum with the
    weights divided by the units when no term needs a slack variable, and at
    least that sum when no constraint is reported violated. *)
Theorem C155_reported_objective :
  forall other (E : library) (a : args (x_solver E)) U os cs o,
  counted (x_opt E) -> shaped (x_opt E) ->
  asks a os cs -> qc_smoothing a = Some "slack" -> qc_merge a = false ->
  quadcoil (package other) E a = Some (Ok o) ->
  let q := o_qp E o in
  ordered q -> (exists x, sound q x) -> (forall x, qc_phi_init a = Some x -> length x = q_ndofs q) ->
  (forall b, qc_Bnormal a = Some b -> wf b) ->
  (forall t, In t os -> 0 <= ob_weight t /\ scaled_use U q (ob_name t) (ob_unit t)) ->
  (forall c, In c cs -> scaled_use U q (uc_name c) (uc_unit c)) ->
  (forall p, prepare (package other) a = Ok p -> pr_unit p <> 0) ->
  qc_value_only a = false -> requested a "f_obj" ->
  exists e y, lookup "f_obj" (o_out E o) = Some e /\ e_value e = Some (scal y) /\
    (forall d, o_results E o = Constrained E d -> d_f _ d = y) /\
    forall vs, shown_terms E o os vs ->
      let sum := Rsum (map2 (fun t v => ob_weight t / Rabs (ob_unit t) * v) os vs) in
      ((forall t, In t os -> In (ob_name t) direct_quantities) -> y = sum) /\
      (forall d, o_results E o = Constrained E d -> (forall v, In v (d_g _ d) -> v <= 0) -> (forall v, In v (d_h _ d) -> v = 0) -> sum <= y).
Proof.
  intros other E a U os cs o Hcnt Hsh As Hs Hm Hq q O Sx Hphi HB Uo Uc Hnz Vo Rq.
  destruct (quadcoil_ok _ E a o Hq) as (p & r & d & Hp & Hso & Hf & Hd & E1 & E2 & E3).
  subst q. rewrite E1 in *. pose proof (Hnz p Hp) as Hu.
  destruct (problem_facts other E a p U os cs Hp As Hs Hm O Sx Uo Uc Hu Hphi) as (ng & nh & FZ & _ & _ & _ & _).
  assert (Lr : length (optimum E r) = length (pr_x0 p)).
  { destruct r as [r|dd]; cbn [optimum].
    - unfold solve in Hso. destruct (unconstrained (pr_fn p)); [|destruct (solve_constrained _ _ _ _ _ _ _ _ _ _); discriminate Hso].
      destruct (run_opt _ _ _ _ _ _ _ _ _ _) as [r0|] eqn:Er; [|discriminate Hso]. injection Hso as ->. eapply run_length; eassumption.
    - exact (returned_length other E a o p dd Hcnt Hsh Hq E3 Hp). }
  destruct (FZ _ Lr) as (_ & _ & (y & Ey) & d' & x & (Ed & Lx & Lp) & Adm). assert (d' = d) by congruence. subst d'.
  assert (S : sound (fn_qp (pr_fn p)) x) by (destruct Sx as (x0 & S0); exact (sound_all _ x0 S0 x Lx)).
  destruct (shows (package other) E a HB p r d o "f_obj" Hp Hf Hd E2 Rq ltac:(congruence)) as (e & v & L & V & Sh).
  cbn [String.eqb Ascii.eqb Bool.eqb] in Sh. unfold f_scaled in Ey. rewrite Hd in Ey. cbn [bind] in Ey.
  assert (v = scal y) by congruence. subst v. exists e, y. split; [exact L|]. split; [exact V|].
  assert (Sv : forall dd, o_results E o = Constrained E dd -> r = Constrained E dd /\ d_f _ dd = p_f _ (solver_problem E a p) (d_x _ dd) /\
     d_g _ dd = p_g _ (solver_problem E a p) (d_x _ dd) /\ d_h _ dd = p_h _ (solver_problem E a p) (d_x _ dd)).
  { intros dd Ed'. rewrite E3 in Ed'. split; [exact Ed'|]. rewrite Ed' in Hso. unfold solve in Hso.
    destruct (unconstrained (pr_fn p)); [destruct (run_opt _ _ _ _ _ _ _ _ _ _); discriminate Hso|].
    destruct (solve_constrained _ _ _ _ _ _ _ _ _ _) as [d2|] eqn:Hsol; [|discriminate Hso]. injection Hso as ->.
    destruct (solve_inv _ _ _ Hcnt _ _ _ _ _ _ _ _ Hsol) as (d1 & _ & Hlast & _).
    destruct (body_inv _ _ _ Hcnt _ _ _ _ _ _ _ Hlast) as (r0 & _ & _ & _ & _ & Ef & Eg & Eh & _). auto. }
  assert (Pf : p_f _ (solver_problem E a p) (optimum E r) = y).
  { cbn [solver_problem p_f]. unfold f_scaled. rewrite Hd. cbn [bind]. rewrite Ey. reflexivity. }
  split.
  { intros dd Er. destruct (Sv dd Er) as (-> & -> & _). exact Pf. }
  intros vs Fv sum.
  assert (W : forall w, weighted other (fn_qp (pr_fn p)) (asked_terms os) x w -> w = sum).
  { intros w (ms & F & ->). subst sum. unfold asked_terms in *. rewrite F2_map_l in F. cbn [fst] in F.
    assert (G : ms = vs).
    { assert (Uo' : forall t, In t os -> ob_name t <> "hess_cond" /\ ob_name t <> "f_obj").
      { intros t I. destruct (Uo t I) as (_ & _ & [(J & _)|(J & _)]); split; intros En; rewrite En in J; cbn in J; intuition discriminate. }
      clear - F Fv Uo' Hq Vo Hp Hf Hd E2 HB Lp. revert vs Fv Uo'. induction F as [|t m os ms H F IH]; intros vs Fv Uo'; inversion Fv as [|t' v' os' vs' (e & Le & Ve) Fv' X1 X2]; subst; [reflexivity|].
      f_equal; [|apply IH; [exact Fv'|intros; apply Uo'; now right]].
      destruct (Uo' t (or_introl eq_refl)) as (N1 & N2).
      assert (Rt : requested a (ob_name t)).
      { assert (K : lookup (ob_name t) (o_out E o) <> None) by congruence. apply (output_keys_gradient _ E a o Hq Vo) in K. destruct K as [K|(K & _)]; [exact K|contradiction]. }
      destruct (shows (package other) E a HB p r _ o (ob_name t) Hp Hf Hd eq_refl Rt (fun _ => N2)) as (e' & v & L' & V' & Sh').
      apply String.eqb_neq in N2. rewrite N2 in Sh'. assert (e' = e) by congruence. subst e'. assert (v = scal v') by congruence. subst v.
      assert (Rd : reads other (ob_name t) (fn_qp (pr_fn p)) x (scal v')).
      { destruct (get_quantity (package other) (ob_name t)) as [Q|] eqn:EQ; [|discriminate Sh']. exists Q. split; [exact EQ|]. cbn [bind] in Sh'.
        rewrite <- Sh'. unfold value_of, call, getitem. rewrite Lp. reflexivity. }
      assert (K : scal m = scal v') by (eapply reads_fun; eassumption). now injection K. }
    rewrite G. clear. f_equal. revert vs. induction os as [|t os' IH]; intros [|v vs]; try reflexivity. cbn [map map2 snd]. now rewrite IH. }
  split.
  - intros Dir. destruct (handed_problem (package other) a p os cs Hp As Hs Hm) as (f & po & pc & Eo & _ & Ff & _).
    destruct (direct_objective other _ U os _ f po x d O S Uo Dir Eo Lp) as (w & Ww & Ew). rewrite <- Ff in Ew. rewrite <- (W w Ww). rewrite Ey in Ew. now injection Ew.
  - intros dd Er Hg Hh. destruct (Sv dd Er) as (Hr & _ & Eg & Eh). rewrite Hr in *. cbn [optimum] in *.
    destruct Adm as (_ & w & Ww & Lw).
    { split; apply List.Forall_forall; [rewrite <- Eg; exact Hg|rewrite <- Eh; exact Hh]. }
    rewrite <- (W w Ww). rewrite <- Pf. exact Lw.
Qed.
Print Assumptions C155_reported_objective.

(** A non-trivial case: the call of C121, asked for its objective and for the
    one term of it, with weight 1/2 and unit 2. *)
Example C155_example : exists o e e' v,
  quadcoil (package []) E120 (with_reporting call120 (NTuple ["f_Phi"; "f_obj"]) false false None (1 / 2)) = Some (Ok o) /\
  lookup "f_Phi" (o_out E120 o) = Some e /\ e_value e = Some (scal v) /\
  lookup "f_obj" (o_out E120 o) = Some e' /\ e_value e' = Some (scal (1 / 2 / Rabs 2 * v)).
Proof.
  set (a := with_reporting call120 (NTuple ["f_Phi"; "f_obj"]) false false None (1 / 2)).
  destruct call_hypotheses as (H1 & H2 & H3 & H4).
  assert (Hnz : forall p, prepare (package []) a = Ok p -> pr_unit p <> 0).
  { intros p Hp. change (prepare (package []) a) with (prepare (package []) call120) in Hp. destruct (call_start p Hp) as (_ & _ & _ & -> & _). lra. }
  assert (HB : forall b, qc_Bnormal a = Some b -> wf b) by (intros b [= <-]; reflexivity).
  destruct (C121_valid_calls_return [] E120 a shown U120 terms120 bounds120 H1 H2 call_builds call_asks eq_refl eq_refl
      ltac:(cbn; lra) ltac:(cbn; lra) H3 H4 ltac:(discriminate) HB ltac:(discriminate) Hnz call_terms call_bounds) as (o & Hq & Eq & x & Lx & Nx & M).
  { intros m [<-|[<-|[]]]; [right|left; reflexivity]. exists Number. split; [cbn; tauto|]. split; [cbn; intuition discriminate|]. split; [discriminate|reflexivity]. }
  { cbn. lia. } { cbn. lia. }
  destruct (M "f_Phi") as (e & v & Le & Ve & Rd); [left; reflexivity|discriminate|].
  assert (Sv : exists m, v = scal m).
  { destruct H4 as (x0 & S0). assert (S : sound shown x) by (apply (sound_all _ x0 S0); exact Nx).
    destruct (direct_use [] shown x S "f_Phi" ltac:(cbn; tauto) ltac:(discriminate)) as (Q & v' & EQ & Ev & _).
    destruct Rd as (Q' & EQ' & Ev'). apply get_package in EQ'. assert (Q' = Q) by congruence. subst Q'. change (value_of Q shown x = Ok v') in Ev. assert (v' = v) by congruence. subst v'.
    apply (f_equal (fun o => match o with Some (AQuantity Q) => Some Q | _ => None end)) in EQ. cbn in EQ. injection EQ as <-. 
    revert Ev. unfold value_of. cbn. match goal with |- bind ?r _ = _ -> _ => destruct r as [m|]; cbn; intros [= <-]; eauto end. }
  destruct Sv as (m & ->).
  destruct (C155_reported_objective [] E120 a U120 terms120 bounds120 o H1 H2 call_asks eq_refl eq_refl Hq) as (e' & y & Le' & Ve' & _ & K); try rewrite Eq; auto.
  { discriminate. }
  { intros t I. destruct (call_terms t I) as (A & B & _). auto. }
  { intros c I. apply (call_bounds c I). }
  { right. eexists. split; [reflexivity|]. right. left. reflexivity. }
  exists o, e, e', m. split; [exact Hq|]. split; [exact Le|]. split; [exact Ve|]. split; [exact Le'|].
  destruct (K [m]) as (K1 & _).
  { constructor; [|constructor]. exists e. auto. }
  rewrite Ve', K1; [|intros t [<-|[]]; cbn; tauto]. unfold Rsum. cbn. do 2 f_equal. ring.
Qed.
