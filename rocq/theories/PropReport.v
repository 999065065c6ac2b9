(** Property C154: what a call is asked to report does not change its design. *)
From Coq Require Import String List Bool Arith ZArith Reals Lra Lia.
From Verif Require Import Base ModelArray ModelMath ModelQuantity ModelWrapper ModelSurface ModelParams
  ModelSolver SpecSolver ModelQuadcoil SpecQuadcoil ProofQuadcoil ProofQuadcoil2 SpecReport
  ModelPackage SpecPackage SpecProblem SpecEnd WitnessEnd PropEnd.
Import ListNotations.
Open Scope R_scope.
Open Scope string_scope.
Open Scope list_scope.

Section Report.
  Variables (ns : namespace params) (E : library) (a : args (x_solver E)).
  Hypothesis HB : forall b, qc_Bnormal a = Some b -> wf b.

  (** What a returned call shows of a metric. *)
  Lemma shows p r d o m : prepare ns a = Ok p -> finish ns E a p r = Ok o -> unscale (pr_structure p) (pr_unit p) (optimum E r) = Ok d -> o_dofs E o = d ->
    requested a m -> (qc_value_only a = true -> m <> "f_obj") ->
    exists e v, lookup m (o_out E o) = Some e /\ e_value e = Some v /\
      (if String.eqb m "f_obj" then fn_f (pr_fn p) (fn_qp (pr_fn p)) d else bind (get_quantity ns m) (fun q => call q (fn_qp (pr_fn p)) d)) = Ok v.
  Proof using HB.
    intros Hp Hf Hd Ed Rq Nf. apply requested_iff in Rq. destruct (qc_value_only a) eqn:Vo.
    - pose proof (finish_value ns E a p r o Hf Vo) as Hv. destruct (value_metrics_ok ns _ _ _ _ _ Hv) as [K _]. specialize (Nf eq_refl).
      destruct (K m Rq Nf) as (q & v & Kq & Kv & Kl). do 2 eexists. split; [exact Kl|]. split; [reflexivity|].
      apply String.eqb_neq in Nf. rewrite Nf, Kq. cbn [bind]. rewrite <- Ed. exact Kv.
    - destruct (finish_gradient ns E a p r o Hf Vo) as (out0 & Hg & _). destruct (grad_metrics_ok ns E _ _ _ _ _ _ Hg) as [K _].
      destruct (K m Rq) as (v & Kv & _ & Kl). do 2 eexists. split; [exact Kl|]. split; [reflexivity|].
      unfold f_metric in Kv. rewrite (metric_at_inputs ns a p Hp HB) in Kv. cbn [bind] in Kv. rewrite Hd in Kv. exact Kv.
  Qed.
End Report.

(** ** C154 *)
(** Two calls that return and differ only in the metrics, in value_only, in
    verbose, in the linear solver of the gradients and in the tolerance for the
    singular values. *)
Theorem C154_same_design :
  forall ns E (a : args (x_solver E)) mets vo vb ls sv o o', (forall b, qc_Bnormal a = Some b -> wf b) ->
  let a' := with_reporting a mets vo vb ls sv in
  quadcoil ns E a = Some (Ok o) -> quadcoil ns E a' = Some (Ok o') ->
  o_qp E o' = o_qp E o /\ o_dofs E o' = o_dofs E o /\ o_results E o' = o_results E o /\
  (forall m, requested a m -> requested a' m -> m <> "f_obj" \/ (qc_value_only a = false /\ vo = false) ->
     exists e e' v, lookup m (o_out E o) = Some e /\ lookup m (o_out E o') = Some e' /\ e_value e = Some v /\ e_value e' = Some v) /\
  (vo = qc_value_only a -> vb = qc_verbose a -> ls = qc_linear_solver a -> sv = svtol (qc_tol a) ->
     forall m, requested a m -> requested a' m -> lookup m (o_out E o') = lookup m (o_out E o)).
Proof.
  intros ns E a mets vo vb ls sv o o' HB a' H H'.
  destruct (quadcoil_ok ns E a o H) as (p & r & d & Hp & Hr & Hf & Hd & E1 & E2 & E3).
  destruct (quadcoil_ok ns E a' o' H') as (p' & r' & d' & Hp' & Hr' & Hf' & Hd' & E1' & E2' & E3').
  change (prepare ns a') with (prepare ns a) in Hp'. assert (p' = p) by congruence. subst p'.
  change (solve E a' p) with (solve E a p) in Hr'. assert (Er : r' = r) by congruence. rewrite Er in *. clear Er Hr' r'.
  assert (Ed : d' = d) by congruence. rewrite Ed in *. clear Ed Hd' d'.
  split; [congruence|]. split; [congruence|]. split; [congruence|]. split.
  - intros m Rq Rq' Nf.
    destruct (shows ns E a HB p r d o m Hp Hf Hd E2 Rq) as (e & v & L & V & S); [intros Vo; destruct Nf as [N|(N & _)]; [exact N|congruence]|].
    destruct (shows ns E a' HB p r d o' m Hp Hf' Hd E2' Rq') as (e' & v' & L' & V' & S'); [intros Vo; destruct Nf as [N|(_ & N)]; [exact N|cbn in Vo; congruence]|].
    exists e, e', v. repeat split; auto. congruence.
  - intros -> -> -> -> m Rq Rq'. apply requested_iff in Rq. apply requested_iff in Rq'. destruct (qc_value_only a) eqn:Vo.
    + pose proof (finish_value ns E a p r o Hf Vo) as Hv. destruct (value_metrics_ok ns _ _ _ _ _ Hv) as [K K0].
      pose proof (finish_value ns E a' p r o' Hf' eq_refl) as Hv'. destruct (value_metrics_ok ns _ _ _ _ _ Hv') as [K' K0'].
      destruct (string_dec m "f_obj") as [Nf|Nf]; [rewrite K0, K0' by auto; reflexivity|].
      destruct (K m Rq Nf) as (q & v & Kq & Kv & ->). destruct (K' m Rq' Nf) as (q' & v' & Kq' & Kv' & ->). congruence.
    + destruct (finish_gradient ns E a p r o Hf Vo) as (out0 & Hg & _). destruct (grad_metrics_ok ns E _ _ _ _ _ _ Hg) as [K _].
      destruct (finish_gradient ns E a' p r o' Hf' eq_refl) as (out0' & Hg' & _). destruct (grad_metrics_ok ns E _ _ _ _ _ _ Hg') as [K' _].
      destruct (K m Rq) as (v & Kv & _ & ->). destruct (K' m Rq') as (v' & Kv' & _ & ->).
      change (f_metric ns E a' p m (optimum E r) (ravel (pr_y p))) with (f_metric ns E a p m (optimum E r) (ravel (pr_y p))) in Kv'.
      assert (v' = v) by congruence. subst v'. reflexivity.
Qed.
Print Assumptions C154_same_design.
(** Asking for less never makes a call fail: if a call returns, then so does
    the one with some of its metrics, whatever the other four options, except
    that gradients are not asked for anew.  And whether the solver ends does
    not depend on them. *)
Theorem C154_fewer_metrics :
  forall ns E (a : args (x_solver E)) mets vo vb ls sv o, (forall b, qc_Bnormal a = Some b -> wf b) ->
  let a' := with_reporting a mets vo vb ls sv in
  quadcoil ns E a = Some (Ok o) -> (forall m, requested a' m -> requested a m) -> (qc_value_only a = true -> vo = true) ->
  exists o', quadcoil ns E a' = Some (Ok o').
Proof.
  intros ns E a mets vo vb ls sv o HB a' H Sub Hvo.
  destruct (quadcoil_ok ns E a o H) as (p & r & d & Hp & Hr & Hf & Hd & E1 & E2 & E3).
  assert (G : exists o', finish ns E a' p r = Ok o').
  { unfold finish. rewrite Hd. cbn [bind]. change (qc_value_only a') with vo. destruct vo.
    - destruct (value_metrics_ex ns (metrics a') (pr_fn p) d []) as (out & ->); [|cbn [bind]; eauto].
      intros m I. apply requested_iff, Sub in I. destruct (String.eqb_spec m "f_obj") as [->|N].
      + destruct (qc_value_only a) eqn:Vo.
        * pose proof (finish_value ns E a p r o Hf Vo) as Hv. rewrite E2 in Hv. apply requested_iff in I. revert Hv I.
          generalize (o_out E o) ([] : ModelArray.dict ModelQuadcoil.entry). clear. generalize (metrics a). intros l.
          induction l as [|n l IH]; intros out out0 Hv I; [destruct I|]. cbn [value_metrics] in Hv. destruct (String.eqb_spec n "f_obj") as [->|N].
          -- destruct (fn_f (pr_fn p) (fn_qp (pr_fn p)) d) as [v|]; [eauto|discriminate Hv].
          -- destruct I as [->|I]; [congruence|]. destruct (bind (get_quantity ns n) _); [|discriminate Hv]. cbn [bind] in Hv. exact (IH _ _ Hv I).
        * destruct (shows ns E a HB p r d o "f_obj" Hp Hf Hd E2 I) as (e & v & _ & _ & S); [congruence|]. exists v. exact S.
      + destruct (shows ns E a HB p r d o m Hp Hf Hd E2 I) as (e & v & _ & _ & S); [auto|]. apply String.eqb_neq in N. rewrite N in S.
        destruct (get_quantity ns m) as [q|]; [|discriminate S]. cbn [bind] in S. eauto.
    - assert (Vo : qc_value_only a = false) by (destruct (qc_value_only a); [specialize (Hvo eq_refl); discriminate|reflexivity]).
      destruct (finish_gradient ns E a p r o Hf Vo) as (out0 & Hg & _). destruct (grad_metrics_ok ns E _ _ _ _ _ _ Hg) as [K _].
      match goal with |- context [grad_metrics _ _ _ _ _ _ ?o0] => destruct (grad_metrics_ex ns E (metrics a') a' p r o0) as (out & ->) end; [|cbn [bind]; eauto].
      intros m I. apply requested_iff, Sub, requested_iff in I. destruct (K m I) as (v & Kv & Ks & _). exists v. split; [exact Kv|exact Ks]. }
  destruct G as (o' & G). exists o'. unfold quadcoil. change (prepare ns a') with (prepare ns a). rewrite Hp. change (solve E a' p) with (solve E a p). rewrite Hr, G. reflexivity.
Qed.
Print Assumptions C154_fewer_metrics.
Theorem C154_same_end :
  forall ns E (a : args (x_solver E)) mets vo vb ls sv,
  quadcoil ns E a = None <-> quadcoil ns E (with_reporting a mets vo vb ls sv) = None.
Proof.
  intros. unfold quadcoil. set (a' := with_reporting a mets vo vb ls sv). change (prepare ns a') with (prepare ns a).
  destruct (prepare ns a) as [p|]; [|split; discriminate]. change (solve E a' p) with (solve E a p).
  destruct (solve E a p); split; congruence.
Qed.
Print Assumptions C154_same_end.

(** A non-trivial case: the call of C121 with gradients of three metrics, and
    the same call asked for one of them without gradients. *)
Example C154_example : exists o o',
  quadcoil (package []) E120 call120 = Some (Ok o) /\
  quadcoil (package []) E120 (with_reporting call120 (NStr "f_max_K2") true true None (1 / 2)) = Some (Ok o') /\
  requested call120 "f_max_K2" /\ o_dofs E120 o' = o_dofs E120 o /\
  exists e e' v, lookup "f_max_K2" (o_out E120 o) = Some e /\ lookup "f_max_K2" (o_out E120 o') = Some e' /\ e_value e = Some v /\ e_value e' = Some v.
Proof.
  destruct C121_example as ((o & Hq & _ & _) & _).
  assert (HB : forall b, qc_Bnormal call120 = Some b -> wf b) by (intros b [= <-]; reflexivity).
  assert (Rq : requested call120 "f_max_K2") by (apply requested_iff; cbn; tauto).
  destruct (C154_fewer_metrics (package []) E120 call120 (NStr "f_max_K2") true true None (1 / 2) o HB Hq) as (o' & Hq').
  { intros m [K|(l & K & _)]; cbn in K; [injection K as <-; exact Rq|discriminate K]. }
  { reflexivity. }
  exists o, o'. split; [exact Hq|]. split; [exact Hq'|]. split; [exact Rq|].
  destruct (C154_same_design _ _ _ _ _ _ _ _ o o' HB Hq Hq') as (_ & D & _ & M & _). split; [exact D|].
  apply M; [exact Rq|now left|left; discriminate].
Qed.
