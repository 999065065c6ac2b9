(** Changes of units of whole problems. *)
From Coq Require Import String List Bool Arith ZArith Reals Lra Lia.
From Verif Require Import Base ModelArray ProofArray ModelMath SpecMath ProofMath ModelSurface SpecSurface ProofSurface
  ModelParams ModelField SpecField ProofField3
  ModelQuantity SpecQuantity ModelWrapper SpecWrapper ModelPackage SpecPackage ProofRescale ProofPackage ProofPackage2 ProofPackage4 SpecConvex ProofConvex SpecScale.
Import ListNotations.
Open Scope R_scope.
Open Scope string_scope.
Open Scope list_scope.

Lemma factor_pos c b name : 0 < c -> 0 < b -> 0 < factor c b name.
Proof.
  intros Hc Hb. unfold factor. destruct (lookup name dimensions) as [[l f]|]; [|lra].
  apply Rmult_lt_0_compat; apply powerRZ_lt; assumption.
Qed.

Local Ltac powers := unfold factor; cbn;
  repeat (change (Pos.to_nat 1) with 1%nat || change (Pos.to_nat 2) with 2%nat || change (Pos.to_nat 3) with 3%nat || change (Pos.to_nat 4) with 4%nat);
  unfold sq; first [ring | field; lra].

(** ** One quantity *)
Lemma scales other c b q q' x name : 0 < c -> 0 < b -> sound q x -> made q' -> rescaled c b q q' -> usable q name ->
  exists v, reads other name q x v /\ reads other name q' (map (Rmult (c * b)) x) (amap (Rmult (factor c b name)) v).
Proof.
  intros Hc Hb S M' H (Hn & Ht). destruct (every_quantity c b q q' x other Hc Hb H S M') as [E0 E]. rewrite List.Forall_forall in E.
  assert (A : forall k s, reported c b q q' x other name k s -> k = factor c b name ->
    exists v, reads other name q x v /\ reads other name q' (map (Rmult (c * b)) x) (amap (Rmult (factor c b name)) v)).
  { intros k s (Q & G & v & V & V' & _) <-. exists v. split; exists Q; auto. }
  assert (B : forall k s, In (name, k, s) _ -> k = factor c b name -> _) by (intros k s Hi; exact (A k s (E _ Hi))).
  clear E. destruct (string_dec name "K_theta") as [->|N].
  { apply (A _ _ (E0 (Ht eq_refl))). powers. }
  cbn [dimensions map fst] in Hn.
  repeat (destruct Hn as [<-|Hn]; [first [exfalso; now apply N|
    eapply B; [cbn; tauto|]; powers]|]).
  destruct Hn.
Qed.

Lemma meets_scale k cm bd v : 0 < k -> meets cm (k * bd) (amap (Rmult k) v) <-> meets cm bd v.
Proof.
  intros Hk. split.
  - intros Hm y Hy. assert (K : In (k * y) (el (amap (Rmult k) v))) by (cbn [amap el]; now apply in_map). specialize (Hm _ K).
    destruct cm; [apply Rmult_le_reg_l with k; lra|apply Rle_ge, Rmult_le_reg_l with k; lra|apply Rmult_eq_reg_l with k; lra].
  - intros Hm y Hy. cbn [amap el] in Hy. apply in_map_iff in Hy as (z & <- & Hz). specialize (Hm z Hz).
    destruct cm; [apply Rmult_le_compat_l; lra|apply Rle_ge, Rmult_le_compat_l; lra|now rewrite Hm].
Qed.

Lemma weighted_both other c b q q' x x' r : 0 < c -> 0 < b -> forall os,
  (forall n w, In (n, w) os -> exists v, reads other n q x v /\ reads other n q' x' (amap (Rmult (factor c b n)) v)) ->
  weighted other q os x r <-> weighted other q' (new_weights c b os) x' r.
Proof.
  intros Hc Hb os K. assert (Fp : forall n, 0 < factor c b n) by (intros; now apply factor_pos). unfold weighted. split.
  - intros (vs & F & ->). exists (map2 (fun o m => factor c b (fst o) * m) os vs). revert K. induction F as [|[n w] m os' vs' Rm F IH]; intros K.
    + split; [constructor|reflexivity].
    + destruct IH as [IH1 IH2]; [intros; eapply K; right; eauto|]. cbn [new_weights map map2 fst snd] in *. split.
      * constructor; [|exact IH1]. cbn [fst]. destruct (K n w (or_introl eq_refl)) as (v & Rv & Rv'). rewrite (reads_fun _ _ _ _ _ _ Rv Rm) in Rv'. exact Rv'.
      * unfold Rsum in *. cbn [fold_right]. rewrite IH2. f_equal. field. specialize (Fp n). lra.
  - intros (vs & F & ->). exists (map2 (fun o m => m / factor c b (fst o)) os vs). remember (new_weights c b os) as ws eqn:Ew. revert os Ew K.
    induction F as [|[n w] m ws' vs' Rm F IH]; intros os Ew K.
    + destruct os; [split; [constructor|reflexivity]|discriminate Ew].
    + destruct os as [|[n' w'] os]; [discriminate Ew|]. cbn [new_weights map fst snd] in Ew. injection Ew as -> -> Ew.
      destruct (IH os Ew) as [IH1 IH2]; [intros; eapply K; right; eauto|]. cbn [map2 fst snd] in *. split.
      * constructor; [|exact IH1]. cbn [fst]. destruct (K n' w' (or_introl eq_refl)) as (v & Rv & Rv'). pose proof (reads_fun _ _ _ _ _ _ Rv' Rm) as E.
        destruct v as [sv ev]. unfold amap, scal in E. cbn [sh el] in E. injection E as -> E. destruct ev as [|e [|]]; try discriminate E. injection E as <-.
        replace (factor c b n' * e / factor c b n') with e by (field; specialize (Fp n'); lra). exact Rv.
      * unfold Rsum in *. cbn [fold_right]. rewrite IH2. f_equal. field. specialize (Fp n'). lra.
Qed.

(** ** Whole problems *)
Section Design.
  Variables (other : list string) (c b : R) (q q' : params).
  Hypothesis Hc : 0 < c.
  Hypothesis Hb : 0 < b.
  Hypothesis S : forall x, length x = q_ndofs q -> sound q x.
  Hypothesis M' : made q'.
  Hypothesis H : rescaled c b q q'.
  Variables (os : list (string * R)) (cs : list (string * cmp * R)).
  Hypothesis Uo : forall name w, In (name, w) os -> usable q name.
  Hypothesis Uc : forall name cm bd, In (name, cm, bd) cs -> usable q name.

  Lemma feasible_scale x : length x = q_ndofs q ->
    feasible other q cs x <-> feasible other q' (new_bounds c b cs) (map (Rmult (c * b)) x).
  Proof using Hc Hb S M' H Uc.
    intros L. split.
    - intros F name cm bd Hi. unfold new_bounds in Hi. apply in_map_iff in Hi as ([[n k] d] & E & Hi). cbn [fst snd] in E. injection E as <- <- <-.
      destruct (F n k d Hi) as (v & Rv & Mv). destruct (scales other c b q q' x n Hc Hb (S x L) M' H (Uc n k d Hi)) as (w & Rw & Rw').
      rewrite (reads_fun _ _ _ _ _ _ Rw Rv) in Rw'. exists (amap (Rmult (factor c b n)) v). split; [exact Rw'|]. apply meets_scale; [now apply factor_pos|exact Mv].
    - intros F n k d Hi. destruct (F n k (factor c b n * d)) as (v & Rv & Mv).
      { unfold new_bounds. apply in_map_iff. exists (n, k, d). split; [reflexivity|exact Hi]. }
      destruct (scales other c b q q' x n Hc Hb (S x L) M' H (Uc n k d Hi)) as (w & Rw & Rw').
      rewrite (reads_fun _ _ _ _ _ _ Rv Rw') in Mv. exists w. split; [exact Rw|]. apply meets_scale in Mv; [exact Mv|now apply factor_pos].
  Qed.
  Lemma weighted_scale x r : length x = q_ndofs q ->
    weighted other q os x r <-> weighted other q' (new_weights c b os) (map (Rmult (c * b)) x) r.
  Proof using Hc Hb S M' H Uo. intros L. apply weighted_both; auto. intros n w Hi. apply scales; auto. apply (Uo n w Hi). Qed.
  Lemma least_scale x : length x = q_ndofs q ->
    least other q os cs x (fun _ => True) <-> least other q' (new_weights c b os) (new_bounds c b cs) (map (Rmult (c * b)) x) (fun _ => True).
  Proof using Hc Hb S M' H Uo Uc.
    intros L. assert (Hcb : c * b <> 0) by (apply Rgt_not_eq, Rmult_lt_0_compat; assumption).
    assert (D : q_ndofs q' = q_ndofs q) by (apply (rescaled_ndofs c b q q' H); [apply (S x L)|exact M']). split.
    - intros Hl y' fx fy Ly' _ Fy Wx Wy.
      assert (Ey : y' = map (Rmult (c * b)) (map (Rmult (/ (c * b))) y')).
      { rewrite map_map. rewrite <- (map_id y') at 1. apply map_ext. intros a. field. split; lra. }
      set (y := map (Rmult (/ (c * b))) y') in *. assert (Ly : length y = q_ndofs q) by (unfold y; rewrite map_length; congruence).
      rewrite Ey in Fy, Wy. apply (Hl y fx fy Ly I); [now apply feasible_scale|now apply weighted_scale|now apply weighted_scale].
    - intros Hl y fx fy Ly _ Fy Wx Wy. apply (Hl (map (Rmult (c * b)) y) fx fy); auto.
      + rewrite map_length. congruence.
      + now apply feasible_scale.
      + now apply weighted_scale.
      + now apply weighted_scale.
  Qed.
End Design.
