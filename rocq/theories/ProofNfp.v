(** The declared number of field periods. *)
From Coq Require Import String List Bool Arith ZArith Reals Lra Lia Permutation FunctionalExtensionality.
From Coquelicot Require Import Coquelicot.
From Verif Require Import Base ModelArray ProofArray ModelMath SpecMath RDeriv ProofMath ModelSurface SpecSurface ProofSurface ProofSurface2 ProofSurface3
  ProofLinear SpecWinding ProofWinding4 ModelParams ModelField SpecField ProofField ProofField2 ProofField3 ProofField4
  ModelQuantity SpecQuantity ModelWrapper SpecWrapper ModelShipped ModelPackage SpecPackage ProofRescale ProofPackage ProofPackage2 ProofPackage4
  SpecConvex ProofConvex SpecScale SpecRefine ProofRefine SpecMirror ProofMirror ProofPeriods SpecNfp.
Import ListNotations.
Open Scope R_scope.
Open Scope string_scope.
Open Scope list_scope.

(** ** Descriptions of one surface *)
Lemma shape_pt s s' : legal s -> legal s' -> same_shape s s' -> forall p t, pt s' 0 0 p t = pt s 0 0 p t.
Proof.
  intros L L' (F & A & B) p t. rewrite (reports_unique _ _ _ _ (reports_gammadash s' 0 0 L') B). symmetry.
  apply (reports_unique _ _ _ _ (reports_gammadash s 0 0 L) A).
Qed.
Lemma derives_same (f g : R -> vec3) t a b : (forall s, f s = g s) -> derives f t a -> derives g t b -> a = b.
Proof.
  intros E (A1 & A2 & A3) (B1 & B2 & B3). destruct a as [a1 a2 a3], b as [b1 b2 b3]. cbn [vx vy vz] in *.
  f_equal; eapply dR_unique; eauto; eapply dR_ext; eauto; intros; cbv beta; now rewrite E.
Qed.
Lemma shape_pt1 s s' : legal s -> legal s' -> same_shape s s' -> forall p t, pt s' 1 0 p t = pt s 1 0 p t /\ pt s' 0 1 p t = pt s 0 1 p t /\ nrm s' p t = nrm s p t.
Proof.
  intros L L' H p t. pose proof (shape_pt s s' L L' H) as E.
  assert (E1 : pt s' 1 0 p t = pt s 1 0 p t) by (apply (derives_same (fun x => pt s' 0 0 x t) (fun x => pt s 0 0 x t) p); [intros; apply E|apply pt_phi|apply pt_phi]).
  assert (E2 : pt s' 0 1 p t = pt s 0 1 p t) by (apply (derives_same (fun x => pt s' 0 0 p x) (fun x => pt s 0 0 p x) t); [intros; apply E|apply pt_theta|apply pt_theta]).
  split; [exact E1|]. split; [exact E2|]. unfold nrm. now rewrite E1, E2.
Qed.

(** ** Equispaced points *)
Lemma equispaced_plus x0 h n m : equispaced x0 h (n + m) = equispaced x0 h n ++ equispaced (x0 + INR n * h) h m.
Proof.
  unfold equispaced. rewrite seq_app, map_app. f_equal. cbn [plus]. 
  assert (Hs : forall len a b, seq (a + b) len = map (fun i => (a + i)%nat) (seq b len)).
  { induction len; intros; simpl; auto. f_equal. rewrite <- IHlen. f_equal. lia. }
  transitivity (map (fun i => x0 + INR i * h) (seq (n + 0) m)); [now rewrite Nat.add_0_r|]. rewrite Hs, map_map. apply map_ext. intros i. rewrite plus_INR. ring.
Qed.
Lemma equispaced_shift x0 h n d : equispaced (x0 + d) h n = map (fun p => p + d) (equispaced x0 h n).
Proof. unfold equispaced. rewrite map_map. apply map_ext. intros i. ring. Qed.
Lemma repeated {A} (F : R -> A) x0 h n T k : INR n * h = T -> (forall p, F (p + T) = F p) ->
  map F (equispaced x0 h (k * n)) = concat (repeat (map F (equispaced x0 h n)) k).
Proof.
  intros HT HF. induction k as [|k IH]; [reflexivity|]. cbn [Nat.mul repeat concat]. rewrite equispaced_plus, map_app, HT, equispaced_shift, map_map.
  f_equal. rewrite <- IH. now apply map_ext.
Qed.
Lemma concat_repeat {A} (l : list (list A)) k : concat (concat (repeat l k)) = concat (repeat (concat l) k).
Proof. induction k as [|k IH]; [reflexivity|]. cbn [repeat concat]. now rewrite concat_app, IH. Qed.
Lemma sample_repeated {A} (F : R -> R -> A) x0 h n ts T k : INR n * h = T -> (forall p t, F (p + T) t = F p t) ->
  concat (sample F (equispaced x0 h (k * n)) ts) = concat (repeat (concat (sample F (equispaced x0 h n) ts)) k).
Proof.
  intros HT HF. rewrite <- concat_repeat. f_equal. apply (repeated (fun p => map (F p) ts) x0 h n T k HT). intros p. apply map_ext. intros t. apply HF.
Qed.
Lemma in_repeated {A} (y : A) l k : (k <> 0)%nat -> In y (concat (repeat l k)) <-> In y l.
Proof.
  intros Hk. split; intros H.
  - apply in_concat in H as (m & Hm & Hy). apply repeat_spec in Hm. now subst m.
  - destruct k; [contradiction|]. cbn [repeat concat]. apply in_or_app. now left.
Qed.
Lemma turned_one {A} (F : R -> A) x0 h n : (forall p, F (p + INR n * h) = F p) -> Permutation (map F (equispaced (x0 + h) h n)) (map F (equispaced x0 h n)).
Proof.
  intros H. destruct n as [|m]; [constructor|].
  replace (map F (equispaced x0 h (S m))) with (F x0 :: map F (equispaced (x0 + h) h m)).
  2:{ change (S m) with (1 + m)%nat. rewrite equispaced_plus, map_app. unfold equispaced at 2. cbn [seq map app INR]. do 2 f_equal; [ring|]. do 2 f_equal. ring. }
  replace (S m) with (m + 1)%nat by lia. rewrite equispaced_plus, map_app.
  replace (map F (equispaced (x0 + h + INR m * h) h 1)) with [F x0]; [apply Permutation_sym, Permutation_cons_append|].
  unfold equispaced. cbn [seq map INR]. rewrite <- (H x0). rewrite S_INR. do 2 f_equal. ring.
Qed.
Lemma turned_steps {A} (F : R -> A) x0 h n k : (forall p, F (p + INR n * h) = F p) -> Permutation (map (fun p => F (p + INR k * h)) (equispaced x0 h n)) (map F (equispaced x0 h n)).
Proof.
  intros H. rewrite <- (map_map (fun p => p + INR k * h) F), <- equispaced_shift. induction k as [|k IH].
  - cbn [INR]. replace (x0 + 0 * h) with x0 by ring. reflexivity.
  - rewrite S_INR. replace (x0 + (INR k + 1) * h) with (x0 + INR k * h + h) by ring. etransitivity; [|exact IH]. now apply turned_one.
Qed.

(** ** Two designs with the same values on two grids *)
Section Compare.
  Variables (other : list string) (q : params) (x : list R) (q' : params) (x' : list R).
  Hypothesis S : sound q x.
  Hypothesis S' : sound q' x'.
  Definition compared (fld : string) (surf surf' : surface) : Prop :=
    exists v v' d d', reads other fld q x v /\ reads other fld q' x' v' /\ da surf = Ok d /\ da surf' = Ok d' /\
      (forall h : R -> R, INR (q_nfp q) * Rsum (map2 (fun w y => w * h y) (concat d) (el v)) = INR (q_nfp q') * Rsum (map2 (fun w y => w * h y) (concat d') (el v'))) /\
      (forall y, In y (el v') <-> In y (el v)).
  Definition agrees (name : string) : Prop :=
    exists v v', reads other name q x v /\ reads other name q' x' v' /\ (forall y, In y (el v') <-> In y (el v)) /\ (forall r, v = scal r -> v' = scal r).
  Lemma agrees_scal name r : reads other name q x (scal r) -> reads other name q' x' (scal r) -> agrees name.
  Proof using. intros A B. exists (scal r), (scal r). repeat split; auto. Qed.
  Lemma agrees_same name r : agrees name -> reads other name q x (scal r) -> reads other name q' x' (scal r).
  Proof using. intros (v & v' & R & R' & _ & H) Q. now rewrite <- (H r (reads_fun _ _ _ _ _ _ R Q)). Qed.

  Lemma compared_max name fld surf surf' h : In (name, fld, h)
    [("f_max_K2", "K2", fun y : R => y); ("f_max_K_dot_grad_K_cyl", "K_dot_grad_K_cyl", Rabs); ("f_max_Bnormal", "Bnormal", Rabs);
     ("f_max_Bnormal2", "Bnormal", fun y => y * y); ("f_max_Phi", "Phi", Rabs); ("f_max_Phi2", "Phi", fun y => y * y); ("f_max_Phi4", "Phi", fun y => y ^ 4)] ->
    compared fld surf surf' -> agrees name.
  Proof using S S'.
    intros I (w & w' & d & d' & R & R' & _ & _ & _ & H). destruct (largest_value other q x S name fld h I) as (m & v & Rm & Rv & (I1 & M1)). destruct (largest_value other q' x' S' name fld h I) as (m' & v' & Rm' & Rv' & (I2 & M2)).
    rewrite (reads_fun _ _ _ _ _ _ Rv R) in *. rewrite (reads_fun _ _ _ _ _ _ Rv' R') in *. apply (agrees_scal name m Rm).
    replace m with m'; [exact Rm'|]. apply in_map_iff in I1 as (y1 & E1 & I1). apply in_map_iff in I2 as (y2 & E2 & I2).
    apply Rle_antisym; [rewrite <- E2; apply M1, in_map, H, I2|rewrite <- E1; apply M2, in_map, H, I1].
  Qed.
  Lemma compared_sum name fld surf surf' h : In (name, fld, surf, h)
    [("f_K", "K2", q_eval q, fun y => y / 2); ("f_B", "Bnormal", q_plasma q, fun y => y * y / 2); ("f_Phi", "Phi", q_eval q, fun y => y * y / 2);
     ("f_l1_Phi", "Phi", q_eval q, Rabs); ("f_huber_K", "K2", q_eval q, sqrt)] ->
    In (name, fld, surf', h)
    [("f_K", "K2", q_eval q', fun y => y / 2); ("f_B", "Bnormal", q_plasma q', fun y => y * y / 2); ("f_Phi", "Phi", q_eval q', fun y => y * y / 2);
     ("f_l1_Phi", "Phi", q_eval q', Rabs); ("f_huber_K", "K2", q_eval q', sqrt)] -> compared fld surf surf' -> agrees name.
  Proof using S S'.
    intros I I' (w & w' & d & d' & R & R' & D & D' & H & _). destruct (integral_value other q x S name fld surf h I) as (r & v & e & Rr & Rv & De & Er). destruct (integral_value other q' x' S' name fld surf' h I') as (r' & v' & e' & Rr' & Rv' & De' & Er').
    rewrite D in De. injection De as <-. rewrite D' in De'. injection De' as <-. rewrite (reads_fun _ _ _ _ _ _ Rv R) in Er. rewrite (reads_fun _ _ _ _ _ _ Rv' R') in Er'.
    apply (agrees_scal name r Rr). rewrite Er, H, <- Er'. exact Rr'.
  Qed.
  Hypothesis CK : compared "K2" (q_eval q) (q_eval q').
  Hypothesis CP : compared "Phi" (q_eval q) (q_eval q').
  Hypothesis CB : compared "Bnormal" (q_plasma q) (q_plasma q').
  Lemma not_scal F ps ts r : of_grid (sample F ps ts) <> scal r.
  Proof using. discriminate. Qed.
  Lemma field_agrees fld surf surf' : compared fld surf surf' -> (forall v, reads other fld q x v -> forall r, v <> scal r) -> agrees fld.
  Proof using.
    intros (v & v' & d & d' & R & R' & _ & _ & _ & H) N. exists v, v'. split; [exact R|]. split; [exact R'|]. split; [exact H|]. intros r E. destruct (N v R r E).
  Qed.
  Lemma squared_agrees fld sq surf surf' : compared fld surf surf' ->
    (forall v, reads other fld q x v -> exists w, reads other sq q x w /\ el w = map (fun y => y * y) (el v) /\ forall r, w <> scal r) ->
    (forall v, reads other fld q' x' v -> exists w, reads other sq q' x' w /\ el w = map (fun y => y * y) (el v)) -> agrees sq.
  Proof using.
    intros (v & v' & d & d' & R & R' & _ & _ & _ & H) A A'. destruct (A v R) as (w & Rw & Ew & Nw). destruct (A' v' R') as (w' & Rw' & Ew').
    exists w, w'. split; [exact Rw|]. split; [exact Rw'|]. split.
    - intros y. rewrite Ew, Ew', !in_map_iff. split; intros (z & E & I); exists z; (split; [exact E|now apply H]).
    - intros r E. destruct (Nw r E).
  Qed.
  Lemma Phi_squared z p : sound p z -> forall v, reads other "Phi" p z v -> exists w, reads other "Phi2" p z w /\ el w = map (fun y => y * y) (el v) /\ forall r, w <> scal r.
  Proof using.
    intros Sz v R. eexists. split; [exact (reads_Phi2 other p z Sz)|]. split; [|intros; apply not_scal].
    rewrite (reads_fun _ _ _ _ _ _ R (reads_Phi other p z Sz)). rewrite !el_of_grid. rewrite <- (gmap_sample (fun y => y * y) (phi_of p z)). unfold gmap. now rewrite concat_gmap.
  Qed.
  Lemma Bnormal_squared z p : sound p z -> forall v, reads other "Bnormal" p z v -> exists w, reads other "Bnormal2" p z w /\ el w = map (fun y => y * y) (el v) /\ forall r, w <> scal r.
  Proof using.
    intros Sz v R. destruct (reads_Bnormal other p z Sz) as (g & Eg & Rg). eexists. split; [exact (reads_Bnormal2 other p z Sz g Eg)|]. split; [|intros; discriminate].
    rewrite (reads_fun _ _ _ _ _ _ R Rg). rewrite !el_of_grid. unfold gmap. now rewrite concat_gmap.
  Qed.
  Lemma all_agree name : In name even_names \/ In name odd_names -> agrees name.
  Proof using S S' CK CP CB.
    intros [H|H].
    - destruct H as [<-|[<-|[<-|[<-|[<-|[<-|[<-|[<-|[<-|[<-|[<-|[<-|[<-|[<-|[]]]]]]]]]]]]]]].
      + apply (field_agrees _ _ _ CK). intros v R r. rewrite (reads_fun _ _ _ _ _ _ R (reads_K2 other q x S)). apply not_scal.
      + apply (squared_agrees _ _ _ _ CB); [now apply Bnormal_squared|]. intros v R. destruct (Bnormal_squared x' q' S' v R) as (w & A & B & _). eauto.
      + apply (squared_agrees _ _ _ _ CP); [now apply Phi_squared|]. intros v R. destruct (Phi_squared x' q' S' v R) as (w & A & B & _). eauto.
      + apply (compared_sum "f_B" "Bnormal" (q_plasma q) (q_plasma q') (fun y => y * y / 2)); [cbn; tauto|cbn; tauto|exact CB].
      + apply (compared_sum "f_K" "K2" (q_eval q) (q_eval q') (fun y => y / 2)); [cbn; tauto|cbn; tauto|exact CK].
      + apply (compared_sum "f_Phi" "Phi" (q_eval q) (q_eval q') (fun y => y * y / 2)); [cbn; tauto|cbn; tauto|exact CP].
      + apply (compared_max "f_max_Bnormal" "Bnormal" (q_plasma q) (q_plasma q') Rabs); [cbn; tauto|exact CB].
      + apply (compared_max "f_max_Bnormal2" "Bnormal" (q_plasma q) (q_plasma q') (fun y => y * y)); [cbn; tauto|exact CB].
      + apply (compared_max "f_max_K2" "K2" (q_eval q) (q_eval q') (fun y => y)); [cbn; tauto|exact CK].
      + apply (compared_sum "f_huber_K" "K2" (q_eval q) (q_eval q') sqrt); [cbn; tauto|cbn; tauto|exact CK].
      + apply (compared_max "f_max_Phi" "Phi" (q_eval q) (q_eval q') Rabs); [cbn; tauto|exact CP].
      + apply (compared_max "f_max_Phi2" "Phi" (q_eval q) (q_eval q') (fun y => y * y)); [cbn; tauto|exact CP].
      + apply (compared_max "f_max_Phi4" "Phi" (q_eval q) (q_eval q') (fun y => y ^ 4)); [cbn; tauto|exact CP].
      + apply (compared_sum "f_l1_Phi" "Phi" (q_eval q) (q_eval q') Rabs); [cbn; tauto|cbn; tauto|exact CP].
    - destruct H as [<-|[<-|[]]].
      + apply (field_agrees _ _ _ CP). intros v R r. rewrite (reads_fun _ _ _ _ _ _ R (reads_Phi other q x S)). apply not_scal.
      + apply (field_agrees _ _ _ CB). intros v R r. destruct (reads_Bnormal other q x S) as (g & _ & Rg). rewrite (reads_fun _ _ _ _ _ _ R Rg). discriminate.
  Qed.
End Compare.

(** ** Two descriptions of one machine *)
Section Machine.
  Variables (k : nat) (q q' : params).
  Hypothesis D : fewer_periods k q q'.
  Hypothesis M : made q.
  Hypothesis Lw : legal (q_winding q).
  Hypothesis Lp : legal (q_plasma q).
  Hypothesis M' : made q'.
  Hypothesis Lw' : legal (q_winding q').
  Hypothesis Lp' : legal (q_plasma q').
  Notation N := (q_nfp q).
  Notation N' := (q_nfp q').

  Lemma m_nfp : N = (k * N')%nat /\ (N <> 0)%nat /\ (N' <> 0)%nat /\ (k <> 0)%nat /\ s_nfp (q_plasma q) = N.
  Proof using D M.
    pose proof D as (E1 & E2 & _). destruct (made_facts q M) as (H & _). unfold q_nfp in *. rewrite E1 in *. repeat split; auto; intros Z; rewrite Z in H; try rewrite Nat.mul_0_r in H; now apply H.
  Qed.
  Lemma m_INR : INR N = INR k * INR N' /\ INR N <> 0 /\ INR N' <> 0 /\ INR k <> 0.
  Proof using D M. destruct m_nfp as (E & H1 & H2 & H3 & _). rewrite E at 1. rewrite mult_INR. repeat split; auto; now apply not_0_INR. Qed.
  Lemma m_winding p t : pt (q_winding q') 0 0 p t = pt (q_winding q) 0 0 p t /\ pt (q_winding q') 1 0 p t = pt (q_winding q) 1 0 p t /\
    pt (q_winding q') 0 1 p t = pt (q_winding q) 0 1 p t /\ nrm (q_winding q') p t = nrm (q_winding q) p t.
  Proof using D Lw Lw'. pose proof D as (_ & _ & _ & H & _). split; [now apply shape_pt|now apply shape_pt1]. Qed.
  Lemma m_plasma p t : pt (q_plasma q') 0 0 p t = pt (q_plasma q) 0 0 p t /\ nrm (q_plasma q') p t = nrm (q_plasma q) p t.
  Proof using D Lp Lp'. pose proof D as (_ & _ & H & _). split; [now apply shape_pt|now apply shape_pt1]. Qed.
  Notation al := (2 * PI * / INR N).
  Lemma m_winding_turn p t : pt (q_winding q') 0 0 (p + / INR N) t = rotz al (pt (q_winding q') 0 0 p t) /\ pt (q_winding q') 1 0 (p + / INR N) t = rotz al (pt (q_winding q') 1 0 p t) /\
    pt (q_winding q') 0 1 (p + / INR N) t = rotz al (pt (q_winding q') 0 1 p t) /\ nrm (q_winding q') (p + / INR N) t = rotz al (nrm (q_winding q') p t).
  Proof using D M Lw Lw'.
    destruct (m_winding p t) as (-> & -> & -> & ->). destruct (m_winding (p + / INR N) t) as (-> & -> & -> & ->). pose proof m_nfp as (_ & H & _).
    repeat split; try (apply pt_nfp; exact H). apply nrm_rot. exact H.
  Qed.
  Lemma m_plasma_turn p t : pt (q_plasma q') 0 0 (p + / INR N) t = rotz al (pt (q_plasma q') 0 0 p t) /\ nrm (q_plasma q') (p + / INR N) t = rotz al (nrm (q_plasma q') p t).
  Proof using D M Lp Lp'.
    destruct (m_plasma p t) as (-> & ->). destruct (m_plasma (p + / INR N) t) as (-> & ->). pose proof m_nfp as (_ & H & _ & _ & E).
    rewrite <- E in H |- *. split; [now apply pt_nfp|now apply nrm_rot].
  Qed.
  Lemma m_grid : exists x0 n, (n <> 0)%nat /\ s_qphi (q_winding q') = equispaced x0 (/ (INR N * INR n)) (N * n) /\ s_qphi (q_winding q) = equispaced x0 (/ (INR N * INR n)) (N * n).
  Proof using D. pose proof D as (_ & _ & _ & _ & _ & _ & -> & _ & (x0 & n & H & E) & _). exists x0, n. auto. Qed.

  (** The normal field of any design, in each description. *)
  Lemma bn_rot z a p t p' : bval q z (rotz a (pt (q_plasma q) 0 0 p t)) = rotz a (bval q z (pt (q_plasma q) 0 0 p t)) ->
    pt (q_plasma q) 0 0 p' t = rotz a (pt (q_plasma q) 0 0 p t) -> nrm (q_plasma q) p' t = rotz a (nrm (q_plasma q) p t) -> bnval q z p' t = bnval q z p t.
  Proof using.
    intros A P1 P2. unfold bnval, unit_at. rewrite P1, P2, A, rotz_norm.
    set (B := bval q z _). set (v := nrm _ p t).
    pose proof (sin2_cos2 a) as H. unfold Rsqr in H. unfold rotz, scale3, dot3; cbn [vx vy vz].
    transitivity (/ norm3 v * ((vx v * vx B + vy v * vy B) * (sin a * sin a + cos a * cos a) + vz v * vz B)); [ring|rewrite H; ring].
  Qed.
  Lemma m_bnval_period z p t : bnval q z (p + / INR N) t = bnval q z p t.
  Proof using D M.
    pose proof m_nfp as (_ & Hn & _ & _ & E). destruct m_grid as (x0 & n & H0 & _ & Eq). apply (bn_rot z al).
    - now apply (bval_rot q z _ x0 n).
    - rewrite <- E in Hn |- *. now apply pt_nfp.
    - rewrite <- E in Hn |- *. now apply nrm_rot.
  Qed.
End Machine.
Lemma m_bnval_period' k q q' z p t : fewer_periods k q q' -> made q -> made q' -> legal (q_plasma q) -> legal (q_plasma q') -> bnval q' z (p + / INR (q_nfp q')) t = bnval q' z p t.
Proof.
  intros D M M' Lp Lp'. destruct (m_nfp k q q' D M) as (E & H1 & H2 & H3 & E2). destruct (m_INR k q q' D M) as (F & F1 & F2 & F3).
  set (al := 2 * PI * / INR (q_nfp q)). assert (Es : / INR (q_nfp q') = INR k * / INR (q_nfp q)) by (rewrite F; field; auto).
  assert (Ea : 2 * PI * / INR (q_nfp q') = INR k * al) by (unfold al; rewrite Es; ring).
  apply (bn_rot q' z (2 * PI * / INR (q_nfp q'))).
  - destruct (m_grid k q q' D) as (x0 & n & H0 & Eq & _). apply (bval_rot q' z _ x0 (k * n)); [exact H2|nia|].
    rewrite Eq. rewrite E at 2. rewrite F, mult_INR. f_equal; [f_equal; ring|lia].
  - rewrite Ea, Es, <- rotz_iter. apply (iterate_shift (fun p => pt (q_plasma q') 0 0 p t)). intros p0. now apply (m_plasma_turn k).
  - rewrite Ea, Es, <- rotz_iter. apply (iterate_shift (fun p => nrm (q_plasma q') p t)). intros p0. now apply (m_plasma_turn k).
Qed.

Lemma theta_step s s' ps ps' ts surf surf' : resampled s ps ts surf -> resampled s' ps' ts surf' -> s_dtheta surf' = s_dtheta surf.
Proof. intros C C'. apply copy_fields in C as (_ & _ & _ & _ & _ & _ & _ & _ & _ & _ & X1). apply copy_fields in C' as (_ & _ & _ & _ & _ & _ & _ & _ & _ & _ & X2). congruence. Qed.

Section Fewer.
  Variables (other : list string) (k : nat) (q q' : params) (x x' : list R).
  Hypothesis D : fewer_periods k q q'.
  Hypothesis S : sound q x.
  Hypothesis S' : sound q' x'.
  Hypothesis E : forall p t, phi_of q' x' p t = phi_of q x p t.
  Let M : made q. Proof. apply S. Qed.
  Let Lw : legal (q_winding q). Proof. apply S. Qed.
  Let Lp : legal (q_plasma q). Proof. apply S. Qed.
  Let Psh : plasma_shaped q. Proof. apply S. Qed.
  Let L : length x = q_ndofs q. Proof. apply S. Qed.
  Let M' : made q'. Proof. apply S'. Qed.
  Let Lw' : legal (q_winding q'). Proof. apply S'. Qed.
  Let Lp' : legal (q_plasma q'). Proof. apply S'. Qed.
  Let Psh' : plasma_shaped q'. Proof. apply S'. Qed.
  Let L' : length x' = q_ndofs q'. Proof. apply S'. Qed.
  Notation N := (q_nfp q).

  Lemma fewer_kval p t : kval q' x' p t = kval q x p t.
  Proof using D S S' E Lw Lw'.
    pose proof D as (_ & _ & _ & _ & G & I & _). unfold kval, wn, w1, w2. destruct (m_winding k q q' D Lw Lw' p t) as (_ & -> & -> & ->).
    rewrite (same_phi1 q q' x x' E), (same_phi2 q q' x x' E), G, I. reflexivity.
  Qed.
  Lemma fewer_bval P : bval q' x' P = bval q x P.
  Proof using D S S' E Lw Lw'.
    pose proof D as (_ & _ & _ & _ & _ & _ & Q1 & Q2 & _). unfold bval, wsum. rewrite Q1, Q2. do 3 f_equal. apply sum3_ext. intros u.
    rewrite fewer_kval. unfold wn. now destruct (m_winding k q q' D Lw Lw' (fst u) (snd u)) as (-> & _ & _ & ->).
  Qed.
  Lemma fewer_bnval p t : bnval q' x' p t = bnval q x p t.
  Proof using D S S' E Lw Lw' Lp Lp'. unfold bnval, unit_at. destruct (m_plasma k q q' D Lp Lp' p t) as (-> & ->). now rewrite fewer_bval. Qed.

  Definition repeats (fld : string) (surf surf' : surface) : Prop :=
    compared other q x q' x' fld surf surf' /\ exists v v', reads other fld q x v /\ reads other fld q' x' v' /\ el v' = concat (repeat (el v) k).
  Lemma fewer_repeats fld F s s' ps ps' ts surf surf' : periods_covered N k ps ps' -> resampled s ps ts surf -> resampled s' ps' ts surf' -> legal s -> legal s' ->
    (forall p t, nrm s' p t = nrm s p t) -> (forall p t, norm3 (nrm s (p + / INR N) t) = norm3 (nrm s p t)) -> (forall p t, F (p + / INR N) t = F p t) ->
    reads other fld q x (of_grid (sample F ps ts)) -> reads other fld q' x' (of_grid (sample F ps' ts)) -> repeats fld surf surf'.
  Proof using D S S' M L L'.
    intros (x0 & n & Hn & -> & ->) C C' Ls Ls' En Hs HF R R'. destruct (m_nfp k q q' D M) as (_ & _ & _ & Hk & _). destruct (m_INR k q q' D M) as (F1 & F2 & F3 & F4).
    assert (F5 : INR n <> 0) by (apply not_0_INR; lia). set (h := / (INR N * INR n)) in *. assert (Hh : INR n * h = / INR N) by (unfold h; field; auto).
    pose proof (da_copy _ _ _ _ Ls C) as A. pose proof (da_copy _ _ _ _ Ls' C') as A'. rewrite (theta_step _ _ _ _ _ _ _ C C') in A'.
    rewrite (equi_dphi _ _ _ _ _ _ Hn C) in A. rewrite (equi_dphi _ x0 h (k * n) _ _ ltac:(nia) C') in A'.
    rewrite (sample_ext (fun p t => h * s_dtheta surf * norm3 (nrm s' p t)) (fun p t => h * s_dtheta surf * norm3 (nrm s p t))) in A' by (intros; now rewrite En).
    split.
    - eexists _, _, _, _. split; [exact R|]. split; [exact R'|]. split; [exact A|]. split; [exact A'|]. split.
      + intros g. rewrite !el_of_grid, !sum_grid. rewrite F1. 
        rewrite (period_sum (fun p => Rsum (map (fun t => h * s_dtheta surf * norm3 (nrm s p t) * g (F p t)) ts)) x0 h n (/ INR N) k Hh); [ring|].
        intros p. apply Rsum_ext. intros t _. now rewrite Hs, HF.
      + intros y. rewrite !el_of_grid. rewrite (sample_repeated F x0 h n ts (/ INR N) k Hh HF). now apply in_repeated.
    - eexists _, _. split; [exact R|]. split; [exact R'|]. rewrite !el_of_grid. exact (sample_repeated F x0 h n ts (/ INR N) k Hh HF).
  Qed.
  Lemma winding_norm p t : norm3 (nrm (q_winding q) (p + / INR N) t) = norm3 (nrm (q_winding q) p t).
  Proof using D S M. pose proof (m_nfp k q q' D M) as (_ & H & _). now apply nrm_shift. Qed.
  Lemma plasma_norm p t : norm3 (nrm (q_plasma q) (p + / INR N) t) = norm3 (nrm (q_plasma q) p t).
  Proof using D S M. pose proof (m_nfp k q q' D M) as (_ & H & _ & _ & Ep). rewrite <- Ep in H |- *. now apply nrm_shift. Qed.
  Lemma fewer_K2 : repeats "K2" (q_eval q) (q_eval q').
  Proof using D S S' E M M' Lw Lw'.
    destruct (made_facts q M) as (Hn & _ & _ & _ & Ce & _). destruct (made_facts q' M') as (_ & _ & _ & _ & Ce' & _).
    pose proof D as (_ & _ & _ & _ & _ & _ & _ & _ & _ & Pc & Qt & _). rewrite Qt in Ce'.
    apply (fewer_repeats "K2" (fun p t => dot3 (kval q x p t) (kval q x p t)) _ _ _ _ _ _ _ Pc Ce Ce' Lw Lw').
    - intros p t. apply (m_winding k q q' D Lw Lw').
    - apply winding_norm.
    - intros p t. rewrite kval_shift by exact Hn. apply rot_dot.
    - now apply reads_K2.
    - rewrite <- Qt. rewrite (sample_ext _ (fun p t => dot3 (kval q' x' p t) (kval q' x' p t))) by (intros; now rewrite fewer_kval). now apply reads_K2.
  Qed.
  Lemma fewer_Phi : repeats "Phi" (q_eval q) (q_eval q').
  Proof using D S S' E M M' Lw Lw'.
    destruct (made_facts q M) as (Hn & _ & _ & _ & Ce & _). destruct (made_facts q' M') as (_ & _ & _ & _ & Ce' & _).
    pose proof D as (_ & _ & _ & _ & _ & _ & _ & _ & _ & Pc & Qt & _). rewrite Qt in Ce'.
    apply (fewer_repeats "Phi" (phi_of q x) _ _ _ _ _ _ _ Pc Ce Ce' Lw Lw').
    - intros p t. apply (m_winding k q q' D Lw Lw').
    - apply winding_norm.
    - intros p t. now apply phi_shift_phi.
    - now apply reads_Phi.
    - rewrite <- Qt. rewrite (sample_ext _ (phi_of q' x')) by (intros; now rewrite E). now apply reads_Phi.
  Qed.
  Lemma fewer_Bnormal : repeats "Bnormal" (q_plasma q) (q_plasma q').
  Proof using D S S' E M M' Lw Lw' Lp Lp' Psh Psh' L L'.
    destruct (made_facts q M) as (_ & _ & _ & _ & _ & _ & Cp). destruct (made_facts q' M') as (_ & _ & _ & _ & _ & _ & Cp').
    pose proof D as (_ & _ & _ & _ & _ & _ & _ & _ & _ & _ & _ & Pc & Qt & Bn & B1 & B2 & B3). rewrite Qt in Cp'.
    apply (fewer_repeats "Bnormal" (fun p t => bnval q x p t + Bn p t) _ _ _ _ _ _ _ Pc Cp Cp' Lp Lp').
    - intros p t. apply (m_plasma k q q' D Lp Lp').
    - apply plasma_norm.
    - intros p t. cbv beta. now rewrite (m_bnval_period k q q' D M), B3.
    - now apply (Bnormal_total other q x S).
    - rewrite <- Qt. rewrite (sample_ext _ (fun p t => bnval q' x' p t + Bn p t)) by (intros; now rewrite fewer_bnval). now apply (Bnormal_total other q' x' S').
  Qed.
  Lemma fewer_agrees name : In name even_names \/ In name odd_names -> agrees other q x q' x' name.
  Proof using D S S' E M M' Lw Lw' Lp Lp' Psh Psh' L L'. apply all_agree; auto; [apply fewer_K2|apply fewer_Phi|apply fewer_Bnormal]. Qed.
End Fewer.
Lemma sound_zero q x : sound q x -> sound q (repeat 0 (q_ndofs q)).
Proof. intros (A & B & C & F & _). repeat (split; [assumption|]). apply repeat_length. Qed.
Lemma fewer_even other k q q' x x' name : fewer_periods k q q' -> sound q x -> sound q' x' -> (forall p t, phi_of q' x' p t = phi_of q x p t) ->
  In name even_names \/ In name odd_names \/ name = "f_B_normalized_by_Bnormal_IG" -> agrees other q x q' x' name.
Proof.
  intros D S S' E [H|[H| ->]]; [apply (fewer_agrees other k); auto|apply (fewer_agrees other k); auto|].
  pose proof (fewer_agrees other k q q' x x' D S S' E "f_B" ltac:(cbn; tauto)) as A.
  pose proof (fewer_agrees other k q q' _ _ D (sound_zero q x S) (sound_zero q' x' S') (same_zero q q') "f_B" ltac:(cbn; tauto)) as Z.
  destruct (normalised_value other q x S) as (r & r0 & v & Rr & R0 & Rv & ->). destruct (normalised_value other q' x' S') as (r' & r0' & v' & Rr' & R0' & Rv' & ->).
  apply (agrees_scal other q x q' x' _ _ Rv). pose proof (reads_fun _ _ _ _ _ _ (agrees_same _ _ _ _ _ _ _ A Rr) Rr') as Q. injection Q as ->.
  pose proof (reads_fun _ _ _ _ _ _ (agrees_same _ _ _ _ _ _ _ Z R0) R0') as Q. injection Q as ->. exact Rv'.
Qed.
