(** Continuity, in the two angles, of everything that is sampled. *)
From Coq Require Import String List Bool Arith ZArith Reals Lra Lia.
From Coquelicot Require Import Coquelicot.
From Verif Require Import Base ModelArray ModelMath SpecMath ModelSurface SpecSurface ProofSurface ProofSurface2 ProofSurface3
  ModelParams ModelField SpecField ProofField ProofField2 ProofField3 ProofQuad.
Import ListNotations.
Open Scope R_scope.

Lemma cont2_ext F G : (forall p t, F p t = G p t) -> cont2 F -> cont2 G.
Proof. intros E C p t. eapply continuity_2d_pt_ext; [exact E|apply C]. Qed.
Lemma cont2_const c : cont2 (fun _ _ => c).
Proof. intros p t. apply continuity_2d_pt_const. Qed.
Lemma cont2_1 : cont2 (fun p _ => p).
Proof. intros p t. apply continuity_2d_pt_id1. Qed.
Lemma cont2_2 : cont2 (fun _ t => t).
Proof. intros p t. apply continuity_2d_pt_id2. Qed.
Lemma cont2_plus F G : cont2 F -> cont2 G -> cont2 (fun p t => F p t + G p t).
Proof. intros A B p t. now apply continuity_2d_pt_plus. Qed.
Lemma cont2_minus F G : cont2 F -> cont2 G -> cont2 (fun p t => F p t - G p t).
Proof. intros A B p t. now apply continuity_2d_pt_minus. Qed.
Lemma cont2_mult F G : cont2 F -> cont2 G -> cont2 (fun p t => F p t * G p t).
Proof. intros A B p t. now apply continuity_2d_pt_mult. Qed.
Lemma cont2_opp F : cont2 F -> cont2 (fun p t => - F p t).
Proof. intros A p t. now apply continuity_2d_pt_opp. Qed.
Lemma cont2_comp f F : (forall y, continuity_pt f y) -> cont2 F -> cont2 (fun p t => f (F p t)).
Proof. intros C A p t. apply continuity_1d_2d_pt_comp; auto. Qed.
Lemma cont2_inv F : cont2 F -> (forall p t, F p t <> 0) -> cont2 (fun p t => / F p t).
Proof. intros A Nz p t. apply continuity_2d_pt_inv; auto. Qed.
Lemma cont2_sqrt F : cont2 F -> cont2 (fun p t => sqrt (F p t)).
Proof. apply cont2_comp. intros y. apply continuity_pt_filterlim. apply continuous_sqrt. Qed.
Lemma cont2_abs F : cont2 F -> cont2 (fun p t => Rabs (F p t)).
Proof. apply cont2_comp. intros y. apply Rcontinuity_abs. Qed.
Lemma cont2_sin F : cont2 F -> cont2 (fun p t => sin (F p t)).
Proof. apply cont2_comp. intros y. apply continuity_sin. Qed.
Lemma cont2_cos F : cont2 F -> cont2 (fun p t => cos (F p t)).
Proof. apply cont2_comp. intros y. apply continuity_cos. Qed.
Ltac cont2 := cbv beta; repeat first [assumption|apply cont2_const|apply cont2_1|apply cont2_2|apply cont2_plus|apply cont2_minus|apply cont2_mult|apply cont2_opp|apply cont2_sin|apply cont2_cos|apply cont2_sqrt|apply cont2_abs].

Lemma cont2_ldot {A} (F : R -> R -> A -> R) l : (forall c, In c l -> cont2 (fun p t => F p t c)) -> forall d, cont2 (fun p t => ldot (map (F p t) l) d).
Proof.
  induction l as [|a l IH]; intros H d; [apply (cont2_ext (fun _ _ => 0)); [reflexivity|apply cont2_const]|]. destruct d as [|y d]; [apply (cont2_ext (fun _ _ => 0)); [reflexivity|apply cont2_const]|].
  apply (cont2_ext (fun p t => F p t a * y + ldot (map (F p t) l) d)); [reflexivity|]. apply cont2_plus; [apply cont2_mult; [apply H; now left|apply cont2_const]|]. apply IH. intros c Hc. apply H. now right.
Qed.
Lemma cont2_Rsum {A} (F : R -> R -> A -> R) l : (forall c, In c l -> cont2 (fun p t => F p t c)) -> cont2 (fun p t => Rsum (map (F p t) l)).
Proof.
  induction l as [|a l IH]; intros H; [apply (cont2_ext (fun _ _ => 0)); [reflexivity|apply cont2_const]|].
  apply (cont2_ext (fun p t => F p t a + Rsum (map (F p t) l))); [reflexivity|]. apply cont2_plus; [apply H; now left|]. apply IH. intros c Hc. apply H. now right.
Qed.

(** ** Vectors *)
Definition cont3 (F : R -> R -> vec3) : Prop := cont2 (fun p t => vx (F p t)) /\ cont2 (fun p t => vy (F p t)) /\ cont2 (fun p t => vz (F p t)).
Lemma cont3_dot F G : cont3 F -> cont3 G -> cont2 (fun p t => dot3 (F p t) (G p t)).
Proof. intros (A1 & A2 & A3) (B1 & B2 & B3). unfold dot3. cont2. Qed.
Lemma cont3_norm F : cont3 F -> cont2 (fun p t => norm3 (F p t)).
Proof. intros (A1 & A2 & A3). unfold norm3. cont2. Qed.
Lemma cont3_scale f F : cont2 f -> cont3 F -> cont3 (fun p t => scale3 (f p t) (F p t)).
Proof. intros C (A1 & A2 & A3). unfold scale3. split; [|split]; cbn [vx vy vz]; cont2. Qed.
Lemma cont3_sub F G : cont3 F -> cont3 G -> cont3 (fun p t => sub3 (F p t) (G p t)).
Proof. intros (A1 & A2 & A3) (B1 & B2 & B3). unfold sub3. split; [|split]; cbn [vx vy vz]; cont2. Qed.
Lemma cont3_cross F G : cont3 F -> cont3 G -> cont3 (fun p t => cross3 (F p t) (G p t)).
Proof. intros (A1 & A2 & A3) (B1 & B2 & B3). unfold cross3. split; [|split]; cbn [vx vy vz]; cont2. Qed.
Lemma cont3_const v : cont3 (fun _ _ => v).
Proof. split; [|split]; apply cont2_const. Qed.
Lemma cont3_ext F G : (forall p t, F p t = G p t) -> cont3 F -> cont3 G.
Proof. intros E (A & B & C). split; [eapply cont2_ext; [|exact A]|split; [eapply cont2_ext; [|exact B]|eapply cont2_ext; [|exact C]]]; intros; cbv beta; now rewrite E. Qed.

(** ** Surfaces *)
Lemma cont2_entry nfp a b c : cont2 (fun p t => centry nfp a b p t c).
Proof.
  destruct c; cbn [centry]; [apply cont2_const| |]; unfold cmn_entry, smn_entry, phase_even, phase_odd; destruct (Nat.eqb _ _); cont2.
Qed.
Lemma cont2_trig a k : cont2 (fun p _ => trig_x a k p) /\ cont2 (fun p _ => trig_y a k p).
Proof.
  split; [apply (cont2_ext (fun p _ => Binomial.C a k * cx (a - k) p)); [intros; now rewrite trig_x_cx|]|apply (cont2_ext (fun p _ => Binomial.C a k * cy (a - k) p)); [intros; now rewrite trig_y_cy|]];
  unfold cx, cy; destruct (Nat.eqb _ _); cont2.
Qed.
Lemma cont3_pt s a b : cont3 (pt s a b).
Proof.
  split; [|split]; cbn [pt vx vy vz].
  - apply cont2_Rsum. intros k _. apply cont2_mult; [apply cont2_trig|]. apply cont2_ldot. intros. apply cont2_entry.
  - apply cont2_Rsum. intros k _. apply cont2_mult; [apply cont2_trig|]. apply cont2_ldot. intros. apply cont2_entry.
  - apply cont2_ldot. intros. apply cont2_entry.
Qed.
Lemma cont3_nrm s : cont3 (nrm s).
Proof. apply cont3_cross; apply cont3_pt. Qed.

(** ** Current potential and current *)
Lemma cont2_soc F m : cont2 F -> cont2 (fun p t => sin_or_cos (F p t) m).
Proof. intros C. unfold sin_or_cos. destruct (Z.eqb _ _); cont2. Qed.
Lemma cont2_tr q c : cont2 (fun p t => tr q p t c) /\ cont2 (fun p t => td q p t c).
Proof. unfold tr, td, targ, trig_arg. split; apply cont2_soc; cont2. Qed.
Lemma cont2_phi q x : cont2 (phi_of q x).
Proof. apply cont2_ldot. intros. apply cont2_tr. Qed.
Lemma cont2_phi1 q x : cont2 (phi1 q x).
Proof. apply (cont2_ldot (fun p t c => td q p t c * fphi q c)). intros. apply cont2_mult; [apply cont2_tr|apply cont2_const]. Qed.
Lemma cont2_phi2 q x : cont2 (phi2 q x).
Proof. apply (cont2_ldot (fun p t c => td q p t c * ftheta c)). intros. apply cont2_mult; [apply cont2_tr|apply cont2_const]. Qed.
Lemma cont3_kval q x : (forall p t, wn q p t <> zero3) -> cont3 (kval q x).
Proof.
  intros Nz. unfold kval. apply cont3_scale; [apply cont2_inv; [apply cont3_norm, cont3_nrm|]|].
  - intros p t. apply Rgt_not_eq, norm_pos, Nz.
  - apply cont3_sub; apply cont3_scale; try apply cont3_pt; apply cont2_plus; try apply cont2_const; [apply cont2_phi1|apply cont2_phi2].
Qed.

(** ** The field *)
Lemma sub3_zero u v : u <> v -> sub3 u v <> zero3.
Proof. intros N E. apply N. destruct u, v. unfold sub3, zero3 in E. cbn in E. injection E as E1 E2 E3. f_equal; lra. Qed.
Lemma cont3_contribution P W n k : cont3 P -> cont3 W -> cont3 n -> cont3 k -> (forall p t, P p t <> W p t) ->
  cont3 (fun p t => contribution (P p t) (W p t) (n p t) (k p t)).
Proof.
  intros CP CW Cn Ck Nz. assert (Cd : cont3 (fun p t => sub3 (P p t) (W p t))) by now apply cont3_sub. unfold contribution. cbv zeta.
  assert (Ci : cont2 (fun p t => 1 / sqrt (dot3 (sub3 (P p t) (W p t)) (sub3 (P p t) (W p t))))).
  { unfold Rdiv. apply cont2_mult; [apply cont2_const|]. apply cont2_inv; [apply cont2_sqrt; now apply cont3_dot|]. intros p t. rewrite <- norm_dot. apply Rgt_not_eq, norm_pos, sub3_zero, Nz. }
  apply cont3_scale; [apply cont2_sqrt; now apply cont3_dot|]. apply cont3_scale; [repeat first [exact Ci|apply cont2_mult]|]. now apply cont3_cross.
Qed.
Lemma cont3_sum {A} (F : R -> R -> A -> vec3) l : (forall c, In c l -> cont3 (fun p t => F p t c)) -> cont3 (fun p t => sum3 (map (F p t) l)).
Proof.
  induction l as [|a l IH]; intros H; [exact (cont3_const zero3)|]. assert (Ca := H a (or_introl eq_refl)). specialize (IH (fun c Hc => H c (or_intror Hc))).
  destruct Ca as (A1 & A2 & A3). destruct IH as (B1 & B2 & B3). cbn [map sum3 fold_right]. unfold add3. split; [|split]; cbn [vx vy vz]; apply cont2_plus; assumption.
Qed.
Lemma cont2_bnval q x : (forall p t, nrm (q_plasma q) p t <> zero3) ->
  (forall p t p' t', In p' (s_qphi (q_winding q)) -> In t' (s_qtheta (q_winding q)) -> pt (q_plasma q) 0 0 p t <> pt (q_winding q) 0 0 p' t') -> cont2 (bnval q x).
Proof.
  intros Nz Off. unfold bnval. apply cont3_dot.
  - unfold unit_at. apply cont3_scale; [|apply cont3_nrm]. apply cont2_inv; [apply cont3_norm, cont3_nrm|]. intros p t. apply Rgt_not_eq, norm_pos, Nz.
  - unfold bval, wsum. repeat (apply cont3_scale; [apply cont2_const|]). apply cont3_sum. intros (p', t') Hc. cbn [fst snd].
    apply cont3_contribution; try apply cont3_const; [apply cont3_pt|]. intros p t. unfold pairs in Hc. apply in_flat_map in Hc as (y & Iy & It). apply in_map_iff in It as (z & E & Iz). injection E as -> ->. now apply Off.
Qed.
