(** Proofs about the field as a function of position, size scaling and
    stellarator symmetry of the current and the field. *)
From Coq Require Import String List Bool Arith ZArith Reals Lra Lia FinFun.
From Coquelicot Require Import Coquelicot.
From Verif Require Import Base ModelArray ModelMath SpecMath RDeriv ProofMath ModelSurface SpecSurface ProofSurface ProofSurface2 ProofSurface3
  ModelParams ModelField SpecField ProofField ProofField2 ProofField3 ProofField4.
Import ListNotations.
Open Scope R_scope.

(** ** Biot-Savart *)
Definition welements q x : list (vec3 * vec3) :=
  let n := INR (length (s_qphi (q_winding q))) * INR (length (s_qtheta (q_winding q))) in
  map (fun u => (pt (q_winding q) 0 0 (fst u) (snd u), scale3 (norm3 (wn q (fst u) (snd u)) / n) (kval q x (fst u) (snd u))))
    (pairs (s_qphi (q_winding q)) (s_qtheta (q_winding q))).

Lemma sum3_comp {A} (f : A -> vec3) l : sum3 (map f l) = V3 (Rsum (map (fun u => vx (f u)) l)) (Rsum (map (fun u => vy (f u)) l)) (Rsum (map (fun u => vz (f u)) l)).
Proof. induction l; simpl; [reflexivity|]. rewrite IHl. unfold add3, Rsum; cbn [vx vy vz map fold_right]. reflexivity. Qed.
Lemma sum3_scale {A} c (f : A -> vec3) l : scale3 c (sum3 (map f l)) = sum3 (map (fun u => scale3 c (f u)) l).
Proof. induction l; simpl; [unfold scale3, zero3; cbn [vx vy vz]; f_equal; ring|].
  rewrite <- IHl. unfold add3, scale3; cbn [vx vy vz]. f_equal; ring. Qed.

Lemma element_contribution P W n k c : c <> 0 ->
  scale3 c (contribution P W n k) = 
  V3 (c * (norm3 n * (vx (cross3 k (sub3 P W)) / norm3 (sub3 P W) ^ 3)))
     (c * (norm3 n * (vy (cross3 k (sub3 P W)) / norm3 (sub3 P W) ^ 3)))
     (c * (norm3 n * (vz (cross3 k (sub3 P W)) / norm3 (sub3 P W) ^ 3))).
Proof.
  intros Hc. unfold contribution. cbv zeta.
  change (sqrt (dot3 n n)) with (norm3 n). change (sqrt (dot3 (sub3 P W) (sub3 P W))) with (norm3 (sub3 P W)).
  generalize (norm3 (sub3 P W)). intros d. unfold scale3; cbn [vx vy vz].
  assert (E : 1 / d * (1 / d) * (1 / d) = / d ^ 3).
  { simpl. rewrite Rmult_1_r. unfold Rdiv. rewrite !Rmult_1_l, !Rinv_mult. ring. }
  rewrite E. unfold Rdiv. f_equal; ring.
Qed.

Lemma bval_biot q x P : (length (s_qphi (q_winding q)) <> 0)%nat -> (length (s_qtheta (q_winding q)) <> 0)%nat ->
  bval q x P = biot_savart (welements q x) P.
Proof.
  intros H1 H2. assert (N1 := not_0_INR _ H1). assert (N2 := not_0_INR _ H2).
  unfold bval, biot_savart, welements, wsum. rewrite !sum3_scale, sum3_comp, !map_map. cbn [fst snd].
  assert (E : forall u : R * R, scale3 (/ INR (length (s_qtheta (q_winding q)))) (scale3 (/ INR (length (s_qphi (q_winding q)))) (scale3 fak
     (contribution P (pt (q_winding q) 0 0 (fst u) (snd u)) (wn q (fst u) (snd u)) (kval q x (fst u) (snd u))))) =
    let W := pt (q_winding q) 0 0 (fst u) (snd u) in
    let J := scale3 (norm3 (wn q (fst u) (snd u)) / (INR (length (s_qphi (q_winding q))) * INR (length (s_qtheta (q_winding q))))) (kval q x (fst u) (snd u)) in
    V3 (/ 10 ^ 7 * (vx (cross3 J (sub3 P W)) / norm3 (sub3 P W) ^ 3)) (/ 10 ^ 7 * (vy (cross3 J (sub3 P W)) / norm3 (sub3 P W) ^ 3))
       (/ 10 ^ 7 * (vz (cross3 J (sub3 P W)) / norm3 (sub3 P W) ^ 3))).
  { intros u. cbv zeta. rewrite (element_contribution _ _ _ _ fak) by (unfold fak; apply Rinv_neq_0_compat; lra).
    rewrite cross_scale_l. unfold scale3; cbn [vx vy vz]. replace (10 ^ 7) with 10000000 by ring. unfold fak, Rdiv. rewrite Rinv_mult.
    f_equal; ring. }
  cbv zeta in E. f_equal; f_equal; apply map_ext; intros u; rewrite E; reflexivity.
Qed.

(** ** Divergence *)
Lemma d_inv3 (f : R -> R) t (df : R) : is_derive f t df -> 0 < f t ->
  is_derive (fun y => / sqrt (f y) ^ 3) t (- (3 / 2) * df / sqrt (f t) ^ 5).
Proof.
  intros H Hp. assert (0 < sqrt (f t)) by now apply sqrt_lt_R0.
  eapply dR_eq; [|apply dR_inv; [|apply (dR_comp (fun s => s ^ 3) (fun y => sqrt (f y)) t (3 * sqrt (f t) ^ 2)); [|apply dR_sqrt; [exact Hp|exact H]]]].
  - cbv beta. field. lra.
  - apply Rgt_not_eq. simpl. repeat apply Rmult_lt_0_compat; lra.
  - auto_derive; auto. simpl. ring.
Qed.

Definition elem (W J P : vec3) : vec3 :=
  let r := sub3 P W in scale3 (/ norm3 r ^ 3) (cross3 J r).
Lemma norm_off P W : P <> W -> 0 < dot3 (sub3 P W) (sub3 P W).
Proof.
  intros H. apply dot_pos. intros E. apply H. destruct P as [a b c], W as [a' b' c']. unfold sub3, zero3 in E; cbn [vx vy vz] in E.
  injection E as E1 E2 E3. f_equal; lra.
Qed.
Lemma elem_div W J P : P <> W -> divergence_free (elem W J) P.
Proof.
  intros H. pose proof (norm_off P W H) as Hd. destruct P as [x y z], W as [a b c], J as [j k l].
  unfold sub3, dot3 in Hd; cbn [vx vy vz] in Hd.
  unfold divergence_free, elem, norm3, dot3, sub3, cross3, scale3; cbn [vx vy vz].
  set (S := sqrt ((x - a) * (x - a) + (y - b) * (y - b) + (z - c) * (z - c))) in *.
  exists (- (3 / 2) * (2 * (x - a)) / S ^ 5 * (k * (z - c) - l * (y - b))),
         (- (3 / 2) * (2 * (y - b)) / S ^ 5 * (l * (x - a) - j * (z - c))),
         (- (3 / 2) * (2 * (z - c)) / S ^ 5 * (j * (y - b) - k * (x - a))).
  repeat match goal with |- _ /\ _ => split end.
  - eapply dR_eq; [|apply dR_mult; [apply (d_inv3 _ _ (2 * (x - a))); [auto_derive; auto; ring|exact Hd]|apply dR_const]].
    cbv beta. fold S. ring.
  - eapply dR_eq; [|apply dR_mult; [apply (d_inv3 _ _ (2 * (y - b))); [auto_derive; auto; ring|exact Hd]|apply dR_const]].
    cbv beta. fold S. ring.
  - eapply dR_eq; [|apply dR_mult; [apply (d_inv3 _ _ (2 * (z - c))); [auto_derive; auto; ring|exact Hd]|apply dR_const]].
    cbv beta. fold S. ring.
  - unfold Rdiv. ring.
Qed.
Lemma biot_elems els P : biot_savart els P = scale3 (/ 10 ^ 7) (sum3 (map (fun e => elem (fst e) (snd e) P) els)).
Proof.
  rewrite sum3_scale, sum3_comp. unfold biot_savart, elem, scale3. cbn [vx vy vz]. f_equal; f_equal; apply map_ext; intros e; unfold Rdiv; ring.
Qed.
Lemma biot_div els P : (forall e, In e els -> P <> fst e) -> divergence_free (biot_savart els) P.
Proof.
  intros H.
  assert (D : divergence_free (fun P => sum3 (map (fun e => elem (fst e) (snd e) P) els)) P).
  { induction els as [|e els IH].
    - exists 0, 0, 0. split; [exact (dR_const 0 _)|]. split; [exact (dR_const 0 _)|]. split; [exact (dR_const 0 _)|]. ring.
    - destruct IH as (a & b & c & A & B & C & E); [intros; apply H; now right|].
      destruct (elem_div (fst e) (snd e) P) as (a' & b' & c' & A' & B' & C' & E'); [apply H; now left|].
      exists (a' + a), (b' + b), (c' + c). split; [|split; [|split]]; [..|lra].
      + exact (dR_plus _ _ _ _ _ A' A). + exact (dR_plus _ _ _ _ _ B' B). + exact (dR_plus _ _ _ _ _ C' C). }
  destruct D as (a & b & c & A & B & C & E). exists (/ 10 ^ 7 * a), (/ 10 ^ 7 * b), (/ 10 ^ 7 * c).
  split; [|split; [|split]].
  - eapply is_derive_ext; [intros y; rewrite biot_elems; reflexivity|]. exact (dR_scal (/ 10 ^ 7) _ _ _ A).
  - eapply is_derive_ext; [intros y; rewrite biot_elems; reflexivity|]. exact (dR_scal (/ 10 ^ 7) _ _ _ B).
  - eapply is_derive_ext; [intros y; rewrite biot_elems; reflexivity|]. exact (dR_scal (/ 10 ^ 7) _ _ _ C).
  - rewrite <- !Rmult_plus_distr_l, E. ring.
Qed.

Lemma field_of_position q x : made q -> legal (q_winding q) -> length x = q_ndofs q ->
  exists els, 
    (forall gw nw kw, gamma (q_winding q) = Ok gw -> normal (q_winding q) = Ok nw -> K q x OnWinding = Ok kw ->
       els = map2 (fun gn k => (fst gn, scale3 (norm3 (snd gn) / (INR (length (s_qphi (q_winding q))) * INR (length (s_qtheta (q_winding q))))) k))
               (combine (concat gw) (concat nw)) (concat kw)) /\
    (forall q' gp, made q' -> same_coil q q' -> legal (q_plasma q') -> gamma (q_plasma q') = Ok gp ->
       winding_surface_B q' x = Ok (map (map (biot_savart els)) gp)) /\
    (forall P gw, gamma (q_winding q) = Ok gw -> ~ In P (concat gw) -> divergence_free (biot_savart els) P).
Proof.
  intros M Lw L. exists (welements q x). destruct (made_facts q M) as (_ & _ & Nd & _ & _ & Cw & _).
  split; [|split].
  - intros gw nw kw E1 E2 E3. unfold gamma in E1. rewrite (gammadash_copy (q_winding q) _ _ _ 0 0 Lw Cw) in E1. injection E1 as <-.
    rewrite (normal_copy (q_winding q) _ _ _ Lw Cw) in E2. injection E2 as <-. rewrite K_made in E3 by auto. cbn [sel_quadpoints] in E3. injection E3 as <-.
    unfold welements. cbv zeta. rewrite !concat_sample, combine_map, map2_diag. reflexivity.
  - intros q' gp M' (E1 & E2 & E3 & E4 & E5 & E6) Lp Eg.
    destruct (made_facts q' M') as (_ & _ & Nd' & _ & _ & _ & Cp).
    unfold gamma in Eg. rewrite (gammadash_copy (q_plasma q') _ _ _ 0 0 Lp Cp) in Eg. injection Eg as <-.
    rewrite B_made; auto; [|now rewrite E1|rewrite L, Nd, Nd', E4, E5, E6; reflexivity].
    f_equal. unfold sample. rewrite map_map. apply map_ext. intros p. rewrite map_map. apply map_ext. intros t.
    rewrite <- bval_biot; [now apply bval_same| |].
    + destruct M as (_ & B & _). apply built_nonempty in B as [B _]. destruct (s_qphi (q_winding q)); [contradiction|discriminate].
    + destruct M as (_ & B & _). apply built_nonempty in B as [_ B]. destruct (s_qtheta (q_winding q)); [contradiction|discriminate].
  - intros P gw Eg Hn. unfold gamma in Eg. rewrite (gammadash_copy (q_winding q) _ _ _ 0 0 Lw Cw) in Eg. injection Eg as <-.
    apply biot_div. intros e He E. apply Hn. rewrite concat_sample. unfold welements in He. cbv zeta in He.
    apply in_map_iff in He as (u & <- & Hu). apply in_map_iff. exists u. split; auto.
Qed.

(** ** Size scaling *)
Lemma ldot_mapscal c l x : ldot l (map (Rmult c) x) = c * ldot l x.
Proof. revert x; induction l; intros [|y x]; [unfold ldot; simpl; ring..|]. cbn [map]. rewrite !ldot_cons, IHl. ring. Qed.
Lemma pt_resized c s s' a b p t : resized c s s' -> pt s' a b p t = scale3 c (pt s a b p t).
Proof.
  intros (E1 & E2 & E3 & E4 & _ & _ & E7). unfold pt, scale3; cbn [vx vy vz].
  assert (R1 : forall k, rval s' k b p t = c * rval s k b p t) by (intros; unfold rval; now rewrite E1, E2, E3, E4, E7, ldot_mapscal).
  f_equal.
  - rewrite <- Rsum_scal. apply Rsum_ext. intros k _. rewrite R1. ring.
  - rewrite <- Rsum_scal. apply Rsum_ext. intros k _. rewrite R1. ring.
  - unfold zval. now rewrite E1, E2, E3, E4, E7, ldot_mapscal.
Qed.
Lemma nrm_resized c s s' p t : resized c s s' -> nrm s' p t = scale3 (c * c) (nrm s p t).
Proof. intros H. unfold nrm. rewrite !(pt_resized c s s') by auto. unfold cross3, scale3; cbn [vx vy vz]. f_equal; ring. Qed.

Lemma resized_cols c q q' : resized_problem c q q' -> qcols q' = qcols q /\ q_nfp q' = q_nfp q.
Proof. intros (_ & (N & _) & _ & _ & E1 & E2 & E3 & _). unfold qcols, q_nfp. now rewrite N, E1, E2, E3. Qed.
Lemma kval_resized c q q' x p t : 0 < c -> resized_problem c q q' -> kval q' x p t = scale3 (/ c) (kval q x p t).
Proof.
  intros Hc H. destruct (resized_cols c q q' H) as [E N]. pose proof H as (_ & W & G & I & _).
  unfold kval, wn, w1, w2, phi1, phi2, td, fphi, targ. rewrite E, N, G, I, (nrm_resized c _ _ p t W), !(pt_resized c _ _ _ _ p t W).
  rewrite scale_norm by nra. rewrite !Rinv_mult. generalize (/ norm3 (nrm (q_winding q) p t)). intros d.
  unfold scale3, sub3; cbn [vx vy vz]. f_equal; field; lra.
Qed.

Lemma contribution_resized c P W n k : 0 < c ->
  contribution (scale3 c P) (scale3 c W) (scale3 (c * c) n) (scale3 (/ c) k) = scale3 (/ c) (contribution P W n k).
Proof.
  intros H. unfold contribution. cbv zeta.
  replace (sub3 (scale3 c P) (scale3 c W)) with (scale3 c (sub3 P W)) by (unfold sub3, scale3; cbn [vx vy vz]; f_equal; ring).
  change (sqrt (dot3 (scale3 (c * c) n) (scale3 (c * c) n))) with (norm3 (scale3 (c * c) n)).
  change (sqrt (dot3 (scale3 c (sub3 P W)) (scale3 c (sub3 P W)))) with (norm3 (scale3 c (sub3 P W))).
  change (sqrt (dot3 n n)) with (norm3 n). change (sqrt (dot3 (sub3 P W) (sub3 P W))) with (norm3 (sub3 P W)).
  rewrite !scale_norm by nra. unfold Rdiv. rewrite Rinv_mult. generalize (/ norm3 (sub3 P W)). intros d.
  generalize (norm3 n). generalize (sub3 P W). intros r m.
  unfold scale3, cross3; cbn [vx vy vz]. f_equal; field; lra.
Qed.
Lemma bval_resized c q q' x P : 0 < c -> resized_problem c q q' -> bval q' x (scale3 c P) = scale3 (/ c) (bval q x P).
Proof.
  intros Hc H. pose proof H as (_ & W & _). pose proof W as (_ & _ & _ & _ & Q1 & Q2 & _). unfold bval, wsum. rewrite Q1, Q2.
  assert (E : forall l, sum3 (map (fun u => contribution (scale3 c P) (pt (q_winding q') 0 0 (fst u) (snd u)) (wn q' (fst u) (snd u)) (kval q' x (fst u) (snd u))) l)
    = scale3 (/ c) (sum3 (map (fun u => contribution P (pt (q_winding q) 0 0 (fst u) (snd u)) (wn q (fst u) (snd u)) (kval q x (fst u) (snd u))) l))).
  { intros l. rewrite sum3_scale. apply sum3_ext. intros u. rewrite <- contribution_resized by auto. unfold wn.
    now rewrite (pt_resized c _ _ _ _ _ _ W), (nrm_resized c _ _ _ _ W), (kval_resized c q q') by auto. }
  rewrite E. unfold scale3; cbn [vx vy vz]. f_equal; ring.
Qed.
Lemma resized_legal c s s' : resized c s s' -> legal s -> legal s'.
Proof. intros (_ & E2 & E3 & E4 & _ & _ & E7). unfold legal. now rewrite E2, E3, E4, E7, map_length. Qed.
Lemma unit_resized c s s' p t : 0 < c -> resized c s s' -> unit_at s' p t = unit_at s p t.
Proof.
  intros Hc H. unfold unit_at. rewrite (nrm_resized c s s') by auto. rewrite scale_norm by nra. rewrite !Rinv_mult.
  generalize (/ norm3 (nrm s p t)). intros d. unfold scale3; cbn [vx vy vz]. f_equal; field; lra.
Qed.
Lemma bn_rows c (f : R -> R) l u : map2 Rplus (map (fun t => c * f t) l) (map (Rmult c) u) = map (Rmult c) (map2 Rplus (map f l) u).
Proof. revert u; induction l; intros [|y u]; simpl; auto. rewrite IHl. f_equal. ring. Qed.
Lemma bn_grids c (F : R -> R -> R) ps ts u :
  gmap2 Rplus (sample (fun p t => c * F p t) ps ts) (map (map (Rmult c)) u) = map (map (Rmult c)) (gmap2 Rplus (sample F ps ts) u).
Proof. unfold gmap2, sample. revert u; induction ps; intros [|y u]; simpl; auto. rewrite IHps. f_equal. apply (bn_rows c (F a)). Qed.
Lemma wsq_resized c b (F : R -> R -> R) ps ts k : 0 < c ->
  Rsum (map2 (fun r s => Rsum (map2 wsq r s)) (map (map (Rmult (/ c))) b) (sample (fun p t => k * (c * c * F p t)) ps ts))
  = Rsum (map2 (fun r s => Rsum (map2 wsq r s)) b (sample (fun p t => k * F p t) ps ts)).
Proof.
  intros Hc. unfold sample. revert ps; induction b as [|r b IH]; intros [|p ps]; auto. unfold Rsum in *. cbn [map map2 fold_right]. rewrite IH. f_equal.
  clear -Hc. revert ts; induction r as [|y r IH]; intros [|t ts]; auto. cbn [map map2 fold_right]. rewrite IH. f_equal. unfold wsq. field. lra.
Qed.

Lemma resized_weights c q q' : made q -> made q' -> resized_problem c q q' ->
  s_dphi (q_eval q') = s_dphi (q_eval q) /\ s_dtheta (q_eval q') = s_dtheta (q_eval q) /\
  s_dphi (q_plasma q') = s_dphi (q_plasma q) /\ s_dtheta (q_plasma q') = s_dtheta (q_plasma q).
Proof.
  intros M M' H. destruct (made_facts q M) as (_ & _ & _ & _ & Ce & _ & Cp). destruct (made_facts q' M') as (_ & _ & _ & _ & Ce' & _ & Cp').
  pose proof H as (P & _ & _ & _ & _ & _ & _ & Q1 & Q2 & _). destruct P as (_ & _ & _ & _ & P1 & P2 & _).
  rewrite Q1, Q2 in Ce'. rewrite P1, P2 in Cp'.
  apply copy_fields in Ce as (_ & _ & _ & _ & _ & _ & _ & _ & _ & A1 & A2). apply copy_fields in Ce' as (_ & _ & _ & _ & _ & _ & _ & _ & _ & B1 & B2).
  apply copy_fields in Cp as (_ & _ & _ & _ & _ & _ & _ & _ & _ & A3 & A4). apply copy_fields in Cp' as (_ & _ & _ & _ & _ & _ & _ & _ & _ & B3 & B4).
  repeat split; congruence.
Qed.

Lemma resized_results c q q' x : made q -> made q' -> legal (q_winding q) -> legal (q_plasma q) -> plasma_shaped q ->
  length x = q_ndofs q -> 0 < c -> resized_problem c q q' ->
  (forall mode, exists k, K q x mode = Ok k /\ K q' x mode = Ok (map (map (scale3 (/ c))) k)) /\
  (exists b, winding_surface_B q x = Ok b /\ winding_surface_B q' x = Ok (map (map (scale3 (/ c))) b)) /\
  (exists b, Bnormal q x = Ok b /\ Bnormal q' x = Ok (map (map (Rmult (/ c))) b)) /\
  (exists v, f_B q x = Ok v /\ f_B q' x = Ok v) /\
  (exists v, f_K q x = Ok v /\ f_K q' x = Ok v) /\
  (exists v, f_Phi q x = Ok v /\ f_Phi q' x = Ok (c * c * v)).
Proof.
  intros M M' Lw Lp Ps L Hc H. pose proof H as (HP & HW & EG & EI & ES & EM & EN & Q1 & Q2 & EB).
  pose proof HW as (Wn & _ & _ & _ & W1 & W2 & _). pose proof HP as (Pn & _ & _ & _ & P1 & P2 & _).
  assert (Lw' := resized_legal _ _ _ HW Lw). assert (Lp' := resized_legal _ _ _ HP Lp).
  destruct (resized_weights c q q' M M' H) as (D1 & D2 & D3 & D4). destruct (resized_cols c q q' H) as [Hcols Hnfp].
  assert (L' : length x = q_ndofs q').
  { destruct (made_facts q M) as (_ & _ & N & _). destruct (made_facts q' M') as (_ & _ & N' & _). rewrite N', ES, EM, EN, <- N. exact L. }
  assert (Ps' : plasma_shaped q').
  { destruct Ps as [S1 S2]. split; rewrite EB, ?P1, ?P2; [now rewrite map_length|]. apply Forall_forall. intros r Hr.
    apply in_map_iff in Hr as (r0 & <- & Hr). rewrite map_length. rewrite Forall_forall in S2. auto. }
  assert (HS : forall {A B} (f : A -> B) F ps ts, map (map f) (sample F ps ts) = sample (fun p t => f (F p t)) ps ts) by (intros; apply gmap_sample).
  assert (BN : Bnormal q' x = Ok (map (map (Rmult (/ c))) (gmap2 Rplus (sample (bnval q x) (s_qphi (q_plasma q)) (s_qtheta (q_plasma q))) (q_Bnormal q)))).
  { rewrite Bnormal_made by auto. rewrite EB, P1, P2, <- bn_grids. f_equal. f_equal. apply sample_ext. intros p t. unfold bnval.
    rewrite (unit_resized c _ _ p t Hc HP), (pt_resized c _ _ _ _ _ _ HP), (bval_resized c q q') by auto. unfold dot3, scale3; cbn [vx vy vz]. ring. }
  split; [|split; [|split; [|split; [|split]]]].
  - intros mode. rewrite !K_made by auto.
    assert (Sq : sel_quadpoints q' mode = sel_quadpoints q mode) by (unfold sel_quadpoints; now rewrite W1, W2, Wn, Q1, Q2).
    rewrite Sq. destruct (sel_quadpoints q mode) as [ps ts]. eexists. split; [reflexivity|]. rewrite HS. f_equal. apply sample_ext.
    intros. now apply kval_resized.
  - rewrite !B_made by auto. eexists. split; [reflexivity|]. rewrite HS, P1, P2. f_equal. apply sample_ext. intros.
    rewrite (pt_resized c _ _ _ _ _ _ HP). now apply bval_resized.
  - rewrite Bnormal_made by auto. eexists. split; [reflexivity|]. exact BN.
  - destruct (f_B_made q x M Lw Lp Ps L) as (b & d & Eb & _ & _ & _ & Ed & ->).
    destruct (f_B_made q' x M' Lw' Lp' Ps' L') as (b' & d' & Eb' & _ & _ & _ & Ed' & ->).
    eexists. split; [reflexivity|]. rewrite Bnormal_made in Eb by auto. rewrite BN in Eb'. injection Eb as Eb. injection Eb' as Eb'.
    rewrite !gsum_wsq_rows, Hnfp. f_equal. f_equal. rewrite <- Eb', Eb, Ed, Ed', P1, P2, D3, D4.
    rewrite <- (wsq_resized c b (fun p t => norm3 (nrm (q_plasma q) p t))) by auto. do 2 f_equal. apply sample_ext. intros.
    rewrite (nrm_resized c _ _ _ _ HP), scale_norm by nra. reflexivity.
  - rewrite !f_K_made by auto. eexists. split; [reflexivity|]. rewrite Hnfp, Q1, Q2, D1, D2. f_equal. f_equal.
    apply Rsum_ext. intros p _. apply Rsum_ext. intros t _. rewrite (kval_resized c q q') by auto. rewrite (nrm_resized c _ _ _ _ HW), scale_norm by nra.
    unfold dot3, scale3; cbn [vx vy vz]. field. lra.
  - rewrite !f_Phi_made by auto. eexists. split; [reflexivity|]. rewrite Hnfp, Q1, Q2, D1, D2. f_equal. 
    transitivity (Rsum (map (fun p => c * c * Rsum (map (fun u => phi_of q x p u * phi_of q x p u / 2 *
      (s_dphi (q_eval q) * s_dtheta (q_eval q) * norm3 (nrm (q_winding q) p u))) (q_qtheta q))) (q_qphi q)) * INR (q_nfp q)).
    + f_equal. apply Rsum_ext. intros p _. rewrite <- Rsum_scal. apply Rsum_ext. intros t _.
      assert (Ep : phi_of q' x p t = phi_of q x p t) by (unfold phi_of, tr, targ; now rewrite Hcols, Hnfp).
      rewrite Ep, (nrm_resized c _ _ _ _ HW), scale_norm by nra. field.
    + rewrite Rsum_scal. ring.
Qed.
