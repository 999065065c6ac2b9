(** Proofs about the surface current and its derivatives. *)
From Coq Require Import String List Bool Arith ZArith Reals Lra Lia FinFun.
From Coquelicot Require Import Coquelicot.
From Verif Require Import Base ModelArray ModelMath SpecMath RDeriv ProofMath ModelSurface SpecSurface ProofSurface ProofSurface2 ProofSurface3
  ModelParams ModelField SpecField ProofField.
Import ListNotations.
Open Scope R_scope.

Lemma sample_ext {A} (F G : R -> R -> A) ps ts : (forall p t, F p t = G p t) -> sample F ps ts = sample G ps ts.
Proof. intros H. unfold sample. apply map_ext; intros; now apply map_ext. Qed.

(** ** C12, C13 *)
Lemma phi_shift_phi q x p t : (q_nfp q <> 0)%nat -> phi_of q x (p + / INR (q_nfp q)) t = phi_of q x p t.
Proof. intros H. apply ldot_map_ext. intros. now apply tr_shift_phi. Qed.
Lemma phi_shift_theta q x p t : phi_of q x p (t + 1) = phi_of q x p t.
Proof. apply ldot_map_ext. intros. now apply tr_shift_theta. Qed.
Lemma phi_odd q x p t : q_stellsym q = true -> phi_of q x (- p) (- t) = - phi_of q x p t.
Proof.
  intros H. unfold phi_of. replace (- ldot (map (tr q p t) (qcols q)) x) with ((-1) * ldot (map (tr q p t) (qcols q)) x) by ring.
  rewrite <- ldot_map_scal. apply ldot_map_ext. intros c Hc. unfold qcols in Hc. rewrite H in Hc. apply pcols_st in Hc.
  unfold tr. rewrite Hc. unfold sin_or_cos. cbn [Z.mul Z.eqb Pos.eqb Pos.mul].
  replace (targ q c (- p) (- t)) with (- targ q c p t) by (unfold targ, trig_arg; ring). rewrite sin_neg. ring.
Qed.
Lemma phi_shift_one q x p t : (q_nfp q <> 0)%nat -> phi_of q x (p + 1) t = phi_of q x p t.
Proof.
  intros H. assert (HH : INR (q_nfp q) <> 0) by now apply not_0_INR.
  assert (E : forall k, phi_of q x (p + INR k * / INR (q_nfp q)) t = phi_of q x p t).
  { induction k; [simpl; f_equal; ring|]. rewrite S_INR.
    replace (p + (INR k + 1) * / INR (q_nfp q)) with (p + INR k * / INR (q_nfp q) + / INR (q_nfp q)) by ring.
    now rewrite phi_shift_phi. }
  rewrite <- (E (q_nfp q)). f_equal. field. auto.
Qed.

Lemma phi_reports q x : made q -> length x = q_ndofs q -> qreports (fun q => Phi q x) q (phi_of q x).
Proof. intros M L. apply qreports_of; auto. intros. now apply Phi_placed. Qed.
Lemma tot_reports q x : made q -> length x = q_ndofs q -> qreports (fun q => Phi_with_net_current q x) q (phi_tot q x).
Proof. intros M L. apply qreports_of; auto. intros. now apply Phi_net_placed. Qed.

Lemma reports_len q x F : made q -> qreports (fun q => Phi q x) q F -> length x = q_ndofs q.
Proof.
  intros M H. destruct (H [0] [0]) as (q' & P & E); try discriminate.
  destruct (made_facts q M) as (_ & _ & N & _).
  unfold Phi in E. rewrite (diff_placed q [0] [0] q' P) in E. cbn [bind d_n] in E. unfold apply_rows in E.
  destruct (Nat.eqb _ _) eqn:B; [|discriminate]. apply Nat.eqb_eq in B. rewrite <- B, N. apply length_pcols.
Qed.

Lemma potential_symmetry q x F : made q -> qreports (fun q => Phi q x) q F ->
  forall p t, F (p + / INR (q_nfp q)) t = F p t /\ F p (t + 1) = F p t /\
    (q_stellsym q = true -> F (- p) (- t) = - F p t /\ F 0 0 = 0).
Proof.
  intros M H. pose proof (reports_len q x F M H) as L. pose proof (qreports_unique _ _ _ _ H (phi_reports q x M L)) as E.
  destruct (made_facts q M) as (Hn & _).
  intros p t. rewrite !E. split; [now apply phi_shift_phi|]. split; [apply phi_shift_theta|].
  intros St. split; [now apply phi_odd|]. pose proof (phi_odd q x 0 0 St) as O. rewrite Ropp_0 in O. lra.
Qed.

Lemma net_currents q x : made q -> length x = q_ndofs q ->
  exists F, qreports (fun q => Phi_with_net_current q x) q F /\
  forall p t, F (p + 1) t - F p t = q_G q /\ F p (t + 1) - F p t = q_I q.
Proof.
  intros M L. exists (phi_tot q x). split; [now apply tot_reports|]. destruct (made_facts q M) as (Hn & _).
  intros p t. unfold phi_tot. rewrite phi_shift_one by auto. rewrite phi_shift_theta. split; ring.
Qed.

(** ** The current *)
Definition wn q p t := nrm (q_winding q) p t.
Definition w1 q p t := pt (q_winding q) 1 0 p t.
Definition w2 q p t := pt (q_winding q) 0 1 p t.
Definition kval q x p t := 
  scale3 (/ norm3 (wn q p t)) (sub3 (scale3 (phi1 q x p t + q_G q) (w2 q p t)) (scale3 (phi2 q x p t + q_I q) (w1 q p t))).

Lemma firstn_sample {A} k (F : R -> R -> A) ps ts : firstn k (sample F ps ts) = sample F (firstn k ps) ts.
Proof. unfold sample. now rewrite firstn_map. Qed.

Lemma K_fields_made q mode : made q -> legal (q_winding q) ->
  K_fields q mode = let '(ps, ts) := sel_quadpoints q mode in
    Ok (sample (wn q) ps ts, sample (w1 q) ps ts, sample (w2 q) ps ts).
Proof.
  intros M Lg. destruct (made_facts q M) as (_ & _ & _ & _ & Ce & Cw & _).
  unfold K_fields. destruct mode; cbn [sel_quadpoints].
  - rewrite (normal_copy (q_winding q) _ _ _ Lg Ce). cbn [bind]. unfold gammadash1, gammadash2.
    rewrite !(gammadash_copy (q_winding q) _ _ _ _ _ Lg Ce). reflexivity.
  - rewrite (normal_copy (q_winding q) _ _ _ Lg Cw). cbn [bind]. unfold gammadash1, gammadash2.
    rewrite !(gammadash_copy (q_winding q) _ _ _ _ _ Lg Cw). reflexivity.
  - rewrite (normal_copy (q_winding q) _ _ _ Lg Cw). cbn [bind]. unfold gammadash1, gammadash2.
    rewrite !(gammadash_copy (q_winding q) _ _ _ _ _ Lg Cw). cbn [bind]. unfold first_rows. rewrite !firstn_sample. reflexivity.
Qed.

Lemma ldot_lin2 {A} (u v : A -> R) (k y z : R) l x :
  ldot (map (fun c => k * (u c * y - v c * z)) l) x = k * (ldot (map u l) x * y - ldot (map v l) x * z).
Proof.
  revert x; induction l; intros x; simpl; [unfold ldot; simpl; ring|]. destruct x; [rewrite !ldot_nil_r; ring|].
  rewrite !ldot_cons, IHl. ring.
Qed.
Lemma vcomb_bK {A} N g1 g2 (u v : A -> R) l x :
  vcomb (b_K_at N g1 g2 (map u l) (map v l)) x =
  scale3 (/ norm3 N) (sub3 (scale3 (ldot (map u l) x) g2) (scale3 (ldot (map v l) x) g1)).
Proof.
  unfold b_K_at. rewrite map2_diag. unfold vcomb. rewrite !map_map.
  unfold scale3, sub3. cbn [vx vy vz]. now rewrite !ldot_lin2.
Qed.

Lemma apply_vrows_sample n (F : R -> R -> list vec3) ps ts x : n = length x ->
  apply_vrows n (sample F ps ts) x = Ok (sample (fun p t => vcomb (F p t) x) ps ts).
Proof. intros ->. unfold apply_vrows. rewrite Nat.eqb_refl. f_equal. apply (gmap_sample (fun row => vcomb row x)). Qed.

Lemma K_made q x mode : made q -> legal (q_winding q) -> length x = q_ndofs q ->
  K q x mode = let '(ps, ts) := sel_quadpoints q mode in Ok (sample (kval q x) ps ts).
Proof.
  intros M Lg L. unfold K. rewrite K_fields_made, diff_helper_cols by auto.
  destruct (sel_quadpoints q mode) as [ps ts]. cbn [bind d_n d_phi d_theta d_trig_diff].
  rewrite !gmap2_sample, gmap_sample, apply_vrows_sample by (now apply cols_len). cbn [bind].
  rewrite gmap2_sample. f_equal. apply sample_ext. intros p t. rewrite !row_diag_map, vcomb_bK.
  unfold kval, c_K_at, add3, sub3, scale3. cbn [vx vy vz]. fold (phi1 q x p t). fold (phi2 q x p t). f_equal; ring.
Qed.

Lemma placed_made q ps ts q' : made q -> placed q ps ts q' -> made q'.
Proof.
  intros M P. pose proof (placed_fields _ _ _ _ P) as (E1 & E2 & _). destruct M as (B1 & B2 & _).
  split; [now rewrite E1|]. split; [now rewrite E2|]. unfold placed, on_points in P. eauto 12.
Qed.
Lemma placed_fun q ps ts q' x : placed q ps ts q' ->
  phi_of q' x = phi_of q x /\ phi1 q' x = phi1 q x /\ phi2 q' x = phi2 q x /\ phi11 q' x = phi11 q x /\
  phi12 q' x = phi12 q x /\ phi22 q' x = phi22 q x /\ wn q' = wn q /\ w1 q' = w1 q /\ w2 q' = w2 q /\
  q_G q' = q_G q /\ q_I q' = q_I q /\ kval q' x = kval q x.
Proof.
  intros P. destruct (placed_cols _ _ _ _ P) as [E _]. destruct (placed_trig _ _ _ _ P) as (E1 & E2 & E3 & E4 & E5).
  apply placed_fields in P as (_ & W & _ & G & I & _).
  unfold kval, phi_of, phi1, phi2, phi11, phi12, phi22, wn, w1, w2. rewrite E, E1, E2, E3, E4, E5, W, G, I. repeat split.
Qed.
Lemma placed_len q ps ts q' : made q -> placed q ps ts q' -> q_ndofs q' = q_ndofs q.
Proof. intros M P. destruct (made_facts q M) as (_ & _ & N & _). apply placed_fields in P. rewrite N. apply P. Qed.
Lemma placed_legal q ps ts q' : legal (q_winding q) -> placed q ps ts q' -> legal (q_winding q').
Proof. intros Lg P. apply placed_fields in P as (_ & W & _). now rewrite W. Qed.

Lemma K_reports q x : made q -> legal (q_winding q) -> length x = q_ndofs q ->
  qreports (fun q => K q x OnEval) q (kval q x).
Proof.
  intros M Lg L. apply qreports_of; auto. intros ps ts q' _ _ P.
  rewrite (K_made q' x OnEval (placed_made _ _ _ _ M P) (placed_legal _ _ _ _ Lg P)) by (now rewrite (placed_len q ps ts q')).
  cbn [sel_quadpoints]. pose proof (placed_fun _ _ _ _ x P) as (_ & _ & _ & _ & _ & _ & _ & _ & _ & _ & _ & ->).
  apply placed_fields in P as (_ & _ & _ & _ & _ & _ & -> & -> & _). reflexivity.
Qed.

(** Vector algebra. *)
Lemma cross_scale_l c u v : cross3 (scale3 c u) v = scale3 c (cross3 u v).
Proof. unfold cross3, scale3; simpl; f_equal; ring. Qed.
Lemma dot_scale_l c u v : dot3 (scale3 c u) v = c * dot3 u v.
Proof. unfold dot3, scale3; simpl; ring. Qed.

Lemma n_cross_grad T1 T2 a b : cross3 T1 T2 <> zero3 ->
  let N := cross3 T1 T2 in
  scale3 (/ norm3 N) (sub3 (scale3 a T2) (scale3 b T1)) =
  cross3 (scale3 (/ norm3 N) N) (add3 (scale3 a (grad1_at T1 T2)) (scale3 b (grad2_at T1 T2))).
Proof.
  intros H N. pose proof (dot_pos _ H) as P. rewrite cross_scale_l. f_equal. unfold grad1_at, grad2_at. fold N.
  assert (HD : dot3 N N <> 0) by (unfold N; lra).
  assert (E : cross3 N (add3 (scale3 a (scale3 (/ dot3 N N) (cross3 T2 N))) (scale3 b (scale3 (/ dot3 N N) (cross3 T1 (scale3 (-1) N)))))
    = scale3 (/ dot3 N N) (sub3 (scale3 a (cross3 N (cross3 T2 N))) (scale3 b (cross3 N (cross3 T1 N))))).
  { generalize (/ dot3 N N). intros k. unfold cross3, add3, sub3, scale3; cbn [vx vy vz]. f_equal; ring. }
  rewrite E.
  assert (E2 : cross3 N (cross3 T2 N) = scale3 (dot3 N N) T2).
  { unfold N, cross3, scale3, dot3; cbn [vx vy vz]. f_equal; ring. }
  assert (E1 : cross3 N (cross3 T1 N) = scale3 (dot3 N N) T1).
  { unfold N, cross3, scale3, dot3; cbn [vx vy vz]. f_equal; ring. }
  rewrite E1, E2. unfold sub3, scale3; cbn [vx vy vz]. f_equal; field; auto.
Qed.

Lemma current_structure q x : made q -> legal (q_winding q) -> length x = q_ndofs q ->
  exists (Kf T1 T2 N U E1 E2 : R -> R -> vec3) (F F1 F2 J1 J2 : R -> R -> R),
    qreports (fun q => K q x OnEval) q Kf /\
    qreports (fun q => Phi_with_net_current q x) q F /\
    reports gammadash1 (q_winding q) T1 /\ reports gammadash2 (q_winding q) T2 /\
    reports normal (q_winding q) N /\ reports unitnormal (q_winding q) U /\
    reports (first_of grad_helper) (q_winding q) E1 /\ reports (second_of grad_helper) (q_winding q) E2 /\
    (forall p t, is_derive (fun y => F y t) p (F1 p t) /\ is_derive (fun y => F p y) t (F2 p t)) /\
    (forall p t, N p t <> zero3 ->
       dot3 (Kf p t) (N p t) = 0 /\
       Kf p t = cross3 (U p t) (add3 (scale3 (F1 p t) (E1 p t)) (scale3 (F2 p t) (E2 p t))) /\
       scale3 (norm3 (N p t)) (Kf p t) = add3 (scale3 (J1 p t) (T1 p t)) (scale3 (J2 p t) (T2 p t))) /\
    (forall p t, exists d, is_derive (fun y => J1 y t) p d /\ is_derive (fun y => J2 p y) t (- d)).
Proof.
  intros M Lg L. set (w := q_winding q).
  exists (kval q x), (pt w 1 0), (pt w 0 1), (nrm w), (fun p t => scale3 (/ norm3 (nrm w p t)) (nrm w p t)),
    (fun p t => grad1_at (pt w 1 0 p t) (pt w 0 1 p t)), (fun p t => grad2_at (pt w 1 0 p t) (pt w 0 1 p t)),
    (phi_tot q x), (fun p t => phi1 q x p t + q_G q), (fun p t => phi2 q x p t + q_I q),
    (fun p t => - (phi2 q x p t + q_I q)), (fun p t => phi1 q x p t + q_G q).
  split; [now apply K_reports|]. split; [now apply tot_reports|].
  split; [now apply reports_gammadash|]. split; [now apply reports_gammadash|].
  split; [apply reports_of; intros; now apply normal_copy|].
  split; [apply reports_of; intros; now apply unitnormal_copy|].
  split; [apply reports_of; intros; unfold first_of; now rewrite (grad_copy w ps ts s')|].
  split; [apply reports_of; intros; unfold second_of; now rewrite (grad_copy w ps ts s')|].
  split; [intros; split; [apply tot_d1|apply tot_d2]|].
  split.
  - intros p t Hn. pose proof (norm_pos _ Hn).
    split; [|split].
    + unfold kval, wn, w1, w2. fold w. rewrite dot_scale_l. unfold nrm, dot3, sub3, scale3, cross3. cbn [vx vy vz]. ring.
    + unfold kval, wn, w1, w2. fold w. unfold nrm. apply n_cross_grad. exact Hn.
    + unfold kval, wn, w1, w2. fold w. unfold scale3, add3, sub3. cbn [vx vy vz]. f_equal; field; lra.
  - intros p t. exists (- (phi12 q x p t)). split.
    + apply (dR_opp (fun y => phi2 q x y t + q_I q)).
      eapply dR_eq; [|apply dR_plus; [apply phi2_d1|apply dR_const]]. ring.
    + eapply dR_eq; [|apply dR_plus; [apply phi1_d2|apply dR_const]]. ring.
Qed.

(** The current on the whole winding surface and on its first field period. *)
Lemma current_modes q x Kf : made q -> legal (q_winding q) -> length x = q_ndofs q -> 
  qreports (fun q => K q x OnEval) q Kf ->
  let ps := s_qphi (q_winding q) in let ts := s_qtheta (q_winding q) in
  K q x OnEval = Ok (sample Kf (q_qphi q) (q_qtheta q)) /\
  K q x OnWinding = Ok (sample Kf ps ts) /\
  K q x OnDivide = Ok (sample Kf (firstn (length ps / q_nfp q) ps) ts).
Proof.
  intros M Lg L H ps ts. pose proof (qreports_unique _ _ _ _ H (K_reports q x M Lg L)) as E.
  rewrite !K_made by auto. cbn [sel_quadpoints]. fold ps. fold ts.
  split; [|split]; f_equal; apply sample_ext; intros; now rewrite E.
Qed.

(** ** Derivatives of the current *)
Definition dgw q p t := dga_at (wn q p t) (w1 q p t) (w2 q p t) (pt (q_winding q) 2 0 p t) (pt (q_winding q) 1 1 p t) (pt (q_winding q) 0 2 p t).
Definition kd_at (d2 d1 g2 g1 : vec3) (n f1 f1' f2 f2' : R) : vec3 :=
  sub3 (sub3 (add3 (scale3 f1 d2) (scale3 (/ n) (scale3 f1' g2))) (scale3 f2 d1)) (scale3 (/ n) (scale3 f2' g1)).
Definition kd1 q x p t := let '(d11, d12, d21, d22) := dgw q p t in
  kd_at d21 d11 (w2 q p t) (w1 q p t) (norm3 (wn q p t)) (phi1 q x p t + q_G q) (phi11 q x p t) (phi2 q x p t + q_I q) (phi12 q x p t).
Definition kd2 q x p t := let '(d11, d12, d21, d22) := dgw q p t in
  kd_at d22 d12 (w2 q p t) (w1 q p t) (norm3 (wn q p t)) (phi1 q x p t + q_G q) (phi12 q x p t) (phi2 q x p t + q_I q) (phi22 q x p t).

Lemma ldot_lin4 {A} (u u' v v' : A -> R) (a b c d k : R) l x :
  ldot (map (fun e => u e * a + k * (u' e * b) - v e * c - k * (v' e * d)) l) x
  = ldot (map u l) x * a + k * (ldot (map u' l) x * b) - ldot (map v l) x * c - k * (ldot (map v' l) x * d).
Proof.
  revert x; induction l; intros x; simpl; [unfold ldot; simpl; ring|]. destruct x; [rewrite !ldot_nil_r; ring|].
  rewrite !ldot_cons, IHl. ring.
Qed.
Lemma combine_map {A B C} (f : A -> B) (g : A -> C) l : combine (map f l) (map g l) = map (fun e => (f e, g e)) l.
Proof. induction l; simpl; congruence. Qed.
Lemma vcomb_kd {A} d2 d1 g2 g1 n (u u' v v' : A -> R) l x :
  vcomb (Kdash_op_at d2 d1 g2 g1 n (map u l) (map u' l) (map v l) (map v' l)) x =
  kd_at d2 d1 g2 g1 n (ldot (map u l) x) (ldot (map u' l) x) (ldot (map v l) x) (ldot (map v' l) x).
Proof.
  unfold Kdash_op_at. rewrite !combine_map, map2_diag. unfold vcomb. rewrite !map_map.
  unfold kd_at, scale3, sub3, add3. cbn [vx vy vz fst snd]. now rewrite !ldot_lin4.
Qed.

Lemma sel_surface_made q : made q -> exists s, sel_surface q OnEval = Ok s /\ resampled (q_winding q) (q_qphi q) (q_qtheta q) s.
Proof. intros M. exists (q_eval q). split; auto. apply made_facts; auto. Qed.

Lemma Kdash_made q x : made q -> legal (q_winding q) -> length x = q_ndofs q ->
  Kdash1 q x = Ok (sample (kd1 q x) (q_qphi q) (q_qtheta q)) /\
  Kdash2 q x = Ok (sample (kd2 q x) (q_qphi q) (q_qtheta q)).
Proof.
  intros M Lg L. destruct (made_facts q M) as (_ & _ & _ & _ & Ce & _).
  unfold Kdash1, Kdash2, Kdash_helper. cbn [sel_surface bind].
  rewrite (normal_copy (q_winding q) _ _ _ Lg Ce). cbn [bind]. unfold gammadash1, gammadash2.
  rewrite !(gammadash_copy (q_winding q) _ _ _ _ _ Lg Ce). cbn [bind].
  rewrite diff_helper_cols. cbn [sel_quadpoints bind]. unfold dga_inv_n_dashb.
  rewrite (from_fields_copy (q_winding q) _ _ _ _ Lg Ce). cbn [bind d_n d_trig d_trig_diff d_phi d_theta d_phi_phi d_phi_theta d_theta_theta
    kd_n kd1_op kd2_op kd1_const kd2_const].
  rewrite !gmap2_sample, !gmap_sample, !apply_vrows_sample by (now apply cols_len). cbn [bind].
  rewrite !gmap2_sample.
  split; f_equal; apply sample_ext; intros p t; unfold kd1, kd2, dgw, wn, w1, w2;
    destruct (dga_at _ _ _ _ _ _) as [[[d11 d12] d21] d22]; cbn [fst snd]; rewrite !row_diag_map, vcomb_kd;
    fold (phi1 q x p t); fold (phi2 q x p t); fold (phi11 q x p t); fold (phi12 q x p t); fold (phi22 q x p t);
    unfold kd_at, add3, sub3, scale3; cbn [vx vy vz]; f_equal; ring.
Qed.

Lemma derives_sub f g t df dg : derives f t df -> derives g t dg ->
  derives (fun x => sub3 (f x) (g x)) t (sub3 df dg).
Proof.
  intros (F1 & F2 & F3) (G1 & G2 & G3). unfold derives, sub3; cbn [vx vy vz]. split; [|split]; apply dR_minus; auto.
Qed.

Lemma kval_alt q x p t : kval q x p t = 
  sub3 (scale3 (phi1 q x p t + q_G q) (scale3 (/ norm3 (wn q p t)) (w2 q p t)))
       (scale3 (phi2 q x p t + q_I q) (scale3 (/ norm3 (wn q p t)) (w1 q p t))).
Proof. unfold kval, sub3, scale3; cbn [vx vy vz]. f_equal; ring. Qed.

Lemma kval_d1 q x (p t : R) : wn q p t <> zero3 -> derives (fun y => kval q x y t) p (kd1 q x p t).
Proof.
  intros Hn.
  apply derives_ext with (f := fun y => sub3 (scale3 (phi1 q x y t + q_G q) (scale3 (/ norm3 (wn q y t)) (w2 q y t)))
       (scale3 (phi2 q x y t + q_I q) (scale3 (/ norm3 (wn q y t)) (w1 q y t)))); [intros; symmetry; apply kval_alt|].
  eapply derives_eq; [|apply derives_sub; apply derives_scale].
  2:{ apply dR_plus; [apply phi1_d1|apply dR_const]. }
  2:{ apply (d_over_norm (fun y => wn q y t) (fun y => w2 q y t)); [exact Hn|apply nrm_phi|apply pt_phi]. }
  2:{ apply dR_plus; [apply phi2_d1|apply dR_const]. }
  2:{ apply (d_over_norm (fun y => wn q y t) (fun y => w1 q y t)); [exact Hn|apply nrm_phi|apply pt_phi]. }
  unfold kd1, dgw, dga_at, kd_at. fold (w1 q p t). fold (w2 q p t).
  set (A := dg_inv_n_dash_at _ _ _ _). set (B := dg_inv_n_dash_at _ _ _ (pt _ 2 0 p t)).
  unfold add3, sub3, scale3; cbn [vx vy vz]. f_equal; ring.
Qed.
Lemma kval_d2 q x (p t : R) : wn q p t <> zero3 -> derives (fun y => kval q x p y) t (kd2 q x p t).
Proof.
  intros Hn.
  apply derives_ext with (f := fun y => sub3 (scale3 (phi1 q x p y + q_G q) (scale3 (/ norm3 (wn q p y)) (w2 q p y)))
       (scale3 (phi2 q x p y + q_I q) (scale3 (/ norm3 (wn q p y)) (w1 q p y)))); [intros; symmetry; apply kval_alt|].
  eapply derives_eq; [|apply derives_sub; apply derives_scale].
  2:{ apply dR_plus; [apply phi1_d2|apply dR_const]. }
  2:{ apply (d_over_norm (fun y => wn q p y) (fun y => w2 q p y)); [exact Hn|apply nrm_theta|apply pt_theta]. }
  2:{ apply dR_plus; [apply phi2_d2|apply dR_const]. }
  2:{ apply (d_over_norm (fun y => wn q p y) (fun y => w1 q p y)); [exact Hn|apply nrm_theta|apply pt_theta]. }
  unfold kd2, dgw, dga_at, kd_at. fold (w1 q p t). fold (w2 q p t).
  set (A := dg_inv_n_dash_at _ _ _ _). set (B := dg_inv_n_dash_at _ _ _ (pt _ 1 1 p t)).
  unfold add3, sub3, scale3; cbn [vx vy vz]. f_equal; ring.
Qed.

Definition kkval q x p t := scale3 (/ norm3 (wn q p t))
  (sub3 (scale3 (phi1 q x p t + q_G q) (kd2 q x p t)) (scale3 (phi2 q x p t + q_I q) (kd1 q x p t))).

Lemma KK_made q x : made q -> legal (q_winding q) -> length x = q_ndofs q ->
  K_dot_grad_K q x = Ok (sample (kkval q x) (q_qphi q) (q_qtheta q)).
Proof.
  intros M Lg L. destruct (made_facts q M) as (_ & _ & _ & _ & Ce & _).
  destruct (Kdash_made q x M Lg L) as [H1 H2]. unfold Kdash1, Kdash2 in H1, H2. unfold K_dot_grad_K.
  rewrite (normal_copy (q_winding q) _ _ _ Lg Ce). cbn [bind].
  destruct (Kdash_helper q OnEval) as [kd|]; [|discriminate]. cbn [bind] in *.
  rewrite diff_helper_cols. cbn [sel_quadpoints bind d_n d_phi d_theta d_trig_diff].
  destruct (apply_vrows (kd_n kd) (kd1_op kd) x) as [k1|]; [|discriminate]. cbn [bind] in *.
  destruct (apply_vrows (kd_n kd) (kd2_op kd) x) as [k2|]; [|discriminate]. cbn [bind] in *.
  injection H1 as ->. injection H2 as ->.
  rewrite !gmap_sample, !apply_rows_sample by (now apply cols_len). cbn [bind].
  rewrite !gmap2_sample. f_equal. apply sample_ext. intros p t. unfold kkval, norm_helper. cbn [snd].
  rewrite !row_diag_map. reflexivity.
Qed.

Lemma sel_reports {A} (m : params -> result (grid A)) (F : params -> R -> R -> A) q :
  made q -> legal (q_winding q) ->
  (forall q', made q' -> legal (q_winding q') -> q_ndofs q' = q_ndofs q -> m q' = Ok (sample (F q') (q_qphi q') (q_qtheta q'))) ->
  (forall ps ts q', placed q ps ts q' -> F q' = F q) -> qreports m q (F q).
Proof.
  intros M Lg H HF. apply qreports_of; auto. intros ps ts q' _ _ P.
  rewrite H; [|now apply (placed_made q ps ts)|now apply (placed_legal q ps ts)|now apply (placed_len q ps ts)].
  rewrite (HF ps ts q' P). apply placed_fields in P as (_ & _ & _ & _ & _ & _ & -> & -> & _). reflexivity.
Qed.

Lemma placed_kd q ps ts q' x : placed q ps ts q' -> kd1 q' x = kd1 q x /\ kd2 q' x = kd2 q x /\ kkval q' x = kkval q x.
Proof.
  intros P. pose proof (placed_fun _ _ _ _ x P) as (_ & E1 & E2 & E3 & E4 & E5 & E6 & E7 & E8 & E9 & E10 & _).
  apply placed_fields in P as (_ & W & _).
  unfold kkval, kd1, kd2, dgw. rewrite E1, E2, E3, E4, E5, E6, E7, E8, E9, E10, W. repeat split.
Qed.

Lemma tangent_unique T1 T2 a b a' b' : cross3 T1 T2 <> zero3 ->
  add3 (scale3 a T1) (scale3 b T2) = add3 (scale3 a' T1) (scale3 b' T2) -> a = a' /\ b = b'.
Proof.
  intros H E. destruct (dual T1 T2 H) as (D11 & D12 & D21 & D22 & _).
  assert (S : forall w c d, dot3 w (add3 (scale3 c T1) (scale3 d T2)) = c * dot3 w T1 + d * dot3 w T2)
    by (intros; unfold dot3, add3, scale3; cbn [vx vy vz]; ring).
  pose proof (f_equal (dot3 (grad1_at T1 T2)) E) as F1. pose proof (f_equal (dot3 (grad2_at T1 T2)) E) as F2.
  rewrite !S, D11, D12 in F1. rewrite !S, D21, D22 in F2. lra.
Qed.

Lemma current_derivatives q x : made q -> legal (q_winding q) -> length x = q_ndofs q ->
  exists Kf K1 K2 KK T1 T2 N : R -> R -> vec3,
    qreports (fun q => K q x OnEval) q Kf /\
    qreports (fun q => Kdash1 q x) q K1 /\ qreports (fun q => Kdash2 q x) q K2 /\
    qreports (fun q => K_dot_grad_K q x) q KK /\
    reports gammadash1 (q_winding q) T1 /\ reports gammadash2 (q_winding q) T2 /\
    reports normal (q_winding q) N /\
    forall p t, N p t <> zero3 ->
      derives (fun y => Kf y t) p (K1 p t) /\ derives (fun y => Kf p y) t (K2 p t) /\
      (exists a b, Kf p t = add3 (scale3 a (T1 p t)) (scale3 b (T2 p t))) /\
      (forall a b, Kf p t = add3 (scale3 a (T1 p t)) (scale3 b (T2 p t)) ->
         KK p t = add3 (scale3 a (K1 p t)) (scale3 b (K2 p t))).
Proof.
  intros M Lg L. exists (kval q x), (kd1 q x), (kd2 q x), (kkval q x), (w1 q), (w2 q), (wn q).
  split; [now apply K_reports|].
  split; [apply (sel_reports _ (fun q => kd1 q x)); auto; [intros; apply Kdash_made; auto; congruence|intros; now apply (placed_kd q ps ts)]|].
  split; [apply (sel_reports _ (fun q => kd2 q x)); auto; [intros; apply Kdash_made; auto; congruence|intros; now apply (placed_kd q ps ts)]|].
  split; [apply (sel_reports _ (fun q => kkval q x)); auto; [intros; apply KK_made; auto; congruence|intros; now apply (placed_kd q ps ts)]|].
  split; [now apply reports_gammadash|]. split; [now apply reports_gammadash|].
  split; [apply reports_of; intros; now apply normal_copy|].
  intros p t Hn. split; [now apply kval_d1|]. split; [now apply kval_d2|].
  pose proof (norm_pos _ Hn).
  assert (EK : kval q x p t = add3 (scale3 (- (phi2 q x p t + q_I q) / norm3 (wn q p t)) (w1 q p t))
     (scale3 ((phi1 q x p t + q_G q) / norm3 (wn q p t)) (w2 q p t))).
  { unfold kval, add3, sub3, scale3. cbn [vx vy vz]. f_equal; field; lra. }
  split; [eauto|]. intros a b E. rewrite EK in E. apply tangent_unique in E as [<- <-]; [|exact Hn].
  unfold kkval, add3, sub3, scale3. cbn [vx vy vz]. f_equal; field; lra.
Qed.

(** ** C17 *)
Lemma K_theta_sym q x F : made q -> q_stellsym q = true -> length x = q_ndofs q ->
  qreports (fun q => Phi_with_net_current q x) q F ->
  exists D, qreports (fun q => K_theta q x) q D /\ forall p t, is_derive (fun y => F y t) p (D p t).
Proof.
  intros M St L H. pose proof (qreports_unique _ _ _ _ H (tot_reports q x M L)) as E.
  exists (fun p t => phi1 q x p t + q_G q). split.
  - apply qreports_of; auto. intros ps ts q' _ _ P. unfold K_theta.
    destruct (make_mn_cols (q_stellsym q') (q_mpol q') (q_ntor q')) as [Em Ec]. cbv zeta in Em, Ec. rewrite Em.
    fold (qcols q') in *. rewrite map_length.
    pose proof (placed_fields _ _ _ _ P) as (_ & _ & _ & Gq & _ & _ & _ & _ & St' & _).
    replace (K_theta_choice (q_stellsym q') (length (qcols q'))) with (trig_choice (q_stellsym q') (length (qcols q')))
      by (rewrite St', St; reflexivity).
    rewrite Ec, map_length, Nat.eqb_refl. cbn [negb]. rewrite map2_diag.
    rewrite (diff_placed q ps ts q' P). cbn [bind d_n d_trig_diff].
    change (map (fun x0 : Z * Z * Z => - IZR (snd (fst x0)) * IZR (snd x0) * INR (q_nfp q') * 2 * PI) (qcols q')) with (map (fphi q') (qcols q')).
    destruct (placed_cols _ _ _ _ P) as [-> _]. destruct (placed_trig _ _ _ _ P) as (_ & _ & -> & _).
    rewrite gmap_sample, apply_rows_sample by (now apply cols_len). cbn [bind]. rewrite gmap_sample. f_equal.
    apply sample_ext. intros p t. now rewrite row_diag_map, Gq.
  - intros p t. apply dR_ext with (f := fun y => phi_tot q x y t); [intros; now rewrite E|apply tot_d1].
Qed.
Lemma K_theta_general q x : q_stellsym q = false -> K_theta q x = Raise TypeError.
Proof.
  intros St. unfold K_theta. destruct (make_mn_cols (q_stellsym q) (q_mpol q) (q_ntor q)) as [Em _]. cbv zeta in Em. rewrite Em.
  rewrite map_length, length_pcols. unfold K_theta_choice. rewrite St. rewrite app_length, !repeat_length.
  unfold cp_ndofs. cbn [fst]. set (k := (2 * q_mpol q * q_ntor q + q_mpol q + q_ntor q)%nat).
  replace ((2 * k + 1) / 2)%nat with k by (apply Nat.div_unique with (r := 1%nat); lia).
  destruct (Nat.eqb (k + k) (2 * k + 1)) eqn:B; [apply Nat.eqb_eq in B; lia|reflexivity].
Qed.
