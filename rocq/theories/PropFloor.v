(** Property C139: bounds on the current density that hold for every design. *)
From Coq Require Import String List Bool Arith ZArith Reals Lra Lia Psatz.
From Verif Require Import Base ModelArray ModelMath SpecMath ModelSurface SpecSurface ProofSurface ProofSurface2 ProofSurface3
  ModelParams ModelField SpecField ProofField ProofField2 ProofField3 WitnessField ProofSimsopt ProofTrig
  ModelQuantity SpecQuantity ModelWrapper SpecWrapper ModelShipped ModelPackage SpecPackage ProofPackage ProofPackage4 SpecConvex ProofConvex
  SpecBest ProofPeriods ProofUnique ProofUnique2 WitnessField PropQuad PropAxi SpecFloor ProofFloor.
Import ListNotations.
Open Scope R_scope.
Open Scope string_scope.
Open Scope list_scope.

Lemma eval_regular q x p t : sound q x -> regular (q_eval q) -> In p (q_qphi q) -> In t (q_qtheta q) -> wn q p t <> zero3.
Proof.
  intros (M & Lw & _) Rg Ip It. destruct (made_facts q M) as (_ & _ & _ & _ & C & _). apply (Rg _ _ (normal_copy _ _ _ _ Lw C)). rewrite concat_sample. apply in_map_iff. exists (p, t). split; [reflexivity|].
  now apply pairs_in.
Qed.
Lemma grid_bound other q x v b : sound q x -> reads other "K2" q x v -> (forall y, In y (el v) -> y <= b) ->
  forall p t, In p (q_qphi q) -> In t (q_qtheta q) -> norm3 (kval q x p t) <= sqrt b.
Proof.
  intros S Rd H p t Ip It. pose proof (reads_fun _ _ _ _ _ _ Rd (reads_K2 other q x S)) as ->. unfold norm3. apply sqrt_le_1_alt. apply H.
  unfold of_grid. cbn [el]. rewrite concat_sample. apply in_map_iff. exists (p, t). split; [reflexivity|]. now apply pairs_in.
Qed.
Lemma floor_square {A} (k r : A -> R) g b l : l <> [] -> (forall a, In a l -> k a <= sqrt b) -> (forall a, 0 <= r a) -> INR (length l) * Rabs g <= Rsum (map (fun a => k a * r a) l) -> 0 <= b ->
  Rsqr g <= b * Rsqr (mean r l).
Proof.
  intros Ne Hk Hr H Pb. assert (Pl : 0 < INR (length l)) by (apply lt_0_INR; destruct l; [contradiction|cbn; lia]).
  assert (H1 : INR (length l) * Rabs g <= sqrt b * Rsum (map r l)).
  { eapply Rle_trans; [exact H|]. rewrite <- Rsum_map_scal. apply Rsum_le. intros a I. apply Rmult_le_compat_r; auto. }
  assert (H2 : Rabs g <= sqrt b * mean r l).
  { unfold mean. apply (Rmult_le_reg_l (INR (length l))); [exact Pl|]. replace (INR (length l) * (sqrt b * (Rsum (map r l) / INR (length l)))) with (sqrt b * Rsum (map r l)) by (field; lra). exact H1. }
  rewrite (Rsqr_abs g). replace b with (Rsqr (sqrt b)) by (now apply Rsqr_sqrt). rewrite <- Rsqr_mult. apply Rsqr_incr_1; [exact H2|apply Rabs_pos|]. pose proof (Rabs_pos g). lra.
Qed.
Lemma pair_nonneg b (l : list R) : l <> [] -> (forall y, In y l -> 0 <= y <= b) -> 0 <= b.
Proof. destruct l as [|a l]; [contradiction|]. intros _ H. pose proof (H a (or_introl eq_refl)). lra. Qed.

Section Floors.
  Variables (other : list string) (q : params) (x : list R) (v : arr) (b : R).
  Hypothesis S : sound q x.
  Hypothesis Rg : regular (q_eval q).
  Hypothesis Rd : reads other "K2" q x v.
  Hypothesis H : forall y, In y (el v) -> y <= b.
  Lemma bound_nonneg : 0 <= b.
  Proof using S Rd H.
    pose proof S as (M & _). destruct (made_points q M) as (Np & Nt & _).
    pose proof (reads_fun _ _ _ _ _ _ Rd (reads_K2 other q x S)) as E. rewrite E in H. unfold of_grid in H. cbn [el] in H. rewrite concat_sample in H.
    destruct (q_qphi q) as [|p ps]; [contradiction|]. destruct (q_qtheta q) as [|t ts]; [contradiction|].
    assert (Q : dot3 (kval q x p t) (kval q x p t) <= b) by (apply H; apply in_map_iff; exists (p, t); split; [reflexivity|]; apply pairs_in; split; now left).
    unfold dot3 in Q. nra.
  Qed.
  Lemma floor1 x0 N t : q_qphi q = equispaced x0 (/ (INR (q_nfp q) * INR N)) N -> (q_ntor q < N)%nat -> In t (q_qtheta q) ->
    Rsqr (q_G q) <= b * Rsqr (mean (fun p => norm3 (pt (q_winding q) 1 0 p t)) (q_qphi q)).
  Proof using S Rg Rd H.
    intros E Hn It. pose proof S as (M & _ & _ & _ & L). destruct (made_points q M) as (Np & Nt & _).
    apply (floor_square (fun p => norm3 (kval q x p t))); [exact Np| |intros; apply norm3_nonneg| |exact bound_nonneg].
    - intros p Ip. now apply (grid_bound other q x v b).
    - pose proof (crossing1 q x M L x0 N t Hn) as C. rewrite <- E in C. rewrite E at 1. unfold equispaced. rewrite map_length, seq_length. apply C. intros p Ip. now apply (eval_regular q x).
  Qed.
  Lemma floor2 t0 N p : q_qtheta q = equispaced t0 (/ INR N) N -> (q_mpol q < N)%nat -> In p (q_qphi q) ->
    Rsqr (q_I q) <= b * Rsqr (mean (fun t => norm3 (pt (q_winding q) 0 1 p t)) (q_qtheta q)).
  Proof using S Rg Rd H.
    intros E Hn It. pose proof S as (M & _ & _ & _ & L). destruct (made_points q M) as (Np & Nt & _).
    apply (floor_square (fun t => norm3 (kval q x p t))); [exact Nt| |intros; apply norm3_nonneg| |exact bound_nonneg].
    - intros t Ip. now apply (grid_bound other q x v b).
    - pose proof (crossing2 q x M L t0 N p Hn) as C. rewrite <- E in C. rewrite E at 1. unfold equispaced. rewrite map_length, seq_length. apply C. intros t Ip. now apply (eval_regular q x).
  Qed.
End Floors.

(** Sums over the whole grid. *)
Lemma sum_pairs (F : R -> R -> R) ps ts : Rsum (map (fun a => F (fst a) (snd a)) (pairs ps ts)) = Rsum (map (fun p => Rsum (map (F p) ts)) ps).
Proof.
  unfold pairs. induction ps as [|p ps IH]; [reflexivity|]. cbn [flat_map map]. rewrite map_app, Rsum_app, Rsum_cons, IH, map_map. reflexivity.
Qed.
Lemma mean_pairs (F : R -> R -> R) ps ts : mean (fun p => mean (F p) ts) ps = Rsum (map (fun p => Rsum (map (F p) ts)) ps) / (INR (length ps) * INR (length ts)).
Proof.
  unfold mean. unfold Rdiv. rewrite (Rsum_map_ext _ (fun p => / INR (length ts) * Rsum (map (F p) ts))) by (intros; ring). rewrite Rsum_map_scal, Rinv_mult. ring.
Qed.
Lemma length_equi x0 h n : length (equispaced x0 h n) = n.
Proof. unfold equispaced. now rewrite map_length, seq_length. Qed.

Section Power.
  Variables (other : list string) (q : params) (x : list R) (x0 t0 : R) (N M : nat).
  Hypothesis S : sound q x.
  Hypothesis Rg : regular (q_eval q).
  Hypothesis E1 : q_qphi q = equispaced x0 (/ (INR (q_nfp q) * INR N)) N.
  Hypothesis E2 : q_qtheta q = equispaced t0 (/ INR M) M.
  Hypothesis N2 : (2 <= N)%nat.
  Hypothesis M2 : (2 <= M)%nat.
  Let n p t := norm3 (nrm (q_winding q) p t).
  Lemma power_mean r : reads other "f_K" q x (scal r) -> 2 * r = mean (fun p => mean (fun t => dot3 (kval q x p t) (kval q x p t) * n p t) (q_qtheta q)) (q_qphi q).
  Proof using S E1 E2 N2 M2.
    intros Rr. pose proof S as (Md & Lw & _). destruct (made_facts q Md) as (Nf & _ & _ & _ & C & _).
    destruct (integral_value other q x S "f_K" "K2" (q_eval q) (fun y => y / 2) ltac:(cbn; tauto)) as (r' & v & d & Rr' & Rv & D & Q).
    pose proof (reads_fun _ _ _ _ _ _ Rr Rr') as X. injection X as <-. pose proof (reads_fun _ _ _ _ _ _ Rv (reads_K2 other q x S)) as ->.
    rewrite (da_copy _ _ _ _ Lw C) in D. injection D as <-. unfold of_grid in Q. cbn [el] in Q. rewrite sum_grid in Q.
    assert (D1 : s_dphi (q_eval q) = / (INR (q_nfp q) * INR N)) by (rewrite E1 in C; exact (equi_dphi _ _ _ _ _ _ N2 C)).
    assert (D2 : s_dtheta (q_eval q) = / INR M) by (rewrite E2 in C; exact (equi_dtheta _ _ _ _ _ _ M2 C)).
    assert (Pf : 0 < INR (q_nfp q)) by (apply lt_0_INR; unfold q_nfp; lia). assert (PN : 0 < INR N) by (apply lt_0_INR; lia). assert (PM : 0 < INR M) by (apply lt_0_INR; lia).
    rewrite mean_pairs, E1, E2, !length_equi, <- E1, <- E2. rewrite Q, D1, D2.
    rewrite (Rsum_map_ext _ (fun p => / (2 * INR (q_nfp q) * INR N * INR M) * Rsum (map (fun t => dot3 (kval q x p t) (kval q x p t) * n p t) (q_qtheta q)))).
    - rewrite Rsum_map_scal. field. lra.
    - intros p _. rewrite <- Rsum_map_scal. apply Rsum_map_ext. intros t _. unfold n. field. lra.
  Qed.
  Lemma normal_pos p t : In p (q_qphi q) -> In t (q_qtheta q) -> 0 < n p t.
  Proof using S Rg. intros Ip It. apply norm_pos. now apply (eval_regular q x). Qed.
  Lemma power_cauchy g (l : R -> R -> R) r : (forall p t, 0 <= l p t) -> reads other "f_K" q x (scal r) ->
    INR N * INR M * Rabs g <= Rsum (map (fun p => Rsum (map (fun t => norm3 (kval q x p t) * l p t) (q_qtheta q))) (q_qphi q)) ->
    Rsqr g <= 2 * r * mean (fun p => mean (fun t => l p t * l p t / n p t) (q_qtheta q)) (q_qphi q).
  Proof using S Rg E1 E2 N2 M2.
    intros Pl Rr H. assert (PN : 0 < INR N) by (apply lt_0_INR; lia). assert (PM : 0 < INR M) by (apply lt_0_INR; lia).
    rewrite (power_mean r Rr), !mean_pairs. replace (INR (length (q_qphi q)) * INR (length (q_qtheta q))) with (INR N * INR M) by (now rewrite E1, E2, !length_equi).
    set (f a := norm3 (kval q x (fst a) (snd a)) * sqrt (n (fst a) (snd a))). set (h a := l (fst a) (snd a) / sqrt (n (fst a) (snd a))).
    pose proof (cauchy_sum f h (pairs (q_qphi q) (q_qtheta q))) as K.
    assert (Pq : forall a, In a (pairs (q_qphi q) (q_qtheta q)) -> 0 < n (fst a) (snd a)) by (intros [p t] I; apply pairs_in in I; cbn [fst snd]; now apply normal_pos).
    rewrite (Rsum_map_ext (fun a => f a * h a) (fun a => norm3 (kval q x (fst a) (snd a)) * l (fst a) (snd a))) in K.
    2: { intros a I. unfold f, h. field. apply Rgt_not_eq, sqrt_lt_R0. now apply Pq. }
    rewrite (Rsum_map_ext (fun a => f a * f a) (fun a => dot3 (kval q x (fst a) (snd a)) (kval q x (fst a) (snd a)) * n (fst a) (snd a))) in K.
    2: { intros a I. unfold f. pose proof (sqrt_sqrt _ (Rlt_le _ _ (Pq a I))) as Q. rewrite dot3_norm. rewrite <- Q at 3. ring. }
    rewrite (Rsum_map_ext (fun a => h a * h a) (fun a => l (fst a) (snd a) * l (fst a) (snd a) / n (fst a) (snd a))) in K.
    2: { intros a I. unfold h. pose proof (Pq a I) as P. pose proof (sqrt_sqrt _ (Rlt_le _ _ P)) as Q. rewrite <- Q at 3. field. apply Rgt_not_eq, sqrt_lt_R0. exact P. }
    rewrite (sum_pairs (fun p t => norm3 (kval q x p t) * l p t)), (sum_pairs (fun p t => dot3 (kval q x p t) (kval q x p t) * n p t)), (sum_pairs (fun p t => l p t * l p t / n p t)) in K.
    set (A := Rsum _) in H. fold A in K. set (B := Rsum (map (fun p => Rsum (map (fun t => dot3 _ _ * _) _)) _)) in *. set (C := Rsum (map (fun p => Rsum (map (fun t => l p t * _ / _) _)) _)) in *.
    assert (PP : 0 < INR N * INR M) by nra. set (k := INR N * INR M) in *. pose proof (Rabs_pos g) as Pg. rewrite (Rsqr_abs g). unfold Rsqr. set (a := Rabs g) in *.
    assert (k * a * (k * a) <= A * A) by (apply Rmult_le_compat; nra).
    replace (B / k * (C / k)) with (B * C * / (k * k)) by (field; lra). apply (Rmult_le_reg_l (k * k)); [nra|]. replace (k * k * (B * C * / (k * k))) with (B * C) by (field; lra). nra.
  Qed.
End Power.

(** ** C139 *)
Theorem C139_peak_current_floor :
  forall other q x m r1 r2 x0 t0 N M, sound q x -> regular (q_eval q) -> reads other "f_max_K2" q x (scal m) ->
  reports gammadash1 (q_winding q) r1 -> reports gammadash2 (q_winding q) r2 ->
  q_qphi q = equispaced x0 (/ (INR (q_nfp q) * INR N)) N -> (q_ntor q < N)%nat -> q_qtheta q = equispaced t0 (/ INR M) M -> (q_mpol q < M)%nat ->
  (forall t, In t (q_qtheta q) -> Rsqr (q_G q) <= m * Rsqr (mean (fun p => norm3 (r1 p t)) (q_qphi q))) /\
  (forall p, In p (q_qphi q) -> Rsqr (q_I q) <= m * Rsqr (mean (fun t => norm3 (r2 p t)) (q_qtheta q))).
Proof.
  intros other q x m r1 r2 x0 t0 N M S Rg Rm H1 H2 E1 Hn E2 Hm. pose proof S as (Md & Lw & _).
  destruct (largest_value other q x S "f_max_K2" "K2" (fun y => y) ltac:(cbn; tauto)) as (m' & v & Rm' & Rv & (_ & B)). pose proof (reads_fun _ _ _ _ _ _ Rm Rm') as Q. injection Q as <-.
  rewrite map_id in B. pose proof (reports_unique _ _ _ _ H1 (reports_gammadash (q_winding q) 1 0 Lw)) as U1. pose proof (reports_unique _ _ _ _ H2 (reports_gammadash (q_winding q) 0 1 Lw)) as U2.
  split; [intros t It|intros p Ip].
  - unfold mean. rewrite (Rsum_map_ext _ (fun p => norm3 (pt (q_winding q) 1 0 p t))) by (intros; now rewrite U1). exact (floor1 other q x v m S Rg Rv B x0 N t E1 Hn It).
  - unfold mean. rewrite (Rsum_map_ext _ (fun t => norm3 (pt (q_winding q) 0 1 p t))) by (intros; now rewrite U2). exact (floor2 other q x v m S Rg Rv B t0 M p E2 Hm Ip).
Qed.
Print Assumptions C139_peak_current_floor.

(** A bound on the current density below the floor admits no design. *)
Theorem C139_bound_below_floor_is_infeasible :
  forall other q x cs b r1 r2 x0 t0 N M, sound q x -> regular (q_eval q) -> In ("K2", LE, b) cs \/ In ("f_max_K2", LE, b) cs ->
  reports gammadash1 (q_winding q) r1 -> reports gammadash2 (q_winding q) r2 ->
  q_qphi q = equispaced x0 (/ (INR (q_nfp q) * INR N)) N -> (q_ntor q < N)%nat -> q_qtheta q = equispaced t0 (/ INR M) M -> (q_mpol q < M)%nat ->
  (exists t, In t (q_qtheta q) /\ b * Rsqr (mean (fun p => norm3 (r1 p t)) (q_qphi q)) < Rsqr (q_G q)) \/
  (exists p, In p (q_qphi q) /\ b * Rsqr (mean (fun t => norm3 (r2 p t)) (q_qtheta q)) < Rsqr (q_I q)) ->
  ~ feasible other q cs x.
Proof.
  intros other q x cs b r1 r2 x0 t0 N M S Rg I H1 H2 E1 Hn E2 Hm Lo F.
  destruct (largest_value other q x S "f_max_K2" "K2" (fun y => y) ltac:(cbn; tauto)) as (m & v & Rm & Rv & (A & B)).
  assert (Le : m <= b).
  { destruct I as [I|I]; destruct (F _ _ _ I) as (u & Ru & Mu).
    - pose proof (reads_fun _ _ _ _ _ _ Ru Rv) as ->. rewrite map_id in A. exact (Mu m A).
    - pose proof (reads_fun _ _ _ _ _ _ Ru Rm) as ->. apply Mu. now left. }
  destruct (C139_peak_current_floor other q x m r1 r2 x0 t0 N M S Rg Rm H1 H2 E1 Hn E2 Hm) as (F1 & F2).
  destruct Lo as [(t & It & Lo)|(p & Ip & Lo)]; [pose proof (F1 t It) as Q|pose proof (F2 p Ip) as Q];
    [set (y := Rsqr (mean _ _)) in *; assert (0 <= y) by apply Rle_0_sqr; nra|set (y := Rsqr (mean _ _)) in *; assert (0 <= y) by apply Rle_0_sqr; nra].
Qed.
Print Assumptions C139_bound_below_floor_is_infeasible.

(** The same floor for the mean square of the current density. *)
Theorem C139_power_floor :
  forall other q x r r1 r2 nf x0 t0 N M, sound q x -> regular (q_eval q) -> reads other "f_K" q x (scal r) ->
  reports gammadash1 (q_winding q) r1 -> reports gammadash2 (q_winding q) r2 -> reports normal (q_winding q) nf ->
  q_qphi q = equispaced x0 (/ (INR (q_nfp q) * INR N)) N -> (q_ntor q < N)%nat -> q_qtheta q = equispaced t0 (/ INR M) M -> (q_mpol q < M)%nat ->
  (2 <= N)%nat -> (2 <= M)%nat ->
  Rsqr (q_G q) <= 2 * r * mean (fun p => mean (fun t => Rsqr (norm3 (r1 p t)) / norm3 (nf p t)) (q_qtheta q)) (q_qphi q) /\
  Rsqr (q_I q) <= 2 * r * mean (fun p => mean (fun t => Rsqr (norm3 (r2 p t)) / norm3 (nf p t)) (q_qtheta q)) (q_qphi q).
Proof.
  intros other q x r r1 r2 nf x0 t0 N M S Rg Rr H1 H2 H3 E1 Hn E2 Hm N2 M2. pose proof S as (Md & Lw & _ & _ & L).
  pose proof (reports_unique _ _ _ _ H1 (reports_gammadash (q_winding q) 1 0 Lw)) as U1. pose proof (reports_unique _ _ _ _ H2 (reports_gammadash (q_winding q) 0 1 Lw)) as U2.
  assert (U3 : forall p t, nf p t = nrm (q_winding q) p t) by (apply (reports_unique normal _ nf _ H3); apply reports_of; intros; now apply normal_copy).
  assert (Ex : forall F G : R -> R -> R, (forall p t, F p t = G p t) -> mean (fun p => mean (F p) (q_qtheta q)) (q_qphi q) = mean (fun p => mean (G p) (q_qtheta q)) (q_qphi q)).
  { intros F G E. unfold mean. f_equal. apply Rsum_map_ext. intros p _. f_equal. apply Rsum_map_ext. intros t _. apply E. }
  split.
  - rewrite (Ex _ (fun p t => norm3 (pt (q_winding q) 1 0 p t) * norm3 (pt (q_winding q) 1 0 p t) / norm3 (nrm (q_winding q) p t))) by (intros; now rewrite U1, U3).
    apply (power_cauchy other q x x0 t0 N M S Rg E1 E2 N2 M2 _ (fun p t => norm3 (pt (q_winding q) 1 0 p t))); [intros; apply norm3_nonneg|exact Rr|].
    rewrite Rsum_swap. replace (INR N * INR M * Rabs (q_G q)) with (Rsum (map (fun _ => INR N * Rabs (q_G q)) (q_qtheta q))) by (rewrite Rsum_const, E2, length_equi; ring).
    apply Rsum_le. intros t It. rewrite E1. apply (crossing1 q x Md L); [exact Hn|]. intros p Ip. rewrite <- E1 in Ip. now apply (eval_regular q x).
  - rewrite (Ex _ (fun p t => norm3 (pt (q_winding q) 0 1 p t) * norm3 (pt (q_winding q) 0 1 p t) / norm3 (nrm (q_winding q) p t))) by (intros; now rewrite U2, U3).
    apply (power_cauchy other q x x0 t0 N M S Rg E1 E2 N2 M2 _ (fun p t => norm3 (pt (q_winding q) 0 1 p t))); [intros; apply norm3_nonneg|exact Rr|].
    replace (INR N * INR M * Rabs (q_I q)) with (Rsum (map (fun _ => INR M * Rabs (q_I q)) (q_qphi q))) by (rewrite Rsum_const, E1, length_equi; ring).
    apply Rsum_le. intros p Ip. rewrite E2. apply (crossing2 q x Md L); [exact Hm|]. intros t It. rewrite <- E2 in It. now apply (eval_regular q x).
Qed.
Print Assumptions C139_power_floor.

(** A tokamak with net currents in both directions: some positive bound on the current density is below the floor. *)
Example C139_example : let q := tokamak in let x := [1; 2; 3; 4] in
  sound q x /\ regular (q_eval q) /\ q_qphi q = equispaced 0 (/ (INR (q_nfp q) * INR 4)) 4 /\ (q_ntor q < 4)%nat /\ q_qtheta q = equispaced 0 (/ INR 3) 3 /\ (q_mpol q < 3)%nat /\
  q_G q = 2 /\ q_I q = 1 /\ (exists m, reads [] "f_max_K2" q x (scal m)) /\ (exists r, reads [] "f_K" q x (scal r)) /\
  exists r1 r2 nf, reports gammadash1 (q_winding q) r1 /\ reports gammadash2 (q_winding q) r2 /\ reports normal (q_winding q) nf /\
    exists b, 0 < b /\ b * Rsqr (mean (fun p => norm3 (r1 p 0)) (q_qphi q)) < Rsqr (q_G q).
Proof.
  cbv zeta. assert (S : sound tokamak [1; 2; 3; 4]) by now apply tokamak_sound. pose proof S as (M & Lw & _).
  assert (Rg : regular (q_eval tokamak)) by (apply (ring_regular 3 1 0 0 0 0 [0; 1/8; 1/4; 3/8] [0; 1/3; 2/3]); [lra|reflexivity]).
  split; [exact S|]. split; [exact Rg|]. split; [unfold equispaced, q_nfp; cbn; repeat (f_equal; try field)|]. split; [cbn; lia|].
  split; [unfold equispaced; cbn; repeat (f_equal; try field)|]. split; [cbn; lia|]. split; [reflexivity|]. split; [reflexivity|].
  split; [destruct (largest_value [] tokamak _ S "f_max_K2" "K2" (fun y => y) ltac:(cbn; tauto)) as (m & v & Rm & _); now exists m|].
  split; [destruct (reads_f_K [] tokamak _ S) as (r & _ & Rr); now exists r|].
  exists (pt (q_winding tokamak) 1 0), (pt (q_winding tokamak) 0 1), (nrm (q_winding tokamak)).
  split; [exact (reports_gammadash _ 1 0 Lw)|]. split; [exact (reports_gammadash _ 0 1 Lw)|]. split; [apply reports_of; intros; now apply normal_copy|].
  set (y := Rsqr (mean _ _)). assert (P : 0 <= y) by apply Rle_0_sqr. exists (/ (y + 1)). split; [apply Rinv_0_lt_compat; lra|].
  change (q_G tokamak) with 2. replace (/ (y + 1) * y) with (1 - / (y + 1)) by (field; lra). assert (0 < / (y + 1)) by (apply Rinv_0_lt_compat; lra). unfold Rsqr. lra.
Qed.
