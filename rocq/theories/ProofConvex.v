(** Convexity of the quantities of the package. *)
From Coq Require Import String List Bool Arith ZArith Reals Lra Lia.
From Verif Require Import Base ModelArray ProofArray ModelMath SpecMath ProofMath ModelSurface SpecSurface ProofSurface ProofSurface2 ProofSurface3
  SpecWinding ProofWinding4 ModelParams ModelField SpecField ProofField ProofField2 ProofField3 ModelForce
  ModelQuantity SpecQuantity ModelWrapper SpecWrapper ModelShipped ModelPackage SpecPackage ProofRescale ProofPackage ProofPackage2 ProofPackage4 SpecConvex.
Import ListNotations.
Open Scope R_scope.
Open Scope string_scope.
Open Scope list_scope.

Lemma reads_fun other name q x v w : reads other name q x v -> reads other name q x w -> v = w.
Proof. intros (Q & G & V) (Q' & G' & V'). rewrite G in G'. injection G' as <-. rewrite V in V'. now injection V'. Qed.

(** ** Lists *)
Lemma below_map {A} (cmb : A -> A -> A) (h : A -> R) t a b : (forall u v, h (cmb u v) <= t * h u + (1 - t) * h v) ->
  Forall2 Rle (map h (map2 cmb a b)) (lincomb t (1 - t) (map h a) (map h b)).
Proof. intros Hh. revert b; induction a as [|u a IH]; intros [|v b]; try constructor; [apply Hh|apply IH]. Qed.
Lemma below_max t u v w mu mv mw : 0 <= t <= 1 -> length u = length w -> length v = length w -> Forall2 Rle w (lincomb t (1 - t) u v) ->
  is_max mu u -> is_max mv v -> is_max mw w -> mw <= t * mu + (1 - t) * mv.
Proof.
  intros Ht Lu Lv F (_ & Bu) (_ & Bv) (Iw & _). revert u v Lu Lv F Bu Bv. induction w as [|z w IH]; intros [|x u] [|y v] Lu Lv F Bu Bv; try discriminate; [contradiction|].
  unfold lincomb in F. cbn [map2] in F. inversion F; subst. destruct Iw as [<-|Iw].
  - assert (x <= mu) by (apply Bu; now left). assert (y <= mv) by (apply Bv; now left).
    assert (t * x <= t * mu) by (apply Rmult_le_compat_l; lra). assert ((1 - t) * y <= (1 - t) * mv) by (apply Rmult_le_compat_l; lra). lra.
  - apply (IH Iw u v); auto; intros; [apply Bu|apply Bv]; now right.
Qed.
Lemma below_sum t d u v w : (forall k, In k d -> 0 <= k) -> length u = length w -> length v = length w -> Forall2 Rle w (lincomb t (1 - t) u v) ->
  Rsum (map2 Rmult d w) <= t * Rsum (map2 Rmult d u) + (1 - t) * Rsum (map2 Rmult d v).
Proof.
  intros Hd. revert u v w. induction d as [|k d IH]; intros [|x u] [|y v] [|z w] Lu Lv F; try discriminate; unfold Rsum in *; cbn [map2 fold_right]; try lra.
  unfold lincomb in F. cbn [map2] in F. inversion F; subst. specialize (IH ltac:(intros; apply Hd; now right) u v w ltac:(auto) ltac:(auto) H4).
  assert (k * z <= k * (t * x + (1 - t) * y)) by (apply Rmult_le_compat_l; [apply Hd; now left|assumption]). lra.
Qed.
Lemma below_eq u : forall w, w = u -> Forall2 Rle w u.
Proof. induction u; intros w ->; constructor; [lra|auto]. Qed.
Lemma Forall2_eq_of {A} (u w : list A) : u = w -> Forall2 eq u w.
Proof. intros ->. induction w; constructor; auto. Qed.
Lemma eq_of_Forall2 {A} (u w : list A) : Forall2 eq u w -> u = w.
Proof. induction 1; congruence. Qed.
Lemma affine_convex other name q : affine_quantity other name q -> convex_quantity other name q.
Proof.
  intros H x y t Lx Ly Ht. destruct (H x y t Lx Ly Ht) as (vx & vy & vz & Rx & Ry & Rz & S1 & S2 & L1 & L2 & F). exists vx, vy, vz.
  repeat (split; [assumption|]). apply below_eq. now apply eq_of_Forall2.
Qed.

(** ** Scalar inequalities *)
Lemma abs_convex t x y : 0 <= t <= 1 -> Rabs (t * x + (1 - t) * y) <= t * Rabs x + (1 - t) * Rabs y.
Proof.
  intros Ht. eapply Rle_trans; [apply Rabs_triang|]. rewrite !Rabs_mult, (Rabs_right t), (Rabs_right (1 - t)) by lra. lra.
Qed.
Lemma fourth_convex t x y : 0 <= t <= 1 -> (t * x + (1 - t) * y) ^ 4 <= t * x ^ 4 + (1 - t) * y ^ 4.
Proof.
  intros Ht. pose proof (sq_convex t x y Ht) as H1. pose proof (sq_convex t (x * x) (y * y) Ht) as H2.
  set (z := t * x + (1 - t) * y) in *. assert (0 <= z * z) by nra.
  assert ((z * z) * (z * z) <= (t * (x * x) + (1 - t) * (y * y)) * (t * (x * x) + (1 - t) * (y * y))) by (apply Rmult_le_compat; assumption).
  replace (z ^ 4) with ((z * z) * (z * z)) by ring. replace (x ^ 4) with (x * x * (x * x)) by ring. replace (y ^ 4) with (y * y * (y * y)) by ring. lra.
Qed.
Definition cmb3 (t : R) (u v : vec3) : vec3 := add3 (scale3 t u) (scale3 (1 - t) v).
Lemma norm_convex t u v : 0 <= t <= 1 -> sqrt (dot3 (cmb3 t u v) (cmb3 t u v)) <= t * sqrt (dot3 u u) + (1 - t) * sqrt (dot3 v v).
Proof.
  intros Ht. assert (Hq : forall k, 0 <= k * k) by (intros; apply Rle_0_sqr).
  assert (Hd : forall w, 0 <= dot3 w w) by (intros w; unfold dot3; pose proof (Hq (vx w)); pose proof (Hq (vy w)); pose proof (Hq (vz w)); lra).
  assert (CS : dot3 u v <= sqrt (dot3 u u) * sqrt (dot3 v v)).
  { rewrite <- sqrt_mult by apply Hd. apply Rle_trans with (Rabs (dot3 u v)); [apply Rle_abs|]. rewrite <- sqrt_Rsqr_abs. apply sqrt_le_1_alt.
    destruct u as [a b c], v as [a' b' c']. unfold Rsqr, dot3. cbn [vx vy vz].
    pose proof (Hq (a * b' - b * a')). pose proof (Hq (a * c' - c * a')). pose proof (Hq (b * c' - c * b')). lra. }
  pose proof (sqrt_pos (dot3 u u)). pose proof (sqrt_pos (dot3 v v)). pose proof (sqrt_sqrt _ (Hd u)). pose proof (sqrt_sqrt _ (Hd v)).
  set (n := sqrt (dot3 u u)) in *. set (m := sqrt (dot3 v v)) in *.
  assert (N : 0 <= t * n + (1 - t) * m) by (assert (0 <= t * n) by (apply Rmult_le_pos; lra); assert (0 <= (1 - t) * m) by (apply Rmult_le_pos; lra); lra).
  rewrite <- (sqrt_Rsqr _ N). apply sqrt_le_1_alt. unfold Rsqr.
  replace (dot3 (cmb3 t u v) (cmb3 t u v)) with (t * t * dot3 u u + 2 * (t * (1 - t)) * dot3 u v + (1 - t) * (1 - t) * dot3 v v)
    by (unfold cmb3, dot3, add3, scale3; cbn [vx vy vz]; ring).
  assert (t * (1 - t) * dot3 u v <= t * (1 - t) * (n * m)) by (apply Rmult_le_compat_l; [apply Rmult_le_pos; lra|assumption]).
  rewrite <- H1, <- H2. lra.
Qed.

(** ** Fields *)
Lemma map2_map_both {A B C D} (f : A -> B -> C) (g : D -> A) (h : D -> B) l : map2 f (map g l) (map h l) = map (fun u => f (g u) (h u)) l.
Proof. induction l as [|u l IH]; cbn; congruence. Qed.
Lemma sample_lin {A} (cmb : A -> A -> A) F G H ps' ts' : (forall p u, H p u = cmb (F p u) (G p u)) ->
  concat (sample H ps' ts') = map2 cmb (concat (sample F ps' ts')) (concat (sample G ps' ts')).
Proof. intros E. rewrite !concat_sample, map2_map_both. apply map_ext. intros. apply E. Qed.
Lemma flat3_lin t a b : length a = length b ->
  flat_map (fun v => [vx v; vy v; vz v]) (map2 (cmb3 t) a b)
  = lincomb t (1 - t) (flat_map (fun v => [vx v; vy v; vz v]) a) (flat_map (fun v => [vx v; vy v; vz v]) b).
Proof.
  revert b; induction a as [|u a IH]; intros [|v b] E; try discriminate; [reflexivity|]. cbn [map2 flat_map app]. rewrite IH by (now injection E). reflexivity.
Qed.
Lemma len_sample {A} (F : R -> R -> A) ps' ts' : length (concat (sample F ps' ts')) = length (pairs ps' ts').
Proof. now rewrite concat_sample, map_length. Qed.
Lemma len_flat3 (l : list vec3) : length (flat_map (fun v => [vx v; vy v; vz v]) l) = (3 * length l)%nat.
Proof. induction l; cbn [flat_map app length]; [reflexivity|]. cbn [app length]. rewrite IHl. lia. Qed.
Lemma sh_sample (F G : R -> R -> R) ps' ts' : sh (of_grid (sample F ps' ts')) = sh (of_grid (sample G ps' ts')).
Proof. unfold of_grid, sample. cbn [sh]. rewrite !map_length. destruct ps'; [reflexivity|]. cbn [map hd]. now rewrite !map_length. Qed.
Lemma sh_sample3 (F G : R -> R -> vec3) ps' ts' : sh (of_grid3 (sample F ps' ts')) = sh (of_grid3 (sample G ps' ts')).
Proof. unfold of_grid3, sample. cbn [sh]. rewrite !map_length. destruct ps'; [reflexivity|]. cbn [map hd]. now rewrite !map_length. Qed.
Lemma sh_rect n m g g' : rect n m g -> rect n m g' -> sh (of_grid g) = sh (of_grid g').
Proof.
  intros [A B] [A' B']. unfold of_grid. cbn [sh]. rewrite A, A'. destruct g as [|r g], g' as [|r' g']; cbn in A, A'; try congruence.
  inversion B; inversion B'; subst. cbn [hd]. congruence.
Qed.
Lemma sh_gmap (f : R -> R) g : sh (of_grid (gmap f g)) = sh (of_grid g).
Proof. unfold of_grid, gmap. cbn [sh]. rewrite map_length. destruct g; [reflexivity|]. cbn [map hd]. now rewrite map_length. Qed.
Section Fields.
  Variables (other : list string) (q : params) (x y : list R) (t : R).
  Hypothesis S : forall z, length z = q_ndofs q -> sound q z.
  Hypothesis Lx : length x = q_ndofs q.
  Hypothesis Ly : length y = q_ndofs q.
  Let z := lincomb t (1 - t) x y.
  Let Lz : length z = q_ndofs q. Proof. unfold z. rewrite length_lincomb; congruence. Qed.
  Let Sx := S x Lx.
  Let M : made q. Proof. apply Sx. Qed.
  Let Lw : legal (q_winding q). Proof. apply Sx. Qed.
  Let Lp : legal (q_plasma q). Proof. apply Sx. Qed.
  Let Psh : plasma_shaped q. Proof. apply Sx. Qed.
  Let ps := q_qphi q.
  Let ts := q_qtheta q.


  Lemma K_lin : concat (sample (kval q z) ps ts) = map2 (cmb3 t) (concat (sample (kval q x) ps ts)) (concat (sample (kval q y) ps ts)).
  Proof using Lx Ly.
    apply sample_lin. intros. unfold z. apply kval_superposed; [apply superposed_self|congruence].
  Qed.
  Lemma Phi_lin : concat (sample (phi_of q z) ps ts) = lincomb t (1 - t) (concat (sample (phi_of q x) ps ts)) (concat (sample (phi_of q y) ps ts)).
  Proof using Lx Ly.
    apply (sample_lin (fun u v => t * u + (1 - t) * v)). intros. unfold z, phi_of. apply ldot_lincomb. congruence.
  Qed.

  Lemma Bnormal_lin : exists gx gy gz, Bnormal q x = Ok gx /\ Bnormal q y = Ok gy /\ Bnormal q z = Ok gz /\
    sh (of_grid gx) = sh (of_grid gz) /\ sh (of_grid gy) = sh (of_grid gz) /\ length (concat gx) = length (concat gz) /\ length (concat gy) = length (concat gz) /\
    concat gz = lincomb t (1 - t) (concat gx) (concat gy).
  Proof using S Lx Ly M Lw Lp Psh Lz.
    destruct (Bnormal_superposed t (1 - t) q q q x y M M M (superposed_self t q) Lw Lp Psh Psh Lx Ly) as (gx & gy & Ex & Ey & Ez).
    destruct (Bnormal_ok q x Sx) as (g1 & E1 & R1). rewrite Ex in E1. injection E1 as <-.
    destruct (Bnormal_ok q y (S y Ly)) as (g2 & E2 & R2). rewrite Ey in E2. injection E2 as <-.
    destruct (Bnormal_ok q z (S z Lz)) as (g3 & E3 & R3). unfold z in E3. rewrite Ez in E3. injection E3 as <-.
    exists gx, gy. eexists. split; [exact Ex|]. split; [exact Ey|]. split; [exact Ez|].
    split; [exact (sh_rect _ _ _ _ R1 R3)|]. split; [exact (sh_rect _ _ _ _ R2 R3)|]. pose proof (length_rect _ _ _ R1). pose proof (length_rect _ _ _ R2). pose proof (length_rect _ _ _ R3).
    split; [congruence|]. split; [congruence|]. destruct R1 as [A1 B1], R2 as [A2 B2].
    assert (E : map (@length R) gx = map (@length R) gy).
    { clear -A1 A2 B1 B2. rewrite <- A2 in A1. clear A2. revert gy A1 B2. induction gx as [|r g IH]; intros [|r' g'] E1 F2; try discriminate; [reflexivity|].
      cbn [map]. inversion B1; inversion F2; subst. f_equal; [congruence|]. apply IH; auto. }
    symmetry. apply (concat_gmap2 (fun u v => t * u + (1 - t) * v)) in E. unfold lincomb. rewrite <- E. reflexivity.
  Qed.
End Fields.

(** ** Quantities *)
Section Quantities.
  Variables (other : list string) (q : params).
  Hypothesis S : forall z, length z = q_ndofs q -> sound q z.
  Let M : made q. Proof. apply (S (repeat 0 (q_ndofs q))), repeat_length. Qed.
  Let Lw : legal (q_winding q). Proof. apply (S (repeat 0 (q_ndofs q))), repeat_length. Qed.
  Let Lp : legal (q_plasma q). Proof. apply (S (repeat 0 (q_ndofs q))), repeat_length. Qed.

  Lemma affine_of name (V : list R -> arr) : (forall z, length z = q_ndofs q -> reads other name q z (V z)) ->
    (forall x y t, length x = q_ndofs q -> length y = q_ndofs q -> 
       sh (V x) = sh (V (lincomb t (1 - t) x y)) /\ sh (V y) = sh (V (lincomb t (1 - t) x y)) /\
       length (el (V x)) = length (el (V (lincomb t (1 - t) x y))) /\ length (el (V y)) = length (el (V (lincomb t (1 - t) x y))) /\
       el (V (lincomb t (1 - t) x y)) = lincomb t (1 - t) (el (V x)) (el (V y))) -> affine_quantity other name q.
  Proof.
    intros R E x y t Lx Ly _. exists (V x), (V y), (V (lincomb t (1 - t) x y)). destruct (E x y t Lx Ly) as (S1 & S2 & E1 & E2 & E3).
    split; [auto|]. split; [auto|]. split; [apply R; rewrite length_lincomb; congruence|]. repeat (split; [assumption|]). now apply Forall2_eq_of.
  Qed.
  Lemma affine_Phi : affine_quantity other "Phi" q.
  Proof using S.
    apply (affine_of "Phi" (fun z => of_grid (sample (phi_of q z) (q_qphi q) (q_qtheta q)))).
    - intros. now apply reads_Phi, S.
    - intros x y t Lx Ly. split; [apply sh_sample|]. split; [apply sh_sample|]. unfold of_grid. cbn [el]. rewrite !len_sample. split; [reflexivity|]. split; [reflexivity|]. now apply Phi_lin.
  Qed.
  Lemma affine_K : affine_quantity other "K" q.
  Proof using S.
    apply (affine_of "K" (fun z => of_grid3 (sample (kval q z) (q_qphi q) (q_qtheta q)))).
    - intros. now apply reads_K, S.
    - intros x y t Lx Ly. split; [apply sh_sample3|]. split; [apply sh_sample3|]. unfold of_grid3. cbn [el]. rewrite !len_flat3, !len_sample. split; [reflexivity|]. split; [reflexivity|].
      rewrite (K_lin q x y t) by assumption. apply flat3_lin. now rewrite !len_sample.
  Qed.
  Lemma affine_B : affine_quantity other "winding_surface_B" q.
  Proof using S.
    apply (affine_of "winding_surface_B" (fun z => of_grid3 (sample (fun p u => bval q z (pt (q_plasma q) 0 0 p u)) (s_qphi (q_plasma q)) (s_qtheta (q_plasma q))))).
    - intros z Lz. eexists. split; [reflexivity|].
      change (bind (winding_surface_B q z) (fun v => Ok (of_grid3 v)) = Ok (of_grid3 (sample (fun p u => bval q z (pt (q_plasma q) 0 0 p u)) (s_qphi (q_plasma q)) (s_qtheta (q_plasma q))))).
      rewrite B_made by auto. reflexivity.
    - intros x y t Lx Ly. split; [apply sh_sample3|]. split; [apply sh_sample3|]. unfold of_grid3. cbn [el]. rewrite !len_flat3, !len_sample. split; [reflexivity|]. split; [reflexivity|].
      rewrite <- flat3_lin by (now rewrite !len_sample). f_equal. apply sample_lin. intros. apply bval_superposed; [apply superposed_self|congruence].
  Qed.
  Lemma affine_Bnormal : affine_quantity other "Bnormal" q.
  Proof using S.
    intros x y t Lx Ly _. destruct (Bnormal_lin q x y t S Lx Ly) as (gx & gy & gz & Ex & Ey & Ez & S1 & S2 & L1 & L2 & E).
    assert (R : forall z g, length z = q_ndofs q -> Bnormal q z = Ok g -> reads other "Bnormal" q z (of_grid g)).
    { intros z g Lz Eg. destruct (reads_Bnormal other q z (S z Lz)) as (g' & Eg' & R). rewrite Eg in Eg'. injection Eg' as <-. exact R. }
    exists (of_grid gx), (of_grid gy), (of_grid gz). split; [auto|]. split; [auto|]. split; [apply R; [rewrite length_lincomb; congruence|assumption]|]. split; [exact S1|]. split; [exact S2|].
    unfold of_grid. cbn [el]. split; [auto|]. split; [auto|]. now apply Forall2_eq_of.
  Qed.
  Lemma affine_total : affine_quantity other "Phi_with_net_current" q.
  Proof using S.
    set (c := fun u : R * R => q_G q * fst u + q_I q * snd u).
    assert (T : forall z, length z = q_ndofs q -> exists v, reads other "Phi_with_net_current" q z v /\
      sh v = sh (of_grid (sample (phi_of q z) (q_qphi q) (q_qtheta q))) /\ el v = map2 Rplus (map (fun u => phi_of q z (fst u) (snd u)) (pairs (q_qphi q) (q_qtheta q))) (map c (pairs (q_qphi q) (q_qtheta q)))).
    { intros z Lz. destruct (total_value other q z (S z Lz)) as (v & w & Rv & Rw & Sv & E). exists v. split; [exact Rv|]. rewrite Sv, E.
      rewrite (reads_fun _ _ _ _ _ _ Rw (reads_Phi other q z (S z Lz))). split; [reflexivity|]. unfold of_grid. cbn [el]. rewrite concat_sample. f_equal.
      unfold c, pairs. rewrite !flat_map_concat_map, !concat_map, !map_map. f_equal. apply map_ext. intros. now rewrite map_map. }
    intros x y t Lx Ly _. assert (Lz : length (lincomb t (1 - t) x y) = q_ndofs q) by (rewrite length_lincomb; congruence).
    destruct (T x Lx) as (vx & Rx & Sx & Ex). destruct (T y Ly) as (vy & Ry & Sy & Ey). destruct (T _ Lz) as (vz & Rz & Sz & Ez).
    exists vx, vy, vz. split; [auto|]. split; [auto|]. split; [auto|].
    split; [rewrite Sx, Sz; apply sh_sample|]. split; [rewrite Sy, Sz; apply sh_sample|].
    rewrite Ex, Ey, Ez, !map2_map_both, !map_length. split; [reflexivity|]. split; [reflexivity|]. apply Forall2_eq_of.
    unfold lincomb at 2. rewrite map2_map_both. apply map_ext. intros u. cbv beta. unfold phi_of. rewrite ldot_lincomb by congruence. ring.
  Qed.
  Lemma affine_K_theta : q_stellsym q = true -> affine_quantity other "K_theta" q.
  Proof using S.
    intros St. apply (affine_of "K_theta" (fun z => of_grid (sample (fun p u => phi1 q z p u + q_G q) (q_qphi q) (q_qtheta q)))).
    - intros z Lz. eexists. split; [reflexivity|].
      change (bind (K_theta q z) (fun v => Ok (of_grid v)) = Ok (of_grid (sample (fun p u => phi1 q z p u + q_G q) (q_qphi q) (q_qtheta q)))).
      rewrite K_theta_made by auto. reflexivity.
    - intros x y t Lx Ly. split; [apply sh_sample|]. split; [apply sh_sample|]. unfold of_grid. cbn [el]. rewrite !len_sample. split; [reflexivity|]. split; [reflexivity|].
      apply (sample_lin (fun u v => t * u + (1 - t) * v)). intros. unfold phi1. rewrite ldot_lincomb by congruence. ring.
  Qed.
  Lemma affine_quantities name : In name ["K"; "winding_surface_B"; "Bnormal"; "Phi"; "Phi_with_net_current"] -> affine_quantity other name q.
  Proof using S.
    intros [<-|[<-|[<-|[<-|[<-|[]]]]]]; [exact affine_K|exact affine_B|exact affine_Bnormal|exact affine_Phi|exact affine_total].
  Qed.

  (** *** From a field to its figures *)
  (** Arrays of numbers [h u], [u] running over a list that depends affinely on the coefficients. *)
  Definition derived {A} (cmb : R -> A -> A -> A) (name : string) (h : A -> R) : Prop :=
    forall x y t, length x = q_ndofs q -> length y = q_ndofs q -> 0 <= t <= 1 -> exists ax ay vx vy vz,
      reads other name q x vx /\ reads other name q y vy /\ reads other name q (lincomb t (1 - t) x y) vz /\ sh vx = sh vz /\ sh vy = sh vz /\ length ax = length ay /\
      el vx = map h ax /\ el vy = map h ay /\ el vz = map h (map2 (cmb t) ax ay).
  Definition cmb1 (t u v : R) : R := t * u + (1 - t) * v.
  Lemma derived_affine name : affine_quantity other name q -> derived cmb1 name (fun u => u).
  Proof.
    intros H x y t Lx Ly Ht. destruct (H x y t Lx Ly Ht) as (vx & vy & vz & Rx & Ry & Rz & S1 & S2 & L1 & L2 & F). apply eq_of_Forall2 in F.
    exists (el vx), (el vy), vx, vy, vz. rewrite !map_id. repeat (split; [first [assumption|reflexivity|congruence]|]). exact F.
  Qed.
  Lemma derived_K2 : derived cmb3 "K2" (fun v => dot3 v v).
  Proof using S.
    intros x y t Lx Ly Ht. assert (Lz : length (lincomb t (1 - t) x y) = q_ndofs q) by (rewrite length_lincomb; congruence).
    do 5 eexists. split; [apply (reads_K2 other q x), S, Lx|]. split; [apply (reads_K2 other q y), S, Ly|]. split; [apply (reads_K2 other q _), S, Lz|].
    split; [apply sh_sample|]. split; [apply sh_sample|].
    unfold of_grid. cbn [el]. rewrite <- !(gmap_sample (fun v => dot3 v v)). unfold gmap. rewrite !concat_gmap.
    split; [|split; [reflexivity|split; [reflexivity|]]]; [now rewrite !len_sample|]. f_equal. now apply K_lin.
  Qed.
  Lemma derived_Phi2 : derived cmb1 "Phi2" (fun u => u * u).
  Proof using S.
    intros x y t Lx Ly Ht. assert (Lz : length (lincomb t (1 - t) x y) = q_ndofs q) by (rewrite length_lincomb; congruence).
    do 5 eexists. split; [apply (reads_Phi2 other q x), S, Lx|]. split; [apply (reads_Phi2 other q y), S, Ly|]. split; [apply (reads_Phi2 other q _), S, Lz|].
    split; [apply sh_sample|]. split; [apply sh_sample|].
    unfold of_grid. cbn [el]. rewrite <- !(gmap_sample (fun v => v * v)). unfold gmap. rewrite !concat_gmap.
    split; [|split; [reflexivity|split; [reflexivity|]]]; [now rewrite !len_sample|]. f_equal. now apply Phi_lin.
  Qed.
  Lemma derived_Bnormal2 : derived cmb1 "Bnormal2" (fun u => u * u).
  Proof using S.
    intros x y t Lx Ly Ht. assert (Lz : length (lincomb t (1 - t) x y) = q_ndofs q) by (rewrite length_lincomb; congruence).
    destruct (Bnormal_lin q x y t S Lx Ly) as (gx & gy & gz & Ex & Ey & Ez & S1 & S2 & L1 & L2 & E).
    do 5 eexists. split; [exact (reads_Bnormal2 other q x (S x Lx) gx Ex)|]. split; [exact (reads_Bnormal2 other q y (S y Ly) gy Ey)|].
    split; [exact (reads_Bnormal2 other q _ (S _ Lz) gz Ez)|]. rewrite !sh_gmap. split; [exact S1|]. split; [exact S2|].
    unfold of_grid, gmap. cbn [el]. rewrite !concat_gmap. split; [|split; [reflexivity|split; [reflexivity|]]]; [congruence|]. f_equal. exact E.
  Qed.
  (** Pointwise values. *)
  Lemma derived_convex {A} (cmb : R -> A -> A -> A) name (h : A -> R) :
    (forall t u v, 0 <= t <= 1 -> h (cmb t u v) <= t * h u + (1 - t) * h v) -> derived cmb name h -> convex_quantity other name q.
  Proof.
    intros Hh H x y t Lx Ly Ht. destruct (H x y t Lx Ly Ht) as (ax & ay & vx & vy & vz & Rx & Ry & Rz & S1 & S2 & L & Ex & Ey & Ez).
    exists vx, vy, vz. split; [auto|]. split; [auto|]. split; [auto|]. split; [auto|]. split; [auto|]. rewrite Ex, Ey, Ez, !map_length, length_map2 by auto.
    split; [auto|]. split; [auto|]. apply below_map. intros. now apply Hh.
  Qed.
  (** Largest values and integrals. *)
  Lemma largest_convex {A} (cmb : R -> A -> A -> A) name fld (h : A -> R) (k : R -> R) :
    (forall t u v, 0 <= t <= 1 -> k (h (cmb t u v)) <= t * k (h u) + (1 - t) * k (h v)) -> derived cmb fld h ->
    (forall z, length z = q_ndofs q -> exists m v, reads other name q z (scal m) /\ reads other fld q z v /\ is_max m (map k (el v))) ->
    convex_quantity other name q.
  Proof.
    intros Hh H V x y t Lx Ly Ht. assert (Lz : length (lincomb t (1 - t) x y) = q_ndofs q) by (rewrite length_lincomb; congruence).
    destruct (H x y t Lx Ly Ht) as (ax & ay & vx & vy & vz & Rx & Ry & Rz & S1 & S2 & L & Ex & Ey & Ez).
    destruct (V x Lx) as (mx & wx & Mx & Wx & Bx). destruct (V y Ly) as (my & wy & My & Wy & By). destruct (V _ Lz) as (mz & wz & Mz & Wz & Bz).
    rewrite (reads_fun _ _ _ _ _ _ Wx Rx), Ex, map_map in Bx. rewrite (reads_fun _ _ _ _ _ _ Wy Ry), Ey, map_map in By.
    rewrite (reads_fun _ _ _ _ _ _ Wz Rz), Ez, map_map in Bz.
    exists (scal mx), (scal my), (scal mz). split; [auto|]. split; [auto|]. split; [auto|]. do 4 (split; [reflexivity|]).
    constructor; [|constructor].
    eapply below_max; [exact Ht| | | |exact Bx|exact By|exact Bz]; rewrite ?map_length, ?length_map2 by auto; auto.
    apply (below_map (cmb t) (fun u => k (h u))). intros. now apply Hh.
  Qed.
  Lemma integral_convex {A} (cmb : R -> A -> A -> A) name fld surf (h : A -> R) (k : R -> R) :
    (forall t u v, 0 <= t <= 1 -> k (h (cmb t u v)) <= t * k (h u) + (1 - t) * k (h v)) -> derived cmb fld h ->
    (forall d, da surf = Ok d -> forall w, In w (concat d) -> 0 <= w) ->
    (forall z, length z = q_ndofs q -> exists r v d, reads other name q z (scal r) /\ reads other fld q z v /\ da surf = Ok d /\
      r = INR (q_nfp q) * Rsum (map2 (fun w y => w * k y) (concat d) (el v))) ->
    convex_quantity other name q.
  Proof.
    intros Hh H D V x y t Lx Ly Ht. assert (Lz : length (lincomb t (1 - t) x y) = q_ndofs q) by (rewrite length_lincomb; congruence).
    destruct (H x y t Lx Ly Ht) as (ax & ay & vx & vy & vz & Rx & Ry & Rz & S1 & S2 & L & Ex & Ey & Ez).
    destruct (V x Lx) as (mx & wx & d & Mx & Wx & Ed & Bx). destruct (V y Ly) as (my & wy & d1 & My & Wy & Ed1 & By). destruct (V _ Lz) as (mz & wz & d2 & Mz & Wz & Ed2 & Bz).
    assert (d1 = d) by congruence. assert (d2 = d) by congruence. subst d1 d2.
    rewrite (reads_fun _ _ _ _ _ _ Wx Rx), Ex in Bx. rewrite (reads_fun _ _ _ _ _ _ Wy Ry), Ey in By.
    rewrite (reads_fun _ _ _ _ _ _ Wz Rz), Ez in Bz.
    exists (scal mx), (scal my), (scal mz). split; [auto|]. split; [auto|]. split; [auto|]. do 4 (split; [reflexivity|]).
    constructor; [|constructor].
    assert (C : forall l, map2 (fun w y => w * k y) (concat d) l = map2 Rmult (concat d) (map k l)) by (intros; now rewrite map2_map_r).
    rewrite Bx, By, Bz, !C, !map_map.
    pose proof (below_sum t (concat d) (map (fun u => k (h u)) ax) (map (fun u => k (h u)) ay) (map (fun u => k (h u)) (map2 (cmb t) ax ay)) (D d Ed)) as B.
    rewrite !map_length, length_map2 in B by auto. specialize (B eq_refl ltac:(auto)).
    specialize (B (below_map (cmb t) (fun u => k (h u)) t ax ay (fun u v => Hh t u v Ht))).
    assert (0 <= INR (q_nfp q)) by apply pos_INR. apply Rmult_le_compat_l with (r := INR (q_nfp q)) in B; [|assumption]. lra.
  Qed.

  Hypothesis O : ordered q.
  Lemma eval_weights d : da (q_eval q) = Ok d -> forall w, In w (concat d) -> 0 <= w.
  Proof using S O.
    destruct (made_facts q M) as (_ & _ & _ & _ & Ce & _). rewrite (da_copy _ _ _ _ Lw Ce). intros E. injection E as <-. intros w Hw.
    destruct O as (O1 & O2 & _). pose proof (weights_nonneg _ _ _ _ Ce O1 O2) as F. apply in_concat in Hw as (r & Hr & Hw).
    rewrite List.Forall_forall in F. specialize (F r Hr). rewrite List.Forall_forall in F. auto.
  Qed.
  Lemma plasma_weights d : da (q_plasma q) = Ok d -> forall w, In w (concat d) -> 0 <= w.
  Proof using S O.
    destruct (made_facts q M) as (_ & _ & _ & _ & _ & _ & Cp). rewrite (da_copy _ _ _ _ Lp Cp). intros E. injection E as <-. intros w Hw.
    destruct O as (_ & _ & O1 & O2). pose proof (weights_nonneg _ _ _ _ Cp O1 O2) as F. apply in_concat in Hw as (r & Hr & Hw).
    rewrite List.Forall_forall in F. specialize (F r Hr). rewrite List.Forall_forall in F. auto.
  Qed.
  Lemma convex_quantities name : In name ["K2"; "Bnormal2"; "Phi2"; "f_B"; "f_K"; "f_Phi"; "f_max_Bnormal"; "f_max_Bnormal2"; "f_max_K2"; "f_huber_K";
    "f_max_Phi"; "f_max_Phi2"; "f_max_Phi4"; "f_l1_Phi"] -> convex_quantity other name q.
  Proof using S O.
    assert (dP := derived_affine _ affine_Phi). assert (dB := derived_affine _ affine_Bnormal). assert (dK := derived_K2).
    assert (sqs : forall t u v, 0 <= t <= 1 -> cmb1 t u v * cmb1 t u v <= t * (u * u) + (1 - t) * (v * v)) by (intros; now apply sq_convex).
    assert (ab : forall t u v, 0 <= t <= 1 -> Rabs (cmb1 t u v) <= t * Rabs u + (1 - t) * Rabs v) by (intros; now apply abs_convex).
    assert (k2 : forall t u v, 0 <= t <= 1 -> dot3 (cmb3 t u v) (cmb3 t u v) <= t * dot3 u u + (1 - t) * dot3 v v) by (intros; now apply dot_convex).
    assert (mx : forall nm fl h, In (nm, fl, h) [("f_max_Bnormal", "Bnormal", Rabs); ("f_max_Bnormal2", "Bnormal", fun y => y * y); ("f_max_Phi", "Phi", Rabs);
      ("f_max_Phi2", "Phi", fun y => y * y); ("f_max_Phi4", "Phi", fun y => y ^ 4)] -> (forall t u v, 0 <= t <= 1 -> h (cmb1 t u v) <= t * h u + (1 - t) * h v) ->
      derived cmb1 fl (fun u => u) -> convex_quantity other nm q).
    { intros nm fl h I Hh H. apply (largest_convex cmb1 nm fl (fun u => u) h Hh H). intros z Lz. apply largest_value; [now apply S|]. cbn in I |- *. tauto. }
    intros I. cbn in I. repeat destruct I as [<-|I]; try contradiction.
    - exact (derived_convex cmb3 "K2" _ k2 dK).
    - exact (derived_convex cmb1 "Bnormal2" _ sqs derived_Bnormal2).
    - exact (derived_convex cmb1 "Phi2" _ sqs derived_Phi2).
    - apply (integral_convex cmb1 "f_B" "Bnormal" (q_plasma q) (fun u => u) (fun y => y * y / 2)); [|exact dB|exact plasma_weights|].
      + intros t u v Ht. specialize (sqs t u v Ht). lra.
      + intros z Lz. apply integral_value; [now apply S|]. cbn. tauto.
    - apply (integral_convex cmb3 "f_K" "K2" (q_eval q) (fun v => dot3 v v) (fun y => y / 2)); [|exact dK|exact eval_weights|].
      + intros t u v Ht. specialize (k2 t u v Ht). lra.
      + intros z Lz. apply integral_value; [now apply S|]. cbn. tauto.
    - apply (integral_convex cmb1 "f_Phi" "Phi" (q_eval q) (fun u => u) (fun y => y * y / 2)); [|exact dP|exact eval_weights|].
      + intros t u v Ht. specialize (sqs t u v Ht). lra.
      + intros z Lz. apply integral_value; [now apply S|]. cbn. tauto.
    - now apply (mx "f_max_Bnormal" "Bnormal" Rabs); [cbn; tauto| |].
    - now apply (mx "f_max_Bnormal2" "Bnormal" (fun y => y * y)); [cbn; tauto| |].
    - apply (largest_convex cmb3 "f_max_K2" "K2" (fun v => dot3 v v) (fun y => y)); [exact k2|exact dK|]. intros z Lz. apply largest_value; [now apply S|]. cbn. tauto.
    - apply (integral_convex cmb3 "f_huber_K" "K2" (q_eval q) (fun v => dot3 v v) sqrt); [|exact dK|exact eval_weights|].
      + intros. now apply norm_convex.
      + intros z Lz. apply integral_value; [now apply S|]. cbn. tauto.
    - now apply (mx "f_max_Phi" "Phi" Rabs); [cbn; tauto| |].
    - now apply (mx "f_max_Phi2" "Phi" (fun y => y * y)); [cbn; tauto| |].
    - apply (mx "f_max_Phi4" "Phi" (fun y => y ^ 4)); [cbn; tauto|intros; now apply fourth_convex|assumption].
    - apply (integral_convex cmb1 "f_l1_Phi" "Phi" (q_eval q) (fun u => u) Rabs); [exact ab|exact dP|exact eval_weights|].
      intros z Lz. apply integral_value; [now apply S|]. cbn. tauto.
  Qed.
  (** The normalised error, where it is defined. *)
  Lemma normalised_convex : (exists r0, reads other "f_B" q (repeat 0 (q_ndofs q)) (scal r0) /\ 0 < r0) ->
    convex_quantity other "f_B_normalized_by_Bnormal_IG" q.
  Proof using S O.
    intros (r0 & R0 & P0) x y t Lx Ly Ht. assert (Lz : length (lincomb t (1 - t) x y) = q_ndofs q) by (rewrite length_lincomb; congruence).
    assert (V : forall z, length z = q_ndofs q -> exists r, reads other "f_B" q z (scal r) /\ reads other "f_B_normalized_by_Bnormal_IG" q z (scal (r / r0))).
    { intros z Hz. destruct (normalised_value other q z (S z Hz)) as (r & r1 & v & A & B & C & ->). exists r. split; [exact A|].
      assert (E := reads_fun _ _ _ _ _ _ B R0). injection E as ->. exact C. }
    destruct (V x Lx) as (rx & A1 & B1). destruct (V y Ly) as (ry & A2 & B2). destruct (V _ Lz) as (rz & A3 & B3).
    destruct (convex_quantities "f_B" ltac:(cbn; tauto) x y t Lx Ly Ht) as (vx & vy & vz & Rx & Ry & Rz & _ & _ & _ & _ & F).
    rewrite (reads_fun _ _ _ _ _ _ Rx A1), (reads_fun _ _ _ _ _ _ Ry A2), (reads_fun _ _ _ _ _ _ Rz A3) in F.
    unfold scal in F. cbn [el lincomb map2] in F. unfold lincomb in F. cbn [map2] in F. inversion F; subst.
    exists (scal (rx / r0)), (scal (ry / r0)), (scal (rz / r0)). split; [auto|]. split; [auto|]. split; [auto|]. do 4 (split; [reflexivity|]).
    constructor; [|constructor]. apply Rmult_le_reg_r with r0; [assumption|]. unfold Rdiv. rewrite Rmult_plus_distr_r, !Rmult_assoc, Rinv_l, !Rmult_1_r by lra. assumption.
  Qed.
End Quantities.

(** ** Problems *)
Lemma near_segment x y e : length x = length y -> 0 < e -> exists s, 0 < s <= 1 /\ near e x (lincomb (1 - s) s x y).
Proof.
  intros Lx He.
  assert (Hb : exists B, 0 < B /\ forall i, Rabs (nth i x 0 - nth i y 0) <= B).
  { clear -Lx. revert y Lx. induction x as [|a x IH]; intros [|b y] L; try discriminate.
    - exists 1. split; [lra|]. intros i. destruct i; simpl; rewrite Rminus_0_r, Rabs_R0; lra.
    - destruct (IH y) as (B & HB & H); [simpl in L; lia|]. exists (B + Rabs (a - b)). pose proof (Rabs_pos (a - b)). split; [lra|].
      intros [|i]; simpl; [lra|]. specialize (H i). lra. }
  destruct Hb as (B & HB & Hb). exists (Rmin 1 (e / (2 * B))). set (s := Rmin 1 (e / (2 * B))).
  assert (Hs : 0 < s <= 1).
  { unfold s. split; [|apply Rmin_l]. apply Rmin_pos; [lra|]. apply Rdiv_lt_0_compat; lra. }
  assert (Hs' : s * B < e).
  { assert (s <= e / (2 * B)) by apply Rmin_r. apply Rle_lt_trans with (e / (2 * B) * B).
    - apply Rmult_le_compat_r; lra. - replace (e / (2 * B) * B) with (e / 2) by (field; lra). lra. }
  split; [exact Hs|]. intros i. destruct (Nat.lt_ge_cases i (length x)) as [Hi|Hi].
  - assert (E : nth i (lincomb (1 - s) s x y) 0 = (1 - s) * nth i x 0 + s * nth i y 0).
    { clear -Lx Hi. revert y i Lx Hi. induction x as [|a x IH]; intros [|b y] i L Hi; simpl in *; try discriminate; try lia.
      destruct i; auto. apply IH; lia. }
    rewrite E. replace (nth i x 0 - ((1 - s) * nth i x 0 + s * nth i y 0)) with (s * (nth i x 0 - nth i y 0)) by ring.
    rewrite Rabs_mult, (Rabs_right s) by lra. apply Rle_lt_trans with (s * B); auto. apply Rmult_le_compat_l; [lra|apply Hb].
  - rewrite !nth_overflow; [rewrite Rminus_0_r, Rabs_R0; lra| |auto]. rewrite length_lincomb; [auto|congruence].
Qed.

Section Problem.
  Variables (other : list string) (q : params) (os : list (string * R)) (cs : list (string * cmp * R)).
  Hypothesis Ho : forall name w, In (name, w) os -> 0 <= w /\ convex_quantity other name q.
  Hypothesis Hc : forall name c b, In (name, c, b) cs -> match c with LE => convex_quantity other name q | _ => affine_quantity other name q end.

  Lemma weighted_convex x y t fx fy : length x = q_ndofs q -> length y = q_ndofs q -> 0 <= t <= 1 -> weighted other q os x fx -> weighted other q os y fy ->
    exists fz, weighted other q os (lincomb t (1 - t) x y) fz /\ fz <= t * fx + (1 - t) * fy.
  Proof using Ho.
    intros Lx Ly Ht (vx & Fx & ->) (vy & Fy & ->). clear Hc. revert vx vy Fx Fy.
    induction os as [|[name w] l IH]; intros vx vy Fx Fy; inversion Fx as [|? mx ? lx Hx Tx]; inversion Fy as [|? my ? ly Hy Ty]; subst.
    - exists 0. split; [exists []; split; [constructor|reflexivity]|]. unfold Rsum; cbn; lra.
    - destruct (IH ltac:(intros; apply Ho; now right) lx ly Tx Ty) as (fz & (vz & Fz & ->) & B).
      destruct (Ho name w ltac:(now left)) as (Pw & Cx). destruct (Cx x y t Lx Ly Ht) as (ux & uy & uz & Rx & Ry & Rz & S1 & S2 & L1 & L2 & F).
      cbn [fst] in Hx, Hy. assert (Ex := reads_fun _ _ _ _ _ _ Rx Hx). assert (Ey := reads_fun _ _ _ _ _ _ Ry Hy). subst ux uy.
      destruct uz as [sz lz]. cbn [sh el scal] in S1, L1, F. subst sz. destruct lz as [|mz [|? ?]]; try discriminate. unfold lincomb, scal in F. cbn [map2 el] in F. inversion F as [|? ? ? ? Hm _]; subst.
      eexists. split; [exists (mz :: vz); split; [constructor; [exact Rz|exact Fz]|reflexivity]|].
      unfold Rsum in *. cbn [map2 fold_right snd fst]. apply Rmult_le_compat_l with (r := w) in Hm; [|assumption]. lra.
  Qed.
  Lemma feasible_convex x y t : length x = q_ndofs q -> length y = q_ndofs q -> 0 <= t <= 1 -> feasible other q cs x -> feasible other q cs y ->
    feasible other q cs (lincomb t (1 - t) x y).
  Proof using Hc.
    intros Lx Ly Ht Fx Fy name c b I. destruct (Fx name c b I) as (vx & Rx & Mx). destruct (Fy name c b I) as (vy & Ry & My). specialize (Hc name c b I).
    assert (G : forall rel, on_chord rel other name q -> exists vz, reads other name q (lincomb t (1 - t) x y) vz /\ forall z, In z (el vz) -> exists u v, In u (el vx) /\ In v (el vy) /\ rel z (t * u + (1 - t) * v)).
    { intros rel Hr. destruct (Hr x y t Lx Ly Ht) as (ux & uy & uz & Qx & Qy & Qz & _ & _ & L1 & L2 & F).
      assert (Ex := reads_fun _ _ _ _ _ _ Qx Rx). assert (Ey := reads_fun _ _ _ _ _ _ Qy Ry). subst ux uy. exists uz. split; [exact Qz|].
      clear -L1 L2 F. revert L1 L2 F. generalize (el vx) (el vy) (el uz). intros lx ly lz. revert lx ly. induction lz as [|z lz IH]; intros [|u lx] [|v ly] L1 L2 F k Hk; try discriminate; [contradiction|].
      unfold lincomb in F. cbn [map2] in F. inversion F; subst. destruct Hk as [<-|Hk].
      - exists u, v. split; [now left|]. split; [now left|assumption].
      - destruct (IH lx ly) with (z := k) as (u' & v' & A & B & C); auto. exists u', v'. split; [now right|]. split; [now right|exact C]. }
    destruct c.
    - destruct (G Rle Hc) as (vz & Rz & H). exists vz. split; [exact Rz|]. intros z Hz. destruct (H z Hz) as (u & v & Iu & Iv & E). specialize (Mx u Iu). specialize (My v Iv). cbn in Mx, My |- *.
      assert (t * u <= t * b) by (apply Rmult_le_compat_l; lra). assert ((1 - t) * v <= (1 - t) * b) by (apply Rmult_le_compat_l; lra). lra.
    - destruct (G eq Hc) as (vz & Rz & H). exists vz. split; [exact Rz|]. intros z Hz. destruct (H z Hz) as (u & v & Iu & Iv & ->). specialize (Mx u Iu). specialize (My v Iv). cbn in Mx, My |- *.
      assert (t * b <= t * u) by (apply Rmult_le_compat_l; lra). assert ((1 - t) * b <= (1 - t) * v) by (apply Rmult_le_compat_l; lra). lra.
    - destruct (G eq Hc) as (vz & Rz & H). exists vz. split; [exact Rz|]. intros z Hz. destruct (H z Hz) as (u & v & Iu & Iv & ->). specialize (Mx u Iu). specialize (My v Iv). cbn in Mx, My |- *. subst. ring.
  Qed.
  Lemma local_is_global x : length x = q_ndofs q -> feasible other q cs x ->
    (exists e, 0 < e /\ least other q os cs x (near e x)) -> least other q os cs x (fun _ => True).
  Proof using Ho Hc.
    intros Lx Fx (e & He & H) y fx fy Ly _ Fy Wx Wy. destruct (near_segment x y e) as (s & Hs & N); [congruence|assumption|].
    replace s with (1 - (1 - s)) in N at 2 by ring.
    destruct (weighted_convex x y (1 - s) fx fy Lx Ly ltac:(lra) Wx Wy) as (fz & Wz & B).
    assert (fx <= fz).
    { apply (H (lincomb (1 - s) (1 - (1 - s)) x y) fx fz); auto; [rewrite length_lincomb; congruence|]. apply feasible_convex; auto. lra. }
    assert (s * fx <= s * fy) by lra. apply Rmult_le_reg_l with s; lra.
  Qed.
End Problem.
