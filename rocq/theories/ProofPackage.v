(** The quantities of the package: their values, shapes and their behaviour
    under a change of the units of length and field. *)
From Coq Require Import String List Bool Arith ZArith Reals Lra Lia.
From Verif Require Import Base ModelArray ProofArray ModelMath SpecMath ProofMath ModelSurface SpecSurface ProofSurface ProofSurface2 ProofSurface3
  SpecWinding ProofWinding4 ModelParams ModelField SpecField ProofField ProofField2 ProofField3 ModelForce
  ModelQuantity ModelWrapper ModelShipped ModelPackage SpecPackage ProofRescale.
Import ListNotations.
Open Scope R_scope.
Open Scope string_scope.
Open Scope list_scope.

(** ** Arrays *)
(** Two results that are arrays of shape [s], the second [k] times the first. *)
Definition times (k : R) (s : list nat) (r r' : result arr) : Prop :=
  exists v, r = Ok v /\ r' = Ok (amap (Rmult k) v) /\ sh v = s /\ wf v.

Lemma length_rect {A} n m (g : grid A) : rect n m g -> length (concat g) = (n * m)%nat.
Proof.
  intros [H1 H2]. subst n. induction H2; [reflexivity|]. cbn [concat length]. rewrite app_length, IHForall, H. lia.
Qed.
Lemma concat_gmap {A B} (f : A -> B) g : concat (map (map f) g) = map f (concat g).
Proof. symmetry. apply concat_map. Qed.
Lemma hd_gmap {A B} (f : A -> B) g : length (hd [] (map (map f) g)) = length (hd [] g).
Proof. destruct g; [reflexivity|]. apply map_length. Qed.
Lemma hd_rect {A} n m (g : grid A) : rect n m g -> (n <> 0)%nat -> length (hd [] g) = m.
Proof. intros [H1 H2] H. destruct H2; [subst n; contradiction|assumption]. Qed.
Lemma of_grid_map f g : of_grid (map (map f) g) = amap f (of_grid g).
Proof. unfold of_grid, amap. cbn [sh el]. now rewrite map_length, hd_gmap, concat_gmap. Qed.
Lemma of_grid3_map k g : of_grid3 (map (map (scale3 k)) g) = amap (Rmult k) (of_grid3 g).
Proof.
  unfold of_grid3, amap. cbn [sh el]. rewrite map_length, hd_gmap, concat_gmap. f_equal.
  induction (concat g) as [|v l IH]; [reflexivity|]. cbn [map flat_map app]. now rewrite IH.
Qed.
Lemma flat3_length l : length (flat_map (fun v => [vx v; vy v; vz v]) l) = (length l * 3)%nat.
Proof. induction l; [reflexivity|]. cbn [flat_map app length]. rewrite IHl. lia. Qed.
Lemma times_grid k n m g g' : rect n m g -> (n <> 0)%nat -> g' = map (map (Rmult k)) g ->
  times k [n; m] (Ok (of_grid g)) (Ok (of_grid g')).
Proof.
  intros Hr Hn ->. exists (of_grid g). rewrite of_grid_map. split; [reflexivity|]. split; [reflexivity|].
  unfold of_grid, wf. cbn [sh el size fold_right]. rewrite (length_rect n m), (hd_rect n m g) by auto. destruct Hr as [-> _]. split; [reflexivity|lia].
Qed.
Lemma times_grid3 k n m g g' : rect n m g -> (n <> 0)%nat -> g' = map (map (scale3 k)) g ->
  times k [n; m; 3%nat] (Ok (of_grid3 g)) (Ok (of_grid3 g')).
Proof.
  intros Hr Hn ->. exists (of_grid3 g). rewrite of_grid3_map. split; [reflexivity|]. split; [reflexivity|].
  unfold of_grid3, wf. cbn [sh el size fold_right]. rewrite flat3_length, (length_rect n m), (hd_rect n m g) by auto. destruct Hr as [-> _]. split; [reflexivity|lia].
Qed.
Lemma times_number k v v' : v' = k * v -> times k [] (Ok (scal v)) (Ok (scal v')).
Proof. intros ->. exists (scal v). split; [reflexivity|]. split; [reflexivity|]. split; reflexivity. Qed.
Lemma times_sample k (F : R -> R -> R) ps ts : ps <> [] ->
  times k [length ps; length ts] (Ok (of_grid (sample F ps ts))) (Ok (of_grid (sample (fun p t => k * F p t) ps ts))).
Proof.
  intros Hp. apply times_grid; [apply rect_sample|destruct ps; [contradiction|discriminate]|].
  symmetry. apply (gmap_sample (Rmult k)).
Qed.
Lemma times_sample3 k (F : R -> R -> vec3) ps ts : ps <> [] ->
  times k [length ps; length ts; 3%nat] (Ok (of_grid3 (sample F ps ts))) (Ok (of_grid3 (sample (fun p t => scale3 k (F p t)) ps ts))).
Proof.
  intros Hp. apply times_grid3; [apply rect_sample|destruct ps; [contradiction|discriminate]|].
  symmetry. apply (gmap_sample (scale3 k)).
Qed.

(** ** The norms *)
Lemma lmax_scale k y l : 0 <= k -> lmax (k * y) (map (Rmult k) l) = k * lmax y l.
Proof.
  intros Hk. revert y; induction l as [|z l IH]; intros y; [reflexivity|]. cbn [map lmax]. rewrite IH. apply RmaxRmult. exact Hk.
Qed.
Lemma amax_scale k a : 0 <= k -> amax (amap (Rmult k) a) = bind (amax a) (fun m => Ok (k * m)).
Proof. intros Hk. unfold amax, amap. cbn [el]. destruct (el a) as [|y l]; [reflexivity|]. cbn [map bind]. now rewrite lmax_scale. Qed.
Lemma amax_ok a : wf a -> (size (sh a) <> 0)%nat -> exists m, amax a = Ok m.
Proof. unfold wf, amax. intros W H. destruct (el a); [rewrite <- W in H; contradiction|]. eauto. Qed.
Lemma times_linf {P} (F : field P) (sq0 : bool) (k : R) s q q' d d' : 0 <= k -> (size s <> 0)%nat -> times k s (F q d) (F q' d') ->
  times (if sq0 then sq k else k) [] (linf_raw F sq0 q d) (linf_raw F sq0 q' d').
Proof.
  intros Hk Hs (v & E & E' & S & W). unfold linf_raw. rewrite E, E'. cbn [bind].
  assert (Em : amap Rabs (amap (Rmult k) v) = amap (Rmult k) (amap Rabs v)).
  { unfold amap. cbn [sh el]. rewrite !map_map. f_equal. apply map_ext. intros y. rewrite Rabs_mult, (Rabs_right k) by lra. reflexivity. }
  rewrite Em, amax_scale by auto.
  destruct (amax_ok (amap Rabs v)) as [m ->]; [unfold wf, amap; cbn [sh el]; now rewrite map_length|unfold amap; cbn [sh]; now rewrite S|].
  cbn [bind]. destruct sq0; apply times_number; unfold sq; ring.
Qed.
Lemma times_linf4 {P} (F : field P) k s q q' d d' : (size s <> 0)%nat -> times k s (F q d) (F q' d') ->
  times (sq (sq k)) [] (linf4_raw F q d) (linf4_raw F q' d').
Proof.
  intros Hs (v & E & E' & S & W). unfold linf4_raw. rewrite E, E'. cbn [bind].
  assert (Em : amap (fun x => sq (sq x)) (amap (Rmult k) v) = amap (Rmult (sq (sq k))) (amap (fun x => sq (sq x)) v)).
  { unfold amap. cbn [sh el]. rewrite !map_map. f_equal. apply map_ext. intros y. unfold sq. ring. }
  rewrite Em, amax_scale by (unfold sq; nra).
  destruct (amax_ok (amap (fun x => sq (sq x)) v)) as [m ->]; [unfold wf, amap; cbn [sh el]; now rewrite map_length|unfold amap; cbn [sh]; now rewrite S|].
  cbn [bind]. now apply times_number.
Qed.

Lemma broadcast_scale k a t : broadcast_to (amap (Rmult k) a) t = bind (broadcast_to a t) (fun v => Ok (amap (Rmult k) v)).
Proof.
  unfold broadcast_to. unfold amap at 1 2 3. cbn [sh el]. destruct (fits _ _); [|reflexivity]. cbn [bind]. unfold amap. cbn [sh el]. f_equal. f_equal.
  rewrite map_map. apply map_ext. intros idx. rewrite <- (Rmult_0_r k) at 1. rewrite map_nth. reflexivity.
Qed.
Lemma map2_scale2 j k l m : map2 Rmult (map (Rmult j) l) (map (Rmult k) m) = map (Rmult (j * k)) (map2 Rmult l m).
Proof. revert m; induction l as [|y l IH]; intros [|z m]; try reflexivity. cbn [map map2]. rewrite IH. f_equal. ring. Qed.
Lemma op2_scale j k a b : op2 Rmult (amap (Rmult j) a) (amap (Rmult k) b) = bind (op2 Rmult a b) (fun v => Ok (amap (Rmult (j * k)) v)).
Proof.
  unfold op2. cbn [amap sh]. destruct (bshape_rev _ _); [|reflexivity]. change (Arr (sh a) (map (Rmult j) (el a))) with (amap (Rmult j) a).
  change (Arr (sh b) (map (Rmult k) (el b))) with (amap (Rmult k) b). rewrite !broadcast_scale.
  destruct (broadcast_to a _) as [u|]; [|reflexivity]. cbn [bind]. destruct (broadcast_to b _) as [w|]; [|reflexivity]. cbn [bind].
  unfold amap. cbn [sh el]. now rewrite map2_scale2.
Qed.
Lemma asum_scale k a : asum (amap (Rmult k) a) = k * asum a.
Proof. unfold asum, amap. cbn [el]. induction (el a) as [|y l IH]; cbn [map fold_right]; [ring|]. rewrite IH. ring. Qed.

Lemma rownorm_scale k l : 0 <= k -> rownorm (map (Rmult k) l) = k * rownorm l.
Proof.
  intros Hk. unfold rownorm. rewrite map_map.
  replace (fold_right Rplus 0 (map (fun x => k * x * (k * x)) l)) with (k * k * fold_right Rplus 0 (map (fun x => x * x) l)).
  2:{ induction l as [|y l IH]; cbn [map fold_right]; [ring|]. rewrite <- IH. ring. }
  rewrite sqrt_mult_alt by nra. rewrite sqrt_square by lra. reflexivity.
Qed.
Lemma chunks_map f n k l : chunks n k (map f l) = map (map f) (chunks n k l).
Proof. revert l; induction n as [|n IH]; intros l; [reflexivity|]. cbn [chunks map]. rewrite firstn_map, skipn_map, IH. reflexivity. Qed.
Lemma chunks_length n k l : length (chunks n k l) = n.
Proof. revert l; induction n as [|n IH]; intros l; [reflexivity|]. cbn [chunks length]. now rewrite IH. Qed.
Lemma times_norm k n m j a a' : 0 <= k -> times k [n; m; j] (Ok a) (Ok a') ->
  times k [n; m] (norm_last (merge_tail a)) (norm_last (merge_tail a')).
Proof.
  intros Hk (v & E & E' & S & W). injection E as ->. injection E' as ->. unfold merge_tail, amap. cbn [sh el]. rewrite S.
  unfold norm_last. cbn [sh el rev app]. cbn [size fold_right]. rewrite Nat.mul_1_r.
  eexists. split; [reflexivity|]. split; [|split; [reflexivity|]].
  - unfold amap. cbn [sh el]. f_equal. f_equal. rewrite chunks_map, !map_map. apply map_ext. intros l. now apply rownorm_scale.
  - unfold wf. cbn [sh el]. rewrite map_length, chunks_length. cbn [size fold_right]. lia.
Qed.

Section Weights.
  Variables (P : Type) (qp_da : P -> arr) (qp_nfp : P -> R).
  Lemma times_weighted q q' n m j k a a' : qp_nfp q' = qp_nfp q ->
    times j [n; m] (Ok (qp_da q)) (Ok (qp_da q')) -> times k [n; m] (Ok a) (Ok a') ->
    times (j * k) [] (weighted_sum P qp_da qp_nfp q a) (weighted_sum P qp_da qp_nfp q' a').
  Proof.
    intros N (d & D & D' & Sd & Wd) (v & E & E' & S & W). injection E as ->. injection E' as ->. injection D as D. injection D' as D'.
    unfold weighted_sum. rewrite D, D', op2_scale, N.
    rewrite op2_same by (rewrite ?Sd, ?S; auto). cbn [bind]. apply times_number. rewrite asum_scale. ring.
  Qed.
  Lemma times_huber (F : field P) q q' d d' n m j k : 0 <= k -> qp_nfp q' = qp_nfp q ->
    times j [n; m] (Ok (qp_da q)) (Ok (qp_da q')) -> times k [n; m; 3%nat] (F q d) (F q' d') ->
    times (j * k) [] (huber_raw P qp_da qp_nfp F q d) (huber_raw P qp_da qp_nfp F q' d').
  Proof.
    intros Hk N D (v & E & E' & S & W). unfold huber_raw. rewrite E, E'. cbn [bind].
    destruct (times_norm k n m 3 v (amap (Rmult k) v) Hk) as (w & F1 & F2 & F3 & F4); [now exists v|]. rewrite F1, F2. cbn [bind].
    apply (times_weighted q q' n m); auto. now exists w.
  Qed.
  Lemma op2_column f a v n m : sh a = [n; m; 1%nat] -> sh v = [n; m; 3%nat] -> exists w, op2 f a v = Ok w.
  Proof.
    intros Sa Sv. unfold op2. rewrite Sa, Sv. cbn [rev app bshape_rev].
    rewrite !Nat.eqb_refl. cbn [Nat.eqb]. cbn [rev app]. unfold broadcast_to, pad_shape. rewrite Sa, Sv. cbn [length repeat Nat.sub app].
    rewrite fits_refl. replace (fits [n; m; 1%nat] [n; m; 3%nat]) with true by (unfold fits; cbn; now rewrite !Nat.eqb_refl).
    cbn [bind]. eauto.
  Qed.
  Lemma times_l1 (F : field P) q q' d d' n m rest j k : 0 <= k -> qp_nfp q' = qp_nfp q -> rest = [] \/ rest = [3%nat] ->
    times j [n; m] (Ok (qp_da q)) (Ok (qp_da q')) -> times k ([n; m] ++ rest) (F q d) (F q' d') ->
    times (j * k) [] (l1_raw P qp_da qp_nfp F q d) (l1_raw P qp_da qp_nfp F q' d').
  Proof.
    intros Hk N Hr (a & D & D' & Sd & Wd) (v & E & E' & S & W). injection D as D. injection D' as D'.
    unfold l1_raw. rewrite E, E'. cbn [bind].
    assert (Em : amap Rabs (amap (Rmult k) v) = amap (Rmult k) (amap Rabs v)).
    { unfold amap. cbn [sh el]. rewrite !map_map. f_equal. apply map_ext. intros y. rewrite Rabs_mult, (Rabs_right k) by lra. reflexivity. }
    assert (Ed : expand_da P qp_da q' (amap (Rmult k) v) = amap (Rmult j) (expand_da P qp_da q v)).
    { unfold expand_da. rewrite D', <- D. reflexivity. }
    rewrite Em, Ed, op2_scale, N.
    assert (Ok1 : exists w, op2 Rmult (expand_da P qp_da q v) (amap Rabs v) = Ok w).
    { unfold expand_da, ndim. rewrite D, Sd, S. destruct Hr as [-> | ->]; cbn [length app Nat.sub repeat].
      - rewrite op2_same; [eauto|unfold wf; cbn [sh el]; now rewrite <- Sd|unfold wf, amap; cbn [sh el]; now rewrite map_length|symmetry; exact S].
      - eapply op2_column; [reflexivity|exact S]. }
    destruct Ok1 as [w ->]. cbn [bind]. apply times_number. rewrite asum_scale. ring.
  Qed.
End Weights.

(** ** Every quantity *)
Definition at_phi (y : list R) : dofs := [("phi", Arr [length y] y)].
Lemma Ok_bind {A} (r : result A) (a : A) (f : A -> result arr) : r = Ok a -> bind r f = f a.
Proof. intros ->. reflexivity. Qed.
Lemma made_points q : made q -> q_qphi q <> [] /\ q_qtheta q <> [] /\ s_qphi (q_plasma q) <> [] /\ s_qtheta (q_plasma q) <> [].
Proof.
  intros M. destruct (made_facts q M) as (_ & _ & _ & _ & Ce & _ & Cp).
  assert (N : forall s ps ts s', resampled s ps ts s' -> ps <> [] /\ ts <> []).
  { intros s ps ts s' E. unfold resampled, copy_and_set_quadpoints, make_surface in E. cbn in E.
    destruct ps; [discriminate|]. destruct ts; [discriminate|]. split; discriminate. }
  destruct (N _ _ _ _ Ce). destruct (N _ _ _ _ Cp). auto.
Qed.

Section Every.
  Variables (c b : R) (q q' : params) (x : list R) (other : list string).
  Hypothesis Hc : 0 < c.
  Hypothesis Hb : 0 < b.
  Hypothesis H : rescaled c b q q'.
  Hypothesis S : sound q x.
  Hypothesis M' : made q'.
  Let x' := map (Rmult (c * b)) x.
  Definition CV := [length (q_qphi q); length (q_qtheta q); 3%nat].
  Definition CF := [length (q_qphi q); length (q_qtheta q)].
  Definition PV := [length (s_qphi (q_plasma q)); length (s_qtheta (q_plasma q)); 3%nat].
  Definition PF := [length (s_qphi (q_plasma q)); length (s_qtheta (q_plasma q))].
  Definition both (name : string) (k : R) (s : list nat) : Prop :=
    times k s (implementation name q (at_phi x)) (implementation name q' (at_phi x')).
  Definition reported (name : string) (k : R) (s : list nat) : Prop :=
    exists Q, get_quantity (package other) name = Ok Q /\ times k s (value_of Q q x) (value_of Q q' x').

  Let M : made q. Proof. apply S. Qed.
  Let Lw : legal (q_winding q). Proof. apply S. Qed.
  Let Lp : legal (q_plasma q). Proof. apply S. Qed.
  Let Psh : plasma_shaped q. Proof. apply S. Qed.
  Let L : length x = q_ndofs q. Proof. apply S. Qed.
  Let N1 : q_qphi q <> []. Proof. now apply made_points. Qed.
  Let N2 : s_qphi (q_plasma q) <> []. Proof. now apply made_points. Qed.
  Lemma no_points : (length (q_qphi q) <> 0)%nat /\ (length (q_qtheta q) <> 0)%nat /\
    (length (s_qphi (q_plasma q)) <> 0)%nat /\ (length (s_qtheta (q_plasma q)) <> 0)%nat.
  Proof using S.
    destruct (made_points q M) as (A & B & C & D). repeat split; intros E; apply length_zero_iff_nil in E; auto.
  Qed.
  Lemma sizes : (size CV <> 0)%nat /\ (size CF <> 0)%nat /\ (size PV <> 0)%nat /\ (size PF <> 0)%nat.
  Proof using S. destruct no_points as (A & B & C & D). unfold CV, CF, PV, PF. cbn [size fold_right]. repeat split; nia. Qed.

  Lemma both_K : both "_K" b CV.
  Proof using Hc H S M'.
    unfold both. change (times b CV (bind (K q x OnEval) (fun v => Ok (of_grid3 v))) (bind (K q' x' OnEval) (fun v => Ok (of_grid3 v)))).
    destruct (K_rescaled c b q q' x Hc H M M' Lw Lp Psh L) as (F & E & E'). rewrite (Ok_bind _ _ _ E), (Ok_bind _ _ _ E'). now apply times_sample3.
  Qed.
  Lemma both_K2 : both "_K2" (b * b) CF.
  Proof using Hc H S M'.
    unfold both. change (times (b * b) CF (bind (K2 q x) (fun v => Ok (of_grid v))) (bind (K2 q' x') (fun v => Ok (of_grid v)))).
    destruct (K_rescaled c b q q' x Hc H M M' Lw Lp Psh L) as (F & E & E'). fold x' in E'. unfold K2. rewrite E, E'. cbn [bind]. rewrite !gmap_sample.
    erewrite (sample_ext (fun p t => dot3 (scale3 b (F p t)) (scale3 b (F p t)))); [now apply times_sample|].
    intros. unfold dot3, scale3; cbn [vx vy vz]. ring.
  Qed.
  Lemma both_K_theta : q_stellsym q = true -> both "_K_theta" (c * b) CF.
  Proof using Hc H S M'.
    intros St. unfold both. change (times (c * b) CF (bind (K_theta q x) (fun v => Ok (of_grid v))) (bind (K_theta q' x') (fun v => Ok (of_grid v)))).
    destruct (K_theta_rescaled c b q q' x Hc H M M' Lw Lp Psh L St) as (F & E & E'). rewrite (Ok_bind _ _ _ E), (Ok_bind _ _ _ E'). now apply times_sample.
  Qed.
  Lemma both_f_K : both "_f_K" (b * b * (c * c)) [].
  Proof using Hc H S M'.
    unfold both. change (times (b * b * (c * c)) [] (bind (f_K q x) (fun v => Ok (scal v))) (bind (f_K q' x') (fun v => Ok (scal v)))).
    destruct (f_K_rescaled c b q q' x Hc H M M' Lw Lp Psh L) as (v & E & E'). rewrite (Ok_bind _ _ _ E), (Ok_bind _ _ _ E'). now apply times_number.
  Qed.
  Lemma both_KK : both "_K_dot_grad_K" (b * b / c) CV.
  Proof using Hc H S M'.
    unfold both. change (times (b * b / c) CV (bind (K_dot_grad_K q x) (fun v => Ok (of_grid3 v))) (bind (K_dot_grad_K q' x') (fun v => Ok (of_grid3 v)))).
    destruct (KK_rescaled c b q q' x Hc H M M' Lw Lp Psh L) as (F & E & E'). rewrite (Ok_bind _ _ _ E), (Ok_bind _ _ _ E'). now apply times_sample3.
  Qed.
  Lemma both_KKc : both "_K_dot_grad_K_cyl" (b * b / c) CV.
  Proof using Hc H S M'.
    unfold both. change (times (b * b / c) CV (bind (K_dot_grad_K_cyl q x) (fun v => Ok (of_grid3 v))) (bind (K_dot_grad_K_cyl q' x') (fun v => Ok (of_grid3 v)))).
    destruct (KKc_rescaled c b q q' x Hc H M M' Lw Lp Psh L) as (F & E & E'). rewrite (Ok_bind _ _ _ E), (Ok_bind _ _ _ E'). now apply times_sample3.
  Qed.
  Lemma both_B : both "_winding_surface_B" b PV.
  Proof using Hc H S M'.
    unfold both. change (times b PV (bind (winding_surface_B q x) (fun v => Ok (of_grid3 v))) (bind (winding_surface_B q' x') (fun v => Ok (of_grid3 v)))).
    destruct (B_rescaled c b q q' x Hc H M M' Lw Lp Psh L) as (F & E & E'). rewrite (Ok_bind _ _ _ E), (Ok_bind _ _ _ E'). now apply times_sample3.
  Qed.
  Lemma both_Bnormal : both "_Bnormal" b PF.
  Proof using Hc H S M'.
    unfold both. change (times b PF (bind (Bnormal q x) (fun v => Ok (of_grid v))) (bind (Bnormal q' x') (fun v => Ok (of_grid v)))).
    destruct (Bnormal_rescaled c b q q' x Hc H M M' Lw Lp Psh L) as (g & E & E' & Rg). rewrite (Ok_bind _ _ _ E), (Ok_bind _ _ _ E').
    apply times_grid; auto. apply no_points.
  Qed.
  Lemma both_Bnormal2 : both "_Bnormal2" (b * b) PF.
  Proof using Hc H S M'.
    unfold both. change (times (b * b) PF (bind (Bnormal2 q x) (fun v => Ok (of_grid v))) (bind (Bnormal2 q' x') (fun v => Ok (of_grid v)))).
    destruct (Bnormal_rescaled c b q q' x Hc H M M' Lw Lp Psh L) as (g & E & E' & Rg). fold x' in E'. unfold Bnormal2. rewrite E, E'. cbn [bind].
    apply times_grid; [|apply no_points|].
    - destruct Rg as [R1 R2]. unfold gmap. split; [now rewrite map_length|]. rewrite List.Forall_forall in *. intros r Hr.
      apply in_map_iff in Hr as (r0 & <- & Hr). rewrite map_length. auto.
    - unfold gmap. rewrite !map_map. apply map_ext. intros r. rewrite !map_map. apply map_ext. intros y. ring.
  Qed.
  Lemma both_f_B : both "_f_B" (b * b * (c * c)) [].
  Proof using Hc H S M'.
    unfold both. change (times (b * b * (c * c)) [] (bind (f_B q x) (fun v => Ok (scal v))) (bind (f_B q' x') (fun v => Ok (scal v)))).
    destruct (f_B_rescaled c b q q' x Hc H M M' Lw Lp Psh L) as (v & E & E'). rewrite (Ok_bind _ _ _ E), (Ok_bind _ _ _ E'). now apply times_number.
  Qed.
  Lemma both_f_B_normalized : both "_f_B_normalized_by_Bnormal_IG" 1 [].
  Proof using Hc Hb H S M'.
    unfold both. change (times 1 [] (bind (f_B_normalized q x) (fun v => Ok (scal v))) (bind (f_B_normalized q' x') (fun v => Ok (scal v)))).
    destruct (f_B_rescaled c b q q' x Hc H M M' Lw Lp Psh L) as (v & E & E').
    destruct (f_B_rescaled c b q q' (repeat 0 (q_ndofs q)) Hc H M M' Lw Lp Psh (repeat_length _ _)) as (v0 & E0 & E0').
    assert (Z : map (Rmult (c * b)) (repeat 0 (q_ndofs q)) = repeat 0 (q_ndofs q')).
    { rewrite (rescaled_ndofs c b q q' H M M'). generalize (q_ndofs q). intros n. induction n; [reflexivity|]. cbn. rewrite IHn. f_equal. ring. }
    rewrite Z in E0'. fold x' in E'. unfold f_B_normalized. rewrite E, E', E0, E0'. cbn [bind]. apply times_number. unfold Rdiv. rewrite !Rinv_mult.
    generalize (/ v0). intros e. field. lra.
  Qed.
  Lemma both_force : both "_force_cyl" (b * b) CV.
  Proof using Hc H S M'.
    unfold both. change (times (b * b) CV (bind (force_cyl q x) (fun v => Ok (of_grid3 v))) (bind (force_cyl q' x') (fun v => Ok (of_grid3 v)))).
    destruct (force_rescaled c b q q' x Hc H M M' Lw Lp Psh L) as (g & g' & E & E' & Rg & Eg). rewrite (Ok_bind _ _ _ E), (Ok_bind _ _ _ E').
    apply times_grid3; auto. apply no_points.
  Qed.
  Lemma both_Phi : both "_Phi" (c * b) CF.
  Proof using Hc H S M'.
    unfold both. change (times (c * b) CF (bind (Phi q x) (fun v => Ok (of_grid v))) (bind (Phi q' x') (fun v => Ok (of_grid v)))).
    destruct (Phi_rescaled c b q q' x Hc H M M' Lw Lp Psh L) as (F & E & E'). rewrite (Ok_bind _ _ _ E), (Ok_bind _ _ _ E'). now apply times_sample.
  Qed.
  Lemma both_Phi_net : both "_Phi_with_net_current" (c * b) CF.
  Proof using Hc H S M'.
    unfold both. change (times (c * b) CF (bind (Phi_with_net_current q x) (fun v => Ok (of_grid v))) (bind (Phi_with_net_current q' x') (fun v => Ok (of_grid v)))).
    destruct (Phi_net_rescaled c b q q' x Hc H M M' Lw Lp Psh L) as (F & E & E'). rewrite (Ok_bind _ _ _ E), (Ok_bind _ _ _ E'). now apply times_sample.
  Qed.
  Lemma both_Phi2 : both "_Phi2" (c * b * (c * b)) CF.
  Proof using Hc H S M'.
    unfold both. change (times (c * b * (c * b)) CF (bind (Phi2 q x) (fun v => Ok (of_grid v))) (bind (Phi2 q' x') (fun v => Ok (of_grid v)))).
    destruct (Phi_rescaled c b q q' x Hc H M M' Lw Lp Psh L) as (F & E & E'). fold x' in E'. unfold Phi2. rewrite E, E'. cbn [bind]. rewrite !gmap_sample.
    erewrite (sample_ext (fun p t => c * b * F p t * (c * b * F p t))); [now apply times_sample|]. intros. cbv beta. ring.
  Qed.
  Lemma both_f_Phi : both "_f_Phi" (c * b * (c * b) * (c * c)) [].
  Proof using Hc H S M'.
    unfold both. change (times (c * b * (c * b) * (c * c)) [] (bind (f_Phi q x) (fun v => Ok (scal v))) (bind (f_Phi q' x') (fun v => Ok (scal v)))).
    destruct (f_Phi_rescaled c b q q' x Hc H M M' Lw Lp Psh L) as (v & E & E'). rewrite (Ok_bind _ _ _ E), (Ok_bind _ _ _ E'). now apply times_number.
  Qed.
  Lemma both_da : times (c * c) CF (Ok (params_da q)) (Ok (params_da q')).
  Proof using Hc H S M'.
    unfold params_da. destruct (da_rescaled c b q q' x Hc H M M' Lw Lp Psh L) as (F & -> & ->). now apply times_sample.
  Qed.
  Lemma both_nfp : INR (q_nfp q') = INR (q_nfp q).
  Proof using H. now rewrite (proj2 (rescaled_cols c b q q' H)). Qed.

  Lemma every_quantity :
    (q_stellsym q = true -> reported "K_theta" (c * b) CF) /\
    List.Forall (fun e => reported (fst (fst e)) (snd (fst e)) (snd e))
    [ ("K", b, CV); ("K2", b * b, CF); ("f_max_K2", b * b, []); ("f_huber_K", c * c * b, []);
      ("f_K", b * b * (c * c), []); ("K_dot_grad_K", b * b / c, CV); ("K_dot_grad_K_cyl", b * b / c, CV);
      ("f_max_K_dot_grad_K_cyl", b * b / c, []); ("winding_surface_B", b, PV); ("Bnormal", b, PF); ("Bnormal2", b * b, PF);
      ("f_B", b * b * (c * c), []); ("f_B_normalized_by_Bnormal_IG", 1, []); ("f_max_Bnormal", b, []); ("f_max_Bnormal2", b * b, []);
      ("f_max_force_cyl", b * b, []); ("f_l1_force_cyl", c * c * (b * b), []); ("f_max_force2_cyl", sq (b * b), []);
      ("Phi", c * b, CF); ("Phi_with_net_current", c * b, CF); ("Phi2", c * b * (c * b), CF); ("f_max_Phi", c * b, []);
      ("f_max_Phi2", sq (c * b), []); ("f_max_Phi4", sq (sq (c * b)), []); ("f_l1_Phi", c * c * (c * b), []);
      ("f_Phi", c * b * (c * b) * (c * c), []) ].
  Proof using Hc Hb H S M'.
    assert (Hcb : 0 < c * b) by (apply Rmult_lt_0_compat; assumption). assert (Hbb : 0 < b * b) by (apply Rmult_lt_0_compat; assumption).
    assert (Hbc : 0 < b * b / c) by (apply Rdiv_lt_0_compat; assumption). destruct sizes as (Z1 & Z2 & Z3 & Z4).
    split; [intros St; eexists; split; [reflexivity|]; exact (both_K_theta St)|].
    repeat apply Forall_cons; [..|apply Forall_nil]; cbn [fst snd]; eexists; (split; [reflexivity|]).
    - exact both_K.
    - exact both_K2.
    - exact (times_linf _ false _ _ _ _ _ _ (Rlt_le _ _ Hbb) Z2 both_K2).
    - exact (times_huber params params_da (fun q => INR (q_nfp q)) (implementation "_K") q q' _ _ _ _ _ _ (Rlt_le _ _ Hb) both_nfp both_da both_K).
    - exact both_f_K.
    - exact both_KK.
    - exact both_KKc.
    - exact (times_linf _ false _ _ _ _ _ _ (Rlt_le _ _ Hbc) Z1 both_KKc).
    - exact both_B.
    - exact both_Bnormal.
    - exact both_Bnormal2.
    - exact both_f_B.
    - exact both_f_B_normalized.
    - exact (times_linf _ false _ _ _ _ _ _ (Rlt_le _ _ Hb) Z4 both_Bnormal).
    - exact (times_linf _ false _ _ _ _ _ _ (Rlt_le _ _ Hbb) Z4 both_Bnormal2).
    - exact (times_linf _ false _ _ _ _ _ _ (Rlt_le _ _ Hbb) Z1 both_force).
    - exact (times_l1 params params_da (fun q => INR (q_nfp q)) (implementation "_force_cyl") q q' _ _ _ _ [3%nat] _ _ (Rlt_le _ _ Hbb) both_nfp (or_intror eq_refl) both_da both_force).
    - exact (times_linf _ true _ _ _ _ _ _ (Rlt_le _ _ Hbb) Z1 both_force).
    - exact both_Phi.
    - exact both_Phi_net.
    - exact both_Phi2.
    - exact (times_linf _ false _ _ _ _ _ _ (Rlt_le _ _ Hcb) Z2 both_Phi).
    - exact (times_linf _ true _ _ _ _ _ _ (Rlt_le _ _ Hcb) Z2 both_Phi).
    - exact (times_linf4 _ _ _ _ _ _ _ Z2 both_Phi).
    - exact (times_l1 params params_da (fun q => INR (q_nfp q)) (implementation "_Phi") q q' _ _ _ _ [] _ _ (Rlt_le _ _ Hcb) both_nfp (or_introl eq_refl) both_da both_Phi).
    - exact both_f_Phi.
  Qed.
End Every.
