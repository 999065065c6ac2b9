(** The self-force of a parameter object: the arrays it is built from, and the
    pairwise sum. *)
From Coq Require Import String List Bool Arith ZArith Reals Lra Lia.
From Verif Require Import Base ModelArray ModelMath SpecMath ProofMath ModelSurface SpecSurface ProofSurface ProofSurface2
  ProofLinear SpecWinding ProofWinding4 ModelParams ModelField SpecField ProofField ProofField2 ModelForce SpecForce ProofForce.
Import ListNotations.
Open Scope R_scope.

Lemma sel_divide q : made q -> exists s, sel_surface q OnDivide = Ok s /\
  resampled (q_winding q) (fst (sel_quadpoints q OnDivide)) (snd (sel_quadpoints q OnDivide)) s.
Proof.
  intros M. destruct (made_facts q M) as (Hn & Hm & _ & _ & _ & Cw & _). cbn [sel_quadpoints fst snd sel_surface].
  assert (Hp : s_qphi (q_winding q) <> []). { intros E. unfold resampled, copy_and_set_quadpoints, make_surface in Cw. rewrite E in Cw. discriminate. }
  assert (Ht : s_qtheta (q_winding q) <> []).
  { intros E. unfold resampled, copy_and_set_quadpoints, make_surface in Cw. rewrite E in Cw. destruct (s_qphi (q_winding q)); discriminate. }
  match goal with |- exists s, copy_and_set_quadpoints _ (arr1 ?ps) (arr1 ?ts) = _ /\ _ =>
    destruct (copy_ok (q_winding q) ps ts) as [s C]; [|exact Ht|exists s; split; exact C] end.
  intros E. apply (f_equal (@length R)) in E. rewrite firstn_length in E. cbn [length] in E.
  assert (length (s_qphi (q_winding q)) <> 0)%nat by (destruct (s_qphi (q_winding q)); [contradiction|discriminate]).
  apply Nat.div_exact in Hm; auto. 
  assert (length (s_qphi (q_winding q)) / s_nfp (q_winding q) <> 0)%nat by (intros Z; rewrite Z, Nat.mul_0_r in Hm; contradiction).
  lia.
Qed.

Definition und q p t := unitnormaldash_at (wn q p t) (w1 q p t) (w2 q p t)
  (pt (q_winding q) 2 0 p t) (pt (q_winding q) 1 1 p t) (pt (q_winding q) 0 2 p t).
Definition un q p t := scale3 (/ norm3 (wn q p t)) (wn q p t).
Definition single_of q x p t := single_at (un q p t) (fst (und q p t)) (snd (und q p t))
  (grad1_at (w1 q p t) (w2 q p t)) (grad2_at (w1 q p t) (w2 q p t)) (kval q x p t) (kd1 q x p t) (kd2 q x p t).
Definition double_of q x p t := double_at (un q p t) (kval q x p t).

Lemma Kdash_divide q x : made q -> legal (q_winding q) -> length x = q_ndofs q ->
  exists kd a1 a2, Kdash_helper q OnDivide = Ok kd /\
    apply_vrows (kd_n kd) (kd1_op kd) x = Ok a1 /\ apply_vrows (kd_n kd) (kd2_op kd) x = Ok a2 /\
    gmap2 add3 a1 (kd1_const kd) = sample (kd1 q x) (fst (sel_quadpoints q OnDivide)) (snd (sel_quadpoints q OnDivide)) /\
    gmap2 add3 a2 (kd2_const kd) = sample (kd2 q x) (fst (sel_quadpoints q OnDivide)) (snd (sel_quadpoints q OnDivide)).
Proof.
  intros M Lg L. destruct (sel_divide q M) as (s & Es & Cs).
  unfold Kdash_helper. rewrite Es. cbn [bind].
  rewrite (normal_copy (q_winding q) _ _ _ Lg Cs). cbn [bind]. unfold gammadash1, gammadash2.
  rewrite !(gammadash_copy (q_winding q) _ _ _ _ _ Lg Cs). cbn [bind].
  rewrite diff_helper_cols. destruct (sel_quadpoints q OnDivide) as [ps ts]. cbn [bind fst snd] in *. unfold dga_inv_n_dashb.
  rewrite (from_fields_copy (q_winding q) _ _ _ _ Lg Cs). cbn [bind d_n d_trig d_trig_diff d_phi d_theta d_phi_phi d_phi_theta d_theta_theta].
  eexists _, _, _. split; [reflexivity|]. cbn [kd_n kd1_op kd2_op kd1_const kd2_const].
  rewrite !gmap2_sample, !gmap_sample, !apply_vrows_sample by (now apply cols_len).
  split; [reflexivity|]. split; [reflexivity|]. rewrite !gmap2_sample.
  split; apply sample_ext; intros p t; unfold kd1, kd2, dgw, wn, w1, w2;
    destruct (dga_at _ _ _ _ _ _) as [[[d11 d12] d21] d22]; cbn [fst snd]; rewrite !row_diag_map, vcomb_kd;
    fold (phi1 q x p t); fold (phi2 q x p t); fold (phi11 q x p t); fold (phi12 q x p t); fold (phi22 q x p t);
    unfold kd_at, add3, sub3, scale3; cbn [vx vy vz]; f_equal; ring.
Qed.

Lemma integrands_made q x : made q -> legal (q_winding q) -> length x = q_ndofs q ->
  force_integrands_xyz q x OnDivide =
    Ok (sample (single_of q x) (fst (sel_quadpoints q OnDivide)) (snd (sel_quadpoints q OnDivide)),
        sample (double_of q x) (fst (sel_quadpoints q OnDivide)) (snd (sel_quadpoints q OnDivide))).
Proof.
  intros M Lg L. destruct (sel_divide q M) as (s & Es & Cs). destruct (Kdash_divide q x M Lg L) as (kd & a1 & a2 & Ek & E1 & E2 & F1 & F2).
  unfold force_integrands_xyz. rewrite Es. cbn [bind].
  rewrite (unitnormal_copy (q_winding q) _ _ _ Lg Cs). cbn [bind].
  unfold unitnormaldash. rewrite (from_fields_copy (q_winding q) _ _ _ _ Lg Cs). cbn [bind].
  rewrite (grad_copy (q_winding q) _ _ _ Lg Cs). cbn [bind fst snd]. rewrite Ek. cbn [bind].
  rewrite K_made by auto. destruct (sel_quadpoints q OnDivide) as [ps ts]. cbn [fst snd] in *. cbn [bind].
  rewrite E1, E2. cbn [bind]. rewrite F1, F2. rewrite !gmap2_sample.
  reflexivity.
Qed.

(** ** The arrays of a parameter object *)
Lemma at2_sample {A} (d : A) F ps ts i j : (i < length ps)%nat -> (j < length ts)%nat ->
  at2 d (sample F ps ts) i j = F (nth i ps 0) (nth j ts 0).
Proof.
  intros Hi Hj. unfold at2, sample.
  rewrite (nth_indep _ [] (map (fun t => F 0 t) ts)) by (rewrite map_length; auto).
  rewrite (map_nth (fun p => map (fun t => F p t) ts) ps 0).
  rewrite (nth_indep _ d (F (nth i ps 0) 0)) by (rewrite map_length; auto). now rewrite (map_nth (fun t => F (nth i ps 0) t)).
Qed.
Lemma arrays_sum gx nx a S D nfp n m y k gx' nx' a' S' D' :
  (forall i j, (i < nfp * n)%nat -> (j < m)%nat -> at2 zero3 gx i j = at2 zero3 gx' i j /\ at2 zero3 nx i j = at2 zero3 nx' i j) ->
  (forall i j, (i < n)%nat -> (j < m)%nat -> at2 0 a i j = at2 0 a' i j /\ at2 mzero3 S i j = at2 mzero3 S' i j /\ at2 mzero3 D i j = at2 mzero3 D' i j) ->
  direct_force gx nx a S D nfp n m y k = direct_force gx' nx' a' S' D' nfp n m y k.
Proof.
  intros H1 H2. unfold direct_force. apply vsum_upto_ext. intros fp Hf. apply vsum_upto_ext. intros p Hp. apply vsum_upto_ext. intros t Ht.
  assert (fp * n + p < nfp * n)%nat by nia.
  destruct (H1 (fp * n + p)%nat t) as [-> ->]; auto. destruct (H2 p t) as (-> & -> & ->); auto.
Qed.

Theorem force_sum q x : made q -> legal (q_winding q) -> length x = q_ndofs q -> default_eval q ->
  (forall gx, gamma (q_winding q) = Ok gx -> distinct_nodes (length (s_qphi (q_winding q))) (length (s_qtheta (q_winding q))) gx) ->
  let nfp := s_nfp (q_winding q) in
  let n := (length (s_qphi (q_winding q)) / nfp)%nat in
  let m := length (s_qtheta (q_winding q)) in
  exists gx nx a gy k S D out,
    gamma (q_winding q) = Ok gx /\ unitnormal (q_winding q) = Ok nx /\ da (q_winding q) = Ok a /\
    gamma (q_eval q) = Ok gy /\ K q x OnEval = Ok k /\ force_integrands_xyz q x OnDivide = Ok (S, D) /\
    force_cyl q x = Ok out /\ rect n m out /\
    forall i j, (i < n)%nat -> (j < m)%nat ->
      at2 zero3 out i j = pairwise_sum gx nx a S D gy k nfp n m i j.
Proof.
  intros M Lg L [De Dt] Dn nfp n m. destruct (made_facts q M) as (Hn & Hm & _ & _ & Ce & Cw & _).
  assert (Hlen : length (s_qphi (q_winding q)) = (nfp * n)%nat) by (apply Nat.div_exact; auto).
  assert (Hn1 : (n <= nfp * n)%nat) by (unfold nfp; nia).
  set (ps := s_qphi (q_winding q)) in *. set (ts := s_qtheta (q_winding q)) in *.
  assert (Egx : gamma (q_winding q) = Ok (sample (pt (q_winding q) 0 0) ps ts)) by (unfold gamma; apply gammadash_copy; auto).
  assert (Egy : gamma (q_eval q) = Ok (sample (pt (q_winding q) 0 0) (firstn n ps) ts)).
  { unfold gamma. rewrite (gammadash_copy (q_winding q) _ _ _ _ _ Lg Ce). rewrite De, Dt. reflexivity. }
  assert (Enx := unitnormal_copy _ _ _ _ Lg Cw). fold ps ts in Enx.
  assert (Eda := da_copy _ _ _ _ Lg Cw). fold ps ts in Eda.
  assert (Ek : K q x OnEval = Ok (sample (kval q x) (firstn n ps) ts)).
  { rewrite K_made by auto. cbn [sel_quadpoints]. rewrite De, Dt. reflexivity. }
  assert (Ei := integrands_made q x M Lg L). cbn [sel_quadpoints fst snd] in Ei. fold ps ts nfp n in Ei.
  assert (Hfl : length (firstn n ps) = n) by (rewrite firstn_length; lia).
  specialize (Dn _ Egx). rewrite Hlen in Dn. fold m in Dn.
  set (gx := sample (pt (q_winding q) 0 0) ps ts) in *.
  set (gy := sample (pt (q_winding q) 0 0) (firstn n ps) ts) in *.
  assert (Gy : gy = firstn n gx) by (unfold gy, gx; now rewrite firstn_sample).
  match type of Enx with _ = Ok ?u => set (nx := u) in * end. match type of Eda with _ = Ok ?u => set (a := u) in * end.
  match type of Ek with _ = Ok ?u => set (k := u) in * end. match type of Ei with _ = Ok (?u, ?v) => set (S := u) in *; set (D := v) in * end.
  assert (Rgx : rect (nfp * n) m gx) by (rewrite <- Hlen; apply rect_sample).
  assert (Rnx : rect (nfp * n) m nx) by (rewrite <- Hlen; apply rect_sample).
  assert (Ra : rect (nfp * n) m a) by (rewrite <- Hlen; apply rect_sample).
  assert (Rgy : rect n m gy) by (rewrite <- Hfl; apply rect_sample).
  assert (Rk : rect n m k) by (rewrite <- Hfl; apply rect_sample).
  assert (RS : rect n m S) by (rewrite <- Hfl; apply rect_sample).
  assert (RD : rect n m D) by (rewrite <- Hfl; apply rect_sample).
  assert (Ra1 : rect n m (firstn n a)) by (replace n with (Nat.min n (nfp * n)) at 1 by lia; now apply rect_firstn).
  assert (Rk' := rect_gmap2 project_arr_cylindrical n m _ _ Rgy Rk).
  assert (RS' : rect n m (gmap2 project_both (firstn n gx) S)) by (apply rect_gmap2; auto; now rewrite <- Gy).
  assert (RD' : rect n m (gmap2 project_both (firstn n gx) D)) by (apply rect_gmap2; auto; now rewrite <- Gy).
  assert (Ai : forall i j, (i < n)%nat -> at2 zero3 gy i j = at2 zero3 gx i j).
  { intros i j Hi. rewrite Gy. unfold at2. now rewrite nth_firstn'. }
  destruct (masked_integral nfp n m n m gy gx nx (gmap2 project_arr_cylindrical gy k) (firstn n a)
    (gmap2 project_both (firstn n gx) S) (gmap2 project_both (firstn n gx) D) Rgx Rnx Ra1 RS' RD' Rgy Rk') as (s & d & E & Rs & Rd & F).
  { intros i j fp p t Hi Hj Hf Hp Ht. rewrite Ai by auto. split.
    - intros Eq. assert (Hlt : (fp * n + p < nfp * n)%nat) by nia. destruct (Dn (fp * n + p)%nat t i j Hlt Ht ltac:(lia) Hj Eq) as [E1 E2].
      assert (fp = 0%nat) by (destruct fp; [auto|nia]). subst fp. split; [|split]; auto.
    - intros (-> & -> & ->). reflexivity. }
  exists gx, nx, a, gy, k, S, D, (gmap2 add3 s d).
  do 6 (split; [assumption|]). split; [|split].
  - unfold force_cyl. rewrite Ei, Egx, Egy, Eda, Ek, Enx. cbn [bind fst snd]. unfold force_from_arrays, first_rows, q_nfp.
    fold ps nfp n. rewrite E. reflexivity.
  - now apply rect_gmap2.
  - intros i j Hi Hj. rewrite (at2_gmap2 add3 zero3 zero3 _ n m) by auto. rewrite F by auto.
    unfold direct_force, pairwise_sum. apply vsum_upto_ext. intros fp Hf. apply vsum_upto_ext. intros p Hp. apply vsum_upto_ext. intros t Ht.
    rewrite (at2_gmap2 project_arr_cylindrical zero3 zero3 _ n m) by auto.
    rewrite !(at2_gmap2 project_both zero3 mzero3 _ n m) by (auto; now rewrite <- Gy).
    replace (at2 0 (firstn n a) p t) with (at2 0 a p t) by (unfold at2; now rewrite nth_firstn').
    rewrite <- Gy, !Ai by auto. reflexivity.
Qed.
