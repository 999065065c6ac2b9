(** The self-force of any parameter object: orthogonality to the current,
    quadratic scaling, agreement of the two versions. *)
From Coq Require Import String List Bool Arith ZArith Reals Lra Lia.
From Verif Require Import Base ModelArray ModelMath SpecMath ProofMath ModelSurface SpecSurface ProofSurface ProofSurface2
  ProofLinear SpecWinding ProofWinding4 ModelParams ModelField SpecField ProofField ProofField2 ModelForce SpecForce ProofForce ProofForce2.
Import ListNotations.
Open Scope R_scope.

Ltac vecs := cbn [vx vy vz m_x m_y m_z].

(** ** The masked sum on every grid *)
Definition hit (i j fp p t : nat) : bool := Nat.eqb fp 0 && Nat.eqb p i && Nat.eqb t j.
Lemma masked_form nfp n m ny my gy gx nx k a S D :
  rect (nfp * n) m gx -> rect (nfp * n) m nx -> rect n m a -> rect n m S -> rect n m D ->
  rect ny my gy -> rect ny my k ->
  exists s d, integrate_force gy gx nx k a S D nfp = Ok (s, d) /\ rect ny my s /\ rect ny my d /\
    forall i j, (i < ny)%nat -> (j < my)%nat ->
      add3 (at2 zero3 s i j) (at2 zero3 d i j) =
      vsum_upto nfp (fun fp => vsum_upto n (fun p => vsum_upto m (fun t =>
        pair_force_unless (hit i j fp p t) (at2 zero3 gy i j) (at2 zero3 k i j)
          (at2 zero3 gx (fp * n + p) t) (at2 zero3 nx (fp * n + p) t) (at2 0 a p t) (at2 mzero3 S p t) (at2 mzero3 D p t)))).
Proof.
  intros Hx Hn Ha HS HD Hy Hk. unfold integrate_force, reshape_ok.
  replace (length S) with n by (symmetry; apply HS). replace (length gx) with (nfp * n)%nat by (symmetry; apply Hx).
  rewrite Nat.eqb_refl. pose proof (rect_gmap2 pair ny my _ _ Hy Hk) as Hp.
  eexists _, _. split; [reflexivity|]. split; [|split]; try apply (rect_enumerate _ ny my _ Hp).
  intros i j Hi Hj. rewrite !(enumerate_grid _ (zero3, zero3) zero3 ny my _ i j Hp Hi Hj).
  rewrite (at2_gmap2 pair zero3 zero3 _ ny my) by auto. unfold contracted. cbn [fst snd]. rewrite !vecmat_contract.
  rewrite !contract_sum, !map_map, <- sum3_plus.
  set (kk := at2 zero3 k i j). set (y := at2 zero3 gy i j).
  rewrite (sum_sources nfp n m gx nx a S D Hx Hn Ha HS HD (fun s => add3 (contract kk (mscale3 (single_kernel (self_mask i j s) y s) (so_single s)))
      (contract kk (mscale3 (double_kernel (self_mask i j s) y s) (so_double s))))).
  apply vsum_upto_ext. intros fp Hf. apply vsum_upto_ext. intros p Hpp. apply vsum_upto_ext. intros t Ht.
  rewrite !contract_scale. unfold pair_force_unless, single_kernel, double_kernel, self_mask, hit, src.
  cbn [so_x so_n so_da so_single so_double so_fp so_phi so_theta].
  destruct (Nat.eqb fp 0 && Nat.eqb p i && Nat.eqb t j).
  - rewrite !scale3_0. apply add3_0_l.
  - rewrite masked_plain. reflexivity.
Qed.

Section Force.
  Variables (q : params) (x : list R).
  Hypothesis M : made q.
  Hypothesis Lg : legal (q_winding q).
  Hypothesis L : length x = q_ndofs q.
  Let nfp := s_nfp (q_winding q).
  Let ps := s_qphi (q_winding q).
  Let ts := s_qtheta (q_winding q).
  Let n := (length ps / nfp)%nat.
  Let m := length ts.
  Let P p t := pt (q_winding q) 0 0 p t.
  (** Area element. *)
  Definition area p t := s_dphi (q_winding q) * s_dtheta (q_winding q) * norm3 (wn q p t).
  Definition force_term (i j fp p t : nat) : vec3 :=
    let y := P (nth i (q_qphi q) 0) (nth j (q_qtheta q) 0) in
    let k := kval q x (nth i (q_qphi q) 0) (nth j (q_qtheta q) 0) in
    let xp := nth (fp * n + p) ps 0 in let xt := nth t ts 0 in let xp0 := nth p ps 0 in
    pair_force_unless (hit i j fp p t) y (project_arr_cylindrical y k) (P xp xt) (un q xp xt) (area xp0 xt)
      (project_both (P xp0 xt) (single_of q x xp0 xt)) (project_both (P xp0 xt) (double_of q x xp0 xt)).
  Definition force_total (i j : nat) : vec3 :=
    vsum_upto nfp (fun fp => vsum_upto n (fun p => vsum_upto m (fun t => force_term i j fp p t))).

  Lemma force_arrays : exists gx nx a S D,
    gamma (q_winding q) = Ok gx /\ unitnormal (q_winding q) = Ok nx /\ da (q_winding q) = Ok a /\
    force_integrands_xyz q x OnDivide = Ok (S, D) /\
    gamma (q_eval q) = Ok (sample P (q_qphi q) (q_qtheta q)) /\ K q x OnEval = Ok (sample (kval q x) (q_qphi q) (q_qtheta q)) /\
    gx = sample P ps ts /\ nx = sample (un q) ps ts /\ a = sample area ps ts /\
    S = sample (single_of q x) (firstn n ps) ts /\ D = sample (double_of q x) (firstn n ps) ts.
  Proof using M Lg L.
    destruct (made_facts q M) as (Hn & Hm & _ & _ & Ce & Cw & _).
    eexists _, _, _, _, _. split; [unfold gamma; apply (gammadash_copy _ _ _ _ 0 0 Lg Cw)|].
    split; [apply (unitnormal_copy _ _ _ _ Lg Cw)|]. split; [apply (da_copy _ _ _ _ Lg Cw)|].
    split; [rewrite integrands_made by auto; reflexivity|].
    split; [unfold gamma; apply (gammadash_copy _ _ _ _ 0 0 Lg Ce)|]. split; [rewrite K_made by auto; reflexivity|].
    repeat split.
  Qed.
  Lemma force_form : exists out, force_cyl q x = Ok out /\ rect (length (q_qphi q)) (length (q_qtheta q)) out /\
    forall i j, (i < length (q_qphi q))%nat -> (j < length (q_qtheta q))%nat -> at2 zero3 out i j = force_total i j.
  Proof using M Lg L.
    destruct (made_facts q M) as (Hn & Hm & _). fold ps nfp in Hn, Hm.
    assert (Hlen : length ps = (nfp * n)%nat) by (apply Nat.div_exact; auto).
    assert (Hn1 : (n <= nfp * n)%nat) by nia.
    assert (Hfl : length (firstn n ps) = n) by (rewrite firstn_length; lia).
    destruct force_arrays as (gx & nx & a & S & D & Egx & Enx & Ea & Ei & Egy & Ek & Gx & Nx & A & SS & DD).
    set (gy := sample P (q_qphi q) (q_qtheta q)) in *. set (k := sample (kval q x) (q_qphi q) (q_qtheta q)) in *.
    assert (Rgx : rect (nfp * n) m gx) by (rewrite Gx, <- Hlen; apply rect_sample).
    assert (Rnx : rect (nfp * n) m nx) by (rewrite Nx, <- Hlen; apply rect_sample).
    assert (Ra : rect (nfp * n) m a) by (rewrite A, <- Hlen; apply rect_sample).
    assert (RS : rect n m S) by (rewrite SS, <- Hfl at 1; apply rect_sample).
    assert (RD : rect n m D) by (rewrite DD, <- Hfl at 1; apply rect_sample).
    assert (Ra1 : rect n m (firstn n a)) by (replace n with (Nat.min n (nfp * n)) at 1 by lia; now apply rect_firstn).
    assert (Rg1 : rect n m (firstn n gx)) by (replace n with (Nat.min n (nfp * n)) at 1 by lia; now apply rect_firstn).
    assert (Rgy : rect (length (q_qphi q)) (length (q_qtheta q)) gy) by apply rect_sample.
    assert (Rk : rect (length (q_qphi q)) (length (q_qtheta q)) k) by apply rect_sample.
    assert (Rk' := rect_gmap2 project_arr_cylindrical _ _ _ _ Rgy Rk).
    assert (RS' := rect_gmap2 project_both n m _ _ Rg1 RS). assert (RD' := rect_gmap2 project_both n m _ _ Rg1 RD).
    destruct (masked_form nfp n m _ _ gy gx nx _ _ _ _ Rgx Rnx Ra1 RS' RD' Rgy Rk') as (s & d & E & Rs & Rd & F).
    exists (gmap2 add3 s d). split; [|split].
    - unfold force_cyl. rewrite Ei, Egx, Egy, Ea, Ek, Enx. cbn [bind fst snd]. unfold force_from_arrays, first_rows, q_nfp.
      fold ps nfp n. rewrite E. reflexivity.
    - now apply rect_gmap2.
    - intros i j Hi Hj. rewrite (at2_gmap2 add3 zero3 zero3 _ _ _ _ _ _ _ Rs Rd) by auto. rewrite F by auto.
      apply vsum_upto_ext. intros fp Hf. apply vsum_upto_ext. intros p Hp. apply vsum_upto_ext. intros t Ht.
      assert (Hlt : (fp * n + p < nfp * n)%nat) by nia. assert (Hlt' : (p < nfp * n)%nat) by lia.
      rewrite (at2_gmap2 project_arr_cylindrical zero3 zero3 _ _ _ _ _ _ _ Rgy Rk) by auto.
      rewrite !(at2_gmap2 project_both zero3 mzero3 _ n m) by auto.
      replace (at2 0 (firstn n a) p t) with (at2 0 a p t) by (unfold at2; now rewrite nth_firstn').
      replace (at2 zero3 (firstn n gx) p t) with (at2 zero3 gx p t) by (unfold at2; now rewrite nth_firstn').
      subst gx nx a S D. unfold gy, k. rewrite !at2_sample by (auto; rewrite ?Hlen, ?Hfl; auto).
      rewrite nth_firstn' by auto. reflexivity.
  Qed.
End Force.

(** ** Orthogonality *)
Definition antisym (A : mat3) : Prop :=
  vx (m_x A) = 0 /\ vy (m_y A) = 0 /\ vz (m_z A) = 0 /\
  vy (m_x A) = - vx (m_y A) /\ vz (m_x A) = - vx (m_z A) /\ vz (m_y A) = - vy (m_z A).
Ltac vall := cbv [antisym mscale3 madd3 msub3 outer3 sub3 add3 scale3 vx vy vz m_x m_y m_z].
Lemma antisym_orth k A : antisym A -> dot3 (contract k A) k = 0.
Proof.
  destruct k, A as [[] [] []]. unfold antisym, dot3, contract. vecs. intros (-> & -> & -> & -> & -> & ->). ring.
Qed.
Definition comb3 (u a b c : vec3) : vec3 := add3 (scale3 (vx u) a) (add3 (scale3 (vy u) b) (scale3 (vz u) c)).
Lemma project_first_form g a b c : project_first g (M3 a b c) =
  M3 (comb3 (r_unit g) a b c) (comb3 (cross3 z_unit (r_unit g)) a b c) (comb3 z_unit a b c).
Proof.
  unfold project_first, project_arr_cylindrical, project_arr_coord. set (r := r_unit g). set (f := cross3 z_unit r). clearbody r f.
  destruct a, b, c, r, f. unfold comb3, swapaxes, z_unit, dot3, add3, scale3. vecs. f_equal; apply v3_eq; ring.
Qed.
Lemma project_both_form g a b c a' b' c' a'' b'' c'' : project_both g (M3 (V3 a b c) (V3 a' b' c') (V3 a'' b'' c'')) =
  let r := r_unit g in let f := cross3 z_unit r in let z := z_unit in
  let e (u v : vec3) := vx u * (vx v * a + vy v * b + vz v * c) + vy u * (vx v * a' + vy v * b' + vz v * c')
                        + vz u * (vx v * a'' + vy v * b'' + vz v * c'') in
  M3 (V3 (e r r) (e r f) (e r z)) (V3 (e f r) (e f f) (e f z)) (V3 (e z r) (e z f) (e z z)).
Proof.
  unfold project_both. rewrite project_first_form. cbv zeta. set (r := r_unit g). set (f := cross3 z_unit r). set (z := z_unit). 
  unfold swapaxes at 2. vecs. rewrite project_first_form. fold r f z. clearbody z r f. destruct r, f, z.
  unfold comb3, swapaxes, add3, scale3. vecs. f_equal; apply v3_eq; ring.
Qed.
Lemma antisym_project g A : antisym A -> antisym (project_both g A).
Proof.
  destruct A as [[a b c] [a' b' c'] [a'' b'' c'']]. rewrite project_both_form. cbv zeta.
  set (r := r_unit g). set (f := cross3 z_unit r). set (z := z_unit). clearbody z r f. destruct r, f, z. unfold antisym. vecs.
  intros (-> & -> & -> & -> & -> & ->). repeat split; ring.
Qed.
Lemma antisym_double n k : antisym (double_at n k).
Proof.
  destruct n, k. unfold double_at; vall. repeat split; ring.
Qed.
Lemma antisym_single n n1 n2 g1 g2 k k1 k2 : dot3 n g1 = 0 -> dot3 n g2 = 0 -> antisym (single_at n n1 n2 g1 g2 k k1 k2).
Proof.
  intros H1 H2. unfold single_at, div_pi_at. rewrite H1, H2. set (c := div_n_at n1 n2 g1 g2). clearbody c. clear H1 H2.
  destruct n, n1, n2, g1, g2, k, k1, k2.
  vall. repeat split; ring.
Qed.
Lemma normal_grad g1 g2 c : dot3 (scale3 c (cross3 g1 g2)) (grad1_at g1 g2) = 0 /\ dot3 (scale3 c (cross3 g1 g2)) (grad2_at g1 g2) = 0.
Proof.
  unfold grad1_at, grad2_at. set (w := / dot3 (cross3 g1 g2) (cross3 g1 g2)). clearbody w.
  destruct g1, g2. unfold dot3, cross3, scale3; vecs. split; ring.
Qed.
Lemma antisym_single_of q x p t : antisym (single_of q x p t).
Proof. apply antisym_single; unfold un, wn, nrm, w1, w2; apply normal_grad. Qed.
Lemma dot3_add u v w : dot3 (add3 u v) w = dot3 u w + dot3 v w.
Proof. destruct u, v, w. unfold dot3, add3; cbn. ring. Qed.
Lemma dot3_scale c u w : dot3 (scale3 c u) w = c * dot3 u w.
Proof. destruct u, w. unfold dot3, scale3; cbn. ring. Qed.
Lemma dot3_vsum n f w : (forall i, (i < n)%nat -> dot3 (f i) w = 0) -> dot3 (vsum_upto n f) w = 0.
Proof.
  induction n as [|n IH]; intros H; cbn [vsum_upto]; [unfold dot3; cbn; ring|]. rewrite dot3_add, IH, H; auto. ring.
Qed.
Lemma pair_orth skip y k x n a S D : antisym S -> antisym D -> dot3 (pair_force_unless skip y k x n a S D) k = 0.
Proof.
  intros HS HD. unfold pair_force_unless. destruct skip; [unfold dot3; cbn; ring|].
  rewrite dot3_add, !dot3_scale, !antisym_orth by auto. ring.
Qed.
Theorem force_orthogonal q x : made q -> legal (q_winding q) -> length x = q_ndofs q ->
  exists out gy k, force_cyl q x = Ok out /\ gamma (q_eval q) = Ok gy /\ K q x OnEval = Ok k /\
    rect (length (q_qphi q)) (length (q_qtheta q)) out /\
    forall i j, (i < length (q_qphi q))%nat -> (j < length (q_qtheta q))%nat ->
      dot3 (at2 zero3 out i j) (project_arr_cylindrical (at2 zero3 gy i j) (at2 zero3 k i j)) = 0.
Proof.
  intros M Lg L. destruct (force_form q x M Lg L) as (out & E & R & F).
  destruct (force_arrays q x M Lg L) as (_ & _ & _ & _ & _ & _ & _ & _ & _ & Egy & Ek & _).
  exists out. eexists _, _. split; [exact E|]. split; [exact Egy|]. split; [exact Ek|]. split; [exact R|].
  intros i j Hi Hj. rewrite F, !at2_sample by auto. unfold force_total.
  apply dot3_vsum. intros fp _. apply dot3_vsum. intros p _. apply dot3_vsum. intros t _. unfold force_term.
  apply pair_orth; apply antisym_project; [apply antisym_single_of|apply antisym_double].
Qed.

(** ** Scaling *)
Lemma ldot_scaled c (a x : list R) : ldot a (map (Rmult c) x) = c * ldot a x.
Proof. revert x. induction a as [|u a IH]; intros [|v x]; cbn [map]; unfold ldot; cbn; try ring. fold (ldot a (map (Rmult c) x)) (ldot a x). rewrite IH. ring. Qed.
Lemma contract_scale_k c k A : contract (scale3 c k) A = scale3 c (contract k A).
Proof. destruct k, A as [[] [] []]. v3. Qed.
Lemma scale3_scale3 a b v : scale3 a (scale3 b v) = scale3 (a * b) v.
Proof. destruct v. v3. Qed.
Lemma scale3_add c u v : scale3 c (add3 u v) = add3 (scale3 c u) (scale3 c v).
Proof. destruct u, v. v3. Qed.
Lemma scale3_vsum c n f : scale3 c (vsum_upto n f) = vsum_upto n (fun i => scale3 c (f i)).
Proof. induction n as [|n IH]; cbn [vsum_upto]; [unfold scale3; cbn; f_equal; ring|]. now rewrite scale3_add, IH. Qed.
Lemma project_scale g c k : project_arr_cylindrical g (scale3 c k) = scale3 c (project_arr_cylindrical g k).
Proof.
  destruct g, k. unfold project_arr_cylindrical, project_arr_coord, r_unit, z_unit, cross3, dot3, scale3; vecs.
  set (w := norm3 _). apply v3_eq; unfold Rdiv; ring.
Qed.
Lemma project_both_scale g c A : project_both g (mscale3 c A) = mscale3 c (project_both g A).
Proof.
  destruct A as [[x y z] [x' y' z'] [x'' y'' z'']]. unfold mscale3 at 1, scale3. vecs. rewrite !project_both_form. cbv zeta.
  set (r := r_unit g). set (f := cross3 z_unit r). set (w := z_unit). clearbody w r f. destruct r, f, w.
  unfold mscale3, scale3. vecs. f_equal; apply v3_eq; ring.
Qed.
Lemma single_scale n n1 n2 g1 g2 k k1 k2 c :
  single_at n n1 n2 g1 g2 (scale3 c k) (scale3 c k1) (scale3 c k2) = mscale3 c (single_at n n1 n2 g1 g2 k k1 k2).
Proof.
  unfold single_at. set (dp := div_pi_at n n1 n2 g1 g2). set (dn := div_n_at n1 n2 g1 g2). clearbody dp dn.
  destruct n, g1, g2, k, k1, k2, dp. vall.
  f_equal; apply v3_eq; ring.
Qed.
Lemma double_scale n k c : double_at n (scale3 c k) = mscale3 c (double_at n k).
Proof.
  destruct n, k. unfold double_at; vall. f_equal; apply v3_eq; ring.
Qed.
Lemma pair_scale c skip y k x n a S D :
  pair_force_unless skip y (scale3 c k) x n a (mscale3 c S) (mscale3 c D) = scale3 (c * c) (pair_force_unless skip y k x n a S D).
Proof.
  unfold pair_force_unless. destruct skip; [unfold scale3; cbn; f_equal; ring|].
  rewrite !contract_scale, !contract_scale_k, scale3_add, !scale3_scale3. f_equal; f_equal; ring.
Qed.
Lemma kval_scale c q q' x p t : scaled c q q' ->
  kval q' (map (Rmult c) x) p t = scale3 c (kval q x p t) /\
  kd1 q' (map (Rmult c) x) p t = scale3 c (kd1 q x p t) /\ kd2 q' (map (Rmult c) x) p t = scale3 c (kd2 q x p t).
Proof.
  intros ((E1 & E2 & E3 & E4 & E5 & E6 & E7 & E8 & E9) & HG & HI & _).
  unfold kval, kd1, kd2, dgw, wn, w1, w2, phi1, phi2, phi11, phi12, phi22. unfold td, tr, fphi, fpp, fpt, targ, q_nfp, qcols.
  rewrite ?E1, ?E2, ?E3, ?E4, ?E5, ?E6, ?E7, ?E8, ?E9, HG, HI, !ldot_scaled.
  destruct (dga_at _ _ _ _ _ _) as [[[d11 d12] d21] d22]. unfold kd_at, sub3, add3, scale3; vecs.
  repeat split; apply v3_eq; ring.
Qed.
Theorem force_quadratic c q q' x : made q -> made q' -> legal (q_winding q) -> length x = q_ndofs q -> scaled c q q' ->
  exists f f', force_cyl q x = Ok f /\ force_cyl q' (map (Rmult c) x) = Ok f' /\
    rect (length (q_qphi q)) (length (q_qtheta q)) f /\ rect (length (q_qphi q)) (length (q_qtheta q)) f' /\
    forall i j, (i < length (q_qphi q))%nat -> (j < length (q_qtheta q))%nat ->
      at2 zero3 f' i j = scale3 (c * c) (at2 zero3 f i j).
Proof.
  intros M M' Lg L Sc. pose proof Sc as ((E1 & E2 & E3 & E4 & E5 & E6 & E7 & E8 & E9) & _).
  destruct (force_form q x M Lg L) as (f & E & R & F).
  destruct (force_form q' (map (Rmult c) x) M') as (f' & E' & R' & F').
  { now rewrite E2. } { now rewrite map_length, E9. }
  exists f, f'. split; [exact E|]. split; [exact E'|]. split; [exact R|].
  assert (Ep : q_qphi q' = q_qphi q) by auto. assert (Et : q_qtheta q' = q_qtheta q) by auto.
  rewrite Ep, Et in R', F'. split; [exact R'|]. intros i j Hi Hj. rewrite F, F' by auto.
  unfold force_total. rewrite E2. rewrite scale3_vsum. apply vsum_upto_ext. intros fp _. rewrite scale3_vsum. apply vsum_upto_ext. intros p _.
  rewrite scale3_vsum. apply vsum_upto_ext. intros t _. unfold force_term, area. rewrite Ep, Et.
  unfold single_of, double_of, un, und. unfold wn, w1, w2. rewrite E2.
  destruct (kval_scale c q q' x (nth i (q_qphi q) 0) (nth j (q_qtheta q) 0) Sc) as [K1 _].
  destruct (kval_scale c q q' x (nth p (s_qphi (q_winding q)) 0) (nth t (s_qtheta (q_winding q)) 0) Sc) as (K2 & K3 & K4).
  rewrite K1, K2, K3, K4, project_scale, single_scale, double_scale, !project_both_scale. apply pair_scale.
Qed.

(** ** Agreement of the two versions *)
Theorem legacy_agrees q x : made q -> legal (q_winding q) -> length x = q_ndofs q -> default_eval q ->
  (forall gx, gamma (q_winding q) = Ok gx -> distinct_nodes (length (s_qphi (q_winding q))) (length (s_qtheta (q_winding q))) gx) ->
  exists f, force_cyl q x = Ok f /\ force_cyl_legacy q x = Ok f.
Proof.
  intros M Lg L De Dn. destruct (force_sum q x M Lg L De Dn) as (gx & nx & a & gy & k & S & D & out & Egx & Enx & Ea & Egy & Ek & Ei & E & R & F).
  exists out. split; [exact E|]. 
  destruct (made_facts q M) as (Hn & Hm & _ & _ & _ & _). pose proof De as [De1 De2].
  set (nfp := s_nfp (q_winding q)) in *. set (ps := s_qphi (q_winding q)) in *. set (ts := s_qtheta (q_winding q)) in *.
  set (n := (length ps / nfp)%nat) in *. set (m := length ts) in *.
  assert (Hlen : length ps = (nfp * n)%nat) by (apply Nat.div_exact; auto).
  assert (Hn1 : (n <= nfp * n)%nat) by nia.
  assert (Hfl : length (firstn n ps) = n) by (rewrite firstn_length; lia).
  destruct (force_arrays q x M Lg L) as (gx' & nx' & a' & S' & D' & Egx' & Enx' & Ea' & Ei' & Egy' & Ek' & Gx & Nx & A & SS & DD).
  replace gx' with gx in Gx by congruence. replace nx' with nx in Nx by congruence. replace a' with a in A by congruence.
  replace S' with S in SS by congruence. replace D' with D in DD by congruence.
  fold nfp ps ts n in Gx, Nx, A, SS, DD. 
  assert (Ek2 : K q x OnDivide = Ok k). { rewrite <- Ek, !K_made by auto. cbn [sel_quadpoints]. rewrite De1, De2. reflexivity. }
  assert (Gy : gy = firstn n gx). { rewrite Egy' in Egy. injection Egy as <-. rewrite Gx, firstn_sample, De1, De2. reflexivity. }
  assert (Rgx : rect (nfp * n) m gx) by (rewrite Gx, <- Hlen; apply rect_sample).
  assert (Rnx : rect (nfp * n) m nx) by (rewrite Nx, <- Hlen; apply rect_sample).
  assert (Ra : rect (nfp * n) m a) by (rewrite A, <- Hlen; apply rect_sample).
  assert (RS : rect n m S) by (rewrite SS, <- Hfl at 1; apply rect_sample).
  assert (RD : rect n m D) by (rewrite DD, <- Hfl at 1; apply rect_sample).
  assert (Ra1 : rect n m (firstn n a)) by (replace n with (Nat.min n (nfp * n)) at 1 by lia; now apply rect_firstn).
  assert (Rgy : rect n m gy) by (rewrite Gy; replace n with (Nat.min n (nfp * n)) at 1 by lia; now apply rect_firstn).
  assert (Rk : rect n m k). { rewrite Ek' in Ek. injection Ek as <-. rewrite De1, De2, <- Hfl at 1. apply rect_sample. }
  assert (Rk' := rect_gmap2 project_arr_cylindrical _ _ _ _ Rgy Rk).
  assert (RS' := rect_gmap2 project_both n m _ _ Rgy RS). assert (RD' := rect_gmap2 project_both n m _ _ Rgy RD).
  destruct (legacy_integral nfp n m _ _ gy gx nx _ _ _ _ Rgx Rnx Ra1 RS' RD' Rgy Rk') as (s & d & El & Rs & Rd & Fl).
  unfold force_cyl_legacy. rewrite Ei, Egx, Ea, Ek2, Enx. cbn [bind fst snd]. unfold first_rows, q_nfp. fold ps nfp n. rewrite <- Gy, El. cbn [bind fst snd].
  f_equal. apply (rect_ext zero3 n m); [now apply rect_gmap2|exact R|].
  intros i j Hi Hj. rewrite F by auto. rewrite (at2_gmap2 add3 zero3 zero3 _ n m) by auto. rewrite Fl by auto. unfold direct_force, pairwise_sum.
  apply vsum_upto_ext. intros fp Hf. apply vsum_upto_ext. intros p Hp. apply vsum_upto_ext. intros t Ht.
  rewrite (at2_gmap2 project_arr_cylindrical zero3 zero3 _ n m) by auto. rewrite !(at2_gmap2 project_both zero3 mzero3 _ n m) by auto.
  replace (at2 0 (firstn n a) p t) with (at2 0 a p t) by (unfold at2; now rewrite nth_firstn').
  replace (at2 zero3 gy p t) with (at2 zero3 gx p t) by (rewrite Gy; unfold at2; now rewrite nth_firstn'). reflexivity.
Qed.
