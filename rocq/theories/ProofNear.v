(** A small gradient means a design near the best one (C133). *)
From Coq Require Import String List Bool Arith ZArith Reals Lra Lia.
From Coquelicot Require Import Coquelicot.
From Verif Require Import Base ModelArray ProofArray ModelMath SpecMath ProofMath ModelSurface SpecSurface ModelParams ModelField SpecField ProofField3
  ModelQuantity SpecQuantity ProofQuantity ProofSlack ModelWrapper SpecWrapper ProofWrapper ProofWrapper2 ModelShipped ModelPackage SpecPackage
  SpecConvex ProofPackage4 ProofConvex ModelSolver SpecSolver ProofSolver ModelQuadcoil SpecQuadcoil ProofQuadcoil ProofQuadcoil2
  SpecProblem ProofProblem ProofProblem2 ProofEnd ProofEnd2 SpecEnd ProofEnd3 ProofEnd4 SpecCert ProofCert PropConvex
  SpecBest ProofSquares ProofBest ProofUnique2 ProofAttained ProofAttained2 SpecNear.
Import ListNotations.
Open Scope R_scope.
Open Scope string_scope.
Open Scope list_scope.

(** ** Vectors *)
Notation sq a := (sumR (map (fun x => x * x) a)).
Lemma sq_nonneg a : 0 <= sq a.
Proof. induction a as [|x a IH]; unfold sumR in *; cbn; [lra|]. pose proof (Rle_0_sqr x) as Q. unfold Rsqr in Q. lra. Qed.
Lemma pencil a b x y : length a = length b -> 0 <= x * x * sq a - 2 * x * y * dotR a b + y * y * sq b.
Proof.
  revert b. induction a as [|u a IH]; intros [|v b] L; try discriminate L; unfold dotR, sumR in *; cbn; [lra|]. specialize (IH b ltac:(now injection L)).
  pose proof (Rle_0_sqr (x * u - y * v)) as Q. unfold Rsqr in Q. lra.
Qed.
Lemma cauchy a b : length a = length b -> Rabs (dotR a b) <= normR a * normR b.
Proof.
  intros L. assert (S : dotR a b * dotR a b <= sq a * sq b).
  { destruct (Rle_lt_or_eq_dec 0 (sq b) (sq_nonneg b)) as [P|Z].
    - pose proof (pencil a b (sq b) (dotR a b) L) as Q. apply (Rmult_le_reg_l (sq b)); [exact P|]. lra.
    - rewrite <- Z, Rmult_0_r. destruct (Req_dec (dotR a b) 0) as [-> |N]; [lra|]. exfalso.
      pose proof (pencil a b 1 ((sq a + 1) / (2 * dotR a b)) L) as Q. rewrite <- Z in Q.
      replace (2 * 1 * ((sq a + 1) / (2 * dotR a b)) * dotR a b) with (sq a + 1) in Q by (field; exact N). lra. }
  unfold normR. rewrite <- sqrt_mult by apply sq_nonneg. rewrite <- sqrt_Rsqr_abs. apply sqrt_le_1_alt. exact S.
Qed.
Lemma norm_nonneg a : 0 <= normR a.
Proof. apply sqrt_pos. Qed.
Lemma norm_sq a : normR a * normR a = sq a.
Proof. apply sqrt_sqrt, sq_nonneg. Qed.
Lemma norm_scale c a : normR (map (Rmult c) a) = Rabs c * normR a.
Proof.
  unfold normR. rewrite <- sqrt_Rsqr_abs, <- sqrt_mult; [|apply Rle_0_sqr|apply sq_nonneg]. f_equal. unfold Rsqr.
  induction a as [|x a IH]; unfold sumR in *; cbn; [ring|]. rewrite IH. ring.
Qed.
Lemma sq_bound a B : (forall j, (j < length a)%nat -> nth j a 0 * nth j a 0 <= B) -> sq a <= INR (length a) * B.
Proof.
  induction a as [|x a IH]; intros H; [unfold sumR; cbn; lra|]. cbn [length]. rewrite S_INR.
  assert (sq a <= INR (length a) * B) by (apply IH; intros j Hj; apply (H (S j)); cbn; lia). pose proof (H O ltac:(cbn; lia)) as HH. unfold sumR in *. cbn in *. lra.
Qed.

(** ** Slopes *)
Lemma slope_le (f : R -> R) D C K : is_derive f 0 D -> (forall t, 0 < t <= 1 -> f t <= f 0 + t * C + t * t * K) -> D <= C.
Proof.
  intros H B. apply is_derive_Reals in H. apply Rnot_lt_le. intros X. set (e := (D - C) / 2). assert (Pe : 0 < e) by (unfold e; lra).
  destruct (H e Pe) as (del & Hd). set (k := Rabs K + 1). assert (Pk : 0 < k) by (unfold k; pose proof (Rabs_pos K); lra).
  set (t := Rmin (Rmin (del / 2) 1) (e / (2 * k))). pose proof (cond_pos del) as Pd.
  assert (Pt : 0 < t). { unfold t. repeat apply Rmin_pos; try lra. apply Rdiv_lt_0_compat; lra. }
  assert (T1 : t <= 1) by (unfold t; eapply Rle_trans; [apply Rmin_l|apply Rmin_r]).
  assert (T2 : t <= del / 2) by (unfold t; eapply Rle_trans; [apply Rmin_l|apply Rmin_l]).
  assert (T3 : t * k <= e / 2). { apply (Rle_trans _ (e / (2 * k) * k)); [apply Rmult_le_compat_r; [lra|apply Rmin_r]|]. right. field. lra. }
  specialize (Hd t ltac:(lra)). rewrite (Rabs_right t) in Hd by lra. specialize (Hd ltac:(lra)). rewrite Rplus_0_l in Hd.
  apply Rabs_def2 in Hd as (_ & Hd). specialize (B t ltac:(lra)).
  assert (Hq : (f t - f 0) / t <= C + t * K). { apply (Rmult_le_reg_r t); [exact Pt|]. unfold Rdiv. rewrite Rmult_assoc, Rinv_l by lra. lra. }
  assert (HK : t * K <= t * k) by (apply Rmult_le_compat_l; [lra|unfold k; pose proof (Rle_abs K); lra]). unfold e in *. lra.
Qed.

(** ** Problems without slack variables *)
Section Plain.
  Context {LL : Type}.
  Variables (other : list string) (a : args LL) (p : prepared) (U : string -> R) (os : list objective).
  Notation q := (fn_qp (pr_fn p)).
  Hypothesis Hp : prepare (package other) a = Ok p.
  Hypothesis As : asks a os [].
  Hypothesis Hs : qc_smoothing a = Some "slack".
  Hypothesis Hm : qc_merge a = false.
  Hypothesis O : ordered q.
  Hypothesis Sa : forall x, length x = q_ndofs q -> sound q x.
  Hypothesis Uo : forall o, In o os -> 0 <= ob_weight o /\ scaled_use U q (ob_name o) (ob_unit o).
  Hypothesis Hphi : forall x, qc_phi_init a = Some x -> length x = q_ndofs q.
  Hypothesis Free : unconstrained (pr_fn p) = true.

  Lemma plain_problem : length (pr_x0 p) = q_ndofs q /\ forall z, length z = q_ndofs q ->
    let x := map (fun v => v * pr_unit p) z in
    unscale (pr_structure p) (pr_unit p) z = Ok [("phi", vec x)] /\
    exists v, f_scaled p z = Ok (scal v) /\ weighted other q (asked_terms os) x v.
  Proof using Hp As Hs Hm O Sa Uo Hphi Free.
    destruct (handed_problem (package other) a p os [] Hp As Hs Hm) as (f & po & pc & Eo & Ec & Ff & Fg & Fh & Ng & Nh & Fa).
    destruct (prepare_fields (package other) a p Hp) as (_ & _ & _ & _ & _ & _ & phi & x0 & Ephi & _ & Ex & Ex0 & Est).
    destruct (objective_parts params q_ndofs (package other) os _ f po Eo) as (l & Fo & Ef & Gg & _ & Go).
    assert (Lphi : length phi = q_ndofs q).
    { rewrite Ephi. destruct (qc_phi_init a) as [v|] eqn:Ev; [now apply Hphi|apply repeat_length]. }
    pose proof (Sa phi Lphi) as S0.
    unfold unconstrained in Free. apply andb_prop in Free as (F1 & _). apply Nat.eqb_eq in F1. rewrite Ng, app_length in F1.
    assert (Z : ModelWrapper.p_g po = []) by (destruct (ModelWrapper.p_g po); [reflexivity|cbn in F1; lia]). rewrite Gg in Z.
    assert (Zg : forall b, In b l -> ad_g b = []).
    { clear - Z. induction l as [|c l IH]; intros b I; [destruct I|]. cbn in Z. apply app_eq_nil in Z as (Z1 & Z2). destruct I as [<-|I]; [exact Z1|now apply IH]. }
    assert (Dir : forall o b, In (o, b) (combine os l) -> In o os /\ In b l /\ add_quantity q_ndofs (package other) (ob_name o) (UScalar (ob_unit o)) "f" (Some "slack") (qc_smoothing_params a) = Ok b /\
      ob_unit o <> 0 /\ In (ob_name o) direct_quantities /\ (ob_name o = "K_theta" -> q_stellsym q = true)).
    { intros o b I. pose proof (in_combine_l _ _ _ _ I) as Io. pose proof (in_combine_r _ _ _ _ I) as Ib. pose proof (F2_combine _ _ _ _ _ Fo I) as A. cbn beta in A.
      destruct (Uo o Io) as (_ & Nz & [(Is & _)|(Id & St)]); [|auto 8].
      destruct (slack_use other q phi S0 O (ob_name o) Is) as (Q & v & EQ & _ & T). 
      destruct (use_slack params q_ndofs (package other) q _ _ _ _ _ _ _ _ _ A EQ T Nz) as (G & I' & M & s & _ & Ag & _). rewrite (Zg b Ib) in Ag. discriminate Ag. }
    assert (Zs : p_slack po = []).
    { rewrite Go. assert (H : forall b, In b l -> ad_slack b = []).
      { intros b Ib. destruct (F2_in_r _ _ _ _ Fo Ib) as (o & I & A). destruct (Dir o b I) as (_ & _ & _ & Nz & Id & St).
        destruct (direct_use other q phi S0 (ob_name o) Id St) as (Q & v & EQ & _ & D).
        apply (use_direct params q_ndofs (package other) q _ _ _ _ _ _ _ _ A EQ D Nz). }
      clear - H. induction l as [|b l IH]; [reflexivity|]. cbn [fold_left]. rewrite (H b (or_introl eq_refl)). cbn. apply IH. intros; apply H; now right. }
    assert (Zc : p_slack pc = []) by (cbn in Ec; injection Ec as <-; reflexivity).
    rewrite Fa, Zs, Zc in Ex. cbn in Ex. injection Ex as <-. rewrite Ex0, Est.
    assert (Ln : length (map (fun p0 => p0 / pr_unit p) phi) = q_ndofs q) by (rewrite map_length; exact Lphi).
    split. { unfold ravel. cbn. rewrite app_nil_r. exact Ln. }
    intros z Lz x. assert (Lx : length x = q_ndofs q) by (unfold x; rewrite map_length; exact Lz).
    assert (Ed : unscale (structure [("phi_scaled", vec_arr (map (fun p0 => p0 / pr_unit p) phi))]) (pr_unit p) z = Ok [("phi", vec x)]).
    { transitivity (unscale [("phi_scaled", [length (map (fun p0 => p0 / pr_unit p) phi)])] (pr_unit p) z); [reflexivity|]. rewrite Ln.
      unfold unscale. cbn [unravel]. rewrite size_single, <- Lz, firstn_all. unfold getitem. cbn. unfold amap. cbn. unfold x. rewrite map_length. reflexivity. }
    split; [exact Ed|]. unfold f_scaled. rewrite Est, Ed. cbn [bind]. rewrite Ff, Ef.
    pose proof (Sa x Lx) as Sx.
    destruct (sum_lower params (package other) q (vec x) eq [("phi", vec x)] os l) as (ms & vs & M1 & M2 & E); [now right|exact (F2_len _ _ _ Fo)|intros o I; apply (Uo o I)| |].
    { intros o b I. destruct (Dir o b I) as (Io & _ & A & Nz & Id & St). destruct (direct_use other q x Sx (ob_name o) Id St) as (Q & v & EQ & Ev & D).
      destruct (objective_scalar other q U os [] (qc_smoothing_params a) f po O Uo ltac:(intros ? []) Eo x Sx o Q v Io EQ Ev) as (m & ->).
      destruct (use_direct params q_ndofs (package other) q (vec x) _ _ _ _ _ _ _ A EQ D Nz) as (_ & _ & _ & _ & Hf).
      exists Q, m, (m / Rabs (ob_unit o)). split; [exact EQ|]. split; [exact Ev|]. split; [exact (Hf [("phi", vec x)] eq_refl)|reflexivity]. }
    rewrite (f_tot_value params _ _ vs q _ 0); [|rewrite !map_length; exact (F2_len _ _ _ Fo)|exact M2].
    eexists. split; [reflexivity|]. rewrite Rplus_0_l, <- E. exists ms. split.
    - unfold asked_terms. apply F2_map_l. clear - M1. induction M1 as [|o m os ms (Q & E1 & E2) F IH]; constructor; [|exact IH]. exists Q. split; [now apply get_package|exact E2].
    - f_equal. unfold asked_terms. clear. revert ms. induction os as [|o l IH]; intros [|m ms]; cbn; try reflexivity. now rewrite IH.
  Qed.
End Plain.

Lemma lincomb_zero z : forall d, length z = length d -> lincomb 1 0 z d = z.
Proof. unfold lincomb. induction z as [|a z IH]; intros [|b d] E; try discriminate E; [reflexivity|]. cbn. rewrite IH by (now injection E). f_equal. ring. Qed.
Lemma sq_swap x : forall y, length x = length y -> sq (lincomb 1 (-1) y x) = sq (lincomb 1 (-1) x y).
Proof. unfold lincomb. induction x as [|b x IH]; intros [|a l] E; try discriminate E; [reflexivity|]. unfold sumR in *. cbn. rewrite IH by (now injection E). ring. Qed.

(** ** Strongly convex objectives *)
Section Near.
  Variables (other : list string) (q : params) (z0 : list R) (os : list (string * R)).
  Hypothesis S : sound q z0.
  Hypothesis Ho : convex_objective other q os.
  Variables (m0 : R).
  Hypothesis Pm : 0 < m0.
  Hypothesis Gm : forall x y j, length x = q_ndofs q -> length y = q_ndofs q -> m0 * (nth j y 0 - nth j x 0) ^ 2 <= gap q os x y.
  Notation n := (q_ndofs q).
  Definition rate : R := 2 * m0 / (INR n + 1).
  Lemma rate_pos : 0 < rate.
  Proof using Pm. unfold rate. pose proof (pos_INR n). apply Rdiv_lt_0_compat; lra. Qed.

  Lemma lincomb_sub_length x y : length x = n -> length y = n -> length (lincomb 1 (-1) x y) = n.
  Proof using. intros A B. rewrite length_lincomb; congruence. Qed.
  Lemma distance_gap x y C : length x = n -> length y = n -> gap q os x y <= C -> 0 <= C -> rate * sq (lincomb 1 (-1) x y) <= 2 * C.
  Proof using Pm Gm.
    intros Lx Ly B PC. pose proof (lincomb_sub_length x y Lx Ly) as Ld. pose proof (pos_INR n) as Pn.
    assert (H : sq (lincomb 1 (-1) x y) <= INR n * (C / m0)).
    { rewrite <- Ld at 1. apply sq_bound. intros j _. rewrite lincomb_nth by congruence. pose proof (Gm x y j Lx Ly) as G.
      apply (Rmult_le_reg_l m0); [exact Pm|]. replace (m0 * (C / m0)) with C by (field; lra). lra. }
    unfold rate. apply (Rmult_le_reg_l (INR n + 1)); [lra|]. replace ((INR n + 1) * (2 * m0 / (INR n + 1) * sq (lincomb 1 (-1) x y))) with (2 * m0 * sq (lincomb 1 (-1) x y)) by (field; lra).
    assert (m0 * sq (lincomb 1 (-1) x y) <= INR n * C). { apply (Rmult_le_compat_l m0) in H; [|lra]. replace (m0 * (INR n * (C / m0))) with (INR n * C) in H by (field; lra). exact H. }
    assert (0 <= INR n * C) by (apply Rmult_le_pos; lra). lra.
  Qed.

  Variables (u : R) (f : list R -> R).
  Hypothesis Hu : u <> 0.
  Hypothesis Hf : forall z, length z = n -> weighted other q os (map (fun v => v * u) z) (f z).
  Lemma scaled_segment (z zs : list R) t : length z = length zs ->
    map (fun v => v * u) (lincomb 1 t z (lincomb 1 (-1) zs z)) = lincomb (1 - t) (1 - (1 - t)) (map (fun v => v * u) z) (map (fun v => v * u) zs).
  Proof using.
    unfold lincomb. revert zs. induction z as [|a z IH]; intros [|b zs] L; try discriminate L; [reflexivity|]. cbn. rewrite IH by (now injection L). f_equal. ring.
  Qed.
  Lemma unscaled x : map (fun v => v * u) (map (fun v => v / u) x) = x.
  Proof using Hu. induction x as [|a x IH]; [reflexivity|]. cbn. rewrite IH. f_equal. field. exact Hu. Qed.
  Lemma scaled_sub z zs : length z = length zs -> lincomb 1 (-1) (map (fun v => v * u) z) (map (fun v => v * u) zs) = map (Rmult (- u)) (lincomb 1 (-1) zs z).
  Proof using. unfold lincomb. revert zs. induction z as [|a z IH]; intros [|b zs] L; try discriminate L; [reflexivity|]. cbn. rewrite IH by (now injection L). f_equal. ring. Qed.

  Lemma near z g xs fs : length z = n -> slope f z g -> best other q os [] xs fs ->
    rate * Rabs u * normR (lincomb 1 (-1) (map (fun v => v * u) z) xs) <= normR g /\
    rate * u ^ 2 * (f z - fs) <= normR g ^ 2.
  Proof using S Ho Pm Gm Hu Hf.
    intros Lz (Lg & Sl) (Ls & Fs & Ws & Bs). set (x := map (fun v => v * u) z). assert (Lx : length x = n) by (unfold x; rewrite map_length; exact Lz).
    set (zs := map (fun v => v / u) xs). assert (Lzs : length zs = n) by (unfold zs; rewrite map_length; exact Ls).
    set (d := lincomb 1 (-1) zs z). assert (Ld : length d = n) by (unfold d; now apply lincomb_sub_length).
    assert (Exs : map (fun v => v * u) zs = xs) by (apply unscaled).
    assert (Up : dotR g d <= fs - f z - gap q os x xs).
    { apply (slope_le (fun t => f (lincomb 1 t z d)) _ _ (gap q os x xs)); [apply Sl; congruence|]. intros t Ht.
      assert (E0 : lincomb 1 0 z d = z).
      { apply lincomb_zero. congruence. }
      cbv beta. rewrite E0. pose proof (Hf (lincomb 1 t z d) ltac:(rewrite length_lincomb; congruence)) as W.
      unfold d in W at 1. rewrite scaled_segment in W by congruence. fold x in W. rewrite Exs in W.
      destruct (weighted_gap other q z0 os S Ho x xs (1 - t) (f z) fs Lx Ls ltac:(lra) (Hf z Lz) Ws) as (r & Wr & Br).
      rewrite (weighted_fun other q os _ _ _ W Wr). lra. }
    assert (Fx : SpecConvex.feasible other q [] x) by (intros ? ? ? []).
    pose proof (growth other q z0 os [] S Ho ltac:(intros ? ? ? []) xs x fs (f z) Ls Fs Bs Lx Fx Ws (Hf z Lz)) as Gr.
    pose proof (cauchy g d ltac:(congruence)) as Cs. assert (Cd : - dotR g d <= normR g * normR d) by (pose proof (Rle_abs (- dotR g d)) as Q; rewrite Rabs_Ropp in Q; lra).
    assert (Nd : normR (lincomb 1 (-1) x xs) = Rabs u * normR d).
    { rewrite <- Exs. unfold x. rewrite scaled_sub by congruence. rewrite norm_scale, Rabs_Ropp. reflexivity. }
    assert (G0 : 0 <= gap q os x xs). { pose proof (Gm x xs 0%nat Lx Ls) as G. assert (0 <= m0 * (nth 0 xs 0 - nth 0 x 0) ^ 2) by (apply Rmult_le_pos; [lra|apply pow2_ge_0]). lra. }
    assert (G1 : 0 <= gap q os xs x). { pose proof (Gm xs x 0%nat Ls Lx) as G. assert (0 <= m0 * (nth 0 x 0 - nth 0 xs 0) ^ 2) by (apply Rmult_le_pos; [lra|apply pow2_ge_0]). lra. }
    set (K := normR g * normR d) in *.
    assert (Sm : sq (lincomb 1 (-1) xs x) = sq (lincomb 1 (-1) x xs)).
    { apply sq_swap. congruence. }
    assert (D : rate * sq (lincomb 1 (-1) x xs) <= K).
    { destruct (Rle_lt_dec (gap q os x xs) (K / 2)) as [H|H].
      - pose proof (distance_gap x xs (K / 2) Lx Ls H ltac:(lra)). lra.
      - pose proof (distance_gap xs x (K / 2) Ls Lx ltac:(lra) ltac:(lra)) as Q. rewrite Sm in Q. lra. }
    pose proof rate_pos as Pr. pose proof (Rabs_pos_lt u Hu) as Pu. rewrite <- norm_sq, Nd in D.
    assert (First : rate * Rabs u * (Rabs u * normR d) <= normR g).
    { destruct (Rle_lt_or_eq_dec 0 (normR d) (norm_nonneg d)) as [P|Z].
      - apply (Rmult_le_reg_r (normR d)); [exact P|]. unfold K in D. lra.
      - rewrite <- Z. rewrite !Rmult_0_r. apply norm_nonneg. }
    split; [rewrite Nd; exact First|].
    assert (V : f z - fs <= K) by lra. 
    assert (Eu : u ^ 2 = Rabs u * Rabs u) by (rewrite <- Rabs_mult, Rabs_right; [ring|apply Rle_ge, Rle_0_sqr]).
    rewrite Eu. apply (Rle_trans _ (rate * (Rabs u * Rabs u) * K)).
    - apply Rmult_le_compat_l; [|exact V]. apply Rmult_le_pos; [lra|]. apply Rmult_le_pos; lra.
    - unfold K. replace (rate * (Rabs u * Rabs u) * (normR g * normR d)) with (rate * Rabs u * (Rabs u * normR d) * normR g) by ring.
      replace (normR g ^ 2) with (normR g * normR g) by ring. apply Rmult_le_compat_r; [apply norm_nonneg|exact First].
  Qed.
End Near.
