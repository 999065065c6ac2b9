(** The surface fit is the weighted least-squares optimum. *)
From Coq Require Import String List Bool Arith ZArith Reals Lra Lia.
From Verif Require Import Base ModelArray ModelMath SpecMath ProofMath ModelSurface SpecSurface ProofSurface ProofSurface2
  ModelQuadcoil ProofLinear ModelWinding SpecWinding ProofWinding.
Import ListNotations.
Open Scope R_scope.

Definition all_modes (st : bool) mpol ntor : list (Z * Z) :=
  let w := cmodes mpol ntor ++ smodes mpol ntor in if st then w else w ++ w.
Definition mode_weight (mn : Z * Z) : R := IZR (fst mn * fst mn + snd mn * snd mn).
Lemma map2_combine_Z (f : Z -> Z -> Z) a b : map2 f a b = map (fun p => f (fst p) (snd p)) (combine a b).
Proof. revert b; induction a; destruct b; cbn; auto. now rewrite IHa. Qed.
Lemma m2_n2_modes st mpol ntor : map IZR (m2_n2 st mpol ntor) = map mode_weight (all_modes st mpol ntor).
Proof.
  unfold m2_n2, make_mcmsncns, all_modes. cbv zeta. rewrite map2_combine_Z.
  rewrite combine_app by (cbn [length]; now rewrite length_ms, length_ns).
  change (combine (0%Z :: make_ms mpol ntor) (0%Z :: make_ns mpol ntor)) with (cmodes mpol ntor).
  change (combine (make_ms mpol ntor) (make_ns mpol ntor)) with (smodes mpol ntor).
  destruct st; rewrite ?map_app, ?map_map; reflexivity.
Qed.
Lemma length_all_modes st mpol ntor : length (all_modes st mpol ntor) = legal_length st mpol ntor.
Proof.
  unfold all_modes, legal_length. assert (1 <= n_modes mpol ntor)%nat by (unfold n_modes; lia).
  destruct st; rewrite ?app_length, ?app_length, length_cmodes, length_smodes; lia.
Qed.
Lemma length_m2_n2 st mpol ntor : length (m2_n2 st mpol ntor) = legal_length st mpol ntor.
Proof. rewrite <- (map_length IZR), m2_n2_modes, map_length. apply length_all_modes. Qed.

Lemma skipn_add {A} (a b : nat) (l : list A) : skipn a (skipn b l) = skipn (b + a) l.
Proof. revert l; induction b; intros l; [reflexivity|]. destruct l; cbn; [now rewrite skipn_nil|apply IHb]. Qed.
Lemma split3 (x : list R) a b : firstn a x ++ firstn b (skipn a x) ++ skipn (a + b) x = x.
Proof. rewrite <- skipn_add, (firstn_skipn b), (firstn_skipn a). reflexivity. Qed.
Lemma row_coords phi theta nfp st mpol ntor x : length x = legal_length st mpol ntor ->
  (ldot (fst (dof_to_rz_op phi theta nfp st 0 0 mpol ntor)) x, ldot (snd (dof_to_rz_op phi theta nfp st 0 0 mpol ntor)) x)
  = coords nfp st (cmodes mpol ntor) (smodes mpol ntor) x phi theta.
Proof.
  intros Lx. rewrite rz_cols. cbn [fst snd]. unfold coords. rewrite length_cmodes, length_smodes.
  unfold legal_length in Lx. assert (1 <= n_modes mpol ntor)%nat by (unfold n_modes; lia). set (nc := n_modes mpol ntor) in *.
  unfold rcols, zcols. destruct st.
  - assert (E : x = firstn nc x ++ skipn nc x) by (symmetry; apply firstn_skipn).
    assert (L1 : length (firstn nc x) = nc) by (rewrite firstn_length; lia).
    assert (L2 : length (skipn nc x) = (nc - 1)%nat) by (rewrite skipn_length; lia).
    cbn [skipn]. rewrite (firstn_all2 (n := (nc - 1)) (skipn nc x)) by lia.
    rewrite E at 1 2. rewrite !map_app, !ldot_app by (rewrite !map_length, ?length_cmodes; auto).
    rewrite ldot_ccos, ldot_csin, !ldot_czero, Rplus_0_l, Rplus_0_r. reflexivity.
  - set (ns := (nc - 1)%nat) in *.
    set (rc := firstn nc x). set (rs := firstn ns (skipn nc x)). set (zc := firstn nc (skipn (nc + ns) x)). set (zs := firstn ns (skipn (nc + ns + nc) x)).
    assert (Ez : zs = skipn (nc + ns + nc) x) by (unfold zs; apply firstn_all2; rewrite skipn_length; lia).
    assert (E : x = rc ++ rs ++ zc ++ zs).
    { unfold rc, rs. rewrite <- (split3 x nc ns) at 1. do 2 f_equal.
      unfold zc. rewrite Ez, <- (skipn_add nc (nc + ns)). symmetry. apply firstn_skipn. }
    assert (L1 : length rc = nc) by (unfold rc; rewrite firstn_length; lia).
    assert (L2 : length rs = ns) by (unfold rs; rewrite firstn_length, skipn_length; lia).
    assert (L3 : length zc = nc) by (unfold zc; rewrite firstn_length, skipn_length; lia).
    assert (L4 : length zs = ns) by (unfold zs; rewrite firstn_length, skipn_length; lia).
    change (firstn nc (skipn 0 x)) with rc. rewrite E. rewrite (app_assoc rc rs).
    rewrite !map_app. rewrite !ldot_app by (rewrite ?app_length, !map_length, ?length_cmodes, ?length_smodes; auto; fold nc; fold ns; lia).
    rewrite !ldot_ccos, !ldot_csin, !ldot_czero, !Rplus_0_l, !Rplus_0_r. reflexivity.
Qed.

Definition t_rows nfp st mpol ntor (t : target) := point_rows nfp st mpol ntor (tg_phi t) (tg_theta t) (tg_w t).
Definition t_rhs (t : target) := point_rhs (tg_r t) (tg_z t) (tg_w t).
Definition five (a b c d e : list R) : list target :=
  map (fun p => Target (fst (fst (fst (fst p)))) (snd (fst (fst (fst p)))) (snd (fst (fst p))) (snd (fst p)) (snd p))
    (combine (combine (combine (combine a b) c) d) e).
Lemma five_rows nfp st mpol ntor a b c d e : length b = length a -> length c = length a -> length d = length a -> length e = length a ->
  map2 (fun pt w => point_rows nfp st mpol ntor (fst pt) (snd pt) w) (combine a b) e = map (t_rows nfp st mpol ntor) (five a b c d e) /\
  map2 (fun rz w => point_rhs (fst rz) (snd rz) w) (combine c d) e = map t_rhs (five a b c d e).
Proof.
  revert b c d e; induction a as [|x a IH]; intros [|y b] [|z c] [|u d] [|v e] H1 H2 H3 H4; try discriminate; [split; reflexivity|].
  cbn in H1, H2, H3, H4. destruct (IH b c d e) as [I1 I2]; try lia. unfold five. cbn [combine map2 map]. fold (five a b c d e).
  rewrite I1, I2. split; reflexivity.
Qed.
Lemma point_mat nfp st mpol ntor phi theta w : mat 2 (legal_length st mpol ntor) (point_rows nfp st mpol ntor phi theta w).
Proof.
  unfold point_rows. rewrite rz_cols. split; [reflexivity|].
  intros r [<-|[<-|[]]]; rewrite !map_length; [apply length_rcols|apply length_zcols].
Qed.
Lemma targets_mat nfp st mpol ntor T : mat (2 * length T) (legal_length st mpol ntor) (concat (map (t_rows nfp st mpol ntor) T)).
Proof.
  induction T as [|t T IH]; [split; [reflexivity|intros ? []]|]. cbn [map concat]. destruct (point_mat nfp st mpol ntor (tg_phi t) (tg_theta t) (tg_w t)) as [H1 H2].
  split; [rewrite app_length; unfold t_rows at 1; rewrite H1, (proj1 IH); cbn [length]; lia|].
  intros r Hr. apply in_app_or in Hr as [Hr|Hr]; [now apply H2|now apply IH].
Qed.
Lemma targets_rhs T : length (concat (map t_rhs T)) = (2 * length T)%nat.
Proof. induction T; cbn; auto. rewrite IHT. lia. Qed.
Lemma ldot_rscale w r x : ldot (map (fun a => a * w) r) x = w * ldot r x.
Proof. rewrite <- ldot_scal. f_equal. apply map_ext. intros; ring. Qed.
Lemma targets_residual nfp st mpol ntor T x : length x = legal_length st mpol ntor ->
  let e := lsub (matvec (concat (map (t_rows nfp st mpol ntor) T)) x) (concat (map t_rhs T)) in
  ldot e e = Rsum (map (misfit1 (coords nfp st (cmodes mpol ntor) (smodes mpol ntor) x)) T).
Proof.
  intros Lx. induction T as [|t T IH]; [reflexivity|]. cbv zeta in *. cbn [map concat].
  rewrite matvec_app. rewrite lsub_app by (rewrite matvec_length; apply (point_mat nfp st mpol ntor (tg_phi t) (tg_theta t) (tg_w t))).
  rewrite ldot_app2 by reflexivity. rewrite IH. change (Rsum (?a :: ?l)) with (a + Rsum l). f_equal.
  unfold t_rows, point_rows, t_rhs, point_rhs, misfit1.
  pose proof (row_coords (tg_phi t) (tg_theta t) nfp st mpol ntor x Lx) as E.
  destruct (dof_to_rz_op (tg_phi t) (tg_theta t) nfp st 0 0 mpol ntor) as [rr zz]. cbn [fst snd] in E.
  rewrite <- E. unfold matvec. cbn [map]. rewrite !ldot_rscale. unfold lsub, ldot. cbn. ring.
Qed.
Lemma penalty_roughness lam st mpol ntor x : length x = legal_length st mpol ntor ->
  ldot x (matvec (scaled_diag lam (map IZR (m2_n2 st mpol ntor))) x)
  = lam * roughness st (cmodes mpol ntor) (smodes mpol ntor) x.
Proof.
  intros Lx. rewrite m2_n2_modes. unfold roughness. cbv zeta. fold (all_modes st mpol ntor).
  rewrite diag_matvec by (rewrite map_length, length_all_modes; auto).
  pose proof (length_all_modes st mpol ntor) as La. rewrite <- Lx in La. clear Lx. revert x La.
  induction (all_modes st mpol ntor) as [|mn l IH]; intros [|a x] La; try discriminate; [cbn; ring|].
  cbn [map map2 combine]. rewrite ProofLinear.ldot_cons, IH by (cbn in La; lia). change (Rsum (?a :: ?l)) with (a + Rsum l).
  cbn [fst snd]. unfold mode_weight. ring.
Qed.
Lemma cost_quad nfp st mpol ntor lam T x : length x = legal_length st mpol ntor ->
  fit_cost nfp st (cmodes mpol ntor) (smodes mpol ntor) lam T x
  = quad_cost (concat (map (t_rows nfp st mpol ntor) T)) (concat (map t_rhs T)) lam (map IZR (m2_n2 st mpol ntor)) x.
Proof.
  intros Lx. unfold fit_cost, quad_cost. rewrite penalty_roughness by auto. f_equal. symmetry. now apply targets_residual.
Qed.

Lemma ldot_nth n (r x : list R) : length r = n -> length x = n ->
  ldot r x = Rsum (map (fun j => nth j r 0 * nth j x 0) (seq 0 n)).
Proof.
  revert n x; induction r as [|a r IH]; intros n [|b x] L1 L2; cbn in L1, L2; subst n; try discriminate; [reflexivity|].
  rewrite ProofLinear.ldot_cons, (IH (length r) x) by congruence. cbn [length seq map]. change (Rsum (?a :: ?l)) with (a + Rsum l).
  rewrite <- seq_shift, map_map. reflexivity.
Qed.
Lemma nth_matvec M x i : (i < length M)%nat -> nth i (matvec M x) 0 = ldot (nth i M []) x.
Proof.
  intros Hi. unfold matvec. rewrite (nth_indep _ 0 (ldot [] x)) by (rewrite map_length; lia). now rewrite (map_nth (fun row => ldot row x)).
Qed.
Lemma solves_matvec n M x b : square n M -> length b = n -> solves n (SpecMath.entry M) x b <-> (length x = n /\ matvec M x = b).
Proof.
  intros [H1 H2] Lb. rewrite List.Forall_forall in H2. unfold solves. split; intros [Lx H]; split; auto.
  - apply (vec_ext _ _ n); auto; [now rewrite matvec_length|]. intros i Hi. rewrite <- (H i Hi), nth_matvec by lia.
    apply ldot_nth; auto. apply H2, nth_In. lia.
  - intros i Hi. rewrite <- H, nth_matvec by lia. symmetry. apply ldot_nth; auto. apply H2, nth_In. lia.
Qed.

Lemma shape_concat {A B} (g : grid A) (h : grid B) : shape_as g h -> length (concat g) = length (concat h).
Proof.
  unfold shape_as. revert h; induction g as [|r g IH]; intros [|r' h] H; try discriminate; auto.
  cbn in H. injection H as H1 H2. cbn. rewrite !app_length. f_equal; auto.
Qed.
Lemma shape_same {A B} (g : grid A) (h : grid B) : same_shape g h = true <-> shape_as g h.
Proof. unfold same_shape, shape_as, gshape. destruct list_eq_dec; split; intros; congruence. Qed.
Lemma shape_ones {A} (g : grid A) : shape_as (gones g) g.
Proof. unfold shape_as, gones, gmap. rewrite map_map. apply map_ext. intros. now rewrite map_length. Qed.
Lemma concat_ones {A} (g : grid A) : concat (gones g) = repeat 1 (length (concat g)).
Proof.
  unfold gones, gmap. rewrite <- concat_map. generalize (concat g) as l. induction l; cbn; congruence.
Qed.
Lemma fit_normal solve phi theta r z nfp st mpol ntor lam w :
  shape_as theta phi -> shape_as z r ->
  match w with Some w => shape_as w phi /\ shape_as r w | None => length (concat r) = length (concat phi) end ->
  let wt := match w with Some w => w | None => gones phi end in
  let A := concat (map (t_rows nfp st mpol ntor) (of_arrays phi theta r z wt)) in
  let b := concat (map t_rhs (of_arrays phi theta r z wt)) in
  let n := legal_length st mpol ntor in
  fit_surfacerzfourier solve phi theta r z nfp st mpol ntor lam w
  = Ok (solve (normal_mat n A lam (map IZR (m2_n2 st mpol ntor))) (tdotv n A b)).
Proof.
  intros S1 S2 Sw wt A b n. unfold fit_surfacerzfourier. rewrite (proj2 (shape_same phi theta)) by (symmetry; exact S1).
  rewrite (proj2 (shape_same r z)) by (symmetry; exact S2). cbn [negb]. rewrite length_m2_n2. fold n. cbv zeta.
  assert (L1 := shape_concat _ _ S1). assert (L2 := shape_concat _ _ S2).
  assert (F : forall c c', length (concat r) = length (concat phi) -> length c = length (concat phi) -> c = c' ->
    of_arrays phi theta r z wt = five (concat phi) (concat theta) (concat r) (concat z) c ->
    (if Nat.eqb (length (concat (map2 (fun pt w => point_rows nfp st mpol ntor (fst pt) (snd pt) w) (combine (concat phi) (concat theta)) c)))
          (length (concat (map2 (fun rz w => point_rhs (fst rz) (snd rz) w) (combine (concat r) (concat z)) c')))
     then Ok (solve (add_mat (tdot n n (concat (map2 (fun pt w => point_rows nfp st mpol ntor (fst pt) (snd pt) w) (combine (concat phi) (concat theta)) c))
              (concat (map2 (fun pt w => point_rows nfp st mpol ntor (fst pt) (snd pt) w) (combine (concat phi) (concat theta)) c)))
              (scaled_diag lam (map IZR (m2_n2 st mpol ntor))))
           (tdotv n (concat (map2 (fun pt w => point_rows nfp st mpol ntor (fst pt) (snd pt) w) (combine (concat phi) (concat theta)) c))
                  (concat (map2 (fun rz w => point_rhs (fst rz) (snd rz) w) (combine (concat r) (concat z)) c'))))
     else Raise TypeError) = Ok (solve (normal_mat n A lam (map IZR (m2_n2 st mpol ntor))) (tdotv n A b))).
  { intros c c' Lr Lc <- E. destruct (five_rows nfp st mpol ntor (concat phi) (concat theta) (concat r) (concat z) c) as [R1 R2]; try lia; auto.
    rewrite R1, R2, <- E. fold A b. pose proof (targets_mat nfp st mpol ntor (of_arrays phi theta r z wt)) as [M1 _]. fold A in M1.
    rewrite M1. unfold b at 1. rewrite targets_rhs, Nat.eqb_refl. reflexivity. }
  destruct w as [w|].
  - destruct Sw as [W1 W2]. rewrite (proj2 (shape_same w phi)) by exact W1. rewrite (proj2 (shape_same r w)) by exact W2. cbn [negb].
    apply F; auto. + rewrite (shape_concat _ _ W2). now apply shape_concat. + now apply shape_concat.
  - apply F; auto. + apply shape_concat, shape_ones. + rewrite !concat_ones. now rewrite Sw.
Qed.

Lemma m2_n2_nonneg st mpol ntor v : In v (map IZR (m2_n2 st mpol ntor)) -> 0 <= v.
Proof.
  rewrite m2_n2_modes. intros H. apply in_map_iff in H as ([a b] & <- & _). unfold mode_weight. cbn [fst snd]. apply IZR_le. nia.
Qed.
Lemma map2_len {A B C} (f : A -> B -> C) l m : length (map2 f l m) = Nat.min (length l) (length m).
Proof. revert m; induction l; destruct m; cbn; auto. Qed.
Lemma normal_square m n A lam d : mat m n A -> length d = n -> square n (normal_mat n A lam d).
Proof.
  intros HA Ld. unfold normal_mat. destruct (diag_mat lam d) as [D1 D2]. rewrite Ld in D1, D2. rewrite tdot_eq.
  assert (HM : mat n n (matmul n (transpose n A) A)) by (apply matmul_mat; apply (transpose_mat m), HA).
  destruct HM as [M1 M2]. split.
  - unfold add_mat. rewrite map2_len. lia.
  - apply List.Forall_forall. intros row Hr. unfold add_mat in Hr. 
    assert (G : forall (X Y : matrix) row, (forall r, In r X -> length r = n) -> (forall r, In r Y -> length r = n) ->
       In row (map2 (map2 Rplus) X Y) -> length row = n).
    { clear. induction X; intros [|y Y] row HX HY H; try contradiction. destruct H as [<-|H].
      - rewrite map2_len, (HX a), (HY y) by (left; auto). lia.
      - apply (IHX Y); auto; intros; [apply HX|apply HY]; right; auto. }
    exact (G _ _ _ M2 D2 Hr).
Qed.

Theorem fit_correct solve phi theta r z nfp st mpol ntor lam w : honest_solver solve -> 0 <= lam ->
  shape_as theta phi -> shape_as z r ->
  match w with Some w => shape_as w phi /\ shape_as r w | None => length (concat r) = length (concat phi) end ->
  let T := of_arrays phi theta r z (match w with Some w => w | None => gones phi end) in
  exists x, fit_surfacerzfourier solve phi theta r z nfp st mpol ntor lam w = Ok x /\
    length x = legal_length st mpol ntor /\
    forall y, length y = legal_length st mpol ntor ->
      fit_cost nfp st (cmodes mpol ntor) (smodes mpol ntor) lam T x <= fit_cost nfp st (cmodes mpol ntor) (smodes mpol ntor) lam T y.
Proof.
  intros Hs Hl S1 S2 Sw T. rewrite (fit_normal solve phi theta r z nfp st mpol ntor lam w S1 S2 Sw). fold T.
  set (A := concat (map (t_rows nfp st mpol ntor) T)). set (b := concat (map t_rhs T)). set (n := legal_length st mpol ntor).
  set (d := map IZR (m2_n2 st mpol ntor)). eexists; split; [reflexivity|].
  assert (HA : mat (2 * length T) n A) by apply targets_mat. assert (Lb : length b = (2 * length T)%nat) by apply targets_rhs.
  assert (Ld : length d = n) by (unfold d; rewrite map_length; apply length_m2_n2).
  assert (Hd : forall v, In v d -> 0 <= v) by (intros; eapply m2_n2_nonneg; eauto).
  assert (Lt : length (tdotv n A b) = n) by (unfold tdotv; now rewrite map_length, seq_length).
  destruct (Hs n (normal_mat n A lam d) (tdotv n A b)) as [H1 H2]; auto; [now apply (normal_square (2 * length T))|].
  split; [exact H1|]. intros y Ly. rewrite !cost_quad by auto. fold A b d.
  apply (normal_optimal (2 * length T) n); auto.
  destruct (normal_solvable (2 * length T) n A b lam d) as (x0 & X1 & X2); auto.
  assert (Q : solves n (SpecMath.entry (normal_mat n A lam d)) (solve (normal_mat n A lam d) (tdotv n A b)) (tdotv n A b)).
  { apply H2. exists x0. apply solves_matvec; auto. now apply (normal_square (2 * length T)). }
  apply solves_matvec in Q; auto; [apply Q|now apply (normal_square (2 * length T))].
Qed.
