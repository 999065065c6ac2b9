(** How far the smoothed Huber penalty is from an even one (positive part of C72). *)
From Coq Require Import String List Bool Arith ZArith Reals Lra Lia.
From Coquelicot Require Import Coquelicot.
From Verif Require Import Base ModelArray ModelMath ModelQuantity ModelWrapper ModelShipped
  SpecMath SpecQuantity ProofArray ProofMath ProofQuantity ProofSlack ProofSlackInit ProofSlackLim.
Import ListNotations.
Open Scope R_scope.
Open Scope string_scope.
Open Scope list_scope.

(** ** The triangle inequality for rows *)
Lemma plane_triangle a b c d : sqrt ((a + c) * (a + c) + (b + d) * (b + d)) <= sqrt (a * a + b * b) + sqrt (c * c + d * d).
Proof.
  assert (P : forall x y, 0 <= x * x + y * y).
  { intros x y. pose proof (Rle_0_sqr x) as Q1. pose proof (Rle_0_sqr y) as Q2. unfold Rsqr in *. lra. }
  set (m := sqrt (a * a + b * b)). set (n := sqrt (c * c + d * d)).
  assert (Hm : 0 <= m) by apply sqrt_pos. assert (Hn : 0 <= n) by apply sqrt_pos.
  assert (Em : m * m = a * a + b * b) by (apply sqrt_sqrt, P). assert (En : n * n = c * c + d * d) by (apply sqrt_sqrt, P).
  assert (C : a * c + b * d <= m * n).
  { destruct (Rle_dec (a * c + b * d) 0) as [H|H]; [assert (0 <= m * n) by (apply Rmult_le_pos; assumption); lra|].
    apply Rsqr_incr_0_var; [|apply Rmult_le_pos; assumption]. unfold Rsqr.
    replace (m * n * (m * n)) with ((m * m) * (n * n)) by ring. rewrite Em, En.
    pose proof (Rle_0_sqr (a * d - b * c)) as Q. unfold Rsqr in Q.
    replace ((a * a + b * b) * (c * c + d * d)) with ((a * c + b * d) * (a * c + b * d) + (a * d - b * c) * (a * d - b * c)) by ring. lra. }
  rewrite <- (sqrt_square (m + n)) by lra. apply sqrt_le_1_alt.
  replace ((m + n) * (m + n)) with (m * m + n * n + 2 * (m * n)) by ring. rewrite Em, En. lra.
Qed.
Lemma sumsq_nonneg l : 0 <= fold_right Rplus 0 (map (fun x : R => x * x) l).
Proof. induction l as [|x l IH]; simpl; [lra|]. pose proof (Rle_0_sqr x) as Q. unfold Rsqr in Q. lra. Qed.
Lemma rownorm_cons x l : rownorm (x :: l) = sqrt (x * x + rownorm l * rownorm l).
Proof. unfold rownorm at 1. cbn [map fold_right]. unfold rownorm. rewrite sqrt_sqrt by apply sumsq_nonneg. reflexivity. Qed.
Lemma rownorm_nonneg l : 0 <= rownorm l.
Proof. apply sqrt_pos. Qed.
Lemma rownorm_shift c l : rownorm (map (fun x => x + c) l) <= rownorm l + rownorm (repeat c (length l)).
Proof.
  induction l as [|x l IH].
  - unfold rownorm. cbn. rewrite sqrt_0. lra.
  - cbn [map length repeat]. rewrite !rownorm_cons.
    eapply Rle_trans; [|apply plane_triangle]. apply sqrt_le_1_alt. apply Rplus_le_compat_l.
    apply Rmult_le_compat; try apply rownorm_nonneg; exact IH.
Qed.
Lemma rownorm_repeat c n : rownorm (repeat c n) = sqrt (INR n) * Rabs c.
Proof.
  unfold rownorm. assert (E : fold_right Rplus 0 (map (fun x => x * x) (repeat c n)) = INR n * Rsqr c).
  { induction n as [|n IH]; [cbn; unfold Rsqr; ring|]. cbn [repeat map fold_right]. rewrite IH, S_INR. unfold Rsqr. ring. }
  rewrite E, sqrt_mult by (apply pos_INR || apply Rle_0_sqr). now rewrite sqrt_Rsqr_abs.
Qed.
Lemma rownorm_near c l : Rabs (rownorm (map (fun x => x + c) l) - rownorm l) <= sqrt (INR (length l)) * Rabs c.
Proof.
  pose proof (rownorm_shift c l) as H1. rewrite rownorm_repeat in H1.
  pose proof (rownorm_shift (- c) (map (fun x => x + c) l)) as H2. rewrite rownorm_repeat, map_length, map_map, Rabs_Ropp in H2.
  rewrite (map_ext _ (fun x => x)) in H2 by (intros; ring). rewrite map_id in H2.
  apply Rabs_le. lra.
Qed.
Lemma rownorm_opp l : rownorm (map Ropp l) = rownorm l.
Proof. unfold rownorm. rewrite map_map. f_equal. f_equal. apply map_ext. intros x. ring. Qed.

(** ** Sums over the points *)
Lemma wsum_near (w x y : list R) s : List.Forall (fun a => 0 <= a) w -> length x = length w -> length y = length w ->
  (forall k, (k < length w)%nat -> Rabs (nth k x 0 - nth k y 0) <= s) ->
  Rabs (Rsum (map2 Rmult w x) - Rsum (map2 Rmult w y)) <= s * Rsum w.
Proof.
  intros Hw. revert x y. unfold Rsum. induction Hw as [|a w Ha Hw IH]; intros [|x1 x] [|y1 y] Lx Ly H; try discriminate.
  - cbn. rewrite Rminus_0_r, Rabs_R0. lra.
  - cbn [map2 fold_right].
    assert (H0 : Rabs (x1 - y1) <= s) by (apply (H 0%nat); cbn; lia).
    assert (H1 : Rabs (fold_right Rplus 0 (map2 Rmult w x) - fold_right Rplus 0 (map2 Rmult w y)) <= s * fold_right Rplus 0 w).
    { apply IH; [cbn in Lx; lia|cbn in Ly; lia|]. intros k Hk. apply (H (S k)). cbn. lia. }
    replace (a * x1 + fold_right Rplus 0 (map2 Rmult w x) - (a * y1 + fold_right Rplus 0 (map2 Rmult w y)))
      with (a * (x1 - y1) + (fold_right Rplus 0 (map2 Rmult w x) - fold_right Rplus 0 (map2 Rmult w y))) by ring.
    eapply Rle_trans; [apply Rabs_triang|]. rewrite Rabs_mult, (Rabs_right a) by lra.
    assert (a * Rabs (x1 - y1) <= a * s) by (apply Rmult_le_compat_l; assumption). lra.
Qed.
Lemma wsum_minus w x e : length x = length w -> Rsum (map2 Rmult w (map (fun y => y - e) x)) = Rsum (map2 Rmult w x) - e * Rsum w.
Proof.
  revert x. unfold Rsum. induction w as [|a w IH]; intros [|y x] L; try discriminate; [cbn; ring|].
  cbn [map map2 fold_right]. rewrite IH by (cbn in L; lia). ring.
Qed.
Lemma wsum_div w x u : 0 < u -> Rsum (map2 Rmult w (map (fun y => y / u) x)) = Rsum (map2 Rmult w x) / u.
Proof.
  intros Hu. revert x. unfold Rsum. induction w as [|a w IH]; intros [|y x]; cbn [map map2 fold_right]; try (field; lra).
  rewrite IH. field. lra.
Qed.
Lemma chunks_rows n k (l : list R) : length l = (n * k)%nat -> forall row, In row (chunks n k l) -> length row = k.
Proof.
  revert l. induction n as [|n IH]; intros l L row; simpl; [tauto|]. intros [<-|H].
  - rewrite firstn_length. lia.
  - apply (IH (skipn k l)); [rewrite skipn_length; lia|exact H].
Qed.

(** ** The penalty *)
Lemma huber_near P da nfp (func : field P) reg reg' q :
  init_quantity reg (generate_huber P da nfp func) = (reg', Ok q) ->
  forall qp phi fld u eps a b c t, func qp [("phi", phi)] = Ok fld -> wf fld -> wf (da qp) ->
  sh fld = a :: b :: c :: t -> sh (da qp) = [a; b] -> 0 < u -> List.Forall (fun w => 0 <= w) (el (da qp)) -> 0 <= nfp qp ->
  exists raw v, call q qp [("phi", phi)] = Ok (scal raw) /\
    bind (scaled_f_impl q (Some "approx") [("lse_epsilon", eps)]) (fun F => scalar_value (F qp [("phi", phi)] (scal u))) = Ok v /\
    raw = Rsum (map2 Rmult (el (da qp)) (map rownorm (chunks (a * b) (size (c :: t)) (el fld)))) * nfp qp /\
    Rabs (v - (raw / u - eps * (Rsum (el (da qp)) * nfp qp))) <= sqrt (INR (size (c :: t))) * (eps * eps) * (Rsum (el (da qp)) * nfp qp).
Proof.
  intros I qp phi fld u eps a b c t E W Wd Ef Ed Hu Hda Hn.
  apply huber_built in I as [_ ->].
  set (k := size (c :: t)). set (n := size [a; b]).
  assert (En : n = (a * b)%nat) by (unfold n, size; cbn; lia).
  assert (Em : merge_tail fld = Arr [a; b; k] (el fld)).
  { unfold merge_tail. rewrite Ef. reflexivity. }
  assert (Wm : wf (Arr [a; b; k] (el fld))).
  { red in W. red. cbn [el sh]. rewrite W, Ef. unfold k, size. cbn [fold_right]. lia. }
  rewrite <- En. set (rows := chunks n k (el fld)).
  assert (Lda : length (el (da qp)) = n) by (red in Wd; rewrite Wd, Ed; reflexivity).
  assert (WS : forall l : list R, length l = n ->
     weighted_sum P da nfp qp (Arr [a; b] l) = Ok (scal (Rsum (map2 Rmult (el (da qp)) l) * nfp qp))).
  { intros l Ll. unfold weighted_sum. rewrite op2_same; auto. }
  assert (Lrows : length rows = n) by apply chunks_length.
  exists (Rsum (map2 Rmult (el (da qp)) (map rownorm rows)) * nfp qp).
  exists (Rsum (map2 Rmult (el (da qp)) (map (fun row => rownorm (map (fun x => x / u + sq eps) row) - eps) rows)) * nfp qp).
  split; [|split; [|split; [reflexivity|]]].
  - unfold call, getitem. cbn [lookup q_raw]. change (String.eqb "phi" "phi") with true. cbn [bind].
    unfold huber_raw. rewrite E. cbn [bind]. rewrite Em. unfold norm_last. cbn [sh rev app bind].
    cbn [el]. fold n. fold rows. apply WS. rewrite map_length. exact Lrows.
  - unfold scaled_f_impl. cbn [String.eqb Ascii.eqb Bool.eqb bind q_approx].
    unfold huber_approx. rewrite E. cbn [bind]. rewrite Em.
    rewrite op2_scal_r by auto. cbn [bind]. unfold getitem. cbn [lookup].
    change (String.eqb "lse_epsilon" "lse_epsilon") with true. cbn [bind].
    unfold norm_last. cbn [sh el amap rev app bind]. fold n. unfold amap. cbn [sh el].
    rewrite (map_map (fun y => y / u)). rewrite (chunks_map (fun x => x / u + sq eps)).
    fold rows. rewrite !map_map. rewrite WS; [reflexivity|].
    rewrite map_length. exact Lrows.
  - set (w := el (da qp)) in *. set (s := sqrt (INR k) * (eps * eps)).
    rewrite <- (map_map (fun row => rownorm (map (fun x => x / u + sq eps) row)) (fun y => y - eps)).
    rewrite wsum_minus by (rewrite map_length; lia).
    replace (Rsum (map2 Rmult w (map rownorm rows)) * nfp qp / u) with (Rsum (map2 Rmult w (map (fun y => y / u) (map rownorm rows))) * nfp qp)
      by (rewrite wsum_div by exact Hu; field; lra).
    match goal with |- Rabs ((?A - eps * ?S) * ?N - (?B * ?N - eps * (?S * ?N))) <= _ =>
      replace ((A - eps * S) * N - (B * N - eps * (S * N))) with ((A - B) * N) by ring end.
    rewrite Rabs_mult, (Rabs_right (nfp qp)) by lra. rewrite <- Rmult_assoc. apply Rmult_le_compat_r; [exact Hn|].
    apply wsum_near; [exact Hda|rewrite map_length; lia|rewrite !map_length; lia|].
    intros j Hj.
    set (g := fun row => rownorm (map (fun x => x / u + sq eps) row)).
    rewrite map_map. set (h := fun row => rownorm row / u).
    rewrite (nth_indep (map g rows) 0 (g [])) by (rewrite map_length; lia). rewrite (nth_indep (map h rows) 0 (h [])) by (rewrite map_length; lia).
    rewrite (map_nth g), (map_nth h). set (row := nth j rows []).
    assert (Lrow : length row = k).
    { apply (chunks_rows n k (el fld)); [|apply nth_In; fold rows; lia]. red in Wm. cbn [el sh] in Wm. rewrite Wm. unfold n, size. cbn [fold_right]. lia. }
    unfold g, h. rewrite <- rownorm_div by exact Hu.
    rewrite <- (map_map (fun x => x / u) (fun x => x + sq eps)).
    unfold s. rewrite <- Lrow, <- (map_length (fun x => x / u) row).
    replace (eps * eps) with (Rabs (sq eps)); [apply rownorm_near|].
    unfold sq. apply Rabs_right. pose proof (Rle_0_sqr eps) as Q. unfold Rsqr in Q. lra.
Qed.

Lemma huber_almost_even P da nfp (func : field P) reg reg' q :
  init_quantity reg (generate_huber P da nfp func) = (reg', Ok q) ->
  forall qp phi phi' fld fld' u eps a b c t,
  func qp [("phi", phi)] = Ok fld -> func qp [("phi", phi')] = Ok fld' -> wf fld -> wf fld' -> wf (da qp) ->
  sh fld = a :: b :: c :: t -> sh fld' = sh fld -> sh (da qp) = [a; b] -> 0 < u ->
  List.Forall (fun w => 0 <= w) (el (da qp)) -> 0 <= nfp qp ->
  let value phi := bind (scaled_f_impl q (Some "approx") [("lse_epsilon", eps)]) (fun F => scalar_value (F qp [("phi", phi)] (scal u))) in
  let gap := 2 * (sqrt (INR (size (c :: t))) * (eps * eps) * (Rsum (el (da qp)) * nfp qp)) in
  exists v v', value phi = Ok v /\ value phi' = Ok v' /\
    (el fld' = map Ropp (el fld) -> Rabs (v' - v) <= gap) /\
    ((forall x, In x (el fld) -> x = 0) -> v <= v' + gap).
Proof.
  intros I qp phi phi' fld fld' u eps a b c t E E' W W' Wd Ef Ef' Ed Hu Hda Hn value gap.
  destruct (huber_near P da nfp func reg reg' q I qp phi fld u eps a b c t E W Wd Ef Ed Hu Hda Hn) as (raw & v & _ & V & R & B).
  destruct (huber_near P da nfp func reg reg' q I qp phi' fld' u eps a b c t E' W' Wd (eq_trans Ef' Ef) Ed Hu Hda Hn) as (raw' & v' & _ & V' & R' & B').
  exists v, v'. split; [exact V|]. split; [exact V'|].
  set (s := sqrt (INR (size (c :: t))) * (eps * eps) * (Rsum (el (da qp)) * nfp qp)) in *.
  apply Rabs_le_between in B. apply Rabs_le_between in B'.
  split.
  - intros Eo. assert (raw' = raw) as Er.
    { rewrite R, R', Eo, chunks_map, map_map. f_equal. f_equal. f_equal. apply map_ext. intros; apply rownorm_opp. }
    rewrite Er in B'. apply Rabs_le. unfold gap. lra.
  - intros Ez. assert (raw <= raw').
    { rewrite R, R'. apply Rmult_le_compat_r; [exact Hn|].
      assert (Z : forall row, In row (chunks (a * b) (size (c :: t)) (el fld)) -> rownorm row = 0).
      { intros row Hr. assert (Hz : forall x, In x row -> x = 0).
        { intros x Hx. apply Ez. clear - Hr Hx. revert Hr. generalize (el fld) as l. induction (a * b)%nat as [|n IH]; intros l; simpl; [tauto|].
          intros [<-|H]; [rewrite <- (firstn_skipn (size (c :: t)) l); apply in_or_app; left; exact Hx|].
          rewrite <- (firstn_skipn (size (c :: t)) l). apply in_or_app. right. apply IH. exact H. }
        unfold rownorm. replace (fold_right Rplus 0 (map (fun x => x * x) row)) with 0; [apply sqrt_0|].
        clear Hr. induction row as [|x row IH]; [reflexivity|]. cbn [map fold_right]. rewrite <- IH by (intros; apply Hz; right; assumption).
        rewrite (Hz x) by (left; reflexivity). ring. }
      assert (G : forall w rows rows', List.Forall (fun w => 0 <= w) w -> (forall row, In row rows -> rownorm row = 0) ->
        Rsum (map2 Rmult w (map rownorm rows)) <= Rsum (map2 Rmult w (map rownorm rows'))).
      { clear. unfold Rsum. intros w rows rows' Hw Hz.
        assert (A : fold_right Rplus 0 (map2 Rmult w (map rownorm rows)) = 0).
        { clear Hw. revert rows Hz. induction w as [|y w IH]; intros [|r rows] Hz; cbn [map map2 fold_right]; try reflexivity.
          rewrite IH by (intros; apply Hz; right; assumption). rewrite (Hz r) by (left; reflexivity). ring. }
        assert (B : 0 <= fold_right Rplus 0 (map2 Rmult w (map rownorm rows'))).
        { clear A Hz. revert rows'. induction Hw as [|y w Hy Hw IH]; intros [|r rows']; cbn [map map2 fold_right]; try lra.
          specialize (IH rows'). assert (0 <= y * rownorm r) by (apply Rmult_le_pos; [exact Hy|apply rownorm_nonneg]). lra. }
        lra. }
      apply G; [exact Hda|exact Z]. }
    assert (raw / u <= raw' / u) by (apply Rmult_le_compat_r; [left; apply Rinv_0_lt_compat; exact Hu|assumption]).
    unfold gap. lra.
Qed.
