(** Proofs about math_utils. *)
From Coq Require Import String List Bool Arith ZArith Reals Lra Lia.
From Coquelicot Require Import Coquelicot.
From Verif Require Import Base ModelArray ModelMath SpecMath ProofArray RDeriv.
Import ListNotations.
Open Scope R_scope.

(** ** log-sum-exp *)
Lemma sum_exp_ge (l : list R) eps M : In M l ->
  exp (M / eps) <= fold_right Rplus 0 (map (fun x => exp (x / eps)) l).
Proof.
  assert (P : forall l, 0 <= fold_right Rplus 0 (map (fun x => exp (x / eps)) l)).
  { induction l0; simpl; [lra|]. pose proof (exp_pos (a / eps)). lra. }
  induction l as [|a l IH]; simpl; intros H; [easy|].
  destruct H as [-> |H].
  - specialize (P l). lra.
  - specialize (IH H). pose proof (exp_pos (a / eps)). lra.
Qed.

Lemma exp_mono a b : a <= b -> exp a <= exp b.
Proof. intros [H| ->]; [left; apply exp_increasing; auto|right; auto]. Qed.

Lemma ln_mono a b : 0 < a -> a <= b -> ln a <= ln b.
Proof. intros P [H| ->]; [left; apply ln_increasing; auto|right; auto]. Qed.

Lemma div_mono a b e : 0 < e -> a <= b -> a / e <= b / e.
Proof. intros He H. unfold Rdiv. apply Rmult_le_compat_r; auto. left. apply Rinv_0_lt_compat; auto. Qed.

Lemma sum_exp_le (l : list R) eps M : 0 < eps -> (forall y, In y l -> y <= M) ->
  fold_right Rplus 0 (map (fun x => exp (x / eps)) l) <= INR (length l) * exp (M / eps).
Proof.
  intros He. induction l as [|a l IH]; intros H.
  - simpl. lra.
  - cbn [map fold_right length]. rewrite S_INR.
    specialize (IH (fun y Hy => H y (or_intror Hy))).
    assert (exp (a / eps) <= exp (M / eps)).
    { apply exp_mono, div_mono; auto. apply H. simpl; auto. }
    lra.
Qed.

Lemma max_lse_bounds l eps M : 0 < eps -> is_max M l ->
  M <= max_lse l eps <= M + eps * ln (INR (length l)).
Proof.
  intros He [Hin Hub]. unfold max_lse.
  pose proof (sum_exp_ge l eps M Hin) as H1.
  pose proof (sum_exp_le l eps M He Hub) as H2.
  pose proof (exp_pos (M / eps)) as Hp.
  assert (Hn : (1 <= length l)%nat) by (destruct l; simpl in *; [easy|lia]).
  assert (HN : 1 <= INR (length l)) by (apply (le_INR 1); auto).
  assert (L1 : ln (exp (M / eps)) <= ln (fold_right Rplus 0 (map (fun x => exp (x / eps)) l)))
    by (apply ln_mono; auto).
  assert (L2 : ln (fold_right Rplus 0 (map (fun x => exp (x / eps)) l))
        <= ln (INR (length l) * exp (M / eps))) by (apply ln_mono; lra).
  rewrite ln_exp in L1. rewrite ln_mult, ln_exp in L2 by lra.
  assert (E : eps * (M / eps) = M) by (field; lra).
  split.
  - rewrite <- E at 1. apply Rmult_le_compat_l; lra.
  - replace (M + eps * ln (INR (length l))) with (eps * (ln (INR (length l)) + M / eps)) by (field; lra).
    apply Rmult_le_compat_l; lra.
Qed.

Lemma abs_max x : is_max (Rabs x) [x; - x].
Proof.
  split.
  - unfold Rabs. destruct (Rcase_abs x); simpl; auto.
  - intros y [<-|[<-|[]]]; unfold Rabs; destruct (Rcase_abs x); lra.
Qed.

Lemma abs_lse_bounds x eps : 0 < eps ->
  Rabs x <= abs_lse1 eps x <= Rabs x + eps * ln 2.
Proof. intros He. apply (max_lse_bounds [x; -x] eps (Rabs x) He (abs_max x)). Qed.

Lemma sum_abs_exp (l : list R) eps : 0 < eps ->
  fold_right Rplus 0 (map (fun x => exp (x / eps)) (abs_lse l eps))
  = fold_right Rplus 0 (map (fun x => exp (x / eps)) (flat_map (fun x => [x; - x]) l)).
Proof.
  intros He. induction l as [|a l IH]; auto. 
  cbn [abs_lse map flat_map app fold_right]. unfold abs_lse in IH. rewrite IH.
  rewrite <- Rplus_assoc. f_equal.
  unfold abs_lse1, max_lse. cbn [map fold_right]. rewrite Rplus_0_r.
  replace (eps * ln (exp (a / eps) + exp (- a / eps)) / eps) with (ln (exp (a / eps) + exp (- a / eps))) by (field; lra).
  apply exp_ln. pose proof (exp_pos (a/eps)). pose proof (exp_pos (-a/eps)). lra.
Qed.

Lemma length_pm (l : list R) : length (flat_map (fun x => [x; - x]) l) = (2 * length l)%nat.
Proof. induction l; simpl; auto. rewrite IHl. lia. Qed.

Lemma linf_lse_bounds l eps M : 0 < eps -> is_max M (map Rabs l) ->
  M <= linf_lse l eps <= M + eps * ln (2 * INR (length l)).
Proof.
  intros He [Hin Hub].
  assert (E : linf_lse l eps = max_lse (flat_map (fun x => [x; - x]) l) eps).
  { unfold linf_lse, max_lse at 1. rewrite sum_abs_exp; auto. }
  rewrite E.
  replace (2 * INR (length l)) with (INR (length (flat_map (fun x => [x; - x]) l))).
  2:{ rewrite length_pm, mult_INR. reflexivity. }
  apply max_lse_bounds; auto. split.
  - apply in_map_iff in Hin as [x [<- Hx]]. apply in_flat_map. exists x. split; auto.
    apply abs_max.
  - intros y Hy. apply in_flat_map in Hy as [x [Hx Hy]].
    apply Rle_trans with (Rabs x).
    + apply abs_max; auto.
    + apply Hub, in_map; auto.
Qed.

(** ** Cylindrical projection *)
Lemma proj_cyl_sq gamma op : norm3 gamma <> 0 ->
  let q := project_arr_cylindrical gamma op in
  vx q * vx q + vy q * vy q + vz q * vz q
  = (vx gamma * vx gamma + vy gamma * vy gamma) / (norm3 gamma * norm3 gamma) *
    (vx op * vx op + vy op * vy op) + vz op * vz op.
Proof.
  intros H. unfold project_arr_cylindrical, project_arr_coord, cross3, dot3, r_unit, z_unit. simpl.
  field. exact H.
Qed.

Lemma norm3_sq g : norm3 g * norm3 g = vx g * vx g + vy g * vy g + vz g * vz g.
Proof. apply sqrt_sqrt. nra. Qed.

Lemma proj_cyl_isometry gamma op : vz gamma = 0 -> (vx gamma <> 0 \/ vy gamma <> 0) ->
  norm3 (project_arr_cylindrical gamma op) = norm3 op.
Proof.
  intros Hz Hxy.
  assert (P : 0 < vx gamma * vx gamma + vy gamma * vy gamma + vz gamma * vz gamma).
  { rewrite Hz. destruct Hxy; nra. }
  assert (Hn : norm3 gamma <> 0).
  { intros E. pose proof (norm3_sq gamma). rewrite E in H. lra. }
  pose proof (proj_cyl_sq gamma op Hn) as E. cbv zeta in E.
  rewrite norm3_sq, Hz in E. rewrite Hz in P.
  unfold norm3 at 1. rewrite E. unfold norm3. f_equal. field. lra.
Qed.

(** ** Linear-solve adjoint *)
Lemma pair_nil_r a : pair_vec a [] = 0.
Proof. destruct a; reflexivity. Qed.

Lemma ldot_pair a b : ldot a b = pair_vec a b.
Proof.
  unfold ldot, pair_vec, Rsum. revert b. induction a; intros [|y b]; simpl; auto.
  rewrite IHa. reflexivity.
Qed.

Lemma pair_vec_sum n a b : length a = n -> length b = n ->
  pair_vec a b = Rsum (map (fun j => nth j a 0 * nth j b 0) (seq 0 n)).
Proof.
  revert a b. induction n; intros [|x a] [|y b] Ha Hb; try discriminate; auto.
  unfold pair_vec in *. cbn [combine map Rsum fold_right seq fst snd].
  rewrite <- seq_shift, map_map. simpl. f_equal. apply IHn; auto.
Qed.

Lemma Rsum_ext {A} (f g : A -> R) l : (forall x, In x l -> f x = g x) -> Rsum (map f l) = Rsum (map g l).
Proof. intros H. f_equal. apply map_ext_in. auto. Qed.
Lemma Rsum_plus {A} (f g : A -> R) l : Rsum (map (fun x => f x + g x) l) = Rsum (map f l) + Rsum (map g l).
Proof. unfold Rsum. induction l; simpl; lra. Qed.
Lemma Rsum_scal {A} c (f : A -> R) l : Rsum (map (fun x => c * f x) l) = c * Rsum (map f l).
Proof. unfold Rsum. induction l; simpl; lra. Qed.
Lemma Rsum_swap {A B} (f : A -> B -> R) l m :
  Rsum (map (fun x => Rsum (map (f x) m)) l) = Rsum (map (fun y => Rsum (map (fun x => f x y) l)) m).
Proof.
  induction l as [|a l IH]; simpl.
  - unfold Rsum. simpl. induction m; simpl; lra.
  - change (Rsum (map (f a) m) + Rsum (map (fun x => Rsum (map (f x) m)) l)
      = Rsum (map (fun y => f a y + Rsum (map (fun x => f x y) l)) m)).
    rewrite IH, Rsum_plus. reflexivity.
Qed.

Lemma entry_transpose n A i j : square n A -> (i < n)%nat -> (j < n)%nat ->
  entry (transpose n A) i j = entry A j i.
Proof.
  intros [H _] Hi Hj. unfold entry, transpose.
  rewrite (nth_indep _ [] (col A 0)) by (rewrite map_length, seq_length; auto).
  rewrite map_nth, seq_nth by auto. simpl. unfold col.
  rewrite (nth_indep _ 0 (nth i (@nil R) 0)) by (rewrite map_length; lia).
  rewrite (map_nth (fun row => nth i row 0)). reflexivity.
Qed.

Lemma pair_mat_outer v x B n : length v = n -> length x = n -> square n B ->
  pair_mat (map (map Ropp) (outer v x)) B
  = - Rsum (map (fun i => nth i v 0 * Rsum (map (fun j => entry B i j * nth j x 0) (seq 0 n))) (seq 0 n)).
Proof.
  intros Hv Hx [HB HR].
  assert (G : forall m v B, length v = m -> length B = m -> List.Forall (fun row => length row = n) B ->
    pair_mat (map (map Ropp) (outer v x)) B
    = - Rsum (map (fun i => nth i v 0 * Rsum (map (fun j => entry B i j * nth j x 0) (seq 0 n))) (seq 0 m))).
  { clear -Hx. induction m; intros [|a v] [|r B] Hv HB HR; try discriminate.
    - unfold pair_mat, Rsum. simpl. lra.
    - inversion HR; subst. unfold pair_mat. 
      cbn [outer map combine Rsum fold_right seq fst snd].
      rewrite <- seq_shift, (map_map S).
      change (pair_vec (map Ropp (map (fun b => a * b) x)) r
        + pair_mat (map (map Ropp) (outer v x)) B
        = - (a * Rsum (map (fun j => nth j r 0 * nth j x 0) (seq 0 (length x)))
          + Rsum (map (fun i => nth i v 0 * Rsum (map (fun j => entry B i j * nth j x 0) (seq 0 (length x)))) (seq 0 m)))).
      rewrite (IHm v B) by auto.
      rewrite (pair_vec_sum (length x)) by (rewrite ?map_length; congruence).
      assert (E : Rsum (map (fun j => nth j (map Ropp (map (fun b => a * b) x)) 0 * nth j r 0) (seq 0 (length x)))
           = - a * Rsum (map (fun j => nth j r 0 * nth j x 0) (seq 0 (length x)))).
      { rewrite <- Rsum_scal. apply Rsum_ext. intros j Hj.
        replace 0 with (- (a * 0)) at 1 by ring.
        rewrite (map_nth Ropp), (map_nth (fun b => a * b)). ring. }
      rewrite E. ring. }
  apply G; auto.
Qed.

(** Algebraic core: [A dx + dA x = db] paired with the solution of the
    transposed system. *)
Lemma adjoint_core n A x v (gf dx : list R) (dA : matrix) (db : list R) :
  square n A -> square n dA -> length x = n -> length v = n -> length gf = n ->
  length dx = n -> length db = n ->
  solves n (fun i j => entry A j i) v gf ->
  (forall i, (i < n)%nat ->
     Rsum (map (fun j => entry A i j * nth j dx 0 + entry dA i j * nth j x 0) (seq 0 n)) = nth i db 0) ->
  pair_vec gf dx = pair_mat (map (map Ropp) (outer v x)) dA + pair_vec v db.
Proof.
  intros HA HdA Hx Hv Hg Hdx Hdb [_ Hs] Hlin.
  rewrite (pair_mat_outer v x dA n) by auto.
  rewrite !(pair_vec_sum n) by auto.
  rewrite (Rsum_ext (fun j => nth j v 0 * nth j db 0)
     (fun i => nth i v 0 * Rsum (map (fun j => entry A i j * nth j dx 0) (seq 0 n))
       + nth i v 0 * Rsum (map (fun j => entry dA i j * nth j x 0) (seq 0 n)))).
  2:{ intros i Hi. apply in_seq in Hi. rewrite <- (Hlin i) by lia. rewrite Rsum_plus. ring. }
  rewrite Rsum_plus.
  rewrite (Rsum_ext (fun j => nth j gf 0 * nth j dx 0)
     (fun j => Rsum (map (fun i => nth i v 0 * (entry A i j * nth j dx 0)) (seq 0 n)))).
  2:{ intros j Hj. apply in_seq in Hj. rewrite <- (Hs j) by lia.
      rewrite Rmult_comm, <- Rsum_scal. apply Rsum_ext. intros i _. ring. }
  rewrite Rsum_swap.
  rewrite (Rsum_ext (fun i => nth i v 0 * Rsum (map (fun j => entry A i j * nth j dx 0) (seq 0 n)))
     (fun y => Rsum (map (fun x0 => nth y v 0 * (entry A y x0 * nth x0 dx 0)) (seq 0 n)))).
  2:{ intros i _. rewrite <- Rsum_scal. reflexivity. }
  ring.
Qed.

Lemma dR_Rsum (F : nat -> R -> R) (dF : nat -> R) (l : list nat) t :
  (forall j, In j l -> is_derive (F j) t (dF j)) ->
  is_derive (fun s => Rsum (map (fun j => F j s) l)) t (Rsum (map dF l)).
Proof.
  induction l as [|a l IH]; intros H.
  - unfold Rsum. simpl. apply dR_const.
  - unfold Rsum in *. cbn [map fold_right]. apply dR_plus.
    + apply H. simpl; auto.
    + apply IH. intros; apply H; simpl; auto.
Qed.

Lemma adjoint_true n (A : R -> matrix) (b x : R -> list R) (dA : matrix) (db dx : list R)
   (solve : matrix -> list R -> list ext) (g : list ext) :
  (forall t, square n (A t)) -> (forall t, length (b t) = n) ->
  (forall t, solves n (entry (A t)) (x t) (b t)) ->
  square n dA -> length db = n -> length dx = n -> length g = n ->
  (forall i j, (i < n)%nat -> (j < n)%nat -> is_derive (fun t => entry (A t) i j) 0 (entry dA i j)) ->
  (forall i, (i < n)%nat -> is_derive (fun t => nth i (b t) 0) 0 (nth i db 0)) ->
  (forall i, (i < n)%nat -> is_derive (fun t => nth i (x t) 0) 0 (nth i dx 0)) ->
  (exists v, solves n (fun i j => entry (A 0) j i) v (map nan_to_num g)) ->
  (forall M rhs v, square n M -> solves n (entry M) v rhs ->
     exists w, solve M rhs = map Fin w /\ solves n (entry M) w rhs) ->
  let '(gA, gb) := safe_linear_solve_bwd solve (A 0) (x 0) g in
  pair_vec (map nan_to_num g) dx = pair_mat gA dA + pair_vec gb db.
Proof.
  intros HA Hb Hx HdA Hdb Hdx Hg DA Db Dx [v0 Hv0] Hsolve.
  unfold safe_linear_solve_bwd. rewrite map_length, Hg.
  assert (ST : square n (transpose n (A 0))).
  { split; unfold transpose; [rewrite map_length, seq_length; auto|].
    apply Forall_forall. intros r Hr. apply in_map_iff in Hr as [j [<- _]].
    unfold col. rewrite map_length. apply HA. }
  assert (tr : forall w rhs, solves n (entry (transpose n (A 0))) w rhs <-> solves n (fun i j => entry (A 0) j i) w rhs).
  { intros w rhs. unfold solves. split; intros [L H]; split; auto; intros i Hi; rewrite <- (H i Hi);
    apply Rsum_ext; intros j Hj; apply in_seq in Hj; rewrite (entry_transpose n) by (auto; lia); reflexivity. }
  destruct (Hsolve (transpose n (A 0)) (map nan_to_num g) v0 ST) as [w [Ew Hw]].
  { apply tr; auto. }
  rewrite Ew, map_map. simpl. rewrite map_id.
  apply adjoint_core with (n := n) (A := A 0); auto.
  - apply Hx.
  - apply Hw.
  - rewrite map_length; auto.
  - apply tr; auto.
  - intros i Hi.
    apply (dR_unique (fun t => nth i (b t) 0) 0); auto.
    apply (is_derive_ext (fun t => Rsum (map (fun j => entry (A t) i j * nth j (x t) 0) (seq 0 n)))).
    + intros t. destruct (Hx t) as [_ H]. apply H; auto.
    + apply (dR_eq _ _ (Rsum (map (fun j => entry dA i j * nth j (x 0) 0 + entry (A 0) i j * nth j dx 0) (seq 0 n)))).
      * apply Rsum_ext. intros; ring.
      * apply (dR_Rsum (fun j t => entry (A t) i j * nth j (x t) 0)).
        intros j Hj. apply in_seq in Hj.
        apply (dR_mult (fun t => entry (A t) i j) (fun t => nth j (x t) 0)); [apply DA|apply Dx]; auto; lia.
Qed.

Lemma cleaned_counts g : map nan_to_num g = map counts g.
Proof. apply map_ext. intros []; reflexivity. Qed.
Lemma bwd_finite_part solve A x g :
  safe_linear_solve_bwd solve A x g = safe_linear_solve_bwd solve A x (map (fun e => Fin (counts e)) g).
Proof. unfold safe_linear_solve_bwd. rewrite map_map, !map_length, cleaned_counts. reflexivity. Qed.
