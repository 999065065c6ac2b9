(** The preconditioner of the constrained gradient. *)
From Coq Require Import String List Bool Arith ZArith Reals Lra Lia.
From Verif Require Import Base ModelArray ModelMath ModelQuantity ModelWrapper ModelSurface ModelParams
  ModelSolver SpecSolver ModelQuadcoil SpecMath SpecSurface SpecQuadcoil ProofLinear ProofQuadcoil ProofQuadcoil2 ProofQuadcoil3.
Import ListNotations.
Open Scope R_scope.
Open Scope list_scope.

Lemma all_orth_zero n w : length w = n -> (forall z, length z = n -> ldot w z = 0) -> w = repeat 0 n.
Proof. intros L H. rewrite <- L. apply zero_vec. apply ldot_self_zero. apply H, L. Qed.
Lemma nth_repeat0 i n : nth i (repeat 0 n) 0 = 0.
Proof. revert i. induction n; intros [|i]; simpl; auto. Qed.

(** Masking a vector. *)
Definition mask_vec (sel : list bool) (u : list R) : list R := map2 (fun (b : bool) x => if b then x else 0) sel u.
Lemma mask_length n sel u : length sel = n -> length u = n -> length (mask_vec sel u) = n.
Proof. intros H1 H2. unfold mask_vec. rewrite map2_len. lia. Qed.
Lemma nth_mask n sel u i : length sel = n -> length u = n -> (i < n)%nat ->
  nth i (mask_vec sel u) 0 = if nth i sel false then nth i u 0 else 0.
Proof.
  intros <-. unfold mask_vec. revert u i. induction sel as [|b sel IH]; intros [|x u] i L H; simpl in *; try lia.
  destruct i; auto. apply IH; lia.
Qed.
Lemma nth_negb sel i : (i < length sel)%nat -> nth i (map negb sel) false = negb (nth i sel false).
Proof. intros H. rewrite (nth_indep _ false (negb false)) by (rewrite map_length; auto). apply map_nth. Qed.

Lemma mask_rows n sel V x : (forall r, In r V -> length r = n) ->
  matvec (map2 (fun (b : bool) row => if b then row else map (fun _ => 0) row) sel V) x = mask_vec sel (matvec V x).
Proof.
  unfold mask_vec. revert sel. induction V as [|r V IH]; intros [|b sel] H; simpl; auto. f_equal; [|apply IH; intros; apply H; simpl; auto].
  destruct b; auto. apply ldot_zero_l. intros z I. apply in_map_iff in I as (w & <- & _). reflexivity.
Qed.
Lemma mask_rows_mat n m sel V : length sel = m -> mat m n V ->
  mat m n (map2 (fun (b : bool) row => if b then row else map (fun _ => 0) row) sel V).
Proof.
  revert m V. induction sel as [|b sel IH]; intros m [|r V] L H; simpl in *; subst.
  - split; [reflexivity|intros r []].
  - destruct H; simpl in *; lia.
  - destruct H; simpl in *; lia.
  - apply mat_cons in H as [H1 H2]. apply mat_cons. split; [destruct b; rewrite ?map_length; auto|]. apply IH; auto.
Qed.
Lemma ldot_mask n sel u w : length sel = n -> length u = n -> length w = n -> ldot (mask_vec sel u) w = ldot u (mask_vec sel w).
Proof.
  intros <-. unfold mask_vec. revert u w. induction sel as [|b sel IH]; intros [|x u] [|y w] L1 L2; simpl in *; try lia; auto.
  rewrite !ldot_cons, IH by lia. destruct b; ring.
Qed.

(** ** Orthogonal matrices and their projectors *)
Section Orth.
  Variables (n : nat) (V : matrix).
  Hypothesis HO : orthogonal n V.
  Let T := transpose n V.
  Lemma V_mat : mat n n V. Proof. exact (proj1 HO). Qed.
  Lemma T_mat : mat n n T. Proof. apply transpose_mat. apply V_mat. Qed.

  Lemma nth_T i : (i < n)%nat -> nth i T [] = col V i.
  Proof. intros H. unfold T, transpose. rewrite (nth_indep _ [] (col V 0)) by (rewrite map_length, seq_length; auto). rewrite map_nth, seq_nth by auto. reflexivity. Qed.
  (** The i-th unit vector. *)
  Definition unit_vec (i : nat) : list R := map (fun j => if Nat.eqb i j then 1 else 0) (seq 0 n).
  Lemma ldot_seq a k f : length a = k -> ldot a (map f (seq 0 k)) = fold_right Rplus 0 (map (fun j => nth j a 0 * f j) (seq 0 k)).
  Proof.
    intros <-. revert f. induction a as [|x a IH]; intros f; auto. cbn [length seq map fold_right]. rewrite ldot_cons.
    rewrite <- seq_shift, !map_map. rewrite (IH (fun j => f (S j))). reflexivity.
  Qed.
  Lemma sum_delta k i f : (i < k)%nat -> fold_right Rplus 0 (map (fun j => f j * (if Nat.eqb i j then 1 else 0)) (seq 0 k)) = f i.
  Proof.
    revert i f. induction k as [|k IH]; intros i f H; [lia|]. cbn [seq map fold_right]. rewrite <- seq_shift, map_map.
    destruct i as [|i].
    - rewrite Nat.eqb_refl. replace (fold_right _ _ _) with 0; [ring|]. symmetry. clear. generalize (seq 0 k). intros l.
      induction l as [|a l IHl]; auto. cbn [map fold_right]. rewrite IHl. cbn [Nat.eqb]. ring.
    - cbn [Nat.eqb]. rewrite (IH i (fun j => f (S j))) by lia. ring.
  Qed.
  Lemma ldot_unit a i : length a = n -> (i < n)%nat -> ldot a (unit_vec i) = nth i a 0.
  Proof. intros H1 H2. unfold unit_vec. rewrite ldot_seq by auto. apply (sum_delta n i (fun j => nth j a 0)); auto. Qed.
  Lemma unit_length i : length (unit_vec i) = n.
  Proof. unfold unit_vec. now rewrite map_length, seq_length. Qed.

  (** If A A^T = I by rows then A (A^T u) = u. *)
  Lemma rows_orthonormal (A : matrix) u : mat n n A -> length u = n ->
    (forall i j, (i < n)%nat -> (j < n)%nat -> ldot (nth i A []) (nth j A []) = if Nat.eqb i j then 1 else 0) ->
    matvec A (matvec (transpose n A) u) = u.
  Proof.
    intros HA Lu H. destruct HA as [HL HR]. assert (HA : mat n n A) by (split; auto).
    apply (vec_ext _ _ n); auto; [now rewrite matvec_length|]. intros i Hi. rewrite nth_matvec by lia.
    assert (Lr : length (nth i A []) = n) by (apply HR, nth_In; lia).
    rewrite <- (ldot_matvec n n A (nth i A []) u HA Lr Lu).
    assert (Er : matvec A (nth i A []) = unit_vec i).
    { apply (vec_ext _ _ n); [now rewrite matvec_length|apply unit_length|]. intros j Hj. rewrite nth_matvec by lia.
      rewrite ldot_comm, H by auto. unfold unit_vec. rewrite (nth_indep _ 0 (if Nat.eqb i 0 then 1 else 0)) by (rewrite map_length, seq_length; auto).
      rewrite (map_nth (fun j => if Nat.eqb i j then 1 else 0)), seq_nth by auto. reflexivity. }
    rewrite Er, ldot_comm, ldot_unit by auto. reflexivity.
  Qed.
  Lemma VT u : length u = n -> matvec V (matvec T u) = u.
  Proof. intros L. apply rows_orthonormal; auto; [apply V_mat|]. intros i j Hi Hj. rewrite <- inner_ldot. apply HO; auto. Qed.
  Lemma double_transpose : transpose n T = V.
  Proof.
    apply (nth_ext _ _ [] []). { unfold transpose at 1. rewrite map_length, seq_length. symmetry. apply V_mat. }
    intros i Hi. unfold transpose at 1 in Hi. rewrite map_length, seq_length in Hi.
    unfold transpose at 1. rewrite (nth_indep _ [] (col T 0)) by (rewrite map_length, seq_length; auto). rewrite map_nth, seq_nth by auto. cbn [Nat.add].
    assert (Lr : length (nth i V []) = n) by (apply V_mat, nth_In; destruct V_mat; lia).
    apply (vec_ext _ _ n); [rewrite col_length; apply T_mat|exact Lr|]. intros j Hj. unfold col.
    rewrite (nth_indep _ 0 (nth i [] 0)) by (rewrite map_length; destruct T_mat; lia). rewrite (map_nth (fun r => nth i r 0)), nth_T by auto.
    unfold col. rewrite (nth_indep _ 0 (nth j [] 0)) by (rewrite map_length; destruct V_mat; lia). rewrite (map_nth (fun r => nth j r 0)). reflexivity.
  Qed.
  Lemma TV x : length x = n -> matvec T (matvec V x) = x.
  Proof.
    intros L. rewrite <- double_transpose at 1. apply rows_orthonormal; auto; [apply T_mat|].
    intros i j Hi Hj. rewrite !nth_T by auto. rewrite <- inner_ldot. apply HO; auto.
  Qed.

  Variable sel : list bool.
  Hypothesis Hsel : length sel = n.
  Notation P := (projector n sel V).
  Lemma P_mat : mat n n P.
  Proof. apply matmul_mat. apply T_mat. Qed.
  Lemma P_apply x : length x = n -> matvec P x = matvec T (mask_vec sel (matvec V x)).
  Proof.
    intros L. unfold projector. rewrite (matvec_matmul n n); auto.
    - rewrite (mask_rows n); [reflexivity|]. apply V_mat.
    - apply mask_rows_mat; auto. apply V_mat.
    - apply T_mat.
  Qed.
  Lemma V_len x : length (matvec V x) = n.
  Proof. rewrite matvec_length. apply V_mat. Qed.
  Lemma P_length x : length (matvec P x) = n.
  Proof. rewrite matvec_length. apply P_mat. Qed.
  Lemma P_sym x z : length x = n -> length z = n -> ldot (matvec P x) z = ldot x (matvec P z).
  Proof.
    intros Lx Lz. rewrite !P_apply by auto.
    assert (Lm : forall w, length (mask_vec sel (matvec V w)) = n) by (intros; apply mask_length; auto; apply V_len).
    rewrite (ldot_matvec n n T _ z T_mat (Lm x) Lz), double_transpose.
    rewrite (ldot_mask n) by (auto using V_len).
    rewrite (ldot_comm x), (ldot_matvec n n T _ x T_mat (Lm z) Lx), double_transpose. apply ldot_comm.
  Qed.
End Orth.

Section Split.
  Variables (n : nat) (V : matrix) (sel : list bool).
  Hypothesis HO : orthogonal n V.
  Hypothesis Hsel : length sel = n.
  Notation P := (projector n sel V).
  Notation Q := (projector n (map negb sel) V).
  Lemma Hnsel : length (map negb sel) = n. Proof. now rewrite map_length. Qed.

  Lemma PQ_id x : length x = n -> ladd (matvec P x) (matvec Q x) = x.
  Proof.
    intros L. rewrite !(P_apply n V HO) by (auto using Hnsel).
    rewrite <- (matvec_add n n) by (first [apply T_mat; exact HO | apply mask_length; auto using Hnsel; apply V_len; auto]).
    transitivity (matvec (transpose n V) (matvec V x)); [|now apply TV]. f_equal.
    assert (LV := V_len n V HO x).
    apply (vec_ext _ _ n); auto. { rewrite ladd_length; rewrite !(mask_length n); auto using Hnsel. }
    intros i Hi. rewrite nth_ladd by (rewrite !(mask_length n); auto using Hnsel).
    rewrite !(nth_mask n) by (auto using Hnsel). rewrite nth_negb by lia. destruct (nth i sel false); cbn; ring.
  Qed.
  Lemma PQ_zero x : length x = n -> matvec P (matvec Q x) = repeat 0 n.
  Proof.
    intros L. rewrite (P_apply n V HO sel Hsel) by (apply P_length; auto). rewrite (P_apply n V HO (map negb sel)) by (auto using Hnsel).
    assert (LV := V_len n V HO x).
    rewrite (VT n V HO) by (apply mask_length; auto using Hnsel).
    replace (mask_vec sel _) with (repeat 0 n).
    - rewrite matvec_zero. f_equal. apply T_mat. exact HO.
    - apply (vec_ext _ _ n); [apply repeat_length|apply mask_length; auto; apply mask_length; auto using Hnsel|].
      intros i Hi. rewrite nth_repeat0, !(nth_mask n) by (auto using Hnsel, mask_length; apply mask_length; auto using Hnsel).
      rewrite nth_negb by lia. destruct (nth i sel false); reflexivity.
  Qed.

  (** A matrix whose discarded singular values vanish kills the complement. *)
  Lemma kernel A s x : is_svd n A s V -> length x = n ->
    (forall i, (i < n)%nat -> nth i sel false = false -> nth i s 0 = 0) ->
    forall w, In w (matvec A (matvec Q x)) -> w = 0.
  Proof.
    intros (Ls & _ & _ & HS) L Hz. apply ldot_self_zero.
    specialize (HS (matvec Q x) (matvec Q x)). rewrite !apply_matvec, !inner_ldot in HS. rewrite HS by (apply P_length; auto).
    unfold Rsum. assert (LV := V_len n V HO x).
    assert (Z : forall l, (forall i, In i l -> (i < n)%nat) -> fold_right Rplus 0 (map (fun i => nth i s 0 * nth i s 0 *
       (inner (nth i V []) (matvec Q x) * inner (nth i V []) (matvec Q x))) l) = 0).
    { induction l as [|i l IH]; intros Hl; auto. cbn [map fold_right]. rewrite IH by (intros; apply Hl; simpl; auto).
      assert (Hi : (i < n)%nat) by (apply Hl; simpl; auto).
      destruct (nth i sel false) eqn:Es.
      - assert (inner (nth i V []) (matvec Q x) = 0) as ->; [|ring].
        rewrite inner_ldot, <- nth_matvec by (destruct (V_mat n V HO); lia).
        rewrite (P_apply n V HO (map negb sel)) by (auto using Hnsel). rewrite (VT n V HO) by (apply mask_length; auto using Hnsel).
        rewrite (nth_mask n) by (auto using Hnsel). rewrite nth_negb, Es by lia. reflexivity.
      - rewrite (Hz i Hi Es). ring. }
    apply Z. intros i I. apply in_seq in I. lia.
  Qed.
End Split.

Lemma selection_spec tol s i : (i < length s)%nat -> nth i (selection tol s) false = false -> nth i s 0 < tol * smax s.
Proof.
  intros H. unfold selection. rewrite (nth_indep _ false ((fun x => if Rle_dec (tol * smax s) x then true else false) 0)) by (rewrite map_length; auto).
  rewrite (map_nth (fun x => if Rle_dec (tol * smax s) x then true else false)). destruct (Rle_dec (tol * smax s) (nth i s 0)); [discriminate|]. intros _. lra.
Qed.
Lemma selection_length tol s : length (selection tol s) = length s.
Proof. apply map_length. Qed.
Lemma exact_selection tol s n : exact_rank tol s -> length s = n ->
  forall i, (i < n)%nat -> nth i (selection tol s) false = false -> nth i s 0 = 0.
Proof. intros H L i Hi Hs. apply H; [apply nth_In; lia|]. apply selection_spec; auto. lia. Qed.
Lemma smax_bound s v : In v s -> v <= smax s.
Proof. unfold smax. induction s as [|a s IH]; intros []; simpl; [subst; apply Rmax_l|]. eapply Rle_trans; [apply IH; auto|apply Rmax_r]. Qed.
Lemma smax_nonneg s : 0 <= smax s.
Proof. unfold smax. destruct s; simpl; [lra|]. induction s as [|b s IH] in r |- *; simpl; [apply Rmax_r|]. eapply Rle_trans; [apply (IH b)|apply Rmax_r]. Qed.

(** A matrix without positive singular values is zero. *)
Lemma zero_svd n A s V x : is_svd n A s V -> smax s = 0 -> length x = n -> forall w, In w (matvec A x) -> w = 0.
Proof.
  intros (Ls & Pos & _ & HS) Hz L. apply ldot_self_zero. specialize (HS x x L L). rewrite !apply_matvec, !inner_ldot in HS. rewrite HS.
  unfold Rsum. assert (Z : forall l, (forall i, In i l -> (i < n)%nat) -> fold_right Rplus 0 (map (fun i => nth i s 0 * nth i s 0 *
       (inner (nth i V []) x * inner (nth i V []) x)) l) = 0).
  { induction l as [|i l IH]; intros Hl; auto. cbn [map fold_right]. rewrite IH by (intros; apply Hl; simpl; auto).
    assert (Hi : In (nth i s 0) s) by (apply nth_In; rewrite Ls; apply Hl; simpl; auto).
    assert (nth i s 0 = 0) as ->; [|ring]. apply Rle_antisym; [eapply Rle_trans; [apply smax_bound; exact Hi|lra]|now apply Pos]. }
  apply Z. intros i I. apply in_seq in I. lia.
Qed.

Lemma sym_ldot n A x z : symmetric_mat n A -> length x = n -> length z = n -> ldot (matvec A x) z = ldot x (matvec A z).
Proof. intros [HA S] Lx Lz. rewrite (ldot_matvec n n A x z HA Lx Lz), (sym_transpose n A HA S). reflexivity. Qed.

Lemma ladd_cancel_zero a b n : length a = n -> length b = n -> b = repeat 0 n -> ladd a b = a.
Proof. intros H _ ->. now apply ladd_0_r. Qed.

Lemma ratio_nz a c : 0 < a -> a <= c -> (if Rlt_dec 0 a then c / a else 0) <> 0.
Proof. intros H1 H2. destruct (Rlt_dec 0 a) as [r|r]; [|lra]. apply Rgt_not_eq. apply Rdiv_lt_0_compat; lra. Qed.

Section Precond.
  Variable E : library.
  Variables (n : nat) (tol : R) (A B C : matrix) (sA sB sC : list R) (VA VB VC : matrix).
  Hypothesis SA : symmetric_mat n A.
  Hypothesis SB : symmetric_mat n B.
  Hypothesis SC : symmetric_mat n C.
  Hypothesis DA : is_svd n A sA VA.
  Hypothesis DB : is_svd n B sB VB.
  Hypothesis DC : is_svd n C sC VC.
  Hypothesis EB : exact_rank tol sB.
  Hypothesis EC : exact_rank tol sC.
  Hypothesis OAB : smax sA <= smax sB.
  Hypothesis OBC : smax sB <= smax sC.
  Let PB := projector n (selection tol sB) VB.
  Let PC := projector n (selection tol sC) VC.
  Let QB := projector n (map negb (selection tol sB)) VB.
  Let QC := projector n (map negb (selection tol sC)) VC.
  Let sBC := fst (x_svd E (PB ++ PC)).
  Let VBC := snd (x_svd E (PB ++ PC)).
  Hypothesis DBC : is_svd n (PB ++ PC) sBC VBC.
  Hypothesis EBC : exact_rank tol sBC.
  Let PBC := projector n (selection tol sBC) VBC.
  Let QBC := projector n (map negb (selection tol sBC)) VBC.
  Let kAC := if Rlt_dec 0 (smax sA) then smax sC / smax sA else 0.
  Let kBC := if Rlt_dec 0 (smax sB) then smax sC / smax sB else 0.
  Let H := matadd (matadd A B) C.
  Hypothesis HI : injective n H.

  Let LsB : length (selection tol sB) = n. Proof. rewrite selection_length. exact (proj1 DB). Qed.
  Let LsC : length (selection tol sC) = n. Proof. rewrite selection_length. exact (proj1 DC). Qed.
  Let LsBC : length (selection tol sBC) = n. Proof. rewrite selection_length. exact (proj1 DBC). Qed.
  Let OB_ : orthogonal n VB := proj1 (proj2 (proj2 DB)).
  Let OC_ : orthogonal n VC := proj1 (proj2 (proj2 DC)).
  Let OBC_ : orthogonal n VBC := proj1 (proj2 (proj2 DBC)).

  Let mPC : mat n n PC. Proof. apply P_mat; auto. Qed.
  Let mQC : mat n n QC. Proof. apply P_mat; auto. Qed.
  Let mPB : mat n n PB. Proof. apply P_mat; auto. Qed.
  Let mQB : mat n n QB. Proof. apply P_mat; auto. Qed.
  Let mPBC : mat n n PBC. Proof. apply P_mat; auto. Qed.
  Let mQBC : mat n n QBC. Proof. apply P_mat; auto. Qed.
  Let len (M : matrix) x : mat n n M -> length (matvec M x) = n.
  Proof. intros [K _]. now rewrite matvec_length. Qed.
  Ltac lens := repeat (first [assumption | solve [auto] | rewrite ladd_length | rewrite lscale_length | rewrite repeat_length | rewrite len]).

  Let C_QC x : length x = n -> matvec C (matvec QC x) = repeat 0 n.
  Proof.
    intros L. assert (K : length (matvec C (matvec QC x)) = n) by (apply len; exact (proj1 SC)). rewrite <- K. apply zero_vec.
    apply (kernel n VC (selection tol sC) OC_ LsC C sC x DC L). apply exact_selection; auto. exact (proj1 DC).
  Qed.
  Let B_QB x : length x = n -> matvec B (matvec QB x) = repeat 0 n.
  Proof.
    intros L. assert (K : length (matvec B (matvec QB x)) = n) by (apply len; exact (proj1 SB)). rewrite <- K. apply zero_vec.
    apply (kernel n VB (selection tol sB) OB_ LsB B sB x DB L). apply exact_selection; auto. exact (proj1 DB).
  Qed.
  Let stack_QBC x : length x = n -> matvec PB (matvec QBC x) = repeat 0 n /\ matvec PC (matvec QBC x) = repeat 0 n.
  Proof.
    intros L. assert (K : forall w, In w (matvec (PB ++ PC) (matvec QBC x)) -> w = 0).
    { apply (kernel n VBC (selection tol sBC) OBC_ LsBC (PB ++ PC) sBC x DBC L). apply exact_selection; auto. exact (proj1 DBC). }
    unfold matvec in K at 1. rewrite map_app in K. split.
    - assert (K' : length (matvec PB (matvec QBC x)) = n) by (apply len; auto). rewrite <- K'. apply zero_vec. intros w I. apply K, in_app_iff. auto.
    - assert (K' : length (matvec PC (matvec QBC x)) = n) by (apply len; auto). rewrite <- K'. apply zero_vec. intros w I. apply K, in_app_iff. auto.
  Qed.
  Let symP M V sel x z : M = projector n sel V -> orthogonal n V -> length sel = n -> length x = n -> length z = n ->
    ldot (matvec M x) z = ldot x (matvec M z).
  Proof. intros -> HO Hs Lx Lz. apply P_sym; auto. Qed.
  Let nl s : length s = n -> length (map negb s) = n. Proof. intros <-. apply map_length. Qed.

  Let QC_C x : length x = n -> matvec QC (matvec C x) = repeat 0 n.
  Proof.
    intros L. apply all_orth_zero; [apply len; auto|]. intros z Lz.
    rewrite (symP QC VC (map negb (selection tol sC))) by (first [assumption | solve [auto] | apply len; exact (proj1 SC)]).
    rewrite (sym_ldot n C x) by (first [assumption | solve [auto] | apply len; auto]). rewrite C_QC by auto. rewrite ldot_comm. apply ldot_repeat0.
  Qed.
  Let QBC_PC x : length x = n -> matvec QBC (matvec PC x) = repeat 0 n.
  Proof.
    intros L. apply all_orth_zero; [apply len; auto|]. intros z Lz.
    rewrite (symP QBC VBC (map negb (selection tol sBC))) by (first [assumption | solve [auto] | apply len; auto]).
    rewrite (symP PC VC (selection tol sC)) by (first [assumption | solve [auto] | apply len; auto]). rewrite (proj2 (stack_QBC z Lz)). rewrite ldot_comm. apply ldot_repeat0.
  Qed.
  Let B_QBC x : length x = n -> matvec B (matvec QBC x) = repeat 0 n.
  Proof.
    intros L. assert (Lq : length (matvec QBC x) = n) by (apply len; auto).
    pose proof (PQ_id n VB (selection tol sB) OB_ LsB (matvec QBC x) Lq) as S. fold PB QB in S.
    rewrite (proj1 (stack_QBC x L)), ladd_0_l in S by (apply len; auto). rewrite <- S. apply B_QB; auto.
  Qed.
  Let C_QBC x : length x = n -> matvec C (matvec QBC x) = repeat 0 n.
  Proof.
    intros L. assert (Lq : length (matvec QBC x) = n) by (apply len; auto).
    pose proof (PQ_id n VC (selection tol sC) OC_ LsC (matvec QBC x) Lq) as S. fold PC QC in S.
    rewrite (proj2 (stack_QBC x L)), ladd_0_l in S by (apply len; auto). rewrite <- S. apply C_QC; auto.
  Qed.
  Let QBC_B x : length x = n -> matvec QBC (matvec B x) = repeat 0 n.
  Proof.
    intros L. apply all_orth_zero; [apply len; auto|]. intros z Lz.
    rewrite (symP QBC VBC (map negb (selection tol sBC))) by (first [assumption | solve [auto] | apply len; exact (proj1 SB)]).
    rewrite (sym_ldot n B x) by (first [assumption | solve [auto] | apply len; auto]). rewrite B_QBC by auto. rewrite ldot_comm. apply ldot_repeat0.
  Qed.
  Let QBC_QC x : length x = n -> matvec QBC (matvec QC x) = matvec QBC x.
  Proof.
    intros L. pose proof (PQ_id n VC (selection tol sC) OC_ LsC x L) as S. fold PC QC in S.
    rewrite <- S at 2. rewrite (matvec_add n n) by (first [assumption | solve [auto] | apply len; auto]). rewrite QBC_PC by auto. rewrite ladd_0_l; lens.
  Qed.

  Definition op_O (w : list R) : list R :=
    ladd (ladd (lscale kAC (matvec QBC (matvec QC w))) (lscale kBC (matvec PBC (matvec QC w)))) (matvec PC w).
  Let pc := preconditioner E n tol (A, (sA, VA)) (B, (sB, VB)) (C, (sC, VC)).

  Let svd_eq : x_svd E (PB ++ PC) = (sBC, VBC). Proof. unfold sBC, VBC. destruct (x_svd E (PB ++ PC)); reflexivity. Qed.
  Lemma pc_fields : pc_proj_C pc = PC /\ pc_annil_C pc = QC /\ pc_proj_BC pc = PBC /\ pc_annil_BC pc = QBC /\
    pc_scale_AC pc = kAC /\ pc_scale_BC pc = kBC /\
    pc_Ohess pc = matadd (matadd
        (matadd (matadd (matmul n (matmul n (matscale kAC QBC) QC) A) (matmul n (matmul n (matscale kBC PBC) QC) A)) (matmul n PC A))
        (matadd (matmul n (matmul n (matscale kBC PBC) QC) B) (matmul n PC B))) C.
  Proof. unfold pc, preconditioner. fold PB PC. rewrite svd_eq. repeat split. Qed.

  Let mat_rows (M : matrix) : mat n n M -> forall r, In r M -> length r = n. Proof. intros [_ K]. exact K. Qed.

  Lemma rhs_O b : length b = n -> precond_rhs n pc b = op_O b.
  Proof.
    intros L. unfold precond_rhs, op_O. destruct pc_fields as (-> & -> & -> & -> & -> & -> & _).
    assert (m1' : mat n n (matscale kAC QBC)) by (apply matscale_mat; auto).
    assert (m2' : mat n n (matscale kBC PBC)) by (apply matscale_mat; auto).
    rewrite !(matvec_matmul n n) by (first [assumption | apply mat_rows; auto | auto]). rewrite !matvec_matscale. reflexivity.
  Qed.

  Let op_len w : length w = n -> length (op_O w) = n.
  Proof. intros L. unfold op_O. lens. Qed.
  Let op_nth w i : length w = n -> nth i (op_O w) 0
    = kAC * nth i (matvec QBC (matvec QC w)) 0 + kBC * nth i (matvec PBC (matvec QC w)) 0 + nth i (matvec PC w) 0.
  Proof.
    intros L. unfold op_O. rewrite nth_ladd by (lens).
    rewrite nth_ladd by (lens). rewrite !nth_lscale. reflexivity.
  Qed.
  Let op_add u w : length u = n -> length w = n -> op_O (ladd u w) = ladd (op_O u) (op_O w).
  Proof.
    intros Lu Lw. apply (vec_ext _ _ n); [apply op_len; rewrite ladd_length; lia|rewrite ladd_length; rewrite !op_len; auto|].
    intros i Hi. rewrite nth_ladd by (rewrite !op_len; auto). rewrite !op_nth by (auto; rewrite ladd_length; lia).
    rewrite (matvec_add n n QC), (matvec_add n n QBC), (matvec_add n n PBC), (matvec_add n n PC) by (first [assumption | solve [auto] | apply len; auto]).
    rewrite !nth_ladd by (rewrite !len; auto). ring.
  Qed.
  Let op_scale c u : length u = n -> op_O (lscale c u) = lscale c (op_O u).
  Proof.
    intros Lu. apply (vec_ext _ _ n); [apply op_len; rewrite lscale_length; lia|rewrite lscale_length, op_len; auto|].
    intros i Hi. rewrite nth_lscale. rewrite !op_nth by (auto; rewrite lscale_length; lia).
    rewrite !matvec_scale, !nth_lscale. ring.
  Qed.

  Let mA : mat n n A := proj1 SA. Let mB : mat n n B := proj1 SB. Let mC : mat n n C := proj1 SC.
  Lemma Hv_split v : matvec H v = ladd (ladd (matvec A v) (matvec B v)) (matvec C v).
  Proof. unfold H. rewrite (matvec_matadd n n), (matvec_matadd n n); auto. apply matadd_mat; auto. Qed.

  Lemma Ohess_is_O_H v : length v = n -> matvec (pc_Ohess pc) v = op_O (matvec H v).
  Proof.
    intros L. destruct pc_fields as (_ & _ & _ & _ & _ & _ & ->). rewrite Hv_split.
    rewrite !op_add by (lens).
    assert (m1' : mat n n (matscale kAC QBC)) by (apply matscale_mat; auto).
    assert (m2' : mat n n (matscale kBC PBC)) by (apply matscale_mat; auto).
    assert (mm : forall M N, mat n n M -> mat n n (matmul n M N)) by (intros M N [K _]; apply matmul_mat; auto).
    rewrite !(matvec_matadd n n) by (repeat apply matadd_mat; auto).
    rewrite !(matvec_matmul n n) by (first [assumption | apply mat_rows; auto | auto]). rewrite !matvec_matscale.
    f_equal; [f_equal|].
    - (* the term of B *)
      apply (vec_ext _ _ n); [lens|apply op_len; apply len; auto|].
      intros i Hi. rewrite nth_ladd by (lens). rewrite nth_lscale, op_nth by (apply len; auto).
      rewrite QBC_QC, QBC_B, nth_repeat0 by (first [assumption | solve [auto] | apply len; auto]). ring.
    - (* the term of C *)
      apply (vec_ext _ _ n); [apply len; auto|apply op_len; apply len; auto|]. intros i Hi. rewrite op_nth by (apply len; auto).
      pose proof (PQ_id n VC (selection tol sC) OC_ LsC (matvec C v) (len C v mC)) as S. fold PC QC in S.
      rewrite QC_C, ladd_0_r in S by (first [assumption | solve [auto] | apply len; auto]).
      rewrite QC_C, !matvec_zero, !nth_repeat0, S by auto. ring.
  Qed.

  Lemma O_injective w : length w = n -> op_O w = repeat 0 n -> w = repeat 0 n.
  Proof.
    intros L Z.
    (* PC w = 0 *)
    assert (PC_PBC : forall u, length u = n -> matvec PC (matvec PBC u) = matvec PC u).
    { intros u Lu. pose proof (PQ_id n VBC (selection tol sBC) OBC_ LsBC u Lu) as S. fold PBC QBC in S.
      rewrite <- S at 2. rewrite (matvec_add n n) by (first [assumption | solve [auto] | apply len; auto]). rewrite (proj2 (stack_QBC u Lu)), ladd_0_r; lens. }
    assert (PP : forall u, length u = n -> matvec PC (matvec PC u) = matvec PC u).
    { intros u Lu. pose proof (PQ_id n VC (selection tol sC) OC_ LsC u Lu) as S. fold PC QC in S.
      rewrite <- S at 2. rewrite (matvec_add n n) by (first [assumption | solve [auto] | apply len; auto]).
      pose proof (PQ_zero n VC (selection tol sC) OC_ LsC u Lu) as Zq. fold PC QC in Zq. rewrite Zq. rewrite ladd_0_r; lens. }
    assert (Z1 : matvec PC w = repeat 0 n).
    { assert (matvec PC (op_O w) = repeat 0 n) by (rewrite Z, matvec_zero; f_equal; apply mPC).
      unfold op_O in H0. rewrite (matvec_add n n) in H0 by (lens).
      rewrite (matvec_add n n) in H0 by (lens). rewrite !matvec_scale in H0.
      rewrite (proj2 (stack_QBC (matvec QC w) (len _ _ mQC))), PC_PBC, PP in H0 by (first [assumption | solve [auto] | apply len; auto]).
      pose proof (PQ_zero n VC (selection tol sC) OC_ LsC w L) as Zq. fold PC QC in Zq. rewrite Zq in H0.
      assert (forall c, lscale c (repeat 0 n) = repeat 0 n) as LZ.
      { intros c. unfold lscale. clear. induction n; simpl; auto. rewrite IHn0. f_equal. ring. }
      rewrite !LZ, !ladd_0_l in H0 by (lens). exact H0. }
    assert (Wq : matvec QC w = w).
    { pose proof (PQ_id n VC (selection tol sC) OC_ LsC w L) as S. fold PC QC in S. rewrite Z1, ladd_0_l in S; lens. }
    assert (Hw : length (matvec H w) = n) by (rewrite Hv_split, ladd_length; rewrite ?ladd_length; rewrite !len; auto).
    pose proof (smax_nonneg sA) as NA. pose proof (smax_nonneg sB) as NB.
    destruct (Req_dec (smax sB) 0) as [ZB|NZB].
    { (* A = B = 0: then C is injective and w in its kernel *)
      assert (ZA : smax sA = 0) by lra.
      rewrite <- L. apply zero_vec. apply HI; auto. rewrite apply_matvec, Hv_split.
      assert (matvec A w = repeat 0 n) as -> by (rewrite <- (len A w mA); apply zero_vec; apply (zero_svd n A sA VA); auto).
      assert (matvec B w = repeat 0 n) as -> by (rewrite <- (len B w mB); apply zero_vec; apply (zero_svd n B sB VB); auto).
      rewrite <- Wq, C_QC by auto. rewrite !ladd_0_l by (lens).
      intros v I. now apply repeat_spec in I. }
    assert (KBC : kBC <> 0).
    { apply ratio_nz; lra. }
    (* op_O w = kAC QBC w + kBC PBC w *)
    assert (Zi : forall i, kAC * nth i (matvec QBC w) 0 + kBC * nth i (matvec PBC w) 0 = 0).
    { intros i. pose proof (f_equal (fun l => nth i l 0) Z) as Zi. cbn beta in Zi. rewrite op_nth, Z1, Wq, !nth_repeat0 in Zi by auto. lra. }
    assert (Q2 : matvec QBC (matvec QBC w) = matvec QBC w /\ matvec QBC (matvec PBC w) = repeat 0 n).
    { pose proof (PQ_id n VBC (selection tol sBC) OBC_ LsBC w L) as S. fold PBC QBC in S.
      assert (Z2 : matvec QBC (matvec PBC w) = repeat 0 n).
      { apply all_orth_zero; [apply len; auto|]. intros z Lz.
        rewrite (symP QBC VBC (map negb (selection tol sBC))) by (first [assumption | solve [auto] | apply len; auto]).
        rewrite (symP PBC VBC (selection tol sBC)) by (first [assumption | solve [auto] | apply len; auto]).
        pose proof (PQ_zero n VBC (selection tol sBC) OBC_ LsBC z Lz) as Zq. fold PBC QBC in Zq. rewrite Zq. rewrite ldot_comm. apply ldot_repeat0. }
      split; auto. rewrite <- S at 2. rewrite (matvec_add n n) by (first [assumption | solve [auto] | apply len; auto]). rewrite Z2, ladd_0_l; lens. }
    assert (Zv : ladd (lscale kAC (matvec QBC w)) (lscale kBC (matvec PBC w)) = repeat 0 n).
    { apply (vec_ext _ _ n); [lens|apply repeat_length|].
      intros i Hi. rewrite nth_ladd, !nth_lscale, nth_repeat0 by (lens). apply Zi. }
    assert (ZQ : forall i, kAC * nth i (matvec QBC w) 0 = 0).
    { intros i. apply (f_equal (matvec QBC)) in Zv. rewrite (matvec_add n n) in Zv by (lens).
      rewrite !matvec_scale in Zv. rewrite (proj1 Q2), (proj2 Q2), matvec_zero in Zv.
      apply (f_equal (fun l => nth i l 0)) in Zv. rewrite nth_ladd, !nth_lscale, !nth_repeat0 in Zv by (lens). lra. }
    assert (WP : matvec QBC w = repeat 0 n -> w = repeat 0 n).
    { intros ZQ'. pose proof (PQ_id n VBC (selection tol sBC) OBC_ LsBC w L) as S. fold PBC QBC in S. rewrite ZQ', ladd_0_r in S by (apply len; auto).
      rewrite <- S. apply (vec_ext _ _ n); [apply len; auto|apply repeat_length|]. intros i Hi. rewrite nth_repeat0.
      pose proof (Zi i) as K. rewrite ZQ', nth_repeat0 in K. apply Rmult_eq_reg_l with kBC; auto. lra. }
    apply WP. destruct (Req_dec (smax sA) 0) as [ZA|NZA].
    - (* A = 0: H QBC = 0 *)
      set (u := matvec QBC w). assert (Lu : length u = n) by (apply len; auto).
      rewrite <- Lu. apply zero_vec. apply HI; auto. rewrite apply_matvec, Hv_split.
      assert (matvec A u = repeat 0 n) as -> by (rewrite <- (len A u mA); apply zero_vec; apply (zero_svd n A sA VA); auto).
      unfold u. rewrite B_QBC, C_QBC by auto. rewrite !ladd_0_l by (lens).
      intros v I. now apply repeat_spec in I.
    - assert (KAC : kAC <> 0).
      { apply ratio_nz; lra. }
      apply (vec_ext _ _ n); [apply len; auto|apply repeat_length|]. intros i Hi. rewrite nth_repeat0.
      apply Rmult_eq_reg_l with kAC; auto. rewrite ZQ. ring.
  Qed.

  Lemma same_solutions v b : length v = n -> length b = n ->
    (matvec (pc_Ohess pc) v = precond_rhs n pc b <-> matvec H v = b).
  Proof.
    intros Lv Lb. rewrite rhs_O, Ohess_is_O_H by auto.
    assert (LH : length (matvec H v) = n) by (rewrite Hv_split, ladd_length; rewrite ?ladd_length; rewrite !len; auto).
    split; [|now intros ->]. intros Heq.
    assert (Z : ladd (matvec H v) (lscale (-1) b) = repeat 0 n).
    { apply O_injective; [rewrite ladd_length; rewrite ?lscale_length; lia|]. rewrite op_add, op_scale, Heq by (rewrite ?lscale_length; auto).
      apply (vec_ext _ _ n); [rewrite ladd_length; rewrite ?lscale_length, !op_len; auto|apply repeat_length|]. intros i Hi.
      rewrite nth_ladd, nth_lscale, nth_repeat0 by (rewrite lscale_length; auto). ring. }
    apply (vec_ext _ _ n); auto. intros i Hi. apply (f_equal (fun l => nth i l 0)) in Z.
    rewrite nth_ladd, nth_lscale, nth_repeat0 in Z by (rewrite lscale_length; lia). lra.
  Qed.
End Precond.
