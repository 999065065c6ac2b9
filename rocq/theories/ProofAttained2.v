(** Convex problems with a quadratic term that sees every design have a best design. *)
From Coq Require Import String List Bool Arith ZArith Reals Lra Lia.
From Verif Require Import Base ModelArray ModelMath SpecMath ModelSurface SpecSurface ProofSurface2
  ModelParams ModelField SpecField ProofField ProofField2 ProofField3 ModelQuantity ModelWrapper SpecWrapper ModelPackage SpecPackage ProofPackage4 SpecConvex ProofConvex
  SpecBest ProofSquares ProofBest ProofUnique ProofUnique2 ProofUnique3 ProofPeriods ProofSurface ProofAttained.
Import ListNotations.
Open Scope R_scope.
Open Scope string_scope.
Open Scope list_scope.

(** ** Entries of a quantity as functions *)
Definition entry_of (other : list string) (name : string) (q : params) (i : nat) (x : list R) : R :=
  match get_quantity (package other) name with Ok Q => match value_of Q q x with Ok v => nth i (el v) 0 | Raise _ => 0 end | Raise _ => 0 end.
Lemma entry_reads other name q i x v : reads other name q x v -> entry_of other name q i x = nth i (el v) 0.
Proof. intros (Q & E1 & E2). unfold entry_of. now rewrite E1, E2. Qed.
Lemma chord_weaken other name q : affine_quantity other name q -> convex_quantity other name q.
Proof.
  intros H x y t Lx Ly Ht. destruct (H x y t Lx Ly Ht) as (vx & vy & vz & A & B & C & D & E & F & G & K). exists vx, vy, vz. repeat (split; [assumption|]).
  clear -K. induction K; constructor; [lra|assumption].
Qed.
Lemma Forall2_nth_le u v i : Forall2 Rle u v -> nth i u 0 <= nth i v 0.
Proof. intros F. revert i. induction F; intros [|i]; cbn; try lra. apply IHF. Qed.
Lemma entry_convex other name q i : convex_quantity other name q -> convexn (q_ndofs q) (entry_of other name q i).
Proof.
  intros H x y t Lx Ly Ht. destruct (H x y t Lx Ly Ht) as (vx & vy & vz & A & B & C & D & E & F & G & K).
  rewrite (entry_reads _ _ _ _ _ _ A), (entry_reads _ _ _ _ _ _ B), (entry_reads _ _ _ _ _ _ C). rewrite <- lincomb_nth by congruence. now apply Forall2_nth_le.
Qed.
Lemma chord_shape rel other name q x y v : on_chord rel other name q -> length x = q_ndofs q -> length y = q_ndofs q -> reads other name q x v ->
  exists w, reads other name q y w /\ sh w = sh v /\ length (el w) = length (el v).
Proof.
  intros H Lx Ly Rx. destruct (H x y 0 Lx Ly ltac:(lra)) as (vx & vy & vz & A & B & C & D & E & F & G & K). exists vy. split; [exact B|].
  rewrite (reads_fun _ _ _ _ _ _ Rx A). split; congruence.
Qed.

Section Existence.
  Variables (other : list string) (q : params) (os : list (string * R)) (cs : list (string * cmp * R)) (z : list R) (fz : R).
  Hypothesis S : sound q z.
  Hypothesis Ho : convex_objective other q os.
  Hypothesis Hc : convex_constraints other q cs.
  Hypothesis Fz : feasible other q cs z.
  Hypothesis Wz : weighted other q os z fz.
  Lemma Lz : length z = q_ndofs q. Proof using S. apply S. Qed.

  (** The admissible set is closed. *)
  Lemma feasible_closed x : length x = q_ndofs q -> (forall d, 0 < d -> exists y, length y = q_ndofs q /\ feasible other q cs y /\ within d x y) -> feasible other q cs x.
  Proof using Hc S Fz.
    intros Lx H name c b I. destruct (Fz name c b I) as (v & Rv & _). specialize (Hc name c b I).
    assert (Cv : convex_quantity other name q) by (destruct c; [exact Hc|now apply chord_weaken|now apply chord_weaken]).
    destruct (chord_shape Rle other name q z x v Cv Lz Lx Rv) as (w & Rw & _ & Lw). exists w. split; [exact Rw|].
    intros r Hr. apply In_nth with (d := 0) in Hr as (i & Hi & <-).
    assert (Near : forall e, 0 < e -> exists s, Rabs (s - nth i (el w) 0) <= e /\ match c with LE => s <= b | GE => s >= b | EQ => s = b end).
    { intros e Pe. destruct (convex_continuous _ _ (entry_convex other name q i Cv) x Lx e Pe) as (d & Pd & Hd). destruct (H d Pd) as (y & Ly & Fy & Wy).
      destruct (Fy name c b I) as (u & Ru & Mu). exists (nth i (el u) 0). split.
      - rewrite <- (entry_reads _ _ _ _ _ _ Ru), <- (entry_reads _ _ _ _ _ _ Rw). now apply Hd.
      - apply Mu, nth_In. destruct (chord_shape Rle other name q z y v Cv Lz Ly Rv) as (u' & Ru' & _ & Lu'). rewrite (reads_fun _ _ _ _ _ _ Ru Ru'). congruence. }
    clear -Near. set (r := nth i (el w) 0) in *. clearbody r. destruct c.
    - apply le_epsilon. intros e Pe. destruct (Near e Pe) as (s & A & B). unfold Rabs in A. destruct (Rcase_abs _) in A; lra.
    - apply Rle_ge, le_epsilon. intros e Pe. destruct (Near e Pe) as (s & A & B). unfold Rabs in A. destruct (Rcase_abs _) in A; lra.
    - apply Rle_antisym; apply le_epsilon; intros e Pe; destruct (Near e Pe) as (s & A & ->); unfold Rabs in A; destruct (Rcase_abs _) in A; lra.
  Qed.

  (** The objective is a function of the design. *)
  Definition total (x : list R) : R := Rsum (map (fun o => snd o * entry_of other (fst o) q 0 x) os).
  Lemma total_weighted x : length x = q_ndofs q -> weighted other q os x (total x).
  Proof using Ho S Wz.
    intros Lx. destruct Wz as (vs & F & _). unfold total. clear -F Ho Lx S. exists (map (fun o => entry_of other (fst o) q 0 x) os). split.
    - revert Ho. induction F as [|o m l vs R F IH]; intros Ho; [constructor|]. cbn [map]. constructor; [|apply IH; intros n w Hn; apply (Ho n w); now right].
      destruct o as [n w]. cbn [fst] in *. destruct (Ho n w (or_introl eq_refl)) as (_ & Cv). destruct (chord_shape Rle other n q z x _ Cv (proj2 (proj2 (proj2 (proj2 S)))) Lx R) as (a & Ra & Sa & La).
      rewrite (entry_reads _ _ _ _ _ _ Ra). destruct a as [sa ea]. cbn in Sa, La. subst sa. destruct ea as [|e [|]]; try discriminate. exact Ra.
    - f_equal. clear. induction os as [|o l IH]; cbn; [reflexivity|]. now rewrite IH.
  Qed.
  Lemma total_strong x y t : length x = q_ndofs q -> length y = q_ndofs q -> 0 <= t <= 1 ->
    total (lincomb t (1 - t) x y) <= t * total x + (1 - t) * total y - t * (1 - t) * gap q os x y.
  Proof using Ho S Wz.
    intros Lx Ly Ht. destruct (weighted_gap other q z os S Ho x y t _ _ Lx Ly Ht (total_weighted x Lx) (total_weighted y Ly)) as (r & Wr & Br).
    rewrite (weighted_fun other q os _ _ _ (total_weighted (lincomb t (1 - t) x y) ltac:(rewrite length_lincomb; congruence)) Wr). exact Br.
  Qed.

  Lemma best_design m : 0 < m -> (forall x y j, length x = q_ndofs q -> length y = q_ndofs q -> m * (nth j y 0 - nth j x 0) ^ 2 <= gap q os x y) ->
    exists x fx, length x = q_ndofs q /\ feasible other q cs x /\ weighted other q os x fx /\ least other q os cs x (fun _ => True).
  Proof using Ho Hc S Wz Fz.
    intros Pm Gm. destruct (attained (q_ndofs q) total (gap q os) (feasible other q cs) m total_strong Pm Gm) with (z := z) as (x & Lx & Fx & B).
    - intros x y Lx Ly Fx Fy. apply (feasible_convex other q cs Hc); auto. lra.
    - exact feasible_closed.
    - exact Lz.
    - exact Fz.
    - exists x, (total x). split; [exact Lx|]. split; [exact Fx|]. split; [now apply total_weighted|].
      intros y fx fy Ly _ Fy Wx Wy. rewrite (weighted_fun other q os _ _ _ Wx (total_weighted x Lx)), (weighted_fun other q os _ _ _ Wy (total_weighted y Ly)). now apply B.
  Qed.
End Existence.

(** ** The quadratic part sees every coefficient *)
Definition put (j : nat) (a : R) (x : list R) : list R := firstn j x ++ a :: skipn (Datatypes.S j) x.
Lemma put_length j a x : (j < length x)%nat -> length (put j a x) = length x.
Proof. intros H. unfold put. rewrite app_length, firstn_length. cbn [length]. rewrite skipn_length. lia. Qed.
Lemma put_nth j a x : (j < length x)%nat -> nth j (put j a x) 0 = a.
Proof. intros H. unfold put. rewrite app_nth2; rewrite firstn_length, Nat.min_l by lia; [|lia]. now rewrite Nat.sub_diag. Qed.
Lemma put_same j x : (j < length x)%nat -> put j (nth j x 0) x = x.
Proof. revert x. induction j as [|j IH]; intros [|a x] H; cbn in H; try lia; [reflexivity|]. unfold put in *. cbn [firstn skipn nth app]. f_equal. apply IH. lia. Qed.
Lemma put_lincomb j a t x y : length x = length y -> (j < length x)%nat -> put j a (lincomb t (1 - t) x y) = lincomb t (1 - t) (put j a x) (put j a y).
Proof.
  revert x y. induction j as [|j IH]; intros [|u x] [|v y] L H; try discriminate; cbn in H; try lia.
  - unfold put, lincomb. cbn [firstn skipn app map2]. f_equal. ring.
  - unfold put in *. rewrite lincomb_cons. cbn [firstn skipn app]. rewrite lincomb_cons. f_equal. apply IH; [now injection L|lia].
Qed.

Section Sees.
  Variables (q : params) (x0 : list R) (name : string).
  Hypothesis S : sound q x0.
  Hypothesis O : ordered q.
  Hypothesis Nm : In name ["f_K"; "f_Phi"].
  Hypothesis Pos : forall w, In w (weights name q) -> 0 < w.
  Hypothesis Inj : forall x y, length x = q_ndofs q -> length y = q_ndofs q -> field name q x = field name q y -> x = y.
  Let dist x y := energy (weights name q) (lincomb 1 (-1) (field name q y) (field name q x)).
  Lemma shaped_q : plasma_shaped q. Proof using S. apply S. Qed.
  Lemma field_comb a b x y : a + b = 1 -> length x = length y -> field name q (lincomb a b x y) = lincomb a b (field name q x) (field name q y).
  Proof using S. intros E L. replace b with (1 - a) by lra. apply field_superposed; [apply superposed_self|exact shaped_q|exact shaped_q|exact L]. Qed.
  (** The distance only depends on the difference, and scales. *)
  Lemma dist_scale s x y : length x = q_ndofs q -> length y = q_ndofs q ->
    dist (repeat 0 (q_ndofs q)) (lincomb s (- s) y x) = s ^ 2 * dist x y.
  Proof using S.
    intros Lx Ly. unfold dist. set (o := repeat 0 (q_ndofs q)). assert (Lo : length o = q_ndofs q) by apply repeat_length.
    (* y - x scaled, written as an affine combination *)
    assert (A1 : length (lincomb s (1 - s) y o) = q_ndofs q) by (apply lincomb_length; assumption). assert (A2 : length (lincomb (- s) (1 - - s) x o) = q_ndofs q) by (apply lincomb_length; assumption).
    assert (A3 := lincomb_length (1/2) (1 - 1/2) _ _ _ A1 A2). assert (A4 := lincomb_length 2 (1 - 2) _ _ _ A3 Lo). assert (A5 := lincomb_length s (- s) _ _ _ Ly Lx).
    assert (E1 : lincomb s (- s) y x = lincomb 2 (1 - 2) (lincomb (1/2) (1 - 1/2) (lincomb s (1 - s) y o) (lincomb (- s) (1 - - s) x o)) o).
    { apply (nth_ext _ _ 0 0); [congruence|]. intros k _. rewrite !lincomb_nth by congruence. unfold o. rewrite nth_repeat. field. }
    rewrite E1. rewrite (field_comb 2 (1 - 2)), (field_comb (1/2)), (field_comb s), (field_comb (- s)) by first [lra|congruence]. clear E1 A1 A2 A3 A4 A5.
    unfold energy, Rsum. pose proof (field_length name q x shaped_q) as A. pose proof (field_length name q y shaped_q) as B. pose proof (field_length name q o shaped_q) as D.
    revert A B D. generalize (field name q x) (field name q y) (field name q o) (weights name q). clear.
    induction l as [|u l IH]; intros [|v l0] [|p l1] [|w l2] A B D; try discriminate; [cbn; ring|]. unfold lincomb in *. cbn [map2 fold_right]. injection A as A. injection B as B. injection D as D. rewrite (IH l0 l1 l2 A B D). field.
  Qed.
  Lemma coordinate j : (j < q_ndofs q)%nat -> exists m, 0 < m /\ forall x y, length x = q_ndofs q -> length y = q_ndofs q -> m * (nth j y 0 - nth j x 0) ^ 2 <= dist x y.
  Proof using S O Nm Pos Inj.
    intros Hj. set (n := q_ndofs q) in *. set (o := repeat 0 n). assert (Lo : length o = n) by apply repeat_length.
    set (os := [(name, 1)]). assert (H : forall nm c, In (nm, c) os -> 0 <= c /\ In nm quadratic_figures).
    { intros nm c [E|[]]. injection E as <- <-. split; [lra|]. destruct Nm as [<-|[<-|[]]]; cbn; tauto. }
    set (E := fun x u => val q (put j 1 x) u - val q o u).
    assert (Af : affine (entries q os) n E).
    { intros x y t u Lx Ly Hu. unfold E. rewrite put_lincomb by (try congruence; lia). rewrite (val_affine q x0 os S) by (try assumption; rewrite put_length; lia || congruence). ring. }
    assert (En : forall x, length x = n -> en (entries q os) (wt q) (E x) = dist o (put j 1 x)).
    { intros x Lx. unfold E, dist. assert (Lp : length (put j 1 x) = n) by (rewrite put_length; lia). unfold en, ip, entries, os, wt, val, ProofBest.idx. cbn [flat_map map fst snd]. rewrite app_nil_r, map_map. cbn [fst snd].
      pose proof (field_length name q (put j 1 x) shaped_q) as A. pose proof (field_length name q o shaped_q) as B.
      rewrite <- sum_nth by (rewrite length_lincomb; congruence). apply Rsum_ext. intros k _. rewrite lincomb_nth by congruence. ring. }
    destruct (smallest_exists (entries q os) (wt q) (wt_nonneg q x0 os S O H) n E Af) as (x1 & L1 & B1).
    exists (dist o (put j 1 x1)). assert (Lp : length (put j 1 x1) = n) by (rewrite put_length; lia).
    assert (Nn : forall x y, 0 <= dist x y) by (intros; unfold dist; apply energy_nonneg; intros; now apply Rlt_le, Pos).
    assert (P : 0 < dist o (put j 1 x1)).
    { destruct (Rle_lt_or_eq_dec _ _ (Nn o (put j 1 x1))) as [|Z]; [assumption|exfalso]. symmetry in Z. unfold dist in Z.
      assert (Ef : field name q o = field name q (put j 1 x1)).
      { apply diff_zero; [now rewrite !field_length by apply shaped_q|]. apply (energy_zero (weights name q)); [|exact Pos|exact Z]. rewrite length_lincomb by (now rewrite !field_length by apply shaped_q). now rewrite field_length by apply shaped_q. }
      apply Inj in Ef; [|exact Lo|exact Lp]. apply (f_equal (fun l => nth j l 0)) in Ef. rewrite put_nth in Ef by lia. unfold o in Ef. rewrite nth_repeat in Ef. lra. }
    split; [exact P|]. intros x y Lx Ly. destruct (Req_dec (nth j y 0 - nth j x 0) 0) as [Z|Nz].
    - rewrite Z. replace (0 ^ 2) with 0 by ring. rewrite Rmult_0_r. apply Nn.
    - set (d := nth j y 0 - nth j x 0) in *. set (w := lincomb (/ d) (- / d) y x). assert (Lw : length w = n) by (unfold w; rewrite length_lincomb; congruence).
      pose proof (B1 w Lw) as B. rewrite !En in B by assumption. assert (Wj : nth j w 0 = 1) by (unfold w; rewrite lincomb_nth by congruence; unfold d; field; exact Nz).
      rewrite <- Wj in B at 2. rewrite put_same in B by lia. unfold w, o in B. rewrite dist_scale in B by assumption. fold o in B.
      apply Rle_trans with ((/ d) ^ 2 * dist x y * d ^ 2); [apply Rmult_le_compat_r; [apply pow2_ge_0|exact B]|]. right. field. exact Nz.
  Qed.
  Lemma every_coordinate : exists m, 0 < m /\ forall x y j, length x = q_ndofs q -> length y = q_ndofs q -> m * (nth j y 0 - nth j x 0) ^ 2 <= dist x y.
  Proof using S O Nm Pos Inj.
    assert (K : forall k, (k <= q_ndofs q)%nat -> exists m, 0 < m /\ forall x y j, (j < k)%nat -> length x = q_ndofs q -> length y = q_ndofs q -> m * (nth j y 0 - nth j x 0) ^ 2 <= dist x y).
    { induction k as [|k IH]; intros Hk; [exists 1; split; [lra|]; intros; lia|]. destruct (IH ltac:(lia)) as (m1 & P1 & H1). destruct (coordinate k ltac:(lia)) as (m2 & P2 & H2).
      exists (Rmin m1 m2). split; [now apply Rmin_pos|]. intros x y j Hj Lx Ly. destruct (Nat.eq_dec j k) as [->|Hne].
      - eapply Rle_trans; [|apply (H2 x y Lx Ly)]. apply Rmult_le_compat_r; [apply pow2_ge_0|apply Rmin_r].
      - eapply Rle_trans; [|apply (H1 x y j ltac:(lia) Lx Ly)]. apply Rmult_le_compat_r; [apply pow2_ge_0|apply Rmin_l]. }
    destruct (K _ (le_n _)) as (m & Pm & H). exists m. split; [exact Pm|]. intros x y j Lx Ly. destruct (lt_dec j (q_ndofs q)) as [Hj|Hj]; [now apply H|].
    rewrite !nth_overflow by lia. replace (m * (0 - 0) ^ 2) with 0 by ring. unfold dist. apply energy_nonneg. intros. now apply Rlt_le, Pos.
  Qed.
End Sees.

(** The terms of a problem whose weight is positive are part of the growth. *)
Lemma gap_contains other q x0 os name c x y : sound q x0 -> ordered q -> convex_objective other q os -> In (name, c) os -> In name quadratic_figures ->
  c * energy (weights name q) (lincomb 1 (-1) (field name q y) (field name q x)) <= gap q os x y.
Proof.
  intros S O Ho Hi Hq.
  assert (Nn : forall n, 0 <= energy (weights n q) (lincomb 1 (-1) (field n q y) (field n q x))) by (intros n; apply energy_nonneg, (weights_pos n q x0 S O)).
  assert (G0 : forall l, (forall n w, In (n, w) l -> 0 <= w) -> 0 <= gap q l x y).
  { induction l as [|[n w] l IH]; intros Hl; [unfold gap, Rsum; cbn; lra|]. rewrite gap_cons. assert (0 <= gap q l x y) by (apply IH; intros n' w' H'; apply (Hl n'); now right).
    destruct (is_quadratic n); [|lra]. assert (P : 0 <= w) by (apply (Hl n); now left). pose proof (Rmult_le_pos _ _ P (Nn n)). lra. }
  assert (Hw : forall n w, In (n, w) os -> 0 <= w) by (intros n w Hn; apply (Ho n w Hn)). clear Ho. revert Hi Hw. induction os as [|[n w] l IH]; intros Hi Hw; [destruct Hi|].
  rewrite gap_cons. assert (Gl : 0 <= gap q l x y) by (apply G0; intros n' w' H'; apply (Hw n'); now right).
  assert (Pw : 0 <= w) by (apply (Hw n); now left). pose proof (Rmult_le_pos _ _ Pw (Nn n)) as Pt. destruct Hi as [E|Hi].
  - injection E as -> ->. assert (Qt : is_quadratic name = true) by (unfold is_quadratic; apply existsb_exists; exists name; split; [exact Hq|apply String.eqb_refl]). rewrite Qt. lra.
  - assert (I1 := IH Hi ltac:(intros n' w' H'; apply (Hw n'); now right)). destruct (is_quadratic n); lra.
Qed.

(** Fields that fix the design. *)
Lemma field_injective q x0 name : sound q x0 -> resolved q -> regular (q_eval q) -> name = "f_Phi" \/ name = "f_K" /\ q_stellsym q = true ->
  forall x y, length x = q_ndofs q -> length y = q_ndofs q -> field name q x = field name q y -> x = y.
Proof.
  intros S Rs Rg Nm x y Lx Ly E. pose proof (proj1 S) as M. destruct Nm as [->|[-> St]]; unfold field in E; cbn [String.eqb Ascii.eqb Bool.eqb] in E.
  - apply (potential_injective q x y M Lx Ly Rs). now apply sample_pointwise.
  - assert (Sl : forall k c0, nth_error (qcols q) k = Some c0 -> fst c0 <> (0%Z, 0%Z) -> nth k x 0 = nth k y 0).
    { apply slopes_injective; [exact M|exact Lx|exact Ly|exact Rs|]. intros p t Hp Ht. apply kval_slopes.
      - destruct (made_facts q M) as (_ & _ & _ & _ & Ce & _). apply (Rg (sample (nrm (q_winding q)) (q_qphi q) (q_qtheta q))); [apply normal_copy; [apply S|exact Ce]|].
        rewrite concat_sample. apply in_map_iff. exists (p, t). split; [reflexivity|]. apply pairs_in. auto.
      - apply flat3_inj in E; [|now rewrite !len_sample]. now apply (sample_pointwise _ _ _ _ E). }
    apply (nth_ext _ _ 0 0); [congruence|]. intros k Hk. destruct (nth_error (qcols q) k) as [c0|] eqn:Ek; [|apply nth_error_None in Ek; rewrite (lcols q M) in Ek; lia].
    apply (Sl k c0 Ek). assert (Hi : In c0 (qcols q)) by (eapply nth_error_In; exact Ek). unfold qcols, pcols in Hi. rewrite St in Hi.
    apply in_map_iff in Hi as (mn & <- & Hm). cbn [fst]. destruct (smodes_once (q_mpol q) (q_ntor q)) as [_ Sm]. now apply Sm in Hm as [_ Hm].
Qed.

(** Uniform growth of a regularised problem. *)
Lemma uniform_gap other q z os : sound q z -> ordered q -> resolved q -> regular (q_eval q) -> convex_objective other q os ->
  (exists c, 0 < c /\ (In ("f_Phi", c) os \/ In ("f_K", c) os /\ q_stellsym q = true)) ->
  exists m, 0 < m /\ forall x y j, length x = q_ndofs q -> length y = q_ndofs q -> m * (nth j y 0 - nth j x 0) ^ 2 <= gap q os x y.
Proof.
  intros S O Rs Rg Ho (c & Pc & D).
  assert (N : exists name, In (name, c) os /\ In name ["f_K"; "f_Phi"] /\ (name = "f_Phi" \/ name = "f_K" /\ q_stellsym q = true)).
  { destruct D as [I|[I St]]; [exists "f_Phi"|exists "f_K"]; cbn; tauto. }
  destruct N as (name & I & Nm & Nj).
  destruct (every_coordinate q z name S O Nm (weights_strict name q z S Rs Rg Nm) (field_injective q z name S Rs Rg Nj)) as (m & Pm & H).
  exists (c * m). split; [now apply Rmult_lt_0_compat|]. intros x y j Lx Ly. eapply Rle_trans; [|apply (gap_contains other q z os name c x y S O Ho I)].
  - rewrite Rmult_assoc. apply Rmult_le_compat_l; [lra|]. now apply H.
  - destruct Nm as [<-|[<-|[]]]; cbn; tauto.
Qed.
