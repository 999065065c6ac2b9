(** Proofs about quantities. *)
From Coq Require Import String List Bool Arith ZArith Reals Lra Lia FinFun.
From Coquelicot Require Import Coquelicot.
From Verif Require Import Base ModelArray ModelMath ModelQuantity ModelWrapper ModelShipped
  SpecMath SpecQuantity ProofArray ProofMath.
Import ListNotations.
Open Scope R_scope.
Open Scope string_scope.
Open Scope list_scope.

(** ** Symmetry-reduced indices *)
Lemma sym_index_lt n i : (i < n)%nat -> (sym_index n i < n)%nat.
Proof. intros H. unfold sym_index. apply Nat.mod_upper_bound. lia. Qed.

Lemma sym_index_val n i : (i < n)%nat -> sym_index n i = if Nat.eqb i 0 then 0%nat else (n - i)%nat.
Proof.
  intros H. unfold sym_index. destruct (Nat.eqb_spec i 0).
  - subst. rewrite Nat.sub_0_r. apply Nat.mod_same. lia.
  - apply Nat.mod_small. lia.
Qed.

Lemma sym_index_invol n i : (i < n)%nat -> sym_index n (sym_index n i) = i.
Proof.
  intros H. rewrite (sym_index_val n (sym_index n i)) by (apply sym_index_lt; auto).
  rewrite sym_index_val by auto. destruct (Nat.eqb_spec i 0); [subst; auto|].
  destruct (Nat.eqb_spec (n - i) 0); lia.
Qed.

Lemma unique_one_per_orbit n_phi n_theta i j : (i < n_theta)%nat -> (j < n_phi)%nat ->
  let i' := sym_index n_theta i in let j' := sym_index n_phi j in
  (i' = i /\ j' = j /\ unique_mask n_phi n_theta i j = true) \/
  ((i', j') <> (i, j) /\
   unique_mask n_phi n_theta i j = negb (unique_mask n_phi n_theta i' j')).
Proof.
  intros Hi Hj i' j'.
  assert (Ei : sym_index n_theta i' = i) by (apply sym_index_invol; auto).
  assert (Ej : sym_index n_phi j' = j) by (apply sym_index_invol; auto).
  unfold unique_mask. rewrite Ei, Ej. fold i' j'. clearbody i' j'. clear Ei Ej.
  destruct (Nat.eq_dec i' i) as [-> |Ni].
  - rewrite Nat.ltb_irrefl, Nat.eqb_refl. simpl.
    destruct (Nat.eq_dec j' j) as [-> |Nj].
    + left. repeat split; auto. apply Nat.leb_refl.
    + right. split; [congruence|].
      destruct (Nat.leb_spec j j'), (Nat.leb_spec j' j); simpl; auto; lia.
  - right. split; [congruence|].
    destruct (Nat.ltb_spec i i'), (Nat.ltb_spec i' i),
      (Nat.eqb_spec i i'), (Nat.eqb_spec i' i); simpl; auto; lia.
Qed.

Lemma unique_indices_spec n_phi n_theta i j :
  In (i, j) (unique_indices n_phi n_theta) <->
  (i < n_theta)%nat /\ (j < n_phi)%nat /\ unique_mask n_phi n_theta i j = true.
Proof.
  unfold unique_indices. rewrite filter_In, in_prod_iff, !in_seq. simpl. intuition lia.
Qed.

Lemma NoDup_app_disj {A} (l m : list A) :
  NoDup l -> NoDup m -> (forall x, In x l -> In x m -> False) -> NoDup (l ++ m).
Proof.
  induction 1; simpl; intros Hm D; auto. constructor; eauto.
  rewrite in_app_iff. intros [?|?]; eauto.
Qed.

Lemma NoDup_unique n_phi n_theta : NoDup (unique_indices n_phi n_theta).
Proof.
  apply NoDup_filter.
  assert (G : forall l m : list nat, NoDup l -> NoDup m -> NoDup (list_prod l m)).
  { induction 1 as [|a l Ha Hl IH]; intros Hm; simpl; [constructor|].
    apply NoDup_app_disj; auto.
    - apply FinFun.Injective_map_NoDup; auto. intros x y E. congruence.
    - intros [x y] H1 H2. apply in_map_iff in H1 as [z [E _]]. inversion E; subst.
      apply in_prod_iff in H2. tauto. }
  apply G; apply seq_NoDup.
Qed.

(** ** Smooth quantities *)

Lemma c2_any_mode P (func : field P) compat reg : exists q,
  init_quantity reg (generate_c2 func compat) = (reg, Ok q) /\
  slack_names q = [] /\ q_compat q = compat /\
  (forall qp phi, call q qp [("phi", phi)] = func qp [("phi", phi)]) /\
  (forall mode sp, known_mode mode -> exists F,
     scaled_f_impl q mode sp = Ok F /\
     scaled_g_ineq_impl q mode = Ok None /\ scaled_h_eq_impl q mode = Ok None /\
     scaled_slack_dofs_init q mode = Ok None /\
     forall qp d fld u, func qp d = Ok fld -> wf fld ->
       F qp d (scal u) = Ok (Arr (sh fld) (map (fun x => x / u) (el fld)))).
Proof.
  eexists. split; [reflexivity|]. repeat split.
  intros mode sp [-> |[-> | ->]]; simpl; eexists; (repeat split);
    intros qp d fld u E W; cbv beta; rewrite E; cbn [bind]; apply op2_scal_r; auto.
Qed.

Lemma unknown_mode P (q : quantity P) mode sp : ~ known_mode mode ->
  scaled_f_impl q mode sp = Raise ValueError /\
  scaled_g_ineq_impl q mode = Raise ValueError /\
  scaled_h_eq_impl q mode = Raise ValueError /\
  scaled_slack_dofs_init q mode = Raise ValueError.
Proof.
  intros H. destruct mode as [s|]; [|exfalso; apply H; red; auto].
  unfold scaled_f_impl, scaled_g_ineq_impl, scaled_h_eq_impl, scaled_slack_dofs_init, slack_only.
  destruct (String.eqb_spec s "slack"); [subst; exfalso; apply H; red; auto|].
  destruct (String.eqb_spec s "approx"); [subst; exfalso; apply H; red; auto|]. auto.
Qed.

(** ** L-infinity *)
Section Linf.
  Variable P : Type.
  Variable ss : P -> bool.

  Definition linf_g_els (pd : bool) (ue t : R) (l : list R) : list R :=
    map (fun x => x / ue - t) l ++ (if pd then [] else map (fun x => - x / ue - t) l).

  Lemma linf_g_value func aux pd sq au qp d fld u t :
    func qp d = Ok fld -> lookup aux d = Some (scal t) ->
    exists gv, linf_slack_g P ss func aux pd sq au qp d (scal u) = Ok gv /\
      el gv = linf_g_els pd (if sq then sqrt u else u) t (el fld).
  Proof.
    intros E L. unfold linf_slack_g. rewrite E. cbn [bind].
    unfold getitem. rewrite L. cbn [bind].
    replace (if au && ss qp then compress_by_stellsym fld else flatten fld) with (flatten fld)
      by (unfold compress_by_stellsym; destruct (au && ss qp); reflexivity).
    replace (if sq then amap sqrt (scal u) else scal u) with (scal (if sq then sqrt u else u))
      by (destruct sq; reflexivity).
    rewrite op2_scal_r by apply wf_flatten. cbn [bind].
    rewrite op2_scal_r by (red; simpl; rewrite map_length; lia). cbn [bind].
    destruct pd.
    - eexists. split; [reflexivity|]. simpl. unfold linf_g_els. rewrite app_nil_r, map_map. reflexivity.
    - rewrite op2_scal_r by (apply wf_amap, wf_flatten). cbn [bind].
      rewrite op2_scal_r by (red; simpl; rewrite !map_length; lia). cbn [bind].
      unfold stack2. cbn [sh amap flatten].
      destruct (list_eq_dec _ _ _) as [_|N]; [|exfalso; apply N; reflexivity].
      eexists. split; [reflexivity|]. cbn [el amap flatten]. unfold linf_g_els. rewrite !map_map. reflexivity.
  Qed.

  Lemma linf_g_le0 pd ue t l : 0 < ue -> (pd = true -> forall x, In x l -> 0 <= x) ->
    (forall y, In y (linf_g_els pd ue t l) -> y <= 0) <->
    (forall x, In x l -> Rabs x / ue <= t).
  Proof.
    intros Hu Hpd. unfold linf_g_els. split.
    - intros H x Hx.
      assert (H1 : x / ue - t <= 0) by (apply H, in_app_iff; left; apply in_map_iff; eauto).
      destruct pd.
      + rewrite Rabs_right by (apply Rle_ge; auto). lra.
      + assert (H2 : - x / ue - t <= 0) by (apply H, in_app_iff; right; apply in_map_iff; eauto).
        unfold Rabs. destruct (Rcase_abs x); lra.
    - intros H y Hy. apply in_app_iff in Hy as [Hy|Hy].
      + apply in_map_iff in Hy as [x [<- Hx]]. specialize (H x Hx).
        pose proof (div_mono x (Rabs x) ue Hu (RRle_abs x)). lra.
      + destruct pd; [easy|]. apply in_map_iff in Hy as [x [<- Hx]]. specialize (H x Hx).
        assert (- x <= Rabs x) by (rewrite <- Rabs_Ropp; apply RRle_abs).
        pose proof (div_mono (- x) (Rabs x) ue Hu H0). lra.
  Qed.

  Lemma amax_spec a : el a <> [] -> exists M, amax a = Ok M /\ is_max M (el a).
  Proof.
    unfold amax. destruct (el a) as [|x l]; [easy|]. intros _. eexists. split; [reflexivity|].
    split; [apply lmax_in|apply lmax_ub].
  Qed.

  Lemma is_max_unique M M' l : is_max M l -> is_max M' l -> M = M'.
  Proof. intros [H1 H2] [H3 H4]. apply Rle_antisym; auto. Qed.

  Lemma is_max_sq M l : is_max M (map Rabs l) -> is_max (sq M) (map (fun x => sq (Rabs x)) l).
  Proof.
    intros [H1 H2]. split.
    - apply in_map_iff in H1 as [x [<- Hx]]. apply in_map_iff. eauto.
    - intros y Hy. apply in_map_iff in Hy as [x [<- Hx]].
      assert (Rabs x <= M) by (apply H2, in_map; auto).
      pose proof (Rabs_pos x). unfold sq. nra.
  Qed.

  Lemma is_max_abs_nonneg M l : is_max M (map Rabs l) -> 0 <= M.
  Proof. intros [H _]. apply in_map_iff in H as [x [<- _]]. apply Rabs_pos. Qed.

  Lemma sqrt_div_sq u M : 0 < u -> sq (M / sqrt u) = sq M / u.
  Proof.
    intros H. pose proof (sqrt_lt_R0 u H). unfold sq.
    rewrite <- (sqrt_sqrt u) at 3 by lra. field. lra.
  Qed.

  (** The feasible slack values. *)
  Lemma linf_feasible func aux pd sqr au reg reg' q :
    init_quantity reg (generate_linf_norm P ss func aux pd sqr au) = (reg', Ok q) ->
    aux <> "phi" ->
    forall qp phi fld u t, func qp (state phi aux (scal t)) = Ok fld -> 0 < u ->
    (pd = true -> forall x, In x (el fld) -> 0 <= x) ->
    exists G gv, scaled_g_ineq_impl q (Some "slack") = Ok (Some G) /\
      G qp (state phi aux (scal t)) (scal u) = Ok gv /\
      (all_le0 gv <-> forall x, In x (el fld) -> Rabs x / (if sqr then sqrt u else u) <= t).
  Proof.
    intros I Ha qp phi fld u t E Hu Hpd.
    unfold init_quantity in I. cbn [a_slack_f a_raw a_slack_g a_slack_h a_init generate_linf_norm] in I.
    cbv zeta in I.
    destruct (existsb _ _) in I; [discriminate|]. cbn in I. inversion I; subst q; clear I.
    unfold scaled_g_ineq_impl, slack_only. cbn [q_slack_g String.eqb Ascii.eqb Bool.eqb].
    eexists.
    destruct (linf_g_value func aux pd sqr au qp (state phi aux (scal t)) fld u t E) as [gv [Eg El]].
    { simpl. destruct (String.eqb_spec aux "phi"); [contradiction|]. rewrite String.eqb_refl. reflexivity. }
    exists gv. split; [reflexivity|]. split; [exact Eg|].
    unfold all_le0. rewrite El. apply linf_g_le0; auto.
    destruct sqr; auto. apply sqrt_lt_R0; auto.
  Qed.
End Linf.

Lemma one_per_orbit n_phi n_theta i j : (i < n_theta)%nat -> (j < n_phi)%nat ->
  let i' := ((n_theta - i) mod n_theta)%nat in let j' := ((n_phi - j) mod n_phi)%nat in
  (((i', j') = (i, j) /\ In (i, j) (unique_indices n_phi n_theta)) \/
   ((i', j') <> (i, j) /\
    (In (i, j) (unique_indices n_phi n_theta) <-> ~ In (i', j') (unique_indices n_phi n_theta)))) /\
  NoDup (unique_indices n_phi n_theta).
Proof.
  intros Hi Hj i' j'. split; [|apply NoDup_unique].
  change i' with (sym_index n_theta i). change j' with (sym_index n_phi j).
  pose proof (sym_index_lt _ _ Hi). pose proof (sym_index_lt _ _ Hj).
  destruct (unique_one_per_orbit n_phi n_theta i j Hi Hj) as [[E1 [E2 E3]]|[E1 E2]].
  - left. rewrite E1, E2. split; auto. apply unique_indices_spec. auto.
  - right. split; auto. rewrite !unique_indices_spec, E2.
    destruct (unique_mask n_phi n_theta (sym_index n_theta i) (sym_index n_phi j)); simpl;
    intuition discriminate.
Qed.
Lemma unique_in_grid n_phi n_theta i j : In (i, j) (unique_indices n_phi n_theta) ->
  (i < n_theta)%nat /\ (j < n_phi)%nat.
Proof. rewrite unique_indices_spec. tauto. Qed.
