(** Proofs about parameter objects and the current potential. *)
From Coq Require Import String List Bool Arith ZArith Reals Lra Lia FinFun.
From Coquelicot Require Import Coquelicot.
From Verif Require Import Base ModelArray ModelMath SpecMath RDeriv ProofMath ModelSurface SpecSurface ProofSurface ProofSurface2 ProofSurface3
  ModelParams ModelField SpecField.
Import ListNotations.
Open Scope R_scope.

(** ** Modes *)
Lemma arange_S lo n : arange lo (S n) = lo :: arange (lo + 1) n.
Proof.
  unfold arange. simpl. f_equal; [lia|]. rewrite <- seq_shift, map_map. apply map_ext. intros. lia.
Qed.
Lemma skipn_arange k lo n : skipn k (arange lo n) = arange (lo + Z.of_nat k) (n - k).
Proof.
  revert lo n; induction k; intros.
  - simpl. f_equal; lia.
  - destruct n; [reflexivity|]. rewrite arange_S. cbn [skipn]. rewrite IHk. f_equal; lia.
Qed.
Lemma combine_skipn {A B} k (l : list A) (l' : list B) : combine (skipn k l) (skipn k l') = skipn k (combine l l').
Proof.
  revert l l'; induction k; intros; auto. destruct l, l'; simpl; auto.
  destruct (skipn k l); reflexivity.
Qed.
Lemma combine_const {A B} (m : A) (w : list B) : combine (map (fun _ => m) w) w = map (pair m) w.
Proof. induction w; simpl; congruence. Qed.
Lemma combine_rows (l w : list Z) :
  combine (concat (map (fun m => map (fun _ => m) w) l)) (concat (map (fun _ => w) l)) = flat_map (fun m => map (pair m) w) l.
Proof.
  induction l; simpl; auto. rewrite combine_app by (now rewrite map_length). rewrite combine_const. now f_equal.
Qed.
Lemma make_mn_modes mpol ntor :
  combine (fst (make_mn mpol ntor true)) (snd (make_mn mpol ntor true)) = smodes mpol ntor /\
  length (fst (make_mn mpol ntor true)) = length (snd (make_mn mpol ntor true)).
Proof.
  unfold make_mn. cbn [fst snd]. split.
  - rewrite !combine_skipn, combine_rows. replace (mpol + 1)%nat with (S mpol) by lia.
    rewrite arange_S. cbn [flat_map].
    rewrite !skipn_app. unfold smodes. rewrite mode_list. rewrite map_length, arange_length.
    rewrite skipn_length, map_length, arange_length.
    replace (ntor - (2 * ntor + 1))%nat with 0%nat by lia. replace (1 - (2 * ntor + 1 - ntor))%nat with 0%nat by lia.
    rewrite !skipn_O. f_equal. rewrite !skipn_map, !skipn_arange. f_equal. f_equal; lia.
  - rewrite !skipn_length. f_equal. f_equal. generalize (arange (- Z.of_nat ntor) (2 * ntor + 1)).
    intros w. generalize (arange 0 (mpol + 1)). induction l; simpl; auto. rewrite !app_length, map_length. congruence.
Qed.

(** One column of the operators: mode and choice of sine (1) or cosine (-1). *)
Definition pcols (st : bool) (mpol ntor : nat) : list (Z * Z * Z) :=
  if st then map (fun mn => (mn, 1%Z)) (smodes mpol ntor)
  else map (fun mn => (mn, 1%Z)) (smodes mpol ntor) ++ (0%Z, 0%Z, (-1)%Z) :: map (fun mn => (mn, (-1)%Z)) (smodes mpol ntor).

Lemma combine_fst {A B} (l : list A) (l' : list B) : length l = length l' -> map fst (combine l l') = l.
Proof. revert l'; induction l; destruct l'; simpl; intros; try discriminate; auto. f_equal. auto. Qed.
Lemma combine_snd {A B} (l : list A) (l' : list B) : length l = length l' -> map snd (combine l l') = l'.
Proof. revert l'; induction l; destruct l'; simpl; intros; try discriminate; auto. f_equal. auto. Qed.
Lemma map_const_repeat {A B} (c : B) (l : list A) : map (fun _ => c) l = repeat c (length l).
Proof. induction l; simpl; congruence. Qed.

Lemma make_mn_cols st mpol ntor :
  let cols := pcols st mpol ntor in
  make_mn mpol ntor st = (map (fun c => fst (fst c)) cols, map (fun c => snd (fst c)) cols) /\
  trig_choice st (length cols) = map snd cols.
Proof.
  destruct (make_mn_modes mpol ntor) as [E L]. cbv zeta.
  assert (Em : fst (make_mn mpol ntor true) = map fst (smodes mpol ntor)) by (rewrite <- E, combine_fst; auto).
  assert (En : snd (make_mn mpol ntor true) = map snd (smodes mpol ntor)) by (rewrite <- E, combine_snd; auto).
  unfold make_mn in Em, En. cbn [fst snd] in Em, En.
  unfold make_mn, pcols. destruct st.
  - split.
    + rewrite Em, En, !map_map. reflexivity.
    + unfold trig_choice. rewrite map_length, map_map. cbn [snd]. now rewrite map_const_repeat.
  - split.
    + rewrite Em, En, !map_app. cbn [map]. rewrite !map_map. cbn [fst snd]. now rewrite <- !app_assoc.
    + unfold trig_choice. rewrite app_length. cbn [length]. rewrite !map_length, map_app. cbn [map]. rewrite !map_map. cbn [snd].
      set (k := length (smodes mpol ntor)). replace ((k + S k) / 2)%nat with k.
      2:{ apply Nat.div_unique with (r := 1%nat); lia. }
      rewrite !map_const_repeat. fold k. rewrite <- app_assoc. f_equal.
      change ((-1)%Z :: repeat (-1)%Z k) with (repeat (-1)%Z (S k)). 
      rewrite <- (repeat_cons k). reflexivity.
Qed.

Lemma length_pcols st mpol ntor : length (pcols st mpol ntor) = fst (cp_ndofs st mpol ntor).
Proof.
  unfold pcols, cp_ndofs. destruct st; cbn [fst].
  - rewrite map_length, length_smodes. unfold n_modes. lia.
  - rewrite app_length. cbn [length]. rewrite !map_length, length_smodes. unfold n_modes. lia.
Qed.
Lemma pcols_choice st mpol ntor c : In c (pcols st mpol ntor) -> snd c = 1%Z \/ snd c = (-1)%Z.
Proof.
  unfold pcols. destruct st; intros H.
  - apply in_map_iff in H as (mn & <- & _). now left.
  - apply in_app_iff in H as [H|[<-|H]]; [|now right|]; apply in_map_iff in H as (mn & <- & _); [now left|now right].
Qed.
Lemma pcols_st mpol ntor c : In c (pcols true mpol ntor) -> snd c = 1%Z.
Proof. intros H. apply in_map_iff in H as (mn & <- & _). reflexivity. Qed.

(** ** The operators as functions of the two angles *)
Section Trig.
  Variable q : params.
  Definition qcols := pcols (q_stellsym q) (q_mpol q) (q_ntor q).
  Definition targ (c : Z * Z * Z) (p t : R) : R := trig_arg (q_nfp q) p t (fst (fst c)) (snd (fst c)).
  Definition tr (p t : R) (c : Z * Z * Z) : R := sin_or_cos (targ c p t) (1 * snd c).
  Definition td (p t : R) (c : Z * Z * Z) : R := sin_or_cos (targ c p t) (-1 * snd c).
  Definition fphi (c : Z * Z * Z) : R := - IZR (snd (fst c)) * IZR (snd c) * INR (q_nfp q) * 2 * PI.
  Definition ftheta (c : Z * Z * Z) : R := IZR (fst (fst c)) * IZR (snd c) * 2 * PI.
  Definition ftt (c : Z * Z * Z) : R := - (IZR (fst (fst c)) * IZR (fst (fst c))) * ((2 * PI) * (2 * PI)).
  Definition fpp (c : Z * Z * Z) : R :=
    - ((IZR (snd (fst c)) * INR (q_nfp q)) * (IZR (snd (fst c)) * INR (q_nfp q))) * ((2 * PI) * (2 * PI)).
  Definition fpt (c : Z * Z * Z) : R := IZR (snd (fst c)) * INR (q_nfp q) * IZR (fst (fst c)) * ((2 * PI) * (2 * PI)).
End Trig.

Lemma diff_helper_cols q mode : diff_helper q mode =
  let '(ps, ts) := sel_quadpoints q mode in
  Ok {| d_n := length (qcols q);
        d_trig := sample (fun p t => map (tr q p t) (qcols q)) ps ts;
        d_trig_diff := sample (fun p t => map (td q p t) (qcols q)) ps ts;
        d_phi := map (fphi q) (qcols q); d_theta := map ftheta (qcols q);
        d_phi_phi := map (fpp q) (qcols q); d_phi_theta := map (fpt q) (qcols q);
        d_theta_theta := map ftt (qcols q) |}.
Proof.
  unfold diff_helper. destruct (make_mn_cols (q_stellsym q) (q_mpol q) (q_ntor q)) as [E C]. cbv zeta in E, C.
  fold (qcols q) in *. rewrite E. destruct (sel_quadpoints q mode) as [ps ts]. rewrite map_length, C, map_length, Nat.eqb_refl. cbn [negb].
  assert (EC : combine (map (fun c : Z * Z * Z => fst (fst c)) (qcols q)) (map (fun c => snd (fst c)) (qcols q)) = map fst (qcols q)).
  { generalize (qcols q). intros l; induction l as [|[[a b] c] l IH]; simpl; auto. now rewrite IH. }
  f_equal. rewrite EC. unfold sample. f_equal.
  - apply map_ext; intros p. apply map_ext; intros t. rewrite map2_diag. reflexivity.
  - apply map_ext; intros p. apply map_ext; intros t. rewrite map2_diag. reflexivity.
  - rewrite map2_diag. reflexivity.
  - rewrite map2_diag. reflexivity.
  - rewrite map_map. reflexivity.
  - rewrite map2_diag. reflexivity.
  - rewrite map_map. reflexivity.
Qed.

Lemma row_diag_map {A} (f g : A -> R) l : row_diag (map f l) (map g l) = map (fun c => f c * g c) l.
Proof. unfold row_diag. apply map2_diag. Qed.

(** The potential and its derivatives as functions. *)
Definition phi_of q x p t := ldot (map (tr q p t) (qcols q)) x.
Definition phi1 q x p t := ldot (map (fun c => td q p t c * fphi q c) (qcols q)) x.
Definition phi2 q x p t := ldot (map (fun c => td q p t c * ftheta c) (qcols q)) x.
Definition phi11 q x p t := ldot (map (fun c => tr q p t c * fpp q c) (qcols q)) x.
Definition phi12 q x p t := ldot (map (fun c => tr q p t c * fpt q c) (qcols q)) x.
Definition phi22 q x p t := ldot (map (fun c => tr q p t c * ftt c) (qcols q)) x.

Lemma dR_ldot_in {A} (F : R -> A -> R) (dF : A -> R) l d t :
  (forall c, In c l -> is_derive (fun x => F x c) t (dF c)) ->
  is_derive (fun x => ldot (map (F x) l) d) t (ldot (map dF l) d).
Proof.
  revert d; induction l; intros d H; simpl.
  - apply (dR_const 0).
  - destruct d.
    + apply dR_ext with (f := fun _ => 0); [intros; now rewrite ldot_nil_r|]. rewrite ldot_nil_r. apply dR_const.
    + apply dR_ext with (f := fun x => F x a * r + ldot (map (F x) l) d); [intros; now rewrite ldot_cons|].
      rewrite ldot_cons. apply dR_plus; [apply dR_scal_r, H; now left|apply IHl; intros; apply H; now right].
Qed.

Lemma darg_phi q c (t p : R) : is_derive (fun x => targ q c x t) p (- IZR (snd (fst c)) * INR (q_nfp q) * (PI * 2)).
Proof.
  unfold targ, trig_arg. eapply dR_eq; [|apply dR_minus; [apply dR_const|apply dR_scal, dR_scal, dR_id]]. ring.
Qed.
Lemma darg_theta q c (p t : R) : is_derive (fun x => targ q c p x) t (IZR (fst (fst c)) * (PI * 2)).
Proof.
  unfold targ, trig_arg. eapply dR_eq; [|apply dR_minus; [apply dR_scal, dR_scal, dR_id|apply dR_const]]. ring.
Qed.

Section Derivs.
  Variables (q : params) (c : Z * Z * Z).
  Hypothesis Hc : snd c = 1%Z \/ snd c = (-1)%Z.
  Lemma tr_phi (p t : R) : is_derive (fun x => tr q x t c) p (td q p t c * fphi q c).
  Proof.
    unfold tr, td, fphi, sin_or_cos. destruct Hc as [E|E]; rewrite E; simpl Z.mul; cbn [Z.eqb Pos.eqb].
    - eapply dR_eq; [|apply dR_sin, darg_phi]. cbv beta. ring.
    - eapply dR_eq; [|apply dR_cos, darg_phi]. cbv beta. ring.
  Qed.
  Lemma tr_theta (p t : R) : is_derive (fun x => tr q p x c) t (td q p t c * ftheta c).
  Proof.
    unfold tr, td, ftheta, sin_or_cos. destruct Hc as [E|E]; rewrite E; simpl Z.mul; cbn [Z.eqb Pos.eqb].
    - eapply dR_eq; [|apply dR_sin, darg_theta]. cbv beta. ring.
    - eapply dR_eq; [|apply dR_cos, darg_theta]. cbv beta. ring.
  Qed.
  Lemma td1_phi (p t : R) : is_derive (fun x => td q x t c * fphi q c) p (tr q p t c * fpp q c).
  Proof.
    unfold tr, td, fphi, fpp, sin_or_cos. destruct Hc as [E|E]; rewrite E; simpl Z.mul; cbn [Z.eqb Pos.eqb].
    - eapply dR_eq; [|apply dR_scal_r, dR_cos, darg_phi]. cbv beta. ring.
    - eapply dR_eq; [|apply dR_scal_r, dR_sin, darg_phi]. cbv beta. ring.
  Qed.
  Lemma td1_theta (p t : R) : is_derive (fun x => td q p x c * fphi q c) t (tr q p t c * fpt q c).
  Proof.
    unfold tr, td, fphi, fpt, sin_or_cos. destruct Hc as [E|E]; rewrite E; simpl Z.mul; cbn [Z.eqb Pos.eqb].
    - eapply dR_eq; [|apply dR_scal_r, dR_cos, darg_theta]. cbv beta. ring.
    - eapply dR_eq; [|apply dR_scal_r, dR_sin, darg_theta]. cbv beta. ring.
  Qed.
  Lemma td2_phi (p t : R) : is_derive (fun x => td q x t c * ftheta c) p (tr q p t c * fpt q c).
  Proof.
    unfold tr, td, ftheta, fpt, sin_or_cos. destruct Hc as [E|E]; rewrite E; simpl Z.mul; cbn [Z.eqb Pos.eqb].
    - eapply dR_eq; [|apply dR_scal_r, dR_cos, darg_phi]. cbv beta. ring.
    - eapply dR_eq; [|apply dR_scal_r, dR_sin, darg_phi]. cbv beta. ring.
  Qed.
  Lemma td2_theta (p t : R) : is_derive (fun x => td q p x c * ftheta c) t (tr q p t c * ftt c).
  Proof.
    unfold tr, td, ftheta, ftt, sin_or_cos. destruct Hc as [E|E]; rewrite E; simpl Z.mul; cbn [Z.eqb Pos.eqb].
    - eapply dR_eq; [|apply dR_scal_r, dR_cos, darg_theta]. cbv beta. ring.
    - eapply dR_eq; [|apply dR_scal_r, dR_sin, darg_theta]. cbv beta. ring.
  Qed.
End Derivs.

Lemma qcols_choice q c : In c (qcols q) -> snd c = 1%Z \/ snd c = (-1)%Z.
Proof. apply pcols_choice. Qed.

Lemma phi_d1 q x (p t : R) : is_derive (fun s => phi_of q x s t) p (phi1 q x p t).
Proof. apply (dR_ldot_in (fun s => tr q s t)). intros c Hc. apply tr_phi. now apply (qcols_choice q). Qed.
Lemma phi_d2 q x (p t : R) : is_derive (fun s => phi_of q x p s) t (phi2 q x p t).
Proof. apply (dR_ldot_in (fun s => tr q p s)). intros c Hc. apply tr_theta. now apply (qcols_choice q). Qed.
Lemma phi1_d1 q x (p t : R) : is_derive (fun s => phi1 q x s t) p (phi11 q x p t).
Proof. apply (dR_ldot_in (fun s c => td q s t c * fphi q c)). intros c Hc. apply td1_phi. now apply (qcols_choice q). Qed.
Lemma phi1_d2 q x (p t : R) : is_derive (fun s => phi1 q x p s) t (phi12 q x p t).
Proof. apply (dR_ldot_in (fun s c => td q p s c * fphi q c)). intros c Hc. apply td1_theta. now apply (qcols_choice q). Qed.
Lemma phi2_d1 q x (p t : R) : is_derive (fun s => phi2 q x s t) p (phi12 q x p t).
Proof. apply (dR_ldot_in (fun s c => td q s t c * ftheta c)). intros c Hc. apply td2_phi. now apply (qcols_choice q). Qed.
Lemma phi2_d2 q x (p t : R) : is_derive (fun s => phi2 q x p s) t (phi22 q x p t).
Proof. apply (dR_ldot_in (fun s c => td q p s c * ftheta c)). intros c Hc. apply td2_theta. now apply (qcols_choice q). Qed.

(** ** Parameter objects on new evaluation points *)
Definition placed (q : params) ps ts q' := on_points q ps ts = Ok q'.

Lemma built_copy s : built s -> resampled s (s_qphi s) (s_qtheta s) s.
Proof.
  intros (nfp & st & mpol & ntor & p & t & d & E). unfold resampled, copy_and_set_quadpoints.
  unfold make_surface in *. destruct (is_ndarray p); [|discriminate]. destruct (is_ndarray t); [|discriminate].
  destruct (is_ndarray d); [|discriminate]. cbn [negb] in E.
  destruct (elements p) as [|p0 ps] eqn:Ep; [discriminate|]. destruct (elements t) as [|t0 ts] eqn:Et; [discriminate|].
  cbn [getclamp bind] in E. injection E as <-. reflexivity.
Qed.
Lemma built_nonempty s : built s -> s_qphi s <> [] /\ s_qtheta s <> [].
Proof.
  intros H. apply built_copy in H. unfold resampled, copy_and_set_quadpoints, make_surface in H.
  cbn in H. destruct (s_qphi s), (s_qtheta s); try discriminate. split; discriminate.
Qed.

Lemma made_facts q : made q ->
  (s_nfp (q_winding q) <> 0)%nat /\ (length (s_qphi (q_winding q)) mod s_nfp (q_winding q) = 0)%nat /\
  q_ndofs q = fst (cp_ndofs (q_stellsym q) (q_mpol q) (q_ntor q)) /\
  q_ndofs_half q = snd (cp_ndofs (q_stellsym q) (q_mpol q) (q_ntor q)) /\
  resampled (q_winding q) (q_qphi q) (q_qtheta q) (q_eval q) /\
  resampled (q_winding q) (s_qphi (q_winding q)) (s_qtheta (q_winding q)) (q_winding q) /\
  resampled (q_plasma q) (s_qphi (q_plasma q)) (s_qtheta (q_plasma q)) (q_plasma q).
Proof.
  intros (BP & BW & pl & wi & G & I & Bn & mp & nt & p & t & st & E).
  unfold make_params, make_base in E. destruct (s_nfp wi) as [|nfp] eqn:En; [discriminate|].
  destruct (Nat.eqb _ 0) eqn:Em; [|discriminate]. cbn [negb] in E.
  set (qp := match p with None => _ | Some p => p end) in *. set (qt := match t with None => _ | Some p => p end) in *.
  destruct (copy_and_set_quadpoints wi qp qt) as [ev|] eqn:Ec; [|discriminate]. cbn [bind] in E. injection E as <-.
  cbn [q_winding q_plasma q_eval q_ndofs q_ndofs_half q_qphi q_qtheta q_stellsym q_mpol q_ntor b_winding b_plasma b_eval b_qphi b_qtheta b_stellsym] in *.
  rewrite En. apply Nat.eqb_eq in Em.
  split; [discriminate|]. split; [auto|]. split; [auto|]. split; [auto|].
  split; [|split; now apply built_copy].
  unfold resampled. unfold copy_and_set_quadpoints, make_surface in *.
  destruct (is_ndarray qp); [|discriminate]. destruct (is_ndarray qt); [|discriminate]. cbn [negb] in Ec. cbn.
  exact Ec.
Qed.

Lemma placed_ok q ps ts : (s_nfp (q_winding q) <> 0)%nat -> (length (s_qphi (q_winding q)) mod s_nfp (q_winding q) = 0)%nat ->
  ps <> [] -> ts <> [] -> exists q', placed q ps ts q'.
Proof.
  intros Hn Hm Hp Ht. unfold placed, on_points, make_params, make_base.
  destruct (s_nfp (q_winding q)); [contradiction|]. rewrite Hm. cbn [Nat.eqb negb].
  destruct (copy_ok (q_winding q) ps ts Hp Ht) as [s E]. unfold resampled in E. rewrite E. cbn [bind]. eauto.
Qed.
Lemma placed_fields q ps ts q' : placed q ps ts q' ->
  q_plasma q' = q_plasma q /\ q_winding q' = q_winding q /\ resampled (q_winding q) ps ts (q_eval q') /\
  q_G q' = q_G q /\ q_I q' = q_I q /\ q_Bnormal q' = q_Bnormal q /\ q_qphi q' = ps /\ q_qtheta q' = ts /\
  q_stellsym q' = q_stellsym q /\ q_mpol q' = q_mpol q /\ q_ntor q' = q_ntor q /\
  q_ndofs q' = fst (cp_ndofs (q_stellsym q) (q_mpol q) (q_ntor q)).
Proof.
  unfold placed, on_points, make_params, make_base. intros E.
  destruct (s_nfp (q_winding q)); [discriminate|]. destruct (Nat.eqb _ 0); [|discriminate]. cbn [negb] in E.
  destruct (copy_and_set_quadpoints _ _ _) eqn:Ec; [|discriminate]. cbn [bind] in E. injection E as <-.
  cbn. unfold resampled. repeat split; auto.
Qed.

Lemma qreports_of {A} (m : params -> result (grid A)) q F : made q ->
  (forall ps ts q', ps <> [] -> ts <> [] -> placed q ps ts q' -> m q' = Ok (sample F ps ts)) -> qreports m q F.
Proof.
  intros M H ps ts Hp Ht. destruct (made_facts q M) as (Hn & Hm & _).
  destruct (placed_ok q ps ts Hn Hm Hp Ht) as [q' E]. exists q'. split; auto.
Qed.
Lemma qreports_unique {A} (m : params -> result (grid A)) q F G : qreports m q F -> qreports m q G ->
  forall p t, F p t = G p t.
Proof.
  intros H1 H2 p t. destruct (H1 [p] [t]) as (s1 & C1 & E1); try discriminate.
  destruct (H2 [p] [t]) as (s2 & C2 & E2); try discriminate.
  rewrite C1 in C2. injection C2 as <-. rewrite E1 in E2. injection E2 as E2. exact E2.
Qed.

Lemma placed_cols q ps ts q' : placed q ps ts q' -> qcols q' = qcols q /\ q_nfp q' = q_nfp q.
Proof.
  intros H. apply placed_fields in H as (_ & E1 & _ & _ & _ & _ & _ & _ & E2 & E3 & E4 & _).
  unfold qcols, q_nfp. now rewrite E1, E2, E3, E4.
Qed.
Lemma placed_trig q ps ts q' : placed q ps ts q' ->
  tr q' = tr q /\ td q' = td q /\ fphi q' = fphi q /\ fpp q' = fpp q /\ fpt q' = fpt q.
Proof.
  intros H. destruct (placed_cols _ _ _ _ H) as [_ E]. unfold tr, td, fphi, fpp, fpt, targ. now rewrite E.
Qed.
Lemma diff_placed q ps ts q' : placed q ps ts q' -> diff_helper q' OnEval =
  Ok {| d_n := length (qcols q);
        d_trig := sample (fun p t => map (tr q p t) (qcols q)) ps ts;
        d_trig_diff := sample (fun p t => map (td q p t) (qcols q)) ps ts;
        d_phi := map (fphi q) (qcols q); d_theta := map ftheta (qcols q);
        d_phi_phi := map (fpp q) (qcols q); d_phi_theta := map (fpt q) (qcols q);
        d_theta_theta := map ftt (qcols q) |}.
Proof.
  intros H. rewrite diff_helper_cols. destruct (placed_cols _ _ _ _ H) as [E _].
  destruct (placed_trig _ _ _ _ H) as (E1 & E2 & E3 & E4 & E5).
  apply placed_fields in H as (_ & _ & _ & _ & _ & _ & F1 & F2 & _).
  cbn [sel_quadpoints]. now rewrite F1, F2, E, E1, E2, E3, E4, E5.
Qed.

Lemma apply_rows_sample n (F : R -> R -> list R) ps ts x : n = length x ->
  apply_rows n (sample F ps ts) x = Ok (sample (fun p t => ldot (F p t) x) ps ts).
Proof. intros ->. unfold apply_rows. rewrite Nat.eqb_refl. f_equal. apply (gmap_sample (fun row => ldot row x)). Qed.

Section Potential.
  Variables (q : params) (x : list R).
  Hypothesis M : made q.
  Hypothesis L : length x = q_ndofs q.
  Lemma cols_len : length (qcols q) = length x.
  Proof. destruct (made_facts q M) as (_ & _ & E & _). rewrite L, E. apply length_pcols. Qed.

  Lemma Phi_placed ps ts q' : placed q ps ts q' -> Phi q' x = Ok (sample (phi_of q x) ps ts).
  Proof. intros H. unfold Phi. rewrite (diff_placed q ps ts q' H). cbn [bind d_n d_trig]. apply apply_rows_sample, cols_len. Qed.
  Lemma dPhi_placed ps ts q' : placed q ps ts q' ->
    dPhi_phi q' x = Ok (sample (phi1 q x) ps ts) /\ dPhi_theta q' x = Ok (sample (phi2 q x) ps ts) /\
    dPhi_phi_phi q' x = Ok (sample (phi11 q x) ps ts) /\ dPhi_phi_theta q' x = Ok (sample (phi12 q x) ps ts) /\
    dPhi_theta_theta q' x = Ok (sample (phi22 q x) ps ts).
  Proof.
    intros H. unfold dPhi_phi, dPhi_theta, dPhi_phi_phi, dPhi_phi_theta, dPhi_theta_theta.
    rewrite (diff_placed q ps ts q' H). cbn [bind d_n d_trig d_trig_diff d_phi d_theta d_phi_phi d_phi_theta d_theta_theta].
    rewrite !gmap_sample, !apply_rows_sample by apply cols_len.
    unfold phi1, phi2, phi11, phi12, phi22, sample.
    repeat split; f_equal; apply map_ext; intros p; apply map_ext; intros t; now rewrite row_diag_map.
  Qed.
  Definition phi_tot (p t : R) : R := phi_of q x p t + p * q_G q + t * q_I q.
  Lemma Phi_net_placed ps ts q' : placed q ps ts q' -> Phi_with_net_current q' x = Ok (sample phi_tot ps ts).
  Proof.
    intros H. unfold Phi_with_net_current. rewrite (Phi_placed ps ts q' H). cbn [bind].
    apply placed_fields in H as (_ & _ & C & E1 & E2 & _). apply copy_fields in C as (_ & _ & _ & _ & _ & _ & _ & E6 & E7 & _).
    rewrite E1, E2, E6, E7, !gmap_sample, !gmap2_sample. reflexivity.
  Qed.
  Lemma tot_d1 (p t : R) : is_derive (fun s => phi_tot s t) p (phi1 q x p t + q_G q).
  Proof.
    unfold phi_tot. eapply dR_eq; [|apply dR_plus; [apply dR_plus; [apply phi_d1|apply dR_scal_r, dR_id]|apply dR_const]]. ring.
  Qed.
  Lemma tot_d2 (p t : R) : is_derive (fun s => phi_tot p s) t (phi2 q x p t + q_I q).
  Proof.
    unfold phi_tot. eapply dR_eq; [|apply dR_plus; [apply dR_plus; [apply phi_d2|apply dR_const]|apply dR_scal_r, dR_id]]. ring.
  Qed.
End Potential.

(** ** C10 *)
Lemma ldot_tr_sin q p t coefs : 
  ldot (map (tr q p t) (map (fun mn => (mn, 1%Z)) (smodes (q_mpol q) (q_ntor q)))) coefs
  = series sin (q_nfp q) (smodes (q_mpol q) (q_ntor q)) coefs p t.
Proof.
  rewrite map_map, <- series_ldot. apply ldot_map_ext. intros mn _. unfold tr, sin_or_cos. cbn [snd Z.mul Z.eqb Pos.eqb Pos.mul].
  unfold targ, trig_arg. cbn [fst snd]. f_equal. ring.
Qed.
Lemma ldot_tr_cos q p t coefs : 
  ldot (map (tr q p t) (map (fun mn => (mn, (-1)%Z)) (smodes (q_mpol q) (q_ntor q)))) coefs
  = series cos (q_nfp q) (smodes (q_mpol q) (q_ntor q)) coefs p t.
Proof.
  rewrite map_map, <- series_ldot. apply ldot_map_ext. intros mn _. unfold tr, sin_or_cos. cbn [snd Z.mul Z.eqb Pos.eqb Pos.mul].
  unfold targ, trig_arg. cbn [fst snd]. f_equal. ring.
Qed.

Lemma one_representative mpol ntor m n : (Z.abs m <= Z.of_nat mpol)%Z -> (Z.abs n <= Z.of_nat ntor)%Z -> (m, n) <> (0%Z, 0%Z) ->
  In (m, n) (smodes mpol ntor) /\ ~ In ((- m)%Z, (- n)%Z) (smodes mpol ntor) \/
  ~ In (m, n) (smodes mpol ntor) /\ In ((- m)%Z, (- n)%Z) (smodes mpol ntor).
Proof.
  intros Hm Hn H0. destruct (smodes_once mpol ntor) as [_ S]. rewrite !S. unfold is_mode.
  assert (H0' : (m <> 0 \/ n <> 0)%Z) by (destruct (Z.eq_dec m 0), (Z.eq_dec n 0); subst; auto).
  assert (N1 : ((- m)%Z, (- n)%Z) <> (0%Z, 0%Z)) by (intros E; injection E; intros; lia).
  destruct (Z_lt_le_dec 0 m); [left|destruct (Z.eq_dec m 0); [destruct (Z_lt_le_dec 0 n); [left|right]|right]].
  all: split; [try (split; [lia|auto])|try (split; [lia|auto])]; intros [? _]; lia.
Qed.

Lemma potential_modes mpol ntor : exists modes,
  once_each (fun mn => is_mode mpol ntor mn /\ mn <> (0%Z, 0%Z)) modes /\
  (forall m n, (Z.abs m <= Z.of_nat mpol)%Z -> (Z.abs n <= Z.of_nat ntor)%Z -> (m, n) <> (0%Z, 0%Z) ->
     In (m, n) modes /\ ~ In ((- m)%Z, (- n)%Z) modes \/ ~ In (m, n) modes /\ In ((- m)%Z, (- n)%Z) modes) /\
  forall q, made q -> q_mpol q = mpol -> q_ntor q = ntor ->
    q_ndofs_half q = length modes /\
    (q_stellsym q = true -> q_ndofs q = length modes /\
       forall x, length x = q_ndofs q ->
         qreports (fun q => Phi q x) q (fun p t => series sin (q_nfp q) modes x p t)) /\
    (q_stellsym q = false -> q_ndofs q = (2 * length modes + 1)%nat /\
       forall s c0 c, length s = length modes -> length c = length modes ->
         qreports (fun q => Phi q (s ++ c0 :: c)) q
           (fun p t => series sin (q_nfp q) modes s p t + c0 + series cos (q_nfp q) modes c p t)) /\
    (forall x, length x <> q_ndofs q -> Phi q x = Raise TypeError).
Proof.
  exists (smodes mpol ntor). split; [apply smodes_once|]. split; [apply one_representative|].
  intros q M E1 E2. subst mpol ntor.
  destruct (made_facts q M) as (_ & _ & N & N' & _).
  assert (Hl : length (smodes (q_mpol q) (q_ntor q)) = (2 * q_mpol q * q_ntor q + q_mpol q + q_ntor q)%nat).
  { rewrite length_smodes. unfold n_modes. lia. }
  assert (Hsame : forall ps ts q', placed q ps ts q' -> q_nfp q' = q_nfp q) by (intros; now apply placed_cols in H as [_ ?]).
  split; [rewrite N', Hl; unfold cp_ndofs; destruct (q_stellsym q); reflexivity|].
  split; [|split].
  - intros St. split; [rewrite N, Hl; unfold cp_ndofs; rewrite St; reflexivity|].
    intros x L. apply qreports_of; auto. intros ps ts q' _ _ P. rewrite (Phi_placed q x M L ps ts q' P). f_equal.
    unfold sample. apply map_ext; intros p; apply map_ext; intros t.
    unfold phi_of, qcols, pcols. rewrite St. apply ldot_tr_sin.
  - intros St. assert (Hd : q_ndofs q = (2 * length (smodes (q_mpol q) (q_ntor q)) + 1)%nat)
      by (rewrite N, Hl; unfold cp_ndofs; rewrite St; reflexivity).
    split; [exact Hd|]. intros s c0 c Ls Lc.
    assert (L : length (s ++ c0 :: c) = q_ndofs q) by (rewrite app_length; cbn [length]; lia).
    apply qreports_of; auto. intros ps ts q' _ _ P. rewrite (Phi_placed q _ M L ps ts q' P). f_equal.
    unfold sample. apply map_ext; intros p; apply map_ext; intros t.
    unfold phi_of, qcols, pcols. rewrite St. rewrite map_app, ldot_app by (now rewrite !map_length).
    cbn [map]. rewrite ldot_cons, ldot_tr_sin, ldot_tr_cos.
    replace (tr q p t (0%Z, 0%Z, (-1)%Z)) with 1; [ring|].
    unfold tr, sin_or_cos, targ, trig_arg. cbn [fst snd Z.mul Z.eqb Pos.eqb Pos.mul].
    replace (0 * (PI * 2 * t) - 0 * INR (q_nfp q) * (PI * 2 * p)) with 0 by ring. now rewrite cos_0.
  - intros x L. unfold Phi. rewrite diff_helper_cols. destruct (sel_quadpoints q OnEval). cbn [bind d_n].
    unfold apply_rows. replace (length (qcols q)) with (q_ndofs q) by (rewrite N; symmetry; apply length_pcols).
    destruct (Nat.eqb _ _) eqn:B; auto. apply Nat.eqb_eq in B. congruence.
Qed.

(** ** C11 *)
Lemma potential_derivatives q x : made q -> length x = q_ndofs q ->
  exists P P1 P2 P11 P12 P22 : R -> R -> R,
    qreports (fun q => Phi q x) q P /\
    qreports (fun q => dPhi_phi q x) q P1 /\ qreports (fun q => dPhi_theta q x) q P2 /\
    qreports (fun q => dPhi_phi_phi q x) q P11 /\ qreports (fun q => dPhi_phi_theta q x) q P12 /\
    qreports (fun q => dPhi_theta_theta q x) q P22 /\
    forall p t,
      is_derive (fun y => P y t) p (P1 p t) /\ is_derive (fun y => P p y) t (P2 p t) /\
      is_derive (fun y => P1 y t) p (P11 p t) /\ is_derive (fun y => P1 p y) t (P12 p t) /\
      is_derive (fun y => P2 y t) p (P12 p t) /\ is_derive (fun y => P2 p y) t (P22 p t).
Proof.
  intros M L. exists (phi_of q x), (phi1 q x), (phi2 q x), (phi11 q x), (phi12 q x), (phi22 q x).
  split; [apply qreports_of; auto; intros; now apply Phi_placed|].
  split; [apply qreports_of; auto; intros; now apply dPhi_placed|].
  split; [apply qreports_of; auto; intros; now apply dPhi_placed|].
  split; [apply qreports_of; auto; intros; now apply dPhi_placed|].
  split; [apply qreports_of; auto; intros; now apply dPhi_placed|].
  split; [apply qreports_of; auto; intros; now apply dPhi_placed|].
  intros p t. split; [apply phi_d1|]. split; [apply phi_d2|]. split; [apply phi1_d1|].
  split; [apply phi1_d2|]. split; [apply phi2_d1|apply phi2_d2].
Qed.

(** ** C12 *)
Lemma tr_shift_phi q c p t : (q_nfp q <> 0)%nat -> tr q (p + / INR (q_nfp q)) t c = tr q p t c /\ td q (p + / INR (q_nfp q)) t c = td q p t c.
Proof.
  intros H. assert (INR (q_nfp q) <> 0) by now apply not_0_INR.
  assert (E : targ q c (p + / INR (q_nfp q)) t = targ q c p t + IZR (- snd (fst c)) * (2 * PI)).
  { unfold targ, trig_arg. rewrite opp_IZR. field. auto. }
  unfold tr, td, sin_or_cos. rewrite E. rewrite cos_Zperiod, sin_Zperiod. auto.
Qed.
Lemma tr_shift_theta q c p t : tr q p (t + 1) c = tr q p t c /\ td q p (t + 1) c = td q p t c.
Proof.
  assert (E : targ q c p (t + 1) = targ q c p t + IZR (fst (fst c)) * (2 * PI)).
  { unfold targ, trig_arg. ring. }
  unfold tr, td, sin_or_cos. rewrite E. rewrite cos_Zperiod, sin_Zperiod. auto.
Qed.
