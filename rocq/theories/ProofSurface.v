(** Proofs about the Fourier surface: modes, positions, derivatives, symmetry. *)
From Coq Require Import String List Bool Arith ZArith Reals Lra Lia FinFun.
From Coquelicot Require Import Coquelicot.
From Verif Require Import Base ModelArray ModelMath SpecMath RDeriv ProofMath ModelSurface SpecSurface.
Import ListNotations.
Open Scope R_scope.

(** ** Modes *)
Lemma arange_length lo n : length (arange lo n) = n.
Proof. unfold arange. now rewrite map_length, seq_length. Qed.

Lemma in_arange lo n x : In x (arange lo n) <-> (lo <= x < lo + Z.of_nat n)%Z.
Proof.
  unfold arange. rewrite in_map_iff. split.
  - intros (i & <- & H). apply in_seq in H. lia.
  - intros H. exists (Z.to_nat (x - lo)). split; [lia|]. apply in_seq. lia.
Qed.

Lemma nodup_arange lo n : NoDup (arange lo n).
Proof.
  unfold arange. apply Injective_map_NoDup; [|apply seq_NoDup]. intros x y H. lia.
Qed.

Lemma combine_app {A B} (a a' : list A) (b b' : list B) : length a = length b ->
  combine (a ++ a') (b ++ b') = combine a b ++ combine a' b'.
Proof.
  revert b; induction a; destruct b; simpl; intros H; try discriminate; auto. f_equal. apply IHa. lia.
Qed.

Lemma combine_repeat_l {A B} (x : A) (l : list B) : combine (repeat x (length l)) l = map (pair x) l.
Proof. induction l; simpl; congruence. Qed.

Lemma combine_modes (l : list Z) (w : list Z) :
  combine (flat_map (fun m => repeat m (length w)) l) (concat (repeat w (length l)))
  = flat_map (fun m => map (pair m) w) l.
Proof.
  induction l; simpl; auto. rewrite combine_app by (now rewrite repeat_length).
  rewrite combine_repeat_l. now f_equal.
Qed.

Lemma mode_list mpol ntor :
  combine (make_ms mpol ntor) (make_ns mpol ntor)
  = map (pair 0%Z) (arange 1 ntor)
    ++ flat_map (fun m => map (pair m) (arange (- Z.of_nat ntor) (2 * ntor + 1))) (arange 1 mpol).
Proof.
  unfold make_ms, make_ns. rewrite combine_app by (rewrite repeat_length, arange_length; auto).
  f_equal.
  - rewrite <- (arange_length 1 ntor) at 1. apply combine_repeat_l.
  - rewrite <- combine_modes. rewrite !arange_length. now replace (ntor * 2 + 1)%nat with (2 * ntor + 1)%nat by lia.
Qed.

Lemma length_flat_map_const {A B} (f : A -> list B) k l : (forall x, length (f x) = k) ->
  length (flat_map f l) = (length l * k)%nat.
Proof. intros H. induction l; simpl; auto. rewrite app_length, H, IHl. lia. Qed.

Lemma length_ms mpol ntor : length (make_ms mpol ntor) = (ntor + mpol * (2 * ntor + 1))%nat.
Proof.
  unfold make_ms. rewrite app_length, repeat_length.
  rewrite (length_flat_map_const _ (ntor * 2 + 1)) by (intros; apply repeat_length).
  rewrite arange_length. f_equal. f_equal. lia.
Qed.

Lemma length_ns mpol ntor : length (make_ns mpol ntor) = (ntor + mpol * (2 * ntor + 1))%nat.
Proof.
  unfold make_ns. rewrite app_length, arange_length. f_equal.
  assert (forall (w : list Z), length (concat (repeat w mpol)) = (mpol * length w)%nat) as H
    by (intros w; induction mpol; simpl; auto; rewrite app_length, IHmpol; lia).
  now rewrite H, arange_length.
Qed.

Lemma nodup_app {A} (l l' : list A) : NoDup l -> NoDup l' -> (forall x, In x l -> ~ In x l') -> NoDup (l ++ l').
Proof.
  induction l; simpl; intros H H' D; auto. inversion H; subst. constructor.
  - rewrite in_app_iff. intros [?|?]; [contradiction|]. eapply D; eauto.
  - apply IHl; auto.
Qed.

Lemma nodup_prod (l w : list Z) : NoDup l -> NoDup w -> NoDup (flat_map (fun m => map (pair m) w) l).
Proof.
  induction l; simpl; intros H Hw; [constructor|]. inversion H; subst. apply nodup_app; auto.
  - apply Injective_map_NoDup; auto. intros x y E. congruence.
  - intros x Hx Hx'. apply in_map_iff in Hx as (y & <- & _).
    apply in_flat_map in Hx' as (m & Hm & E). apply in_map_iff in E as (z & E & _).
    inversion E; subst. contradiction.
Qed.

Definition smodes mpol ntor := combine (make_ms mpol ntor) (make_ns mpol ntor).
Definition cmodes mpol ntor := (0%Z, 0%Z) :: smodes mpol ntor.

Lemma smodes_once mpol ntor :
  once_each (fun mn => is_mode mpol ntor mn /\ mn <> (0%Z, 0%Z)) (smodes mpol ntor).
Proof.
  unfold smodes. rewrite mode_list. split.
  - apply nodup_app.
    + apply Injective_map_NoDup; [|apply nodup_arange]. intros x y E. congruence.
    + apply nodup_prod; apply nodup_arange.
    + intros x Hx Hx'. apply in_map_iff in Hx as (y & <- & _).
      apply in_flat_map in Hx' as (m & Hm & E). apply in_map_iff in E as (z & E & _).
      inversion E; subst. apply in_arange in Hm. lia.
  - intros [m n]. rewrite in_app_iff, in_map_iff, in_flat_map. simpl. split.
    + intros [(x & E & H)|(x & H & E)].
      * inversion E; subst. apply in_arange in H. split; [left; lia|]. intros E'. inversion E'. lia.
      * apply in_map_iff in E as (y & E & Hy). inversion E; subst. apply in_arange in H, Hy.
        split; [right; lia|]. intros E'. inversion E'. lia.
    + intros [[[-> H]|[H H']] N].
      * left. exists n. split; auto. apply in_arange.
        assert (n <> 0%Z) by (intros ->; now apply N). lia.
      * right. exists m. split; [apply in_arange; lia|]. apply in_map. apply in_arange. lia.
Qed.

Lemma cmodes_once mpol ntor : once_each (is_mode mpol ntor) (cmodes mpol ntor).
Proof.
  destruct (smodes_once mpol ntor) as [H1 H2]. split.
  - constructor; auto. rewrite H2. tauto.
  - intros x. simpl. rewrite H2. split.
    + intros [<-|[H _]]; auto. left. lia.
    + intros H. destruct x as [m n]. destruct (Z.eq_dec m 0), (Z.eq_dec n 0); subst; auto.
      * right. split; auto. congruence.
      * right. split; auto. congruence.
      * right. split; auto. congruence.
Qed.

Lemma length_smodes mpol ntor : length (smodes mpol ntor) = (n_modes mpol ntor - 1)%nat.
Proof. unfold smodes. rewrite combine_length, length_ms, length_ns. unfold n_modes. lia. Qed.
Lemma length_cmodes mpol ntor : length (cmodes mpol ntor) = n_modes mpol ntor.
Proof. unfold cmodes. simpl length. rewrite length_smodes. unfold n_modes. lia. Qed.

(** ** Rows of the operator, as functions of a list of columns *)
Inductive colm := CZero | CCos (mn : Z * Z) | CSin (mn : Z * Z).
Definition centry nfp a b phi theta (c : colm) : R :=
  match c with CZero => 0 | CCos mn => cmn_entry nfp a b phi theta mn | CSin mn => smn_entry nfp a b phi theta mn end.
Definition rcols (st : bool) mpol ntor : list colm :=
  let c := map CCos (cmodes mpol ntor) in let s := map CSin (smodes mpol ntor) in
  let r := if st then c else c ++ s in let z := if st then s else c ++ s in
  r ++ map (fun _ => CZero) z.
Definition zcols (st : bool) mpol ntor : list colm :=
  let c := map CCos (cmodes mpol ntor) in let s := map CSin (smodes mpol ntor) in
  let r := if st then c else c ++ s in let z := if st then s else c ++ s in
  map (fun _ => CZero) r ++ z.

Lemma rz_cols phi theta nfp st a b mpol ntor :
  dof_to_rz_op phi theta nfp st a b mpol ntor
  = (map (centry nfp a b phi theta) (rcols st mpol ntor), map (centry nfp a b phi theta) (zcols st mpol ntor)).
Proof.
  unfold dof_to_rz_op, rcols, zcols, make_mcmsncns.
  change (combine (0%Z :: make_ms mpol ntor) (0%Z :: make_ns mpol ntor)) with (cmodes mpol ntor).
  change (combine (make_ms mpol ntor) (make_ns mpol ntor)) with (smodes mpol ntor).
  destruct st; rewrite !map_app, !map_map; unfold zeros_like; rewrite ?map_app, ?map_map; reflexivity.
Qed.

Lemma length_rcols st mpol ntor : length (rcols st mpol ntor) = legal_length st mpol ntor.
Proof.
  unfold rcols, legal_length. assert (1 <= n_modes mpol ntor)%nat by (unfold n_modes; lia).
  destruct st; rewrite !app_length, !map_length, ?app_length, ?map_length, length_cmodes, length_smodes; lia.
Qed.
Lemma length_zcols st mpol ntor : length (zcols st mpol ntor) = legal_length st mpol ntor.
Proof.
  unfold zcols, legal_length. assert (1 <= n_modes mpol ntor)%nat by (unfold n_modes; lia).
  destruct st; rewrite !app_length, !map_length, ?app_length, ?map_length, length_cmodes, length_smodes; lia.
Qed.

Lemma ldot_nil_r l : ldot l [] = 0.
Proof. now destruct l. Qed.
Lemma ldot_cons a l b l' : ldot (a :: l) (b :: l') = a * b + ldot l l'.
Proof. reflexivity. Qed.

Lemma ldot_map2_plus u v d : length u = length v -> ldot (map2 Rplus u v) d = ldot u d + ldot v d.
Proof.
  revert v d; induction u; destruct v, d; simpl; intros H; try discriminate; try (unfold ldot; simpl; ring).
  rewrite !ldot_cons, IHu by lia. ring.
Qed.
Lemma ldot_scal c u d : ldot (map (fun r => c * r) u) d = c * ldot u d.
Proof.
  revert d; induction u; destruct d; simpl; try (unfold ldot; simpl; ring).
  rewrite !ldot_cons, IHu. ring.
Qed.
Lemma ldot_zeros {A} (l : list A) d : ldot (map (fun _ => 0) l) d = 0.
Proof.
  revert d; induction l; destruct d; simpl; auto. rewrite ldot_cons, IHl. ring.
Qed.
Lemma ldot_map_ext {A} (f g : A -> R) l d : (forall x, In x l -> f x = g x) -> ldot (map f l) d = ldot (map g l) d.
Proof. intros H. f_equal. apply map_ext_in; auto. Qed.
Lemma ldot_map_scal {A} (f : A -> R) c l d : ldot (map (fun x => c * f x) l) d = c * ldot (map f l) d.
Proof. rewrite <- ldot_scal, map_map. reflexivity. Qed.

Lemma length_map2 {A B C} (f : A -> B -> C) u v : length u = length v -> length (map2 f u v) = length u.
Proof. revert v; induction u; destruct v; simpl; intros; try discriminate; auto. Qed.

(** The accumulation loop of dof_to_gamma_op. *)
Lemma fold_rows (row : nat -> list R) (c : nat -> R) d l zero :
  (forall k, length (row k) = length zero) ->
  ldot (fold_left (fun acc k => map2 Rplus acc (map (fun r => c k * r) (row k))) l zero) d
  = ldot zero d + Rsum (map (fun k => c k * ldot (row k) d) l).
Proof.
  intros H. revert zero H. induction l; intros; simpl.
  - unfold Rsum; simpl. ring.
  - rewrite IHl.
    + rewrite ldot_map2_plus by (rewrite map_length; auto). rewrite ldot_scal. unfold Rsum; simpl. ring.
    + intros k. rewrite length_map2 by (rewrite map_length; auto). auto.
Qed.

(** The r and z values of a surface. *)
Definition rval (s : surface) a b phi theta : R :=
  ldot (map (centry (s_nfp s) a b phi theta) (rcols (s_stellsym s) (s_mpol s) (s_ntor s))) (s_dofs s).
Definition zval (s : surface) a b phi theta : R :=
  ldot (map (centry (s_nfp s) a b phi theta) (zcols (s_stellsym s) (s_mpol s) (s_ntor s))) (s_dofs s).
Definition pt (s : surface) (a b : nat) (phi theta : R) : vec3 :=
  V3 (Rsum (map (fun k => trig_x a k phi * rval s k b phi theta) (seq 0 (a + 1))))
     (Rsum (map (fun k => trig_y a k phi * rval s k b phi theta) (seq 0 (a + 1))))
     (zval s a b phi theta).

Lemma op_pt s a b phi theta :
  (let '(x, y, z) := dof_to_gamma_op phi theta (s_nfp s) (s_stellsym s) a b (s_mpol s) (s_ntor s) in
   V3 (ldot x (s_dofs s)) (ldot y (s_dofs s)) (ldot z (s_dofs s))) = pt s a b phi theta.
Proof.
  unfold dof_to_gamma_op, pt. cbv zeta.
  rewrite (fold_rows (fun k => fst (dof_to_rz_op phi theta (s_nfp s) (s_stellsym s) k b (s_mpol s) (s_ntor s)))
            (fun k => trig_x a k phi)).
  2:{ intros. rewrite !rz_cols. simpl. unfold zeros_like. now rewrite !map_length. }
  rewrite (fold_rows (fun k => fst (dof_to_rz_op phi theta (s_nfp s) (s_stellsym s) k b (s_mpol s) (s_ntor s)))
            (fun k => trig_y a k phi)).
  2:{ intros. rewrite !rz_cols. simpl. unfold zeros_like. now rewrite !map_length. }
  unfold zeros_like. rewrite ldot_zeros, !Rplus_0_l. f_equal.
  - apply Rsum_ext. intros k _. now rewrite rz_cols.
  - apply Rsum_ext. intros k _. now rewrite rz_cols.
  - now rewrite rz_cols.
Qed.

Lemma op_len phi theta nfp st a b mpol ntor :
  length (snd (dof_to_gamma_op phi theta nfp st a b mpol ntor)) = legal_length st mpol ntor.
Proof. unfold dof_to_gamma_op. cbv zeta. cbn [snd]. rewrite rz_cols. cbn [snd]. rewrite map_length. apply length_zcols. Qed.

(** ** Constructor and grids *)
Lemma map2_map {A B C D E} (f : A -> B -> C) (g : D -> A) (h : E -> B) (l : list D) (l' : list E) :
  map2 f (map g l) (map h l') = map2 (fun x y => f (g x) (h y)) l l'.
Proof. revert l'; induction l; destruct l'; simpl; auto. now rewrite IHl. Qed.
Lemma map2_same {A B} (f : A -> A -> B) l : map2 f l l = map (fun x => f x x) l.
Proof. induction l; simpl; congruence. Qed.
Lemma map2_diag {A B C D} (f : B -> C -> D) (g : A -> B) (h : A -> C) l :
  map2 f (map g l) (map h l) = map (fun x => f (g x) (h x)) l.
Proof. rewrite map2_map, map2_same. reflexivity. Qed.

Lemma gmap_sample {A B} (f : A -> B) F ps ts : gmap f (sample F ps ts) = sample (fun p t => f (F p t)) ps ts.
Proof. unfold gmap, sample. rewrite map_map. apply map_ext. intros. now rewrite map_map. Qed.
Lemma gmap2_sample {A B C} (f : A -> B -> C) F G ps ts :
  gmap2 f (sample F ps ts) (sample G ps ts) = sample (fun p t => f (F p t) (G p t)) ps ts.
Proof.
  unfold gmap2, sample. rewrite map2_diag. apply map_ext. intros. now rewrite map2_diag.
Qed.

(** The surface [s] on other quadrature points. *)
Definition resampled (s : surface) (ps ts : list R) (s' : surface) : Prop :=
  copy_and_set_quadpoints s (arr1 ps) (arr1 ts) = Ok s'.

Lemma copy_ok s ps ts : ps <> [] -> ts <> [] -> exists s', resampled s ps ts s'.
Proof.
  intros H H'. unfold resampled, copy_and_set_quadpoints, make_surface. simpl.
  destruct ps; [contradiction|]. destruct ts; [contradiction|]. simpl. eauto.
Qed.

Lemma copy_fields s ps ts s' : resampled s ps ts s' ->
  s_nfp s' = s_nfp s /\ s_stellsym s' = s_stellsym s /\ s_mpol s' = s_mpol s /\ s_ntor s' = s_ntor s /\
  s_dofs s' = s_dofs s /\ s_qphi s' = ps /\ s_qtheta s' = ts /\
  s_theta_mesh s' = sample (fun p t => t) ps ts /\ s_phi_mesh s' = sample (fun p t => p) ps ts /\
  s_dphi s' = nth (Nat.min 1 (length ps - 1)) ps 0 - nth 0 ps 0 /\
  s_dtheta s' = nth (Nat.min 1 (length ts - 1)) ts 0 - nth 0 ts 0.
Proof.
  unfold resampled, copy_and_set_quadpoints, make_surface. simpl.
  destruct ps; [discriminate|]. destruct ts; [discriminate|].
  intros E. cbn [getclamp bind] in E. injection E as <-. cbn [s_nfp s_stellsym s_mpol s_ntor s_dofs s_qphi s_qtheta s_theta_mesh s_phi_mesh s_dphi s_dtheta].
  repeat (split; [reflexivity|]). split.
  { unfold sample. simpl. rewrite map_id. reflexivity. }
  split; [reflexivity|]. split; reflexivity.
Qed.

Lemma pt_copy s ps ts s' a b phi theta : resampled s ps ts s' -> pt s' a b phi theta = pt s a b phi theta.
Proof.
  intros H. apply copy_fields in H as (E1 & E2 & E3 & E4 & E5 & _).
  unfold pt, rval, zval. rewrite E1, E2, E3, E4, E5. reflexivity.
Qed.

Lemma gammadash_copy s ps ts s' a b : legal s -> resampled s ps ts s' ->
  gammadash a b s' = Ok (sample (pt s a b) ps ts).
Proof.
  intros L H. pose proof H as HH. apply copy_fields in H as (E1 & E2 & E3 & E4 & E5 & _ & _ & E6 & E7 & _).
  unfold gammadash, dof_to_gamma. rewrite op_len, E2, E3, E4, E5.
  unfold legal in L. rewrite L, Nat.eqb_refl. f_equal. rewrite E6, E7, gmap2_sample.
  unfold sample. apply map_ext. intros p. apply map_ext. intros t.
  rewrite <- (pt_copy s ps ts s' a b p t HH). rewrite <- op_pt, E2, E3, E4, E5. reflexivity.
Qed.

Lemma reports_gammadash s a b : legal s -> reports (gammadash a b) s (pt s a b).
Proof.
  intros L ps ts H H'. destruct (copy_ok s ps ts H H') as [s' E]. exists s'. split; auto.
  now apply gammadash_copy.
Qed.

Lemma reports_unique {A} (m : surface -> result (grid A)) s F G : reports m s F -> reports m s G ->
  forall p t, F p t = G p t.
Proof.
  intros H1 H2 p t. destruct (H1 [p] [t]) as (s1 & C1 & E1); try discriminate.
  destruct (H2 [p] [t]) as (s2 & C2 & E2); try discriminate.
  rewrite C1 in C2. injection C2 as <-. rewrite E1 in E2. injection E2 as E2. exact E2.
Qed.

Lemma reports_legal s a b F : reports (gammadash a b) s F -> legal s.
Proof.
  intros H. destruct (H [0] [0]) as (s' & C & E); try discriminate.
  apply copy_fields in C as (_ & E2 & E3 & E4 & E5 & _).
  unfold gammadash, dof_to_gamma in E. rewrite op_len, E2, E3, E4, E5 in E.
  unfold legal. destruct (Nat.eqb _ _) eqn:B; [|discriminate]. apply Nat.eqb_eq in B. congruence.
Qed.

Lemma reports_pt s a b F : reports (gammadash a b) s F -> forall p t, F p t = pt s a b p t.
Proof. intros H. apply reports_unique with (1 := H). apply reports_gammadash. eapply reports_legal; eauto. Qed.

Lemma illegal_raises s a b : ~ legal s -> gammadash a b s = Raise TypeError.
Proof.
  intros H. unfold gammadash, dof_to_gamma. rewrite op_len. unfold legal in H.
  destruct (Nat.eqb _ _) eqn:B; auto. apply Nat.eqb_eq in B. congruence.
Qed.

(** ** Derivatives of one mode *)
Lemma phase_same nfp m n phi theta : phase_odd nfp m n phi theta = phase_even nfp m n phi theta.
Proof. unfold phase_odd, phase_even. ring. Qed.

Lemma mod2_cases n : (n mod 2 = 0 /\ (S n) mod 2 = 1 /\ S n / 2 = n / 2)%nat \/
                     (n mod 2 = 1 /\ (S n) mod 2 = 0 /\ S n / 2 = S (n / 2))%nat.
Proof.
  pose proof (Nat.div_mod n 2). pose proof (Nat.div_mod (S n) 2).
  pose proof (Nat.mod_upper_bound n 2). pose proof (Nat.mod_upper_bound (S n) 2). lia.
Qed.

Lemma dphase_phi nfp m n theta phi :
  is_derive (fun x => phase_even nfp m n x theta) phi (- IZR n * PI * 2 * INR nfp).
Proof.
  unfold phase_even.
  eapply dR_eq; [|apply dR_minus; [apply dR_const|apply dR_scal, dR_id]]. ring.
Qed.
Lemma dphase_theta nfp m n phi theta :
  is_derive (fun x => phase_even nfp m n phi x) theta (IZR m * PI * 2).
Proof.
  unfold phase_even.
  eapply dR_eq; [|apply dR_minus; [apply dR_scal, dR_id|apply dR_const]]. ring.
Qed.

Lemma fac_phi nfp a b m n : 
  derivative_factor nfp (S a) b m n =
  derivative_factor nfp a b m n * (- IZR n * PI * 2 * INR nfp) * pow (-1) (S (a + b) / 2 - (a + b) / 2).
Proof.
  unfold derivative_factor. replace (S a + b)%nat with (S (a + b)) by lia.
  destruct (mod2_cases (a + b)) as [(_ & _ & E)|(_ & _ & E)]; rewrite E.
  - rewrite Nat.sub_diag. simpl. ring.
  - replace (S ((a + b) / 2) - (a + b) / 2)%nat with 1%nat by lia. simpl. ring.
Qed.
Lemma fac_theta nfp a b m n : 
  derivative_factor nfp a (S b) m n =
  derivative_factor nfp a b m n * (IZR m * PI * 2) * pow (-1) (S (a + b) / 2 - (a + b) / 2).
Proof.
  unfold derivative_factor. replace (a + S b)%nat with (S (a + b)) by lia.
  destruct (mod2_cases (a + b)) as [(_ & _ & E)|(_ & _ & E)]; rewrite E.
  - rewrite Nat.sub_diag. simpl. ring.
  - replace (S ((a + b) / 2) - (a + b) / 2)%nat with 1%nat by lia. simpl. ring.
Qed.

Lemma cmn_phi nfp a b theta mn phi :
  is_derive (fun x => cmn_entry nfp a b x theta mn) phi (cmn_entry nfp (S a) b phi theta mn).
Proof.
  destruct mn as [m n]. unfold cmn_entry. cbn [fst snd]. rewrite fac_phi, phase_same.
  replace (S a + b)%nat with (S (a + b)) by lia.
  destruct (mod2_cases (a + b)) as [(E0 & E1 & E)|(E0 & E1 & E)]; rewrite E0, E1, E; cbn [Nat.eqb].
  - rewrite Nat.sub_diag. eapply dR_eq; [|apply dR_scal, dR_cos, dphase_phi]. simpl. ring.
  - replace (S ((a + b) / 2) - (a + b) / 2)%nat with 1%nat by lia.
    apply dR_ext with (f := fun x => - derivative_factor nfp a b m n * sin (phase_even nfp m n x theta)).
    { intros. now rewrite phase_same. }
    eapply dR_eq; [|apply dR_scal, dR_sin, dphase_phi]. simpl. ring.
Qed.
Lemma smn_phi nfp a b theta mn phi :
  is_derive (fun x => smn_entry nfp a b x theta mn) phi (smn_entry nfp (S a) b phi theta mn).
Proof.
  destruct mn as [m n]. unfold smn_entry. cbn [fst snd]. rewrite fac_phi, phase_same.
  replace (S a + b)%nat with (S (a + b)) by lia.
  destruct (mod2_cases (a + b)) as [(E0 & E1 & E)|(E0 & E1 & E)]; rewrite E0, E1, E; cbn [Nat.eqb].
  - rewrite Nat.sub_diag. eapply dR_eq; [|apply dR_scal, dR_sin, dphase_phi]. simpl. ring.
  - replace (S ((a + b) / 2) - (a + b) / 2)%nat with 1%nat by lia.
    apply dR_ext with (f := fun x => derivative_factor nfp a b m n * cos (phase_even nfp m n x theta)).
    { intros. now rewrite phase_same. }
    eapply dR_eq; [|apply dR_scal, dR_cos, dphase_phi]. simpl. ring.
Qed.
Lemma cmn_theta nfp a b phi mn theta :
  is_derive (fun x => cmn_entry nfp a b phi x mn) theta (cmn_entry nfp a (S b) phi theta mn).
Proof.
  destruct mn as [m n]. unfold cmn_entry. cbn [fst snd]. rewrite fac_theta, phase_same.
  replace (a + S b)%nat with (S (a + b)) by lia.
  destruct (mod2_cases (a + b)) as [(E0 & E1 & E)|(E0 & E1 & E)]; rewrite E0, E1, E; cbn [Nat.eqb].
  - rewrite Nat.sub_diag. eapply dR_eq; [|apply dR_scal, dR_cos, dphase_theta]. simpl. ring.
  - replace (S ((a + b) / 2) - (a + b) / 2)%nat with 1%nat by lia.
    apply dR_ext with (f := fun x => - derivative_factor nfp a b m n * sin (phase_even nfp m n phi x)).
    { intros. now rewrite phase_same. }
    eapply dR_eq; [|apply dR_scal, dR_sin, dphase_theta]. simpl. ring.
Qed.
Lemma smn_theta nfp a b phi mn theta :
  is_derive (fun x => smn_entry nfp a b phi x mn) theta (smn_entry nfp a (S b) phi theta mn).
Proof.
  destruct mn as [m n]. unfold smn_entry. cbn [fst snd]. rewrite fac_theta, phase_same.
  replace (a + S b)%nat with (S (a + b)) by lia.
  destruct (mod2_cases (a + b)) as [(E0 & E1 & E)|(E0 & E1 & E)]; rewrite E0, E1, E; cbn [Nat.eqb].
  - rewrite Nat.sub_diag. eapply dR_eq; [|apply dR_scal, dR_sin, dphase_theta]. simpl. ring.
  - replace (S ((a + b) / 2) - (a + b) / 2)%nat with 1%nat by lia.
    apply dR_ext with (f := fun x => derivative_factor nfp a b m n * cos (phase_even nfp m n phi x)).
    { intros. now rewrite phase_same. }
    eapply dR_eq; [|apply dR_scal, dR_cos, dphase_theta]. simpl. ring.
Qed.

Lemma centry_phi nfp a b theta c phi :
  is_derive (fun x => centry nfp a b x theta c) phi (centry nfp (S a) b phi theta c).
Proof. destruct c; [apply (dR_const 0)|apply cmn_phi|apply smn_phi]. Qed.
Lemma centry_theta nfp a b phi c theta :
  is_derive (fun x => centry nfp a b phi x c) theta (centry nfp a (S b) phi theta c).
Proof. destruct c; [apply (dR_const 0)|apply cmn_theta|apply smn_theta]. Qed.

Lemma dR_ldot_map {A} (F : R -> A -> R) (dF : A -> R) l d t :
  (forall c, is_derive (fun x => F x c) t (dF c)) ->
  is_derive (fun x => ldot (map (F x) l) d) t (ldot (map dF l) d).
Proof.
  intros H. revert d; induction l; intros; simpl.
  - apply (dR_const 0).
  - destruct d.
    + apply (dR_const 0).
    + rewrite ldot_cons. apply dR_ext with (f := fun x => F x a * r + ldot (map (F x) l) d).
      { intros. now rewrite ldot_cons. }
      apply dR_plus; [apply dR_scal_r, H|apply IHl].
Qed.

Lemma rval_phi s a b theta phi :
  is_derive (fun x => rval s a b x theta) phi (rval s (S a) b phi theta).
Proof. apply (dR_ldot_map (fun x => centry (s_nfp s) a b x theta)). intros. apply centry_phi. Qed.
Lemma zval_phi s a b theta phi :
  is_derive (fun x => zval s a b x theta) phi (zval s (S a) b phi theta).
Proof. apply (dR_ldot_map (fun x => centry (s_nfp s) a b x theta)). intros. apply centry_phi. Qed.
Lemma rval_theta s a b phi theta :
  is_derive (fun x => rval s a b phi x) theta (rval s a (S b) phi theta).
Proof. apply (dR_ldot_map (fun x => centry (s_nfp s) a b phi x)). intros. apply centry_theta. Qed.
Lemma zval_theta s a b phi theta :
  is_derive (fun x => zval s a b phi x) theta (zval s a (S b) phi theta).
Proof. apply (dR_ldot_map (fun x => centry (s_nfp s) a b phi x)). intros. apply centry_theta. Qed.

(** ** The Leibniz sum *)
Definition cx (t : nat) (phi : R) : R :=
  pow (-1) (t / 2) * pow (PI * 2) t * (if Nat.eqb (t mod 2) 0 then cos (phi * PI * 2) else - sin (phi * PI * 2)).
Definition cy (t : nat) (phi : R) : R :=
  pow (-1) (t / 2) * pow (PI * 2) t * (if Nat.eqb (t mod 2) 0 then sin (phi * PI * 2) else cos (phi * PI * 2)).

Lemma dangle phi : is_derive (fun x => x * PI * 2) phi (PI * 2).
Proof. eapply dR_eq; [|apply dR_scal_r, dR_scal_r, dR_id]. ring. Qed.

Lemma cx_phi t phi : is_derive (cx t) phi (cx (S t) phi).
Proof.
  unfold cx. destruct (mod2_cases t) as [(E0 & E1 & E)|(E0 & E1 & E)]; rewrite E0, E1, E; cbn [Nat.eqb].
  - eapply dR_eq; [|apply dR_scal, dR_cos, dangle]. simpl. ring.
  - eapply dR_eq; [|apply dR_scal, dR_opp, dR_sin, dangle]. simpl. ring.
Qed.
Lemma cy_phi t phi : is_derive (cy t) phi (cy (S t) phi).
Proof.
  unfold cy. destruct (mod2_cases t) as [(E0 & E1 & E)|(E0 & E1 & E)]; rewrite E0, E1, E; cbn [Nat.eqb].
  - eapply dR_eq; [|apply dR_scal, dR_sin, dangle]. simpl. ring.
  - eapply dR_eq; [|apply dR_scal, dR_cos, dangle]. simpl. ring.
Qed.

Lemma trig_x_cx a k phi : trig_x a k phi = Binomial.C a k * cx (a - k) phi.
Proof.
  unfold trig_x, leibniz_factor, Binomial.C, cx. cbv zeta.
  pose proof (INR_fact_neq_0 k). pose proof (INR_fact_neq_0 (a - k)).
  destruct (Nat.eqb _ _); field; auto.
Qed.
Lemma trig_y_cy a k phi : trig_y a k phi = Binomial.C a k * cy (a - k) phi.
Proof.
  unfold trig_y, leibniz_factor, Binomial.C, cy. cbv zeta.
  pose proof (INR_fact_neq_0 k). pose proof (INR_fact_neq_0 (a - k)).
  destruct (Nat.eqb _ _); field; auto.
Qed.

Lemma Rsum_app l l' : Rsum (l ++ l') = Rsum l + Rsum l'.
Proof. unfold Rsum. induction l; simpl; [ring|]. rewrite IHl. ring. Qed.

Lemma Rsum_seq h n : Rsum (map h (seq 0 (n + 1))) = sum_f_R0 h n.
Proof.
  induction n; [unfold Rsum; simpl; ring|].
  replace (S n + 1)%nat with (S (n + 1)) by lia.
  rewrite (seq_S (n + 1) 0), map_app, Rsum_app, IHn. replace (0 + (n + 1))%nat with (S n) by lia.
  unfold Rsum. simpl. ring.
Qed.

Lemma C_n_0 n : Binomial.C n 0 = 1.
Proof. unfold Binomial.C. rewrite Nat.sub_0_r. simpl. field. apply INR_fact_neq_0. Qed.
Lemma C_n_n n : Binomial.C n n = 1.
Proof. unfold Binomial.C. rewrite Nat.sub_diag. simpl. field. apply INR_fact_neq_0. Qed.

Lemma leibniz (f g : nat -> R) a :
  sum_f_R0 (fun k => Binomial.C a k * (g (S (a - k)) * f k + g (a - k)%nat * f (S k))) a
  = sum_f_R0 (fun k => Binomial.C (S a) k * g (S a - k)%nat * f k) (S a).
Proof.
  assert (forall u v n, sum_f_R0 (fun k => u k + v k) n = sum_f_R0 u n + sum_f_R0 v n) as Hp
    by (intros; apply plus_sum).
  rewrite (sum_eq _ (fun k => Binomial.C a k * g (S (a - k)) * f k + Binomial.C a k * g (a - k)%nat * f (S k))).
  2:{ intros. ring. }
  rewrite Hp. rewrite tech5. rewrite Nat.sub_diag, C_n_n.
  destruct a as [|a].
  - simpl. rewrite !C_n_0. ring.
  - rewrite (decomp_sum (fun k => Binomial.C (S (S a)) k * g (S (S a) - k)%nat * f k)) by lia.
    rewrite (decomp_sum (fun k => Binomial.C (S a) k * g (S (S a - k)) * f k)) by lia.
    rewrite tech5. cbn [pred]. rewrite Nat.sub_diag, C_n_n, !C_n_0, Nat.sub_0_r.
    rewrite (sum_eq (fun i => Binomial.C (S (S a)) (S i) * g (S (S a) - S i)%nat * f (S i))
       (fun i => Binomial.C (S a) (S i) * g (S (S a - S i)) * f (S i)
               + Binomial.C (S a) i * g (S a - i)%nat * f (S i))).
    { rewrite Hp. rewrite Nat.sub_0_r. ring. }
    intros i Hi. rewrite <- pascal by lia.
    replace (S (S a) - S i)%nat with (S a - i)%nat by lia.
    replace (S (S a - S i))%nat with (S a - i)%nat by lia. ring.
Qed.

Lemma dR_sum (F : nat -> R -> R) (dF : nat -> R) n t :
  (forall k, (k <= n)%nat -> is_derive (F k) t (dF k)) ->
  is_derive (fun x => sum_f_R0 (fun k => F k x) n) t (sum_f_R0 dF n).
Proof.
  intros H. induction n; simpl; [apply H; lia|].
  apply dR_plus; [apply IHn; intros; apply H; lia|apply H; lia].
Qed.

Lemma pt_phi s a b theta phi : derives (fun x => pt s a b x theta) phi (pt s (S a) b phi theta).
Proof.
  unfold derives, pt; cbn [vx vy vz]. split; [|split].
  - rewrite Rsum_seq.
    apply dR_ext with (f := fun x => sum_f_R0 (fun k => trig_x a k x * rval s k b x theta) a).
    { intros. now rewrite Rsum_seq. }
    apply (dR_eq _ _ (sum_f_R0 (fun k => Binomial.C a k *
      (cx (S (a - k)) phi * rval s k b phi theta + cx (a - k) phi * rval s (S k) b phi theta)) a)).
    + rewrite (leibniz (fun k => rval s k b phi theta) (fun t => cx t phi)).
      apply sum_eq. intros i Hi. now rewrite trig_x_cx.
    + apply (dR_sum (fun k x => trig_x a k x * rval s k b x theta)). intros k Hk.
      apply dR_ext with (f := fun x => Binomial.C a k * (cx (a - k) x * rval s k b x theta)).
      { intros. rewrite trig_x_cx. ring. }
      apply dR_scal. apply (dR_mult (cx (a - k)) (fun x => rval s k b x theta)); [apply cx_phi|apply rval_phi].
  - rewrite Rsum_seq.
    apply dR_ext with (f := fun x => sum_f_R0 (fun k => trig_y a k x * rval s k b x theta) a).
    { intros. now rewrite Rsum_seq. }
    apply (dR_eq _ _ (sum_f_R0 (fun k => Binomial.C a k *
      (cy (S (a - k)) phi * rval s k b phi theta + cy (a - k) phi * rval s (S k) b phi theta)) a)).
    + rewrite (leibniz (fun k => rval s k b phi theta) (fun t => cy t phi)).
      apply sum_eq. intros i Hi. now rewrite trig_y_cy.
    + apply (dR_sum (fun k x => trig_y a k x * rval s k b x theta)). intros k Hk.
      apply dR_ext with (f := fun x => Binomial.C a k * (cy (a - k) x * rval s k b x theta)).
      { intros. rewrite trig_y_cy. ring. }
      apply dR_scal. apply (dR_mult (cy (a - k)) (fun x => rval s k b x theta)); [apply cy_phi|apply rval_phi].
  - apply zval_phi.
Qed.

Lemma pt_theta s a b phi theta : derives (fun x => pt s a b phi x) theta (pt s a (S b) phi theta).
Proof.
  unfold derives, pt; cbn [vx vy vz]. split; [|split].
  - apply (dR_Rsum (fun k x => trig_x a k phi * rval s k b phi x)). intros. apply dR_scal, rval_theta.
  - apply (dR_Rsum (fun k x => trig_y a k phi * rval s k b phi x)). intros. apply dR_scal, rval_theta.
  - apply zval_theta.
Qed.

Lemma surface_derivatives s : legal s ->
  exists P : nat -> nat -> R -> R -> vec3,
    (forall a b, reports (gammadash a b) s (P a b)) /\
    forall a b phi theta,
      derives (fun x => P a b x theta) phi (P (S a) b phi theta) /\
      derives (fun x => P a b phi x) theta (P a (S b) phi theta).
Proof.
  intros L. exists (pt s). split.
  - intros. now apply reports_gammadash.
  - intros. split; [apply pt_phi|apply pt_theta].
Qed.
