(** More proofs about coil cutting: the levels handed to the contour finder
    and the current of every period. *)
From Coq Require Import String List Bool Arith ZArith Reals Lra Lia.
From Verif Require Import Base ModelArray ModelMath SpecMath ModelSurface SpecSurface ProofSurface ProofSurface2
  ModelParams ModelField SpecField ProofField ProofField2 ModelSimsopt ModelCut SpecIo ProofSimsopt ProofTrig ProofCut.
Import ListNotations.
Open Scope R_scope.

Lemma cut_prefix q ps ts q' x : made q -> length x = q_ndofs q -> ps <> [] -> ts <> [] -> on_points q ps ts = Ok q' ->
  q_stellsym q' = q_stellsym q /\
  exists zeta theta data, forall find n shift,
  coil_zeta_theta_from_qp find q' x n shift =
  bind (cut_levels (q_stellsym q) n shift) (fun levels => bind (find zeta theta data levels) (fun segs => Ok (concat segs))).
Proof.
  intros M L Hp Ht P. pose proof (placed_fields q ps ts q' P) as (_ & _ & _ & E1 & E2 & E3 & E4 & E5 & E6 & _).
  assert (q_stellsym q' = q_stellsym q) as Es by congruence. split; auto.
  unfold coil_zeta_theta_from_qp. rewrite (Phi_net_placed q x M L ps ts q' P). cbn [bind].
  assert (exists t, cut_theta q' = Ok t) as (t & ->).
  { unfold cut_theta. replace (q_qtheta q') with ts by congruence. destruct ts; [contradiction|]. eauto. }
  cbn [bind].
  assert (exists d, cut_data q' (sample (phi_tot q x) ps ts) = Ok d) as (d & ->).
  { unfold cut_data. destruct (Rlt_dec _ _); [eauto|]. destruct ps as [|p0 ps]; [contradiction|]. destruct ts as [|t0 ts]; [contradiction|].
    unfold sample. cbn [map concat app]. eauto. }
  cbn [bind]. rewrite Es. eauto.
Qed.

Lemma cut_level_call q ps ts q' x n : made q -> length x = q_ndofs q -> ps <> [] -> ts <> [] -> on_points q ps ts = Ok q' ->
  (n <> 0)%nat ->
  exists zeta theta data, forall find shift, exists f, 0 <= f < 1 /\ (exists z, shift = IZR z + f) /\
  coil_zeta_theta_from_qp find q' x n shift =
  bind (find zeta theta data
         (if q_stellsym q then map (fun k => (INR k + 1 / 2) / (2 * INR n)) (seq 0 n)
          else map (fun k => (INR k + 1 / 2 + f) / (2 * INR n)) (seq 0 (2 * n)))) (fun segs => Ok (concat segs)).
Proof.
  intros M L Hp Ht P Hn. destruct (cut_prefix q ps ts q' x M L Hp Ht P) as (Es & z & t & d & H). exists z, t, d. intros find shift.
  destruct (cut_levels_shape q n shift Hn) as (f & B & Z & E). exists f. split; auto. split; auto. rewrite H, E. reflexivity.
Qed.
Lemma cut_no_coils find q ps ts q' x shift : made q -> length x = q_ndofs q -> ps <> [] -> ts <> [] -> on_points q ps ts = Ok q' ->
  coil_zeta_theta_from_qp find q' x 0 shift = Raise ZeroDivisionError.
Proof.
  intros M L Hp Ht P. destruct (cut_prefix q ps ts q' x M L Hp Ht P) as (Es & z & t & d & H). now rewrite H.
Qed.
Lemma cut_whole_shift find q x n shift z :
  coil_zeta_theta_from_qp find q x n (shift + IZR z) = coil_zeta_theta_from_qp find q x n shift.
Proof. unfold coil_zeta_theta_from_qp, cut_levels. now rewrite mod1_plus. Qed.
Lemma cut_sym_shift find q x n shift shift' : q_stellsym q = true ->
  coil_zeta_theta_from_qp find q x n shift = coil_zeta_theta_from_qp find q x n shift'.
Proof. intros E. unfold coil_zeta_theta_from_qp, cut_levels. now rewrite E. Qed.

Lemma cut_data_call q ps ts q' x n shift F t0 N :
  made q -> length x = q_ndofs q -> qreports (fun q => Phi_with_net_current q x) q F ->
  ps <> [] -> N <> 0%nat -> ts = equispaced t0 (/ INR N) N -> on_points q ps ts = Ok q' ->
  / 2 ^ 52 < Rabs (q_G q) -> n <> 0%nat ->
  let zeta := map (fun p => 2 * PI * (p - / INR (q_nfp q))) ps ++ map (fun p => 2 * PI * p) ps
              ++ map (fun p => 2 * PI * (p + / INR (q_nfp q))) ps in
  exists levels, forall find,
  coil_zeta_theta_from_qp find q' x n shift =
  bind (find zeta (map (fun t => 2 * PI * t) ts)
     (map (fun t => map (fun z => F (z / (2 * PI)) t / (q_G q / INR (q_nfp q))) zeta) ts) levels)
     (fun segs => Ok (concat segs)).
Proof.
  intros M L H Hp HN Et P HG Hn zeta. destruct (cut_levels_shape q n shift Hn) as (f & B & Z & E). eexists. intros find.
  pose proof (cut_call find q ps ts q' x n shift F t0 N M L H Hp HN Et P HG) as K. cbv zeta in K. rewrite E in K. exact K.
Qed.

(** ** The current of every period *)
Lemma filter_flat {A B} (p : B -> bool) (f : A -> list B) l : filter p (flat_map f l) = flat_map (fun x => filter p (f x)) l.
Proof. induction l; simpl; auto. now rewrite filter_app, IHl. Qed.
Lemma filter_all {A} (p : A -> bool) l : (forall x, In x l -> p x = true) -> filter p l = l.
Proof. intros H. induction l; simpl; auto. rewrite H by (left; auto). f_equal. apply IHl. intros; apply H; right; auto. Qed.
Lemma filter_none {A} (p : A -> bool) l : (forall x, In x l -> p x = false) -> filter p l = [].
Proof. intros H. induction l; simpl; auto. rewrite H by (left; auto). apply IHl. intros; apply H; right; auto. Qed.
Lemma flat_pick {A} (f : nat -> list A) k a n : (a <= k < a + n)%nat ->
  flat_map (fun i => if Nat.eqb i k then f i else []) (seq a n) = f k.
Proof.
  revert a. induction n; intros a H; [lia|]. cbn [seq flat_map]. destruct (Nat.eqb a k) eqn:B.
  - apply Nat.eqb_eq in B. subst a. rewrite flat_map_concat_map, (map_ext_in _ (fun _ => [])).
    + rewrite <- flat_map_concat_map. clear. assert (forall s : list nat, flat_map (fun _ => @nil A) s = []) as -> by (induction s; auto). now rewrite app_nil_r.
    + intros i Hi. apply in_seq in Hi. assert (Nat.eqb i k = false) as -> by (apply Nat.eqb_neq; lia). auto.
  - apply Nat.eqb_neq in B. simpl. apply IHn. lia.
Qed.
Lemma symmetries_period base nfp st k : (k < nfp)%nat ->
  in_period k (coils_via_symmetries base nfp st)
  = flat_map (fun f : bool => map (fun ci => {| cl_curve := fst ci; cl_period := k; cl_flip := f;
      cl_current := if f then - snd ci else snd ci |}) base) (if st then [false; true] else [false]).
Proof.
  intros H. unfold in_period, coils_via_symmetries. rewrite filter_flat.
  rewrite flat_map_concat_map, (map_ext _ (fun i => if Nat.eqb i k then 
     flat_map (fun f : bool => map (fun ci => {| cl_curve := fst ci; cl_period := i; cl_flip := f;
      cl_current := if f then - snd ci else snd ci |}) base) (if st then [false; true] else [false]) else [])).
  - rewrite <- flat_map_concat_map.
    exact (flat_pick (fun i => flat_map (fun f : bool => map (fun ci => {| cl_curve := fst ci; cl_period := i; cl_flip := f;
      cl_current := if f then - snd ci else snd ci |}) base) (if st then [false; true] else [false])) k 0 nfp ltac:(lia)).
  - intros i. destruct (Nat.eqb i k) eqn:B.
    + apply filter_all. intros c Hc. apply in_flat_map in Hc as (f & _ & Hc). apply in_map_iff in Hc as (ci & <- & _). exact B.
    + apply filter_none. intros c Hc. apply in_flat_map in Hc as (f & _ & Hc). apply in_map_iff in Hc as (ci & <- & _). exact B.
Qed.
Lemma Rsum_same {A} (f : A -> R) l c : (forall x, In x l -> f x = c) -> Rsum (map f l) = INR (length l) * c.
Proof. intros H. rewrite (Rsum_map_ext _ (fun _ => c)) by auto. now rewrite Rsum_const. Qed.

Lemma coils_period_current find q x n shift order l : q_nfp q <> 0%nat ->
  simsopt_coil_from_qp find q x n shift order = Ok l ->
  (forall k, (k < q_nfp q)%nat -> poloidal_current (in_period k l) = q_G q / INR (q_nfp q)) /\
  (forall c, In c l -> (cl_period c < q_nfp q)%nat /\
     (if cl_flip c then - cl_current c else cl_current c) = q_G q / INR (length l)).
Proof.
  intros Hn. unfold simsopt_coil_from_qp. destruct (coil_xyz_from_qp find q x n shift false) as [[[coils current] file]|] eqn:E; [|discriminate].
  cbn [bind]. destruct (simsopt_curves_from_xyz coils order) eqn:C; [|discriminate]. cbn [bind]. intros H; injection H as <-.
  destruct (xyz_parts _ _ _ _ _ _ _ _ _ E) as [CC _]. destruct (currents_value _ _ _ CC) as [H0 HC].
  destruct (curves_chosen _ _ _ C) as (k0 & F). assert (length coils = length a) as FL by (clear - F; induction F; simpl; congruence).
  assert (0 < INR (length coils)) by (apply lt_0_INR; lia). assert (0 < INR (q_nfp q)) by (apply lt_0_INR; lia).
  split.
  - intros k Hk. rewrite symmetries_period by auto. unfold poloidal_current. rewrite map_flat_map, Rsum_flat.
    rewrite (Rsum_same _ _ (INR (length coils) * current)).
    + rewrite HC. destruct (q_stellsym q); simpl; field; lra.
    + intros f _. rewrite map_map. rewrite (Rsum_same _ _ current).
      * rewrite map_length, FL. reflexivity.
      * intros ci Hi. apply in_map_iff in Hi as (v & <- & _). cbn [cl_flip cl_current snd]. destruct f; ring.
  - intros c Hc.
    assert (INR (length (coils_via_symmetries (map (fun c => (c, current)) a) (q_nfp q) (q_stellsym q)))
      = INR (q_nfp q) * (if q_stellsym q then 2 else 1) * INR (length coils)) as EL.
    { unfold coils_via_symmetries. rewrite (length_flat_map_const _ ((if q_stellsym q then 2 else 1) * length coils)%nat).
      - rewrite seq_length, mult_INR, mult_INR. destruct (q_stellsym q); simpl; ring.
      - intros k. destruct (q_stellsym q); cbn [flat_map]; rewrite ?app_length, ?map_length; simpl; lia. }
    rewrite EL. unfold coils_via_symmetries in Hc. apply in_flat_map in Hc as (k & Hk & Hc). apply in_seq in Hk.
    apply in_flat_map in Hc as (f & Hf & Hc). apply in_map_iff in Hc as (ci & <- & Hi). cbn [cl_period cl_flip cl_current].
    apply in_map_iff in Hi as (v & <- & _). cbn [snd]. split; [lia|]. rewrite HC.
    destruct f; destruct (q_stellsym q); simpl; field; lra.
Qed.
