(** Concrete cases for the statements about the exchange of surfaces and coil
    cutting, and counterexamples. *)
From Coq Require Import String List Bool Arith ZArith Reals Lra Lia.
From Coquelicot Require Import Coquelicot.
From Verif Require Import Base ModelArray ModelMath SpecMath ModelSurface SpecSurface ProofSurface ProofSurface2 WitnessSurface
  ModelParams ModelField SpecField ProofField ProofField2 WitnessField ModelSimsopt ModelCut SpecIo ProofSimsopt ProofTrig ProofCut ProofCut2.
Import ListNotations.
Open Scope R_scope.

(** A contour finder returning, for every level, [k] copies of a straight
    poloidal line.  For [k = 1] these are the contours of the potential of a
    uniform poloidal current on two field periods. *)
Definition straight (k : nat) : contour_finder :=
  fun _ theta _ levels => Ok (map (fun l => repeat (map (fun t => (PI * l, t)) theta) k) levels).
Lemma length_concat_repeat {A} (f : R -> A) k l : length (concat (map (fun v => repeat (f v) k) l)) = (k * length l)%nat.
Proof. induction l; cbn [map concat length]; [lia|]. rewrite app_length, repeat_length, IHl. lia. Qed.

Lemma device_placed c G I Bn st : on_points (device c G I Bn st) [0; 1/8] [1/16; 1/3] = Ok (device c G I Bn st).
Proof. apply device_constructed. Qed.
Lemma straight_paths k G I Bn st x n shift : n <> 0%nat -> length x = q_ndofs (device 1 G I Bn st) ->
  exists paths, coil_zeta_theta_from_qp (straight k) (device 1 G I Bn st) x n shift = Ok paths /\
    length paths = (k * (if st then n else 2 * n))%nat /\ (forall p, In p paths -> length p = 2%nat).
Proof.
  intros Hn L. unfold coil_zeta_theta_from_qp.
  rewrite (Phi_net_placed (device 1 G I Bn st) x (device_made 1 G I Bn st) L _ _ _ (device_placed 1 G I Bn st)). cbn [bind].
  set (q := device 1 G I Bn st).
  assert (exists t, cut_theta q = Ok t /\ length t = 2%nat) as (t & -> & Lt).
  { eexists. split; [reflexivity|]. reflexivity. }
  cbn [bind].
  assert (exists d, cut_data q (sample (phi_tot q x) [0; 1/8] [1/16; 1/3]) = Ok d) as (d & ->).
  { unfold cut_data. destruct (Rlt_dec _ _); [eauto|]. unfold sample. cbn [map concat app]. eauto. }
  cbn [bind]. destruct (cut_levels_shape q n shift Hn) as (f & B & Z & ->). cbn [bind]. unfold straight. cbn [bind].
  eexists. split; [reflexivity|]. split.
  - rewrite length_concat_repeat. change (q_stellsym q) with st. destruct st; now rewrite map_length, seq_length.
  - intros p Hp. apply in_concat in Hp as (l & Hl & Hp). apply in_map_iff in Hl as (v & <- & _). apply repeat_spec in Hp. subst p.
    now rewrite map_length.
Qed.
Lemma filaments_ok c coils : (forall l, In l coils -> l <> []) -> exists fs, filaments c coils = Ok fs.
Proof.
  induction coils as [|l coils IH]; intros H; cbn [filaments]; [eauto|].
  destruct IH as (fs & ->); [intros; apply H; right; auto|].
  assert (l <> []) as H' by (apply H; left; auto). destruct l; [contradiction|]. cbn [filament bind]. eauto.
Qed.
Lemma straight_coils k G I Bn st x n shift save : n <> 0%nat -> k <> 0%nat -> length x = q_ndofs (device 1 G I Bn st) ->
  exists coils current file, coil_xyz_from_qp (straight k) (device 1 G I Bn st) x n shift save = Ok (coils, current, file) /\
    length coils = (k * (if st then n else 2 * n))%nat /\ (forall p, In p coils -> length p = 2%nat) /\ (save = true -> exists f, file = Some f).
Proof.
  intros Hn Hk L. destruct (straight_paths k G I Bn st x n shift Hn L) as (paths & E & LP & F). unfold coil_xyz_from_qp. rewrite E. cbn [bind].
  set (q := device 1 G I Bn st).
  destruct (legal_to_simsopt (q_winding q) (proj1 (device_legal 1 G I Bn st))) as (ss & ->). cbn [bind]. rewrite LP.
  assert (exists c, coil_currents q (k * (if st then n else 2 * n)) = Ok c) as (c & ->).
  { unfold coil_currents. destruct (k * (if st then n else 2 * n))%nat eqn:B; [destruct st; nia|]. eauto. }
  cbn [bind]. assert (forall p, In p (map (map (cut_point ss)) paths) -> length p = 2%nat) as F2.
  { intros p Hp. apply in_map_iff in Hp as (v & <- & Hv). rewrite map_length. auto. }
  destruct save.
  - destruct (filaments_ok c (map (map (cut_point ss)) paths)) as (fs & ->).
    { intros l Hl E0. apply F2 in Hl. subst l. discriminate. }
    cbn [bind]. do 3 eexists. split; [reflexivity|]. split; [now rewrite map_length|]. split; eauto.
  - do 3 eexists. split; [reflexivity|]. split; [now rewrite map_length|]. split; auto. discriminate.
Qed.
Lemma curves_ok coils : (forall p, In p coils -> length p = 2%nat) -> exists l, curves_of 1 coils = Ok l.
Proof.
  induction coils as [|c coils IH]; intros H; cbn [curves_of]; [eauto|].
  destruct IH as (fs & ->); [intros; apply H; right; auto|].
  assert (length c = 2%nat) as Lc by (apply H; left; auto). unfold curve_of.
  assert (forall f : vec3 -> R, exists d, ifft_simsopt (map f c) 1 = Ok d) as K.
  { intros f. destruct (ifft_ok (map f c) 1) as (d & E & _); [destruct c; discriminate|rewrite map_length; lia|eauto]. }
  destruct (K vx) as (? & ->). destruct (K vy) as (? & ->). destruct (K vz) as (? & ->). cbn [bind]. eauto.
Qed.
Lemma straight_set G I Bn st x n shift : n <> 0%nat -> length x = q_ndofs (device 1 G I Bn st) ->
  exists l, simsopt_coil_from_qp (straight 1) (device 1 G I Bn st) x n shift (Some 1%nat) = Ok l.
Proof.
  intros Hn L. destruct (straight_coils 1 G I Bn st x n shift false Hn ltac:(discriminate) L) as (coils & current & file & E & _ & F & _).
  unfold simsopt_coil_from_qp. rewrite E. cbn [bind]. unfold simsopt_curves_from_xyz.
  destruct (curves_ok coils F) as (l & ->). cbn [bind]. eauto.
Qed.

(** Two contours per level: every coil gets half the current of its contour
    spacing. *)
Lemma two_paths : exists find q x n coils current file,
  made q /\ length x = q_ndofs q /\ coil_xyz_from_qp find q x n 0 false = Ok (coils, current, file) /\
  current <> q_G q / INR (q_nfp q) * (1 / (2 * INR n)).
Proof.
  set (q := device 1 2 1 [[0; 1]; [2; 3]] true).
  destruct (straight_coils 2 2 1 [[0; 1]; [2; 3]] true [0; 0; 0; 0] 1 0 false) as (coils & current & file & E & L & _); try discriminate; auto.
  exists (straight 2), q, [0; 0; 0; 0], 1%nat, coils, current, file. split; [apply device_made|]. split; [reflexivity|]. split; [exact E|].
  intros H. destruct (level_current _ q _ _ _ _ _ _ _ (Nat.neq_succ_0 1 : q_nfp q <> 0%nat) ltac:(cbn; lra) E) as [_ K]. apply K in H. rewrite L in H. cbn in H. discriminate.
Qed.
Lemma half_file : exists find q x n coils current f,
  made q /\ length x = q_ndofs q /\ coil_xyz_from_qp find q x n 0 true = Ok (coils, current, Some f) /\
  file_current f <> q_G q.
Proof.
  set (q := device 1 2 1 [[0; 1]; [2; 3]] true).
  destruct (straight_coils 1 2 1 [[0; 1]; [2; 3]] true [0; 0; 0; 0] 1 0 true) as (coils & current & file & E & L & _ & F); try discriminate; auto.
  destruct (F eq_refl) as (f & ->).
  exists (straight 1), q, [0; 0; 0; 0], 1%nat, coils, current, f. split; [apply device_made|]. split; [reflexivity|]. split; [exact E|].
  rewrite (file_current_value _ q _ _ _ _ _ _ (Nat.neq_succ_0 1 : q_nfp q <> 0%nat) E). cbn. lra.
Qed.

(** Two samples, order one: the cosine coefficient doubles. *)
Lemma doubled : exists a N order b, length a = (2 * order + 1)%nat /\ (2 * order <= N)%nat /\
  ifft_simsopt (samples N (trig_poly a)) order = Ok b /\ b <> a.
Proof.
  exists [0; 0; 1], 2%nat, 1%nat. destruct (ifft_ok (samples 2 (trig_poly [0; 0; 1])) 1) as (b & E & _); [discriminate|simpl; lia|].
  exists b. split; [reflexivity|]. split; [simpl; lia|]. split; auto. intros ->.
  assert (trig_poly [0; 0; 1] (INR 0 / INR 2) = 1) as T.
  { unfold trig_poly, Rsum. cbn [length Nat.div Nat.divmod fst seq map fold_right nth Nat.mul Nat.add Nat.sub]. simpl.
    replace (2 * PI * 1 * (0 / (1 + 1))) with 0 by field. rewrite sin_0, cos_0. ring. }
  pose proof (value_even _ _ _ E eq_refl 0 ltac:(simpl; lia)) as V.
  change (length (samples 2 (trig_poly [0; 0; 1]))) with 2%nat in V.
  assert (trig_poly [0; 0; 1] (INR 1 / INR 2) = -1) as T1.
  { unfold trig_poly, Rsum. cbn [length Nat.div Nat.divmod fst seq map fold_right nth Nat.mul Nat.add Nat.sub]. simpl.
    replace (2 * PI * 1 * (1 / (1 + 1))) with PI by field. rewrite sin_PI, cos_PI. ring. }
  assert (samples 2 (trig_poly [0; 0; 1]) = [1; -1]) as ES by (unfold samples; cbn [seq map]; now rewrite T, T1).
  rewrite ES in V. rewrite T in V. unfold alternating, Rsum in V. simpl in V. lra.
Qed.
(** A path with an even number of points and the default order. *)
Lemma not_through : exists coils curves,
  simsopt_curves_from_xyz coils None = Ok curves /\
  ~ Forall2 (fun c v => forall j, (j < length c)%nat -> curve_point v (INR j / INR (length c)) = nth j c zero3) coils curves.
Proof.
  set (c := [V3 1 0 0; V3 (-1) 0 0]). destruct (curves_ok [c]) as (l & E).
  { intros p [<-|[]]. reflexivity. }
  exists [c], l. split; [exact E|]. intros F. inversion F as [|? v ? ? H _]; subst.
  pose proof (curves_forall _ _ _ E) as G. inversion G as [|? ? ? ? K _]; subst.
  destruct (curve_of_parts _ _ _ K) as (_ & Ex & _ & _).
  pose proof (proj1 (through_even (map vx c) 1 (cv_x v) Ex eq_refl)) as T.
  assert (alternating (map vx c) = 0) as A.
  { apply T. intros j Hj. specialize (H j Hj). apply (f_equal vx) in H. unfold curve_point in H. cbn [vx] in H. rewrite nth_map0; [|reflexivity]. exact H. }
  unfold alternating, Rsum in A. simpl in A. lra.
Qed.

Lemma header_wrong : exists s f, legal s /\ save_focus true (FocusJax s) = Ok f /\ ff_modes f <> length (ff_body f).
Proof.
  set (s := ring 3 1 0 (1/4) 0 (1/2)).
  destruct (legal_to_simsopt s (ring_legal _ _ _ _ _ _)) as (ss & E). exists s, (focus_of_simsopt ss). split; [apply ring_legal|].
  assert (save_focus true (FocusJax s) = Ok (focus_of_simsopt ss)) as K by (cbn [save_focus]; now rewrite E).
  split; auto. intros H. apply (focus_header _ _ _ K) in H as [_ H]. discriminate.
Qed.
Lemma desc_rejected s : save_focus true (FocusDesc (Ok s)) = Raise AttributeError.
Proof. reflexivity. Qed.
Lemma toroidal_lost : exists q x p, made q /\ length x = q_ndofs q /\ quadcoil_to_simsopt_cp q x = Ok p /\ sp_I p <> q_I q.
Proof.
  set (q := device 1 2 1 [[0; 1]; [2; 3]] true).
  destruct (legal_to_simsopt (q_winding q) (proj1 (device_legal 1 2 1 [[0; 1]; [2; 3]] true))) as (ss & E).
  exists q, [0; 0; 0; 0]. eexists. split; [apply device_made|]. split; [reflexivity|].
  unfold quadcoil_to_simsopt_cp. rewrite E. cbn [bind]. split; [reflexivity|]. cbn. lra.
Qed.
Lemma potential_passed q x : legal (q_winding q) ->
  exists p w, quadcoil_to_simsopt_cp q x = Ok p /\ to_simsopt (q_winding q) = Ok w /\ sp_winding p = w /\ sp_G p = q_G q /\
   sp_dofs p = x /\ sp_nfp p = q_nfp q /\ sp_stellsym p = q_stellsym q /\ sp_mpol p = q_mpol q /\ sp_ntor p = q_ntor q /\
   (sp_I p = q_I q <-> q_I q = 0).
Proof.
  intros L. destruct (legal_to_simsopt (q_winding q) L) as (w & E). unfold quadcoil_to_simsopt_cp. rewrite E. cbn [bind].
  do 2 eexists. split; [reflexivity|]. split; [reflexivity|]. cbn. repeat split; auto.
Qed.
