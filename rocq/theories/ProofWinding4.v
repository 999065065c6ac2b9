(** The generators: shapes, success, exact reproduction. *)
From Coq Require Import String List Bool Arith ZArith Reals Lra Lia.
From Verif Require Import Base ModelArray ModelMath SpecMath ProofMath ModelSurface SpecSurface ProofSurface ProofSurface2
  ModelQuadcoil ProofLinear ModelWinding SpecWinding ProofWinding ProofWinding2 ProofWinding3.
Import ListNotations.
Open Scope R_scope.

Lemma rect_shape {A B} n m (g : grid A) (h : grid B) : rect n m g -> rect n m h -> shape_as g h.
Proof.
  intros [L1 H1] [L2 H2]. unfold shape_as. rewrite List.Forall_forall in H1, H2.
  assert (G : forall X (k : grid X), length k = n -> (forall r, In r k -> length r = m) -> map (@length X) k = repeat m n).
  { clear. intros X k <-. induction k; intros H; cbn; auto. f_equal; [apply H; left; auto|apply IHk; intros; apply H; right; auto]. }
  rewrite !G; auto.
Qed.
Lemma rect_gmap {A B} (f : A -> B) n m g : rect n m g -> rect n m (gmap f g).
Proof.
  intros [L H]. split; [unfold gmap; now rewrite map_length|]. rewrite List.Forall_forall in *. intros r Hr. unfold gmap in Hr.
  apply in_map_iff in Hr as (r' & <- & Hr). rewrite map_length. auto.
Qed.
Lemma rect_map_rows {A B} (f : list A -> list B) n m m' g : (forall r, length r = m -> length (f r) = m') -> rect n m g -> rect n m' (map f g).
Proof.
  intros F [L H]. split; [now rewrite map_length|]. rewrite List.Forall_forall in *. intros r Hr.
  apply in_map_iff in Hr as (r' & <- & Hr). auto.
Qed.
Lemma rect_map2 {A B C} (f : list A -> list B -> list C) n m g h :
  (forall a b, length a = m -> length b = m -> length (f a b) = m) -> rect n m g -> rect n m h -> rect n m (map2 f g h).
Proof.
  intros F [L H] [L' H']. split; [rewrite map2_len; lia|]. rewrite List.Forall_forall in *. clear L L'.
  revert h H'. induction g as [|a g IH]; intros [|b h] H'; intros r Hr; try contradiction. destruct Hr as [<-|Hr].
  - apply F; [apply H|apply H']; left; auto.
  - apply (IH (fun r h => H r (or_intror h)) h (fun r h => H' r (or_intror h)) r Hr).
Qed.
Lemma rect_gmap2 {A B C} (f : A -> B -> C) n m g h : rect n m g -> rect n m h -> rect n m (gmap2 f g h).
Proof. apply rect_map2. intros. rewrite map2_len. lia. Qed.
Lemma rect_firstn {A} k n m (g : grid A) : rect n m g -> rect (Nat.min k n) m (firstn k g).
Proof.
  intros [L H]. split; [rewrite firstn_length; lia|]. rewrite List.Forall_forall in *. intros r Hr. apply H.
  rewrite <- (firstn_skipn k g). apply in_or_app. auto.
Qed.
Lemma rect_sample {A} (F : R -> R -> A) ps ts : rect (length ps) (length ts) (sample F ps ts).
Proof.
  split; [unfold sample; now rewrite map_length|]. rewrite List.Forall_forall. intros r Hr. unfold sample in Hr.
  apply in_map_iff in Hr as (p & <- & _). now rewrite map_length.
Qed.
Lemma rect_normals n m nfp gamma : (1 <= n)%nat -> rect n m gamma -> rect n m (approx_unitnormal nfp gamma).
Proof.
  intros Hn Hg. unfold approx_unitnormal. apply rect_gmap, rect_gmap2.
  - apply (rect_map_rows _ n m); auto. intros r Lr. rewrite map2_len, length_roll_right. lia.
  - apply rect_gmap2; auto. destruct Hg as [L H]. destruct gamma as [|row gamma]; [cbn in L; lia|]. cbn [tl hd].
    inversion H as [|? ? H1 H2]; subst. split; [rewrite app_length; cbn; lia|]. apply Forall_app. split; auto.
    constructor; [now rewrite map_length|constructor].
Qed.
Lemma length_linspace_open n : length (linspace_open n) = n.
Proof. unfold linspace_open. now rewrite map_length, seq_length. Qed.
Lemma length_linspace s n : length (linspace s n) = n.
Proof. unfold linspace. now rewrite map_length, seq_length. Qed.
Lemma rect_concat {A B} n m (g : grid A) (h : grid B) : rect n m g -> rect n m h -> length (concat g) = length (concat h).
Proof. intros. apply shape_concat. eapply rect_shape; eauto. Qed.
Lemma rect_width {A} n m (g : grid A) row g' : rect n m g -> g = row :: g' -> length row = m.
Proof. intros [_ H] ->. now inversion H. Qed.

(** What the offset generator fits. *)
Definition offset_normals nfp gamma (u : option (grid vec3)) := match u with None => approx_unitnormal nfp gamma | Some u => u end.
Definition offset_rows (n : nat) (st : bool) := if st then (n / 2)%nat else n.
Lemma offset_points_rect n m gamma normals d st : rect n m gamma -> rect n m normals ->
  rect (offset_rows n st) m (offset_points gamma normals d st).
Proof.
  intros H1 H2. unfold offset_points, offset_rows. destruct st; [|now apply rect_gmap2].
  rewrite (proj1 H1). replace (n / 2)%nat with (Nat.min (n / 2) n) at 1 by (pose proof (Nat.div_le_upper_bound n 2 n); lia).
  apply rect_gmap2; apply rect_firstn; auto.
Qed.
Lemma offset_form solve n m gamma d nfp st u mpol ntor : (1 <= n)%nat -> rect n m gamma ->
  (forall v, u = Some v -> rect n m v) ->
  let pts := offset_points gamma (offset_normals nfp gamma u) d st in
  rect (offset_rows n st) m pts /\
  gen_winding_surface_offset solve gamma d nfp st u mpol ntor
  = fit_surfacerzfourier solve (gmap (fun p => atan2 (vy p) (vx p) / PI / 2) pts)
      (map (fun _ => map (fun t => t + 1) (linspace_open m)) pts) (gmap radius pts) (gmap vz pts) nfp st mpol ntor 0 None.
Proof.
  intros Hn Hg Hu pts. assert (HN : rect n m (offset_normals nfp gamma u)) by (destruct u; cbn; auto using rect_normals).
  split; [now apply offset_points_rect|].
  unfold gen_winding_surface_offset. destruct gamma as [|row gam] eqn:E; [destruct Hg as [L _]; cbn in L; lia|]. rewrite <- E in *.
  fold (offset_normals nfp gamma u). rewrite (proj2 (shape_same (offset_normals nfp gamma u) gamma)) by (now apply (rect_shape n m)).
  cbn [negb]. rewrite (rect_width n m gamma row _ Hg E). unfold pts. rewrite <- E. set (q := offset_points gamma _ d st).
  replace (map (fun _ : list R => map (fun t => t + 1) (linspace_open m)) (gmap (fun p => atan2 (vy p) (vx p) / PI / 2) q))
    with (map (fun _ : list vec3 => map (fun t => t + 1) (linspace_open m)) q) by (unfold gmap; now rewrite map_map).
  reflexivity.
Qed.
Theorem offset_ok solve n m gamma d nfp st u mpol ntor : honest_solver solve -> (1 <= n)%nat -> rect n m gamma ->
  (forall v, u = Some v -> rect n m v) ->
  exists x, gen_winding_surface_offset solve gamma d nfp st u mpol ntor = Ok x /\ length x = legal_length st mpol ntor.
Proof.
  intros Hs Hn Hg Hu. destruct (offset_form solve n m gamma d nfp st u mpol ntor Hn Hg Hu) as [Hp ->].
  set (pts := offset_points _ _ _ _) in *.
  destruct (fit_correct solve (gmap (fun p => atan2 (vy p) (vx p) / PI / 2) pts)
      (map (fun _ => map (fun t => t + 1) (linspace_open m)) pts) (gmap radius pts) (gmap vz pts) nfp st mpol ntor 0 None Hs (Rle_refl 0)) as (x & E & L & _).
  - apply (rect_shape (offset_rows n st) m); [|now apply rect_gmap].
    apply (rect_map_rows _ _ m); auto. intros. now rewrite map_length, length_linspace_open.
  - apply (rect_shape (offset_rows n st) m); now apply rect_gmap.
  - apply (rect_concat (offset_rows n st) m); now apply rect_gmap.
  - exists x. auto.
Qed.

(** ** The interpolated offset surface *)
Definition interp_rows (n tor : nat) (st : bool) := if st then ((n * tor) / 2)%nat else (n * tor)%nat.
Definition plain (nfp : nat) (st : bool) (mpol ntor : nat) (dofs : list R) : surface :=
  {| s_nfp := nfp; s_stellsym := st; s_mpol := mpol; s_ntor := ntor; s_dofs := dofs; s_qphi := []; s_qtheta := [];
     s_theta_mesh := []; s_phi_mesh := []; s_dphi := 0; s_dtheta := 0 |}.
Lemma sample_firstn {A} (F : R -> R -> A) k ps ts : firstn k (sample F ps ts) = sample F (firstn k ps) ts.
Proof. unfold sample. apply firstn_map. Qed.
Lemma interpolated_ok solve n m gamma d nfp st u mpol ntor pol tor x : (1 <= n)%nat -> (1 <= m)%nat -> (1 <= pol)%nat -> (1 <= tor)%nat ->
  rect n m gamma -> gen_winding_surface_offset solve gamma d nfp st u mpol ntor = Ok x -> length x = legal_length st mpol ntor ->
  let phi := firstn (interp_rows n tor st) (linspace (1 / INR nfp) (n * tor)) in
  length phi = interp_rows n tor st /\
  interpolated solve gamma d nfp st u mpol ntor pol tor = Ok (phi, sample (pt (plain nfp st mpol ntor x) 0 0) phi (linspace_open (m * pol))).
Proof.
  intros Hn Hm Hp Ht Hg Ex Lx phi.
  assert (Li : (interp_rows n tor st <= n * tor)%nat) by (unfold interp_rows; destruct st; [apply Nat.div_le_upper_bound; lia|lia]).
  split; [unfold phi; rewrite firstn_length, length_linspace; lia|].
  unfold interpolated. rewrite Ex. cbn [bind]. rewrite (proj1 Hg).
  assert (Em : length (hd [] gamma) = m).
  { destruct gamma as [|row gamma]; [destruct Hg as [L _]; cbn in L; lia|]. eapply rect_width; eauto. }
  rewrite Em. set (ps := linspace (1 / INR nfp) (n * tor)). set (ts := linspace_open (m * pol)).
  assert (Lps : length ps = (n * tor)%nat) by apply length_linspace.
  assert (Lts : length ts = (m * pol)%nat) by apply length_linspace_open.
  destruct (copy_ok (plain nfp st mpol ntor x) ps ts) as [s' E].
  { intros C. rewrite C in Lps. cbn in Lps. nia. } { intros C. rewrite C in Lts. cbn in Lts. nia. }
  pose proof E as E'. unfold resampled, copy_and_set_quadpoints in E'. cbn [plain s_nfp s_stellsym s_mpol s_ntor s_dofs] in E'. rewrite E'. cbn [bind].
  unfold ModelSurface.gamma. rewrite (gammadash_copy _ _ _ _ 0 0) with (2 := E) by exact Lx. cbn [bind]. rewrite Lps.
  unfold phi, interp_rows. destruct st.
  - rewrite sample_firstn. reflexivity.
  - rewrite firstn_all2 by (rewrite length_linspace; lia). reflexivity.
Qed.
Lemma rect_arc n m r z : rect n m r -> rect n m z -> rect n m (map2 arc_angles r z).
Proof.
  intros. apply rect_map2; auto. intros a b La Lb. unfold arc_angles. rewrite map_length, length_cumsum. unfold segment_lengths.
  rewrite !map2_len, !length_roll_left. lia.
Qed.
Lemma rect_selfint n m r z : rect n m r -> rect n m z -> rect n m (map2 polygon_self_intersection r z).
Proof.
  intros. apply rect_map2; auto. intros a b La Lb. unfold polygon_self_intersection.
  rewrite map_length, length_roll_right, map_length, length_scan, combine_length, length_roll_left, combine_length. lia.
Qed.
Lemma rect_phi {A} n m (phi : list R) (g : grid A) : length phi = n -> rect n m g -> rect n m (map2 (fun p row => map (fun _ => p) row) phi g).
Proof.
  intros L [L' H]. split; [rewrite map2_len; lia|]. rewrite List.Forall_forall in *. clear L L'. revert phi. induction g; intros [|p phi] r Hr; try contradiction.
  destruct Hr as [<-|Hr]; [rewrite map_length; apply H; left; auto|]. apply (IHg (fun r h => H r (or_intror h)) phi r Hr).
Qed.
Theorem arc_ok solve n m gamma d nfp st u mpol ntor pol tor : honest_solver solve ->
  (1 <= n)%nat -> (1 <= m)%nat -> (1 <= pol)%nat -> (1 <= tor)%nat -> rect n m gamma -> (forall v, u = Some v -> rect n m v) ->
  exists x, gen_winding_surface_arc solve gamma d nfp st u mpol ntor pol tor None "self-intersection" = Ok x /\ length x = legal_length st mpol ntor.
Proof.
  intros Hs Hn Hm Hp Ht Hg Hu. destruct (offset_ok solve n m gamma d nfp st u mpol ntor Hs Hn Hg Hu) as (x0 & E0 & L0).
  destruct (interpolated_ok solve n m gamma d nfp st u mpol ntor pol tor x0 Hn Hm Hp Ht Hg E0 L0) as [Lphi Ei].
  unfold gen_winding_surface_arc. rewrite Ei. cbn [bind]. set (phi := firstn _ _) in *. set (pts := sample _ _ _).
  assert (HP : rect (interp_rows n tor st) (length (linspace_open (m * pol))) pts) by (rewrite <- Lphi; apply rect_sample).
  cbv zeta. unfold rule_weights. rewrite String.eqb_refl. cbn [bind static_lam].
  assert (Hr := rect_gmap radius _ _ _ HP). assert (Hz := rect_gmap vz _ _ _ HP).
  assert (Ha := rect_arc _ _ _ _ Hr Hz). assert (Hw := rect_selfint _ _ _ _ Hr Hz).
  assert (Hph := rect_phi _ _ phi _ Lphi Ha).
  match goal with |- exists x, fit_surfacerzfourier _ ?a ?b ?c ?e _ _ _ _ ?l ?w = _ /\ _ =>
    destruct (fit_correct solve a b c e nfp st mpol ntor l w Hs) as (x & E & L & _) end; [lra|eapply rect_shape; eauto|eapply rect_shape; eauto|split; eapply rect_shape; eauto|].
  exists x. auto.
Qed.

(** ** The atan generator *)
Lemma rect_centre n m (gamma : grid vec3) (st : bool) tor : rect n m gamma ->
  rect (if st then Nat.min ((n * tor) / 2) n else n) m (centre_rows gamma st tor).
Proof. intros H. unfold centre_rows. destruct st; auto. rewrite (proj1 H). now apply rect_firstn. Qed.
Lemma sub_column_ok n m g c : rect n m g -> length c = n \/ length c = 1%nat -> exists h, sub_column g c = Ok h /\ rect n m h.
Proof.
  intros [L H] Hc. unfold sub_column. destruct (Nat.eqb (length c) (length g)) eqn:E.
  - eexists; split; [reflexivity|]. apply Nat.eqb_eq in E. split; [rewrite map2_len; lia|]. rewrite List.Forall_forall in *.
    clear L Hc E. revert c. induction g; intros [|x c] r Hr; try contradiction. destruct Hr as [<-|Hr]; [rewrite map_length; apply H; left; auto|].
    apply (IHg (fun r h => H r (or_intror h)) c r Hr).
  - apply Nat.eqb_neq in E. destruct Hc as [Hc|Hc]; [lia|]. destruct c as [|x [|y c]]; try discriminate.
    eexists; split; [reflexivity|]. apply rect_gmap. split; auto.
Qed.
Lemma sub_column_bad n m g c : rect n m g -> length c <> n -> length c <> 1%nat -> n <> 1%nat -> sub_column g c = Raise TypeError.
Proof.
  intros [L H] H1 H2 H3. unfold sub_column. destruct (Nat.eqb_spec (length c) (length g)) as [E|_]; [lia|].
  destruct c as [|x [|y c]]; [|cbn in H2; lia|]; destruct g as [|r [|r' g]]; try (cbn in *; lia); reflexivity.
Qed.
Theorem atan_ok solve n m gamma d nfp (st : bool) u mpol ntor pol tor : honest_solver solve ->
  (1 <= n)%nat -> (1 <= m)%nat -> (1 <= pol)%nat -> (1 <= tor)%nat -> rect n m gamma -> (forall v, u = Some v -> rect n m v) ->
  (if st then (tor <= 2 \/ n = 1)%nat else (n = 1 \/ tor = 1)%nat) ->
  exists x, gen_winding_surface_atan solve gamma d nfp st u mpol ntor pol tor None = Ok x /\ length x = legal_length st mpol ntor.
Proof.
  intros Hs Hn Hm Hp Ht Hg Hu Hc. destruct (offset_ok solve n m gamma d nfp st u mpol ntor Hs Hn Hg Hu) as (x0 & E0 & L0).
  destruct (interpolated_ok solve n m gamma d nfp st u mpol ntor pol tor x0 Hn Hm Hp Ht Hg E0 L0) as [Lphi Ei].
  unfold gen_winding_surface_atan. rewrite Ei. cbn [bind]. set (phi := firstn _ _) in *. set (pts := sample _ _ _).
  assert (HP : rect (interp_rows n tor st) (length (linspace_open (m * pol))) pts) by (rewrite <- Lphi; apply rect_sample).
  cbv zeta. assert (Hr := rect_gmap radius _ _ _ HP). assert (Hz := rect_gmap vz _ _ _ HP). assert (Hw := rect_selfint _ _ _ _ Hr Hz).
  assert (Lc : forall f, let l := length (row_average (gmap f (centre_rows gamma st tor))) in l = interp_rows n tor st \/ l = 1%nat).
  { intros f l. unfold l, row_average. rewrite map_length. assert (HC := rect_gmap f _ _ _ (rect_centre n m gamma st tor Hg)). rewrite (proj1 HC).
    unfold interp_rows. destruct st.
    - destruct Hc as [Hc| ->].
      + left. apply Nat.min_l. apply Nat.div_le_upper_bound; nia.
      + destruct ((1 * tor) / 2)%nat eqn:Q; [left; reflexivity|right; lia].
    - destruct Hc as [-> | ->]; [right; reflexivity|left; lia]. }
  destruct (sub_column_ok _ _ (gmap vz pts) _ Hz (Lc vz)) as (hz & -> & Rz). destruct (sub_column_ok _ _ (gmap radius pts) _ Hr (Lc radius)) as (hr & -> & Rr).
  cbn [bind]. set (theta := gmap _ (gmap2 _ hz hr)).
  assert (HT : rect (interp_rows n tor st) (length (linspace_open (m * pol))) theta) by (apply rect_gmap, rect_gmap2; auto).
  rewrite Lphi, (proj1 HT), Nat.eqb_refl. cbn [orb bind static_lam].
  assert (Hph := rect_phi _ _ phi _ Lphi HT).
  match goal with |- exists x, fit_surfacerzfourier _ ?a ?b ?c ?e _ _ _ _ ?l ?w = _ /\ _ =>
    destruct (fit_correct solve a b c e nfp st mpol ntor l w Hs) as (x & E & L & _) end; [lra|eapply rect_shape; eauto|eapply rect_shape; eauto|split; eapply rect_shape; eauto|].
  exists x. auto.
Qed.
Theorem atan_raises solve n m gamma d nfp (st : bool) u mpol ntor pol tor : honest_solver solve ->
  (2 <= n)%nat -> (1 <= m)%nat -> (1 <= pol)%nat -> ((if st then 3 else 2) <= tor)%nat -> rect n m gamma -> (forall v, u = Some v -> rect n m v) ->
  gen_winding_surface_atan solve gamma d nfp st u mpol ntor pol tor None = Raise TypeError.
Proof.
  intros Hs Hn Hm Hp Ht Hg Hu. destruct (offset_ok solve n m gamma d nfp st u mpol ntor Hs ltac:(lia) Hg Hu) as (x0 & E0 & L0).
  destruct (interpolated_ok solve n m gamma d nfp st u mpol ntor pol tor x0 ltac:(lia) Hm Hp ltac:(destruct st; lia) Hg E0 L0) as [Lphi Ei].
  unfold gen_winding_surface_atan. rewrite Ei. cbn [bind]. set (phi := firstn _ _) in *. set (pts := sample _ _ _).
  assert (HP : rect (interp_rows n tor st) (length (linspace_open (m * pol))) pts) by (rewrite <- Lphi; apply rect_sample).
  cbv zeta. assert (Hz := rect_gmap vz _ _ _ HP).
  assert (HC := rect_gmap vz _ _ _ (rect_centre n m gamma st tor Hg)).
  assert (Q : (interp_rows n tor st > n)%nat).
  { unfold interp_rows. destruct st; [|nia]. apply Nat.lt_le_trans with ((n * 3) / 2)%nat.
    - apply Nat.div_le_lower_bound; lia.
    - apply Nat.div_le_mono; nia. }
  assert (Lc : length (row_average (gmap vz (centre_rows gamma st tor))) = n).
  { unfold row_average. rewrite map_length, (proj1 HC). unfold interp_rows in Q. destruct st; lia. }
  rewrite (sub_column_bad _ _ _ _ Hz); auto; lia.
Qed.

Theorem generator_lam solve gamma d nfp st u mpol ntor pol tor lam rule :
  (forall x, gen_winding_surface_atan solve gamma d nfp st u mpol ntor pol tor (Some lam) <> Ok x) /\
  (forall x, gen_winding_surface_arc solve gamma d nfp st u mpol ntor pol tor (Some lam) rule <> Ok x).
Proof.
  split; intros x.
  - unfold gen_winding_surface_atan. destruct (interpolated _ _ _ _ _ _ _ _ _ _) as [[phi pts]|]; cbn [bind]; [|discriminate].
    destruct (sub_column _ _); cbn [bind]; [|discriminate]. destruct (sub_column _ _); cbn [bind]; [|discriminate].
    cbv zeta. destruct (orb _ _); cbn [static_lam bind]; discriminate.
  - unfold gen_winding_surface_arc. destruct (interpolated _ _ _ _ _ _ _ _ _ _) as [[phi pts]|]; cbn [bind]; [|discriminate].
    destruct (rule_weights _ _ _); cbn [bind static_lam]; discriminate.
Qed.
Theorem generator_rule solve gamma d nfp st u mpol ntor pol tor lam rule : rule <> "self-intersection"%string ->
  forall x, gen_winding_surface_arc solve gamma d nfp st u mpol ntor pol tor lam rule <> Ok x.
Proof.
  intros Hr x. unfold gen_winding_surface_arc. destruct (interpolated _ _ _ _ _ _ _ _ _ _) as [[phi pts]|]; cbn [bind]; [|discriminate].
  unfold rule_weights. destruct (String.eqb_spec rule "self-intersection"); [contradiction|]. destruct (String.eqb _ _); cbn [bind]; discriminate.
Qed.

(** ** Exact reproduction by the offset generator *)
Lemma atan2_polar y x : 0 < x * x + y * y ->
  let r := sqrt (x * x + y * y) in r * cos (atan2 y x) = x /\ r * sin (atan2 y x) = y.
Proof.
  intros Hp r. assert (Hr : 0 < r) by (now apply sqrt_lt_R0). assert (Er : r * r = x * x + y * y) by (apply sqrt_sqrt; lra).
  assert (K : forall t, x <> 0 -> t = y / x -> (1 + t * t) * (x * x) = r * r) by (intros t Hx ->; rewrite Er; field; auto).
  unfold atan2. destruct (Rlt_dec 0 x) as [H|H].
  - rewrite cos_atan, sin_atan. set (t := y / x). assert (Hy : y = t * x) by (unfold t; field; lra).
    assert (E : sqrt (1 + t * t) = r / x).
    { apply sqrt_lem_1; [nra|apply Rmult_le_pos; [lra|left; now apply Rinv_0_lt_compat]|].
      apply (Rmult_eq_reg_r (x * x)); [|nra]. rewrite (K t) by (auto; lra). field. lra. }
    unfold Rsqr. rewrite E. split; [field; lra|]. rewrite Hy. field. lra.
  - destruct (Rlt_dec x 0) as [H1|H1].
    + set (t := y / x). assert (Hy : y = t * x) by (unfold t; field; lra).
      assert (E : sqrt (1 + t * t) = r / (- x)).
      { apply sqrt_lem_1; [nra|apply Rmult_le_pos; [lra|left; apply Rinv_0_lt_compat; lra]|].
        apply (Rmult_eq_reg_r (x * x)); [|nra]. rewrite (K t) by (auto; lra). field. lra. }
      assert (C : r * cos (atan t) = - x) by (rewrite cos_atan; unfold Rsqr; rewrite E; field; lra).
      assert (S : r * sin (atan t) = - y) by (rewrite sin_atan; unfold Rsqr; rewrite E, Hy; field; lra).
      destruct (Rle_dec 0 y).
      * rewrite neg_cos, neg_sin. split; lra.
      * replace (atan t - PI) with (- (PI - atan t)) by ring. rewrite cos_neg, sin_neg, Rtrigo_facts.cos_pi_minus, Rtrigo_facts.sin_pi_minus. split; lra.
    + assert (x = 0) by lra. subst x.
      assert (Ea : r = Rabs y) by (unfold r; replace (0 * 0 + y * y) with (Rsqr y) by (unfold Rsqr; ring); apply sqrt_Rsqr_abs).
      destruct (Rlt_dec 0 y); [|destruct (Rlt_dec y 0)].
      * rewrite cos_PI2, sin_PI2, Ea, Rabs_right by lra. lra.
      * replace (- PI / 2) with (- (PI / 2)) by field. rewrite cos_neg, sin_neg, cos_PI2, sin_PI2, Ea, Rabs_left by lra. lra.
      * assert (y = 0) by lra. subst y. exfalso. lra.
Qed.
Lemma angle_unique a b : cos a = cos b -> sin a = sin b -> exists k : Z, a = b + 2 * PI * IZR k.
Proof.
  intros Hc Hs. assert (E : sin ((a - b) / 2) = 0).
  { assert (C1 : cos (a - b) = 1) by (rewrite cos_minus, Hc, Hs; pose proof (sin2_cos2 b) as Q; unfold Rsqr in Q; lra).
    replace (a - b) with (2 * ((a - b) / 2)) in C1 by field. rewrite cos_2a_sin in C1.
    assert (Z : sin ((a - b) / 2) * sin ((a - b) / 2) = 0) by lra. apply Rmult_integral in Z. tauto. }
  apply sin_eq_0_0 in E as (k & E). exists k. lra.
Qed.
Lemma atan2_angle r phi : 0 < r ->
  exists k : Z, atan2 (r * sin (2 * PI * phi)) (r * cos (2 * PI * phi)) / PI / 2 = phi + IZR k.
Proof.
  intros Hr. set (a := 2 * PI * phi). assert (Q : r * cos a * (r * cos a) + r * sin a * (r * sin a) = r * r).
  { pose proof (sin2_cos2 a) as Q. unfold Rsqr in Q. replace (_ + _) with (r * r * (sin a * sin a + cos a * cos a)) by ring. rewrite Q. ring. }
  destruct (atan2_polar (r * sin a) (r * cos a)) as [E1 E2]; [rewrite Q; nra|]. rewrite Q, sqrt_square in E1, E2 by lra.
  destruct (angle_unique (atan2 (r * sin a) (r * cos a)) a) as (k & E).
  - apply (Rmult_eq_reg_l r); lra. - apply (Rmult_eq_reg_l r); lra.
  - exists k. rewrite E. unfold a. pose proof PI_RGT_0. field. lra.
Qed.
Lemma radius_polar r phi z : 0 <= r -> radius (V3 (r * cos (2 * PI * phi)) (r * sin (2 * PI * phi)) z) = r.
Proof.
  intros Hr. unfold radius. cbn [vx vy]. set (a := 2 * PI * phi). pose proof (sin2_cos2 a) as Q. unfold Rsqr in Q.
  replace (_ + _) with (r * r * (sin a * sin a + cos a * cos a)) by ring. rewrite Q, Rmult_1_r. now apply sqrt_square.
Qed.

Lemma series_shift f nfp modes coefs phi theta (k l : Z) : (forall x j, f (x + IZR j * (2 * PI)) = f x) ->
  series f nfp modes coefs (phi + IZR k) (theta + IZR l) = series f nfp modes coefs phi theta.
Proof.
  intros Hf. unfold series. f_equal. apply map_ext. intros [c [a b]]. cbn [fst snd]. f_equal.
  rewrite <- (Hf (2 * PI * (IZR a * theta - IZR b * INR nfp * phi)) (a * l - b * Z.of_nat nfp * k)%Z). f_equal.
  rewrite minus_IZR, !mult_IZR, <- INR_IZR_INZ. ring.
Qed.
Lemma coords_shift nfp st cl sl x phi theta (k l : Z) :
  coords nfp st cl sl x (phi + IZR k) (theta + IZR l) = coords nfp st cl sl x phi theta.
Proof. unfold coords. cbv zeta. rewrite !series_shift by (exact cos_Zperiod || exact sin_Zperiod). reflexivity. Qed.

Lemma of_arrays_app p1 p2 t1 t2 r1 r2 z1 z2 w1 w2 :
  length t1 = length p1 -> length r1 = length p1 -> length z1 = length p1 -> length w1 = length p1 ->
  of_arrays (p1 :: p2) (t1 :: t2) (r1 :: r2) (z1 :: z2) (w1 :: w2) = of_arrays [p1] [t1] [r1] [z1] [w1] ++ of_arrays p2 t2 r2 z2 w2.
Proof.
  intros H1 H2 H3 H4. unfold of_arrays. cbn [concat]. rewrite !app_nil_r. rewrite <- map_app. f_equal.
  rewrite !combine_app by (rewrite ?combine_length; lia). reflexivity.
Qed.
Lemma in_of_arrays (f g h : vec3 -> R) ths pts t :
  List.Forall (fun row => length row = length ths) pts ->
  In t (of_arrays (gmap f pts) (map (fun _ => ths) pts) (gmap g pts) (gmap h pts) (gones (gmap f pts))) <->
  exists i j, (i < length pts)%nat /\ (j < length ths)%nat /\
    let p := nth j (nth i pts []) (V3 0 0 0) in t = Target (f p) (nth j ths 0) (g p) (h p) 1.
Proof.
  induction pts as [|row pts IH]; intros H.
  - cbn. split; [intros []|intros (i & j & Hi & _); lia].
  - inversion H as [|? ? L H']; subst. specialize (IH H').
    unfold gmap, gones, gmap in *. cbn [map] in *. rewrite of_arrays_app by (rewrite ?map_length; lia).
    assert (E : forall t, In t (of_arrays [map f row] [ths] [map g row] [map h row] [map (fun _ => 1) (map f row)]) <->
      exists j, (j < length ths)%nat /\ let p := nth j row (V3 0 0 0) in t = Target (f p) (nth j ths 0) (g p) (h p) 1).
    { clear -L. revert ths L. induction row as [|v row IH]; intros [|th ths] L t; try discriminate.
      - cbn. split; [intros []|intros (j & Hj & _); lia].
      - unfold of_arrays in *. cbn [concat map combine app In] in *. cbn in L. specialize (IH ths ltac:(lia) t). rewrite IH. split.
        + intros [<-|(j & Hj & E)]; [exists 0%nat; cbn; split; [lia|reflexivity]|exists (S j); cbn; split; [lia|exact E]].
        + intros ([|j] & Hj & E); [left; cbn in E; auto|right; exists j; cbn in Hj; split; [lia|exact E]]. }
    rewrite in_app_iff, E. etransitivity; [apply or_iff_compat_l; exact IH|]. split.
    + intros [(j & Hj & Ej)|(i & j & Hi & Hj & Ej)]; [exists 0%nat, j; cbn; split; [lia|auto]|exists (S i), j; cbn; split; [lia|auto]].
    + intros ([|i] & j & Hi & Hj & Ej); [left; exists j; auto|right; exists i, j; cbn in Hi; split; [lia|auto]].
Qed.
Lemma nth_map2_gen {A B C} (f : A -> B -> C) l m i da db dc : (i < length l)%nat -> (i < length m)%nat -> nth i (map2 f l m) dc = f (nth i l da) (nth i m db).
Proof. revert m i; induction l; intros [|b m] i H1 H2; cbn in *; try lia. destruct i; auto. apply IHl; lia. Qed.
Lemma nth_firstn' {A} (l : list A) k i d : (i < k)%nat -> nth i (firstn k l) d = nth i l d.
Proof. revert k i; induction l as [|a l IH]; intros k i H; [now rewrite firstn_nil|]. destruct k; [lia|]. destruct i; cbn; auto. apply IH. lia. Qed.
Lemma rect_row {A} n m (g : grid A) i : rect n m g -> (i < n)%nat -> length (nth i g []) = m.
Proof. intros [L H] Hi. rewrite List.Forall_forall in H. apply H, nth_In. lia. Qed.
Lemma node_offset n m gamma normals d st i j : rect n m gamma -> rect n m normals -> (i < offset_rows n st)%nat -> (j < m)%nat ->
  node i j (offset_points gamma normals d st) = add3 (node i j gamma) (scale3 d (node i j normals)).
Proof.
  intros H1 H2 Hi Hj. assert (Hin : (i < n)%nat) by (unfold offset_rows in Hi; destruct st; auto; pose proof (Nat.div_le_upper_bound n 2 n); lia).
  assert (R1 := rect_row n m gamma i H1 Hin). assert (R2 := rect_row n m normals i H2 Hin). destruct H1 as [L1 _]. destruct H2 as [L2 _].
  unfold offset_points, node, gmap2. destruct st.
  - unfold offset_rows in Hi. rewrite L1. rewrite (nth_map2_gen (map2 _) _ _ i [] [] []) by (rewrite firstn_length; lia).
    rewrite !nth_firstn' by auto. now rewrite (nth_map2_gen _ _ _ j (V3 0 0 0) (V3 0 0 0)) by lia.
  - rewrite (nth_map2_gen (map2 _) _ _ i [] [] []) by lia. now rewrite (nth_map2_gen _ _ _ j (V3 0 0 0) (V3 0 0 0)) by lia.
Qed.
Lemma nth_linspace_open n j : (j < n)%nat -> nth j (linspace_open n) 0 = INR j / INR n.
Proof.
  intros H. unfold linspace_open. match goal with |- nth _ (map ?F _) _ = _ => rewrite (nth_indep _ 0 (F 0%nat)) by (now rewrite map_length, seq_length); rewrite (map_nth F) end.
  now rewrite seq_nth.
Qed.
Theorem offset_reproduces solve n m gamma u d nfp st mpol ntor x0 (phi : nat -> nat -> R) :
  honest_solver solve -> (1 <= n)%nat -> rect n m gamma -> rect n m u -> length x0 = legal_length st mpol ntor ->
  let rows := if st then (n / 2)%nat else n in
  (forall i j, (i < rows)%nat -> (j < m)%nat ->
     let rz := coords nfp st (cmodes mpol ntor) (smodes mpol ntor) x0 (phi i j) (INR j / INR m) in
     0 < fst rz /\ add3 (node i j gamma) (scale3 d (node i j u)) = cyl_point (phi i j) (fst rz) (snd rz)) ->
  (forall x, length x = legal_length st mpol ntor ->
     (forall i j, (i < rows)%nat -> (j < m)%nat -> coords nfp st (cmodes mpol ntor) (smodes mpol ntor) x (phi i j) (INR j / INR m) = (0, 0)) ->
     forall v, In v x -> v = 0) ->
  gen_winding_surface_offset solve gamma d nfp st (Some u) mpol ntor = Ok x0.
Proof.
  intros Hs Hn Hg Hu L0 rows Hdata Hdet.
  destruct (offset_form solve n m gamma d nfp st (Some u) mpol ntor Hn Hg) as [Hp ->]; [intros v E; injection E as <-; auto|].
  cbn [offset_normals] in *. set (pts := offset_points gamma u d st) in *. set (ths := map (fun t => t + 1) (linspace_open m)).
  assert (Lth : length ths = m) by (unfold ths; rewrite map_length; apply length_linspace_open).
  assert (Nth : forall j, (j < m)%nat -> nth j ths 0 = INR j / INR m + IZR 1).
  { intros j Hj. unfold ths. rewrite (nth_indep _ 0 (0 + 1)) by (rewrite map_length, length_linspace_open; auto).
    rewrite (map_nth (fun t => t + 1)), nth_linspace_open by auto. reflexivity. }
  assert (Hpt : forall i j, (i < rows)%nat -> (j < m)%nat -> node i j pts = add3 (node i j gamma) (scale3 d (node i j u))).
  { intros. apply (node_offset n m); auto. }
  assert (Cd : forall i j, (i < rows)%nat -> (j < m)%nat -> exists k, atan2 (vy (node i j pts)) (vx (node i j pts)) / PI / 2 = phi i j + IZR k).
  { intros i j Hi Hj. rewrite Hpt by auto. destruct (Hdata i j Hi Hj) as [Hr ->]. cbn [cyl_point vx vy]. apply atan2_angle; auto. }
  assert (HF : List.Forall (fun row => length row = length ths) pts) by (rewrite Lth; apply Hp).
  assert (Lp : length pts = rows) by apply Hp.
  apply fit_recovers; auto.
  - apply (rect_shape (offset_rows n st) m); [|now apply rect_gmap]. apply (rect_map_rows _ _ m); auto.
  - apply (rect_shape (offset_rows n st) m); now apply rect_gmap.
  - apply (rect_concat (offset_rows n st) m); now apply rect_gmap.
  - intros t Ht. apply in_of_arrays in Ht as (i & j & Hi & Hj & ->); auto. cbn [tg_phi tg_theta tg_r tg_z].
    rewrite Lth in Hj. rewrite Lp in Hi. fold (node i j pts). destruct (Cd i j Hi Hj) as [k ->]. rewrite Nth, coords_shift by auto.
    rewrite Hpt by auto. destruct (Hdata i j Hi Hj) as [Hr ->]. unfold cyl_point. rewrite (radius_polar _ _ _ (Rlt_le _ _ Hr)). cbn [vz]. apply surjective_pairing.
  - intros x Lx Hx. apply Hdet; auto. intros i j Hi Hj. destruct (Cd i j Hi Hj) as [k Ek].
    rewrite <- (coords_shift _ _ _ _ _ _ _ k 1), <- Ek, <- Nth by auto.
    match goal with |- coords _ _ _ _ _ ?a ?b = _ => apply (Hx (Target a b (radius (node i j pts)) (vz (node i j pts)) 1)) end; [|cbn; lra].
    apply in_of_arrays; auto. exists i, j. rewrite Lp, Lth. auto.
Qed.
