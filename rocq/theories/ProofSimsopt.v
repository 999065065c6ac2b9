(** Proofs about the exchange of surfaces with simsopt and FOCUS. *)
From Coq Require Import String List Bool Arith ZArith Reals Lra Lia FinFun.
From Verif Require Import Base ModelArray ModelMath SpecMath ModelSurface SpecSurface ProofSurface ProofSurface2
  ModelParams SpecField ModelSimsopt ModelCut SpecIo.
Import ListNotations.
Open Scope R_scope.

Lemma ok_inj {A} (a b : A) : Ok a = Ok b -> b = a.
Proof. congruence. Qed.

Lemma simsopt_c mpol ntor : simsopt_modes 0 mpol ntor = cmodes mpol ntor.
Proof.
  unfold simsopt_modes, cmodes, smodes. rewrite mode_list.
  replace (ntor + 1 - 0)%nat with (S ntor) by lia.
  unfold arange at 1. cbn [seq map app]. f_equal. f_equal.
  unfold arange. rewrite <- seq_shift, !map_map. apply map_ext. intros i. f_equal. lia.
Qed.
Lemma simsopt_s mpol ntor : simsopt_modes 1 mpol ntor = smodes mpol ntor.
Proof.
  unfold simsopt_modes, smodes. rewrite mode_list. replace (ntor + 1 - 1)%nat with ntor by lia. reflexivity.
Qed.

(** ** Tables *)
Definition same (a b : Z * Z) : bool := (Z.eqb (fst a) (fst b) && Z.eqb (snd a) (snd b))%bool.
Lemma same_spec a b : same a b = true <-> a = b.
Proof.
  unfold same. destruct a, b; simpl. rewrite andb_true_iff, !Z.eqb_eq. split; [intros []; congruence|].
  intros E; inversion E; auto.
Qed.
Lemma table_cons a c modes coefs mn :
  table (a :: modes) (c :: coefs) (fst mn) (snd mn)
  = if same a mn then c else table modes coefs (fst mn) (snd mn).
Proof. unfold table. simpl. unfold same. destruct (_ && _)%bool; reflexivity. Qed.
Lemma table_out modes coefs mn : ~ In mn modes -> table modes coefs (fst mn) (snd mn) = 0.
Proof.
  revert coefs. induction modes; intros coefs H; [reflexivity|]. destruct coefs; [reflexivity|].
  rewrite table_cons. destruct (same a mn) eqn:E.
  - apply same_spec in E. elim H. now left.
  - apply IHmodes. intros X. apply H. now right.
Qed.
Lemma table_read modes coefs : NoDup modes -> length coefs = length modes ->
  map (fun mn => table modes coefs (fst mn) (snd mn)) modes = coefs.
Proof.
  revert coefs. induction modes as [|a modes IH]; destruct coefs as [|c coefs]; intros ND L; try discriminate; auto.
  inversion ND; subst. cbn [map]. f_equal.
  - rewrite table_cons. destruct (same a a) eqn:E; auto. exfalso.
    assert (same a a = true) by now apply same_spec. congruence.
  - transitivity (map (fun mn => table modes coefs (fst mn) (snd mn)) modes).
    + apply map_ext_in. intros b Hb. rewrite table_cons. destruct (same a b) eqn:E; auto.
      apply same_spec in E. subst. contradiction.
    + apply IH; auto.
Qed.

Lemma Rsum_cons x l : Rsum (x :: l) = x + Rsum l.
Proof. reflexivity. Qed.
Lemma Rsum_map_plus {A} (f g : A -> R) l : Rsum (map (fun x => f x + g x) l) = Rsum (map f l) + Rsum (map g l).
Proof. induction l; cbn [map]; rewrite ?Rsum_cons; [unfold Rsum; simpl; ring|rewrite IHl; ring]. Qed.
Lemma Rsum_map_zero {A} (f : A -> R) l : (forall x, In x l -> f x = 0) -> Rsum (map f l) = 0.
Proof.
  induction l; intros H; [reflexivity|]. cbn [map]. rewrite Rsum_cons, (H a) by (now left).
  rewrite IHl; [ring|]. intros; apply H; now right.
Qed.
Lemma Rsum_indicator (a : Z * Z) (v : R) box : NoDup box -> In a box ->
  Rsum (map (fun mn => if same a mn then v else 0) box) = v.
Proof.
  induction box as [|b box IH]; intros ND I; [contradiction|]. inversion ND; subst. cbn [map]. rewrite Rsum_cons.
  destruct (same a b) eqn:E.
  - apply same_spec in E. subst b. rewrite Rsum_map_zero; [ring|]. intros x Hx.
    destruct (same a x) eqn:E; auto. apply same_spec in E. subst. contradiction.
  - rewrite IH; auto; [ring|]. destruct I as [->|]; auto.
    assert (same a a = true) by now apply same_spec. congruence.
Qed.

Lemma table_sum (f : Z * Z -> R) modes coefs box :
  NoDup modes -> NoDup box -> incl modes box -> length coefs = length modes ->
  Rsum (map (fun mn => table modes coefs (fst mn) (snd mn) * f mn) box)
  = Rsum (map (fun cm => fst cm * f (snd cm)) (combine coefs modes)).
Proof.
  revert coefs. induction modes as [|a modes IH]; intros [|c coefs] ND NB I L; try discriminate.
  - apply Rsum_map_zero. intros. unfold table. simpl. ring.
  - inversion ND; subst. cbn [combine map]. rewrite Rsum_cons. cbn [fst snd].
    rewrite <- IH; auto; [|intros x Hx; apply I; now right].
    rewrite <- (Rsum_indicator a (c * f a) box) by (auto; apply I; now left).
    rewrite <- Rsum_map_plus. f_equal. apply map_ext. intros b. rewrite table_cons.
    destruct (same a b) eqn:E; [|ring]. apply same_spec in E. subst b.
    rewrite table_out by auto. ring.
Qed.

(** The modes in the box 0..mpol x -ntor..ntor. *)
Definition box (mpol ntor : nat) : list (Z * Z) :=
  flat_map (fun m => map (pair m) (arange (- Z.of_nat ntor) (2 * ntor + 1))) (arange 0 (mpol + 1)).
Lemma nodup_box mpol ntor : NoDup (box mpol ntor).
Proof. apply nodup_prod; apply nodup_arange. Qed.
Lemma in_box mpol ntor mn : is_mode mpol ntor mn -> In mn (box mpol ntor).
Proof.
  destruct mn as [m n]. unfold is_mode, box. intros H. apply in_flat_map. exists m.
  split; [apply in_arange; lia|]. apply in_map, in_arange. lia.
Qed.
Lemma incl_c mpol ntor : incl (cmodes mpol ntor) (box mpol ntor).
Proof. intros x Hx. apply in_box. now apply (proj2 (cmodes_once mpol ntor)). Qed.
Lemma incl_s mpol ntor : incl (smodes mpol ntor) (box mpol ntor).
Proof. intros x Hx. apply in_box. apply (proj2 (smodes_once mpol ntor)) in Hx. tauto. Qed.

Lemma table_series f nfp mpol ntor coefs phi theta modes : 
  NoDup modes -> incl modes (box mpol ntor) -> length coefs = length modes ->
  Rsum (map (fun mn => table modes coefs (fst mn) (snd mn) *
      f (2 * PI * (IZR (fst mn) * theta - IZR (snd mn) * INR nfp * phi))) (box mpol ntor))
  = series f nfp modes coefs phi theta.
Proof.
  intros. unfold series.
  rewrite (table_sum (fun mn => f (2 * PI * (IZR (fst mn) * theta - IZR (snd mn) * INR nfp * phi)))); auto.
  apply nodup_box.
Qed.

(** ** The surface described by the four tables *)
Definition table_point (ss : simsopt_surface) (phi theta : R) : vec3 :=
  let angle mn := 2 * PI * (IZR (fst mn) * theta - IZR (snd mn) * INR (ss_nfp ss) * phi) in
  let b := box (ss_mpol ss) (ss_ntor ss) in
  let val (t : Z -> Z -> R) f := Rsum (map (fun mn : Z * Z => t (fst mn) (snd mn) * f (angle mn)) b) in
  cyl_point phi (val (ss_rc ss) cos + val (ss_rs ss) sin) (val (ss_zc ss) cos + val (ss_zs ss) sin).

Lemma split2 {A} (l : list A) a : firstn a l ++ skipn a l = l.
Proof. apply firstn_skipn. Qed.
Lemma skipn_add {A} (l : list A) a b : skipn b (skipn a l) = skipn (a + b) l.
Proof. revert l. induction a; intros l; [reflexivity|]. destruct l; simpl; auto. now rewrite skipn_nil. Qed.

Lemma zero_series f (b : list (Z * Z)) (g : Z * Z -> R) :
  Rsum (map (fun mn => 0 * f (g mn)) b) = 0.
Proof. apply Rsum_map_zero. intros. ring. Qed.

Lemma to_simsopt_ok s ss : to_simsopt s = Ok ss -> legal s.
Proof.
  unfold to_simsopt. rewrite simsopt_c, simsopt_s, length_cmodes, length_smodes.
  destruct (negb _) eqn:E; [discriminate|]. intros _. apply negb_false_iff, Nat.eqb_eq in E.
  unfold legal, legal_length. rewrite E. destruct (s_stellsym s); unfold n_modes; lia.
Qed.
Lemma legal_to_simsopt s : legal s -> exists ss, to_simsopt s = Ok ss.
Proof.
  unfold legal, legal_length, to_simsopt. intros E. rewrite simsopt_c, simsopt_s, length_cmodes, length_smodes.
  destruct (negb _) eqn:B; [|destruct (s_stellsym s); eauto].
  apply negb_true_iff, Nat.eqb_neq in B. elim B. rewrite E. destruct (s_stellsym s); unfold n_modes; lia.
Qed.
Lemma illegal_to_simsopt s : ~ legal s -> to_simsopt s = Raise ValueError.
Proof.
  unfold legal, legal_length, to_simsopt. intros E. rewrite simsopt_c, simsopt_s, length_cmodes, length_smodes.
  destruct (negb _) eqn:B; auto. apply negb_false_iff, Nat.eqb_eq in B. elim E. rewrite B.
  destruct (s_stellsym s); unfold n_modes; lia.
Qed.

Lemma to_simsopt_point s ss : to_simsopt s = Ok ss ->
  ss_nfp ss = s_nfp s /\ ss_stellsym ss = s_stellsym s /\ ss_mpol ss = s_mpol s /\ ss_ntor ss = s_ntor s /\
  ss_qphi ss = s_qphi s /\ ss_qtheta ss = s_qtheta s /\
  get_dofs ss = s_dofs s /\
  (s_stellsym s = true -> ss_rs ss = (fun _ _ => 0) /\ ss_zc ss = (fun _ _ => 0)) /\
  reports gamma s (table_point ss).
Proof.
  intros E. pose proof (to_simsopt_ok s ss E) as L. unfold to_simsopt in E.
  rewrite simsopt_c, simsopt_s in E. 
  destruct (negb _) eqn:B in E; [discriminate|]. clear B.
  pose proof (proj1 (cmodes_once (s_mpol s) (s_ntor s))) as NC.
  pose proof (proj1 (smodes_once (s_mpol s) (s_ntor s))) as NS.
  pose proof (length_cmodes (s_mpol s) (s_ntor s)) as LC.
  pose proof (length_smodes (s_mpol s) (s_ntor s)) as LS.
  unfold legal, legal_length in L.
  assert (1 <= n_modes (s_mpol s) (s_ntor s))%nat as Pos by (unfold n_modes; lia).
  destruct (s_stellsym s) eqn:ST; apply ok_inj in E; subst ss; cbn [ss_nfp ss_stellsym ss_mpol ss_ntor ss_qphi ss_qtheta ss_rs ss_zc ss_rc ss_zs].
  - do 6 (split; [reflexivity|]).
    set (rc := firstn (length (cmodes (s_mpol s) (s_ntor s))) (s_dofs s)).
    set (zs := skipn (length (cmodes (s_mpol s) (s_ntor s))) (s_dofs s)).
    assert (s_dofs s = rc ++ zs) as D by (symmetry; apply firstn_skipn).
    assert (length rc = n_modes (s_mpol s) (s_ntor s)) as L1 by (unfold rc; rewrite firstn_length; lia).
    assert (length zs = (n_modes (s_mpol s) (s_ntor s) - 1)%nat) as L2 by (unfold zs; rewrite skipn_length; lia).
    split; [|split].
    + unfold get_dofs. cbn [ss_nfp ss_stellsym ss_mpol ss_ntor ss_rc ss_zs].
      rewrite simsopt_c, simsopt_s. rewrite !table_read by (auto; congruence). auto.
    + auto.
    + pose proof (layout_sym s rc zs ST D L1 L2) as H. intros ps ts Hp Ht.
      destruct (H ps ts Hp Ht) as (s' & C & Q). exists s'. split; auto. rewrite Q. f_equal.
      apply map_ext; intros p. apply map_ext; intros t. unfold table_point.
      cbn [ss_nfp ss_stellsym ss_mpol ss_ntor ss_rc ss_zs ss_rs ss_zc].
      rewrite !zero_series. rewrite Rplus_0_r, Rplus_0_l.
      rewrite !table_series by (auto using incl_c, incl_s; congruence). reflexivity.
  - do 6 (split; [reflexivity|]).
    remember (length (cmodes (s_mpol s) (s_ntor s))) as nc eqn:Enc.
    remember (length (smodes (s_mpol s) (s_ntor s))) as no eqn:Eno.
    set (rc := firstn nc (s_dofs s)). set (rs := firstn no (skipn nc (s_dofs s))).
    set (zc := firstn nc (skipn (nc + no) (s_dofs s))). set (zs := skipn (nc + no + nc) (s_dofs s)).
    assert (s_dofs s = rc ++ rs ++ zc ++ zs) as D.
    { unfold rc, rs, zc, zs. rewrite <- (skipn_add (s_dofs s) (nc + no) nc), firstn_skipn.
      rewrite <- (skipn_add (s_dofs s) nc no), firstn_skipn, firstn_skipn. reflexivity. }
    assert (length rc = n_modes (s_mpol s) (s_ntor s)) as L1 by (unfold rc; rewrite firstn_length; lia).
    assert (length rs = (n_modes (s_mpol s) (s_ntor s) - 1)%nat) as L2 by (unfold rs; rewrite firstn_length, skipn_length; lia).
    assert (length zc = n_modes (s_mpol s) (s_ntor s)) as L3 by (unfold zc; rewrite firstn_length, skipn_length; lia).
    assert (length zs = (n_modes (s_mpol s) (s_ntor s) - 1)%nat) as L4 by (unfold zs; rewrite skipn_length; lia).
    split; [|split].
    + unfold get_dofs. cbn [ss_nfp ss_stellsym ss_mpol ss_ntor ss_rc ss_zs ss_rs ss_zc].
      rewrite simsopt_c, simsopt_s. rewrite !table_read by (auto; congruence). auto.
    + discriminate.
    + pose proof (layout_gen s rc rs zc zs ST D L1 L2 L3 L4) as H. cbv zeta in H. intros ps ts Hp Ht.
      destruct (H ps ts Hp Ht) as (s' & C & Q). exists s'. split; auto. rewrite Q. f_equal.
      apply map_ext; intros p. apply map_ext; intros t. unfold table_point.
      cbn [ss_nfp ss_stellsym ss_mpol ss_ntor ss_rc ss_zs ss_rs ss_zc].
      rewrite !table_series by (auto using incl_c, incl_s; congruence). reflexivity.
Qed.

Lemma table_point_is s ss F : to_simsopt s = Ok ss -> reports gamma s F -> forall p t, table_point ss p t = F p t.
Proof.
  intros E H p t. destruct (to_simsopt_point s ss E) as (_ & _ & _ & _ & _ & _ & _ & _ & H').
  symmetry. exact (reports_unique gamma s F (table_point ss) H H' p t).
Qed.

(** ** Round trip *)
Lemma make_surface_again nfp st mpol ntor p t d s : make_surface nfp st mpol ntor p t d = Ok s ->
  make_surface (s_nfp s) (s_stellsym s) (s_mpol s) (s_ntor s) (arr1 (s_qphi s)) (arr1 (s_qtheta s)) (arr1 (s_dofs s)) = Ok s.
Proof.
  unfold make_surface.
  destruct (negb (is_ndarray p)); [discriminate|]. destruct (negb (is_ndarray t)); [discriminate|].
  destruct (negb (is_ndarray d)); [discriminate|].
  destruct (getclamp (elements p) 1) eqn:E1; [|discriminate]. destruct (getclamp (elements p) 0) eqn:E2; [|discriminate].
  destruct (getclamp (elements t) 1) eqn:E3; [|discriminate]. destruct (getclamp (elements t) 0) eqn:E4; [|discriminate].
  cbn [bind]. intros E. injection E as <-. cbn [s_nfp s_stellsym s_mpol s_ntor s_qphi s_qtheta s_dofs].
  change (is_ndarray (arr1 ?l)) with true. cbn [negb]. change (elements (arr1 ?l)) with l.
  rewrite E1, E2, E3, E4. reflexivity.
Qed.

Lemma simsopt_round_trip s : built s -> legal s ->
  exists ss, to_simsopt s = Ok ss /\ from_simsopt ss = Ok s.
Proof.
  intros (nfp & st & mpol & ntor & p & t & d & B) L. destruct (legal_to_simsopt s L) as (ss & E).
  exists ss. split; auto. destruct (to_simsopt_point s ss E) as (E1 & E2 & E3 & E4 & E5 & E6 & E7 & _ & _).
  unfold from_simsopt. rewrite E1, E2, E3, E4, E5, E6, E7. eapply make_surface_again; eauto.
Qed.

Lemma map_firstn_app {A B} (f : A -> B) l x : firstn (length l) (map f l ++ x) = map f l.
Proof. rewrite <- (map_length f l). rewrite firstn_app, firstn_all, Nat.sub_diag. simpl. now rewrite app_nil_r. Qed.
Lemma map_skipn_app {A B} (f : A -> B) l x : skipn (length l) (map f l ++ x) = x.
Proof. rewrite <- (map_length f l). rewrite skipn_app, skipn_all, Nat.sub_diag. reflexivity. Qed.
Lemma table_written modes (t : Z -> Z -> R) mn : NoDup modes -> In mn modes ->
  table modes (map (fun x => t (fst x) (snd x)) modes) (fst mn) (snd mn) = t (fst mn) (snd mn).
Proof.
  intros ND I.
  pose proof (table_read modes (map (fun x => t (fst x) (snd x)) modes) ND (map_length _ _)) as H.
  set (T := table modes (map (fun x => t (fst x) (snd x)) modes)) in *. clearbody T. clear ND.
  induction modes; [contradiction|]. cbn [map] in H. injection H as H1 H2.
  destruct I as [->|I]; auto.
Qed.

Lemma simsopt_round_trip_back ss s : ss_qphi ss <> [] -> ss_qtheta ss <> [] -> from_simsopt ss = Ok s ->
  legal s /\ exists ss', to_simsopt s = Ok ss' /\ ss_nfp ss' = ss_nfp ss /\ ss_stellsym ss' = ss_stellsym ss /\
    ss_qphi ss' = ss_qphi ss /\ ss_qtheta ss' = ss_qtheta ss /\
    forall m n, is_mode (ss_mpol ss) (ss_ntor ss) (m, n) ->
      ss_rc ss' m n = ss_rc ss m n /\
      ((m, n) <> (0%Z, 0%Z) -> ss_zs ss' m n = ss_zs ss m n) /\
      (ss_stellsym ss = false ->
        ss_zc ss' m n = ss_zc ss m n /\ ((m, n) <> (0%Z, 0%Z) -> ss_rs ss' m n = ss_rs ss m n)).
Proof.
  intros _ _ E. unfold from_simsopt, make_surface in E.
  change (is_ndarray (arr1 ?l)) with true in E. cbn [negb] in E. change (elements (arr1 ?l)) with l in E.
  destruct (getclamp (ss_qphi ss) 1) eqn:E1; [|discriminate]. destruct (getclamp (ss_qphi ss) 0) eqn:E2; [|discriminate].
  destruct (getclamp (ss_qtheta ss) 1) eqn:E3; [|discriminate]. destruct (getclamp (ss_qtheta ss) 0) eqn:E4; [|discriminate].
  cbn [bind] in E. injection E as <-.
  set (s := {| s_nfp := ss_nfp ss |}).
  pose proof (length_cmodes (ss_mpol ss) (ss_ntor ss)) as LC.
  pose proof (length_smodes (ss_mpol ss) (ss_ntor ss)) as LS.
  assert (1 <= n_modes (ss_mpol ss) (ss_ntor ss))%nat as Pos by (unfold n_modes; lia).
  assert (legal s) as L.
  { unfold legal, legal_length, s. cbn [s_dofs s_stellsym s_mpol s_ntor]. unfold get_dofs. rewrite simsopt_c, simsopt_s.
    destruct (ss_stellsym ss); rewrite !app_length, !map_length, LC, LS; lia. }
  split; auto. destruct (legal_to_simsopt s L) as (ss' & E). exists ss'. split; auto.
  destruct (to_simsopt_point s ss' E) as (F1 & F2 & F3 & F4 & F5 & F6 & F7 & _ & _).
  do 4 (split; [assumption|]). intros m n M.
  destruct (cmodes_once (ss_mpol ss) (ss_ntor ss)) as [NC IC].
  destruct (smodes_once (ss_mpol ss) (ss_ntor ss)) as [NS IS].
  unfold to_simsopt in E. destruct (negb _); [discriminate|]. 
  unfold s in E. cbn [s_dofs s_stellsym s_mpol s_ntor s_nfp s_qphi s_qtheta] in E.
  unfold get_dofs in E. rewrite simsopt_c, simsopt_s in E.
  destruct (ss_stellsym ss) eqn:ST; apply ok_inj in E; subst ss'; cbn [ss_rc ss_rs ss_zc ss_zs].
  - split; [|split].
    + rewrite map_firstn_app. apply (table_written _ (ss_rc ss) (m, n)); auto. now apply IC.
    + intros Z0. rewrite map_skipn_app. apply (table_written _ (ss_zs ss) (m, n)); auto. now apply IS.
    + discriminate.
  - split; [|split; [|split]].
    + rewrite map_firstn_app. apply (table_written _ (ss_rc ss) (m, n)); auto. now apply IC.
    + intros Z0. rewrite <- !skipn_add, !map_skipn_app. apply (table_written _ (ss_zs ss) (m, n)); auto. now apply IS.
    + rewrite <- skipn_add, !map_skipn_app, map_firstn_app. apply (table_written _ (ss_zc ss) (m, n)); auto. now apply IC.
    + intros Z0. rewrite map_skipn_app, map_firstn_app. apply (table_written _ (ss_rs ss) (m, n)); auto. now apply IS.
Qed.

(** ** FOCUS *)
Lemma focus_body ss : (ss_stellsym ss = true -> ss_rs ss = (fun _ _ => 0) /\ ss_zc ss = (fun _ _ => 0)) ->
  ff_body (focus_of_simsopt ss) = map (fun mn => {| fl_n := snd mn; fl_m := fst mn; fl_Rbc := ss_rc ss (fst mn) (snd mn);
     fl_Rbs := ss_rs ss (fst mn) (snd mn); fl_Zbc := ss_zc ss (fst mn) (snd mn); fl_Zbs := ss_zs ss (fst mn) (snd mn) |})
     (box (ss_mpol ss) (ss_ntor ss)).
Proof.
  intros H. unfold focus_of_simsopt, box. cbn [ff_body]. rewrite !flat_map_concat_map, concat_map, map_map. f_equal.
  apply map_ext. intros m. rewrite map_map. apply map_ext. intros n. unfold focus_line_of, replace_err.
  destruct (ss_stellsym ss); [|reflexivity]. destruct H as [-> ->]; auto.
Qed.
Lemma focus_point ss p t : (ss_stellsym ss = true -> ss_rs ss = (fun _ _ => 0) /\ ss_zc ss = (fun _ _ => 0)) ->
  focus_surface (focus_of_simsopt ss) p t = table_point ss p t.
Proof.
  intros H. unfold focus_surface. rewrite focus_body by auto. unfold table_point.
  rewrite !map_map. cbn [fl_n fl_m fl_Rbc fl_Rbs fl_Zbc fl_Zbs focus_of_simsopt ff_nfp].
  rewrite !Rsum_map_plus. reflexivity.
Qed.
Lemma focus_jax s f F b : save_focus b (FocusJax s) = Ok f -> reports gamma s F ->
  forall p t, focus_surface f p t = F p t.
Proof.
  cbn [save_focus]. destruct (to_simsopt s) eqn:E; [|discriminate]. cbn [bind]. intros X; injection X as <-.
  intros H p t. destruct (to_simsopt_point s a E) as (_ & E2 & _ & _ & _ & _ & _ & Z & _).
  rewrite focus_point by (rewrite E2; auto). eapply table_point_is; eauto.
Qed.
Lemma focus_simsopt ss s f F b : save_focus b (FocusSimsopt ss) = Ok f -> to_simsopt s = Ok ss -> reports gamma s F ->
  forall p t, focus_surface f p t = F p t.
Proof.
  cbn [save_focus]. intros X E; injection X as <-. apply (focus_jax s _ F b). cbn [save_focus]. now rewrite E.
Qed.
Lemma length_box mpol ntor : length (box mpol ntor) = ((mpol + 1) * (2 * ntor + 1))%nat.
Proof.
  unfold box. rewrite (length_flat_map_const _ (2 * ntor + 1)); [|intros; now rewrite map_length, arange_length].
  now rewrite arange_length.
Qed.
Lemma focus_header s f b : save_focus b (FocusJax s) = Ok f ->
  (ff_modes f = length (ff_body f) <-> s_stellsym s = true /\ s_mpol s = 0%nat).
Proof.
  cbn [save_focus]. destruct (to_simsopt s) eqn:E; [|discriminate]. cbn [bind]. intros X; injection X as <-.
  pose proof (to_simsopt_ok s a E) as L.
  destruct (to_simsopt_point s a E) as (_ & E2 & E3 & E4 & _ & _ & E7 & Z & _).
  rewrite focus_body by (rewrite E2; auto). rewrite map_length, length_box, E3, E4.
  unfold focus_of_simsopt. cbn [ff_modes]. rewrite E7, L. unfold legal_length, n_modes.
  destruct (s_stellsym s); split; try (intros [H1 H2]); intros; try split; auto; try discriminate; try nia.
Qed.
