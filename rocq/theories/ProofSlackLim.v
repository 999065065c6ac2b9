(** Proofs: smoothed L1 and Huber quantities; L1 of vector-valued fields. *)
From Coq Require Import String List Bool Arith ZArith Reals Lra Lia.
From Coquelicot Require Import Coquelicot.
From Verif Require Import Base ModelArray ModelMath ModelQuantity ModelWrapper ModelShipped
  SpecMath SpecQuantity ProofArray ProofMath ProofQuantity ProofSlack ProofSlackInit.
Import ListNotations.
Open Scope R_scope.
Open Scope string_scope.
Open Scope list_scope.

(** ** Broadcasting over trailing dimensions *)
Lemma indices_app s t : indices (s ++ t) = flat_map (fun i => map (fun j => i ++ j) (indices t)) (indices s).
Proof.
  induction s as [|n s IH]; simpl.
  - rewrite app_nil_r, map_id. reflexivity.
  - rewrite IH. clear IH. generalize (seq 0 n). induction l as [|a l IHl]; simpl; auto.
    rewrite IHl, flat_map_app. f_equal.
    generalize (indices s). induction l0 as [|x y IHy]; simpl; auto.
    rewrite map_app, IHy. f_equal. rewrite map_map. reflexivity.
Qed.

Lemma F2_length {A B} (Q : A -> B -> Prop) l m : Forall2 Q l m -> length l = length m.
Proof. induction 1; simpl; auto. Qed.

Lemma map2_app {A B C} (f : A -> B -> C) a b c d : length a = length c ->
  map2 f (a ++ b) (c ++ d) = map2 f a c ++ map2 f b d.
Proof. revert c. induction a; intros [|y c]; simpl; intros; try discriminate; auto. f_equal; auto. Qed.

Lemma ravel_app_zero s i k z : Forall2 (fun a b => (a < b)%nat) i s ->
  ravel_index (repeat 1%nat k) z = 0%nat ->
  ravel_index (s ++ repeat 1%nat k) (i ++ z) = ravel_index s i.
Proof.
  intros H Hz. induction H as [|a b i s Hab H IH]; simpl; [exact Hz|].
  rewrite IH, fold_mul_app, size_ones. lia.
Qed.

Lemma fits_app s t u v : length s = length t -> fits (s ++ u) (t ++ v) = fits s t && fits u v.
Proof.
  unfold fits. intros L. rewrite !app_length, L, Nat.eqb_refl. simpl.
  assert (E : (length t + length u =? length t + length v)%nat = (length u =? length v)%nat).
  { destruct (Nat.eqb_spec (length u) (length v)), (Nat.eqb_spec (length t + length u) (length t + length v)); auto; lia. }
  rewrite E. clear E.
  assert (G : forallb (fun p : nat * nat => (fst p =? snd p)%nat || (fst p =? 1)%nat) (combine (s ++ u) (t ++ v))
    = forallb (fun p : nat * nat => (fst p =? snd p)%nat || (fst p =? 1)%nat) (combine s t)
      && forallb (fun p : nat * nat => (fst p =? snd p)%nat || (fst p =? 1)%nat) (combine u v)).
  { revert t L. induction s; intros [|y t] L; simpl in *; try discriminate; auto.
    rewrite IHs by lia. rewrite andb_assoc. reflexivity. }
  rewrite G. destruct (length u =? length v)%nat; simpl; auto. rewrite andb_false_r. reflexivity.
Qed.

Lemma broadcast_trailing s t e : length e = size s ->
  broadcast_to (Arr (s ++ repeat 1%nat (length t)) e) (s ++ t)
  = Ok (Arr (s ++ t) (flat_map (fun x => repeat x (size t)) e)).
Proof.
  intros L. unfold broadcast_to. cbn [sh el].
  assert (Ep : pad_shape (length (s ++ t)) (s ++ repeat 1%nat (length t)) = s ++ repeat 1%nat (length t)).
  { unfold pad_shape. rewrite !app_length, repeat_length, Nat.sub_diag. reflexivity. }
  rewrite Ep, fits_app, fits_refl, fits_ones by auto. cbn [andb]. do 2 f_equal.
  rewrite indices_app, flat_map_concat_map, concat_map, map_map.
  transitivity (concat (map (fun i => repeat (nth (ravel_index s i) e 0) (size t)) (indices s))).
  - f_equal. apply map_ext_in. intros i Hi. pose proof (in_indices _ _ Hi) as Hb.
    rewrite map_map. rewrite <- length_indices. apply map_const. intros j Hj.
    rewrite map2_app by (symmetry; eapply F2_length; eauto).
    rewrite mask_id by auto. rewrite ravel_app_zero; auto. apply ravel_ones.
  - rewrite flat_map_concat_map. f_equal.
    transitivity (map (fun x => repeat x (size t)) (map (fun i => nth i e 0) (map (ravel_index s) (indices s)))).
    + rewrite !map_map. reflexivity.
    + rewrite ravel_indices, <- L, map_nth_seq. reflexivity.
Qed.

Lemma rev_ones n : rev (repeat 1%nat n) = repeat 1%nat n.
Proof.
  induction n; simpl; auto. rewrite IHn. clear.
  induction n; simpl; auto. f_equal. exact IHn.
Qed.

Lemma bshape_trailing b a : bshape_rev (repeat 1%nat (length b) ++ a) (b ++ a) = Some (b ++ a).
Proof.
  induction b as [|m b IH].
  - simpl. apply bshape_same.
  - cbn [repeat length app bshape_rev]. rewrite IH.
    destruct (Nat.eqb_spec 1 m); [subst; auto|]. reflexivity.
Qed.

Lemma op2_trailing f s t e g : length e = size s -> length g = size (s ++ t) ->
  op2 f (Arr (s ++ repeat 1%nat (length t)) e) (Arr (s ++ t) g)
  = Ok (Arr (s ++ t) (map2 f (flat_map (fun x => repeat x (size t)) e) g)).
Proof.
  intros Le Lg. unfold op2. cbn [sh].
  rewrite !rev_app_distr, rev_ones. rewrite <- (rev_length t), bshape_trailing.
  rewrite <- rev_app_distr, rev_involutive, rev_length.
  rewrite broadcast_trailing by auto. cbn [bind].
  rewrite broadcast_same by exact Lg. reflexivity.
Qed.

(** ** Smoothed L1 *)
Lemma Rsum_map2_bound w l k u (h : R -> R) : (forall x, Rabs (h x - Rabs x) <= k) ->
  Rabs (Rsum (map2 (fun a x => a * h x) w l) * u - Rsum (map2 (fun a x => a * Rabs x) w l) * u)
  <= Rsum (map Rabs w) * k * Rabs u.
Proof.
  intros H. rewrite <- Rmult_minus_distr_r, Rabs_mult.
  apply Rmult_le_compat_r; [apply Rabs_pos|].
  assert (Hk : 0 <= k) by (eapply Rle_trans; [apply Rabs_pos|apply (H 0)]).
  assert (W : forall w, 0 <= Rsum (map Rabs w)).
  { unfold Rsum. induction w0; simpl; [lra|]. pose proof (Rabs_pos a). lra. }
  revert l. induction w as [|a w IH]; intros l.
  - simpl. unfold Rsum. simpl. rewrite Rminus_eq_0, Rabs_R0. lra.
  - destruct l as [|x l].
    + cbn [map2]. rewrite Rminus_eq_0, Rabs_R0.
      pose proof (W (a :: w)). apply Rmult_le_pos; auto.
    + unfold Rsum in *. cbn [map2 map fold_right].
      specialize (IH l). specialize (H x).
      match goal with |- Rabs (?A * ?B + ?C - (?A * ?D + ?E)) <= _ =>
        replace (A * B + C - (A * D + E)) with (A * (B - D) + (C - E)) by ring end.
      eapply Rle_trans; [apply Rabs_triang|]. rewrite Rabs_mult, Rmult_plus_distr_r.
      apply Rplus_le_compat; auto. apply Rmult_le_compat_l; auto. apply Rabs_pos.
Qed.

Lemma approx_l1_limit P da nfp ss (func : field P) aux pd sqr au reg reg' q :
  init_quantity reg (generate_l1_norm P da nfp ss func aux pd sqr au) = (reg', Ok q) ->
  forall qp phi fld u t, func qp [("phi", phi)] = Ok fld -> wf fld -> wf (da qp) ->
  sh fld = sh (da qp) ++ t -> 0 < u ->
  exists raw, call q qp [("phi", phi)] = Ok (scal raw) /\
    approx_converges q qp phi u (raw / u).
Proof.
  intros I qp phi fld u t E W Wd Es Hu. rewrite (l1_built _ _ _ _ _ _ _ _ _ _ _ _ I). clear I.
  assert (Ee : expand_da P da qp fld = Arr (sh (da qp) ++ repeat 1%nat (length t)) (el (da qp))).
  { unfold expand_da, ndim. rewrite Es, app_length. do 3 f_equal. lia. }
  set (w := flat_map (fun x => repeat x (size t)) (el (da qp))).
  set (raw := Rsum (map2 (fun a x => a * Rabs x) w (el fld)) * nfp qp).
  exists raw. split.
  - unfold call, getitem. cbn [lookup q_raw]. change (String.eqb "phi" "phi") with true. cbn [bind].
    unfold l1_raw. rewrite E. cbn [bind]. rewrite Ee. unfold amap. rewrite Es.
    rewrite op2_trailing; [|exact Wd|rewrite map_length, <- Es; exact W].
    cbn [bind]. unfold asum. cbn [el]. rewrite map2_map_r. reflexivity.
  - unfold approx_converges.
    assert (V : forall eps, 0 < eps ->
      scalar_value (l1_approx P da nfp func [("lse_epsilon", eps)] qp [("phi", phi)] (scal u))
      = Ok (Rsum (map2 (fun a x => a * abs_lse1 eps x) w (el fld)) * nfp qp / u)).
    { intros eps He. unfold l1_approx. rewrite E. cbn [bind]. rewrite Ee, Es.
      rewrite broadcast_trailing by exact Wd. cbn [bind]. unfold getitem. cbn [lookup].
      change (String.eqb "lse_epsilon" "lse_epsilon") with true. cbn [bind].
      fold w.
      assert (Lw : length w = length (el fld)).
      { red in W, Wd. rewrite W, Es, fold_mul_app, <- Wd. unfold w.
        generalize (el (da qp)). induction l; simpl; auto. rewrite app_length, repeat_length, IHl. lia. }
      rewrite op2_same; cbn [el sh]; auto.
      - cbn [bind]. rewrite op2_scal. unfold asum, abs_lse. cbn [el scalar_value sh scal].
        rewrite map2_map_r. reflexivity.
      - red. cbn [el sh]. rewrite Lw, <- Es. exact W.
      - red. cbn [el sh]. unfold abs_lse. rewrite map_length, <- Es. exact W. }
    apply tends_squeeze with (K := Rsum (map Rabs w) * ln 2 * Rabs (nfp qp / u)).
    + assert (Wp : forall w, 0 <= Rsum (map Rabs w)).
      { unfold Rsum. induction w0; simpl; [lra|]. pose proof (Rabs_pos a). lra. }
      assert (0 <= ln 2) by (rewrite <- ln_1; apply ln_mono; lra).
      apply Rmult_le_pos; [apply Rmult_le_pos; auto|apply Rabs_pos].
    + intros eps He. eexists. split.
      * unfold scaled_f_impl. cbn [String.eqb Ascii.eqb Bool.eqb bind q_approx]. apply V; auto.
      * unfold raw.
        replace (Rsum (map2 (fun a x => a * abs_lse1 eps x) w (el fld)) * nfp qp / u)
          with (Rsum (map2 (fun a x => a * abs_lse1 eps x) w (el fld)) * (nfp qp / u)) by (unfold Rdiv; ring).
        replace (Rsum (map2 (fun a x => a * Rabs x) w (el fld)) * nfp qp / u)
          with (Rsum (map2 (fun a x => a * Rabs x) w (el fld)) * (nfp qp / u)) by (unfold Rdiv; ring).
        eapply Rle_trans; [apply Rsum_map2_bound with (k := eps * ln 2)|].
        -- intros x. pose proof (abs_lse_bounds x eps He). rewrite Rabs_right; lra.
        -- right. ring.
Qed.

(** ** Huber *)
Lemma cont_const c x : continuity_pt (fun _ => c) x.
Proof. apply derivable_continuous_pt. reg. Qed.

Lemma cont_rownorm u row : 0 < u ->
  continuity_pt (fun e => rownorm (map (fun x => x / u + sq e) row)) 0.
Proof.
  intros Hu. unfold rownorm.
  assert (C : continuity_pt (fun e => fold_right Rplus 0 (map (fun x => x * x) (map (fun x => x / u + sq e) row))) 0).
  { induction row as [|x row IH]; simpl.
    - apply cont_const.
    - apply (continuity_pt_plus (fun e => (x / u + sq e) * (x / u + sq e))); auto.
      unfold sq. apply derivable_continuous_pt. reg. }
  apply continuity_pt_filterlim.
  eapply filterlim_comp.
  - apply continuity_pt_filterlim in C. exact C.
  - apply continuous_sqrt.
Qed.

Lemma rownorm_div row u : 0 < u -> rownorm (map (fun x => x / u) row) = rownorm row / u.
Proof.
  intros Hu. unfold rownorm.
  assert (E : fold_right Rplus 0 (map (fun x => x * x) (map (fun x => x / u) row))
    = fold_right Rplus 0 (map (fun x => x * x) row) / (u * u)).
  { induction row; simpl; [field; lra|]. rewrite IHrow. field. lra. }
  rewrite E, sqrt_div_alt by nra. rewrite sqrt_square by lra. reflexivity.
Qed.

Lemma cont_huber w rows u c : 0 < u ->
  continuity_pt (fun e => Rsum (map2 Rmult w (map (fun row => rownorm (map (fun x => x / u + sq e) row) - e) rows)) * c) 0.
Proof.
  intros Hu. apply (continuity_pt_mult _ (fun _ => c)); [|apply cont_const].
  unfold Rsum. revert rows. induction w as [|a w IH]; intros [|r rows]; simpl; try apply cont_const.
  apply (continuity_pt_plus (fun e => a * (rownorm (map (fun x => x / u + sq e) r) - e))); auto.
  apply (continuity_pt_mult (fun _ => a)); [apply cont_const|].
  apply (continuity_pt_minus (fun e => rownorm (map (fun x => x / u + sq e) r)) (fun e => e));
    [apply cont_rownorm; auto|]. apply derivable_continuous_pt. reg.
Qed.

Lemma chunks_map (f : R -> R) n k l : chunks n k (map f l) = map (map f) (chunks n k l).
Proof.
  revert l. induction n; intros l; simpl; auto.
  rewrite firstn_map, skipn_map, IHn. reflexivity.
Qed.

Lemma chunks_length n k l : length (chunks n k l) = n.
Proof. revert l. induction n; intros; simpl; auto. Qed.

Lemma huber_built P da nfp func reg reg' q :
  init_quantity reg (generate_huber P da nfp func) = (reg', Ok q) ->
  reg' = reg /\
  q = {| q_raw := huber_raw P da nfp func; q_approx := huber_approx P da nfp func;
         q_slack_f := huber_approx P da nfp func [("lse_epsilon", 1 / 1000)];
         q_slack_g := None; q_slack_h := None; q_slack_init := None;
         q_compat := ["f"; "<="] |}.
Proof. unfold init_quantity. cbn. intros H; inversion H; auto. Qed.

Lemma approx_huber_limit P da nfp (func : field P) reg reg' q :
  init_quantity reg (generate_huber P da nfp func) = (reg', Ok q) ->
  forall qp phi fld u a b c t, func qp [("phi", phi)] = Ok fld -> wf fld -> wf (da qp) ->
  sh fld = a :: b :: c :: t -> sh (da qp) = [a; b] -> 0 < u ->
  exists raw, call q qp [("phi", phi)] = Ok (scal raw) /\
    approx_converges q qp phi u (raw / u).
Proof.
  intros I qp phi fld u a b c t E W Wd Ef Ed Hu.
  apply huber_built in I as [_ ->].
  set (k := size (c :: t)). set (n := size [a; b]).
  assert (Em : merge_tail fld = Arr [a; b; k] (el fld)).
  { unfold merge_tail. rewrite Ef. reflexivity. }
  assert (Wm : wf (Arr [a; b; k] (el fld))).
  { red in W. red. cbn [el sh]. rewrite W, Ef. unfold k, size. cbn [fold_right]. lia. }
  set (rows := chunks n k (el fld)).
  assert (Lda : length (el (da qp)) = n) by (red in Wd; rewrite Wd, Ed; reflexivity).
  assert (WS : forall l : list R, length l = n ->
     weighted_sum P da nfp qp (Arr [a; b] l) = Ok (scal (Rsum (map2 Rmult (el (da qp)) l) * nfp qp))).
  { intros l Ll. unfold weighted_sum. rewrite op2_same; auto. }
  set (raw := Rsum (map2 Rmult (el (da qp)) (map rownorm rows)) * nfp qp).
  exists raw. split.
  - unfold call, getitem. cbn [lookup q_raw]. change (String.eqb "phi" "phi") with true. cbn [bind].
    unfold huber_raw. rewrite E. cbn [bind]. rewrite Em. unfold norm_last. cbn [sh rev app bind].
    cbn [el]. fold n. fold rows. apply WS. unfold rows. rewrite map_length. apply chunks_length.
  - unfold approx_converges.
    apply tends_cont with (h := fun e => Rsum (map2 Rmult (el (da qp))
       (map (fun row => rownorm (map (fun x => x / u + sq e) row) - e) rows)) * nfp qp).
    + apply cont_huber; auto.
    + unfold raw. 
      assert (G : forall w rs, Rsum (map2 Rmult w (map (fun row => rownorm (map (fun x => x / u + sq 0) row) - 0) rs))
         = Rsum (map2 Rmult w (map rownorm rs)) / u).
      { unfold Rsum. induction w as [|y w IH]; intros [|r rs]; cbn [map map2 fold_right]; try (field; lra).
        rewrite IH. rewrite (map_ext (fun x => x / u + sq 0) (fun x => x / u)) by (intros; unfold sq; ring).
        rewrite rownorm_div by auto. field. lra. }
      rewrite G. field. lra.
    + intros eps He. unfold scaled_f_impl. cbn [String.eqb Ascii.eqb Bool.eqb bind q_approx].
      unfold huber_approx. rewrite E. cbn [bind]. rewrite Em.
      rewrite op2_scal_r by auto. cbn [bind]. unfold getitem. cbn [lookup].
      change (String.eqb "lse_epsilon" "lse_epsilon") with true. cbn [bind].
      unfold norm_last. cbn [sh el amap rev app bind]. fold n. unfold amap. cbn [sh el].
      rewrite (map_map (fun y => y / u)). rewrite (chunks_map (fun x => x / u + sq eps)).
      fold rows. rewrite !map_map. rewrite WS; [reflexivity|].
      rewrite map_length. unfold rows. apply chunks_length.
Qed.

(** Lower bound of the smoothed Huber loss at zero field. *)

(** ** L1 of vector-valued fields in slack mode *)
Lemma l1_vector_raises P da nfp ss (func : field P) aux pd sqr au reg reg' q :
  init_quantity reg (generate_l1_norm P da nfp ss func aux pd sqr au) = (reg', Ok q) ->
  aux <> "phi" -> phi_only func ->
  forall qp phi fld a b u l, func qp [("phi", phi)] = Ok fld -> wf fld ->
  sh fld = [a; b; 3%nat] -> sh (da qp) = [a; b] -> (b <> 1)%nat -> (b <> 3)%nat ->
  length l = length (el fld) ->
  forall sp, exists F, scaled_f_impl q (Some "slack") sp = Ok F /\
    F qp (state phi aux (Arr [length (el fld)] l)) (scal u) = Raise ValueError.
Proof.
  intros I Ha Hphi qp phi fld a b u l E W Ef Ed H1 H3 Ll sp.
  rewrite (l1_built _ _ _ _ _ _ _ _ _ _ _ _ I).
  eexists. split; [reflexivity|]. cbn [q_slack_f]. unfold l1_slack_f.
  rewrite phi_state, E by auto. cbn [bind]. unfold getitem. rewrite lookup_state_aux by auto. cbn [bind].
  assert (R1 : reshape (Arr [length (el fld)] l) (sh fld) = Ok (Arr (sh fld) l)).
  { unfold reshape. cbn [el]. red in W. rewrite <- W, Ll, Nat.eqb_refl. reflexivity. }
  unfold expand_by_stellsym. rewrite R1.
  replace (if au && ss qp then Ok (Arr (sh fld) l) else Ok (Arr (sh fld) l))
    with (Ok (Arr (sh fld) l)) by (destruct (au && ss qp); reflexivity).
  cbn [bind sh]. unfold broadcast_to. rewrite Ed, Ef. cbn [length pad_shape Nat.sub repeat app fits combine forallb].
  change (pad_shape 3 [a; b]) with [1%nat; a; b]. unfold fits. cbn [length Nat.eqb combine forallb fst snd andb].
  destruct (Nat.eqb_spec b 3); [contradiction|]. destruct (Nat.eqb_spec b 1); [contradiction|].
  rewrite !andb_false_r. reflexivity.
Qed.
