(** The periodic part of a design. *)
From Coq Require Import String List Bool Arith ZArith Reals Lra Lia Permutation.
From Verif Require Import Base ModelArray ProofArray ModelMath SpecMath ProofMath ProofTrig ModelSurface SpecSurface ProofSurface ProofSurface2 ProofSurface3
  ProofLinear SpecWinding ProofWinding4 ModelParams ModelField SpecField ProofField ProofField2 ProofField3 ProofField4
  ModelQuantity SpecQuantity ModelWrapper SpecWrapper ModelShipped ModelPackage SpecPackage ProofRescale ProofPackage ProofPackage2 ProofPackage4
  SpecConvex ProofConvex SpecScale SpecRefine ProofRefine SpecMirror ProofMirror ProofMirror2 ProofPeriods SpecNfp ProofNfp ProofNfp2.
Import ListNotations.
Open Scope R_scope.
Open Scope string_scope.
Open Scope list_scope.

(** ** Harmonics of the shorter period among those of the longer one *)
Definition stretch (k : nat) (c : Z * Z * Z) : Z * Z * Z := (fst (fst c), (Z.of_nat k * snd (fst c))%Z, snd c).
Lemma smodes_in m n a b : In (a, b) (smodes m n) <-> is_mode m n (a, b) /\ (a, b) <> (0%Z, 0%Z).
Proof. apply (proj2 (smodes_once m n)). Qed.
Lemma pcols_in st m n a b s : In (a, b, s) (pcols st m n) <->
  (is_mode m n (a, b) /\ ((a, b) <> (0%Z, 0%Z) /\ s = 1%Z \/ st = false /\ s = (-1)%Z)).
Proof.
  assert (M0 : is_mode m n (0%Z, 0%Z)) by (left; lia).
  assert (Is : forall u, In (a, b, s) (map (fun mn => (mn, u)) (smodes m n)) <-> (is_mode m n (a, b) /\ (a, b) <> (0%Z, 0%Z)) /\ s = u).
  { intros u. rewrite in_map_iff. split; [intros (mn & E & H); injection E as -> ->; rewrite smodes_in in H; auto|intros (H & ->); exists (a, b); split; [reflexivity|now apply smodes_in]]. }
  destruct st; unfold pcols.
  - rewrite Is. intuition discriminate.
  - rewrite in_app_iff. cbn [In]. rewrite !Is. split.
    + intros [H|[H|H]]; [tauto|injection H as <- <- <-; auto|tauto].
    + intros (H & [H'|(_ & ->)]); [tauto|]. right. destruct (Z.eq_dec a 0) as [->|Ha]; [destruct (Z.eq_dec b 0) as [->|Hb]|]; [now left| |]; right; (split; [split; [exact H|congruence]|reflexivity]).
Qed.
Lemma stretch_in st m n n' k c : (k <> 0)%nat -> (k * n <= n')%nat -> In c (pcols st m n) -> In (stretch k c) (pcols st m n').
Proof.
  destruct c as [[a b] s]. unfold stretch. cbn [fst snd]. rewrite !pcols_in. intros Hk Hn ([(Ha & Hb)|(Ha & Hb)] & H); (split; [|destruct H as [(H0 & Hs)|H]; [left; split; [|exact Hs]|now right]]).
  - left. nia.
  - intros Z0. injection Z0 as Z1 Z2. apply H0. f_equal; nia.
  - right. nia.
  - intros Z0. injection Z0 as Z1 Z2. apply H0. f_equal; nia.
Qed.
Lemma shrink_in st m n n' k c : (k <> 0)%nat -> n = (n' / k)%nat -> In c (pcols st m n') -> (snd (fst c) mod Z.of_nat k =? 0)%Z = true -> In c (map (stretch k) (pcols st m n)).
Proof.
  destruct c as [[a b] s]. cbn [fst snd]. intros Hk -> H Hd. apply Z.eqb_eq in Hd. apply Z.mod_divide in Hd as (d & ->); [|lia].
  apply in_map_iff. exists (a, d, s). split; [unfold stretch; cbn [fst snd]; f_equal; f_equal; apply Z.mul_comm|].
  rewrite pcols_in in *. destruct H as (H & H').
  assert (Hq : (Z.of_nat (n' / k) = Z.of_nat n' / Z.of_nat k)%Z) by (apply Nat2Z.inj_div). pose proof (Z.mul_div_le (Z.of_nat n') (Z.of_nat k) ltac:(lia)) as Q1. pose proof (Z.mul_succ_div_gt (Z.of_nat n') (Z.of_nat k) ltac:(lia)) as Q2.
  split.
  - destruct H as [(Ha & Hb)|(Ha & Hb)]; [left|right]; rewrite Hq; (split; [exact Ha|]); nia.
  - destruct H' as [(H0 & Hs)|H']; [left; split; [|exact Hs]|now right]. intros Z0. injection Z0 as -> ->. now apply H0.
Qed.
Lemma tr_stretch k q q' p t c : INR (q_nfp q) = INR k * INR (q_nfp q') -> tr q' p t (stretch k c) = tr q p t c.
Proof. intros E. unfold tr, targ, stretch. cbn [fst snd]. f_equal. unfold trig_arg. rewrite E, mult_IZR, <- INR_IZR_INZ. ring. Qed.
Lemma described k q q' x : fewer_periods k q q' -> made q -> made q' -> q_stellsym q = q_stellsym q' -> q_mpol q = q_mpol q' -> (k * q_ntor q <= q_ntor q')%nat -> length x = q_ndofs q ->
  exists x', length x' = q_ndofs q' /\ forall p t, phi_of q' x' p t = phi_of q x p t.
Proof.
  intros D M M' Es Em En L. destruct (m_nfp k q q' D M) as (_ & _ & _ & Hk & _). destruct (m_INR k q q' D M) as (F & _).
  destruct (made_facts q M) as (_ & _ & N & _). destruct (made_facts q' M') as (_ & _ & N' & _).
  destruct (embed (map (stretch k) (qcols q)) (qcols q')) with (x := x) as (x' & Lx & Ex).
  - intros c Hc. apply in_map_iff in Hc as (d & <- & Hd). unfold qcols in *. rewrite <- Es, <- Em. now apply (stretch_in _ _ (q_ntor q)).
  - rewrite map_length. unfold qcols. rewrite length_pcols. congruence.
  - exists x'. split; [rewrite Lx; unfold qcols; rewrite length_pcols; congruence|]. intros p t. unfold phi_of. rewrite Ex, map_map. apply ldot_map_ext. intros c _. now apply tr_stretch.
Qed.

(** ** The average over the periods *)
Lemma ldot_sum {A J} (f : J -> A -> R) l js x : Rsum (map (fun j => ldot (map (f j) l) x) js) = ldot (map (fun c => Rsum (map (fun j => f j c) js)) l) x.
Proof.
  revert x; induction l as [|c l IH]; intros [|y x]; try (unfold ldot; cbn; rewrite Rsum_const; ring).
  cbn [map]. rewrite ldot_cons, <- IH. rewrite (Rsum_map_ext _ (fun j => y * f j c + ldot (map (f j) l) x)) by (intros; rewrite ldot_cons; ring).
  clear. induction js as [|j js IH]; [unfold Rsum; cbn; ring|]. unfold Rsum in *. cbn [map fold_right]. rewrite IH. ring.
Qed.
Lemma average_column k q q' c p t : INR (q_nfp q) = INR k * INR (q_nfp q') -> INR (q_nfp q') <> 0 -> (k <> 0)%nat -> snd c = 1%Z \/ snd c = (-1)%Z ->
  Rsum (map (fun j => tr q' (p + INR j * / INR (q_nfp q)) t c) (seq 0 k)) = if (snd (fst c) mod Z.of_nat k =? 0)%Z then INR k * tr q' p t c else 0.
Proof.
  intros E H' Hk Hs. assert (Hk' : INR k <> 0) by now apply not_0_INR. set (n := snd (fst c)). set (r := (n mod Z.of_nat k)%Z).
  pose proof (Z.div_mod n (Z.of_nat k) ltac:(lia)) as Dn. fold r in Dn. pose proof (Z.mod_pos_bound n (Z.of_nat k) ltac:(lia)) as Br. fold r in Br.
  assert (A : forall j, tr q' (p + INR j * / INR (q_nfp q)) t c = sin_or_cos (targ q' c p t + 2 * PI * INR j * IZR (- r) / INR k) (1 * snd c)).
  { intros j. unfold tr.
    replace (targ q' c (p + INR j * / INR (q_nfp q)) t) with (targ q' c p t + 2 * PI * INR j * IZR (- r) / INR k + IZR (- (Z.of_nat j * (n / Z.of_nat k))) * (2 * PI)).
    - unfold sin_or_cos. now rewrite ProofSurface2.sin_Zperiod, ProofSurface2.cos_Zperiod.
    - unfold targ, trig_arg. fold n. rewrite !opp_IZR, mult_IZR, <- INR_IZR_INZ, E.
      assert (En : IZR n = INR k * IZR (n / Z.of_nat k) + IZR r) by (rewrite Dn at 1; rewrite plus_IZR, mult_IZR, <- INR_IZR_INZ; reflexivity).
      rewrite En. field. auto. }
  rewrite (Rsum_map_ext _ _ _ (fun j _ => A j)). destruct (r =? 0)%Z eqn:Er.
  - apply Z.eqb_eq in Er. rewrite (Rsum_map_ext _ (fun _ => tr q' p t c)).
    + now rewrite Rsum_const, seq_length.
    + intros j _. unfold tr. f_equal. rewrite Er. cbn [Z.opp]. field. auto.
  - apply Z.eqb_neq in Er. unfold sin_or_cos. destruct Hs as [-> | ->]; cbn [Z.mul Z.eqb Pos.eqb Pos.mul Z.opp].
    + apply dft_zero_sin; lia.
    + apply dft_zero; lia.
Qed.
Lemma periodic_part k q q' x : fewer_periods k q q' -> made q -> made q' -> periodic_harmonics k q q' -> length x = q_ndofs q' ->
  exists y, length y = q_ndofs q /\ forall p t, phi_of q y p t = / INR k * Rsum (map (fun j => phi_of q' x (p + INR j * / INR (q_nfp q)) t) (seq 0 k)).
Proof.
  intros D M M' (Es & Em & En) L. destruct (m_nfp k q q' D M) as (_ & _ & _ & Hk & _). destruct (m_INR k q q' D M) as (F & _ & F3 & F4).
  destruct (made_facts q M) as (_ & _ & N & _). destruct (made_facts q' M') as (_ & _ & N' & _).
  destruct (embed_part (fun c => (snd (fst c) mod Z.of_nat k =? 0)%Z) (qcols q') (map (stretch k) (qcols q))) with (x := x) as (y & Ly & Ey).
  - intros c Hc Kc. unfold qcols in *. rewrite Es, Em. now apply (shrink_in _ _ _ (q_ntor q')).
  - unfold qcols. rewrite length_pcols. congruence.
  - exists y. rewrite map_length in Ly. split; [rewrite Ly; unfold qcols; rewrite length_pcols; congruence|]. intros p t.
    unfold phi_of at 1. rewrite (map_ext (tr q p t) (fun c => tr q' p t (stretch k c))) by (intros; symmetry; now apply tr_stretch).
    rewrite <- (map_map (stretch k) (tr q' p t)), Ey. unfold phi_of. rewrite ldot_sum, <- ldot_map_scal. apply ldot_map_ext. intros c Hc.
    rewrite average_column by (auto; now apply (qcols_choice q')). destruct (_ =? 0)%Z; [field; exact F4|ring].
Qed.

(** ** The same device without the restriction to symmetric potentials *)
Lemma unrestricted q : made q -> exists q', made q' /\ finer q q' /\ q_stellsym q' = false /\ q_mpol q' = q_mpol q /\ q_ntor q' = q_ntor q.
Proof.
  intros M. destruct (made_facts q M) as (Hn & Hm & N1 & N2 & Ce & _). destruct M as (B1 & B2 & _).
  assert (E : exists q', make_params (q_plasma q) (q_winding q) (q_G q) (q_I q) (Some (q_Bnormal q)) (q_mpol q) (q_ntor q) (Some (arr1 (q_qphi q))) (Some (arr1 (q_qtheta q))) (Some false) = Ok q' /\
    same_device q q' /\ q_stellsym q' = false /\ q_mpol q' = q_mpol q /\ q_ntor q' = q_ntor q).
  { unfold make_params, make_base. destruct (s_nfp (q_winding q)) eqn:En; [contradiction|]. rewrite Hm. cbn [Nat.eqb negb].
    unfold resampled in Ce. rewrite Ce. cbn [bind]. eexists. split; [reflexivity|]. repeat split. }
  destruct E as (q' & E & D & Es & Em & En). exists q'. pose proof D as (D1 & D2 & _).
  split; [split; [now rewrite D1|split; [now rewrite D2|repeat eexists; exact E]]|]. split; [|auto].
  split; [exact D|]. rewrite Em, En. split; [reflexivity|]. split; [reflexivity|]. congruence.
Qed.
Lemma fewer_device k q q' q2 : fewer_periods k q q' -> same_device q' q2 -> fewer_periods k q q2.
Proof.
  intros D (E1 & E2 & E3 & E4 & E5 & E6 & E7). unfold fewer_periods. rewrite E1, E2, E3, E4, E5, E6, E7. exact D.
Qed.
Lemma ordered_device q q2 : ordered q -> same_device q q2 -> ordered q2.
Proof. intros O (E1 & E2 & E3 & E4 & E5 & E6 & E7). unfold ordered. rewrite E1, E6, E7. exact O. Qed.

(** ** Averages of turned designs *)
Definition turned_objective (other : list string) (q : params) (os : list (string * R)) : Prop :=
  forall name w, In (name, w) os -> 0 <= w /\ even_quantity other q name.
Lemma even_comparable other q name : even_quantity other q name -> In name even_names \/ In name odd_names \/ name = "f_B_normalized_by_Bnormal_IG".
Proof. intros [H|(H & _)]; auto. Qed.
Section Averages.
  Variables (other : list string) (k : nat) (q q' : params) (x : list R) (os : list (string * R)) (cs : list (string * cmp * R)) (fx : R).
  Hypothesis D : fewer_periods k q q'.
  Hypothesis M : made q.
  Hypothesis Lw : legal (q_winding q).
  Hypothesis Lp : legal (q_plasma q).
  Hypothesis S : sound q' x.
  Hypothesis O : ordered q'.
  Hypothesis St : q_stellsym q' = false.
  Hypothesis Ho : turned_objective other q' os.
  Hypothesis Hc : turned_constraints other q' cs.
  Hypothesis F : feasible other q' cs x.
  Hypothesis W : weighted other q' os x fx.
  Let M' : made q'. Proof. apply S. Qed.
  Notation T := (/ INR (q_nfp q)).
  Lemma turned_by j : exists z, length z = q_ndofs q' /\ (forall p t, phi_of q' z p t = phi_of q' x (p + INR j * T) t) /\ feasible other q' cs z /\ weighted other q' os z fx.
  Proof using D M Lw Lp S St Ho Hc F W M'.
    induction j as [|j (z & Lz & Ez & Fz & Wz)].
    - exists x. split; [apply S|]. split; [intros; f_equal; cbn [INR]; ring|auto].
    - destruct (turned_exists q' z T M' St Lz) as (y & Ly & Ey). pose proof (sound_other q' x z S Lz) as Sz. exists y. split; [exact Ly|]. split; [|split].
      + intros p t. rewrite Ey, Ez. f_equal. rewrite S_INR. ring.
      + apply (agree_feasible other q' z q' y); [|exact Fz]. intros name c b I. apply (turn_even other k q q' z y D M Lw Lp Sz Ly Ey).
        destruct (Hc name c b I) as [(Q & _)|Q]; [now apply (even_comparable other q')|auto].
      + apply (agree_weighted other q' z q' y); [|exact Wz]. intros name w I. apply (turn_even other k q q' z y D M Lw Lp Sz Ly Ey). now apply (even_comparable other q'), (Ho name w).
  Qed.
  Lemma averaged_over j : exists z fz, length z = q_ndofs q' /\ (forall p t, phi_of q' z p t = / INR (Datatypes.S j) * Rsum (map (fun i => phi_of q' x (p + INR i * T) t) (seq 0 (Datatypes.S j)))) /\
    feasible other q' cs z /\ weighted other q' os z fz /\ fz <= fx.
  Proof using D M Lw Lp S O St Ho Hc F W M'.
    assert (Co : forall name w, In (name, w) os -> 0 <= w /\ convex_quantity other name q').
    { intros name w I. destruct (Ho name w I) as [P Q]. split; [exact P|]. now apply (even_convex other q' x). }
    assert (Cc : forall name c b, In (name, c, b) cs -> match c with LE => convex_quantity other name q' | _ => affine_quantity other name q' end).
    { intros name c b I. destruct (Hc name c b I) as [(Q & ->)|Q]; [now apply (even_convex other q' x)|].
      pose proof (odd_affine other q' x name S Q) as A. destruct c; [now apply affine_convex|exact A|exact A]. }
    induction j as [|j (z & fz & Lz & Ez & Fz & Wz & B)].
    - exists x, fx. split; [apply S|]. split; [|repeat split; auto; lra]. intros p t. cbn [seq map INR]. unfold Rsum. cbn [fold_right]. replace (p + 0 * T) with p by ring. field.
    - destruct (turned_by (Datatypes.S j)) as (y & Ly & Ey & Fy & Wy). set (n := Datatypes.S j) in *.
      assert (Hn : 0 < INR n) by (apply lt_0_INR; unfold n; clear; lia).
      set (s := INR n / INR (Datatypes.S n)). assert (En : INR (Datatypes.S n) = INR n + 1) by apply S_INR.
      assert (Hs : 0 <= s <= 1).
      { unfold s. rewrite En. split; [apply Rmult_le_pos; [lra|left; apply Rinv_0_lt_compat; lra]|]. apply Rmult_le_reg_r with (INR n + 1); [lra|]. unfold Rdiv. rewrite Rmult_assoc, Rinv_l by lra. lra. }
      destruct (weighted_convex other q' os Co z y s fz fx Lz Ly Hs Wz Wy) as (fv & Wv & Bv). exists (lincomb s (1 - s) z y), fv.
      split; [rewrite length_lincomb; congruence|]. split; [|split; [now apply feasible_convex|split; [exact Wv|]]].
      + intros p t. unfold phi_of at 1. rewrite ldot_lincomb by congruence. fold (phi_of q' z p t). fold (phi_of q' y p t). rewrite Ez, Ey.
        rewrite (seq_S n 0), map_app, Rsum_app. cbn [map plus]. unfold Rsum at 3. cbn [fold_right]. unfold s. rewrite En. field. lra.
      + assert (s * fz <= s * fx) by (apply Rmult_le_compat_l; lra). lra.
  Qed.
End Averages.

Lemma even_device_name other q q2 name : same_device q q2 -> (exists x, sound q x) -> made q2 -> even_quantity other q name -> even_quantity other q2 name.
Proof.
  intros D (x & S) M2 [H|(-> & r0 & R & P)]; [now left|]. right. split; [reflexivity|]. exists r0. split; [|exact P].
  destruct (same_reads other q q2 (repeat 0 (q_ndofs q)) (repeat 0 (q_ndofs q2)) "f_B" D (sound_zero q x S) M2 (repeat_length _ _)) as (v & A & B).
  - apply (proj2 (potential_same q q2 _ _ (proj1 S) M2 (repeat_length _ _) (repeat_length _ _))). apply same_zero.
  - split; [cbn; tauto|discriminate].
  - split; [cbn; tauto|discriminate].
  - now rewrite (reads_fun _ _ _ _ _ _ R A).
Qed.
Lemma comparable_usable q name : In name even_names \/ In name odd_names \/ name = "f_B_normalized_by_Bnormal_IG" -> usable q name.
Proof.
  intros H. assert (K : In name (map fst dimensions) /\ name <> "K_theta").
  { destruct H as [H|[H| ->]]; [| |split; [cbn; tauto|discriminate]].
    - repeat (destruct H as [<-|H]; [split; [cbn; tauto|discriminate]|]). destruct H.
    - destruct H as [<-|[<-|[]]]; (split; [cbn; tauto|discriminate]). }
  destruct K as [K1 K2]. split; [exact K1|intros; contradiction].
Qed.
Lemma fewer_swap other k q q' x x' name : fewer_periods k q q' -> sound q x -> sound q' x' -> (forall p t, phi_of q' x' p t = phi_of q x p t) ->
  In name even_names \/ In name odd_names \/ name = "f_B_normalized_by_Bnormal_IG" -> agrees other q' x' q x name.
Proof.
  intros D S S' E H. apply agrees_sym; [now apply (fewer_even other k)|]. intros v r Rd ->.
  destruct H as [H|[H| ->]].
  - destruct H as [<-|[<-|[<-|H]]].
    + exfalso. pose proof (reads_fun _ _ _ _ _ _ Rd (reads_K2 other q' x' S')). discriminate.
    + exfalso. destruct (reads_Bnormal other q' x' S') as (g & Eg & _). pose proof (reads_fun _ _ _ _ _ _ Rd (reads_Bnormal2 other q' x' S' g Eg)). discriminate.
    + exfalso. pose proof (reads_fun _ _ _ _ _ _ Rd (reads_Phi2 other q' x' S')). discriminate.
    + assert (A : forall nm fld h, In (nm, fld, h) [("f_max_K2", "K2", fun y : R => y); ("f_max_K_dot_grad_K_cyl", "K_dot_grad_K_cyl", Rabs); ("f_max_Bnormal", "Bnormal", Rabs);
        ("f_max_Bnormal2", "Bnormal", fun y => y * y); ("f_max_Phi", "Phi", Rabs); ("f_max_Phi2", "Phi", fun y => y * y); ("f_max_Phi4", "Phi", fun y => y ^ 4)] -> exists s, reads other nm q x (scal s)).
      { intros nm fld h I. destruct (largest_value other q x S nm fld h I) as (m & _ & Rm & _). eauto. }
      assert (B : forall nm fld surf h, In (nm, fld, surf, h) [("f_K", "K2", q_eval q, fun y => y / 2); ("f_B", "Bnormal", q_plasma q, fun y => y * y / 2); ("f_Phi", "Phi", q_eval q, fun y => y * y / 2);
        ("f_l1_Phi", "Phi", q_eval q, Rabs); ("f_huber_K", "K2", q_eval q, sqrt)] -> exists s, reads other nm q x (scal s)).
      { intros nm fld surf h I. destruct (integral_value other q x S nm fld surf h I) as (m & _ & _ & Rm & _). eauto. }
      clear Rd. repeat (destruct H as [<-|H]; [first [eapply A; cbn; tauto|eapply B; cbn; tauto]|]). destruct H.
  - exfalso. destruct H as [<-|[<-|[]]].
    + pose proof (reads_fun _ _ _ _ _ _ Rd (reads_Phi other q' x' S')). discriminate.
    + destruct (reads_Bnormal other q' x' S') as (g & _ & Rg). pose proof (reads_fun _ _ _ _ _ _ Rd Rg). discriminate.
  - destruct (normalised_value other q x S) as (_ & _ & w & _ & _ & Rw & _). eauto.
Qed.

Lemma periodic_no_worse other k q q' x os cs fx : made q -> legal (q_winding q) -> legal (q_plasma q) -> plasma_shaped q -> sound q' x -> ordered q' ->
  fewer_periods k q q' -> periodic_harmonics k q q' -> turned_objective other q' os -> turned_constraints other q' cs ->
  feasible other q' cs x -> weighted other q' os x fx ->
  exists y fy, length y = q_ndofs q /\ feasible other q cs y /\ weighted other q os y fy /\ fy <= fx.
Proof.
  intros M Lw Lp Ps S' O D Hh Ho Hc F W. assert (M' : made q') by apply S'. assert (L' : length x = q_ndofs q') by apply S'.
  destruct (m_nfp k q q' D M) as (_ & _ & _ & Hk & _).
  destruct (unrestricted q' M') as (q2 & M2 & Fi & St & Em & En). pose proof Fi as (Dv & _).
  destruct (finer_contains q' q2 x Fi M' M2 L') as (x2 & L2 & P2). pose proof (same_sound q' q2 x x2 Dv S' M2 L2) as S2.
  pose proof (proj1 (potential_same q' q2 x x2 M' M2 L' L2) P2) as E2.
  assert (Co : forall name w, In (name, w) os -> In name even_names \/ In name odd_names \/ name = "f_B_normalized_by_Bnormal_IG") by (intros name w I; now apply (even_comparable other q'), (Ho name w)).
  assert (Cc : forall name c b, In (name, c, b) cs -> In name even_names \/ In name odd_names \/ name = "f_B_normalized_by_Bnormal_IG").
  { intros name c b I. destruct (Hc name c b I) as [(Q & _)|Q]; [now apply (even_comparable other q')|auto]. }
  assert (F2 : feasible other q2 cs x2) by (apply (same_feasible other q' q2 x x2 cs Dv S' M2 L2 P2); [intros name c b I; split; apply comparable_usable; now apply (Cc name c b)|exact F]).
  assert (W2 : weighted other q2 os x2 fx) by (apply (same_weighted other q' q2 x x2 os fx Dv S' M2 L2 P2); [intros name w I; split; apply comparable_usable; now apply (Co name w)|exact W]).
  pose proof (fewer_device k q q' q2 D Dv) as D2. pose proof (ordered_device q' q2 O Dv) as O2.
  assert (Ho2 : turned_objective other q2 os) by (intros name w I; destruct (Ho name w I) as (A & B); split; [exact A|]; apply (even_device_name other q'); eauto).
  assert (Hc2 : turned_constraints other q2 cs) by (intros name c b I; destruct (Hc name c b I) as [(A & B)|A]; [left; split; [apply (even_device_name other q'); eauto|exact B]|now right]).
  destruct (averaged_over other k q q2 x2 os cs fx D2 M Lw Lp S2 O2 St Ho2 Hc2 F2 W2 (k - 1)) as (z & fz & Lz & Ez & Fz & Wz & B).
  replace (Datatypes.S (k - 1)) with k in Ez by (clear - Hk; lia).
  destruct (periodic_part k q q' x D M M' Hh L') as (y & Ly & Ey).
  assert (Sy : sound q y) by (repeat (split; [assumption|]); exact Ly). pose proof (sound_other q2 x2 z S2 Lz) as Sz.
  assert (E : forall p t, phi_of q2 z p t = phi_of q y p t).
  { intros p t. rewrite Ez, Ey. f_equal. apply Rsum_map_ext. intros j _. apply E2. }
  exists y, fz. split; [exact Ly|]. split; [|split; [|exact B]].
  - apply (agree_feasible other q2 z q y); [|exact Fz]. intros name c b I. apply (fewer_swap other k q q2 y z name D2 Sy Sz E). now apply (Cc name c b).
  - apply (agree_weighted other q2 z q y); [|exact Wz]. intros name w I. apply (fewer_swap other k q q2 y z name D2 Sy Sz E). now apply (Co name w).
Qed.
Lemma weighted_det other q os x r r' : weighted other q os x r -> weighted other q os x r' -> r = r'.
Proof.
  intros (v1 & F1 & ->) (v2 & F2 & ->). f_equal. f_equal. clear - F1 F2. revert v2 F2. induction F1; intros v2 F2; inversion F2; subst; auto.
  f_equal; [|auto]. match goal with A : reads _ _ _ _ (scal ?a), B : reads _ _ _ _ (scal ?b) |- _ => pose proof (reads_fun _ _ _ _ _ _ A B) as Q; now injection Q end.
Qed.
Lemma periodic_still_optimal other k q q' z os cs fz : sound q z -> made q' -> legal (q_winding q') -> legal (q_plasma q') -> plasma_shaped q' -> ordered q' ->
  fewer_periods k q q' -> periodic_harmonics k q q' -> turned_objective other q' os -> turned_constraints other q' cs ->
  feasible other q cs z -> weighted other q os z fz -> least other q os cs z (fun _ => True) ->
  exists x, length x = q_ndofs q' /\ same_potential q z q' x /\ feasible other q' cs x /\ weighted other q' os x fz /\ least other q' os cs x (fun _ => True).
Proof.
  intros S M' Lw' Lp' Ps' O D Hh Ho Hc F W Z. pose proof S as (M & Lw & Lp & Ps & L). destruct (m_nfp k q q' D M) as (_ & _ & _ & Hk & _). pose proof Hh as (H1 & H2 & H3).
  destruct (described k q q' z D M M' H1 H2) as (x & Lx & Ex); [rewrite H3; now apply Nat.mul_div_le|exact L|].
  assert (Sx : sound q' x) by (repeat (split; [assumption|]); exact Lx).
  assert (Wx : weighted other q' os x fz).
  { apply (agree_weighted other q z q' x); [|exact W]. intros name w I. apply (fewer_even other k q q' z x name D S Sx Ex). now apply (even_comparable other q'), (Ho name w). }
  exists x. split; [exact Lx|]. split; [now apply (proj2 (potential_same q q' z x M M' L Lx))|]. split; [|split; [exact Wx|]].
  - apply (agree_feasible other q z q' x); [|exact F]. intros name c b I. apply (fewer_even other k q q' z x name D S Sx Ex).
    destruct (Hc name c b I) as [(Q & _)|Q]; [now apply (even_comparable other q')|auto].
  - intros y fx fy Ly _ Fy W1 Wy. pose proof (sound_other q' x y Sx Ly) as Sy.
    destruct (periodic_no_worse other k q q' y os cs fy M Lw Lp Ps Sy O D Hh Ho Hc Fy Wy) as (y' & fy' & Ly' & Fy' & Wy' & B).
    pose proof (Z y' fz fy' Ly' I Fy' W Wy') as B'. rewrite (weighted_det _ _ _ _ _ _ W1 Wx). lra.
Qed.
