(** Designs of mirrored machines, and the existence of the latter. *)
From Coq Require Import String List Bool Arith ZArith Reals Lra Lia Permutation.
From Verif Require Import Base ModelArray ProofArray ModelMath SpecMath ProofMath ModelSurface SpecSurface ProofSurface ProofSurface2 ProofSurface3
  ModelParams ModelField SpecField ProofField ProofField2 ProofField3
  ModelQuantity SpecQuantity ModelWrapper SpecWrapper ModelPackage SpecPackage ProofPackage ProofPackage2 ProofPackage4
  SpecConvex ProofConvex SpecBest SpecRefine ProofRefine SpecMirror SpecNfp ProofNfp ProofNfp2 ProofNfp3 ProofNfp4 ProofAxi SpecOrigin ProofOrigin ProofOrigin2 SpecHand ProofHand.
Import ListNotations.
Open Scope R_scope.
Open Scope string_scope.
Open Scope list_scope.

(** ** The mirror image of the mirror image *)
Lemma hand_back q q' : mirrored_device q q' -> mirrored_device q' q.
Proof.
  intros (A & B & C & D & G & I & b & Pb & Eb & Eb'). split; [now apply mirrored_back|]. split; [now apply mirrored_back|]. split; [now symmetry|]. split; [now apply angles_sym|].
  split; [now symmetry|]. split; [rewrite I; ring|]. exists (fun p t => b p (- t)). split; [|split; [exact Eb'|]].
  - intros p t. replace (- (t + 1)) with (- t + IZR (-1)) by ring. apply (turns (b p)), Pb.
  - rewrite Eb. apply sample_ext. intros p t. now rewrite Ropp_involutive.
Qed.
Lemma hand_phi q x q' x' : made q -> made q' -> length x = q_ndofs q -> length x' = q_ndofs q' -> mirrored_potential q x q' x' <-> forall p t, phi_of q' x' p t = phi_of q x p (- t).
Proof.
  intros M M' L L'.
  assert (Q : qreports (fun q => Phi q x) q (phi_of q x)) by (apply qreports_of; [exact M|]; intros ps ts r _ _ P; now apply (Phi_placed q x M L)).
  assert (Q' : qreports (fun q => Phi q x') q' (phi_of q' x')) by (apply qreports_of; [exact M'|]; intros ps ts r _ _ P; now apply (Phi_placed q' x' M' L')). split.
  - intros (F & A & B) p t. now rewrite (qreports_unique _ _ _ _ Q' B), (qreports_unique _ _ _ _ Q A).
  - intros H. exists (phi_of q x). split; [exact Q|]. intros ps ts Hp Ht. destruct (Q' ps ts Hp Ht) as (r & A & B). exists r. split; [exact A|]. rewrite B. f_equal. apply sample_ext. intros p t. apply H.
Qed.
Lemma hand_potential_back q x q' x' : made q -> made q' -> length x = q_ndofs q -> length x' = q_ndofs q' -> mirrored_potential q x q' x' -> mirrored_potential q' x' q x.
Proof.
  intros M M' L L' H. apply (hand_phi q' x' q x M' M L' L). intros p t. now rewrite (proj1 (hand_phi q x q' x' M M' L L') H), Ropp_involutive.
Qed.
(** Harmonics with the toroidal number reversed. *)
Definition turnover (mn : Z * Z) : Z * Z := if (fst mn =? 0)%Z then mn else (fst mn, (- snd mn)%Z).
Definition parity (mn : Z * Z) : R := if (fst mn =? 0)%Z then 1 else -1.
Lemma turnover_mode m n mn : is_mode m n mn -> is_mode m n (turnover mn).
Proof. destruct mn as [a b]. unfold turnover, is_mode. cbn [fst snd]. destruct (Z.eqb_spec a 0); [auto|]. intros [H|H]; lia. Qed.
Lemma turnover_zero mn : mn <> (0%Z, 0%Z) -> turnover mn <> (0%Z, 0%Z).
Proof. destruct mn as [a b]. unfold turnover. cbn [fst snd]. destruct (Z.eqb_spec a 0) as [->|H]; [auto|]. congruence. Qed.
Lemma turnover_arg (f : Z -> Z -> R -> R) mn t : (forall a b t, f a b (- t) = - f a (- b)%Z t) -> (forall b t u, f 0%Z b t = f 0%Z b u) ->
  cos (f (fst mn) (snd mn) (- t)) = cos (f (fst (turnover mn)) (snd (turnover mn)) t) /\ sin (f (fst mn) (snd mn) (- t)) = parity mn * sin (f (fst (turnover mn)) (snd (turnover mn)) t).
Proof.
  intros H H0. destruct mn as [a b]. unfold turnover, parity. cbn [fst snd]. destruct (Z.eqb_spec a 0) as [->|Ha]; cbn [fst snd].
  - rewrite (H0 b (- t) t). split; ring.
  - rewrite H, cos_neg, sin_neg. split; ring.
Qed.
Lemma design_hand q x q' : made q -> made q' -> mirrored_device q q' -> same_harmonics q q' -> length x = q_ndofs q ->
  exists x', length x' = q_ndofs q' /\ mirrored_potential q x q' x'.
Proof.
  intros M M' D (E1 & E2 & E3) L. assert (Nf : q_nfp q' = q_nfp q) by (apply hd_nfp; exact D).
  destruct (made_facts q M) as (_ & _ & Nd & _). destruct (made_facts q' M') as (_ & _ & Nd' & _).
  assert (Q : length (qcols q) = q_ndofs q) by (unfold qcols; rewrite length_pcols; congruence). assert (Q' : length (qcols q') = q_ndofs q') by (unfold qcols; rewrite length_pcols; congruence).
  destruct (recombine (qcols q) (qcols q') (fun u => tr q (fst u) (- snd u)) (fun u => tr q' (fst u) (snd u))) with (x := x) as (z & Lz & Ez).
  - intros [[a b] s] Hc.
    assert (Hd : In (turnover (a, b), s) (qcols q')).
    { unfold qcols in *. rewrite E1, E2, E3. rewrite (surjective_pairing (turnover (a, b))). rewrite pcols_in in *. rewrite <- (surjective_pairing (turnover (a, b))). destruct Hc as (Hm & H). split; [now apply turnover_mode|].
      destruct H as [(H & ->)|H]; [left; split; [now apply turnover_zero|reflexivity]|now right]. }
    destruct (one_column (turnover (a, b), s) (qcols q') (if (s =? 1)%Z then parity (a, b) else 1) Hd) as (z & Lz & Ez). exists z. split; [exact Lz|]. intros [p t]. rewrite Ez. cbn [fst snd]. unfold tr, targ. cbn [fst snd].
    destruct (turnover_arg (fun a b t => trig_arg (q_nfp q) p t a b) (a, b) t) as (A & B); [intros; unfold trig_arg; rewrite opp_IZR; ring|intros; unfold trig_arg; ring|]. cbn [fst snd] in A, B.
    rewrite Nf. unfold sin_or_cos. destruct (qcols_choice q _ Hc) as [Es|Es]; cbn [snd] in Es; rewrite Es; cbn [Z.mul Z.eqb Pos.eqb Pos.mul]; [rewrite B|rewrite A]; ring.
  - congruence.
  - exists z. split; [congruence|]. apply hand_phi; auto; [congruence|]. intros p t. exact (Ez (p, t)).
Qed.

(** ** Readings and best designs *)
Lemma hand_agrees other q q' x x' name : sound q x -> sound q' x' -> mirrored_device q q' -> mirrored_potential q x q' x' -> comparable name -> agrees other q x q' x' name.
Proof.
  intros S S' D P. assert (E : forall p t, phi_of q' x' p t = phi_of q x p (- t)) by (apply hand_phi; auto; [apply S|apply S'|apply S|apply S']).
  intros [C|[C| ->]]; [apply hd_agrees; auto|apply hd_agrees; auto|].
  pose proof (hd_agrees other q q' x x' S S' D E "f_B" ltac:(cbn; tauto)) as A.
  assert (E0 : forall p t, phi_of q' (repeat 0 (q_ndofs q')) p t = phi_of q (repeat 0 (q_ndofs q)) p (- t)) by (intros p t; unfold phi_of; now rewrite !ProofPackage4.ldot_zeros).
  pose proof (hd_agrees other q q' _ _ (sound_zero q x S) (sound_zero q' x' S') D E0 "f_B" ltac:(cbn; tauto)) as Z.
  destruct (normalised_value other q x S) as (r & r0 & v & Rr & R0 & Rv & ->). destruct (normalised_value other q' x' S') as (r' & r0' & v' & Rr' & R0' & Rv' & ->).
  apply (agrees_scal other q x q' x' _ _ Rv). pose proof (reads_fun _ _ _ _ _ _ (agrees_same _ _ _ _ _ _ _ A Rr) Rr') as Q. injection Q as ->.
  pose proof (reads_fun _ _ _ _ _ _ (agrees_same _ _ _ _ _ _ _ Z R0) R0') as Q. injection Q as ->. exact Rv'.
Qed.
Lemma harmonics_back q q' : same_harmonics q q' -> same_harmonics q' q.
Proof. intros (A & B & C). repeat (split; [now symmetry|]). now symmetry. Qed.
Lemma hand_best other q q' z z' os cs x fx : sound q z -> sound q' z' -> mirrored_device q q' -> same_harmonics q q' ->
  (forall name w, In (name, w) os -> comparable name) -> (forall name c d, In (name, c, d) cs -> comparable name) ->
  best other q os cs x fx -> exists x', best other q' os cs x' fx /\ mirrored_potential q x q' x'.
Proof.
  intros S S' D U Co Cc (L & F & W & Le).
  assert (M : made q) by apply S. assert (M' : made q') by apply S'.
  destruct (design_hand q x q' M M' D U L) as (x' & L' & P). exists x'. split; [|exact P].
  pose proof (sound_other q z x S L) as Sx. pose proof (sound_other q' z' x' S' L') as Sx'.
  pose proof (hand_back q q' D) as D'. pose proof (hand_potential_back q x q' x' M M' L L' P) as P'.
  split; [exact L'|]. split; [|split].
  - apply (agree_feasible other q x q' x'); [|exact F]. intros name c d I. apply hand_agrees; eauto.
  - apply (agree_weighted other q x q' x'); [|exact W]. intros name c I. apply hand_agrees; eauto.
  - intros y' fx' fy Ly' _ Fy' Wx' Wy'.
    destruct (design_hand q' y' q M' M D' (harmonics_back q q' U) Ly') as (y & Ly & Py).
    pose proof (sound_other q z y S Ly) as Sy. pose proof (sound_other q' z' y' S' Ly') as Sy'.
    apply (Le y fx' fy Ly I).
    + apply (agree_feasible other q' y' q y); [|exact Fy']. intros name c d J. apply hand_agrees; eauto.
    + apply (agree_weighted other q' x' q x); [|exact Wx']. intros name c J. apply hand_agrees; eauto.
    + apply (agree_weighted other q' y' q y); [|exact Wy']. intros name c J. apply hand_agrees; eauto.
Qed.

(** ** Mirror images exist *)
Lemma tagged_turnover st m n f mn : (In (f, CCos mn) (tagged st m n) -> In (f, CCos (turnover mn)) (tagged st m n)) /\ (In (f, CSin mn) (tagged st m n) -> In (f, CSin (turnover mn)) (tagged st m n)).
Proof.
  assert (Tc : In mn (cmodes m n) -> In (turnover mn) (cmodes m n)) by (intros H; apply (proj2 (cmodes_once m n)); apply (proj2 (cmodes_once m n)) in H; now apply turnover_mode).
  assert (Ts : In mn (smodes m n) -> In (turnover mn) (smodes m n)).
  { destruct mn as [a b]. intros H. apply smodes_in in H as (H & H0). rewrite (surjective_pairing (turnover (a, b))). apply smodes_in. rewrite <- (surjective_pairing (turnover (a, b))). split; [now apply turnover_mode|now apply turnover_zero]. }
  assert (Ic : forall k l, In (CCos k) (map CCos l) <-> In k l) by (intros k l; rewrite in_map_iff; split; [intros (j & E & H); injection E as ->; exact H|eauto]).
  assert (Is : forall k l, In (CSin k) (map CSin l) <-> In k l) by (intros k l; rewrite in_map_iff; split; [intros (j & E & H); injection E as ->; exact H|eauto]).
  assert (Xc : forall k l, In (CCos k) (map CSin l) <-> False) by (intros k l; split; [|tauto]; intros H; apply in_map_iff in H as (j & E & _); discriminate).
  assert (Xs : forall k l, In (CSin k) (map CCos l) <-> False) by (intros k l; split; [|tauto]; intros H; apply in_map_iff in H as (j & E & _); discriminate).
  assert (Pf : forall (g h : bool) (c : colm) l, In (g, c) (map (pair h) l) <-> g = h /\ In c l) by (intros g h c l; rewrite in_map_iff; split; [intros (j & E & H); injection E as -> ->; auto|intros (-> & H); eauto]).
  unfold tagged. cbv zeta. rewrite !in_app_iff, !Pf. destruct st; rewrite ?in_app_iff, ?Ic, ?Is, ?Xc, ?Xs; clear - Tc Ts; tauto.
Qed.
Lemma mirrored_surface_exists s : legal s -> s_qphi s <> [] -> s_qtheta s <> [] -> mirrored_angles (s_qtheta s) (s_qtheta s) ->
  exists s', built s' /\ legal s' /\ mirrored_surface s s' /\ s_stellsym s' = s_stellsym s /\ s_mpol s' = s_mpol s /\ s_ntor s' = s_ntor s /\ s_qtheta s' = s_qtheta s.
Proof.
  intros L Hp Ht An. unfold legal in L.
  assert (Lt : forall st mp nt, length (tagged st mp nt) = legal_length st mp nt) by (intros; rewrite <- length_rcols, rcols_tagged; now rewrite map_length).
  set (cols := tagged (s_stellsym s) (s_mpol s) (s_ntor s)).
  set (sel := fun (z : bool) c => if z then ztag c else rtag c).
  set (sg := fun z : bool => if z then -1 else 1).
  destruct (recombine cols cols (fun u : R * R * bool => fun c => sg (snd u) * centry (s_nfp s) 0 0 (fst (fst u)) (- snd (fst u)) (sel (snd u) c)) (fun u c => centry (s_nfp s) 0 0 (fst (fst u)) (snd (fst u)) (sel (snd u) c))) with (x := s_dofs s) as (d & Ld & Ed).
  { intros [f c] Hc. destruct (tagged_cases _ _ _ _ _ Hc) as [(mn & -> & Hm)|(mn & -> & Hm)].
    - destruct (one_column (f, CCos (turnover mn)) cols (sg f) (proj1 (tagged_turnover _ _ _ f mn) Hc)) as (z1 & L1 & F1). exists z1. split; [exact L1|]. intros [[p t] g]. rewrite F1. cbn [fst snd].
      destruct (turnover_arg (fun a b t => phase_even (s_nfp s) a b p t) mn t) as (A & B); [intros; unfold phase_even; rewrite opp_IZR; ring|intros; unfold phase_even; ring|].
      unfold sel, sg, ztag, rtag. destruct g, f; cbn [fst snd centry]; try ring; rewrite !(proj1 (entry00 _ _ _ _)), A; ring.
    - destruct (one_column (f, CSin (turnover mn)) cols (sg f * parity mn) (proj2 (tagged_turnover _ _ _ f mn) Hc)) as (z1 & L1 & F1). exists z1. split; [exact L1|]. intros [[p t] g]. rewrite F1. cbn [fst snd].
      destruct (turnover_arg (fun a b t => phase_even (s_nfp s) a b p t) mn t) as (A & B); [intros; unfold phase_even; rewrite opp_IZR; ring|intros; unfold phase_even; ring|].
      unfold sel, sg, ztag, rtag. destruct g, f; cbn [fst snd centry]; try ring; rewrite !(proj2 (entry00 _ _ _ _)), B; ring. }
  { unfold cols. now rewrite Lt. }
  assert (Ld' : length d = legal_length (s_stellsym s) (s_mpol s) (s_ntor s)) by (rewrite Ld; apply Lt).
  assert (E : exists s', make_surface (s_nfp s) (s_stellsym s) (s_mpol s) (s_ntor s) (arr1 (s_qphi s)) (arr1 (s_qtheta s)) (arr1 d) = Ok s' /\
    s_nfp s' = s_nfp s /\ s_stellsym s' = s_stellsym s /\ s_mpol s' = s_mpol s /\ s_ntor s' = s_ntor s /\ s_dofs s' = d /\ s_qphi s' = s_qphi s /\ s_qtheta s' = s_qtheta s).
  { clear - Hp Ht. revert Hp Ht. generalize (s_qphi s) (s_qtheta s). intros ps ts Hp Ht. unfold make_surface. destruct ps as [|p0 [|]]; [contradiction| |]; (destruct ts as [|t0 [|]]; [contradiction| |]); cbn; eexists; (split; [reflexivity|repeat split]). }
  destruct E as (s' & E & E1 & E2 & E3 & E4 & E5 & E6 & E7). exists s'. split; [unfold built; eauto 10|].
  assert (L' : legal s') by (unfold legal; now rewrite E2, E3, E4, E5). split; [exact L'|]. split; [|auto]. split; [exact E1|]. split; [exact E6|]. split; [now rewrite E7|].
  exists (pt s 0 0), (pt s' 0 0). split; [exact (reports_gammadash s 0 0 L)|]. split; [exact (reports_gammadash s' 0 0 L')|].
  intros p t. assert (Rv : rval s' 0 0 p t = rval s 0 0 p (- t) /\ zval s' 0 0 p t = - zval s 0 0 p (- t)).
  { unfold rval, zval. rewrite E1, E2, E3, E4, E5, !rcols_tagged, !zcols_tagged, !map_map. fold cols.
    pose proof (Ed (p, t, false)) as A. pose proof (Ed (p, t, true)) as B. cbn [fst snd] in A, B. unfold sel, sg in A, B. rewrite A, B. rewrite !ldot_map_scal. split; ring. }
  destruct Rv as (A & B). rewrite !pt_00, A, B. reflexivity.
Qed.
Lemma mirrored_exists q x b : sound q x -> mirrored_angles (s_qtheta (q_plasma q)) (s_qtheta (q_plasma q)) -> mirrored_angles (s_qtheta (q_winding q)) (s_qtheta (q_winding q)) -> mirrored_angles (q_qtheta q) (q_qtheta q) ->
  (forall p t, b p (t + 1) = b p t) -> q_Bnormal q = sample b (s_qphi (q_plasma q)) (s_qtheta (q_plasma q)) ->
  exists q', sound q' x /\ mirrored_device q q' /\ same_harmonics q q'.
Proof.
  intros (M & Lw & Lp & Ps & L) Ap Aw Ae Pb Eb. destruct (made_facts q M) as (Nz & Md & Nd & _ & Ce & Cw & Cp).
  assert (Ne : forall s ps ts r, resampled s ps ts r -> ps <> [] /\ ts <> []).
  { intros s ps ts r H. unfold resampled, copy_and_set_quadpoints, make_surface in H. split; intros ->; cbn in H; [discriminate|destruct ps; discriminate]. }
  destruct (Ne _ _ _ _ Ce) as (Pe & Te). destruct (Ne _ _ _ _ Cw) as (Pw & Tw). destruct (Ne _ _ _ _ Cp) as (Pp & Tp).
  destruct (mirrored_surface_exists (q_plasma q) Lp Pp Tp Ap) as (pl & Bp & Lp' & Sp & _ & _ & _ & Qpt). destruct (mirrored_surface_exists (q_winding q) Lw Pw Tw Aw) as (wi & Bw & Lw' & Sw & _).
  pose proof Sw as (Nw & Qw & _). pose proof Sp as (_ & Qp & _).
  destruct (copy_ok wi (q_qphi q) (q_qtheta q) Pe Te) as (ev & Ev).
  set (bn := sample (fun p t => b p (- t)) (s_qphi pl) (s_qtheta pl)).
  assert (Q : exists q', make_params pl wi (q_G q) (- q_I q) (Some bn) (q_mpol q) (q_ntor q) (Some (arr1 (q_qphi q))) (Some (arr1 (q_qtheta q))) (Some (q_stellsym q)) = Ok q' /\
    q_plasma q' = pl /\ q_winding q' = wi /\ q_G q' = q_G q /\ q_I q' = - q_I q /\ q_Bnormal q' = bn /\ q_qphi q' = q_qphi q /\ q_qtheta q' = q_qtheta q /\
    q_stellsym q' = q_stellsym q /\ q_mpol q' = q_mpol q /\ q_ntor q' = q_ntor q).
  { unfold make_params, make_base. rewrite Nw. destruct (s_nfp (q_winding q)) as [|kn] eqn:EkN; [now contradict Nz|].
    replace (length (s_qphi wi) mod Datatypes.S kn)%nat with 0%nat by (rewrite Qw; symmetry; exact Md).
    cbn [Nat.eqb negb]. unfold resampled in Ev. rewrite Ev. cbn [bind]. eexists. split; [reflexivity|]. repeat split. }
  destruct Q as (q' & Mk & E1 & E2 & E3 & E4 & E5 & E6 & E7 & E8 & E9 & E10). exists q'.
  assert (M' : made q') by (split; [now rewrite E1|split; [now rewrite E2|]]; do 10 eexists; exact Mk).
  split; [|split; [|repeat split; auto]].
  - split; [exact M'|]. rewrite E1, E2. split; [exact Lw'|]. split; [exact Lp'|]. split.
    + unfold plasma_shaped. rewrite E5, E1. unfold bn, sample. rewrite map_length. split; [reflexivity|]. apply Forall_forall. intros l Hl. apply in_map_iff in Hl as (p & <- & _). apply map_length.
    + destruct (made_facts q' M') as (_ & _ & Nd' & _). rewrite L, Nd, Nd', E8, E9, E10. reflexivity.
  - unfold mirrored_device. rewrite E1, E2, E3, E4, E5, E6, E7. repeat (split; [auto|]). exists b. auto.
Qed.
(** Whole turns of equispaced angles are their own mirror image. *)
Lemma whole_turn n : (0 < n)%nat -> mirrored_angles (equispaced 0 (/ INR n) n) (equispaced 0 (/ INR n) n).
Proof.
  intros Hn. split; [reflexivity|]. assert (Fn : INR n <> 0) by (apply not_0_INR; lia).
  exists (map (fun i => 0 + INR i * / INR n) (map (fun i => (n - i) mod n)%nat (seq 0 n))). split.
  - apply Permutation_map. apply NoDup_Permutation_bis.
    + assert (G : forall l, (forall i, In i l -> (i < n)%nat) -> NoDup l -> NoDup (map (fun i => (n - i) mod n)%nat l)).
      { induction l as [|i l IH]; intros Hl Nl; cbn [map]; [constructor|]. inversion Nl as [|? ? Hi Hd]; subst. constructor; [|apply IH; auto; intros; apply Hl; now right].
        intros Hx. apply in_map_iff in Hx as (j & Ej & Hj). pose proof (Hl i (or_introl eq_refl)) as Bi. pose proof (Hl j (or_intror Hj)) as Bj. apply Hi. replace i with j; [exact Hj|].
        destruct (Nat.eq_dec i 0) as [->|Zi]; destruct (Nat.eq_dec j 0) as [->|Zj]; [reflexivity| | |].
        - rewrite Nat.sub_0_r, Nat.mod_same, Nat.mod_small in Ej by lia. lia.
        - rewrite Nat.sub_0_r, Nat.mod_same, Nat.mod_small in Ej by lia. lia.
        - rewrite !Nat.mod_small in Ej by lia. lia. }
      apply G; [intros i Hi; apply in_seq in Hi; lia|apply seq_NoDup].
    + rewrite map_length. reflexivity.
    + intros i Hi. apply in_map_iff in Hi as (j & <- & Hj). apply in_seq. pose proof (Nat.mod_upper_bound (n - j) n). lia.
  - unfold equispaced. rewrite map_map. assert (G : forall l, (forall i, In i l -> (i < n)%nat) -> List.Forall2 (fun t t' => exists k, t' = IZR k - t) (map (fun i => 0 + INR i * / INR n) l) (map (fun i => 0 + INR ((n - i) mod n) * / INR n) l)).
    { induction l as [|i l IH]; intros Hl; cbn [map]; constructor; [|apply IH; intros; apply Hl; now right]. pose proof (Hl i (or_introl eq_refl)) as Bi.
      destruct (Nat.eq_dec i 0) as [->|Zi]; [exists 0%Z; rewrite Nat.sub_0_r, Nat.mod_same by lia; cbn [INR]; ring|].
      exists 1%Z. rewrite Nat.mod_small by lia. rewrite minus_INR by lia. field. exact Fn. }
    apply G. intros i Hi. apply in_seq in Hi. lia.
Qed.
