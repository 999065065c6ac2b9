(** Designs of moved machines, and the existence of the latter. *)
From Coq Require Import String List Bool Arith ZArith Reals Lra Lia.
From Verif Require Import Base ModelArray ProofArray ModelMath SpecMath ProofMath ModelSurface SpecSurface ProofSurface ProofSurface2 ProofSurface3
  ModelParams ModelField SpecField ProofField ProofField2 ProofField3
  ModelQuantity SpecQuantity ModelWrapper SpecWrapper ModelPackage SpecPackage ProofPackage ProofPackage2 ProofPackage4
  SpecConvex ProofConvex SpecBest SpecRefine ProofRefine SpecMirror SpecNfp ProofNfp ProofNfp2 ProofNfp3 ProofNfp4 ProofAxi SpecOrigin ProofOrigin.
Import ListNotations.
Open Scope R_scope.
Open Scope string_scope.
Open Scope list_scope.

(** ** Moving back *)
Lemma lifted_back a h P : lifted (- a) (- h) (lifted a h P) = P.
Proof.
  destruct P as [x y z]. unfold lifted, add3, rotz; cbn [vx vy vz]. replace (2 * PI * - a) with (- (2 * PI * a)) by ring. rewrite cos_neg, sin_neg.
  pose proof (sin2_cos2 (2 * PI * a)) as H. unfold Rsqr in H. set (s := sin (2 * PI * a)) in *. set (c := cos (2 * PI * a)) in *. f_equal; [| |ring].
  - transitivity ((s * s + c * c) * x); [ring|rewrite H; ring].
  - transitivity ((s * s + c * c) * y); [ring|rewrite H; ring].
Qed.
Lemma shift_back a l : map (fun p => p + - a) (map (fun p => p + a) l) = l.
Proof. rewrite map_map. rewrite <- map_id. apply map_ext. intros p. ring. Qed.
Lemma surface_back a b h s s' : moved_surface a b h s s' -> moved_surface (- a) (- b) (- h) s' s.
Proof.
  intros (N & P & T & F & F' & A & B & H). split; [now symmetry|]. rewrite P, T, !shift_back. split; [reflexivity|]. split; [reflexivity|]. exists F', F. split; [exact B|]. split; [exact A|].
  intros p t. replace (F' p t) with (F' ((p + - a) + a) ((t + - b) + b)) by (f_equal; ring). now rewrite H, lifted_back.
Qed.
Lemma device_back a b h q q' : moved_device a b h q q' -> moved_device (- a) (- b) (- h) q' q.
Proof.
  intros (A & B & C & D & E & F & G). split; [now apply surface_back|]. split; [now apply surface_back|]. rewrite C, D, !shift_back. repeat (split; [auto|]). now symmetry.
Qed.

(** ** Potentials *)
Lemma potential_phi a b q x q' x' : made q -> made q' -> length x = q_ndofs q -> length x' = q_ndofs q' ->
  moved_potential a b q x q' x' <-> (forall p t, phi_of q' x' (p + a) (t + b) = phi_of q x p t).
Proof.
  intros M M' L L'.
  assert (Q : qreports (fun q => Phi q x) q (phi_of q x)) by (apply qreports_of; [exact M|]; intros ps ts r _ _ P; now apply (Phi_placed q x M L)).
  assert (Q' : qreports (fun q => Phi q x') q' (phi_of q' x')) by (apply qreports_of; [exact M'|]; intros ps ts r _ _ P; now apply (Phi_placed q' x' M' L')). split.
  - intros (F & A & B) p t. rewrite (qreports_unique _ _ _ _ Q' B), (qreports_unique _ _ _ _ Q A). f_equal; ring.
  - intros H. exists (phi_of q x). split; [exact Q|]. intros ps ts Hp Ht. destruct (Q' ps ts Hp Ht) as (r & A & B). exists r. split; [exact A|]. rewrite B. f_equal. apply sample_ext. intros p t. rewrite <- H. f_equal; ring.
Qed.
Lemma potential_back a b q x q' x' : made q -> made q' -> length x = q_ndofs q -> length x' = q_ndofs q' -> moved_potential a b q x q' x' -> moved_potential (- a) (- b) q' x' q x.
Proof.
  intros M M' L L' H. apply (potential_phi (- a) (- b) q' x' q x M' M L' L). intros p t. rewrite <- (proj1 (potential_phi a b q x q' x' M M' L L') H). f_equal; ring.
Qed.
Lemma shifted_exists q x a b : made q -> q_stellsym q = false \/ a = 0 /\ b = 0 -> length x = q_ndofs q -> exists z, length z = q_ndofs q /\ forall p t, phi_of q z p t = phi_of q x (p - a) (t - b).
Proof.
  intros M [St|(-> & ->)] L; [|exists x; split; [exact L|]; intros p t; f_equal; ring].
  destruct (made_facts q M) as (_ & _ & Nd & _). assert (Q : length (qcols q) = q_ndofs q) by (unfold qcols; rewrite length_pcols; congruence).
  destruct (recombine (qcols q) (qcols q) (fun u => tr q (fst u - a) (snd u - b)) (fun u => tr q (fst u) (snd u))) with (x := x) as (z & Lz & Ez).
  - intros c Hc. assert (Dc : fst c = (0%Z, 0%Z) \/ fst c <> (0%Z, 0%Z)).
    { destruct (fst c) as [m n]. destruct (Z.eq_dec m 0) as [->|Hm]; [|right; congruence]. destruct (Z.eq_dec n 0) as [->|Hm]; [now left|right; congruence]. }
    destruct Dc as [Z0|Z0].
    + destruct (one_column c (qcols q) 1 Hc) as (z & Lz & Ez). exists z. split; [exact Lz|]. intros u. rewrite Ez, Rmult_1_r. unfold tr, targ. rewrite Z0. f_equal. unfold trig_arg. cbn [fst snd]. ring.
    + set (d := trig_arg (q_nfp q) (- a) (- b) (fst (fst c)) (snd (fst c))).
      assert (Hd : In (fst c, (- snd c)%Z) (qcols q)) by (unfold qcols in *; rewrite St in *; now apply other_parity).
      destruct (one_column c (qcols q) 1 Hc) as (z1 & L1 & E1); destruct (one_column _ (qcols q) 1 Hd) as (z2 & L2 & E2).
      exists (lincomb (cos d) (IZR (snd c) * sin d) z1 z2). split; [rewrite length_lincomb; congruence|]. intros u. rewrite ldot_lincomb, E1, E2 by congruence.
      replace (tr q (fst u) (snd u) (fst c, (- snd c)%Z)) with (sin_or_cos (targ q c (fst u) (snd u)) (1 * - snd c)) by reflexivity. unfold tr.
      replace (targ q c (fst u - a) (snd u - b)) with (targ q c (fst u) (snd u) + d) by (unfold targ, trig_arg, d; unfold trig_arg; ring).
      generalize (targ q c (fst u) (snd u)); intros y; unfold sin_or_cos; destruct (qcols_choice q c Hc) as [-> | ->]; cbn [Z.mul Z.eqb Pos.eqb Pos.mul Z.opp].
      * rewrite sin_plus. ring.
      * rewrite cos_plus. ring.
  - congruence.
  - exists z. split; [congruence|]. intros p t. exact (Ez (p, t)).
Qed.
Lemma design_moved a b h q x q' : made q -> made q' -> moved_device a b h q q' -> same_unknowns a b q q' -> length x = q_ndofs q ->
  exists x', length x' = q_ndofs q' /\ moved_potential a b q x q' x' /\ (a = 0 -> b = 0 -> x' = x).
Proof.
  intros M M' D (E1 & E2 & E3 & E4) L. assert (Nf : q_nfp q' = q_nfp q) by (apply (mv_nfp a b h q q' D)).
  assert (Q : qcols q' = qcols q) by (unfold qcols; now rewrite E1, E2, E3).
  assert (T : forall y p t, phi_of q' y p t = phi_of q y p t) by (intros y p t; unfold phi_of; rewrite Q; apply ldot_map_ext; intros c _; unfold tr, targ; now rewrite Nf).
  assert (Nd : q_ndofs q' = q_ndofs q).
  { destruct (made_facts q M) as (_ & _ & A & _). destruct (made_facts q' M') as (_ & _ & A' & _). rewrite A, A', E1, E2, E3. reflexivity. }
  destruct (Req_dec a 0) as [Za|Za]; [destruct (Req_dec b 0) as [Zb|Zb]|].
  1:{ exists x. split; [congruence|]. split; [|auto]. apply potential_phi; auto; [congruence|]. intros p t. rewrite T, Za, Zb. f_equal; ring. }
  all: assert (St : q_stellsym q = false \/ a = 0 /\ b = 0) by (destruct (q_stellsym q); [right; auto|left; auto]);
    destruct (shifted_exists q x a b M St L) as (z & Lz & Ez); exists z; (split; [congruence|]); (split; [|intros; contradiction]);
    (apply potential_phi; auto; [congruence|]); intros p t; rewrite T, Ez; f_equal; ring.
Qed.

(** ** Readings and best designs *)
Lemma origin_reading other a b h q q' x x' name v : sound q x -> sound q' x' -> moved_device a b h q q' -> moved_potential a b q x q' x' -> comparable name ->
  reads other name q x v -> reads other name q' x' v.
Proof.
  intros S S' D P C. assert (E : forall p t, phi_of q' x' (p + a) (t + b) = phi_of q x p t) by (apply potential_phi; auto; [apply S|apply S'|apply S|apply S']).
  destruct C as [C|[C| ->]]; [apply (mv_names other a b h q q' x x' S S' D E); auto|apply (mv_names other a b h q q' x x' S S' D E); auto|].
  intros Rd. destruct (normalised_value other q x S) as (r & r0 & u & Rr & R0 & Ru & Eu). destruct (normalised_value other q' x' S') as (r' & r0' & u' & Rr' & R0' & Ru' & Eu').
  pose proof (mv_names other a b h q q' x x' S S' D E "f_B" ltac:(cbn; tauto) _ Rr) as A. pose proof (reads_fun _ _ _ _ _ _ A Rr') as Q. injection Q as Q.
  assert (E0 : forall p t, phi_of q' (repeat 0 (q_ndofs q')) (p + a) (t + b) = phi_of q (repeat 0 (q_ndofs q)) p t).
  { intros p t. unfold phi_of. now rewrite !ProofPackage4.ldot_zeros. }
  pose proof (mv_names other a b h q q' _ _ (sound_zero q x S) (sound_zero q' x' S') D E0 "f_B" ltac:(cbn; tauto) _ R0) as A0. pose proof (reads_fun _ _ _ _ _ _ A0 R0') as Q0. injection Q0 as Q0.
  rewrite (reads_fun _ _ _ _ _ _ Rd Ru), Eu, Q, Q0, <- Eu'. exact Ru'.
Qed.
Lemma origin_both other a b h q q' x x' name v : sound q x -> sound q' x' -> moved_device a b h q q' -> moved_potential a b q x q' x' -> comparable name ->
  reads other name q x v <-> reads other name q' x' v.
Proof.
  intros S S' D P C. split; [now apply (origin_reading other a b h)|]. apply (origin_reading other (- a) (- b) (- h)); auto; [now apply device_back|].
  apply potential_back; auto; [apply S|apply S'|apply S|apply S'].
Qed.
Lemma same_weighted other a b h q q' x x' os r : sound q x -> sound q' x' -> moved_device a b h q q' -> moved_potential a b q x q' x' -> (forall name w, In (name, w) os -> comparable name) ->
  weighted other q os x r <-> weighted other q' os x' r.
Proof.
  intros S S' D P C. split; intros (vs & F & ->); exists vs; (split; [|reflexivity]); clear - F S S' D P C; revert C; induction F as [|[name w] m os vs Rm F IH]; intros C; constructor.
  1, 3: apply (origin_both other a b h q q' x x' name (scal m) S S' D P (C name w (or_introl eq_refl))); exact Rm.
  all: apply IH; intros n i Hn; apply (C n i); now right.
Qed.
Lemma same_feasible other a b h q q' x x' cs : sound q x -> sound q' x' -> moved_device a b h q q' -> moved_potential a b q x q' x' -> (forall name c d, In (name, c, d) cs -> comparable name) ->
  SpecConvex.feasible other q cs x <-> SpecConvex.feasible other q' cs x'.
Proof.
  intros S S' D P C. split; intros F name c d I; destruct (F name c d I) as (v & Rd & Mt); exists v; (split; [|exact Mt]); apply (origin_both other a b h q q' x x' name v S S' D P (C name c d I)); exact Rd.
Qed.
Lemma unknowns_back a b q q' : same_unknowns a b q q' -> same_unknowns (- a) (- b) q' q.
Proof. intros (A & B & C & D). repeat (split; [now symmetry|]). rewrite C. intros E. destruct (D E) as (-> & ->). split; ring. Qed.
Lemma origin_best other a b h q q' z z' os cs x fx : sound q z -> sound q' z' -> moved_device a b h q q' -> same_unknowns a b q q' ->
  (forall name w, In (name, w) os -> comparable name) -> (forall name c d, In (name, c, d) cs -> comparable name) ->
  best other q os cs x fx -> exists x', best other q' os cs x' fx /\ moved_potential a b q x q' x' /\ (a = 0 -> b = 0 -> x' = x).
Proof.
  intros S S' D U Co Cc (L & F & W & Le).
  assert (M : made q) by apply S. assert (M' : made q') by apply S'.
  destruct (design_moved a b h q x q' M M' D U L) as (x' & L' & P & Ex). exists x'. split; [|split; [exact P|exact Ex]].
  pose proof (sound_other q z x S L) as Sx. pose proof (sound_other q' z' x' S' L') as Sx'.
  split; [exact L'|]. split; [now apply (same_feasible other a b h q q' x x' cs)|]. split; [now apply (same_weighted other a b h q q' x x' os)|].
  intros y' fx' fy Ly' _ Fy' Wx' Wy'.
  destruct (design_moved (- a) (- b) (- h) q' y' q M' M (device_back a b h q q' D) (unknowns_back a b q q' U) Ly') as (y & Ly & Py & _).
  pose proof (sound_other q z y S Ly) as Sy. pose proof (sound_other q' z' y' S' Ly') as Sy'.
  apply (Le y fx' fy Ly I).
  - exact (proj1 (same_feasible other (- a) (- b) (- h) q' q y' y cs Sy' Sy (device_back a b h q q' D) Py Cc) Fy').
  - exact (proj2 (same_weighted other a b h q q' x x' os fx' Sx Sx' D P Co) Wx').
  - exact (proj1 (same_weighted other (- a) (- b) (- h) q' q y' y os fy Sy' Sy (device_back a b h q q' D) Py Co) Wy').
Qed.

(** ** Moved machines exist *)
Lemma entry00 m p t mn : cmn_entry m 0 0 p t mn = cos (phase_even m (fst mn) (snd mn) p t) /\ smn_entry m 0 0 p t mn = sin (phase_even m (fst mn) (snd mn) p t).
Proof. unfold cmn_entry, smn_entry. cbn [Nat.add Nat.modulo Nat.divmod fst snd Nat.eqb Nat.sub]. unfold derivative_factor. cbn [pow Nat.add Nat.div Nat.divmod fst]. split; ring. Qed.
Lemma mode_zero m n : In (0%Z, 0%Z) (cmodes m n).
Proof. apply (proj2 (cmodes_once m n)). left. lia. Qed.
Lemma tagged_in m n f mn : In (f, CCos mn) (tagged false m n) <-> In mn (cmodes m n).
Proof.
  unfold tagged. cbv zeta. rewrite in_app_iff, !in_map_iff. split.
  - intros [(d & E & H)|(d & E & H)]; injection E as _ ->; apply in_app_iff in H as [H|H]; apply in_map_iff in H as (k & E & H); try discriminate; injection E as ->; exact H.
  - intros H. destruct f; [right|left]; exists (CCos mn); (split; [reflexivity|]); apply in_or_app; left; now apply in_map.
Qed.
Lemma tagged_sin m n f mn : In mn (smodes m n) -> In (f, CSin mn) (tagged false m n).
Proof. intros H. unfold tagged. cbv zeta. rewrite in_app_iff, !in_map_iff. destruct f; [right|left]; exists (CSin mn); (split; [reflexivity|]); apply in_or_app; right; now apply in_map. Qed.
Lemma tagged_cases st m n f c : In (f, c) (tagged st m n) -> (exists mn, c = CCos mn /\ In mn (cmodes m n)) \/ (exists mn, c = CSin mn /\ In mn (smodes m n)).
Proof.
  unfold tagged. cbv zeta. rewrite in_app_iff, !in_map_iff.
  assert (G : In c (map CCos (cmodes m n)) \/ In c (map CSin (smodes m n)) -> (exists mn, c = CCos mn /\ In mn (cmodes m n)) \/ (exists mn, c = CSin mn /\ In mn (smodes m n))).
  { intros [H|H]; apply in_map_iff in H as (k & <- & H); eauto. }
  intros [(d & E & H)|(d & E & H)]; injection E as _ ->; apply G; destruct st; rewrite ?in_app_iff in H; tauto.
Qed.
Lemma phase_shift m c d p t a b : phase_even m c d (p - a) (t - b) = phase_even m c d p t + phase_even m c d (- a) (- b).
Proof. unfold phase_even. ring. Qed.
Lemma moved_surface_exists a b h s : legal s -> s_qphi s <> [] -> s_qtheta s <> [] -> exists s', built s' /\ legal s' /\ moved_surface a b h s s'.
Proof.
  intros L Hp Ht. unfold legal in L.
  assert (Lt : forall st mp nt, length (tagged st mp nt) = legal_length st mp nt) by (intros; rewrite <- length_rcols, rcols_tagged; now rewrite map_length).
  set (cols := tagged (s_stellsym s) (s_mpol s) (s_ntor s)). set (cols' := tagged false (s_mpol s) (s_ntor s)).
  set (sel := fun (z : bool) c => if z then ztag c else rtag c).
  destruct (recombine cols cols' (fun u : R * R * bool => fun c => centry (s_nfp s) 0 0 (fst (fst u) - a) (snd (fst u) - b) (sel (snd u) c)) (fun u c => centry (s_nfp s) 0 0 (fst (fst u)) (snd (fst u)) (sel (snd u) c))) with (x := s_dofs s) as (d0 & Ld0 & Ed0).
  { intros [f c] Hc. destruct (tagged_cases _ _ _ _ _ Hc) as [(mn & -> & Hm)|(mn & -> & Hm)]; set (e := phase_even (s_nfp s) (fst mn) (snd mn) (- a) (- b)).
    - assert (Dc : mn = (0%Z, 0%Z) \/ In mn (smodes (s_mpol s) (s_ntor s))).
      { destruct mn as [m n]. destruct (Z.eq_dec m 0) as [->|Hz]; [destruct (Z.eq_dec n 0) as [->|Hz]; [now left|]|]; right; apply smodes_in; (split; [now apply (proj2 (cmodes_once _ _))|congruence]). }
      destruct (one_column (f, CCos mn) cols' 1 (proj2 (tagged_in _ _ f mn) Hm)) as (z1 & L1 & E1).
      destruct Dc as [Z0|Hs].
      + exists z1. split; [exact L1|]. intros [[p t] g]. rewrite E1, Rmult_1_r. cbn [fst snd]. unfold sel, ztag, rtag. destruct g, f; cbn [fst snd centry]; try reflexivity; rewrite !(proj1 (entry00 _ _ _ _)), Z0; f_equal; unfold phase_even; cbn [fst snd]; ring.
      + destruct (one_column (f, CSin mn) cols' 1 (tagged_sin _ _ f mn Hs)) as (z2 & L2 & E2).
        exists (lincomb (cos e) (- sin e) z1 z2). split; [rewrite length_lincomb; congruence|]. intros [[p t] g]. rewrite ldot_lincomb, E1, E2 by congruence. cbn [fst snd].
        unfold sel, ztag, rtag. destruct g, f; cbn [fst snd centry]; try ring; rewrite ?(proj1 (entry00 _ _ _ _)), ?(proj2 (entry00 _ _ _ _)), phase_shift; fold e; rewrite cos_plus; ring.
    - destruct (one_column (f, CSin mn) cols' 1 (tagged_sin _ _ f mn Hm)) as (z1 & L1 & E1).
      assert (Hc' : In mn (cmodes (s_mpol s) (s_ntor s))) by (destruct mn as [m n]; apply (proj2 (cmodes_once _ _)); now apply smodes_in in Hm).
      destruct (one_column (f, CCos mn) cols' 1 (proj2 (tagged_in _ _ f mn) Hc')) as (z2 & L2 & E2).
      exists (lincomb (cos e) (sin e) z1 z2). split; [rewrite length_lincomb; congruence|]. intros [[p t] g]. rewrite ldot_lincomb, E1, E2 by congruence. cbn [fst snd].
      unfold sel, ztag, rtag. destruct g, f; cbn [fst snd centry]; try ring; rewrite ?(proj1 (entry00 _ _ _ _)), ?(proj2 (entry00 _ _ _ _)), phase_shift; fold e; rewrite sin_plus; ring. }
  { unfold cols. now rewrite Lt. }
  destruct (one_column (true, CCos (0%Z, 0%Z)) cols' h (proj2 (tagged_in _ _ true _) (mode_zero _ _))) as (zh & Lh & Eh).
  set (d := lincomb 1 1 d0 zh). assert (Ld : length d = legal_length false (s_mpol s) (s_ntor s)) by (unfold d; rewrite length_lincomb by congruence; rewrite Ld0; apply Lt).
  set (ps := map (fun p => p + a) (s_qphi s)). set (ts := map (fun t => t + b) (s_qtheta s)).
  assert (Hps : ps <> []) by (unfold ps; destruct (s_qphi s); [contradiction|discriminate]). assert (Hts : ts <> []) by (unfold ts; destruct (s_qtheta s); [contradiction|discriminate]).
  assert (E : exists s', make_surface (s_nfp s) false (s_mpol s) (s_ntor s) (arr1 ps) (arr1 ts) (arr1 d) = Ok s' /\
    s_nfp s' = s_nfp s /\ s_stellsym s' = false /\ s_mpol s' = s_mpol s /\ s_ntor s' = s_ntor s /\ s_dofs s' = d /\ s_qphi s' = ps /\ s_qtheta s' = ts).
  { clearbody ps ts. unfold make_surface. destruct ps as [|p0 [|]]; [contradiction| |]; (destruct ts as [|t0 [|]]; [contradiction| |]); cbn; eexists; (split; [reflexivity|repeat split]). }
  destruct E as (s' & E & E1 & E2 & E3 & E4 & E5 & E6 & E7). exists s'. split; [unfold built; eauto 10|].
  assert (L' : legal s') by (unfold legal; now rewrite E2, E3, E4, E5). split; [exact L'|]. split; [exact E1|]. split; [exact E6|]. split; [exact E7|].
  exists (pt s 0 0), (pt s' 0 0). split; [exact (reports_gammadash s 0 0 L)|]. split; [exact (reports_gammadash s' 0 0 L')|].
  intros p t. assert (Rv : rval s' 0 0 (p + a) (t + b) = rval s 0 0 p t /\ zval s' 0 0 (p + a) (t + b) = zval s 0 0 p t + h).
  { unfold rval, zval. rewrite E1, E2, E3, E4, E5, !rcols_tagged, !zcols_tagged, !map_map. unfold d. fold cols cols'. rewrite !ldot_lincomb by congruence.
    pose proof (Ed0 (p + a, t + b, false)) as A. pose proof (Ed0 (p + a, t + b, true)) as B. cbn [fst snd sel] in A, B. unfold sel in A, B. rewrite A, B.
    rewrite (Eh (fun c => centry (s_nfp s) 0 0 (p + a) (t + b) (rtag c))), (Eh (fun c => centry (s_nfp s) 0 0 (p + a) (t + b) (ztag c))). unfold rtag at 2, ztag at 2. cbn [fst snd centry].
    rewrite (proj1 (entry00 _ _ _ _)). replace (phase_even (s_nfp s) (fst (0%Z, 0%Z)) (snd (0%Z, 0%Z)) (p + a) (t + b)) with 0 by (unfold phase_even; cbn [fst snd]; ring). rewrite cos_0.
    replace (p + a - a) with p by ring. replace (t + b - b) with t by ring. split; ring. }
  destruct Rv as (A & B). rewrite !pt_00, A, B. unfold lifted, rotz, add3; cbn [vx vy vz]. replace (2 * PI * (p + a)) with (2 * PI * p + 2 * PI * a) by ring. rewrite cos_plus, sin_plus. f_equal; ring.
Qed.
Lemma moved_exists a b h q x : sound q x -> exists q', sound q' x /\ moved_device a b h q q' /\ q_mpol q' = q_mpol q /\ q_ntor q' = q_ntor q /\ q_stellsym q' = q_stellsym q.
Proof.
  intros (M & Lw & Lp & Ps & L). destruct (made_facts q M) as (Nz & Md & Nd & _ & Ce & Cw & Cp).
  assert (Ne : forall s ps ts r, resampled s ps ts r -> ps <> [] /\ ts <> []).
  { intros s ps ts r H. unfold resampled, copy_and_set_quadpoints, make_surface in H. split; intros ->; cbn in H; [discriminate|destruct ps; discriminate]. }
  destruct (Ne _ _ _ _ Ce) as (Pe & Te). destruct (Ne _ _ _ _ Cw) as (Pw & Tw). destruct (Ne _ _ _ _ Cp) as (Pp & Tp).
  destruct (moved_surface_exists a b h (q_plasma q) Lp Pp Tp) as (pl & Bp & Lp' & Sp). destruct (moved_surface_exists a b h (q_winding q) Lw Pw Tw) as (wi & Bw & Lw' & Sw).
  pose proof Sw as (Nw & Qw & Qt & _). pose proof Sp as (_ & Qp & Qpt & _).
  set (pe := map (fun p => p + a) (q_qphi q)). set (te := map (fun t => t + b) (q_qtheta q)).
  assert (Hpe : pe <> []) by (unfold pe; destruct (q_qphi q); [contradiction|discriminate]). assert (Hte : te <> []) by (unfold te; destruct (q_qtheta q); [contradiction|discriminate]).
  destruct (copy_ok wi pe te Hpe Hte) as (ev & Ev).
  assert (Q : exists q', make_params pl wi (q_G q) (q_I q) (Some (q_Bnormal q)) (q_mpol q) (q_ntor q) (Some (arr1 pe)) (Some (arr1 te)) (Some (q_stellsym q)) = Ok q' /\
    q_plasma q' = pl /\ q_winding q' = wi /\ q_G q' = q_G q /\ q_I q' = q_I q /\ q_Bnormal q' = q_Bnormal q /\ q_qphi q' = pe /\ q_qtheta q' = te /\
    q_stellsym q' = q_stellsym q /\ q_mpol q' = q_mpol q /\ q_ntor q' = q_ntor q).
  { unfold make_params, make_base. rewrite Nw. destruct (s_nfp (q_winding q)) as [|kn] eqn:EkN; [now contradict Nz|].
    replace (length (s_qphi wi) mod Datatypes.S kn)%nat with 0%nat by (rewrite Qw, map_length; symmetry; exact Md).
    cbn [Nat.eqb negb]. unfold resampled in Ev. rewrite Ev. cbn [bind]. eexists. split; [reflexivity|]. repeat split. }
  destruct Q as (q' & Mk & E1 & E2 & E3 & E4 & E5 & E6 & E7 & E8 & E9 & E10). exists q'.
  assert (M' : made q') by (split; [now rewrite E1|split; [now rewrite E2|]]; do 10 eexists; exact Mk).
  split; [|split; [|auto]].
  - split; [exact M'|]. rewrite E1, E2. split; [exact Lw'|]. split; [exact Lp'|]. split.
    + unfold plasma_shaped in *. rewrite E5, E1, Qp, Qpt, !map_length. exact Ps.
    + destruct (made_facts q' M') as (_ & _ & Nd' & _). rewrite L, Nd, Nd', E8, E9, E10. reflexivity.
  - unfold moved_device. rewrite E1, E2, E3, E4, E5, E6, E7. repeat (split; [auto|]). reflexivity.
Qed.
