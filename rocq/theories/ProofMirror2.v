(** The symmetric part of a design of a symmetric problem. *)
From Coq Require Import String List Bool Arith ZArith Reals Lra Lia Permutation.
From Verif Require Import Base ModelArray ProofArray ModelMath SpecMath ModelSurface SpecSurface
  ProofSurface ProofSurface2 ProofLinear SpecWinding ProofWinding4 ModelParams ModelField SpecField ProofField ProofField2 ProofField3
  ModelQuantity ModelWrapper SpecWrapper ModelPackage SpecPackage ProofPackage4
  SpecConvex ProofConvex SpecScale SpecRefine ProofRefine SpecMirror ProofMirror.
Import ListNotations.
Open Scope R_scope.
Open Scope string_scope.
Open Scope list_scope.

Lemma embed_part {A} (keep : A -> bool) (cols cols' : list A) : (forall c, In c cols -> keep c = true -> In c cols') -> forall x, length x = length cols ->
  exists x', length x' = length cols' /\ forall f : A -> R, ldot (map f cols') x' = ldot (map (fun c => if keep c then f c else 0) cols) x.
Proof.
  induction cols as [|c cols IH]; intros Hi [|y x] L; try discriminate.
  - exists (repeat 0 (length cols')). split; [apply repeat_length|]. intros f. rewrite ldot_zeros. reflexivity.
  - destruct (IH (fun a Ha => Hi a (or_intror Ha)) x) as (u & Lu & Eu); [now injection L|].
    destruct (keep c) eqn:Hk.
    + destruct (one_column c cols' y (Hi c (or_introl eq_refl) Hk)) as (z & Lz & Ez).
      exists (map2 Rplus z u). split.
      * assert (length z = length u) as Lzu by congruence. clear - Lz Lzu. rewrite <- Lz. clear Lz. revert u Lzu.
        induction z; intros [|]; cbn; intros; try discriminate; auto.
      * intros f. rewrite ldot_add by congruence. cbn [map]. rewrite ldot_cons, Ez, Eu, Hk. reflexivity.
    + exists u. split; [exact Lu|]. intros f. cbn [map]. rewrite ldot_cons, Eu, Hk. ring.
Qed.
Lemma sine_columns st m n c : In c (pcols st m n) -> Z.eqb (snd c) 1 = true -> In c (pcols true m n).
Proof.
  intros H K. apply Z.eqb_eq in K. destruct st; [exact H|]. unfold pcols in *. apply in_app_or in H as [H|[<-|H]]; [exact H|discriminate|].
  apply in_map_iff in H as (mn & <- & _). discriminate.
Qed.
Lemma symmetric_part q q' x : made q -> made q' -> symmetric_version q q' -> length x = q_ndofs q ->
  exists y, length y = q_ndofs q' /\ forall p t, phi_of q' y p t = (phi_of q x p t - phi_of q x (- p) (- t)) / 2.
Proof.
  intros M M' (D & Em & En & Es) L. destruct (made_facts q M) as (_ & _ & N & _). destruct (made_facts q' M') as (_ & _ & N' & _).
  destruct (embed_part (fun c => Z.eqb (snd c) 1) (qcols q) (qcols q')) with (x := x) as (y & Ly & Ey).
  - unfold qcols. rewrite Em, En, Es. intros c. apply sine_columns.
  - unfold qcols. rewrite length_pcols. congruence.
  - exists y. split; [rewrite Ly; unfold qcols; rewrite length_pcols; congruence|]. intros p t.
    assert (T : forall c, tr q' p t c = tr q p t c) by (intros c; unfold tr, targ, q_nfp; now destruct D as (_ & -> & _)).
    unfold phi_of at 1. rewrite Ey. unfold phi_of.
    transitivity (/ 2 * ldot (map (fun c => tr q p t c - tr q (- p) (- t) c) (qcols q)) x).
    + rewrite <- ldot_map_scal. apply ldot_map_ext. intros c Hc. rewrite T. unfold tr.
      replace (targ q c (- p) (- t)) with (- targ q c p t) by (unfold targ, trig_arg; ring).
      apply qcols_choice in Hc. unfold sin_or_cos. destruct Hc as [-> | ->]; cbn [Z.mul Z.eqb Pos.eqb Pos.mul Z.opp].
      * rewrite sin_neg. field.
      * rewrite cos_neg. field.
    + unfold Rdiv. rewrite Rmult_comm. f_equal. generalize (qcols q). intros l. clear. revert x. induction l as [|c l IH]; intros [|y x]; try (unfold ldot; cbn; ring).
      cbn [map]. rewrite !ldot_cons, IH. ring.
Qed.

Lemma even_usable other q q' name : even_quantity other q name -> usable q name /\ usable q' name.
Proof.
  intros H. assert (K : In name (map fst dimensions) /\ name <> "K_theta").
  { destruct H as [H|(-> & _)]; [|split; [cbn; tauto|discriminate]].
    repeat (destruct H as [<-|H]; [split; [cbn; tauto|discriminate]|]). destruct H. }
  destruct K as [K1 K2]. split; (split; [exact K1|intros; contradiction]).
Qed.
Lemma odd_usable q q' name : In name odd_names -> usable q name /\ usable q' name.
Proof. intros [<-|[<-|[]]]; split; (split; [cbn; tauto|discriminate]). Qed.
Lemma constraint_usable other q q' cs : even_constraints other q cs -> forall name c b, In (name, c, b) cs -> usable q name /\ usable q' name.
Proof. intros H name c b I. destruct (H name c b I) as [(Q & _)|(Q & _)]; [eapply even_usable; eauto|now apply odd_usable]. Qed.

Section Average.
  Variables (other : list string) (q : params) (x : list R).
  Hypothesis S : sound q x.
  Hypothesis Y : symmetric_problem q.
  Let M : made q. Proof. apply S. Qed.
  Let L : length x = q_ndofs q. Proof. apply S. Qed.
  Let rx := mirror_of q x.
  Lemma rx_length : length rx = q_ndofs q.
  Proof using S M L. now apply mirror_length. Qed.
  Lemma rx_even name : even_quantity other q name -> exists v v', reads other name q x v /\ reads other name q rx v' /\ sh v' = sh v /\ Permutation (el v') (el v).
  Proof using S Y M L. apply (even_read' other q x rx S Y rx_length). intros. apply mirror_phi. Qed.
  Lemma rx_odd name : In name odd_names -> exists v v', reads other name q x v /\ reads other name q rx v' /\ Permutation (el v') (map Ropp (el v)).
  Proof using S Y M L. apply (odd_read other q x rx S Y rx_length). intros. apply mirror_phi. Qed.
  Lemma rx_feasible cs : even_constraints other q cs -> feasible other q cs x -> feasible other q cs rx.
  Proof using S Y M L.
    intros H F name c b I. destruct (H name c b I) as [(Q & ->)|(Q & I')].
    - destruct (rx_even name Q) as (v & v' & R & R' & _ & P). exists v'. split; [exact R'|]. destruct (F _ _ _ I) as (w & Rw & Hw).
      rewrite (reads_fun _ _ _ _ _ _ Rw R) in Hw. intros y Hy. apply Hw. now apply (Permutation_in _ P).
    - destruct (rx_odd name Q) as (v & v' & R & R' & P). exists v'. split; [exact R'|]. destruct (F _ _ _ I') as (w & Rw & Hw).
      rewrite (reads_fun _ _ _ _ _ _ Rw R) in Hw. intros y Hy. apply (Permutation_in _ P) in Hy. apply in_map_iff in Hy as (z & <- & Hz).
      specialize (Hw z Hz). destruct c; cbn [opposite] in Hw; lra.
  Qed.
  Lemma rx_weighted os r : (forall name w, In (name, w) os -> even_quantity other q name) -> weighted other q os x r -> weighted other q os rx r.
  Proof using S Y M L.
    intros H (vs & F & ->). exists vs. split; [|reflexivity]. revert H. induction F as [|[name w] m os vs Rm F IH]; intros H; constructor.
    - destruct (rx_even name (H name w (or_introl eq_refl))) as (v & v' & R & R' & Sv & P). cbn [fst] in *. rewrite (reads_fun _ _ _ _ _ _ R Rm) in *.
      apply Permutation_sym, Permutation_length_1_inv in P. destruct v' as [s e]. cbn [sh el] in *. subst s e. exact R'.
    - apply IH. intros n k Hn. apply (H n k). now right.
  Qed.
End Average.

Lemma even_convex other q x name : sound q x -> ordered q -> even_quantity other q name -> convex_quantity other name q.
Proof.
  intros S O [I|(-> & P)].
  - apply convex_quantities; auto. destruct S as (A & B & C & D & _). intros z Lz. repeat (split; [assumption|]). exact Lz.
  - apply normalised_convex; auto. destruct S as (A & B & C & D & _). intros z Lz. repeat (split; [assumption|]). exact Lz.
Qed.
Lemma odd_affine other q x name : sound q x -> In name odd_names -> affine_quantity other name q.
Proof.
  intros S I. apply affine_quantities.
  - destruct S as (A & B & C & D & _). intros z Lz. repeat (split; [assumption|]). exact Lz.
  - destruct I as [<-|[<-|[]]]; cbn; tauto.
Qed.

Lemma no_worse other q q' x os cs fx : sound q x -> ordered q -> symmetric_problem q -> made q' -> symmetric_version q q' ->
  (forall name w, In (name, w) os -> 0 <= w /\ even_quantity other q name) -> even_constraints other q cs ->
  feasible other q cs x -> weighted other q os x fx ->
  exists y fy, length y = q_ndofs q' /\ feasible other q' cs y /\ weighted other q' os y fy /\ fy <= fx.
Proof.
  intros S O Y M' V Ho Hc F W. assert (M : made q) by apply S. assert (L : length x = q_ndofs q) by apply S.
  pose proof (rx_length q x S) as Lr. set (rx := mirror_of q x) in *.
  pose proof (rx_feasible other q x S Y cs Hc F) as Fr. pose proof (rx_weighted other q x S Y os fx (fun n w I => proj2 (Ho n w I)) W) as Wr. fold rx in Fr, Wr.
  assert (Co : forall name w, In (name, w) os -> 0 <= w /\ convex_quantity other name q).
  { intros name w I. destruct (Ho name w I) as [P Q]. split; [exact P|]. now apply (even_convex other q x). }
  assert (Cc : forall name c b, In (name, c, b) cs -> match c with LE => convex_quantity other name q | _ => affine_quantity other name q end).
  { intros name c b I. destruct (Hc name c b I) as [(Q & ->)|(Q & _)]; [now apply (even_convex other q x)|].
    pose proof (odd_affine other q x name S Q) as A. destruct c; [now apply affine_convex|exact A|exact A]. }
  set (z := lincomb (1/2) (1 - 1/2) x rx).
  assert (Lz : length z = q_ndofs q) by (unfold z; rewrite length_lincomb; congruence).
  destruct (weighted_convex other q os Co x rx (1/2) fx fx L Lr ltac:(lra) W Wr) as (fz & Wz & B).
  pose proof (feasible_convex other q cs Cc x rx (1/2) L Lr ltac:(lra) F Fr) as Fz. fold z in Wz, Fz.
  destruct (symmetric_part q q' x M M' V L) as (y & Ly & Ey). pose proof V as (D & _).
  assert (Sz : sound q z) by (destruct S as (A1 & A2 & A3 & A4 & _); repeat (split; [assumption|]); exact Lz).
  assert (P : same_potential q z q' y).
  { apply (proj2 (potential_same q q' z y M M' Lz Ly)). intros p t. rewrite Ey. unfold z, phi_of at 3. rewrite ldot_lincomb by congruence.
    fold (phi_of q x p t). fold (phi_of q rx p t). unfold rx. rewrite mirror_phi. field. }
  exists y, fz. split; [exact Ly|]. split; [|split; [|lra]].
  - apply (same_feasible other q q' z y cs D Sz M' Ly P); [now apply (constraint_usable other)|exact Fz].
  - apply (same_weighted other q q' z y os fz D Sz M' Ly P); [|exact Wz]. intros name w I. eapply even_usable, (Ho name w I).
Qed.
Lemma symmetric_finer q q' : made q -> made q' -> symmetric_version q q' -> finer q' q.
Proof.
  intros M M' ((E1 & E2 & E3 & E4 & E5 & E6 & E7) & Em & En & Es). split; [repeat split; congruence|]. rewrite Em, En, Es. repeat split; auto.
Qed.
Lemma still_optimal other q q' z os cs fz : sound q' z -> made q -> ordered q -> symmetric_problem q -> symmetric_version q q' ->
  (forall name w, In (name, w) os -> 0 <= w /\ even_quantity other q name) -> even_constraints other q cs ->
  feasible other q' cs z -> weighted other q' os z fz -> least other q' os cs z (fun _ => True) ->
  exists x, length x = q_ndofs q /\ same_potential q' z q x /\ feasible other q cs x /\ weighted other q os x fz /\ least other q os cs x (fun _ => True).
Proof.
  intros S' M O Y V Ho Hc F W Z. assert (M' : made q') by apply S'. assert (L' : length z = q_ndofs q') by apply S'.
  pose proof (symmetric_finer q q' M M' V) as Fi. destruct (finer_contains q' q z Fi M' M L') as (x & L & P). pose proof Fi as (D & _).
  assert (Wx : weighted other q os x fz).
  { apply (same_weighted other q' q z x os fz D S' M L P); [|exact W]. intros name w I. apply and_comm. eapply even_usable, (Ho name w I). }
  exists x. split; [exact L|]. split; [exact P|]. split; [|split; [exact Wx|]].
  - apply (same_feasible other q' q z x cs D S' M L P); [|exact F]. intros name c b I. apply and_comm. now apply (constraint_usable other q q' cs Hc name c b).
  - intros y fx fy Ly _ Fy W1 Wy.
    assert (Sy : sound q y).
    { destruct V as ((E1 & E2 & _ & _ & E5 & _) & _). destruct S' as (_ & A2 & A3 & [A4 A5] & _). unfold sound, plasma_shaped.
      rewrite E1, E2 in *. rewrite E5 in *. auto 7. }
    destruct (no_worse other q q' y os cs fy Sy O Y M' V Ho Hc Fy Wy) as (y' & fy' & Ly' & Fy' & Wy' & B).
    pose proof (Z y' fz fy' Ly' I Fy' W Wy') as B'.
    assert (fx = fz).
    { destruct W1 as (v1 & F1 & ->). destruct Wx as (v2 & F2 & ->). f_equal. f_equal. clear - F1 F2. revert v2 F2. induction F1; intros v2 F2; inversion F2; subst; auto.
      f_equal; [|auto]. match goal with A : reads _ _ _ _ (scal ?a), B : reads _ _ _ _ (scal ?b) |- _ => pose proof (reads_fun _ _ _ _ _ _ A B) as Q; now injection Q end. }
    lra.
Qed.
