(** The net currents force a current density. *)
From Coq Require Import String List Bool Arith ZArith Reals Lra Lia Psatz.
From Verif Require Import Base ModelArray ModelMath SpecMath ModelSurface SpecSurface ProofSurface ProofSurface2 ProofSurface3
  ModelParams ModelField SpecField ProofField ProofField2 ProofField3 ProofSimsopt ProofTrig ProofLinear
  ModelQuantity ModelWrapper SpecWrapper ModelPackage SpecPackage ProofPackage4 SpecBest ProofPeriods ProofUnique ProofUnique2 SpecConvex SpecFloor.
Import ListNotations.
Open Scope R_scope.
Open Scope string_scope.
Open Scope list_scope.

(** ** Vectors *)
Lemma lagrange u v : dot3 u u * dot3 v v = dot3 (cross3 u v) (cross3 u v) + dot3 u v * dot3 u v.
Proof. unfold dot3, cross3. simpl. ring. Qed.
Lemma through_loop n r1 r2 a b : n = cross3 r1 r2 -> n <> zero3 ->
  let k := scale3 (/ norm3 n) (sub3 (scale3 a r2) (scale3 b r1)) in
  Rabs a <= norm3 k * norm3 r1 /\ Rabs b <= norm3 k * norm3 r2.
Proof.
  intros E Nz k. pose proof (norm_pos n Nz) as Pn. pose proof (dot3_norm n) as Dn.
  assert (A : dot3 (cross3 k r1) (cross3 k r1) = a * a /\ dot3 (cross3 k r2) (cross3 k r2) = b * b).
  { assert (X : forall c d, cross3 (scale3 c d) r1 = scale3 c (cross3 d r1) /\ cross3 (scale3 c d) r2 = scale3 c (cross3 d r2)) by (intros; unfold cross3, scale3; simpl; split; f_equal; ring).
    assert (Y : cross3 (sub3 (scale3 a r2) (scale3 b r1)) r1 = scale3 (- a) n /\ cross3 (sub3 (scale3 a r2) (scale3 b r1)) r2 = scale3 (- b) n).
    { rewrite E. unfold cross3, scale3, sub3. simpl. split; f_equal; ring. }
    assert (Z : forall c d, dot3 (scale3 c d) (scale3 c d) = c * c * dot3 d d) by (intros; unfold dot3, scale3; simpl; ring).
    unfold k. rewrite (proj1 (X _ _)), (proj2 (X _ _)), (proj1 Y), (proj2 Y), !Z, Dn. split; field; lra. }
  assert (B : forall r c, dot3 (cross3 k r) (cross3 k r) = c * c -> Rabs c <= norm3 k * norm3 r).
  { intros r c H. rewrite <- sqrt_Rsqr_abs. unfold norm3. rewrite <- sqrt_mult by (unfold dot3; nra). apply sqrt_le_1_alt. unfold Rsqr. rewrite <- H.
    change (vx k * vx k + vy k * vy k + vz k * vz k) with (dot3 k k). change (vx r * vx r + vy r * vy r + vz r * vz r) with (dot3 r r).
    rewrite lagrange. pose proof (Rle_0_sqr (dot3 k r)) as Q. unfold Rsqr in Q. lra. }
  split; apply B; apply A.
Qed.

(** ** Sums *)
Lemma Rsum_le {A} (f g : A -> R) l : (forall x, In x l -> f x <= g x) -> Rsum (map f l) <= Rsum (map g l).
Proof. induction l as [|a l IH]; intros H; cbn [map]; [lra|]. rewrite !Rsum_cons. pose proof (H a (or_introl eq_refl)). assert (Rsum (map f l) <= Rsum (map g l)) by (apply IH; intros; apply H; now right). lra. Qed.
Lemma Rsum_abs {A} (f : A -> R) l : Rabs (Rsum (map f l)) <= Rsum (map (fun x => Rabs (f x)) l).
Proof. induction l as [|a l IH]; cbn [map]; [unfold Rsum; cbn; rewrite Rabs_R0; lra|]. rewrite !Rsum_cons. pose proof (Rabs_triang (f a) (Rsum (map f l))). lra. Qed.
Lemma Rsum_nonneg {A} (f : A -> R) l : (forall x, In x l -> 0 <= f x) -> 0 <= Rsum (map f l).
Proof. induction l as [|a l IH]; intros H; cbn [map]; [unfold Rsum; cbn; lra|]. rewrite Rsum_cons. pose proof (H a (or_introl eq_refl)). assert (0 <= Rsum (map f l)) by (apply IH; intros; apply H; now right). lra. Qed.
Lemma cauchy_sum {A} (f g : A -> R) l : Rsum (map (fun x => f x * g x) l) * Rsum (map (fun x => f x * g x) l) <= Rsum (map (fun x => f x * f x) l) * Rsum (map (fun x => g x * g x) l).
Proof.
  induction l as [|a l IH]; cbn [map]; [unfold Rsum; cbn; lra|]. rewrite !Rsum_cons.
  assert (PF : 0 <= Rsum (map (fun x => f x * f x) l)) by (apply Rsum_nonneg; intros; nra). assert (PG : 0 <= Rsum (map (fun x => g x * g x) l)) by (apply Rsum_nonneg; intros; nra).
  revert IH PF PG. generalize (Rsum (map (fun x => f x * g x) l)) (Rsum (map (fun x => f x * f x) l)) (Rsum (map (fun x => g x * g x) l)) (f a) (g a). clear. intros s F G u v IH PF PG.
  assert (2 * (u * v) * s <= u * u * G + v * v * F); [|nra].
  assert (Sq : (2 * (u * v) * s) * (2 * (u * v) * s) <= (u * u * G + v * v * F) * (u * u * G + v * v * F)).
  { assert (H : 0 <= (u * u * G - v * v * F) * (u * u * G - v * v * F)) by apply Rle_0_sqr. assert (H' : (u * v) * (u * v) * (s * s) <= (u * v) * (u * v) * (F * G)) by (apply Rmult_le_compat_l; [apply Rle_0_sqr|exact IH]). nra. }
  apply Rsqr_incr_0_var; [exact Sq|nra].
Qed.

(** ** The net currents are the means of the slopes *)
Section Loops.
  Variables (q : params) (x : list R).
  Hypothesis M : made q.
  Hypothesis L : length x = q_ndofs q.
  Lemma ldot_zero_cols {A} (f : A -> R) cols y : (forall c, In c cols -> f c = 0) -> ldot (map f cols) y = 0.
  Proof using. intros H. apply ldot_zero_l. intros v I. apply in_map_iff in I as (c & <- & I). now apply H. Qed.
  Lemma Rsum_ldot {A B} (F : A -> B -> R) (l : list A) (cols : list B) y : length cols = length y ->
    Rsum (map (fun a => ldot (map (F a) cols) y) l) = ldot (map (fun c => Rsum (map (fun a => F a c) l)) cols) y.
  Proof using.
    intros E. induction l as [|a l IH]; cbn [map].
    - unfold Rsum at 1. cbn [fold_right]. symmetry. apply ldot_zero_cols. reflexivity.
    - rewrite Rsum_cons, IH. clear IH. revert y E. induction cols as [|c cols IH]; intros [|b y] E; cbn [map] in *; try discriminate; [unfold ldot; cbn; ring|].
      injection E as E. specialize (IH y E). rewrite !ldot_cons. rewrite Rsum_cons. lra.
  Qed.
  Lemma cols_length : length (qcols q) = length x.
  Proof using M L. destruct (made_facts q M) as (_ & _ & E & _). rewrite L, E. apply length_pcols. Qed.
  Lemma loop1 x0 N t : (q_ntor q < N)%nat -> Rsum (map (fun p => phi1 q x p t) (equispaced x0 (/ (INR (q_nfp q) * INR N)) N)) = 0.
  Proof using M L.
    intros H. destruct (made_facts q M) as (Nf & _). fold (q_nfp q) in Nf. assert (PN : 0 < INR N) by (apply lt_0_INR; lia). assert (Pf : 0 < INR (q_nfp q)) by (apply lt_0_INR; lia).
    unfold phi1. rewrite Rsum_ldot by apply cols_length. apply ldot_zero_cols. intros [[m n] k] I. pose proof (pcols_modes _ _ _ _ I) as Mo. apply mode_bounds in Mo. cbn [fst] in Mo.
    destruct (Z.eq_dec n 0) as [->|Hn].
    - rewrite (Rsum_map_ext _ (fun _ => 0)); [rewrite Rsum_const; ring|]. intros p _. unfold fphi. cbn [fst snd]. ring.
    - rewrite (Rsum_map_ext _ (fun p => fphi q (m, n, k) * td q p t (m, n, k))) by (intros; ring). rewrite Rsum_map_scal.
      replace (Rsum (map (fun p => td q p t (m, n, k)) (equispaced x0 (/ (INR (q_nfp q) * INR N)) N))) with 0; [ring|]. symmetry. unfold equispaced. rewrite map_map.
      assert (Bn : (- Z.of_nat N < - n < Z.of_nat N)%Z) by (destruct Mo as [(_ & B)|(_ & B)]; lia).
      rewrite <- (dft_zero (off (-1 * k) + trig_arg (q_nfp q) x0 t m n) (- n) N) by lia. apply Rsum_map_ext. intros j _. unfold td. rewrite soc. f_equal. unfold targ, trig_arg. cbn [fst snd]. rewrite opp_IZR. field. lra.
  Qed.
  Lemma loop2 t0 N p : (q_mpol q < N)%nat -> Rsum (map (fun t => phi2 q x p t) (equispaced t0 (/ INR N) N)) = 0.
  Proof using M L.
    intros H. assert (PN : 0 < INR N) by (apply lt_0_INR; lia).
    unfold phi2. rewrite Rsum_ldot by apply cols_length. apply ldot_zero_cols. intros [[m n] k] I. pose proof (pcols_modes _ _ _ _ I) as Mo. apply mode_bounds in Mo. cbn [fst] in Mo.
    destruct (Z.eq_dec m 0) as [->|Hn].
    - rewrite (Rsum_map_ext _ (fun _ => 0)); [rewrite Rsum_const; ring|]. intros t _. unfold ftheta. cbn [fst snd]. ring.
    - rewrite (Rsum_map_ext _ (fun t => ftheta (m, n, k) * td q p t (m, n, k))) by (intros; ring). rewrite Rsum_map_scal.
      replace (Rsum (map (fun t => td q p t (m, n, k)) (equispaced t0 (/ INR N) N))) with 0; [ring|]. symmetry. unfold equispaced. rewrite map_map.
      assert (Bn : (- Z.of_nat N < m < Z.of_nat N)%Z) by (destruct Mo as [(-> & B)|(B & _)]; lia).
      rewrite <- (dft_zero (off (-1 * k) + trig_arg (q_nfp q) p t0 m n) m N) by lia. apply Rsum_map_ext. intros j _. unfold td. rewrite soc. f_equal. unfold targ, trig_arg. cbn [fst snd]. field. lra.
  Qed.
  (** Any loop of the grid is crossed by the net current. *)
  Lemma crossing1 x0 N t : (q_ntor q < N)%nat -> (forall p, In p (equispaced x0 (/ (INR (q_nfp q) * INR N)) N) -> wn q p t <> zero3) ->
    INR N * Rabs (q_G q) <= Rsum (map (fun p => norm3 (kval q x p t) * norm3 (w1 q p t)) (equispaced x0 (/ (INR (q_nfp q) * INR N)) N)).
  Proof using M L.
    intros H Nz. set (ps := equispaced _ _ _) in *. assert (E : Rsum (map (fun p => phi1 q x p t + q_G q) ps) = INR N * q_G q).
    { rewrite (Rsum_map_plus (fun p => phi1 q x p t) (fun _ => q_G q)). unfold ps at 1. rewrite loop1 by exact H. rewrite Rsum_const. unfold ps, equispaced. rewrite map_length, seq_length. ring. }
    apply (Rle_trans _ (Rabs (Rsum (map (fun p => phi1 q x p t + q_G q) ps)))); [rewrite E, Rabs_mult, (Rabs_pos_eq (INR N)) by apply pos_INR; lra|].
    eapply Rle_trans; [apply Rsum_abs|]. apply Rsum_le. intros p I.
    exact (proj1 (through_loop (wn q p t) (w1 q p t) (w2 q p t) (phi1 q x p t + q_G q) (phi2 q x p t + q_I q) eq_refl (Nz p I))).
  Qed.
  Lemma crossing2 t0 N p : (q_mpol q < N)%nat -> (forall t, In t (equispaced t0 (/ INR N) N) -> wn q p t <> zero3) ->
    INR N * Rabs (q_I q) <= Rsum (map (fun t => norm3 (kval q x p t) * norm3 (w2 q p t)) (equispaced t0 (/ INR N) N)).
  Proof using M L.
    intros H Nz. set (ps := equispaced _ _ _) in *. assert (E : Rsum (map (fun t => phi2 q x p t + q_I q) ps) = INR N * q_I q).
    { rewrite (Rsum_map_plus (fun t => phi2 q x p t) (fun _ => q_I q)). unfold ps at 1. rewrite loop2 by exact H. rewrite Rsum_const. unfold ps, equispaced. rewrite map_length, seq_length. ring. }
    apply (Rle_trans _ (Rabs (Rsum (map (fun t => phi2 q x p t + q_I q) ps)))); [rewrite E, Rabs_mult, (Rabs_pos_eq (INR N)) by apply pos_INR; lra|].
    eapply Rle_trans; [apply Rsum_abs|]. apply Rsum_le. intros t I.
    exact (proj2 (through_loop (wn q p t) (w1 q p t) (w2 q p t) (phi1 q x p t + q_G q) (phi2 q x p t + q_I q) eq_refl (Nz t I))).
  Qed.
End Loops.
