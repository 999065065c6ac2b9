(** Mirror images of machines, for C145. *)
From Coq Require Import String List Bool Arith ZArith Reals Lra Lia Permutation.
From Coquelicot Require Import Coquelicot.
From Verif Require Import Base ModelArray ProofArray ModelMath SpecMath RDeriv ProofMath ModelSurface SpecSurface ProofSurface ProofSurface2 ProofSurface3
  ModelParams ModelField SpecField ProofField ProofField2 ProofField3 ProofField4 ProofField6
  ModelQuantity SpecQuantity ModelWrapper SpecWrapper ModelPackage SpecPackage ProofPackage ProofPackage2 ProofPackage4
  SpecConvex ProofConvex SpecBest SpecRefine ProofRefine SpecMirror ProofMirror SpecNfp ProofNfp ProofNfp2 ProofNfp3 ProofNfp4 ProofAxi SpecOrigin ProofOrigin SpecHand.
Import ListNotations.
Open Scope R_scope.
Open Scope string_scope.
Open Scope list_scope.

(** ** Vectors *)
Lemma flipz_twice P : flipz (flipz P) = P.
Proof. destruct P. unfold flipz; simpl. f_equal. ring. Qed.
Lemma dot_flipz u v : dot3 (flipz u) (flipz v) = dot3 u v.
Proof. unfold flipz, dot3; simpl. ring. Qed.
Lemma norm_dot u v : dot3 u u = dot3 v v -> norm3 u = norm3 v.
Proof. intros H. unfold norm3. f_equal. unfold dot3 in H. destruct u, v; simpl in *. lra. Qed.
Lemma norm_flipz u : norm3 (flipz u) = norm3 u.
Proof. apply norm_dot, dot_flipz. Qed.
Lemma scale_flipz c u : scale3 c (flipz u) = flipz (scale3 c u).
Proof. unfold flipz, scale3; simpl. f_equal; ring. Qed.
Definition counter (u : vec3) : vec3 := scale3 (-1) (flipz u).
Lemma counter_eq u : counter u = V3 (- vx u) (- vy u) (vz u).
Proof. unfold counter, flipz, scale3; simpl. f_equal; ring. Qed.
Lemma dot_counter u v : dot3 (counter u) (counter v) = dot3 u v.
Proof. rewrite !counter_eq. unfold dot3; simpl. ring. Qed.
Lemma cross_flipz a b : cross3 (flipz a) (counter b) = flipz (cross3 a b).
Proof. rewrite counter_eq. unfold flipz, cross3; simpl. f_equal; ring. Qed.
Lemma contribution_flipz P W n n' k : norm3 n' = norm3 n -> contribution (flipz P) (flipz W) n' (counter k) = flipz (contribution P W n k).
Proof.
  intros H. unfold contribution. cbv zeta. change (sqrt (dot3 n' n')) with (norm3 n'). change (sqrt (dot3 n n)) with (norm3 n). rewrite H. replace (sub3 (flipz P) (flipz W)) with (flipz (sub3 P W)) by (unfold flipz, sub3; simpl; f_equal; ring).
  rewrite counter_eq, dot_flipz. generalize (sub3 P W). intros d. generalize (norm3 n) (1 / sqrt (dot3 d d)). intros u v. unfold flipz, cross3, scale3; simpl. f_equal; ring.
Qed.
Lemma vsum_flipz g l : vsum (fun t => flipz (g t)) l = flipz (vsum g l).
Proof. unfold vsum. induction l as [|t l IH]; [unfold flipz, zero3; simpl; unfold zero3; f_equal; ring|]. change (add3 (flipz (g t)) (sum3 (map (fun t => flipz (g t)) l)) = flipz (add3 (g t) (sum3 (map g l)))). rewrite IH. unfold flipz, add3; simpl. f_equal; ring. Qed.

(** ** Angles *)
Lemma angles_sym ts ts' : mirrored_angles ts ts' -> mirrored_angles ts' ts.
Proof.
  intros (E & l & P & F). split; [now symmetry|].
  assert (F' : List.Forall2 (fun t t' => exists k, t' = IZR k - t) l ts).
  { clear -F. induction F as [|t u ts l (k & ->) F IH]; constructor; [|exact IH]. exists k. ring. }
  destruct (Permutation_Forall2 P F') as (m & Pm & Fm). exists m. split; [now apply Permutation_sym|exact Fm].
Qed.
Lemma angles_length ts ts' : mirrored_angles ts ts' -> length ts' = length ts.
Proof. intros (_ & l & P & F). rewrite <- (Permutation_length P). clear -F. induction F; cbn; congruence. Qed.
Lemma turns {A} (g : R -> A) : (forall t, g (t + 1) = g t) -> forall k t, g (t + IZR k) = g t.
Proof.
  intros H. assert (N : forall n t, g (t + INR n) = g t).
  { induction n; intros t; [f_equal; cbn; ring|]. rewrite S_INR. replace (t + (INR n + 1)) with ((t + INR n) + 1) by ring. now rewrite H, IHn. }
  intros k t. destruct k as [|p|p]; [f_equal; ring| |].
  - rewrite <- positive_nat_Z, <- INR_IZR_INZ. apply N.
  - replace (g t) with (g ((t + IZR (Z.neg p)) + INR (Pos.to_nat p))); [symmetry; apply N|]. f_equal. rewrite INR_IZR_INZ, positive_nat_Z. change (Z.neg p) with (- Z.pos p)%Z. rewrite opp_IZR. ring.
Qed.
Lemma angles_map {A} (g g' : R -> A) ts ts' : mirrored_angles ts ts' -> (forall t, g (t + 1) = g t) -> (forall t, g' t = g (- t)) -> Permutation (map g' ts') (map g ts).
Proof.
  intros (_ & l & P & F) H E. rewrite <- (Permutation_map g' P). replace (map g' l) with (map g ts); [reflexivity|].
  clear P. induction F as [|t u ts l (k & ->) F IH]; [reflexivity|]. cbn [map]. f_equal; [|exact IH]. rewrite E. replace (- (IZR k - t)) with (t + IZR (- k)) by (rewrite opp_IZR; ring). symmetry. now apply turns.
Qed.
Lemma angles_sample {A} (F F' : R -> R -> A) ps ts ts' : mirrored_angles ts ts' -> (forall p t, F p (t + 1) = F p t) -> (forall p t, F' p t = F p (- t)) ->
  Permutation (concat (sample F' ps ts')) (concat (sample F ps ts)).
Proof.
  intros H P E. unfold sample. induction ps as [|p ps IH]; cbn; [constructor|]. apply Permutation_app; [|exact IH]. apply (angles_map (F p)); auto.
Qed.
Lemma angles_vsum (F F' : R -> vec3) ts ts' : mirrored_angles ts ts' -> (forall t, F (t + 1) = F t) -> (forall t, F' t = F (- t)) -> vsum F' ts' = vsum F ts.
Proof. intros H P E. unfold vsum. now apply sum3_perm, angles_map. Qed.
Lemma spacing_step ts : nth (Nat.min 1 (length ts - 1)) ts 0 - nth 0 ts 0 = spacing ts.
Proof. destruct ts as [|a [|b l]]; cbn; ring. Qed.

(** ** Surfaces *)
Lemma derives_minus (f : R -> vec3) t d : derives f (- t) d -> derives (fun y => f (- y)) t (scale3 (-1) d).
Proof.
  assert (G : forall (g : R -> R) e, is_derive g (- t) e -> is_derive (fun y => g (- y)) t (-1 * e)).
  { intros g e H. eapply dR_eq; [|apply (dR_comp g (fun y => - y) t e (-1) H)]; [ring|].
    eapply dR_eq; [|eapply dR_ext; [|apply (dR_scal (-1) _ _ _ (dR_id t))]]; [ring|]. intros y. cbv beta. ring. }
  intros (A & B & C). split; [apply (G (fun y => vx (f y))), A|]. split; [apply (G (fun y => vy (f y))), B|apply (G (fun y => vz (f y))), C].
Qed.
Lemma derives_flipz (f : R -> vec3) t d : derives f t d -> derives (fun y => flipz (f y)) t (flipz d).
Proof.
  intros (A & B & C). unfold flipz, derives; simpl. split; [exact A|]. split; [exact B|].
  eapply dR_eq; [|eapply dR_ext; [|apply (dR_scal (-1) _ _ _ C)]]; [ring|]. intros y. cbv beta. ring.
Qed.
Lemma mirrored_pt s s' : legal s -> legal s' -> mirrored_surface s s' -> forall p t,
  pt s' 0 0 p t = flipz (pt s 0 0 p (- t)) /\ pt s' 1 0 p t = flipz (pt s 1 0 p (- t)) /\ pt s' 0 1 p t = counter (pt s 0 1 p (- t)) /\ nrm s' p t = flipz (nrm s p (- t)).
Proof.
  intros L L' (_ & _ & _ & F & F' & A & B & H) p t.
  assert (E : forall p t, pt s' 0 0 p t = flipz (pt s 0 0 p (- t))).
  { intros u v. rewrite (reports_unique _ _ _ _ (reports_gammadash s' 0 0 L') B), H. f_equal. symmetry. apply (reports_unique _ _ _ _ (reports_gammadash s 0 0 L) A). }
  split; [apply E|].
  assert (E1 : pt s' 1 0 p t = flipz (pt s 1 0 p (- t))).
  { apply (derives_same (fun y => pt s' 0 0 y t) (fun y => flipz (pt s 0 0 y (- t))) p); [intros; apply E|apply pt_phi|]. apply derives_flipz, (pt_phi s 0 0 (- t) p). }
  assert (E2 : pt s' 0 1 p t = counter (pt s 0 1 p (- t))).
  { apply (derives_same (fun y => pt s' 0 0 p y) (fun y => flipz (pt s 0 0 p (- y))) t); [intros; apply E|apply pt_theta|].
    unfold counter. rewrite scale_flipz. apply derives_flipz, (derives_minus (fun y => pt s 0 0 p y)), pt_theta. }
  split; [exact E1|]. split; [exact E2|]. unfold nrm. rewrite E1, E2. apply cross_flipz.
Qed.
Lemma mirrored_back s s' : mirrored_surface s s' -> mirrored_surface s' s.
Proof.
  intros (N & P & T & F & F' & A & B & H). split; [now symmetry|]. split; [now symmetry|]. split; [now apply angles_sym|]. exists F', F. split; [exact B|]. split; [exact A|].
  intros p t. now rewrite H, Ropp_involutive, flipz_twice.
Qed.
(** The area elements. *)
Lemma mirrored_da s s' ps ts ts' r r' : legal s -> legal s' -> mirrored_surface s s' -> mirrored_angles ts ts' -> resampled s ps ts r -> resampled s' ps ts' r' ->
  exists A A', da r = Ok (sample A ps ts) /\ da r' = Ok (sample A' ps ts') /\ (forall p t, A p (t + 1) = A p t) /\ forall p t, A' p t = A p (- t).
Proof.
  intros L L' Mv (Sp & _) C C'. eexists _, _. split; [exact (da_copy s ps ts r L C)|]. split; [exact (da_copy s' _ _ r' L' C')|].
  apply copy_fields in C as (_ & _ & _ & _ & _ & _ & _ & _ & _ & X1 & X2). apply copy_fields in C' as (_ & _ & _ & _ & _ & _ & _ & _ & _ & X1' & X2').
  rewrite spacing_step in X2, X2'. split; intros p t; cbv beta.
  - unfold nrm. now rewrite !pt_theta_one.
  - rewrite X1', X2', Sp, <- X1, <- X2. destruct (mirrored_pt s s' L L' Mv p t) as (_ & _ & _ & ->). now rewrite norm_flipz.
Qed.

(** ** Fields *)
Section Hand.
  Variables (other : list string) (q q' : params) (x x' : list R).
  Hypothesis S : sound q x.
  Hypothesis S' : sound q' x'.
  Hypothesis D : mirrored_device q q'.
  Hypothesis E : forall p t, phi_of q' x' p t = phi_of q x p (- t).
  Let M : made q. Proof. apply S. Qed.
  Let Lw : legal (q_winding q). Proof. apply S. Qed.
  Let Lp : legal (q_plasma q). Proof. apply S. Qed.
  Let M' : made q'. Proof. apply S'. Qed.
  Let Lw' : legal (q_winding q'). Proof. apply S'. Qed.
  Let Lp' : legal (q_plasma q'). Proof. apply S'. Qed.
  Let L : length x = q_ndofs q. Proof. apply S. Qed.
  Let L' : length x' = q_ndofs q'. Proof. apply S'. Qed.
  Let Psh : plasma_shaped q. Proof. apply S. Qed.
  Let Psh' : plasma_shaped q'. Proof. apply S'. Qed.
  Let Dw : mirrored_surface (q_winding q) (q_winding q'). Proof. apply D. Qed.
  Let Dp : mirrored_surface (q_plasma q) (q_plasma q'). Proof. apply D. Qed.
  Lemma hd_phi1 p t : phi1 q' x' p t = phi1 q x p (- t).
  Proof using E.
    eapply dR_unique; [|apply (phi_d1 q x p (- t))]. eapply dR_ext with (f := fun s => phi_of q' x' s t); [intros; apply E|]. apply phi_d1.
  Qed.
  Lemma hd_phi2 p t : phi2 q' x' p t = - phi2 q x p (- t).
  Proof using E.
    eapply dR_unique; [apply phi_d2|]. eapply dR_ext with (f := fun s => phi_of q x p (- s)); [intros; symmetry; apply E|].
    eapply dR_eq; [|apply (dR_comp (fun s => phi_of q x p s) (fun s => - s) t _ (-1) (phi_d2 q x p (- t)))]; [ring|].
    eapply dR_eq; [|eapply dR_ext; [|apply (dR_scal (-1) _ _ _ (dR_id t))]]; [ring|]. intros y. cbv beta. ring.
  Qed.
  Lemma hd_kval p t : kval q' x' p t = counter (kval q x p (- t)).
  Proof using E D Dw Lw Lw'.
    pose proof D as (_ & _ & _ & _ & EG & EI & _). unfold kval, wn, w1, w2. rewrite hd_phi1, hd_phi2, EG, EI.
    destruct (mirrored_pt _ _ Lw Lw' Dw p t) as (_ & -> & -> & ->). rewrite norm_flipz, !counter_eq.
    unfold flipz, scale3, sub3; simpl. f_equal; ring.
  Qed.
  Lemma hd_bval P : bval q' x' (flipz P) = flipz (bval q x P).
  Proof using E D Dw Lw Lw'.
    pose proof Dw as (_ & Ep & Et & _).
    enough (W : wsum q' x' (flipz P) = flipz (wsum q x P)) by (unfold bval; rewrite W, Ep, (angles_length _ _ Et); now rewrite !scale_flipz).
    unfold wsum.
    set (g := fun q y P p t => contribution P (pt (q_winding q) 0 0 p t) (wn q p t) (kval q y p t)).
    change (sum3 (map (fun u => g q' x' (flipz P) (fst u) (snd u)) (pairs (s_qphi (q_winding q')) (s_qtheta (q_winding q')))) =
          flipz (sum3 (map (fun u => g q x P (fst u) (snd u)) (pairs (s_qphi (q_winding q)) (s_qtheta (q_winding q)))))).
    rewrite !sum3_pairs, Ep, <- vsum_flipz. apply vsum_ext. intros p. rewrite <- vsum_flipz. apply (angles_vsum (fun t => flipz (g q x P p t)) _ _ _ Et).
    - intros t. unfold g, wn, nrm. now rewrite !pt_theta_one, kval_theta.
    - intros t. unfold g. rewrite hd_kval. destruct (mirrored_pt _ _ Lw Lw' Dw p t) as (-> & _ & _ & Hw). apply contribution_flipz. unfold wn. rewrite Hw. apply norm_flipz.
  Qed.
  Lemma hd_bnval p t : bnval q' x' p t = bnval q x p (- t).
  Proof using E D Dw Dp Lw Lw' Lp Lp'.
    unfold bnval, unit_at. destruct (mirrored_pt _ _ Lp Lp' Dp p t) as (-> & _ & _ & ->). now rewrite hd_bval, norm_flipz, scale_flipz, dot_flipz.
  Qed.
  Lemma hd_nfp : q_nfp q' = q_nfp q.
  Proof using D. destruct D as (_ & (N & _) & _). exact N. Qed.
  Lemma hd_compared fld surf surf' F F' ps ts ts' : mirrored_angles ts ts' -> (forall p t, F p (t + 1) = F p t) -> (forall p t, F' p t = F p (- t)) ->
    (exists A A', da surf = Ok (sample A ps ts) /\ da surf' = Ok (sample A' ps ts') /\ (forall p t, A p (t + 1) = A p t) /\ forall p t, A' p t = A p (- t)) ->
    reads other fld q x (of_grid (sample F ps ts)) -> reads other fld q' x' (of_grid (sample F' ps ts')) -> compared other q x q' x' fld surf surf'.
  Proof using D.
    intros An PF EF (A & A' & Da & Da' & PA & EA) Rd Rd'. eexists _, _, _, _. split; [exact Rd|]. split; [exact Rd'|]. split; [exact Da|]. split; [exact Da'|]. split.
    - intros h. rewrite hd_nfp. f_equal. rewrite !el_of_grid, !map2_sample. symmetry. apply Rsum_perm. apply (angles_sample (fun p t => A p t * h (F p t))); [exact An| |]; intros p t; cbv beta; [now rewrite PA, PF|now rewrite EA, EF].
    - intros y. rewrite !el_of_grid. pose proof (angles_sample F F' ps ts ts' An PF EF) as P. split; apply Permutation_in; [exact P|now apply Permutation_sym].
  Qed.
  Lemma hd_agrees name : In name even_names \/ In name odd_names -> agrees other q x q' x' name.
  Proof using S S' D E M Lw Lp M' Lw' Lp' L L' Psh Psh' Dw Dp.
    pose proof D as (_ & _ & Ep & Et & _ & _ & b & Pb & Eb & Eb'). pose proof Dp as (_ & Pp & Pt & _).
    destruct (made_facts q M) as (_ & _ & _ & _ & Ce & _ & Cp). destruct (made_facts q' M') as (_ & _ & _ & _ & Ce' & _ & Cp'). rewrite Ep in Ce'. rewrite Pp in Cp'.
    pose proof (mirrored_da _ _ _ _ _ _ _ Lw Lw' Dw Et Ce Ce') as De. pose proof (mirrored_da _ _ _ _ _ _ _ Lp Lp' Dp Pt Cp Cp') as Dpl.
    apply all_agree; auto.
    - pose proof (reads_K2 other q' x' S') as Rd. rewrite Ep in Rd. refine (hd_compared "K2" _ _ _ _ _ _ _ Et _ _ De (reads_K2 other q x S) Rd); intros p t; cbv beta; [now rewrite kval_theta|rewrite hd_kval; apply dot_counter].
    - pose proof (reads_Phi other q' x' S') as Rd. rewrite Ep in Rd. refine (hd_compared "Phi" _ _ _ _ _ _ _ Et _ _ De (reads_Phi other q x S) Rd); intros p t; [apply phi_shift_theta|apply E].
    - pose proof (Bnormal_total other q' x' S' _ x' L' Eb') as Rd. rewrite Pp in Rd. refine (hd_compared "Bnormal" _ _ _ _ _ _ _ Pt _ _ Dpl (Bnormal_total other q x S b x L Eb) Rd); intros p t; cbv beta.
      + unfold bnval, unit_at, nrm. now rewrite !pt_theta_one, Pb.
      + now rewrite hd_bnval.
  Qed.
End Hand.
