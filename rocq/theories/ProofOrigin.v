(** Machines moved as a whole, for C143. *)
From Coq Require Import String List Bool Arith ZArith Reals Lra Lia.
From Coquelicot Require Import Coquelicot.
From Verif Require Import Base ModelArray ProofArray ModelMath SpecMath RDeriv ProofMath ModelSurface SpecSurface ProofSurface ProofSurface2 ProofSurface3
  ModelParams ModelField SpecField ProofField ProofField2 ProofField3 ProofField4
  ModelQuantity SpecQuantity ModelWrapper SpecWrapper ModelPackage SpecPackage ProofPackage ProofPackage2 ProofPackage4
  SpecConvex ProofConvex SpecBest SpecRefine ProofRefine SpecMirror SpecNfp ProofNfp ProofNfp2 ProofNfp3 ProofNfp4 SpecOrigin.
Import ListNotations.
Open Scope R_scope.
Open Scope string_scope.
Open Scope list_scope.

(** ** Surfaces *)
Lemma derives_shift (f : R -> vec3) t a d : derives f (t + a) d -> derives (fun y => f (y + a)) t d.
Proof.
  assert (G : forall (g : R -> R) e, is_derive g (t + a) e -> is_derive (fun y => g (y + a)) t e).
  { intros g e H. eapply dR_eq; [|apply (dR_comp g (fun y => y + a) t e 1 H)]; [ring|]. eapply dR_eq; [|apply dR_plus; [apply dR_id|apply dR_const]]. ring. }
  intros (A & B & C). split; [apply (G (fun y => vx (f y))), A|]. split; [apply (G (fun y => vy (f y))), B|apply (G (fun y => vz (f y))), C].
Qed.
Lemma derives_lifted a h (f : R -> vec3) t d : derives f t d -> derives (fun y => lifted a h (f y)) t (rotz (2 * PI * a) d).
Proof.
  intros (A & B & C). unfold lifted, rotz, add3, derives; cbn [vx vy vz]. split; [|split].
  - eapply dR_eq; [|apply dR_plus; [|apply dR_const]; eapply dR_ext; [|apply dR_plus; [apply (dR_scal (cos (2 * PI * a)) _ _ _ A)|apply (dR_scal (- sin (2 * PI * a)) _ _ _ B)]]]; [ring|intros; cbv beta; ring].
  - eapply dR_eq; [|apply dR_plus; [|apply dR_const]; apply dR_plus; [apply (dR_scal (sin (2 * PI * a)) _ _ _ A)|apply (dR_scal (cos (2 * PI * a)) _ _ _ B)]]. ring.
  - eapply dR_eq; [|apply dR_plus; [exact C|apply dR_const]]. ring.
Qed.
Lemma moved_pt a b h s s' : legal s -> legal s' -> moved_surface a b h s s' -> forall p t,
  pt s' 0 0 (p + a) (t + b) = lifted a h (pt s 0 0 p t) /\ pt s' 1 0 (p + a) (t + b) = rotz (2 * PI * a) (pt s 1 0 p t) /\
  pt s' 0 1 (p + a) (t + b) = rotz (2 * PI * a) (pt s 0 1 p t) /\ nrm s' (p + a) (t + b) = rotz (2 * PI * a) (nrm s p t).
Proof.
  intros L L' (_ & _ & _ & F & F' & A & B & H) p t.
  assert (E : forall p t, pt s' 0 0 (p + a) (t + b) = lifted a h (pt s 0 0 p t)).
  { intros u v. rewrite (reports_unique _ _ _ _ (reports_gammadash s' 0 0 L') B), H. f_equal. symmetry. apply (reports_unique _ _ _ _ (reports_gammadash s 0 0 L) A). }
  split; [apply E|].
  assert (E1 : pt s' 1 0 (p + a) (t + b) = rotz (2 * PI * a) (pt s 1 0 p t)).
  { apply (derives_same (fun y => pt s' 0 0 (y + a) (t + b)) (fun y => lifted a h (pt s 0 0 y t)) p); [intros; apply E| |].
    - apply (derives_shift (fun y => pt s' 0 0 y (t + b))), pt_phi.
    - apply derives_lifted, (pt_phi s 0 0 t p). }
  assert (E2 : pt s' 0 1 (p + a) (t + b) = rotz (2 * PI * a) (pt s 0 1 p t)).
  { apply (derives_same (fun y => pt s' 0 0 (p + a) (y + b)) (fun y => lifted a h (pt s 0 0 p y)) t); [intros; apply E| |].
    - apply (derives_shift (fun y => pt s' 0 0 (p + a) y)), pt_theta.
    - apply derives_lifted, (pt_theta s 0 0 p t). }
  split; [exact E1|]. split; [exact E2|]. unfold nrm. rewrite E1, E2. apply rotz_cross.
Qed.
Lemma step_moved a l : nth (Nat.min 1 (length (map (fun p => p + a) l) - 1)) (map (fun p => p + a) l) 0 - nth 0 (map (fun p => p + a) l) 0 = nth (Nat.min 1 (length l - 1)) l 0 - nth 0 l 0.
Proof. destruct l as [|u [|v l]]; cbn; ring. Qed.
Lemma sample_moved {A} (F F' : R -> R -> A) a b ps ts : (forall p t, F' (p + a) (t + b) = F p t) -> sample F' (map (fun p => p + a) ps) (map (fun t => t + b) ts) = sample F ps ts.
Proof. intros H. unfold sample. rewrite map_map. apply map_ext. intros p. rewrite map_map. apply map_ext. intros t. apply H. Qed.
Lemma moved_da a b h s s' ps ts r r' : legal s -> legal s' -> moved_surface a b h s s' -> resampled s ps ts r -> resampled s' (map (fun p => p + a) ps) (map (fun t => t + b) ts) r' -> da r' = da r.
Proof.
  intros L L' Mv C C'. rewrite (da_copy s ps ts r L C), (da_copy s' _ _ r' L' C'). f_equal.
  apply copy_fields in C as (_ & _ & _ & _ & _ & _ & _ & _ & _ & X1 & X2). apply copy_fields in C' as (_ & _ & _ & _ & _ & _ & _ & _ & _ & X1' & X2'). rewrite step_moved in X1', X2'.
  apply sample_moved. intros p t. rewrite X1', X2', <- X1, <- X2. f_equal. destruct (moved_pt a b h s s' L L' Mv p t) as (_ & _ & _ & ->). apply rotz_norm.
Qed.
Lemma dot_rotz a u v : dot3 (rotz a u) (rotz a v) = dot3 u v.
Proof.
  pose proof (sin2_cos2 a) as H. unfold Rsqr in H. unfold rotz, dot3; cbn [vx vy vz].
  transitivity ((vx u * vx v + vy u * vy v) * (sin a * sin a + cos a * cos a) + vz u * vz v); [ring|rewrite H; ring].
Qed.
Lemma contribution_lifted a h P W n n' k : norm3 n' = norm3 n ->
  contribution (lifted a h P) (lifted a h W) n' (rotz (2 * PI * a) k) = rotz (2 * PI * a) (contribution P W n k).
Proof.
  intros H. rewrite <- (contribution_rotz _ _ _ n n' k H). unfold contribution. cbv zeta.
  replace (sub3 (lifted a h P) (lifted a h W)) with (sub3 (rotz (2 * PI * a) P) (rotz (2 * PI * a) W)); [reflexivity|]. unfold lifted, sub3, add3; cbn [vx vy vz]. f_equal; ring.
Qed.

(** ** Fields *)
Section Moved.
  Variables (other : list string) (a b h : R) (q q' : params) (x x' : list R).
  Hypothesis S : sound q x.
  Hypothesis S' : sound q' x'.
  Hypothesis D : moved_device a b h q q'.
  Hypothesis E : forall p t, phi_of q' x' (p + a) (t + b) = phi_of q x p t.
  Let M : made q. Proof. apply S. Qed.
  Let Lw : legal (q_winding q). Proof. apply S. Qed.
  Let Lp : legal (q_plasma q). Proof. apply S. Qed.
  Let M' : made q'. Proof. apply S'. Qed.
  Let Lw' : legal (q_winding q'). Proof. apply S'. Qed.
  Let Lp' : legal (q_plasma q'). Proof. apply S'. Qed.
  Let Dw : moved_surface a b h (q_winding q) (q_winding q'). Proof. apply D. Qed.
  Let Dp : moved_surface a b h (q_plasma q) (q_plasma q'). Proof. apply D. Qed.
  Notation al := (2 * PI * a).
  Lemma mv_phi1 p t : phi1 q' x' (p + a) (t + b) = phi1 q x p t.
  Proof using E.
    eapply dR_unique; [|apply (phi_d1 q x p t)]. eapply dR_ext with (f := fun s => phi_of q' x' (s + a) (t + b)); [intros; apply E|].
    eapply dR_eq; [|apply (dR_comp (fun s => phi_of q' x' s (t + b)) (fun s => s + a) p _ 1 (phi_d1 q' x' (p + a) (t + b)))]; [ring|].
    eapply dR_eq; [|apply dR_plus; [apply dR_id|apply dR_const]]. ring.
  Qed.
  Lemma mv_phi2 p t : phi2 q' x' (p + a) (t + b) = phi2 q x p t.
  Proof using E.
    eapply dR_unique; [|apply (phi_d2 q x p t)]. eapply dR_ext with (f := fun s => phi_of q' x' (p + a) (s + b)); [intros; apply E|].
    eapply dR_eq; [|apply (dR_comp (fun s => phi_of q' x' (p + a) s) (fun s => s + b) t _ 1 (phi_d2 q' x' (p + a) (t + b)))]; [ring|].
    eapply dR_eq; [|apply dR_plus; [apply dR_id|apply dR_const]]. ring.
  Qed.
  Lemma mv_kval p t : kval q' x' (p + a) (t + b) = rotz al (kval q x p t).
  Proof using E D Dw Lw Lw'.
    pose proof D as (_ & _ & _ & _ & EG & EI & _). unfold kval, wn, w1, w2. rewrite mv_phi1, mv_phi2, EG, EI.
    destruct (moved_pt a b h _ _ Lw Lw' Dw p t) as (_ & -> & -> & ->). rewrite rotz_norm. now rewrite !scale_rotz, sub_rotz, scale_rotz.
  Qed.
  Lemma mv_bval P : bval q' x' (lifted a h P) = rotz al (bval q x P).
  Proof using E D Dw Lw Lw'.
    pose proof Dw as (_ & Ep & Et & _).
    enough (W : wsum q' x' (lifted a h P) = rotz al (wsum q x P)) by (unfold bval; rewrite W, Ep, Et, !map_length; now rewrite !scale_rotz).
    unfold wsum.
    set (g := fun q y P p t => contribution P (pt (q_winding q) 0 0 p t) (wn q p t) (kval q y p t)).
    change (sum3 (map (fun u => g q' x' (lifted a h P) (fst u) (snd u)) (pairs (s_qphi (q_winding q')) (s_qtheta (q_winding q')))) =
          rotz al (sum3 (map (fun u => g q x P (fst u) (snd u)) (pairs (s_qphi (q_winding q)) (s_qtheta (q_winding q)))))).
    rewrite !sum3_pairs, Ep, Et, <- vsum_rotz. unfold vsum at 1. rewrite map_map.
    change (vsum (fun p => vsum (g q' x' (lifted a h P) (p + a)) (map (fun t => t + b) (s_qtheta (q_winding q)))) (s_qphi (q_winding q)) = vsum (fun p => rotz al (vsum (g q x P p) (s_qtheta (q_winding q)))) (s_qphi (q_winding q))).
    apply vsum_ext. intros p. rewrite <- vsum_rotz. unfold vsum at 1. rewrite map_map.
    change (vsum (fun t => g q' x' (lifted a h P) (p + a) (t + b)) (s_qtheta (q_winding q)) = vsum (fun t => rotz al (g q x P p t)) (s_qtheta (q_winding q))).
    apply vsum_ext. intros t. unfold g. rewrite mv_kval. destruct (moved_pt a b h _ _ Lw Lw' Dw p t) as (-> & _ & _ & Hw). apply contribution_lifted. unfold wn. rewrite Hw. apply rotz_norm.
  Qed.
  Lemma mv_bnval p t : bnval q' x' (p + a) (t + b) = bnval q x p t.
  Proof using E D Dw Dp Lw Lw' Lp Lp'.
    unfold bnval, unit_at. destruct (moved_pt a b h _ _ Lp Lp' Dp p t) as (-> & _ & _ & ->). now rewrite mv_bval, rotz_norm, scale_rotz, dot_rotz.
  Qed.
  Lemma mv_nfp : q_nfp q' = q_nfp q.
  Proof using D. destruct D as (_ & (N & _) & _). exact N. Qed.
  Lemma mv_vectors : (exists g, reads other "K" q x (of_grid3 g) /\ reads other "K" q' x' (of_grid3 (map (map (rotz al)) g))) /\
    exists g, reads other "winding_surface_B" q x (of_grid3 g) /\ reads other "winding_surface_B" q' x' (of_grid3 (map (map (rotz al)) g)).
  Proof using S S' E D Dw Dp Lw Lw' Lp Lp' M M'.
    pose proof D as (_ & _ & Ep & Et & _). split.
    - eexists. split; [exact (reads_K other q x S)|]. pose proof (reads_K other q' x' S') as Rd. rewrite Ep, Et in Rd.
      change (map (map (rotz al))) with (gmap (rotz al)). rewrite gmap_sample. rewrite (sample_moved (fun p t => rotz al (kval q x p t))) in Rd by (intros; apply mv_kval). exact Rd.
    - assert (RB : forall q x, sound q x -> reads other "winding_surface_B" q x (of_grid3 (sample (fun p t => bval q x (pt (q_plasma q) 0 0 p t)) (s_qphi (q_plasma q)) (s_qtheta (q_plasma q))))).
      { intros q0 x0 (A & B & C & _ & F). eexists. split; [reflexivity|]. change (bind (winding_surface_B q0 x0) (fun v => Ok (of_grid3 v)) = Ok (of_grid3 (sample (fun p t => bval q0 x0 (pt (q_plasma q0) 0 0 p t)) (s_qphi (q_plasma q0)) (s_qtheta (q_plasma q0))))).
        now rewrite B_made by assumption. }
      eexists. split; [exact (RB q x S)|]. pose proof (RB q' x' S') as Rd. pose proof Dp as (_ & Pp & Pt & _). rewrite Pp, Pt in Rd.
      change (map (map (rotz al))) with (gmap (rotz al)). rewrite gmap_sample. rewrite (sample_moved (fun p t => rotz al (bval q x (pt (q_plasma q) 0 0 p t)))) in Rd; [exact Rd|].
      intros p t. destruct (moved_pt a b h _ _ Lp Lp' Dp p t) as (-> & _). apply mv_bval.
  Qed.
  Lemma mv_Bnormal : Bnormal q' x' = Bnormal q x.
  Proof using S S' E D Dw Dp Lw Lw' Lp Lp' M M'.
    pose proof D as (_ & _ & _ & _ & _ & _ & EB). rewrite !Bnormal_made by (try apply S; try apply S'). rewrite EB. do 2 f_equal. pose proof Dp as (_ & -> & -> & _). apply sample_moved, mv_bnval.
  Qed.
  Definition same_reading name := forall v, reads other name q x v -> reads other name q' x' v.
  Lemma mv_basic : same_reading "K2" /\ same_reading "Phi" /\ same_reading "Bnormal" /\ same_reading "Phi2" /\ same_reading "Bnormal2".
  Proof using S S' E D Dw Dp Lw Lw' Lp Lp' M M'.
    pose proof D as (_ & _ & Ep & Et & _). split; [|split; [|split; [|split]]]; intros v Rd.
    - rewrite (reads_fun _ _ _ _ _ _ Rd (reads_K2 other q x S)). pose proof (reads_K2 other q' x' S') as R2. rewrite Ep, Et in R2.
      rewrite (sample_moved (fun p t => dot3 (kval q x p t) (kval q x p t))) in R2; [exact R2|]. intros p t. rewrite mv_kval. apply dot_rotz.
    - rewrite (reads_fun _ _ _ _ _ _ Rd (reads_Phi other q x S)). pose proof (reads_Phi other q' x' S') as R2. rewrite Ep, Et in R2. rewrite (sample_moved (phi_of q x)) in R2; [exact R2|exact E].
    - destruct (reads_Bnormal other q x S) as (g & Eg & Rg). destruct (reads_Bnormal other q' x' S') as (g' & Eg' & Rg'). rewrite mv_Bnormal, Eg in Eg'. injection Eg' as <-. now rewrite (reads_fun _ _ _ _ _ _ Rd Rg).
    - rewrite (reads_fun _ _ _ _ _ _ Rd (reads_Phi2 other q x S)). pose proof (reads_Phi2 other q' x' S') as R2. rewrite Ep, Et in R2.
      rewrite (sample_moved (fun p t => phi_of q x p t * phi_of q x p t)) in R2; [exact R2|]. intros p t. now rewrite E.
    - destruct (reads_Bnormal other q x S) as (g & Eg & _). pose proof (reads_Bnormal2 other q x S g Eg) as R1. rewrite <- mv_Bnormal in Eg. pose proof (reads_Bnormal2 other q' x' S' g Eg) as R2. now rewrite (reads_fun _ _ _ _ _ _ Rd R1).
  Qed.
  Lemma mv_areas : da (q_eval q') = da (q_eval q) /\ da (q_plasma q') = da (q_plasma q).
  Proof using D Dw Dp Lw Lw' Lp Lp' M M'.
    destruct (made_facts q M) as (_ & _ & _ & _ & Ce & _ & Cp). destruct (made_facts q' M') as (_ & _ & _ & _ & Ce' & _ & Cp'). pose proof D as (_ & _ & Ep & Et & _). pose proof Dp as (_ & Pp & Pt & _).
    rewrite Ep, Et in Ce'. rewrite Pp, Pt in Cp'. split; [exact (moved_da a b h _ _ _ _ _ _ Lw Lw' Dw Ce Ce')|exact (moved_da a b h _ _ _ _ _ _ Lp Lp' Dp Cp Cp')].
  Qed.
  Lemma mv_names name : In name even_names \/ In name odd_names -> same_reading name.
  Proof using S S' E D Dw Dp Lw Lw' Lp Lp' M M'.
    destruct mv_basic as (AK & AP & AB & AP2 & AB2). destruct mv_areas as (Da & Dap).
    assert (Mx : forall n fld f, In (n, fld, f) [("f_max_K2", "K2", fun y : R => y); ("f_max_Bnormal", "Bnormal", Rabs); ("f_max_Bnormal2", "Bnormal", fun y => y * y); ("f_max_Phi", "Phi", Rabs); ("f_max_Phi2", "Phi", fun y => y * y); ("f_max_Phi4", "Phi", fun y => y ^ 4)] -> same_reading n).
    { intros n fld f J v R1.
      assert (J' : In (n, fld, f) [("f_max_K2", "K2", fun y : R => y); ("f_max_K_dot_grad_K_cyl", "K_dot_grad_K_cyl", Rabs); ("f_max_Bnormal", "Bnormal", Rabs);
        ("f_max_Bnormal2", "Bnormal", fun y => y * y); ("f_max_Phi", "Phi", Rabs); ("f_max_Phi2", "Phi", fun y => y * y); ("f_max_Phi4", "Phi", fun y => y ^ 4)]) by (cbn in *; tauto).
      destruct (largest_value other q x S _ _ _ J') as (m & u & Rm & Ru & (Q1 & Q2)). destruct (largest_value other q' x' S' _ _ _ J') as (m' & u' & Rm' & Ru' & (Q1' & Q2')).
      assert (Eu : u' = u) by (apply (reads_fun _ _ _ _ _ _ Ru'); destruct J as [X|[X|[X|[X|[X|[X|[]]]]]]]; injection X as _ <- _; auto). rewrite Eu in Q1', Q2'.
      assert (Em : m' = m) by (apply Rle_antisym; auto). rewrite Em in Rm'. rewrite (reads_fun _ _ _ _ _ _ R1 Rm). exact Rm'. }
    assert (It : forall n fld f, In (n, fld, f) [("f_K", "K2", fun y => y / 2); ("f_B", "Bnormal", fun y => y * y / 2); ("f_Phi", "Phi", fun y => y * y / 2); ("f_l1_Phi", "Phi", Rabs); ("f_huber_K", "K2", sqrt)] -> same_reading n).
    { intros n fld f J v R1.
      set (sf := fun q => if String.eqb n "f_B" then q_plasma q else q_eval q).
      assert (J1 : forall q, In (n, fld, sf q, f) [("f_K", "K2", q_eval q, fun y => y / 2); ("f_B", "Bnormal", q_plasma q, fun y => y * y / 2); ("f_Phi", "Phi", q_eval q, fun y => y * y / 2);
        ("f_l1_Phi", "Phi", q_eval q, Rabs); ("f_huber_K", "K2", q_eval q, sqrt)]) by (intros q0; unfold sf; destruct J as [X|[X|[X|[X|[X|[]]]]]]; injection X as <- <- <-; cbn; tauto).
      assert (Ds : da (sf q') = da (sf q)) by (unfold sf; destruct (String.eqb n "f_B"); assumption).
      destruct (integral_value other q x S _ _ _ _ (J1 q)) as (m & u & d & Rm & Ru & Dq & Em). destruct (integral_value other q' x' S' _ _ _ _ (J1 q')) as (m' & u' & d' & Rm' & Ru' & Dq' & Em').
      assert (Eu : u' = u) by (apply (reads_fun _ _ _ _ _ _ Ru'); destruct J as [X|[X|[X|[X|[X|[]]]]]]; injection X as _ <- _; auto). rewrite Eu in Em'.
      rewrite Ds, Dq in Dq'. injection Dq' as <-. assert (Emm : m' = m) by (rewrite Em, Em', mv_nfp; reflexivity). rewrite Emm in Rm'. rewrite (reads_fun _ _ _ _ _ _ R1 Rm). exact Rm'. }
    intros I.
    assert (I' : In name ["K2"; "Phi"; "Bnormal"; "Phi2"; "Bnormal2"] \/ (exists fld f, In (name, fld, f) [("f_max_K2", "K2", fun y : R => y); ("f_max_Bnormal", "Bnormal", Rabs); ("f_max_Bnormal2", "Bnormal", fun y => y * y); ("f_max_Phi", "Phi", Rabs); ("f_max_Phi2", "Phi", fun y => y * y); ("f_max_Phi4", "Phi", fun y => y ^ 4)]) \/
      exists fld f, In (name, fld, f) [("f_K", "K2", fun y => y / 2); ("f_B", "Bnormal", fun y => y * y / 2); ("f_Phi", "Phi", fun y => y * y / 2); ("f_l1_Phi", "Phi", Rabs); ("f_huber_K", "K2", sqrt)]).
    { cbn in I. destruct I as [I|I]; repeat (destruct I as [<-|I]); try contradiction; solve [left; cbn; tauto|right; left; eexists _, _; cbn; tauto|right; right; eexists _, _; cbn; tauto]. }
    destruct I' as [I'|[(fld & f & I')|(fld & f & I')]]; [|exact (Mx name fld f I')|exact (It name fld f I')].
    destruct I' as [<-|[<-|[<-|[<-|[<-|[]]]]]]; assumption.
  Qed.
End Moved.
