(** The constant potential, and uniqueness up to it, for C124. *)
From Coq Require Import String List Bool Arith ZArith Reals Lra Lia.
From Verif Require Import Base ModelArray ProofArray ModelMath SpecMath ProofMath ModelSurface SpecSurface ProofSurface ProofSurface2 ProofSurface3
  ModelParams ModelField SpecField ProofField ProofField2 ProofField3 ProofField4
  ModelQuantity ModelWrapper SpecWrapper ModelPackage SpecPackage ProofPackage ProofPackage2 ProofPackage3 ProofPackage4 SpecConvex ProofConvex ProofSimsopt ProofTrig SpecBest ProofSquares ProofPeriods ProofBest ProofUnique ProofUnique2.
Import ListNotations.
Open Scope R_scope.
Open Scope string_scope.
Open Scope list_scope.

Definition nmodes (q : params) : nat := length (smodes (q_mpol q) (q_ntor q)).
Definition constant (q : params) (a : R) : list R := repeat 0 (nmodes q) ++ a :: repeat 0 (nmodes q).
Lemma ldot_app a b x y : length a = length x -> ldot (a ++ b) (x ++ y) = ldot a x + ldot b y.
Proof.
  revert x; induction a as [|u a IH]; intros [|v x] L; try discriminate; [unfold ldot; cbn; ring|]. cbn [app]. rewrite !ldot_cons, IH by (now injection L). ring.
Qed.
Lemma ldot_zeros a n : ldot a (repeat 0 n) = 0.
Proof. revert n; induction a as [|u a IH]; intros [|n]; try reflexivity. cbn [repeat]. rewrite ldot_cons, IH. ring. Qed.
Section Constant.
  Variable q : params.
  Hypothesis M : made q.
  Hypothesis St : q_stellsym q = false.
  Lemma constant_length a : length (constant q a) = q_ndofs q.
  Proof using M St.
    destruct (made_facts q M) as (_ & _ & E & _). rewrite E, <- length_pcols, St. unfold constant, pcols, nmodes. rewrite !app_length. cbn [length]. now rewrite !repeat_length, !map_length.
  Qed.
  Lemma constant_dot (f : Z * Z * Z -> R) a : ldot (map f (qcols q)) (constant q a) = f (0, 0, -1)%Z * a.
  Proof using St.
    clear M. unfold qcols, constant, pcols, nmodes. rewrite St, map_app. cbn [map]. rewrite ldot_app by (now rewrite !map_length, repeat_length). rewrite ldot_cons, !ldot_zeros. ring.
  Qed.
  Lemma constant_phi a p t : phi_of q (constant q a) p t = a /\ phi1 q (constant q a) p t = 0 /\ phi2 q (constant q a) p t = 0.
  Proof using St.
    clear M. unfold phi_of, phi1, phi2. rewrite !constant_dot. unfold tr, td, fphi, ftheta, targ, trig_arg, sin_or_cos. cbn [fst snd Z.mul Pos.mul Z.eqb Pos.eqb].
    replace (0 * (PI * 2 * t) - 0 * INR (q_nfp q) * (PI * 2 * p)) with 0 by ring. rewrite cos_0, sin_0. repeat split; ring.
  Qed.
  Variable x : list R.
  Hypothesis L : length x = q_ndofs q.
  Lemma raised_length a : length (lincomb 1 1 x (constant q a)) = q_ndofs q.
  Proof using M St L. rewrite length_lincomb; [exact L|]. now rewrite constant_length. Qed.
  Lemma raised_phi a p t : phi_of q (lincomb 1 1 x (constant q a)) p t = phi_of q x p t + a /\
    phi1 q (lincomb 1 1 x (constant q a)) p t = phi1 q x p t /\ phi2 q (lincomb 1 1 x (constant q a)) p t = phi2 q x p t.
  Proof using M St L.
    destruct (constant_phi a p t) as (E1 & E2 & E3). unfold phi_of, phi1, phi2 in *. rewrite !ldot_lincomb by (now rewrite constant_length). rewrite E1, E2, E3. repeat split; ring.
  Qed.
  Lemma raised_kval a p t : kval q (lincomb 1 1 x (constant q a)) p t = kval q x p t.
  Proof using M St L. destruct (raised_phi a p t) as (_ & E2 & E3). unfold kval. now rewrite E2, E3. Qed.
End Constant.

Lemma kval_wsum q x y P : (forall p t, kval q x p t = kval q y p t) -> wsum q x P = wsum q y P.
Proof. intros E. unfold wsum. f_equal. apply map_ext. intros [p t]. now rewrite E. Qed.
Section Free.
  Variables (other : list string) (q : params) (x : list R) (a : R).
  Hypothesis S : sound q x.
  Hypothesis St : q_stellsym q = false.
  Let y := lincomb 1 1 x (constant q a).
  Lemma raised_sound : sound q y.
  Proof using S St. destruct S as (A & B & C & D & L). repeat (split; [assumption|]). now apply raised_length. Qed.
  Lemma raised_K p t : kval q y p t = kval q x p t.
  Proof using S St. apply raised_kval; [apply S|exact St|apply S]. Qed.
  Lemma raised_Bnormal : Bnormal q y = Bnormal q x.
  Proof using S St.
    pose proof raised_sound as (_ & _ & _ & _ & L'). pose proof S as (M & Lw & Lp & Ps & L). rewrite !Bnormal_made by auto. do 2 f_equal. apply sample_ext. intros p t. unfold bnval, bval.
    now rewrite (kval_wsum q y x _ raised_K).
  Qed.
  Lemma raised_reads name : In name ["K"; "K2"; "Bnormal"; "Bnormal2"; "f_B"; "f_K"; "f_max_K2"; "f_max_Bnormal"; "f_max_Bnormal2"; "f_huber_K"] ->
    exists v, reads other name q x v /\ reads other name q y v.
  Proof using S St.
    pose proof raised_sound as S'. pose proof raised_Bnormal as EB. pose proof raised_K as EK.
    assert (K2e : forall v v', reads other "K2" q y v' -> reads other "K2" q x v -> v' = v).
    { intros v v' R' Rv. rewrite (reads_fun _ _ _ _ _ _ R' (reads_K2 other q y S')), (reads_fun _ _ _ _ _ _ Rv (reads_K2 other q x S)). f_equal. apply sample_ext. intros. now rewrite EK. }
    assert (Be : forall v v', reads other "Bnormal" q y v' -> reads other "Bnormal" q x v -> v' = v).
    { intros v v' R' Rv. destruct (reads_Bnormal other q y S') as (g' & E' & Rg'). destruct (reads_Bnormal other q x S) as (g & E & Rg).
      rewrite (reads_fun _ _ _ _ _ _ R' Rg'), (reads_fun _ _ _ _ _ _ Rv Rg). rewrite EB, E in E'. now injection E' as ->. }
    assert (In_ : forall nm fld s h, In (nm, fld, s, h) [("f_K", "K2", q_eval q, fun y : R => y / 2); ("f_B", "Bnormal", q_plasma q, fun y => y * y / 2); ("f_huber_K", "K2", q_eval q, sqrt)] ->
      exists v, reads other nm q x v /\ reads other nm q y v).
    { intros nm fld s h Hi.
      destruct (integral_value other q x S nm fld s h) as (r & v & d & Rr & Rv & Ed & ->); [clear -Hi; cbn in *; tauto|].
      destruct (integral_value other q y S' nm fld s h) as (r' & v' & d' & Rr' & Rv' & Ed' & ->); [clear -Hi; cbn in *; tauto|].
      eexists. split; [exact Rr|]. rewrite Ed in Ed'. injection Ed' as <-.
      assert (Ev : v' = v) by (destruct Hi as [X|[X|[X|[]]]]; injection X as <- <- <- <-; auto). subst v'. exact Rr'. }
    assert (Mx : forall nm fld h, In (nm, fld, h) [("f_max_K2", "K2", fun y : R => y); ("f_max_Bnormal", "Bnormal", Rabs); ("f_max_Bnormal2", "Bnormal", fun y => y * y)] ->
      exists v, reads other nm q x v /\ reads other nm q y v).
    { intros nm fld h Hi.
      destruct (largest_value other q x S nm fld h) as (m & v & Rm & Rv & Im); [clear -Hi; cbn in *; tauto|].
      destruct (largest_value other q y S' nm fld h) as (m' & v' & Rm' & Rv' & Im'); [clear -Hi; cbn in *; tauto|].
      assert (Ev : v' = v) by (destruct Hi as [X|[X|[X|[]]]]; injection X as <- <- <-; auto). subst v'.
      eexists. split; [exact Rm|]. replace m with m'; [exact Rm'|]. destruct Im as [I1 U1], Im' as [I2 U2]. apply Rle_antisym; auto. }
    intros [<-|[<-|[<-|[<-|[<-|[<-|[<-|[<-|[<-|[<-|[]]]]]]]]]]].
    - eexists. split; [exact (reads_K other q x S)|]. rewrite <- (sample_ext _ _ _ _ (fun p t => EK p t)). exact (reads_K other q y S').
    - eexists. split; [exact (reads_K2 other q x S)|]. pose proof (K2e _ _ (reads_K2 other q y S') (reads_K2 other q x S)) as E. rewrite <- E. exact (reads_K2 other q y S').
    - destruct (reads_Bnormal other q x S) as (g & E & Rg). destruct (reads_Bnormal other q y S') as (g' & E' & Rg'). eexists. split; [exact Rg|]. now rewrite <- (Be _ _ Rg' Rg).
    - destruct (reads_Bnormal other q x S) as (g & E & _). eexists. split; [exact (reads_Bnormal2 other q x S g E)|]. apply (reads_Bnormal2 other q y S'). now rewrite EB.
    - apply (In_ "f_B" "Bnormal" (q_plasma q) (fun y => y * y / 2)). cbn. tauto.
    - apply (In_ "f_K" "K2" (q_eval q) (fun y => y / 2)). cbn. tauto.
    - apply (Mx "f_max_K2" "K2" (fun y => y)). cbn. tauto.
    - apply (Mx "f_max_Bnormal" "Bnormal" Rabs). cbn. tauto.
    - apply (Mx "f_max_Bnormal2" "Bnormal" (fun y => y * y)). cbn. tauto.
    - apply (In_ "f_huber_K" "K2" (q_eval q) sqrt). cbn. tauto.
  Qed.
  Lemma raised_potential F : qreports (fun q => Phi q x) q F -> qreports (fun q => Phi q y) q (fun p t => F p t + a).
  Proof using S St.
    intros Q ps ts Hp Ht. pose proof S as (M & _ & _ & _ & L). destruct (Q ps ts Hp Ht) as (q' & E & V). exists q'. split; [exact E|].
    rewrite (Phi_placed q x M L ps ts q' E) in V. injection V as V. pose proof (sample_pointwise (phi_of q x) F ps ts (f_equal (@concat R) V)) as Pw.
    pose proof raised_sound as (_ & _ & _ & _ & L'). rewrite (Phi_placed q y M L' ps ts q' E). f_equal. unfold sample. apply map_ext_in. intros p Ip. apply map_ext_in. intros t It.
    destruct (raised_phi q M St x L a p t) as (E1 & _). unfold y. rewrite E1. now rewrite (Pw p t Ip It).
  Qed.
End Free.

(** ** Uniqueness *)
Section Unique.
  Variables (other : list string) (q : params) (os : list (string * R)) (cs : list (string * cmp * R)) (x y : list R) (fx fy : R) (name : string) (c : R).
  Hypothesis S : sound q x.
  Hypothesis O : ordered q.
  Hypothesis Rs : resolved q.
  Hypothesis Rg : regular (q_eval q).
  Hypothesis Ho : convex_objective other q os.
  Hypothesis Hc : convex_constraints other q cs.
  Hypothesis Ly : length y = q_ndofs q.
  Hypothesis Fx : feasible other q cs x.
  Hypothesis Fy : feasible other q cs y.
  Hypothesis Wx : weighted other q os x fx.
  Hypothesis Wy : weighted other q os y fy.
  Hypothesis Bx : least other q os cs x (fun _ => True).
  Hypothesis By : least other q os cs y (fun _ => True).
  Hypothesis I : In (name, c) os.
  Hypothesis Pc : 0 < c.
  Hypothesis Nm : In name ["f_K"; "f_Phi"].
  Lemma same_field : field name q x = field name q y.
  Proof using All.
    assert (L : length x = q_ndofs q) by apply S. pose proof (growth other q x os cs S Ho Hc x y fx fy L Fx Bx Ly Fy Wx Wy) as G.
    assert (fy <= fx) by (apply (By x fy fx); auto; exact Logic.I).
    assert (Q : In name quadratic_figures) by (destruct Nm as [<-|[<-|[]]]; cbn; tauto).
    pose proof (gap_terms other q x os S Ho O name c x y I Q Pc ltac:(lra)) as E0.
    assert (Pl : plasma_shaped q) by apply S.
    apply diff_zero; [now rewrite !field_length|]. apply (energy_zero (weights name q)); [|now apply (weights_strict name q x)|exact E0].
    rewrite length_lincomb by (now rewrite !field_length). now rewrite field_length.
  Qed.
  Lemma unique_Phi : name = "f_Phi" -> x = y.
  Proof using All.
    intros En. pose proof same_field as E. rewrite En in E. unfold field in E. cbn [String.eqb Ascii.eqb Bool.eqb] in E.
    apply (potential_injective q x y); [apply S|apply S|exact Ly|exact Rs|]. now apply sample_pointwise.
  Qed.
  Lemma unique_K : name = "f_K" -> forall k c0, nth_error (qcols q) k = Some c0 -> fst c0 <> (0%Z, 0%Z) -> nth k x 0 = nth k y 0.
  Proof using All.
    intros En. pose proof same_field as E. rewrite En in E. unfold field in E. cbn [String.eqb Ascii.eqb Bool.eqb] in E.
    apply slopes_injective; [apply S|apply S|exact Ly|exact Rs|]. intros p t Hp Ht. apply kval_slopes.
    - destruct (made_facts q (proj1 S)) as (_ & _ & _ & _ & Ce & _). apply (Rg (sample (nrm (q_winding q)) (q_qphi q) (q_qtheta q))); [apply normal_copy; [apply S|exact Ce]|].
      rewrite concat_sample. apply in_map_iff. exists (p, t). split; [reflexivity|]. apply pairs_in. auto.
    - apply flat3_inj in E; [|now rewrite !len_sample]. now apply (sample_pointwise _ _ _ _ E).
  Qed.
  Lemma unique_K_symmetric : name = "f_K" -> q_stellsym q = true -> x = y.
  Proof using All.
    intros En St. assert (L : length x = q_ndofs q) by apply S. apply (nth_ext _ _ 0 0); [congruence|]. intros k Hk.
    destruct (nth_error (qcols q) k) as [c0|] eqn:Ek; [|apply nth_error_None in Ek; rewrite (lcols q (proj1 S)) in Ek; lia].
    apply (unique_K En k c0 Ek). assert (Hi : In c0 (qcols q)) by (eapply nth_error_In; exact Ek). unfold qcols, pcols in Hi. rewrite St in Hi.
    apply in_map_iff in Hi as (mn & <- & Hm). cbn [fst]. destruct (smodes_once (q_mpol q) (q_ntor q)) as [_ Sm]. now apply Sm in Hm as [_ Hm].
  Qed.
  Lemma unique_K_constant : name = "f_K" -> q_stellsym q = false -> exists a, y = lincomb 1 1 x (constant q a).
  Proof using All.
    intros En St. assert (L : length x = q_ndofs q) by apply S. pose proof (proj1 S) as M. exists (nth (nmodes q) y 0 - nth (nmodes q) x 0).
    set (a := nth (nmodes q) y 0 - _). apply (nth_ext _ _ 0 0); [now rewrite raised_length|]. intros k Hk.
    rewrite lincomb_nth by (now rewrite constant_length).
    destruct (Nat.eq_dec k (nmodes q)) as [->|Hne].
    - unfold constant. rewrite app_nth2 by (rewrite repeat_length; lia). rewrite repeat_length, Nat.sub_diag. cbn [nth]. unfold a. ring.
    - assert (Zc : nth k (constant q a) 0 = 0).
      { unfold constant. destruct (Nat.lt_ge_cases k (nmodes q)); [rewrite app_nth1 by (now rewrite repeat_length); apply nth_repeat|].
        rewrite app_nth2 by (now rewrite repeat_length). rewrite repeat_length. destruct (k - nmodes q)%nat eqn:Ed; [lia|]. cbn [nth]. apply nth_repeat. }
      rewrite Zc. destruct (nth_error (qcols q) k) as [c0|] eqn:Ek; [|apply nth_error_None in Ek; rewrite (lcols q M) in Ek; lia].
      rewrite <- (unique_K En k c0 Ek); [ring|].
      assert (Hi : In c0 (qcols q)) by (eapply nth_error_In; exact Ek). unfold qcols, pcols in Ek. rewrite St in Ek.
      destruct (smodes_once (q_mpol q) (q_ntor q)) as [_ Sm].
      assert (Sk : forall j i, nth_error (map (fun mn => (mn, j)) (smodes (q_mpol q) (q_ntor q))) i = Some c0 -> fst c0 <> (0%Z, 0%Z)).
      { intros j i H. apply nth_error_In, in_map_iff in H as (mn & <- & Hm). cbn [fst]. now apply Sm in Hm as [_ Hm]. }
      destruct (Nat.lt_ge_cases k (nmodes q)) as [Hl|Hl].
      + rewrite nth_error_app1 in Ek by (now rewrite map_length). exact (Sk _ _ Ek).
      + rewrite nth_error_app2 in Ek by (now rewrite map_length). rewrite map_length in Ek. fold (nmodes q) in Ek.
        destruct (k - nmodes q)%nat eqn:Ed; [lia|]. cbn [nth_error] in Ek. exact (Sk _ _ Ek).
  Qed.
End Unique.
