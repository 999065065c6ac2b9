(** Problems that differ only in the resolution of the current potential. *)
From Coq Require Import String List Bool Arith ZArith Reals Lra Lia FunctionalExtensionality.
From Coquelicot Require Import Coquelicot.
From Verif Require Import Base ModelArray ProofArray ModelMath SpecMath ProofMath ModelSurface SpecSurface ProofSurface ProofSurface2 ProofSurface3
  ProofLinear SpecWinding ProofWinding4 ModelParams ModelField SpecField ProofField ProofField2 ProofField3 ModelForce SpecForce ProofForce ProofForce2 ProofForce3
  ModelQuantity SpecQuantity ModelWrapper SpecWrapper ModelShipped ModelPackage SpecPackage ProofRescale ProofPackage ProofPackage2 ProofPackage4
  SpecConvex ProofConvex SpecScale ProofScale SpecRefine.
Import ListNotations.
Open Scope R_scope.
Open Scope string_scope.
Open Scope list_scope.

(** ** The coefficients in the larger basis *)
Lemma ldot_add a u v : length u = length v -> ldot a (map2 Rplus u v) = ldot a u + ldot a v.
Proof.
  revert u v; induction a as [|y a IH]; intros [|z u] [|w v] E; try discriminate; try (unfold ldot; cbn; ring).
  cbn [map2]. rewrite !ldot_cons, IH by (injection E; auto). ring.
Qed.
Lemma one_column {A} (c : A) (cols : list A) (y : R) : In c cols ->
  exists z, length z = length cols /\ forall f : A -> R, ldot (map f cols) z = f c * y.
Proof.
  induction cols as [|d cols IH]; [intros []|intros [<-|H]].
  - exists (y :: repeat 0 (length cols)). split; [cbn; now rewrite repeat_length|]. intros f. cbn [map]. rewrite ldot_cons, ldot_zeros. ring.
  - destruct (IH H) as (z & L & E). exists (0 :: z). split; [cbn; now rewrite L|]. intros f. cbn [map]. rewrite ldot_cons, E. ring.
Qed.
Lemma embed {A} (cols cols' : list A) : incl cols cols' -> forall x, length x = length cols ->
  exists x', length x' = length cols' /\ forall f : A -> R, ldot (map f cols') x' = ldot (map f cols) x.
Proof.
  induction cols as [|c cols IH]; intros Hi [|y x] L; try discriminate.
  - exists (repeat 0 (length cols')). split; [apply repeat_length|]. intros f. rewrite ldot_zeros. reflexivity.
  - destruct (IH (fun a Ha => Hi a (or_intror Ha)) x) as (u & Lu & Eu); [now injection L|].
    destruct (one_column c cols' y (Hi c (or_introl eq_refl))) as (z & Lz & Ez).
    exists (map2 Rplus z u). split.
    + assert (length z = length u) as Lzu by congruence. clear - Lz Lzu. rewrite <- Lz. clear Lz. revert u Lzu.
      induction z; intros [|]; cbn; intros; try discriminate; auto. 
    + intros f. rewrite ldot_add by congruence. cbn [map]. rewrite ldot_cons, Ez, Eu. reflexivity.
Qed.

Lemma smodes_incl m n m' n' : (m <= m')%nat -> (n <= n')%nat -> incl (smodes m n) (smodes m' n').
Proof.
  intros Hm Hn [a b] H. apply (proj2 (smodes_once m n)) in H as [H H0]. apply (proj2 (smodes_once m' n')). split; [|exact H0].
  destruct H as [[-> H]|[H H']]; [left|right]; cbn in *; lia.
Qed.
Lemma pcols_incl st st' m n m' n' : (m <= m')%nat -> (n <= n')%nat -> (st' = true -> st = true) -> incl (pcols st m n) (pcols st' m' n').
Proof.
  intros Hm Hn Hs. pose proof (smodes_incl m n m' n' Hm Hn) as I.
  assert (Is : forall k : Z, incl (map (fun mn => (mn, k)) (smodes m n)) (map (fun mn => (mn, k)) (smodes m' n'))).
  { intros k c H. apply in_map_iff in H as (mn & <- & H). now apply (in_map (fun mn => (mn, k))), I. }
  unfold pcols. destruct st', st; try (specialize (Hs eq_refl); discriminate).
  - apply Is.
  - intros c H. apply in_or_app. left. now apply Is.
  - apply incl_app.
    + intros c H. apply in_or_app. left. now apply Is.
    + intros c [<-|H]; apply in_or_app; right; [now left|right; now apply Is].
Qed.

Section Same.
  Variables (q q' : params) (x x' : list R).
  Hypothesis D : same_device q q'.
  Hypothesis S : sound q x.
  Hypothesis M' : made q'.
  Hypothesis L' : length x' = q_ndofs q'.

  Lemma same_eval : q_eval q' = q_eval q.
  Proof using D S M'.
    destruct D as (_ & W & _ & _ & _ & P & T). destruct S as (M & _). destruct (made_facts q M) as (_ & _ & _ & _ & C & _). destruct (made_facts q' M') as (_ & _ & _ & _ & C' & _).
    unfold resampled in *. rewrite W, P, T in C'. congruence.
  Qed.
  Lemma same_sound : sound q' x'.
  Proof using D S M' L'.
    destruct D as (P & W & _ & _ & B & _). destruct S as (_ & A1 & A2 & [A3 A4] & _). unfold sound, plasma_shaped. rewrite P, W, B. auto 6.
  Qed.

  Hypothesis E : forall p t, phi_of q' x' p t = phi_of q x p t.
  Lemma deriv_same (f g f' g' : R -> R) : (forall s, f s = g s) -> (forall s, is_derive f s (f' s)) -> (forall s, is_derive g s (g' s)) -> forall s, f' s = g' s.
  Proof using.
    intros H Hf Hg s. pose proof (is_derive_unique _ _ _ (Hf s)) as A. pose proof (is_derive_unique _ _ _ (Hg s)) as B.
    rewrite <- A, <- B. apply Derive_ext. exact H.
  Qed.
  Lemma same_phi1 p t : phi1 q' x' p t = phi1 q x p t.
  Proof using E. apply (deriv_same (fun s => phi_of q' x' s t) (fun s => phi_of q x s t) (fun s => phi1 q' x' s t) (fun s => phi1 q x s t)); intros; [apply E|apply phi_d1|apply phi_d1]. Qed.
  Lemma same_phi2 p t : phi2 q' x' p t = phi2 q x p t.
  Proof using E. apply (deriv_same (fun s => phi_of q' x' p s) (fun s => phi_of q x p s) (fun s => phi2 q' x' p s) (fun s => phi2 q x p s)); intros; [apply E|apply phi_d2|apply phi_d2]. Qed.
  Lemma same_phi11 p t : phi11 q' x' p t = phi11 q x p t.
  Proof using E. apply (deriv_same (fun s => phi1 q' x' s t) (fun s => phi1 q x s t) (fun s => phi11 q' x' s t) (fun s => phi11 q x s t)); intros; [apply same_phi1|apply phi1_d1|apply phi1_d1]. Qed.
  Lemma same_phi12 p t : phi12 q' x' p t = phi12 q x p t.
  Proof using E. apply (deriv_same (fun s => phi1 q' x' p s) (fun s => phi1 q x p s) (fun s => phi12 q' x' p s) (fun s => phi12 q x p s)); intros; [apply same_phi1|apply phi1_d2|apply phi1_d2]. Qed.
  Lemma same_phi22 p t : phi22 q' x' p t = phi22 q x p t.
  Proof using E. apply (deriv_same (fun s => phi2 q' x' p s) (fun s => phi2 q x p s) (fun s => phi22 q' x' p s) (fun s => phi22 q x p s)); intros; [apply same_phi2|apply phi2_d2|apply phi2_d2]. Qed.

  Lemma same_kval p t : kval q' x' p t = kval q x p t.
  Proof using D E. destruct D as (_ & W & G & I & _). unfold kval, wn, w1, w2. now rewrite same_phi1, same_phi2, W, G, I. Qed.
  Lemma same_dgw p t : dgw q' p t = dgw q p t.
  Proof using D. destruct D as (_ & W & _). unfold dgw, wn, w1, w2. now rewrite W. Qed.
  Lemma same_kd1 p t : kd1 q' x' p t = kd1 q x p t.
  Proof using D E. unfold kd1. rewrite same_dgw, same_phi1, same_phi2, same_phi11, same_phi12. destruct D as (_ & W & G & I & _). unfold wn, w1, w2. now rewrite W, G, I. Qed.
  Lemma same_kd2 p t : kd2 q' x' p t = kd2 q x p t.
  Proof using D E. unfold kd2. rewrite same_dgw, same_phi1, same_phi2, same_phi12, same_phi22. destruct D as (_ & W & G & I & _). unfold wn, w1, w2. now rewrite W, G, I. Qed.
  Lemma same_kkval p t : kkval q' x' p t = kkval q x p t.
  Proof using D E. unfold kkval. rewrite same_kd1, same_kd2, same_phi1, same_phi2. destruct D as (_ & W & G & I & _). unfold wn. now rewrite W, G, I. Qed.
  Lemma same_un p t : un q' p t = un q p t.
  Proof using D. destruct D as (_ & W & _). unfold un, wn. now rewrite W. Qed.
  Lemma same_und p t : und q' p t = und q p t.
  Proof using D. destruct D as (_ & W & _). unfold und, wn, w1, w2. now rewrite W. Qed.
  Lemma same_single p t : single_of q' x' p t = single_of q x p t.
  Proof using D E. unfold single_of. rewrite same_un, same_und, same_kval, same_kd1, same_kd2. destruct D as (_ & W & _). unfold w1, w2. now rewrite W. Qed.
  Lemma same_double p t : double_of q' x' p t = double_of q x p t.
  Proof using D E. unfold double_of. now rewrite same_un, same_kval. Qed.
  Lemma same_bval P : bval q' x' P = bval q x P.
  Proof using D E.
    unfold bval, wsum. rewrite (sum3_ext _ (fun u => contribution P (pt (q_winding q) 0 0 (fst u) (snd u)) (wn q (fst u) (snd u)) (kval q x (fst u) (snd u)))).
    - destruct D as (_ & W & _). now rewrite W.
    - intros u. rewrite same_kval. destruct D as (_ & W & _). unfold wn. now rewrite W.
  Qed.
  Lemma same_bnval p t : bnval q' x' p t = bnval q x p t.
  Proof using D E. unfold bnval. rewrite same_bval. destruct D as (P & _). now rewrite P. Qed.

  (** ** The base functions *)
  Let M : made q. Proof. apply S. Qed.
  Let Lw : legal (q_winding q). Proof. apply S. Qed.
  Let Lp : legal (q_plasma q). Proof. apply S. Qed.
  Let Psh : plasma_shaped q. Proof. apply S. Qed.
  Let L : length x = q_ndofs q. Proof. apply S. Qed.
  Let Lw' : legal (q_winding q'). Proof. apply same_sound. Qed.
  Let Lp' : legal (q_plasma q'). Proof. apply same_sound. Qed.
  Let Psh' : plasma_shaped q'. Proof. apply same_sound. Qed.

  Lemma same_K : K q' x' OnEval = K q x OnEval.
  Proof using D S M' L' E.
    rewrite !K_made by auto. cbn [sel_quadpoints]. destruct D as (_ & _ & _ & _ & _ & -> & ->). f_equal. apply sample_ext. apply same_kval.
  Qed.
  Lemma same_Phi : Phi q' x' = Phi q x.
  Proof using D S M' L' E. rewrite !Phi_made by auto. destruct D as (_ & _ & _ & _ & _ & -> & ->). f_equal. apply sample_ext. exact E. Qed.
  Lemma same_KK : K_dot_grad_K q' x' = K_dot_grad_K q x.
  Proof using D S M' L' E. rewrite !KK_made by auto. destruct D as (_ & _ & _ & _ & _ & -> & ->). f_equal. apply sample_ext. apply same_kkval. Qed.
  Lemma same_B : winding_surface_B q' x' = winding_surface_B q x.
  Proof using D S M' L' E. rewrite !B_made by auto. destruct D as (-> & _). f_equal. apply sample_ext. intros. apply same_bval. Qed.
  Lemma same_Bnormal : Bnormal q' x' = Bnormal q x.
  Proof using D S M' L' E. unfold Bnormal. rewrite same_B. destruct D as (-> & _ & _ & _ & -> & _). reflexivity. Qed.
  Lemma same_nfp : q_nfp q' = q_nfp q.
  Proof using D. unfold q_nfp. now destruct D as (_ & -> & _). Qed.
  Lemma same_f_B : f_B q' x' = f_B q x.
  Proof using D S M' L' E. unfold f_B. rewrite same_Bnormal, same_nfp. destruct D as (-> & _). reflexivity. Qed.
  Lemma same_K_theta : q_stellsym q = true -> q_stellsym q' = true -> K_theta q' x' = K_theta q x.
  Proof using D S M' L' E.
    intros A B. rewrite !K_theta_made by auto. destruct D as (_ & _ & -> & _ & _ & -> & ->). f_equal. apply sample_ext. intros. now rewrite same_phi1.
  Qed.
  Lemma same_area p t : area q' p t = area q p t.
  Proof using D. unfold area, wn. now destruct D as (_ & -> & _). Qed.
  Lemma same_force : force_cyl q' x' = force_cyl q x.
  Proof using D S M' L' E.
    destruct (force_form q x M Lw L) as (f & Ef & Rf & F). destruct (force_form q' x' M' Lw' L') as (f' & Ef' & Rf' & F').
    rewrite Ef, Ef'. f_equal. pose proof D as (_ & W & _ & _ & _ & Q1 & Q2). rewrite Q1, Q2 in Rf', F'.
    apply (rect_ext zero3 _ _ _ _ Rf' Rf). intros i j Hi Hj. rewrite F, F' by auto. unfold force_total. rewrite W.
    apply vsum_upto_ext. intros fp _. apply vsum_upto_ext. intros p _. apply vsum_upto_ext. intros t _.
    unfold force_term. rewrite W, Q1, Q2, same_kval, same_un, same_area, same_single, same_double. reflexivity.
  Qed.
End Same.

Lemma same_zero q q' p t : phi_of q' (repeat 0 (q_ndofs q')) p t = phi_of q (repeat 0 (q_ndofs q)) p t.
Proof. destruct (phi_zeros q (q_ndofs q) p t) as (-> & _). now destruct (phi_zeros q' (q_ndofs q') p t) as (-> & _). Qed.

Section Every.
  Variables (q q' : params) (x x' : list R) (other : list string).
  Hypothesis D : same_device q q'.
  Hypothesis S : sound q x.
  Hypothesis M' : made q'.
  Hypothesis L' : length x' = q_ndofs q'.
  Hypothesis E : forall p t, phi_of q' x' p t = phi_of q x p t.

  Definition alike name := implementation name q' (at_phi x') = implementation name q (at_phi x).
  Definition base_names := ["_K"; "_K2"; "_f_K"; "_K_dot_grad_K"; "_K_dot_grad_K_cyl"; "_winding_surface_B"; "_Bnormal"; "_Bnormal2"; "_f_B";
    "_f_B_normalized_by_Bnormal_IG"; "_force_cyl"; "_Phi"; "_Phi_with_net_current"; "_Phi2"; "_f_Phi"].
  Lemma alike_all name : In name base_names -> alike name.
  Proof using D S M' L' E.
    pose proof (same_eval q q' x D S M') as Ev. pose proof (same_nfp q q' D) as N.
    pose proof (same_K q q' x x' D S M' L' E) as EK. pose proof (same_Phi q q' x x' D S M' L' E) as EP.
    assert (EK2 : K2 q' x' = K2 q x) by (unfold K2; now rewrite EK). assert (EP2 : Phi2 q' x' = Phi2 q x) by (unfold Phi2; now rewrite EP).
    pose proof (same_KK q q' x x' D S M' L' E) as EKK. pose proof (same_B q q' x x' D S M' L' E) as EB.
    pose proof (same_Bnormal q q' x x' D S M' L' E) as EBn. pose proof (same_f_B q q' x x' D S M' L' E) as EfB.
    pose proof (same_force q q' x x' D S M' L' E) as EF.
    intros H. cbn [base_names In] in H.
    repeat (destruct H as [<-|H]; [unfold alike|]); [..|destruct H].
    - change (bind (K q' x' OnEval) (fun v => Ok (of_grid3 v)) = bind (K q x OnEval) (fun v => Ok (of_grid3 v))). now rewrite EK.
    - change (bind (K2 q' x') (fun v => Ok (of_grid v)) = bind (K2 q x) (fun v => Ok (of_grid v))). now rewrite EK2.
    - change (bind (f_K q' x') (fun v => Ok (scal v)) = bind (f_K q x) (fun v => Ok (scal v))). unfold f_K. now rewrite EK2, Ev, N.
    - change (bind (K_dot_grad_K q' x') (fun v => Ok (of_grid3 v)) = bind (K_dot_grad_K q x) (fun v => Ok (of_grid3 v))). now rewrite EKK.
    - change (bind (K_dot_grad_K_cyl q' x') (fun v => Ok (of_grid3 v)) = bind (K_dot_grad_K_cyl q x) (fun v => Ok (of_grid3 v))). unfold K_dot_grad_K_cyl. now rewrite EKK, Ev.
    - change (bind (winding_surface_B q' x') (fun v => Ok (of_grid3 v)) = bind (winding_surface_B q x) (fun v => Ok (of_grid3 v))). now rewrite EB.
    - change (bind (Bnormal q' x') (fun v => Ok (of_grid v)) = bind (Bnormal q x) (fun v => Ok (of_grid v))). now rewrite EBn.
    - change (bind (Bnormal2 q' x') (fun v => Ok (of_grid v)) = bind (Bnormal2 q x) (fun v => Ok (of_grid v))). unfold Bnormal2. now rewrite EBn.
    - change (bind (f_B q' x') (fun v => Ok (scal v)) = bind (f_B q x) (fun v => Ok (scal v))). now rewrite EfB.
    - change (bind (f_B_normalized q' x') (fun v => Ok (scal v)) = bind (f_B_normalized q x) (fun v => Ok (scal v))). unfold f_B_normalized. rewrite EfB.
      rewrite (same_f_B q q' (repeat 0 (q_ndofs q)) (repeat 0 (q_ndofs q')) D); auto using repeat_length.
      + destruct S as (A1 & A2 & A3 & A4 & _). exact (conj A1 (conj A2 (conj A3 (conj A4 (repeat_length _ _))))).
      + intros. apply same_zero.
    - change (bind (force_cyl q' x') (fun v => Ok (of_grid3 v)) = bind (force_cyl q x) (fun v => Ok (of_grid3 v))). now rewrite EF.
    - change (bind (Phi q' x') (fun v => Ok (of_grid v)) = bind (Phi q x) (fun v => Ok (of_grid v))). now rewrite EP.
    - change (bind (Phi_with_net_current q' x') (fun v => Ok (of_grid v)) = bind (Phi_with_net_current q x) (fun v => Ok (of_grid v))). unfold Phi_with_net_current. rewrite EP, Ev.
      destruct D as (_ & _ & -> & -> & _). reflexivity.
    - change (bind (Phi2 q' x') (fun v => Ok (of_grid v)) = bind (Phi2 q x) (fun v => Ok (of_grid v))). now rewrite EP2.
    - change (bind (f_Phi q' x') (fun v => Ok (scal v)) = bind (f_Phi q x) (fun v => Ok (scal v))). unfold f_Phi. now rewrite EP2, Ev, N.
  Qed.
  Lemma alike_theta : q_stellsym q = true -> q_stellsym q' = true -> alike "_K_theta".
  Proof using D S M' L' E.
    intros A B. unfold alike. change (bind (K_theta q' x') (fun v => Ok (of_grid v)) = bind (K_theta q x) (fun v => Ok (of_grid v))). 
    now rewrite (same_K_theta q q' x x' D S M' L' E).
  Qed.

  Lemma same_quantity name : usable q name -> usable q' name ->
    exists Q, get_quantity (package other) name = Ok Q /\ value_of Q q' x' = value_of Q q x.
  Proof using D S M' L' E.
    pose proof (same_eval q q' x D S M') as Ev. pose proof (same_nfp q q' D) as N. pose proof alike_all as A. unfold alike in A.
    assert (Da : params_da q' = params_da q) by (unfold params_da; now rewrite Ev).
    assert (Lf : forall nm b, In nm base_names -> linf_raw (implementation nm) b q' (at_phi x') = linf_raw (implementation nm) b q (at_phi x))
      by (intros nm b H; unfold linf_raw; now rewrite (A nm H)).
    assert (L1 : forall nm, In nm base_names -> l1_raw params params_da (fun q => INR (q_nfp q)) (implementation nm) q' (at_phi x') = l1_raw params params_da (fun q => INR (q_nfp q)) (implementation nm) q (at_phi x)).
    { intros nm H. unfold l1_raw. rewrite (A nm H). unfold expand_da. now rewrite Da, N. }
    intros (Hn & Ht) (_ & Ht'). destruct (string_dec name "K_theta") as [->|NT].
    { eexists. split; [reflexivity|]. exact (alike_theta (Ht eq_refl) (Ht' eq_refl)). }
    cbn [dimensions map fst] in Hn.
    repeat (destruct Hn as [<-|Hn]; [first [exfalso; now apply NT|eexists; split; [reflexivity|]]|]); [..|destruct Hn].
    - exact (A "_K" ltac:(cbn; tauto)).
    - exact (A "_K2" ltac:(cbn; tauto)).
    - exact (Lf "_K2" false ltac:(cbn; tauto)).
    - change (huber_raw params params_da (fun q => INR (q_nfp q)) (implementation "_K") q' (at_phi x') = huber_raw params params_da (fun q => INR (q_nfp q)) (implementation "_K") q (at_phi x)).
      unfold huber_raw. rewrite (A "_K" ltac:(cbn; tauto)). unfold weighted_sum. now rewrite Da, N.
    - exact (A "_f_K" ltac:(cbn; tauto)).
    - exact (A "_K_dot_grad_K" ltac:(cbn; tauto)).
    - exact (A "_K_dot_grad_K_cyl" ltac:(cbn; tauto)).
    - exact (Lf "_K_dot_grad_K_cyl" false ltac:(cbn; tauto)).
    - exact (A "_winding_surface_B" ltac:(cbn; tauto)).
    - exact (A "_Bnormal" ltac:(cbn; tauto)).
    - exact (A "_Bnormal2" ltac:(cbn; tauto)).
    - exact (A "_f_B" ltac:(cbn; tauto)).
    - exact (A "_f_B_normalized_by_Bnormal_IG" ltac:(cbn; tauto)).
    - exact (Lf "_Bnormal" false ltac:(cbn; tauto)).
    - exact (Lf "_Bnormal2" false ltac:(cbn; tauto)).
    - exact (Lf "_force_cyl" false ltac:(cbn; tauto)).
    - exact (L1 "_force_cyl" ltac:(cbn; tauto)).
    - exact (Lf "_force_cyl" true ltac:(cbn; tauto)).
    - exact (A "_Phi" ltac:(cbn; tauto)).
    - exact (A "_Phi_with_net_current" ltac:(cbn; tauto)).
    - exact (A "_Phi2" ltac:(cbn; tauto)).
    - exact (Lf "_Phi" false ltac:(cbn; tauto)).
    - exact (Lf "_Phi" true ltac:(cbn; tauto)).
    - change (linf4_raw (implementation "_Phi") q' (at_phi x') = linf4_raw (implementation "_Phi") q (at_phi x)). unfold linf4_raw. now rewrite (A "_Phi" ltac:(cbn; tauto)).
    - exact (L1 "_Phi" ltac:(cbn; tauto)).
    - exact (A "_f_Phi" ltac:(cbn; tauto)).
  Qed.
End Every.

(** ** In the words of the statements *)
Lemma potential_same q q' x x' : made q -> made q' -> length x = q_ndofs q -> length x' = q_ndofs q' ->
  same_potential q x q' x' <-> forall p t, phi_of q' x' p t = phi_of q x p t.
Proof.
  intros M M' L L'. split.
  - intros (F & A & B) p t. rewrite (qreports_unique _ _ _ _ (phi_reports q' x' M' L') B). symmetry. apply (qreports_unique _ _ _ _ (phi_reports q x M L) A).
  - intros E. exists (phi_of q x). split; [now apply phi_reports|].
    replace (phi_of q x) with (phi_of q' x'); [now apply phi_reports|]. apply functional_extensionality. intros p. apply functional_extensionality. intros t. apply E.
Qed.
Lemma reads_usable other q x name : sound q x -> usable q name -> exists v, reads other name q x v.
Proof.
  intros S U. destruct (scales other 1 1 q q x name) as (v & R & _); try lra; auto; [apply S|apply rescaled_self; apply S|]. now exists v.
Qed.
Lemma same_reads other q q' x x' name : same_device q q' -> sound q x -> made q' -> length x' = q_ndofs q' -> same_potential q x q' x' ->
  usable q name -> usable q' name -> exists v, reads other name q x v /\ reads other name q' x' v.
Proof.
  intros D S M' L' P U U'. assert (M : made q) by apply S. assert (L : length x = q_ndofs q) by apply S.
  pose proof (proj1 (potential_same q q' x x' M M' L L') P) as P'. destruct (reads_usable other q x name S U) as (v & Q & G & V).
  destruct (same_quantity q q' x x' other D S M' L' P' name U U') as (Q' & G' & V'). rewrite G in G'. injection G' as <-.
  exists v. split; exists Q; auto. split; auto. now rewrite V'.
Qed.
Lemma finer_contains q q' x : finer q q' -> made q -> made q' -> length x = q_ndofs q ->
  exists x', length x' = q_ndofs q' /\ same_potential q x q' x'.
Proof.
  intros (D & Hm & Hn & Hs) M M' L. destruct (embed _ _ (pcols_incl _ _ _ _ _ _ Hm Hn Hs) x) as (x' & Lx & Ex).
  { destruct (made_facts q M) as (_ & _ & N & _). rewrite length_pcols. congruence. }
  exists x'. assert (L' : length x' = q_ndofs q') by (destruct (made_facts q' M') as (_ & _ & N & _); rewrite N, Lx; apply length_pcols).
  split; [exact L'|]. apply (proj2 (potential_same q q' x x' M M' L L')). intros p t. unfold phi_of, qcols. rewrite Ex. f_equal. apply map_ext. intros c.
  unfold tr, targ, q_nfp. now destruct D as (_ & -> & _).
Qed.

Lemma same_feasible other q q' x x' cs : same_device q q' -> sound q x -> made q' -> length x' = q_ndofs q' -> same_potential q x q' x' ->
  (forall name k d, In (name, k, d) cs -> usable q name /\ usable q' name) -> feasible other q cs x -> feasible other q' cs x'.
Proof.
  intros D S M' L' P U H name k d Hi. destruct (U _ _ _ Hi) as [U1 U2]. destruct (same_reads other q q' x x' name D S M' L' P U1 U2) as (v & R & R').
  destruct (H _ _ _ Hi) as (w & Rw & Hw). rewrite (reads_fun _ _ _ _ _ _ Rw R) in Hw. eauto.
Qed.
Lemma same_weighted other q q' x x' os r : same_device q q' -> sound q x -> made q' -> length x' = q_ndofs q' -> same_potential q x q' x' ->
  (forall name w, In (name, w) os -> usable q name /\ usable q' name) -> weighted other q os x r -> weighted other q' os x' r.
Proof.
  intros D S M' L' P U (vs & F & ->). exists vs. split; [|reflexivity]. revert U. induction F as [|[name w] m os vs Rm F IH]; intros U; constructor.
  - destruct (U name w (or_introl eq_refl)) as [U1 U2]. destruct (same_reads other q q' x x' name D S M' L' P U1 U2) as (v & R & R').
    cbn [fst] in *. now rewrite (reads_fun _ _ _ _ _ _ Rm R).
  - apply IH. intros n k H. apply (U n k). now right.
Qed.
