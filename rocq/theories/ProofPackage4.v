(** The statements about the package: deviating units, automatic units, formulas. *)
From Coq Require Import String List Bool Arith ZArith Reals Lra Lia.
From Verif Require Import Base ModelArray ProofArray ModelMath SpecMath ProofMath ModelSurface SpecSurface ProofSurface ProofSurface2 ProofSurface3
  SpecWinding ProofWinding4 ModelParams ModelField SpecField ProofField ProofField2 ProofField3 ModelForce
  ModelQuantity SpecQuantity ModelWrapper SpecWrapper ProofWrapper ModelShipped ModelPackage SpecPackage ProofRescale ProofPackage ProofPackage2 ProofPackage3.
Import ListNotations.
Open Scope R_scope.
Open Scope string_scope.
Open Scope list_scope.

(** ** Units that do not fit *)
Section Off.
  Variables (mu_0 : R) (other : list string) (s : scales) (c b : R) (q q' : params) (x : list R).
  Hypothesis Hc : 0 < c.
  Hypothesis Hb : 0 < b.
  Hypothesis S : sound q x.
  Hypothesis M' : made q'.
  Hypothesis H : rescaled c b q q'.
  Lemma unit_off : (q_stellsym q = true -> in_units c mu_0 other "K_theta" s c b q q' x) /\
    in_units (/ (c * c)) mu_0 other "f_max_force_cyl" s c b q q' x /\
    in_units (/ (c * c)) mu_0 other "f_l1_force_cyl" s c b q q' x /\
    in_units (/ (c * c * (c * c))) mu_0 other "f_max_force2_cyl" s c b q q' x.
  Proof using Hc Hb S M' H.
    destruct (every_quantity c b q q' x other Hc Hb H S M') as [ET E]. rewrite List.Forall_forall in E.
    assert (Hc0 : c <> 0) by lra. assert (Hb0 : b <> 0) by lra.
    assert (NZ : b * b * (c * c) <> 0) by (repeat apply Rmult_integral_contrapositive_currified; assumption).
    split; [|split; [|split]].
    - intros St. eapply (in_units_of c mu_0 other "K_theta" s c b q q' x _ (c * b) b); [exact (ET St)|reflexivity| |assumption|ring].
      unfold K_unit, rescaled_scales, Rdiv. cbn [sc_B]. ring.
    - eapply (in_units_of _ mu_0 other "f_max_force_cyl" s c b q q' x _ (b * b) (b * b * (c * c))); [eapply (E (_, _, _)); cbn; tauto|reflexivity| |assumption|field; assumption].
      unfold force_unit, K_unit, rescaled_scales, Rdiv. cbn [sc_B sc_a]. ring.
    - eapply (in_units_of _ mu_0 other "f_l1_force_cyl" s c b q q' x _ (c * c * (b * b)) (b * b * (c * c) * (c * c))); [eapply (E (_, _, _)); cbn; tauto|reflexivity| | |field; assumption].
      + cbv beta. unfold force_unit, K_unit, rescaled_scales, Rdiv. cbn [sc_B sc_a sc_R0]. ring.
      + repeat apply Rmult_integral_contrapositive_currified; assumption.
    - eapply (in_units_of _ mu_0 other "f_max_force2_cyl" s c b q q' x _ (sq (b * b)) (sq (b * b * (c * c)))); [eapply (E (_, _, _)); cbn; tauto|reflexivity| | |unfold sq; field; assumption].
      + cbv beta. unfold force_unit, K_unit, rescaled_scales, Rdiv, sq. cbn [sc_B sc_a sc_R0]. ring.
      + unfold sq. repeat apply Rmult_integral_contrapositive_currified; assumption.
  Qed.
End Off.

(** ** Values *)
Lemma value_reads other q x name k s : reported 1 1 q q x other name k s -> exists v, reads other name q x v /\ sh v = s /\ wf v.
Proof. intros (Q & G & v & V & _ & Sv & W). exists v. split; [now exists Q|auto]. Qed.
Lemma el_of_grid g : el (of_grid g) = concat g.
Proof. reflexivity. Qed.
Lemma reads_impl other name q x impl v : (exists Q, get_quantity (package other) name = Ok Q /\ forall d, call Q q d = implementation impl q d) ->
  implementation impl q (at_phi x) = Ok v -> reads other name q x v.
Proof. intros (Q & G & E) V. exists Q. split; [exact G|]. unfold value_of. rewrite E. exact V. Qed.

Section Values.
  Variables (other : list string) (q : params) (x : list R).
  Hypothesis S : sound q x.
  Let M : made q. Proof. apply S. Qed.
  Let Lw : legal (q_winding q). Proof. apply S. Qed.
  Let Lp : legal (q_plasma q). Proof. apply S. Qed.
  Let Psh : plasma_shaped q. Proof. apply S. Qed.
  Let L : length x = q_ndofs q. Proof. apply S. Qed.
  Let ps := q_qphi q.
  Let ts := q_qtheta q.

  Lemma impl_K : implementation "_K" q (at_phi x) = Ok (of_grid3 (sample (kval q x) ps ts)).
  Proof using S.
    change (bind (K q x OnEval) (fun v => Ok (of_grid3 v)) = Ok (of_grid3 (sample (kval q x) ps ts))). rewrite K_made by auto. reflexivity.
  Qed.
  Lemma reads_K : reads other "K" q x (of_grid3 (sample (kval q x) ps ts)).
  Proof using S. eexists. split; [reflexivity|exact impl_K]. Qed.
  Lemma K2_made : K2 q x = Ok (sample (fun p t => dot3 (kval q x p t) (kval q x p t)) ps ts).
  Proof using S. unfold K2. rewrite K_made by auto. cbn [sel_quadpoints bind]. now rewrite gmap_sample. Qed.
  Lemma impl_K2 : implementation "_K2" q (at_phi x) = Ok (of_grid (sample (fun p t => dot3 (kval q x p t) (kval q x p t)) ps ts)).
  Proof using S.
    change (bind (K2 q x) (fun v => Ok (of_grid v)) = Ok (of_grid (sample (fun p t => dot3 (kval q x p t) (kval q x p t)) ps ts))). now rewrite K2_made.
  Qed.
  Lemma reads_K2 : reads other "K2" q x (of_grid (sample (fun p t => dot3 (kval q x p t) (kval q x p t)) ps ts)).
  Proof using S. eexists. split; [reflexivity|exact impl_K2]. Qed.
  Lemma impl_Phi : implementation "_Phi" q (at_phi x) = Ok (of_grid (sample (phi_of q x) ps ts)).
  Proof using S.
    change (bind (Phi q x) (fun v => Ok (of_grid v)) = Ok (of_grid (sample (phi_of q x) ps ts))). rewrite Phi_made by auto. reflexivity.
  Qed.
  Lemma reads_Phi : reads other "Phi" q x (of_grid (sample (phi_of q x) ps ts)).
  Proof using S. eexists. split; [reflexivity|exact impl_Phi]. Qed.
  Lemma reads_Phi2 : reads other "Phi2" q x (of_grid (sample (fun p t => phi_of q x p t * phi_of q x p t) ps ts)).
  Proof using S.
    eexists. split; [reflexivity|]. change (bind (Phi2 q x) (fun v => Ok (of_grid v)) = Ok (of_grid (sample (fun p t => phi_of q x p t * phi_of q x p t) ps ts))).
    unfold Phi2. rewrite Phi_made by auto. cbn [bind]. now rewrite gmap_sample.
  Qed.
  Lemma Bnormal_ok : exists g, Bnormal q x = Ok g /\ rect (length (s_qphi (q_plasma q))) (length (s_qtheta (q_plasma q))) g.
  Proof using S.
    destruct (Bnormal_rescaled 1 1 q q x Rlt_0_1 (rescaled_self q) M M Lw Lp Psh L) as (g & E & _ & Rg). eauto.
  Qed.
  Lemma reads_Bnormal : exists g, Bnormal q x = Ok g /\ reads other "Bnormal" q x (of_grid g).
  Proof using S.
    destruct Bnormal_ok as (g & E & _). exists g. split; [exact E|]. eexists. split; [reflexivity|].
    change (bind (Bnormal q x) (fun v => Ok (of_grid v)) = Ok (of_grid g)). now rewrite E.
  Qed.
  Lemma reads_Bnormal2 g : Bnormal q x = Ok g -> reads other "Bnormal2" q x (of_grid (gmap (fun y => y * y) g)).
  Proof using S.
    intros E. eexists. split; [reflexivity|]. change (bind (Bnormal2 q x) (fun v => Ok (of_grid v)) = Ok (of_grid (gmap (fun y => y * y) g))).
    unfold Bnormal2. now rewrite E.
  Qed.
  Lemma reads_f_B : exists r, f_B q x = Ok r /\ reads other "f_B" q x (scal r).
  Proof using S.
    destruct (f_B_rescaled 1 1 q q x Rlt_0_1 (rescaled_self q) M M Lw Lp Psh L) as (r & E & _). exists r. split; [exact E|].
    eexists. split; [reflexivity|]. change (bind (f_B q x) (fun v => Ok (scal v)) = Ok (scal r)). now rewrite E.
  Qed.
  Lemma reads_f_K : exists r, f_K q x = Ok r /\ reads other "f_K" q x (scal r).
  Proof using S.
    destruct (f_K_rescaled 1 1 q q x Rlt_0_1 (rescaled_self q) M M Lw Lp Psh L) as (r & E & _). exists r. split; [exact E|].
    eexists. split; [reflexivity|]. change (bind (f_K q x) (fun v => Ok (scal v)) = Ok (scal r)). now rewrite E.
  Qed.
  Lemma reads_f_Phi : exists r, f_Phi q x = Ok r /\ reads other "f_Phi" q x (scal r).
  Proof using S.
    destruct (f_Phi_rescaled 1 1 q q x Rlt_0_1 (rescaled_self q) M M Lw Lp Psh L) as (r & E & _). exists r. split; [exact E|].
    eexists. split; [reflexivity|]. change (bind (f_Phi q x) (fun v => Ok (scal v)) = Ok (scal r)). now rewrite E.
  Qed.

  (** *** Largest values *)
  Lemma amax_is_max a : wf a -> (size (sh a) <> 0)%nat -> exists m, amax a = Ok m /\ is_max m (el a).
  Proof.
    unfold wf, amax. intros W N. destruct (el a) as [|y l]; [rewrite <- W in N; contradiction|]. eexists. split; [reflexivity|].
    split; [apply lmax_in|intros z Hz; now apply lmax_ub].
  Qed.
  Lemma linf_max (F : field params) d v : F q d = Ok v -> wf v -> (size (sh v) <> 0)%nat ->
    exists m, linf_raw F false q d = Ok (scal m) /\ is_max m (map Rabs (el v)).
  Proof.
    intros E W N. destruct (amax_is_max (amap Rabs v)) as (m & A & Hm); [now apply wf_amap|exact N|].
    exists m. unfold linf_raw. rewrite E. cbn [bind]. rewrite A. cbn [bind]. auto.
  Qed.
  Lemma is_max_mono (h : R -> R) (m : R) l : (forall y z, In y l -> In z l -> y <= z -> h y <= h z) -> is_max m l -> is_max (h m) (map h l).
  Proof. intros Hh (I & B). split; [now apply in_map|]. intros y Hy. apply in_map_iff in Hy as (z & <- & Hz). apply Hh; auto. Qed.
  Lemma linf_max2 (F : field params) d v : F q d = Ok v -> wf v -> (size (sh v) <> 0)%nat ->
    exists m, linf_raw F true q d = Ok (scal m) /\ is_max m (map (fun y => y * y) (el v)).
  Proof.
    intros E W N. destruct (amax_is_max (amap Rabs v)) as (m & A & Hm); [now apply wf_amap|exact N|].
    exists (sq m). unfold linf_raw. rewrite E. cbn [bind]. rewrite A. cbn [bind]. split; [reflexivity|].
    apply (is_max_mono sq) in Hm.
    - unfold amap in Hm. cbn [el] in Hm. rewrite map_map in Hm.
      erewrite map_ext; [exact Hm|]. intros y. unfold sq. rewrite <- Rabs_mult. rewrite Rabs_right; [reflexivity|nra].
    - intros y z Hy Hz Hyz. unfold amap in *. cbn [el] in *. apply in_map_iff in Hy as (y0 & <- & _). pose proof (Rabs_pos y0). unfold sq. nra.
  Qed.
  Lemma linf_max4 (F : field params) d v : F q d = Ok v -> wf v -> (size (sh v) <> 0)%nat ->
    exists m, linf4_raw F q d = Ok (scal m) /\ is_max m (map (fun y => y ^ 4) (el v)).
  Proof.
    intros E W N. destruct (amax_is_max (amap (fun y => sq (sq y)) v)) as (m & A & Hm); [now apply wf_amap|exact N|].
    exists m. unfold linf4_raw. rewrite E. cbn [bind]. rewrite A. cbn [bind]. split; [reflexivity|].
    erewrite map_ext; [exact Hm|]. intros y. unfold sq. ring.
  Qed.
  Lemma abs_id l : (forall y, In y l -> 0 <= y) -> map Rabs l = map (fun y => y) l.
  Proof. intros Hl. apply map_ext_in. intros y Hy. apply Rabs_right. apply Rle_ge. auto. Qed.

  Lemma largest_value name fld h : In (name, fld, h)
    [("f_max_K2", "K2", fun y : R => y); ("f_max_K_dot_grad_K_cyl", "K_dot_grad_K_cyl", Rabs); ("f_max_Bnormal", "Bnormal", Rabs);
     ("f_max_Bnormal2", "Bnormal", fun y => y * y); ("f_max_Phi", "Phi", Rabs); ("f_max_Phi2", "Phi", fun y => y * y); ("f_max_Phi4", "Phi", fun y => y ^ 4)] ->
    exists m v, reads other name q x (scal m) /\ reads other fld q x v /\ is_max m (map h (el v)).
  Proof using S.
    destruct (sizes q x S) as (Z1 & Z2 & Z3 & Z4).
    assert (Hs : forall F ps' ts', ps' <> [] -> sh (of_grid (sample F ps' ts')) = [length ps'; length ts'] /\ wf (of_grid (sample F ps' ts'))).
    { intros F ps' ts' N. destruct (times_sample 1 F ps' ts' N) as (v & E & _ & Sv & W). injection E as ->. auto. }
    assert (Np : ps <> []) by (apply (made_points q M)).
    intros [I|[I|[I|[I|[I|[I|[I|[]]]]]]]]; injection I as <- <- <-.
    - pose proof impl_K2 as V. destruct (Hs (fun p t => dot3 (kval q x p t) (kval q x p t)) ps ts Np) as (Sv & W).
      destruct (linf_max (implementation "_K2") (at_phi x) _ V W) as (m & E & Hm); [rewrite Sv; exact Z2|].
      exists m. eexists. split; [eexists; split; [reflexivity|exact E]|]. split; [exact reads_K2|].
      rewrite <- abs_id; [exact Hm|]. intros y Hy. unfold of_grid in Hy. cbn [el] in Hy. apply in_concat in Hy as (r & Hr & Hy). unfold sample in Hr.
      apply in_map_iff in Hr as (p & <- & _). apply in_map_iff in Hy as (t & <- & _). unfold dot3. nra.
    - destruct (both_KKc 1 1 q q x Rlt_0_1 (rescaled_self q) S M) as (v & V & _ & Sv & W).
      destruct (linf_max (implementation "_K_dot_grad_K_cyl") (at_phi x) _ V W) as (m & E & Hm); [rewrite Sv; exact Z1|].
      exists m, v. split; [eexists; split; [reflexivity|exact E]|]. split; [eexists; split; [reflexivity|exact V]|]. exact Hm.
    - destruct (both_Bnormal 1 1 q q x Rlt_0_1 (rescaled_self q) S M) as (v & V & _ & Sv & W).
      destruct (linf_max (implementation "_Bnormal") (at_phi x) _ V W) as (m & E & Hm); [rewrite Sv; exact Z4|].
      exists m, v. split; [eexists; split; [reflexivity|exact E]|]. split; [eexists; split; [reflexivity|exact V]|]. exact Hm.
    - destruct reads_Bnormal as (g & Eg & Q & G & V). destruct (reads_Bnormal2 g Eg) as (Q2 & G2 & V2).
      destruct (both_Bnormal2 1 1 q q x Rlt_0_1 (rescaled_self q) S M) as (v & V3 & _ & Sv & W).
      destruct (linf_max (implementation "_Bnormal2") (at_phi x) _ V3 W) as (m & E & Hm); [rewrite Sv; exact Z4|].
      assert (Ev : v = of_grid (gmap (fun y => y * y) g)).
      { change (bind (Bnormal2 q x) (fun v => Ok (of_grid v)) = Ok v) in V3. unfold Bnormal2 in V3. rewrite Eg in V3. cbn [bind] in V3. now injection V3. }
      subst v. exists m. eexists. split; [eexists; split; [reflexivity|exact E]|]. split; [exists Q; split; eassumption|].
      unfold of_grid, gmap in Hm. cbn [el] in *. rewrite concat_gmap, map_map in Hm. erewrite map_ext; [exact Hm|].
      intros y. cbv beta. rewrite Rabs_right; [reflexivity|nra].
    - pose proof impl_Phi as V. destruct (Hs (phi_of q x) ps ts Np) as (Sv & W).
      destruct (linf_max (implementation "_Phi") (at_phi x) _ V W) as (m & E & Hm); [rewrite Sv; exact Z2|].
      exists m. eexists. split; [eexists; split; [reflexivity|exact E]|]. split; [exact reads_Phi|]. exact Hm.
    - pose proof impl_Phi as V. destruct (Hs (phi_of q x) ps ts Np) as (Sv & W).
      destruct (linf_max2 (implementation "_Phi") (at_phi x) _ V W) as (m & E & Hm); [rewrite Sv; exact Z2|].
      exists m. eexists. split; [eexists; split; [reflexivity|exact E]|]. split; [exact reads_Phi|]. exact Hm.
    - pose proof impl_Phi as V. destruct (Hs (phi_of q x) ps ts Np) as (Sv & W).
      destruct (linf_max4 (implementation "_Phi") (at_phi x) _ V W) as (m & E & Hm); [rewrite Sv; exact Z2|].
      exists m. eexists. split; [eexists; split; [reflexivity|exact E]|]. split; [exact reads_Phi|]. exact Hm.
  Qed.

  (** *** Integrals *)
  Lemma gsum_concat g : gsum g = Rsum (concat g).
  Proof.
    reflexivity.
  Qed.
  Lemma map2_app {A B C} (f : A -> B -> C) l l' m m' : length l = length m -> map2 f (l ++ l') (m ++ m') = map2 f l m ++ map2 f l' m'.
  Proof. revert m; induction l as [|y l IH]; intros [|z m] E; try discriminate; [reflexivity|]. cbn. rewrite IH; auto. Qed.
  Lemma concat_gmap2 (f : R -> R -> R) g h : map (@length R) g = map (@length R) h -> concat (gmap2 f g h) = map2 f (concat g) (concat h).
  Proof.
    unfold gmap2. revert h; induction g as [|r g IH]; intros [|s h] E; try discriminate; [reflexivity|]. cbn in E. injection E as E1 E2.
    cbn. rewrite map2_app by auto. rewrite IH; auto.
  Qed.
  Lemma integrate_inv s g r : integrate s g = Ok r -> exists d, da s = Ok d /\ r = Rsum (map2 Rmult (concat d) (concat g)).
  Proof.
    unfold integrate. destruct (da s) as [d|] eqn:D; [|discriminate]. cbn [bind]. destruct (list_eq_dec _ _ _) as [E|]; [|discriminate].
    intros X. injection X as <-. exists d. split; [reflexivity|]. rewrite gsum_concat, concat_gmap2 by exact E. f_equal.
    generalize (concat g), (concat d). induction l as [|y l IH]; intros [|z l']; try reflexivity. cbn. rewrite IH. f_equal. ring.
  Qed.
  Lemma map2_map_r {A B C D} (f : A -> B -> C) (g : D -> B) l m : map2 f l (map g m) = map2 (fun a d => f a (g d)) l m.
  Proof. revert m; induction l as [|y l IH]; intros [|z m]; try reflexivity. cbn. now rewrite IH. Qed.
  Lemma integral_value name fld surf h : In (name, fld, surf, h)
    [("f_K", "K2", q_eval q, fun y => y / 2); ("f_B", "Bnormal", q_plasma q, fun y => y * y / 2); ("f_Phi", "Phi", q_eval q, fun y => y * y / 2);
     ("f_l1_Phi", "Phi", q_eval q, Rabs); ("f_huber_K", "K2", q_eval q, sqrt)] ->
    exists r v d, reads other name q x (scal r) /\ reads other fld q x v /\ da surf = Ok d /\
      r = INR (q_nfp q) * Rsum (map2 (fun w y => w * h y) (concat d) (el v)).
  Proof using S.
    intros [I|[I|[I|[I|[I|[]]]]]]; injection I as <- <- <- <-.
    - destruct reads_f_K as (r & E & Rr). unfold f_K in E. rewrite K2_made in E. cbn [bind] in E.
      destruct (integrate _ _) as [v|] eqn:Ei; [|discriminate]. cbn [bind] in E. injection E as <-. destruct (integrate_inv _ _ _ Ei) as (d & D & ->).
      eexists. eexists. exists d. split; [exact Rr|]. split; [exact reads_K2|]. split; [exact D|].
      rewrite Rmult_comm. f_equal. f_equal. unfold gmap. rewrite concat_gmap, map2_map_r. reflexivity.
    - destruct reads_f_B as (r & E & Rr). destruct reads_Bnormal as (g & Eg & Rg). unfold f_B in E. rewrite Eg in E. cbn [bind] in E.
      destruct (integrate _ _) as [v|] eqn:Ei; [|discriminate]. cbn [bind] in E. injection E as <-. destruct (integrate_inv _ _ _ Ei) as (d & D & ->).
      eexists. eexists. exists d. split; [exact Rr|]. split; [exact Rg|]. split; [exact D|].
      rewrite Rmult_comm. f_equal. f_equal. unfold gmap. rewrite concat_gmap, map2_map_r. reflexivity.
    - destruct reads_f_Phi as (r & E & Rr). unfold f_Phi, Phi2 in E. rewrite Phi_made in E by auto. cbn [bind] in E.
      destruct (integrate _ _) as [v|] eqn:Ei; [|discriminate]. cbn [bind] in E. injection E as <-. destruct (integrate_inv _ _ _ Ei) as (d & D & ->).
      eexists. eexists. exists d. split; [exact Rr|]. split; [exact reads_Phi|]. split; [exact D|].
      rewrite Rmult_comm. f_equal. f_equal. unfold gmap. rewrite !concat_gmap, map_map, map2_map_r. reflexivity.
    - destruct (both_da 1 1 q q x Rlt_0_1 (rescaled_self q) S M) as (a & D & _ & Sd & Wd). injection D as D.
      pose proof impl_Phi as V. destruct (both_Phi 1 1 q q x Rlt_0_1 (rescaled_self q) S M) as (v & V2 & _ & Sv & W).
      assert (Ev : v = of_grid (sample (phi_of q x) ps ts)).
      { change (bind (Phi q x) (fun v => Ok (of_grid v)) = Ok v) in V2. rewrite Phi_made in V2 by auto. cbn [bind] in V2. now injection V2. }
      destruct (da_rescaled 1 1 q q x Rlt_0_1 (rescaled_self q) M M Lw Lp Psh L) as (F & Ed & _).
      eexists. exists v. exists (sample F ps ts). split.
      { eexists. split; [reflexivity|]. change (value_of _ q x) with (l1_raw params params_da (fun q => INR (q_nfp q)) (implementation "_Phi") q (at_phi x)).
        unfold l1_raw. rewrite V2. cbn [bind]. unfold expand_da, ndim. rewrite D, Sd, Sv. cbn [length Nat.sub repeat]. rewrite app_nil_r.
        rewrite op2_same; [reflexivity|unfold wf; cbn [sh el]; now rewrite <- Sd|unfold wf, amap; cbn [sh el]; now rewrite map_length|unfold amap; cbn [sh]; now rewrite Sv]. }
      split; [rewrite Ev; exact reads_Phi|]. split; [exact Ed|].
      unfold asum, amap. cbn [el]. rewrite map2_map_r, Rmult_comm. f_equal. unfold Rsum. f_equal. f_equal. rewrite <- D. unfold params_da. rewrite Ed. reflexivity.
    - destruct (both_da 1 1 q q x Rlt_0_1 (rescaled_self q) S M) as (a & D & _ & Sd & Wd). injection D as D.
      destruct (da_rescaled 1 1 q q x Rlt_0_1 (rescaled_self q) M M Lw Lp Psh L) as (F & Ed & _).
      pose proof impl_K as V. pose proof reads_K2 as R2. assert (Np : ps <> []) by (apply (made_points q M)).
      destruct (times_sample3 1 (kval q x) ps ts Np) as (v & Ev & _ & Sv & W). injection Ev as Ev.
      destruct (times_sample 1 (fun p t => dot3 (kval q x p t) (kval q x p t)) ps ts Np) as (v2 & Ev2 & _ & Sv2 & W2). injection Ev2 as Ev2.
      assert (En : norm_last (merge_tail v) = Ok (Arr [length ps; length ts] (map sqrt (concat (sample (fun p t => dot3 (kval q x p t) (kval q x p t)) ps ts))))).
      { subst v. unfold merge_tail. rewrite Sv. unfold norm_last. cbn [sh el rev app size fold_right]. rewrite Nat.mul_1_r. do 2 f_equal.
        unfold of_grid3. cbn [el]. assert (El : length (concat (sample (kval q x) ps ts)) = (length ps * length ts)%nat) by (apply length_rect, rect_sample).
        rewrite <- El. rewrite <- (gmap_sample (fun v => dot3 v v)). unfold gmap. rewrite concat_gmap, map_map.
        change (3 * 1)%nat with 3%nat. generalize (concat (sample (kval q x) ps ts)). intros l. induction l as [|z l IH]; [reflexivity|]. cbn [length chunks flat_map app firstn skipn map].
        f_equal; [|exact IH]. unfold rownorm. cbn [map fold_right]. f_equal. unfold dot3. ring. }
      eexists. eexists. exists (sample F ps ts). split.
      { eexists. split; [reflexivity|]. change (value_of _ q x) with (huber_raw params params_da (fun q => INR (q_nfp q)) (implementation "_K") q (at_phi x)).
        unfold huber_raw. rewrite V, Ev. cbn [bind]. rewrite En. cbn [bind].
        unfold weighted_sum. rewrite op2_same.
        - reflexivity.
        - rewrite D. exact Wd.
        - unfold wf. cbn [sh el size fold_right]. rewrite map_length, (length_rect (length ps) (length ts)) by apply rect_sample. lia.
        - rewrite D, Sd. reflexivity. }
      split; [exact R2|]. split; [exact Ed|]. unfold asum. cbn [el]. rewrite map2_map_r, Rmult_comm. unfold params_da. rewrite Ed. reflexivity.
  Qed.

  (** *** Pointwise formulas *)
  Lemma squares_value name fld : In (name, fld) [("Phi2", "Phi"); ("Bnormal2", "Bnormal")] ->
    exists v w, reads other name q x v /\ reads other fld q x w /\ el v = map (fun y => y * y) (el w).
  Proof using S.
    intros [I|[I|[]]]; injection I as <- <-.
    - do 2 eexists. split; [exact reads_Phi2|]. split; [exact reads_Phi|]. unfold of_grid. cbn [el].
      rewrite <- (gmap_sample (fun y => y * y)). apply concat_gmap.
    - destruct reads_Bnormal as (g & Eg & Rg). do 2 eexists. split; [exact (reads_Bnormal2 g Eg)|]. split; [exact Rg|]. apply concat_gmap.
  Qed.
  Lemma K2_value : exists v w, reads other "K2" q x v /\ reads other "K" q x w /\ length (el w) = (3 * length (el v))%nat /\
    forall i, (i < length (el v))%nat -> nth i (el v) 0 = nth (3 * i) (el w) 0 ^ 2 + nth (3 * i + 1) (el w) 0 ^ 2 + nth (3 * i + 2) (el w) 0 ^ 2.
  Proof using S.
    do 2 eexists. split; [exact reads_K2|]. split; [exact reads_K|]. unfold of_grid, of_grid3. cbn [el].
    rewrite <- (gmap_sample (fun v => dot3 v v)). unfold gmap. rewrite concat_gmap. generalize (concat (sample (kval q x) ps ts)). intros l.
    rewrite flat3_length, map_length. split; [lia|]. induction l as [|v l IH]; intros i Hi; [cbn in Hi; lia|]. destruct i as [|i].
    - cbn [Nat.mul Nat.add map flat_map app nth]. unfold dot3. ring.
    - cbn [map nth]. cbn [length] in Hi. rewrite IH by lia. replace (3 * Datatypes.S i)%nat with (3 + 3 * i)%nat by lia. reflexivity.
  Qed.
  Lemma normalised_value : exists r r0 v, reads other "f_B" q x (scal r) /\ reads other "f_B" q (repeat 0 (q_ndofs q)) (scal r0) /\
    reads other "f_B_normalized_by_Bnormal_IG" q x (scal v) /\ v = r / r0.
  Proof using S.
    destruct reads_f_B as (r & E & Rr).
    destruct (f_B_rescaled 1 1 q q (repeat 0 (q_ndofs q)) Rlt_0_1 (rescaled_self q) M M Lw Lp Psh (repeat_length _ _)) as (r0 & E0 & _).
    exists r, r0, (r / r0). split; [exact Rr|]. split; [|split; [|reflexivity]].
    - eexists. split; [reflexivity|]. change (bind (f_B q (repeat 0 (q_ndofs q))) (fun v => Ok (scal v)) = Ok (scal r0)). now rewrite E0.
    - eexists. split; [reflexivity|]. change (bind (f_B_normalized q x) (fun v => Ok (scal v)) = Ok (scal (r / r0))). unfold f_B_normalized. now rewrite E, E0.
  Qed.
  Lemma total_value : exists v w, reads other "Phi_with_net_current" q x v /\ reads other "Phi" q x w /\ sh v = sh w /\
    el v = map2 Rplus (el w) (flat_map (fun p => map (fun t => q_G q * p + q_I q * t) (q_qtheta q)) (q_qphi q)).
  Proof using S.
    assert (E : Phi_with_net_current q x = Ok (sample (fun p t => phi_of q x p t + (q_G q * p + q_I q * t)) ps ts)).
    { unfold Phi_with_net_current. rewrite Phi_made by auto. cbn [bind].
      destruct (made_facts q M) as (_ & _ & _ & _ & Ce & _). destruct (copy_fields _ _ _ _ Ce) as (_ & _ & _ & _ & _ & _ & _ & E1 & E2 & _).
      rewrite E1, E2. rewrite !gmap_sample, !gmap2_sample. f_equal. apply sample_ext. intros. ring. }
    exists (of_grid (sample (fun p t => phi_of q x p t + (q_G q * p + q_I q * t)) ps ts)). eexists. split.
    { eexists. split; [reflexivity|]. change (bind (Phi_with_net_current q x) (fun v => Ok (of_grid v)) = Ok (of_grid (sample (fun p t => phi_of q x p t + (q_G q * p + q_I q * t)) ps ts))). now rewrite E. }
    split; [exact reads_Phi|]. unfold of_grid. cbn [sh el]. split.
    - unfold sample. rewrite !map_length. destruct ps; [reflexivity|]. cbn [map hd]. now rewrite !map_length.
    - clear E. fold ps ts. unfold sample. rewrite flat_map_concat_map. induction ps as [|p l IH]; [reflexivity|]. cbn [map concat]. rewrite map2_app by (now rewrite !map_length).
      f_equal; [|exact IH]. clear -ts. induction ts as [|t l IH]; [reflexivity|]. cbn. now rewrite IH.
  Qed.
End Values.

(** ** Automatic units *)
Lemma zeros_length q : length (repeat 0 (q_ndofs q)) = q_ndofs q.
Proof. apply repeat_length. Qed.
Lemma automatic_reads other name q u : automatic_unit other name q u <-> reads other name q (repeat 0 (q_ndofs q)) u.
Proof.
  unfold automatic_unit, reads, value_of. split.
  - intros (Q & uc & G & U & V). exists Q. split; [exact G|]. cbn [unit_callable] in U. injection U as <-. now rewrite repeat_length.
  - intros (Q & G & V). exists Q. eexists. split; [exact G|]. split; [reflexivity|]. rewrite repeat_length in V. exact V.
Qed.
Lemma ldot_zeros a n : ldot a (repeat 0 n) = 0.
Proof. revert n; induction a as [|y a IH]; intros [|n]; try reflexivity. cbn [repeat]. unfold ldot in *. cbn [map2 fold_right]. rewrite IH. ring. Qed.
Lemma phi_zeros q n p t : phi_of q (repeat 0 n) p t = 0 /\ phi1 q (repeat 0 n) p t = 0 /\ phi2 q (repeat 0 n) p t = 0.
Proof. unfold phi_of, phi1, phi2. rewrite !ldot_zeros. auto. Qed.
Lemma fold_zero l : List.Forall (eq 0) l -> fold_right Rplus 0 l = 0.
Proof. induction 1; [reflexivity|]. cbn [fold_right]. rewrite <- H, IHForall. ring. Qed.
Lemma zero_units other q : sound q (repeat 0 (q_ndofs q)) ->
  forall name, In name ["Phi"; "Phi2"; "f_max_Phi"; "f_max_Phi2"; "f_max_Phi4"; "f_l1_Phi"; "f_Phi"] ->
  exists u, automatic_unit other name q u /\ List.Forall (eq 0) (el u).
Proof.
  intros S name I. setoid_rewrite automatic_reads. set (x := repeat 0 (q_ndofs q)) in *.
  assert (ZP : forall v, reads other "Phi" q x v -> List.Forall (eq 0) (el v)).
  { intros v (Q & G & V). pose proof (reads_Phi other q x S) as (Q' & G' & V'). rewrite G in G'. injection G' as <-. rewrite V in V'. injection V' as ->.
    unfold of_grid. cbn [el]. apply List.Forall_forall. intros y Hy. apply in_concat in Hy as (r & Hr & Hy). unfold sample in Hr.
    apply in_map_iff in Hr as (p & <- & _). apply in_map_iff in Hy as (t & <- & _). symmetry. apply phi_zeros. }
  assert (ZM : forall h m v, h 0 = 0 -> reads other "Phi" q x v -> is_max m (map h (el v)) -> 0 = m).
  { intros h m v H0 Rv (Im & _). apply in_map_iff in Im as (y & <- & Hy). pose proof (ZP v Rv) as F. rewrite List.Forall_forall in F. rewrite <- (F y Hy). auto. }
  assert (ZI : forall h d v, h 0 = 0 -> reads other "Phi" q x v -> 0 = INR (q_nfp q) * Rsum (map2 (fun w y => w * h y) (concat d) (el v))).
  { intros h d v H0 Rv. unfold Rsum. rewrite fold_zero; [ring|]. pose proof (ZP v Rv) as F. generalize (concat d). induction F as [|y l Hy F IH]; intros [|w l']; cbn [map2]; try constructor.
    - rewrite <- Hy, H0. ring.
    - apply IH. }
  destruct I as [<-|[<-|[<-|[<-|[<-|[<-|[<-|[]]]]]]]].
  - eexists. split; [exact (reads_Phi other q x S)|]. apply ZP, reads_Phi, S.
  - destruct (squares_value other q x S "Phi2" "Phi" ltac:(cbn; tauto)) as (v & w & Rv & Rw & E). exists v. split; [exact Rv|]. rewrite E.
    specialize (ZP w Rw). clear E Rw. induction ZP as [|y l Hy F IH]; constructor; [rewrite <- Hy; ring|]. exact IH.
  - destruct (largest_value other q x S "f_max_Phi" "Phi" Rabs ltac:(cbn; tauto)) as (m & v & Rm & Rv & Hm). exists (scal m). split; [exact Rm|].
    constructor; [|constructor]. exact (ZM _ _ _ Rabs_R0 Rv Hm).
  - destruct (largest_value other q x S "f_max_Phi2" "Phi" (fun y => y * y) ltac:(cbn; tauto)) as (m & v & Rm & Rv & Hm). exists (scal m). split; [exact Rm|].
    constructor; [|constructor]. exact (ZM (fun y => y * y) _ _ ltac:(cbv beta; ring) Rv Hm).
  - destruct (largest_value other q x S "f_max_Phi4" "Phi" (fun y => y ^ 4) ltac:(cbn; tauto)) as (m & v & Rm & Rv & Hm). exists (scal m). split; [exact Rm|].
    constructor; [|constructor]. exact (ZM (fun y => y ^ 4) _ _ ltac:(cbv beta; ring) Rv Hm).
  - destruct (integral_value other q x S "f_l1_Phi" "Phi" (q_eval q) Rabs ltac:(cbn; tauto)) as (r & v & d & Rr & Rv & _ & E). exists (scal r). split; [exact Rr|].
    constructor; [|constructor]. rewrite E. exact (ZI Rabs d v Rabs_R0 Rv).
  - destruct (integral_value other q x S "f_Phi" "Phi" (q_eval q) (fun y => y * y / 2) ltac:(cbn; tauto)) as (r & v & d & Rr & Rv & _ & E). exists (scal r). split; [exact Rr|].
    constructor; [|constructor]. rewrite E. apply (ZI (fun y => y * y / 2) d v ltac:(cbv beta; field) Rv).
Qed.
