(** The quantities of the package meet the assumptions of ProofApprox. *)
From Coq Require Import String List Bool Arith ZArith Reals Lra Lia.
From Verif Require Import Base ModelArray ProofArray ModelMath SpecMath ProofMath ModelSurface SpecSurface ModelParams ModelField SpecField
  ModelQuantity SpecQuantity ProofQuantity ProofSlack ModelWrapper SpecWrapper ProofWrapper ProofWrapper2 ModelShipped ModelPackage SpecPackage
  SpecConvex ProofPackage ProofPackage2 ProofPackage3 ProofPackage4 ProofConvex SpecProblem ProofProblem ProofProblem2 SpecApprox ProofApprox.
Import ListNotations.
Open Scope R_scope.
Open Scope string_scope.
Open Scope list_scope.

Lemma weighted_lse eps (w : list R) : 0 < eps -> List.Forall (fun a => 0 <= a) w -> forall l,
  Rsum (map2 (fun a x => a * Rabs x) w l) <= Rsum (map2 (fun a x => a * abs_lse1 eps x) w l) <= Rsum (map2 (fun a x => a * Rabs x) w l) + eps * ln 2 * Rsum w.
Proof.
  intros He F. assert (H2 : 0 <= eps * ln 2) by (apply Rmult_le_pos; [lra|]; rewrite <- ln_1; left; apply ln_increasing; lra).
  assert (Wp : forall w, List.Forall (fun a => 0 <= a) w -> 0 <= Rsum w).
  { unfold Rsum. intros v Fv. induction Fv; cbn; lra. }
  induction F as [|a w Ha F IH]; intros l.
  - unfold Rsum. cbn. lra.
  - destruct l as [|x l].
    + pose proof (Wp (a :: w) ltac:(now constructor)) as Z. pose proof (Rmult_le_pos _ _ H2 Z). cbn [map2]. change (Rsum []) with 0. lra.
    + specialize (IH l). unfold Rsum in *. cbn [map2 fold_right]. pose proof (abs_lse_bounds x eps He) as B.
      pose proof (Rmult_le_compat_l _ _ _ Ha (proj1 B)). pose proof (Rmult_le_compat_l _ _ _ Ha (proj2 B)). lra.
Qed.

Section PackageUses.
  Variables (other : list string) (q : params) (x : list R) (eps : R).
  Hypothesis S : sound q x.
  Hypothesis He : 0 < eps.
  Let M : made q. Proof. apply S. Qed.
  Notation X := (Arr [length x] x).

  Ltac impl_of lem := let v := fresh "v" in let V := fresh "V" in let Sv := fresh "Sv" in let W := fresh "W" in
    destruct (lem 1 1 q q x Rlt_0_1 (rescaled_self q) S M) as (v & V & _ & Sv & W).

  Lemma direct_smooth n un : In n direct_quantities -> (n = "K_theta" -> q_stellsym q = true) -> un <> 0 ->
    exists Q v, package other n = Some (AQuantity Q) /\ call Q q [("phi", X)] = Ok v /\ exact_use params q X eps Q v (Rabs un) (loss q n un).
  Proof using S.
    destruct (sizes q x S) as (Z1 & Z2 & Z3 & Z4).
    assert (G : forall im n Q v s reg reg' compat, package other n = Some (AQuantity Q) -> init_quantity reg (generate_c2 (implementation im) compat) = (reg', Ok Q) ->
      (forall d, call Q q d = bind (getitem d "phi") (fun phi => implementation im q [("phi", phi)])) ->
      implementation im q (at_phi x) = Ok v -> sh v = s -> wf v -> (s = [] /\ loss q n un = 0 \/ s <> [] /\ (size s <> 0)%nat /\ loss q n un = ln (INR (size s))) -> un <> 0 ->
      exists Q v, package other n = Some (AQuantity Q) /\ call Q q [("phi", X)] = Ok v /\ exact_use params q X eps Q v (Rabs un) (loss q n un)).
    { intros im n0 Q v s reg reg' compat Ep Ei Ec V Sv W Ls Nz. exists Q, v. split; [exact Ep|]. split; [rewrite Ec; exact V|].
      assert (Q = {| q_raw := implementation im; q_approx := fun _ qp d unit => bind (implementation im qp d) (fun r => op2 Rdiv r unit);
        q_slack_f := fun qp d unit => bind (implementation im qp d) (fun r => op2 Rdiv r unit); q_slack_g := None; q_slack_h := None; q_slack_init := None; q_compat := compat |}) as ->.
      { clear - Ei. unfold init_quantity in Ei. cbn in Ei. congruence. }
      split; [exact W|]. split.
      - cbn [q_approx]. change (implementation im q [("phi", X)]) with (implementation im q (at_phi x)). rewrite V. cbn [bind]. rewrite op2_scal_r by exact W. reflexivity.
      - destruct Ls as [(-> & E)|(N & Z & E)]; [left; auto|right]. rewrite Sv. split; [exact N|]. split; [now apply (nonempty v s)|]. rewrite E. unfold wf in W. rewrite Sv in W. now rewrite <- W. }
    intros I St Nz. unfold direct_quantities in I. cbn [In] in I. repeat destruct I as [<-|I]; try contradiction.
    - impl_of both_K. eapply (G "_K") with (reg := []); [reflexivity|reflexivity|reflexivity|eassumption|eassumption|assumption|right; split; [discriminate|split; [assumption|reflexivity]]|exact Nz].
    - impl_of both_K2. eapply (G "_K2") with (reg := []); [reflexivity|reflexivity|reflexivity|eassumption|eassumption|assumption|right; split; [discriminate|split; [assumption|reflexivity]]|exact Nz].
    - destruct (both_K_theta 1 1 q q x Rlt_0_1 (rescaled_self q) S M (St eq_refl)) as (v & V & _ & Sv & W).
      eapply (G "_K_theta") with (reg := []); [reflexivity|reflexivity|reflexivity|eassumption|eassumption|assumption|right; split; [discriminate|split; [assumption|reflexivity]]|exact Nz].
    - impl_of both_f_K. eapply (G "_f_K") with (reg := []); [reflexivity|reflexivity|reflexivity|eassumption|eassumption|assumption|left; split; reflexivity|exact Nz].
    - impl_of both_KK. eapply (G "_K_dot_grad_K") with (reg := []); [reflexivity|reflexivity|reflexivity|eassumption|eassumption|assumption|right; split; [discriminate|split; [assumption|reflexivity]]|exact Nz].
    - impl_of both_KKc. eapply (G "_K_dot_grad_K_cyl") with (reg := []); [reflexivity|reflexivity|reflexivity|eassumption|eassumption|assumption|right; split; [discriminate|split; [assumption|reflexivity]]|exact Nz].
    - impl_of both_B. eapply (G "_winding_surface_B") with (reg := []); [reflexivity|reflexivity|reflexivity|eassumption|eassumption|assumption|right; split; [discriminate|split; [assumption|reflexivity]]|exact Nz].
    - impl_of both_Bnormal. eapply (G "_Bnormal") with (reg := []); [reflexivity|reflexivity|reflexivity|eassumption|eassumption|assumption|right; split; [discriminate|split; [assumption|reflexivity]]|exact Nz].
    - impl_of both_Bnormal2. eapply (G "_Bnormal2") with (reg := []); [reflexivity|reflexivity|reflexivity|eassumption|eassumption|assumption|right; split; [discriminate|split; [assumption|reflexivity]]|exact Nz].
    - impl_of both_f_B. eapply (G "_f_B") with (reg := []); [reflexivity|reflexivity|reflexivity|eassumption|eassumption|assumption|left; split; reflexivity|exact Nz].
    - destruct (both_f_B_normalized 1 1 q q x Rlt_0_1 Rlt_0_1 (rescaled_self q) S M) as (v & V & _ & Sv & W).
      eapply (G "_f_B_normalized_by_Bnormal_IG") with (reg := []); [reflexivity|reflexivity|reflexivity|eassumption|eassumption|assumption|left; split; reflexivity|exact Nz].
    - impl_of both_Phi. eapply (G "_Phi") with (reg := []); [reflexivity|reflexivity|reflexivity|eassumption|eassumption|assumption|right; split; [discriminate|split; [assumption|reflexivity]]|exact Nz].
    - impl_of both_Phi_net. eapply (G "_Phi_with_net_current") with (reg := []); [reflexivity|reflexivity|reflexivity|eassumption|eassumption|assumption|right; split; [discriminate|split; [assumption|reflexivity]]|exact Nz].
    - impl_of both_Phi2. eapply (G "_Phi2") with (reg := []); [reflexivity|reflexivity|reflexivity|eassumption|eassumption|assumption|right; split; [discriminate|split; [assumption|reflexivity]]|exact Nz].
    - impl_of both_f_Phi. eapply (G "_f_Phi") with (reg := []); [reflexivity|reflexivity|reflexivity|eassumption|eassumption|assumption|left; split; reflexivity|exact Nz].
  Qed.

  Lemma peak_smooth n un : In n (map fst smoothed_peaks) -> un <> 0 ->
    exists Q v, package other n = Some (AQuantity Q) /\ call Q q [("phi", X)] = Ok v /\ soft_use params q X eps Q v (Rabs un) (loss q n un).
  Proof using S He.
    destruct (sizes q x S) as (Z1 & Z2 & Z3 & Z4).
    assert (G : forall im n aux Q v s reg reg' pd au, package other n = Some (AQuantity Q) ->
      init_quantity reg (generate_linf_norm params q_stellsym (implementation im) aux pd false au) = (reg', Ok Q) ->
      implementation im q (at_phi x) = Ok v -> sh v = s -> wf v -> (size s <> 0)%nat -> loss q n un = ln (2 * INR (size s)) -> un <> 0 ->
      exists Q v, package other n = Some (AQuantity Q) /\ call Q q [("phi", X)] = Ok v /\ soft_use params q X eps Q v (Rabs un) (loss q n un)).
    { intros im n0 aux Q v s reg reg' pd au Ep Ei V Sv W Z Ls Nz. exists Q. pose proof (Rabs_pos_lt _ Nz) as Pu.
      rewrite (linf_built _ _ _ _ _ _ _ _ _ _ Ei) in *. clear Ei.
      assert (N : el v <> []) by now apply (nonempty v s). destruct (exists_max (map Rabs (el v))) as [m Hm]; [now apply map_nonempty|].
      exists (scal m). split; [exact Ep|]. split.
      { unfold call, getitem. cbn [lookup q_raw]. change (String.eqb "phi" "phi") with true. cbn [bind]. exact (linf_raw_value _ false _ _ v m V Hm). }
      assert (Hd : is_max (m / Rabs un) (map Rabs (map (fun y => y / Rabs un) (el v)))).
      { rewrite map_map. destruct Hm as [I Ub]. split.
        - apply in_map_iff in I as (y & <- & Iy). apply in_map_iff. exists y. split; [|exact Iy]. unfold Rdiv. rewrite Rabs_mult, (Rabs_right (/ _)); [reflexivity|]. apply Rle_ge. left. now apply Rinv_0_lt_compat.
        - intros y Iy. apply in_map_iff in Iy as (z & <- & Iz). unfold Rdiv. rewrite Rabs_mult, (Rabs_right (/ _)) by (apply Rle_ge; left; now apply Rinv_0_lt_compat).
          apply Rmult_le_compat_r; [left; now apply Rinv_0_lt_compat|]. apply Ub. now apply in_map. }
      pose proof (linf_lse_bounds _ eps _ He Hd) as B. rewrite map_length in B. unfold wf in W.
      eexists. eexists. split; [reflexivity|]. split; [|split; [|split]].
      - cbn [q_approx]. unfold linf_approx. change (implementation im q [("phi", X)]) with (implementation im q (at_phi x)). rewrite V. cbn [bind]. rewrite op2_scal_r by exact W. cbn [bind].
        unfold getitem. cbn [lookup]. change (String.eqb "lse_epsilon" "lse_epsilon") with true. cbn [bind el]. reflexivity.
      - rewrite Ls. rewrite W, Sv in B. exact B.
      - cbn. intuition discriminate.
      - cbn. intuition discriminate. }
    intros I Nz. unfold smoothed_peaks in I. cbn [map fst In] in I. repeat destruct I as [<-|I]; try contradiction.
    - impl_of both_K2. eapply (G "_K2") with (reg := []); [reflexivity|reflexivity|eassumption|eassumption|assumption|assumption|reflexivity|exact Nz].
    - impl_of both_KKc. eapply (G "_K_dot_grad_K_cyl") with (reg := []); [reflexivity|reflexivity|eassumption|eassumption|assumption|assumption|reflexivity|exact Nz].
    - impl_of both_Bnormal. eapply (G "_Bnormal") with (reg := []); [reflexivity|reflexivity|eassumption|eassumption|assumption|assumption|reflexivity|exact Nz].
    - impl_of both_Bnormal2. eapply (G "_Bnormal2") with (reg := []); [reflexivity|reflexivity|eassumption|eassumption|assumption|assumption|reflexivity|exact Nz].
    - impl_of both_force. eapply (G "_force_cyl") with (reg := []); [reflexivity|reflexivity|eassumption|eassumption|assumption|assumption|reflexivity|exact Nz].
    - impl_of both_Phi. eapply (G "_Phi") with (reg := []); [reflexivity|reflexivity|eassumption|eassumption|assumption|assumption|reflexivity|exact Nz].
  Qed.

  Hypothesis O : ordered q.
  Lemma l1_smooth un : un <> 0 ->
    exists Q v, package other "f_l1_Phi" = Some (AQuantity Q) /\ call Q q [("phi", X)] = Ok v /\ soft_use params q X eps Q v (Rabs un) (loss q "f_l1_Phi" un).
  Proof using S He O.
    intros Nz. pose proof (Rabs_pos_lt _ Nz) as Pu. impl_of both_Phi. impl_of both_da. assert (params_da q = v0) as Ed by congruence.
    assert (G1 : forall n aux Q reg reg', package other n = Some (AQuantity Q) ->
        init_quantity reg (generate_l1_norm params params_da (fun q => INR (q_nfp q)) q_stellsym (implementation "_Phi") aux false false true) = (reg', Ok Q) ->
        exists Q v, package other n = Some (AQuantity Q) /\ call Q q [("phi", X)] = Ok v /\ soft_use params q X eps Q v (Rabs un) (loss q "f_l1_Phi" un)).
    { intros n aux Q reg reg' Ep Ei. exists Q. rewrite (l1_built _ _ _ _ _ _ _ _ _ _ _ _ Ei) in *. clear Ei.
      assert (Wd : wf (params_da q)) by (rewrite Ed; exact W0). assert (Es : sh (params_da q) = sh v) by (rewrite Ed, Sv0; symmetry; exact Sv).
      assert (Pw : List.Forall (fun a => 0 <= a) (el (params_da q))).
      { apply List.Forall_forall. intros a Ha. unfold params_da in Ha. destruct (da (q_eval q)) as [g|] eqn:D; [|contradiction]. unfold of_grid in Ha. cbn [el] in Ha.
        refine (eval_weights q _ O g D a Ha). destruct S as (? & ? & ? & ? & _). intros z Lz. repeat (split; [assumption|]). exact Lz. }
      pose proof (weighted_lse eps _ He Pw (el v)) as B. change (implementation "_Phi" q [("phi", X)]) with (implementation "_Phi" q (at_phi x)).
      assert (Ll : loss q "f_l1_Phi" un = ln 2 * (INR (q_nfp q) * Rsum (el (params_da q))) / Rabs un).
      { unfold loss. cbn [lookup smoothed_peaks String.eqb Ascii.eqb Bool.eqb]. unfold params_da in *. destruct (da (q_eval q)) as [g|]; [reflexivity|].
        exfalso. destruct (sizes q x S) as (_ & Z2 & _). rewrite Sv in Es. cbn in Es. discriminate Es. }
      eexists. split; [exact Ep|]. split.
      { unfold call, getitem. cbn [lookup q_raw]. change (String.eqb "phi" "phi") with true. cbn [bind]. apply (l1_raw_value params params_da _ _ q _ v); [exact V|exact W|exact Wd|exact Es]. }
      eexists. eexists. split; [reflexivity|]. split; [|split; [|split]].
      - cbn [q_approx]. unfold l1_approx. change (implementation "_Phi" q [("phi", X)]) with (implementation "_Phi" q (at_phi x)). rewrite V. cbn [bind].
        rewrite expand_da_same by (unfold ndim; rewrite Es; reflexivity). rewrite <- Es, broadcast_same by exact Wd. cbn [bind]. unfold getitem. cbn [lookup].
        change (String.eqb "lse_epsilon" "lse_epsilon") with true. cbn [bind]. rewrite op2_same; cbn [el sh]; auto.
        + cbn [bind]. rewrite op2_scal. unfold asum, abs_lse. cbn [el]. rewrite map2_map_r. reflexivity.
        + red. cbn [el sh]. unfold abs_lse. rewrite map_length, Es. exact W.
      - rewrite Ll. pose proof (pos_INR (q_nfp q)) as Pn. assert (Pi : 0 < / Rabs un) by now apply Rinv_0_lt_compat.
        unfold wsum, Rdiv. set (a := Rsum (map2 (fun a x => a * Rabs x) _ _)) in *. set (b := Rsum (map2 (fun a x => a * abs_lse1 eps x) _ _)) in *. set (w := Rsum (el (params_da q))) in *. split.
        + apply Rmult_le_compat_r; [lra|]. apply Rmult_le_compat_r; [exact Pn|apply B].
        + replace (a * INR (q_nfp q) * / Rabs un + eps * (ln 2 * (INR (q_nfp q) * w) * / Rabs un)) with ((a + eps * ln 2 * w) * INR (q_nfp q) * / Rabs un) by ring.
          apply Rmult_le_compat_r; [lra|]. apply Rmult_le_compat_r; [exact Pn|apply B].
      - cbn. intuition discriminate.
      - cbn. intuition discriminate. }
    eapply G1 with (reg := []); [reflexivity|reflexivity].
  Qed.

  Lemma use_smooth n un : smooth_use q n un -> un <> 0 /\ exists Q v, package other n = Some (AQuantity Q) /\ call Q q [("phi", X)] = Ok v /\
    (exact_use params q X eps Q v (Rabs un) (loss q n un) \/ soft_use params q X eps Q v (Rabs un) (loss q n un)).
  Proof using S He O.
    intros (Nz & [I|[->|(I & St)]]); (split; [exact Nz|]).
    - destruct (peak_smooth n un I Nz) as (Q & v & A & B & C). exists Q, v. auto.
    - destruct (l1_smooth un Nz) as (Q & v & A & B & C). exists Q, v. auto.
    - destruct (direct_smooth n un I St Nz) as (Q & v & A & B & C). exists Q, v. auto.
  Qed.
End PackageUses.
