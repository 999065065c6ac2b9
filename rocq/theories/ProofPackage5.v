(** Automatic units that are positive. *)
From Coq Require Import String List Bool Arith ZArith Reals Lra Lia.
From Verif Require Import Base ModelArray ProofArray ModelMath SpecMath ProofMath ModelSurface SpecSurface ProofSurface ProofSurface2 ProofSurface3
  SpecWinding ProofWinding4 ModelParams ModelField SpecField ProofField ProofField2 ProofField3 ModelForce ProofForce
  ModelQuantity SpecQuantity ModelWrapper SpecWrapper ModelShipped ModelPackage SpecPackage ProofRescale ProofPackage ProofPackage2 ProofPackage4.
Import ListNotations.
Open Scope R_scope.
Open Scope string_scope.
Open Scope list_scope.

Lemma sum_weighted_pos (h : R -> R) d l : length d = length l -> l <> [] -> (forall w, In w d -> 0 < w) -> (forall y, In y l -> 0 < h y) ->
  0 < Rsum (map2 (fun w y => w * h y) d l).
Proof.
  revert d; induction l as [|y l IH]; intros [|w d] E N Hw Hy; try discriminate; [contradiction|]. unfold Rsum in *. cbn [map2 fold_right].
  assert (0 < w * h y) by (apply Rmult_lt_0_compat; [apply Hw|apply Hy]; now left).
  destruct l as [|y' l].
  - destruct d; [|discriminate]. cbn. lra.
  - assert (0 < fold_right Rplus 0 (map2 (fun w y => w * h y) d (y' :: l))); [|lra].
    apply IH; [now injection E|discriminate|intros; apply Hw; now right|intros; apply Hy; now right].
Qed.
Lemma sum_weighted_nonneg (h : R -> R) d l : (forall w, In w d -> 0 <= w) -> (forall y, In y l -> 0 <= h y) ->
  0 <= Rsum (map2 (fun w y => w * h y) d l).
Proof.
  revert d; induction l as [|y l IH]; intros [|w d] Hw Hy; try (unfold Rsum; cbn; lra). unfold Rsum in *. cbn [map2 fold_right].
  assert (0 <= w * h y) by (apply Rmult_le_pos; [apply Hw|apply Hy]; now left).
  assert (0 <= fold_right Rplus 0 (map2 (fun w y => w * h y) d l)); [|lra].
  apply IH; [intros; apply Hw; now right|intros; apply Hy; now right].
Qed.
Lemma sum_weighted_some (h : R -> R) d l y : length d = length l -> (forall w, In w d -> 0 < w) -> (forall y, In y l -> 0 <= h y) ->
  In y l -> 0 < h y -> 0 < Rsum (map2 (fun w y => w * h y) d l).
Proof.
  revert d; induction l as [|z l IH]; intros [|w d] E Hw Hy I P; try contradiction; try discriminate. 
  assert (0 <= Rsum (map2 (fun w y => w * h y) d l)).
  { apply sum_weighted_nonneg; [intros; apply Rlt_le, Hw; now right|intros; apply Hy; now right]. }
  assert (0 <= w * h z). { apply Rmult_le_pos; [apply Rlt_le, Hw|apply Hy]; now left. }
  unfold Rsum in *. cbn [map2 fold_right]. destruct I as [->|I].
  - assert (0 < w * h y); [|lra]. apply Rmult_lt_0_compat; [apply Hw; now left|exact P].
  - assert (0 < fold_right Rplus 0 (map2 (fun w y => w * h y) d l)); [|lra].
    apply IH; auto; [intros; apply Hw; now right|intros; apply Hy; now right].
Qed.

Section Positive.
  Variables (other : list string) (q : params).
  Let x := repeat 0 (q_ndofs q).
  Hypothesis S : sound q x.
  Let M : made q. Proof. apply S. Qed.
  Let Lw : legal (q_winding q). Proof. apply S. Qed.
  Let Lp : legal (q_plasma q). Proof. apply S. Qed.
  Let Psh : plasma_shaped q. Proof. apply S. Qed.
  Let L : length x = q_ndofs q. Proof. apply S. Qed.

  Lemma K2_positive d : da (q_eval q) = Ok d -> (forall w, In w (concat d) -> 0 < w) -> q_G q <> 0 \/ q_I q <> 0 ->
    forall v y, reads other "K2" q x v -> In y (el v) -> 0 < y.
  Proof using S.
    intros D Hd HG v y (Q & G & V). destruct (reads_K2 other q x S) as (Q' & G' & V'). rewrite G in G'. injection G' as <-. rewrite V in V'. injection V' as ->.
    unfold of_grid. cbn [el]. intros Hy. apply in_concat in Hy as (r & Hr & Hy). unfold sample in Hr.
    apply in_map_iff in Hr as (p & <- & Hp). apply in_map_iff in Hy as (t & <- & Ht).
    destruct (made_facts q M) as (_ & _ & _ & _ & Ce & _). rewrite (da_copy _ _ _ _ Lw Ce) in D. injection D as <-.
    assert (P : 0 < s_dphi (q_eval q) * s_dtheta (q_eval q) * norm3 (nrm (q_winding q) p t)).
    { apply Hd. apply in_concat. exists (map (fun t => s_dphi (q_eval q) * s_dtheta (q_eval q) * norm3 (nrm (q_winding q) p t)) (q_qtheta q)).
      split; [|apply in_map_iff; eauto]. unfold sample. apply in_map_iff. eauto. }
    assert (Nn : nrm (q_winding q) p t <> zero3). { intros E. rewrite E in P. rewrite (proj2 (norm3_0 zero3) eq_refl) in P. lra. }
    assert (Np : 0 < norm3 (wn q p t)).
    { pose proof (norm3_nonneg (wn q p t)) as Hge. destruct Hge as [Hgt|Heq]; [exact Hgt|]. exfalso. apply Nn. apply norm3_0. now symmetry. }
    unfold kval. destruct (phi_zeros q (q_ndofs q) p t) as (_ & E1 & E2). fold x in E1, E2. rewrite E1, E2, !Rplus_0_l.
    set (k := sub3 _ _). assert (Nk : k <> zero3).
    { intros E. apply Nn. unfold nrm. fold (w1 q p t) (w2 q p t). unfold k in E.
      assert (X : scale3 (q_G q) (cross3 (w1 q p t) (w2 q p t)) = zero3).
      { transitivity (cross3 (w1 q p t) (sub3 (scale3 (q_G q) (w2 q p t)) (scale3 (q_I q) (w1 q p t)))).
        - unfold cross3, scale3, sub3. cbn [vx vy vz]. f_equal; ring.
        - rewrite E. unfold cross3, zero3. cbn [vx vy vz]. f_equal; ring. }
      assert (Y : scale3 (q_I q) (cross3 (w1 q p t) (w2 q p t)) = zero3).
      { transitivity (cross3 (w2 q p t) (sub3 (scale3 (q_G q) (w2 q p t)) (scale3 (q_I q) (w1 q p t)))).
        - unfold cross3, scale3, sub3. cbn [vx vy vz]. f_equal; ring.
        - rewrite E. unfold cross3, zero3. cbn [vx vy vz]. f_equal; ring. }
      assert (Z : forall c v, c <> 0 -> scale3 c v = zero3 -> v = zero3).
      { intros c [a1 a2 a3] Hc Ez. unfold scale3, zero3 in *. cbn [vx vy vz] in Ez. injection Ez as Ea Eb Ec.
        apply Rmult_integral in Ea. apply Rmult_integral in Eb. apply Rmult_integral in Ec. f_equal; tauto. }
      destruct HG as [HG|HG]; eapply Z; eauto. }
    assert (Pk : 0 < dot3 k k).
    { destruct k as [a1 a2 a3]. unfold dot3. cbn [vx vy vz]. destruct (Req_dec a1 0) as [->|]; [|nra]. destruct (Req_dec a2 0) as [->|]; [|nra].
      destruct (Req_dec a3 0) as [->|]; [now contradiction Nk|]. nra. }
    pose proof (Rinv_0_lt_compat _ Np). set (e := / norm3 (wn q p t)) in *.
    replace (dot3 (scale3 e k) (scale3 e k)) with (e * e * dot3 k k) by (unfold dot3, scale3; cbn [vx vy vz]; ring).
    repeat apply Rmult_lt_0_compat; assumption.
  Qed.
  Lemma current_units d : da (q_eval q) = Ok d -> (forall w, In w (concat d) -> 0 < w) -> q_G q <> 0 \/ q_I q <> 0 ->
    forall name, In name ["f_max_K2"; "f_K"; "f_huber_K"] -> exists m, automatic_unit other name q (scal m) /\ 0 < m.
  Proof using S.
    intros D Hd HG name I. pose proof (K2_positive d D Hd HG) as KP.
    assert (Hn : (0 < q_nfp q)%nat). { destruct (made_facts q M) as (H0 & _). unfold q_nfp. lia. }
    assert (HI : forall name h, In (name, "K2", q_eval q, h)
      [("f_K", "K2", q_eval q, fun y => y / 2); ("f_B", "Bnormal", q_plasma q, fun y => y * y / 2); ("f_Phi", "Phi", q_eval q, fun y => y * y / 2);
       ("f_l1_Phi", "Phi", q_eval q, Rabs); ("f_huber_K", "K2", q_eval q, sqrt)] -> (forall y, 0 < y -> 0 < h y) ->
      exists m, automatic_unit other name q (scal m) /\ 0 < m).
    { intros n h Hi Hh. destruct (integral_value other q x S n "K2" (q_eval q) h Hi) as (r & v & d' & Rr & Rv & D' & ->).
      rewrite D in D'. injection D' as <-. eexists. split; [apply automatic_reads; exact Rr|]. apply Rmult_lt_0_compat; [now apply lt_0_INR|].
      destruct (made_facts q M) as (_ & _ & _ & _ & Ce & _). rewrite (da_copy _ _ _ _ Lw Ce) in D. injection D as <-.
      pose proof Rv as (Q & G & V). destruct (reads_K2 other q x S) as (Q' & G' & V'). rewrite G in G'. injection G' as <-. rewrite V in V'. injection V' as E.
      apply sum_weighted_pos.
      - rewrite (length_rect _ _ _ (rect_sample _ _ _)). rewrite E, el_of_grid, (length_rect _ _ _ (rect_sample _ _ _)). reflexivity.
      - intros E0. assert (Z : length (el v) = 0%nat) by now rewrite E0. rewrite E, el_of_grid, (length_rect _ _ _ (rect_sample _ _ _)) in Z.
        destruct (no_points q x S) as (A & B & _). apply Nat.eq_mul_0 in Z. tauto.
      - exact Hd.
      - intros y Hy. apply Hh. eapply KP; eassumption. }
    destruct I as [<-|[<-|[<-|[]]]].
    - destruct (largest_value other q x S "f_max_K2" "K2" (fun y => y) ltac:(cbn; tauto)) as (m & v & Rm & Rv & (Im & _)). exists m.
      split; [now apply automatic_reads|]. rewrite map_id in Im. eapply KP; eassumption.
    - apply (HI "f_K" (fun y => y / 2)); [cbn; tauto|intros; lra].
    - apply (HI "f_huber_K" sqrt); [cbn; tauto|intros; now apply sqrt_lt_R0].
  Qed.
  Lemma field_units d : da (q_plasma q) = Ok d -> (forall w, In w (concat d) -> 0 < w) ->
    forall name, In name ["f_B"; "f_max_Bnormal"; "f_max_Bnormal2"] ->
    exists m v, automatic_unit other name q (scal m) /\ automatic_unit other "Bnormal" q v /\ 0 <= m /\
      (0 < m <-> exists y, In y (el v) /\ y <> 0).
  Proof using S.
    intros D Hd name I. setoid_rewrite automatic_reads. fold x.
    assert (Hn : (0 < q_nfp q)%nat). { destruct (made_facts q M) as (H0 & _). unfold q_nfp. lia. }
    assert (HM : forall m v h, is_max m (map h (el v)) -> h 0 = 0 -> (forall y, y <> 0 -> 0 < h y) -> 0 <= m /\ (0 < m <-> exists y, In y (el v) /\ y <> 0)).
    { intros m v h (Im & Bm) H0 Hh. apply in_map_iff in Im as (z & <- & Hz).
      assert (Hp : 0 <= h z). { destruct (Req_dec z 0) as [->|N]; [rewrite H0; lra|left; auto]. } split; [exact Hp|]. split.
      - intros P. exists z. split; [exact Hz|]. intros ->. lra.
      - intros (y & Iy & Ny). apply Rlt_le_trans with (h y); [now apply Hh|]. apply Bm. now apply in_map. }
    destruct I as [<-|[<-|[<-|[]]]].
    - destruct (integral_value other q x S "f_B" "Bnormal" (q_plasma q) (fun y => y * y / 2) ltac:(cbn; tauto)) as (r & v & d' & Rr & Rv & D' & E).
      rewrite D in D'. injection D' as <-. exists r, v. split; [exact Rr|]. split; [exact Rv|]. pose proof (lt_0_INR _ Hn) as Hnfp.
      assert (H2 : forall y, 0 <= y * y / 2) by (intros y; nra).
      assert (Hs : 0 <= Rsum (map2 (fun w y => w * (y * y / 2)) (concat d) (el v))) by (apply (sum_weighted_nonneg (fun y => y * y / 2)); [intros; apply Rlt_le; auto|auto]).
      split; [rewrite E; apply Rmult_le_pos; lra|]. rewrite E. split.
      + intros P. destruct (Exists_dec (fun y => y <> 0) (el v) (fun y => match Req_EM_T y 0 with left e => right (fun n => n e) | right n => left n end)) as [X|X].
        * apply List.Exists_exists in X as (y & Hy & Ny). eauto.
        * exfalso. assert (Z : Rsum (map2 (fun w y => w * (y * y / 2)) (concat d) (el v)) = 0); [|rewrite Z, Rmult_0_r in P; lra].
          unfold Rsum. apply fold_zero. rewrite <- List.Forall_Exists_neg in X. clear - X. generalize (concat d). induction X as [|y l Hy F IH]; intros [|w l']; cbn [map2]; constructor.
          { assert (y = 0) as -> by (destruct (Req_dec y 0); tauto). field. }
          { apply IH. }
      + intros (y & Iy & Ny). apply Rmult_lt_0_compat; [exact Hnfp|]. apply (sum_weighted_some (fun y => y * y / 2)) with (y := y); auto; [|nra].
        destruct (Bnormal_ok q x S) as (g & Eg & Rg). destruct (reads_Bnormal other q x S) as (g' & Eg' & Q & G & V). pose proof Rv as (Q' & G' & V').
        rewrite G in G'. injection G' as <-. rewrite V in V'. injection V' as <-. rewrite Eg in Eg'. injection Eg' as <-. rewrite el_of_grid, (length_rect _ _ _ Rg).
        destruct (made_facts q M) as (_ & _ & _ & _ & _ & _ & Cp). rewrite (da_copy (q_plasma q) _ _ _ Lp Cp) in D. injection D as <-.
        now rewrite (length_rect _ _ _ (rect_sample _ _ _)).
    - destruct (largest_value other q x S "f_max_Bnormal" "Bnormal" Rabs ltac:(cbn; tauto)) as (m & v & Rm & Rv & Hm). exists m, v.
      split; [exact Rm|]. split; [exact Rv|]. apply (HM m v Rabs Hm); [apply Rabs_R0|intros; now apply Rabs_pos_lt].
    - destruct (largest_value other q x S "f_max_Bnormal2" "Bnormal" (fun y => y * y) ltac:(cbn; tauto)) as (m & v & Rm & Rv & Hm). exists m, v.
      split; [exact Rm|]. split; [exact Rv|]. apply (HM m v (fun y => y * y) Hm); [cbv beta; ring|intros; nra].
  Qed.
End Positive.
