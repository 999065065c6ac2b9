(** Default evaluation points, for C122. *)
From Coq Require Import String List Bool Arith ZArith Reals Lra Lia.
From Verif Require Import Base ModelArray ProofArray ModelMath SpecMath ProofMath ModelSurface SpecSurface ProofSurface ProofSurface2 ProofSurface3
  ModelParams ModelField SpecField ProofField ProofField2 ProofField3 ProofField4
  ModelQuantity ModelWrapper ModelPackage SpecPackage ProofPackage ProofPackage2 ProofPackage3 ProofPackage4 ProofConvex.
Import ListNotations.
Open Scope R_scope.
Open Scope string_scope.
Open Scope list_scope.

Lemma equispaced_first x0 h n k : (1 <= k)%nat -> firstn (k * n / k) (equispaced x0 h (k * n)) = equispaced x0 h n.
Proof.
  intros Hk. rewrite Nat.mul_comm, Nat.div_mul by lia. unfold equispaced. rewrite firstn_map. f_equal.
  replace (n * k)%nat with (n + n * (k - 1))%nat by nia. rewrite seq_app, firstn_app, seq_length, Nat.sub_diag.
  rewrite firstn_O, app_nil_r. rewrite <- (seq_length n 0) at 1. apply firstn_all.
Qed.
Lemma sum_grid (W F : R -> R -> R) (h : R -> R) ps ts :
  Rsum (map2 (fun w y => w * h y) (concat (sample W ps ts)) (concat (sample F ps ts))) = Rsum (map (fun p => Rsum (map (fun t => W p t * h (F p t)) ts)) ps).
Proof.
  induction ps as [|p ps IH]; [reflexivity|]. unfold sample in *. cbn [map concat]. rewrite map2_app by (now rewrite !map_length).
  unfold Rsum in *. rewrite fold_right_app, IH. clear IH. cbn [fold_right]. generalize (fold_right Rplus 0 (map (fun p => fold_right Rplus 0 (map (fun t => W p t * h (F p t)) ts)) ps)) as r.
  intros r. induction ts as [|t ts IH]; [cbn; ring|]. cbn [map map2 fold_right]. rewrite IH. ring.
Qed.

Lemma pairs_in ps ts p t : In (p, t) (pairs ps ts) <-> In p ps /\ In t ts.
Proof.
  unfold pairs. rewrite in_flat_map. split.
  - intros (y & Iy & Ip). apply in_map_iff in Ip as (z & E & Iz). injection E as -> ->. auto.
  - intros (Ip & It). exists p. split; [exact Ip|]. now apply in_map.
Qed.

Lemma rotz_dot a v : dot3 (rotz a v) (rotz a v) = dot3 v v.
Proof. unfold dot3, rotz. cbn [vx vy vz]. pose proof (sin2_cos2 a) as H. unfold Rsqr in H. nra. Qed.

Section Default.
  Variables (other : list string) (plasma winding : surface) (G I : R) (Bn : option (grid R)) (mpol ntor : nat) (st : option bool).
  Variables (x0 : R) (n : nat) (q qf : params) (x : list R).
  Hypothesis Hn : (2 <= n)%nat.
  Hypothesis Hps : s_qphi winding = equispaced x0 (/ (INR (s_nfp winding) * INR n)) (s_nfp winding * n).
  Hypothesis Hq : make_params plasma winding G I Bn mpol ntor None None st = Ok q.
  Hypothesis Hqf : make_params plasma winding G I Bn mpol ntor (Some (arr1 (s_qphi winding))) (Some (arr1 (s_qtheta winding))) st = Ok qf.
  Hypothesis S : sound q x.
  Notation h := (/ (INR (s_nfp winding) * INR n)).

  Lemma default_points : q_plasma q = plasma /\ q_winding q = winding /\ (s_nfp winding <> 0)%nat /\ q_qphi q = equispaced x0 h n /\ q_qtheta q = s_qtheta winding /\
    q_plasma qf = plasma /\ q_winding qf = winding /\ q_qphi qf = s_qphi winding /\ q_qtheta qf = s_qtheta winding /\
    q_G qf = q_G q /\ q_I qf = q_I q /\ q_stellsym qf = q_stellsym q /\ q_mpol qf = q_mpol q /\ q_ntor qf = q_ntor q /\ q_ndofs qf = q_ndofs q /\ q_Bnormal qf = q_Bnormal q.
  Proof using Hps Hq Hqf.
    clear Hn S. revert Hq Hqf. unfold make_params, make_base. destruct (s_nfp winding) as [|k] eqn:En; [discriminate|].
    destruct (Nat.eqb _ 0) eqn:Em; [|discriminate]. cbn [negb].
    destruct (copy_and_set_quadpoints winding (arr1 (firstn _ _)) _) as [ev|]; [|discriminate].
    destruct (copy_and_set_quadpoints winding (arr1 (s_qphi winding)) _) as [ef|]; [|discriminate].
    intros E1 E2. injection E1 as <-. injection E2 as <-. cbn [q_plasma q_winding q_eval q_G q_I q_Bnormal q_qphi q_qtheta q_stellsym q_mpol q_ntor q_ndofs b_plasma b_winding b_eval b_G b_I b_Bnormal b_qphi b_qtheta b_stellsym arr1 elements].
    repeat split; try discriminate. rewrite Hps. replace (length (equispaced _ _ _)) with (Datatypes.S k * n)%nat by (unfold equispaced; now rewrite map_length, seq_length).
    exact (equispaced_first x0 (/ (INR (Datatypes.S k) * INR n)) n (Datatypes.S k) ltac:(lia)).
  Qed.
  Lemma full_sound : sound qf x.
  Proof using Hps Hq Hqf S.
    destruct default_points as (E1 & E2 & _ & _ & _ & E3 & E4 & _ & _ & _ & _ & _ & _ & _ & E5 & E6). destruct S as ((B1 & B2 & _) & L1 & L2 & Ps & Lx).
    rewrite E1, E2 in *. unfold sound, made. rewrite E3, E4, E5. split; [split; [exact B1|split; [exact B2|repeat eexists; exact Hqf]]|].
    split; [exact L1|]. split; [exact L2|]. split; [|exact Lx]. unfold plasma_shaped in *. rewrite E3, E6. rewrite E1 in Ps. exact Ps.
  Qed.

  Let M : made q. Proof. apply S. Qed.
  Let Mf : made qf. Proof. apply full_sound. Qed.

  (** The value at each point of the full torus is taken in the first period. *)
  Lemma in_period k : (k < s_nfp winding * n)%nat -> exists i j, (i < n)%nat /\ x0 + INR k * h = (x0 + INR i * h) + INR j * / INR (s_nfp winding).
  Proof using Hn.
    intros Hk. exists (k mod n)%nat, (k / n)%nat. split; [apply Nat.mod_upper_bound; lia|].
    assert (INR (s_nfp winding) <> 0) by (apply not_0_INR; intros E; rewrite E in Hk; lia). assert (INR n <> 0) by (apply not_0_INR; lia).
    rewrite (Nat.div_mod k n) at 1 by lia. rewrite plus_INR, mult_INR. field. auto.
  Qed.
  Section Field.
    Variable F : R -> R -> R.
    Hypothesis HF : forall p t, F (p + / INR (s_nfp winding)) t = F p t.
    Lemma field_in_period k t : (k < s_nfp winding * n)%nat -> exists i, (i < n)%nat /\ F (x0 + INR k * h) t = F (x0 + INR i * h) t.
    Proof using Hn HF.
      intros Hk. destruct (in_period k Hk) as (i & j & Hi & ->). exists i. split; [exact Hi|]. generalize (x0 + INR i * h) as p. clear - HF.
      induction j as [|j IH]; intros p; [cbn [INR]; f_equal; ring|]. rewrite S_INR. replace (p + (INR j + 1) * / INR (s_nfp winding)) with (p + INR j * / INR (s_nfp winding) + / INR (s_nfp winding)) by ring.
      rewrite HF. apply IH.
    Qed.
    Lemma full_max (g : R -> R) m : is_max m (map g (concat (sample F (equispaced x0 h n) (s_qtheta winding)))) ->
      is_max m (map g (concat (sample F (equispaced x0 h (s_nfp winding * n)) (s_qtheta winding)))).
    Proof using Hn HF Hq Hps.
      assert (Nz : (1 <= s_nfp winding)%nat).
      { revert Hq. unfold make_params, make_base. destruct (s_nfp winding); [discriminate|]. lia. }
      assert (Inc : forall y, In y (concat (sample F (equispaced x0 h n) (s_qtheta winding))) <-> In y (concat (sample F (equispaced x0 h (s_nfp winding * n)) (s_qtheta winding)))).
      { intros y. rewrite !concat_sample, !in_map_iff. unfold equispaced. split; intros ([p t] & <- & Ip); apply pairs_in in Ip as (Ip & It); apply in_map_iff in Ip as (k & <- & Ik); apply in_seq in Ik; cbn [fst snd].
        - exists (x0 + INR k * h, t). split; [reflexivity|]. apply pairs_in. split; [apply in_map_iff; exists k; split; [reflexivity|apply in_seq; nia]|exact It].
        - destruct (field_in_period k t) as (i & Hi & E); [lia|]. exists (x0 + INR i * h, t). split; [cbn [fst snd]; congruence|]. apply pairs_in. split; [apply in_map_iff; exists i; split; [reflexivity|apply in_seq; lia]|exact It]. }
      intros (Im & Hm). split.
      - apply in_map_iff in Im as (y & <- & Iy). apply in_map_iff. exists y. split; [reflexivity|]. now apply Inc.
      - intros y Iy. apply in_map_iff in Iy as (z & <- & Iz). apply Hm, in_map, Inc, Iz.
    Qed.
    Lemma full_sum (g : R -> R) d dw : da (q_eval q) = Ok d -> da (q_winding q) = Ok dw ->
      INR (s_nfp winding) * Rsum (map2 (fun w y => w * g y) (concat d) (concat (sample F (equispaced x0 h n) (s_qtheta winding))))
      = Rsum (map2 (fun w y => w * g y) (concat dw) (concat (sample F (equispaced x0 h (s_nfp winding * n)) (s_qtheta winding)))).
    Proof using Hps Hn Hq Hqf S HF.
      destruct default_points as (E1 & E2 & Nz & Eq & Et & _). destruct S as (Mq & Lw & _).
      destruct (made_facts q Mq) as (_ & _ & _ & _ & Ce & Cw & _). rewrite E2, Eq, Et in Ce. rewrite E2 in Cw, Lw. rewrite Hps in Cw.
      rewrite E2, (da_copy _ _ _ _ Lw Ce), (da_copy _ _ _ _ Lw Cw). intros [= <-] [= <-].
      assert (Hk : (2 <= s_nfp winding * n)%nat) by nia. rewrite (equi_dphi _ _ _ _ _ _ Hn Ce), (equi_dphi _ _ _ _ _ _ Hk Cw).
      assert (Dt : s_dtheta (q_eval q) = s_dtheta winding).
      { apply copy_fields in Ce as (_ & _ & _ & _ & _ & _ & _ & _ & _ & _ & X1). apply copy_fields in Cw as (_ & _ & _ & _ & _ & _ & _ & _ & _ & _ & X2). congruence. }
      rewrite Dt, !sum_grid. symmetry.
      assert (INR (s_nfp winding) <> 0) by now apply not_0_INR. assert (INR n <> 0) by (apply not_0_INR; lia).
      apply (period_sum (fun p => Rsum (map (fun t => h * s_dtheta winding * norm3 (nrm winding p t) * g (F p t)) (s_qtheta winding))) x0 h n (/ INR (s_nfp winding))).
      - field. auto.
      - intros p. apply Rsum_ext. intros t _. now rewrite nrm_shift, HF.
    Qed.
  End Field.

  Lemma fields_of fld : In fld ["K2"; "Phi"] -> exists F, (forall p t, F (p + / INR (s_nfp winding)) t = F p t) /\
    reads other fld q x (of_grid (sample F (equispaced x0 h n) (s_qtheta winding))) /\ reads other fld qf x (of_grid (sample F (equispaced x0 h (s_nfp winding * n)) (s_qtheta winding))).
  Proof using Hps Hq Hqf S.
    destruct default_points as (E1 & E2 & Nz & Eq & Et & F1 & F2 & F3 & F4 & F5 & F6 & F7 & F8 & F9 & _). pose proof full_sound as Sf.
    assert (Nq : q_nfp q = s_nfp winding) by (unfold q_nfp; now rewrite E2).
    intros [<-|[<-|[]]].
    - exists (fun p t => dot3 (kval q x p t) (kval q x p t)). split; [|split].
      + intros p t. rewrite <- Nq, kval_shift by (now rewrite Nq). apply rotz_dot.
      + rewrite <- Eq, <- Et. exact (reads_K2 other q x S).
      + rewrite <- F4. rewrite <- Hps, <- F3. pose proof (reads_K2 other qf x Sf) as R2.
        replace (sample (fun p t => dot3 (kval q x p t) (kval q x p t)) (q_qphi qf) (q_qtheta qf)) with (sample (fun p t => dot3 (kval qf x p t) (kval qf x p t)) (q_qphi qf) (q_qtheta qf)); [exact R2|].
        apply sample_ext. intros p t. now rewrite (kval_same q qf) by congruence.
    - exists (phi_of q x). split; [|split].
      + intros p t. rewrite <- Nq. apply phi_shift_phi. now rewrite Nq.
      + rewrite <- Eq, <- Et. exact (reads_Phi other q x S).
      + rewrite <- F4. rewrite <- Hps, <- F3. pose proof (reads_Phi other qf x Sf) as R2.
        replace (sample (phi_of q x) (q_qphi qf) (q_qtheta qf)) with (sample (phi_of qf x) (q_qphi qf) (q_qtheta qf)); [exact R2|].
        apply sample_ext. intros p t. unfold phi_of, tr, targ, qcols, fphi, q_nfp. now rewrite F2, E2, F7, F8, F9.
  Qed.

  Lemma whole_integral name fld g : In (name, fld, g)
    [("f_K", "K2", fun y => y / 2); ("f_Phi", "Phi", fun y => y * y / 2); ("f_l1_Phi", "Phi", Rabs); ("f_huber_K", "K2", sqrt)] ->
    exists r v d, reads other name q x (scal r) /\ reads other fld qf x v /\ da winding = Ok d /\ r = Rsum (map2 (fun w y => w * g y) (concat d) (el v)).
  Proof using Hps Hn Hq Hqf S.
    intros I0. destruct default_points as (_ & E2 & _).
    assert (If : In fld ["K2"; "Phi"]) by (destruct I0 as [X|[X|[X|[X|[]]]]]; injection X as _ <- _; cbn; tauto).
    destruct (fields_of fld If) as (F & HF & R1 & R2).
    destruct (integral_value other q x S name fld (q_eval q) g) as (r & v & d & Rr & Rv & Dd & ->).
    { destruct I0 as [X|[X|[X|[X|[]]]]]; injection X as <- <- <-; cbn; tauto. }
    destruct S as (_ & Lw & _). destruct (made_facts q M) as (_ & _ & _ & _ & _ & Cw & _).
    eexists. eexists. eexists. split; [exact Rr|]. split; [exact R2|]. split; [rewrite <- E2; exact (da_copy _ _ _ _ Lw Cw)|].
    rewrite (reads_fun _ _ _ _ _ _ Rv R1). cbn [of_grid el]. unfold q_nfp. rewrite E2. rewrite <- E2 at 4.
    rewrite E2. apply full_sum; [exact HF|exact Dd|]. rewrite <- E2. exact (da_copy _ _ _ _ Lw Cw).
  Qed.
  Lemma whole_max name fld g : In (name, fld, g)
    [("f_max_K2", "K2", fun y : R => y); ("f_max_Phi", "Phi", Rabs); ("f_max_Phi2", "Phi", fun y => y * y); ("f_max_Phi4", "Phi", fun y => y ^ 4)] ->
    exists m v, reads other name q x (scal m) /\ reads other fld qf x v /\ is_max m (map g (el v)).
  Proof using Hps Hn Hq Hqf S.
    intros I0. assert (If : In fld ["K2"; "Phi"]) by (destruct I0 as [X|[X|[X|[X|[]]]]]; injection X as _ <- _; cbn; tauto).
    destruct (fields_of fld If) as (F & HF & R1 & R2).
    destruct (largest_value other q x S name fld g) as (m & v & Rm & Rv & Hm).
    { destruct I0 as [X|[X|[X|[X|[]]]]]; injection X as <- <- <-; cbn; tauto. }
    exists m. eexists. split; [exact Rm|]. split; [exact R2|]. rewrite (reads_fun _ _ _ _ _ _ Rv R1) in Hm. exact (full_max F HF g m Hm).
  Qed.
End Default.
