(** Well-formed calls in approx mode run to their end, for C149. *)
From Coq Require Import String List Bool Arith ZArith Reals Lra Lia.
From Verif Require Import Base ModelArray ProofArray ModelMath SpecMath ProofMath ModelSurface SpecSurface ModelParams ModelField SpecField
  ModelQuantity SpecQuantity ModelWrapper SpecWrapper ProofWrapper ProofWrapper2 ModelShipped ModelPackage SpecPackage
  SpecConvex ModelSolver SpecSolver ProofSolver ModelQuadcoil SpecQuadcoil ProofQuadcoil ProofQuadcoil2
  SpecProblem SpecEnd SpecCert ProofCert PropConvex ProofEnd4 ProofEnd5 SpecApprox ProofApprox3 SpecApproxCall ProofApprox4 ProofApprox5.
Import ListNotations.
Open Scope R_scope.
Open Scope string_scope.
Open Scope list_scope.

Section Building.
  Context {L : Type}.
  Variables (other : list string) (a : args L) (q : params) (eps : R) (os : list objective) (cs : list user_constraint).
  Hypothesis Bq : builds a q.
  Hypothesis As : asks a os cs.
  Hypothesis Hs : qc_smoothing a = Some "approx".
  Hypothesis Hsp : qc_smoothing_params a = [("lse_epsilon", eps)].
  Hypothesis He : 0 < eps.
  Hypothesis O : ordered q.
  Hypothesis Sx : exists x, sound q x.
  Hypothesis Uo : forall o, In o os -> 0 <= ob_weight o /\ smooth_use q (ob_name o) (ob_unit o).
  Hypothesis Uc : forall c, In c cs -> uc_cmp c <> EQ /\ smooth_use q (uc_name c) (uc_unit c).
  Hypothesis So : forall o, In o os -> supported (package other) (ob_name o) "f" (UScalar (ob_unit o)).
  Hypothesis Sc : forall c, In c cs -> supported (package other) (uc_name c) (op_string (uc_cmp c)) (UScalar (uc_unit c)).
  Hypothesis Hphi : forall x, qc_phi_init a = Some x -> length x = q_ndofs q.
  Hypothesis Hunit : qc_phi_unit a = None -> qc_distance a = None -> qc_plasma_dofs a <> [] /\ qc_winding_dofs a <> Some [].

  Lemma smooth_parsed : exists f po pc, smoothed_problem other os cs eps f po pc.
  Proof using So Sc.
    assert (Po : exists r, parse_objectives q_ndofs (package other) (Objectives (map ob_name os) (map (fun o => UScalar (ob_unit o)) os)) (map ob_weight os) (Some "approx") [("lse_epsilon", eps)] = Ok r).
    { apply parse_objectives_ok. rewrite !map_length. split; [reflexivity|]. split; [lia|]. split; [right; right; right; reflexivity|].
      intros n u I. clear - I So. revert I. induction os as [|o l IH]; cbn [map combine In]; [intros []|]. intros [E|I]; [injection E as <- <-; apply So; now left|].
      apply IH; [intros; apply So; now right|exact I]. }
    assert (Pc : exists r, parse_constraints q_ndofs (package other) (map uc_name cs) (map (fun c => op_string (uc_cmp c)) cs) (map (fun c => UScalar (uc_unit c)) cs) (map uc_val cs) (Some "approx") [("lse_epsilon", eps)] = Ok r).
    { apply parse_constraints_ok. rewrite !map_length. do 3 (split; [reflexivity|]). split; [right; right; right; reflexivity|].
      intros n t u I. clear - I Sc. revert I. induction cs as [|o l IH]; cbn [map combine In]; [intros []|]. intros [E|I].
      - injection E as <- <- <-. split; [apply Sc; now left|]. destruct (uc_cmp o); cbn; tauto.
      - apply IH; [intros; apply Sc; now right|exact I]. }
    destruct Po as ([f po] & Eo). destruct Pc as (pc & Ec). exists f, po, pc. split; assumption.
  Qed.

  Lemma smooth_prepare : exists p, prepare (package other) a = Ok p /\ fn_qp (pr_fn p) = q.
  Proof using Bq As Hs Hsp He O Sx Uo Uc So Sc Hphi Hunit.
    destruct smooth_parsed as (f & po & pc & Sm). destruct Bq as (Ow & qd & Eqd & Eq).
    destruct (objective_lists other eps os cs f po pc Sm) as (G1 & H1 & S1).
    destruct (constraint_lists other q eps os cs f po pc Uc Sm) as (lc & Fc & G2 & H2 & S2).
    set (phi := match qc_phi_init a with Some x => x | None => repeat 0 (q_ndofs q) end).
    assert (Lphi : length phi = q_ndofs q) by (unfold phi; destruct (qc_phi_init a) as [v|] eqn:Ev; [now apply Hphi|apply repeat_length]).
    destruct (unit_ok a q Bq Sx Hunit phi Lphi) as (u & Eu).
    unfold prepare. rewrite Eqd. cbn [bind]. rewrite (proj2 (one_surface_iff a) Ow). cbn [bind].
    rewrite (proj2 (input_checking_iff _ _ _ _ _ _ _) (asks_weights a os cs As)). cbn [bind].
    rewrite (generated (package other) a os cs Ow As), Eq. cbn [bind]. rewrite Hs, Hsp. destruct Sm as (Eo & Ec). rewrite Eo. cbn [bind]. rewrite Ec. cbn [bind].
    rewrite G1, H1, S1, H2, S2. cbn [app dict_union map filter fn_qp fn_aux]. fold phi. rewrite Eu. cbn [bind x_dict add_aux].
    unfold g_scaled, h_scaled, f_scaled. cbn [pr_structure pr_unit pr_fn fn_qp fn_g fn_h fn_f].
    set (z := ravel [("phi_scaled", vec_arr (map (fun p => p / u) phi))]).
    assert (Lz : length z = q_ndofs q) by (unfold z; cbn; rewrite app_nil_r, map_length; exact Lphi).
    assert (Est : structure [("phi_scaled", vec_arr (map (fun p => p / u) phi))] = [("phi_scaled", [q_ndofs q])]) by (cbn; rewrite map_length, Lphi; reflexivity).
    rewrite Est, (alone _ u z Lz). cbn [bind]. set (x := map (fun v => v * u) z).
    assert (Lx : length x = q_ndofs q) by (unfold x; now rewrite map_length).
    assert (S : sound q x) by (destruct Sx as (x1 & S0); exact (sound_all q x1 S0 x Lx)).
    destruct (bounded_values other q eps os cs f po pc He O Uo Uc (conj Eo Ec) x S) as (vs & Fv & _).
    destruct (merged_value q eps x (qc_merge a) _ _ Fv) as (o & Eg & _).
    destruct (objective_value other q eps os cs f po pc He O Uo Uc (conj Eo Ec) x S) as (r & y & _ & F & _).
    unfold vec_arr. rewrite Eg. cbn [bind]. change (merge_callables [] false None [] q [("phi", Arr [length x] x)]) with (Ok (Arr [0%nat] [])). cbn [bind].
    rewrite F. cbn [bind isscalar]. eexists. split; reflexivity.
  Qed.
End Building.
