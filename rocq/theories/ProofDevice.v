(** The device a call works on, for C152. *)
From Coq Require Import String List Bool Arith ZArith Reals Lra Lia.
From Verif Require Import Base ModelArray ProofArray ModelMath SpecMath ProofMath ModelSurface SpecSurface ProofSurface
  ModelParams ModelField SpecField ModelQuantity ModelWrapper ModelPackage SpecPackage
  ModelSolver ModelQuadcoil SpecQuadcoil ProofQuadcoil ProofQuadcoil5.
Import ListNotations.
Open Scope R_scope.
Open Scope string_scope.
Open Scope list_scope.

(** The differentiable inputs, entry by entry. *)
Lemma inputs {L} (a : args L) :
  lookup "plasma_dofs" (y_dict a) = Some (vec_arr (qc_plasma_dofs a)) /\
  lookup "net_poloidal_current_amperes" (y_dict a) = Some (scal (qc_G a)) /\
  lookup "net_toroidal_current_amperes" (y_dict a) = Some (scal (qc_I a)) /\
  lookup "Bnormal_plasma" (y_dict a) = qc_Bnormal a /\
  (qc_distance a = None -> lookup "winding_dofs" (y_dict a) = Some (vec_arr (match qc_winding_dofs a with Some w => w | None => [] end))) /\
  (forall d, qc_distance a = Some d -> lookup "plasma_coil_distance" (y_dict a) = Some (scal d)).
Proof.
  unfold y_dict. cbv zeta. destruct (qc_objective_name a), (names_of (qc_constraint_name a)), (qc_Bnormal a), (qc_distance a); cbn;
    repeat (split; [try reflexivity; try discriminate|]); try (intros d [= <-]; reflexivity); try discriminate.
Qed.
Lemma surface_given nfp st mp nt p t d s : make_surface nfp st mp nt p t (PyArr d) = Ok s -> s_stellsym s = st /\ s_mpol s = mp /\ s_ntor s = nt /\ s_dofs s = el d.
Proof.
  unfold make_surface. destruct (is_ndarray (PyArr d)); [|destruct (is_ndarray p), (is_ndarray t); discriminate]. destruct (is_ndarray p); [|discriminate]. destruct (is_ndarray t); [|discriminate]. cbn [negb]. cbv zeta.
  repeat match goal with |- bind ?A _ = _ -> _ => let X := fresh in destruct A as [X|]; [cbn [bind]|discriminate] end.
  intros X. injection X as <-. repeat split.
Qed.

Lemma call_device {L} (a : args L) qd q : y_to_qp a qd (y_dict a) = Ok q ->
  s_dofs (q_plasma q) = qc_plasma_dofs a /\ s_stellsym (q_plasma q) = qc_plasma_stellsym a /\ s_mpol (q_plasma q) = qc_plasma_mpol a /\ s_ntor (q_plasma q) = qc_plasma_ntor a /\
  s_mpol (q_winding q) = qc_winding_mpol a /\ s_ntor (q_winding q) = qc_winding_ntor a /\
  match qc_distance a with
  | None => s_stellsym (q_winding q) = qc_winding_stellsym a /\ s_dofs (q_winding q) = match qc_winding_dofs a with Some w => w | None => [] end
  | Some d => s_stellsym (q_winding q) = qc_stellsym a /\
      exists pts, gamma (q_plasma q) = Ok pts /\
        qc_generator a pts d (s_nfp (q_plasma q)) (qc_plasma_stellsym a) (qc_winding_mpol a) (qc_winding_ntor a) = Ok (s_dofs (q_winding q))
  end /\
  q_G q = qc_G a /\ q_I q = qc_I a /\ q_mpol q = qc_mpol a /\ q_ntor q = qc_ntor a /\ q_stellsym q = qc_stellsym a /\
  match qc_Bnormal a with
  | None => q_Bnormal q = gzeros (length (qd_plasma_phi qd)) (length (qd_plasma_theta qd))
  | Some b => rows_of b = Ok (q_Bnormal q)
  end /\
  s_stellsym (q_eval q) = s_stellsym (q_winding q) /\ s_mpol (q_eval q) = s_mpol (q_winding q) /\ s_ntor (q_eval q) = s_ntor (q_winding q) /\ s_dofs (q_eval q) = s_dofs (q_winding q).
Proof.
  destruct (inputs a) as (L1 & L2 & L3 & L4 & L5 & L6). unfold y_to_qp, getitem. rewrite L1, L2, L3, L4. cbn [bind].
  destruct (make_surface _ _ _ _ _ _ (PyArr (vec_arr (qc_plasma_dofs a)))) as [plasma|] eqn:Ep; [|discriminate]. cbn [bind]. apply surface_given in Ep as (P1 & P2 & P3 & P4).
  match goal with |- bind ?A _ = _ -> _ => destruct A as [winding|] eqn:Ew; [|discriminate] end. cbn [bind item scal el].
  match goal with |- bind ?A _ = _ -> _ => destruct A as [Bn|] eqn:EB; [|discriminate] end. cbn [bind].
  assert (W : s_mpol winding = qc_winding_mpol a /\ s_ntor winding = qc_winding_ntor a /\
    match qc_distance a with
    | None => s_stellsym winding = qc_winding_stellsym a /\ s_dofs winding = match qc_winding_dofs a with Some w => w | None => [] end
    | Some d => s_stellsym winding = qc_stellsym a /\ exists pts, gamma plasma = Ok pts /\ qc_generator a pts d (s_nfp plasma) (qc_plasma_stellsym a) (qc_winding_mpol a) (qc_winding_ntor a) = Ok (s_dofs winding)
    end).
  { destruct (qc_distance a) as [d|].
    - rewrite (L6 d eq_refl) in Ew. destruct (gamma plasma) as [pts|]; [|discriminate]. cbn [bind item scal el] in Ew. rewrite P1 in Ew.
      destruct (qc_generator a pts d _ _ _ _) as [wd|] eqn:Eg; [|discriminate]. cbn [bind] in Ew. apply surface_given in Ew as (W1 & W2 & W3 & W4). cbn [el] in W4.
      repeat split; auto. exists pts. split; [reflexivity|]. now rewrite W4.
    - rewrite (L5 eq_refl) in Ew. cbn [bind] in Ew. apply surface_given in Ew as (W1 & W2 & W3 & W4). repeat split; auto. }
  destruct W as (W1 & W2 & W3).
  unfold make_params, make_base. destruct (s_nfp winding) as [|k] eqn:Es; [discriminate|]. destruct (Nat.eqb _ 0) eqn:Em; [|discriminate]. cbn [negb].
  destruct (copy_and_set_quadpoints winding _ _) as [ev|] eqn:Ev; [|discriminate]. cbn [bind]. intros Z. injection Z as <-.
  cbn [q_plasma q_winding q_eval q_G q_I q_Bnormal q_qphi q_qtheta q_stellsym q_mpol q_ntor q_ndofs q_ndofs_half b_plasma b_winding b_eval b_G b_I b_Bnormal b_qphi b_qtheta b_stellsym].
  unfold copy_and_set_quadpoints in Ev. apply surface_given in Ev as (V1 & V2 & V3 & V4).
  repeat (split; [first [exact W3|assumption|reflexivity]|]). split; [|repeat split; assumption].
  destruct (qc_Bnormal a); [exact EB|injection EB as <-; reflexivity].
Qed.
