(** Property C152: the device a call works on is the one its arguments describe. *)
From Coq Require Import String List Bool Arith ZArith Reals Lra Lia.
From Verif Require Import Base ModelArray ProofArray ModelMath SpecMath ModelSurface SpecSurface ModelParams ModelField SpecField
  ModelQuantity ModelWrapper ModelPackage SpecPackage ModelSolver ModelQuadcoil SpecQuadcoil ProofQuadcoil ProofQuadcoil5 ProofGrids ProofDevice
  WitnessField WitnessSolver WitnessQuadcoil WitnessEnd PropPackage PropEnd WitnessGrids.
Import ListNotations.
Open Scope R_scope.
Open Scope string_scope.
Open Scope list_scope.

(** ** C152 *)
(** The parameter object that comes back with the results holds the plasma and
    winding surfaces, net currents, required field, resolution and symmetry of
    the arguments.  A winding surface that is not given comes from the
    generator, called with the points of the plasma surface and the distance
    asked for.  The evaluation surface is the winding surface. *)
Theorem C152_device_of_the_call :
  forall ns (E : library) (a : args (x_solver E)) o, quadcoil ns E a = Some (Ok o) ->
  let q := o_qp E o in
  (s_dofs (q_plasma q) = qc_plasma_dofs a /\ s_stellsym (q_plasma q) = qc_plasma_stellsym a /\ s_mpol (q_plasma q) = qc_plasma_mpol a /\ s_ntor (q_plasma q) = qc_plasma_ntor a) /\
  (s_mpol (q_winding q) = qc_winding_mpol a /\ s_ntor (q_winding q) = qc_winding_ntor a) /\
  (forall w, qc_winding_dofs a = Some w -> s_dofs (q_winding q) = w /\ s_stellsym (q_winding q) = qc_winding_stellsym a) /\
  (forall d, qc_distance a = Some d -> s_stellsym (q_winding q) = qc_stellsym a /\ exists pts, gamma (q_plasma q) = Ok pts /\
     qc_generator a pts d (qc_nfp a) (qc_plasma_stellsym a) (qc_winding_mpol a) (qc_winding_ntor a) = Ok (s_dofs (q_winding q))) /\
  (s_dofs (q_eval q) = s_dofs (q_winding q) /\ s_stellsym (q_eval q) = s_stellsym (q_winding q) /\ s_mpol (q_eval q) = s_mpol (q_winding q) /\ s_ntor (q_eval q) = s_ntor (q_winding q)) /\
  (q_G q = qc_G a /\ q_I q = qc_I a /\ q_mpol q = qc_mpol a /\ q_ntor q = qc_ntor a /\ q_stellsym q = qc_stellsym a) /\
  (forall b, qc_Bnormal a = Some b -> exists n m, sh b = [n; m] /\ length (q_Bnormal q) = n /\
     (wf b -> List.Forall (fun row => length row = m) (q_Bnormal q) /\ concat (q_Bnormal q) = el b)) /\
  (qc_Bnormal a = None -> length (q_Bnormal q) = length (s_qphi (q_plasma q)) /\
     List.Forall (fun row => length row = length (s_qtheta (q_plasma q)) /\ List.Forall (fun y => y = 0) row) (q_Bnormal q)).
Proof.
  intros ns E a o Hq q. destruct (quadcoil_ok _ _ _ _ Hq) as (p & r & dofs & Hp & _ & _ & _ & E1 & _). subst q. rewrite E1.
  destruct (prepare_fields _ _ _ Hp) as (Ow & _ & _ & _ & _ & Ey & _). set (q := fn_qp (pr_fn p)) in *.
  destruct (call_params _ _ _ _ Ey) as (A1 & _ & A3 & A4 & _).
  destruct (call_device _ _ _ Ey) as (B1 & B2 & B3 & B4 & B5 & B6 & B7 & B8 & B9 & B10 & B11 & B12 & B13 & B14 & B15 & B16 & B17).
  split; [auto|]. split; [auto|]. split.
  { intros w Hw. destruct Ow as [(Hd & _)|(Hw' & _)]; [|congruence]. rewrite Hd, Hw in B7. destruct B7; auto. }
  split. { intros d Hd. rewrite Hd in B7. destruct B7 as (? & pts & ? & ?). split; [assumption|]. exists pts. rewrite <- A1. auto. }
  split; [auto|]. split; [auto|]. split.
  - intros b Hb. rewrite Hb in B13. unfold rows_of in B13. destruct (sh b) as [|n [|m [|]]] eqn:Es; try discriminate. injection B13 as <-. exists n, m. split; [reflexivity|].
    assert (X : forall n m l, length (chunks n m l) = n /\ (length l = (n * m)%nat -> List.Forall (fun row => length row = m) (chunks n m l) /\ concat (chunks n m l) = l)).
    { clear. induction n as [|n IH]; intros m l; cbn [chunks length concat].
      - split; [reflexivity|]. intros Hl. destruct l; [split; constructor|discriminate].
      - destruct (IH m (skipn m l)) as (L1 & L2). split; [now rewrite L1|]. intros Hl. destruct L2 as (F & C); [rewrite skipn_length; lia|]. split.
        + constructor; [rewrite firstn_length; lia|exact F].
        + rewrite C. apply firstn_skipn. }
    destruct (X n m (el b)) as (L1 & L2). split; [exact L1|]. intros W. apply L2. unfold wf in W. rewrite Es in W. rewrite W. unfold size. cbn. lia.
  - intros Hb. rewrite Hb in B13. rewrite B13, A3, A4. unfold gzeros. rewrite repeat_length. split; [reflexivity|]. apply List.Forall_forall. intros row Hr. apply repeat_spec in Hr as ->.
    rewrite repeat_length. split; [reflexivity|]. apply List.Forall_forall. intros y Hy. now apply repeat_spec in Hy.
Qed.
Print Assumptions C152_device_of_the_call.

(** Two calls with the same device and the same grids, whatever they ask for
    and however they are solved, come back with the same parameter object. *)
Theorem C152_same_device :
  forall ns ns' (E E' : library) (a : args (x_solver E)) (b : args (x_solver E')) o o',
  quadcoil ns E a = Some (Ok o) -> quadcoil ns' E' b = Some (Ok o') ->
  qc_nfp a = qc_nfp b -> qc_stellsym a = qc_stellsym b -> qc_mpol a = qc_mpol b -> qc_ntor a = qc_ntor b -> qc_G a = qc_G b -> qc_I a = qc_I b ->
  qc_plasma_dofs a = qc_plasma_dofs b -> qc_plasma_stellsym a = qc_plasma_stellsym b -> qc_plasma_mpol a = qc_plasma_mpol b -> qc_plasma_ntor a = qc_plasma_ntor b ->
  qc_winding_dofs a = qc_winding_dofs b -> qc_winding_stellsym a = qc_winding_stellsym b -> qc_winding_mpol a = qc_winding_mpol b -> qc_winding_ntor a = qc_winding_ntor b ->
  qc_distance a = qc_distance b -> qc_generator a = qc_generator b -> qc_Bnormal a = qc_Bnormal b ->
  qc_plasma_qphi a = qc_plasma_qphi b -> qc_plasma_qtheta a = qc_plasma_qtheta b -> qc_winding_qphi a = qc_winding_qphi b -> qc_winding_qtheta a = qc_winding_qtheta b ->
  qc_qphi a = qc_qphi b -> qc_qtheta a = qc_qtheta b ->
  o_qp E o = o_qp E' o'.
Proof.
  intros ns ns' E E' a b o o' Ha Hb D1 D2 D3 D4 D5 D6 D7 D8 D9 D10 D11 D12 D13 D14 D15 D16 D17 D18 D19 D20 D21 D22 D23.
  destruct (quadcoil_ok _ _ _ _ Ha) as (p & ? & ? & Hp & _ & _ & _ & -> & _). destruct (quadcoil_ok _ _ _ _ Hb) as (p' & ? & ? & Hp' & _ & _ & _ & -> & _).
  pose proof (prepare_quadpoints _ _ _ Hp) as Q. pose proof (prepare_quadpoints _ _ _ Hp') as Q'.
  destruct (prepare_fields _ _ _ Hp) as (_ & _ & _ & _ & _ & Y & _). destruct (prepare_fields _ _ _ Hp') as (_ & _ & _ & _ & _ & Y' & _).
  assert (Eq : pr_qd p = pr_qd p').
  { unfold default_quadpoints in Q, Q'. rewrite D1, D18, D19, D20, D21, D22, D23 in Q. rewrite Q in Q'. injection Q' as ->. reflexivity. }
  rewrite <- Eq in Y'. clear Eq Q Q'. destruct (inputs a) as (L1 & L2 & L3 & L4 & L5 & L6). destruct (inputs b) as (M1 & M2 & M3 & M4 & M5 & M6).
  assert (Z : Ok (fn_qp (pr_fn p)) = Ok (fn_qp (pr_fn p'))).
  { rewrite <- Y, <- Y'. unfold y_to_qp, getitem. rewrite L1, L2, L3, L4, M1, M2, M3, M4. rewrite D1, D2, D3, D4, D5, D6, D7, D8, D9, D10, D12, D13, D14, D16, D17.
    rewrite D11, D15 in L5. rewrite D15 in L6. rewrite D15. destruct (qc_distance b) as [d|].
    - rewrite (L6 d eq_refl), (M6 d eq_refl). reflexivity.
    - rewrite (L5 eq_refl), (M5 eq_refl). reflexivity. }
  now injection Z.
Qed.
Print Assumptions C152_same_device.

(** Non-trivial cases: the constrained and the unconstrained call on the device
    of the package examples, with a required field; a call without one. *)
Example C152_example :
  (exists o o', quadcoil (package []) E120 call120 = Some (Ok o) /\ quadcoil (package []) E120 free120 = Some (Ok o') /\
    qc_Bnormal call120 = Some (Arr [2; 2]%nat [0; 1; 2; 3]) /\ qc_winding_dofs call120 = Some [1 * 3; 1 * 1; 1 * 1] /\
    qc_constraint_name call120 <> qc_constraint_name free120 /\ o_qp E120 o = o_qp E120 o') /\
  (exists o, quadcoil (package []) E120 call150 = Some (Ok o) /\ qc_Bnormal call150 = None).
Proof.
  split.
  - destruct C121_example as ((o & Hq & Eq & _) & (o' & Hq' & Eq' & _)). exists o, o'. split; [exact Hq|]. split; [exact Hq'|]. split; [reflexivity|]. split; [reflexivity|]. split; [discriminate|congruence].
  - destruct call150_returns as (o & Hq & _). exists o. split; [exact Hq|reflexivity].
Qed.
