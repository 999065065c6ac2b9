(** Property C150: what a call that gives no grids works on, and that its
    figures are those of the whole machine. *)
From Coq Require Import String List Bool Arith ZArith Reals Lra Lia.
From Verif Require Import Base ModelArray ProofArray ModelMath SpecMath ModelSurface SpecSurface ProofSurface ModelParams ModelField SpecField ProofField ProofField2 ProofField3
  ModelQuantity ModelWrapper SpecWrapper ModelPackage SpecPackage SpecConvex SpecQuad ProofPeriods ModelSolver SpecSolver ProofSolver
  ModelQuadcoil SpecQuadcoil ProofQuadcoil SpecProblem SpecEnd SpecCert ProofEnd ProofGrids PropEnd
  WitnessField WitnessSolver WitnessQuadcoil WitnessCert WitnessEnd WitnessGrids.
Import ListNotations.
Open Scope R_scope.
Open Scope string_scope.
Open Scope list_scope.

(** ** C150 *)
(** Every grid that is given is used as given.  A plasma grid left out has 32
    toroidal angles in one field period and 34 poloidal angles in a turn; a
    winding grid left out has 32 toroidal angles in each field period of the
    whole torus and 34 poloidal ones; evaluation points left out are the first
    of [nfp] equal parts of the winding grid. *)
Theorem C150_default_grids :
  forall ns (E : library) (a : args (x_solver E)) o, quadcoil ns E a = Some (Ok o) ->
  let q := o_qp E o in let nfp := qc_nfp a in
  (nfp <> 0)%nat /\ s_nfp (q_plasma q) = nfp /\ s_nfp (q_winding q) = nfp /\
  s_qphi (q_plasma q) = match qc_plasma_qphi a with Some l => l | None => one_period nfp 0 32 end /\
  s_qtheta (q_plasma q) = match qc_plasma_qtheta a with Some l => l | None => one_turn 0 34 end /\
  s_qphi (q_winding q) = match qc_winding_qphi a with Some l => l | None => one_turn 0 (nfp * 32) end /\
  s_qtheta (q_winding q) = match qc_winding_qtheta a with Some l => l | None => one_turn 0 34 end /\
  match qc_qphi a with
  | Some l => q_qphi q = l
  | None => exists rest, s_qphi (q_winding q) = q_qphi q ++ rest /\ length (s_qphi (q_winding q)) = (nfp * length (q_qphi q))%nat
  end /\
  q_qtheta q = match qc_qtheta a with Some l => l | None => s_qtheta (q_winding q) end.
Proof.
  intros ns E a o Hq q nfp. destruct (call_grids ns E a o Hq) as (Nz & A1 & A2 & A3 & A4 & A5 & A6 & A7 & A8 & Hm & _). fold q in A1, A2, A3, A4, A5, A6, A7, A8, Hm. fold nfp in Nz, A1, A2, A3, A5, A7, Hm.
  assert (Ni : INR nfp <> 0) by now apply not_0_INR.
  assert (T : 1 / INR 34 = / INR 34) by (unfold Rdiv; ring). rewrite T in A4, A6.
  split; [exact Nz|]. split; [exact A1|]. split; [exact A2|]. split.
  { rewrite A3. destruct (qc_plasma_qphi a); [reflexivity|]. unfold one_period. f_equal. field. split; [apply not_0_INR; lia|exact Ni]. }
  split; [exact A4|]. split.
  { rewrite A5. destruct (qc_winding_qphi a); [reflexivity|]. unfold one_turn. rewrite (Nat.mul_comm 32 nfp). f_equal. unfold Rdiv. ring. }
  split; [exact A6|]. split; [|exact A8].
  destruct (qc_qphi a); [exact A7|]. set (l := s_qphi (q_winding q)) in *. rewrite A7. exists (skipn (length l / nfp) l). split; [symmetry; apply firstn_skipn|].
  apply Nat.div_exact in Hm; [|exact Nz]. rewrite firstn_length_le by (apply Nat.div_le_upper_bound; [exact Nz|]; clear - Nz; nia). exact Hm.
Qed.
Print Assumptions C150_default_grids.

(** The evaluation points are left out and the winding grid is left out or
    given with [n] equispaced angles per field period over the whole torus:
    the integrals reported for the design are sums over the whole winding grid
    and the maxima are maxima over it.  If besides the plasma grid is left out
    or given with [k] equispaced angles in one field period, and the required
    field repeats in every field period, f_B is a sum over the whole plasma
    surface. *)
Theorem C150_whole_machine :
  forall other (E : library) (a : args (x_solver E)) o x0 n, quadcoil (package other) E a = Some (Ok o) ->
  qc_qphi a = None -> qc_qtheta a = None -> (2 <= n)%nat ->
  (qc_winding_qphi a = None /\ x0 = 0 /\ n = 32%nat \/ qc_winding_qphi a = Some (one_turn x0 (qc_nfp a * n))) ->
  let q := o_qp E o in forall x, sound q x ->
  (exists qf, on_points q (s_qphi (q_winding q)) (s_qtheta (q_winding q)) = Ok qf /\
   (forall name fld h, In (name, fld, h)
     [("f_K", "K2", fun y => y / 2); ("f_Phi", "Phi", fun y => y * y / 2); ("f_l1_Phi", "Phi", Rabs); ("f_huber_K", "K2", sqrt)] ->
     exists r v d, reads other name q x (scal r) /\ reads other fld qf x v /\ da (q_winding q) = Ok d /\
       r = Rsum (map2 (fun w y => w * h y) (concat d) (el v))) /\
   (forall name fld h, In (name, fld, h)
     [("f_max_K2", "K2", fun y : R => y); ("f_max_Phi", "Phi", Rabs); ("f_max_Phi2", "Phi", fun y => y * y); ("f_max_Phi4", "Phi", fun y => y ^ 4)] ->
     exists m v, reads other name q x (scal m) /\ reads other fld qf x v /\ is_max m (map h (el v)))) /\
  (forall Bp p0 k, (2 <= k)%nat ->
   (qc_plasma_qphi a = None /\ p0 = 0 /\ k = 32%nat \/ qc_plasma_qphi a = Some (one_period (qc_nfp a) p0 k)) ->
   (forall p t, Bp (p + / INR (qc_nfp a)) t = Bp p t) -> q_Bnormal q = sample Bp (s_qphi (q_plasma q)) (s_qtheta (q_plasma q)) ->
   exists qb r v d, on_plasma_field q Bp (one_turn p0 (qc_nfp a * k)) (s_qtheta (q_plasma q)) = Ok qb /\
     reads other "f_B" q x (scal r) /\ reads other "Bnormal" qb x v /\ da (q_plasma qb) = Ok d /\
     r = Rsum (map2 (fun w y => w * (y * y / 2)) (concat d) (el v))).
Proof.
  intros other E a o x0 n Hq Ep Et Hn Hw q x Sd.
  destruct (C150_default_grids _ E a o Hq) as (Nz & A1 & A2 & B3 & _ & B5 & _). fold q in A1, A2, B3, B5.
  destruct (call_grids _ E a o Hq) as (_ & _ & _ & _ & _ & _ & _ & A7 & A8 & Hm & Mk). fold q in A7, A8, Hm, Mk. rewrite Ep in A7. rewrite Et in A8.
  pose proof (unset_points q (qc_nfp a) A2 Nz Hm A7 A8 Mk) as Mn.
  assert (Hps : s_qphi (q_winding q) = equispaced x0 (/ (INR (s_nfp (q_winding q)) * INR n)) (s_nfp (q_winding q) * n)).
  { rewrite A2, B5. unfold one_turn in *. rewrite <- mult_INR. destruct Hw as [(-> & -> & ->)| ->]; reflexivity. }
  pose proof Sd as (M & _). destruct (made_facts q M) as (_ & _ & _ & _ & _ & Cw & _).
  assert (Nt : s_qtheta (q_winding q) <> []) by (intros Z; rewrite Z in Cw; unfold resampled, copy_and_set_quadpoints, make_surface in Cw; cbn in Cw; destruct (s_qphi (q_winding q)); discriminate).
  assert (Np : s_qphi (q_winding q) <> []) by (intros Z; rewrite Z in Cw; unfold resampled, copy_and_set_quadpoints, make_surface in Cw; cbn in Cw; discriminate).
  split.
  - assert (X : exists qf, on_points q (s_qphi (q_winding q)) (s_qtheta (q_winding q)) = Ok qf).
    { destruct (copy_ok (q_winding q) _ _ Np Nt) as (ev & Ev). unfold resampled in Ev. unfold on_points, make_params, make_base. rewrite A2. destruct (qc_nfp a) as [|j]; [contradiction|].
      rewrite Hm. cbn [Nat.eqb negb]. rewrite Ev. cbn [bind]. eauto. }
    destruct X as (qf & X). exists qf. split; [exact X|]. unfold on_points in X. split.
    + intros name fld h Hi. exact (whole_integral other _ _ _ _ _ _ _ _ x0 n q qf x Hn Hps Mn X Sd name fld h Hi).
    + intros name fld h Hi. exact (whole_max other _ _ _ _ _ _ _ _ x0 n q qf x Hn Hps Mn X Sd name fld h Hi).
  - intros Bp p0 k Hk Hp PB HB. assert (Hpp : s_qphi (q_plasma q) = equispaced p0 (/ (INR (q_nfp q) * INR k)) k).
    { unfold q_nfp. rewrite A2, B3. unfold one_period in *. destruct Hp as [(-> & -> & ->)| ->]; reflexivity. }
    assert (En : q_nfp q = qc_nfp a) by exact A2.
    destruct (whole_error other q x Bp x0 p0 n k Sd ltac:(congruence) ltac:(lia) Hps Hk Hpp ltac:(rewrite En; exact PB) HB) as (qb & Eb & r & v & d & Q).
    rewrite En in Eb. exists qb, r, v, d. split; [exact Eb|exact Q].
Qed.
Print Assumptions C150_whole_machine.

(** Non-trivial case: a call on two coaxial tori with two field periods that
    gives no grid at all and no required field. *)
Example C150_example : exists o, quadcoil (package []) E120 call150 = Some (Ok o) /\
  qc_qphi call150 = None /\ qc_qtheta call150 = None /\ qc_winding_qphi call150 = None /\ qc_plasma_qphi call150 = None /\
  sound (o_qp E120 o) [1; 2; 3; 4] /\
  q_Bnormal (o_qp E120 o) = sample (fun _ _ => 0) (s_qphi (q_plasma (o_qp E120 o))) (s_qtheta (q_plasma (o_qp E120 o))) /\
  length (q_qphi (o_qp E120 o)) = 32%nat /\ length (s_qphi (q_winding (o_qp E120 o))) = 64%nat.
Proof.
  destruct call150_returns as (o & Hq & Eq). exists o. split; [exact Hq|]. repeat (split; [reflexivity|]). rewrite Eq.
  split; [apply q150_sound; reflexivity|]. split; [reflexivity|]. split; reflexivity.
Qed.
