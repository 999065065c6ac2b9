(** The problem generated in approx mode against the user's problem. *)
From Coq Require Import String List Bool Arith ZArith Reals Lra Lia.
From Verif Require Import Base ModelArray ProofArray ModelMath SpecMath ModelSurface SpecSurface ModelParams SpecField
  ModelQuantity SpecQuantity ModelWrapper SpecWrapper ProofWrapper ModelShipped ModelPackage SpecPackage
  SpecConvex ProofField3 ProofConvex PropConvex SpecBest SpecProblem ProofProblem ProofProblem2 SpecApprox ProofApprox ProofApprox2.
Import ListNotations.
Open Scope R_scope.
Open Scope string_scope.
Open Scope list_scope.

Section Core.
  Variables (other : list string) (q : params) (eps : R) (os : list objective) (cs : list user_constraint).
  Variables (f : callable params) (po pc : parsed params).
  Hypothesis He : 0 < eps.
  Hypothesis O : ordered q.
  Hypothesis Uo : forall o, In o os -> 0 <= ob_weight o /\ smooth_use q (ob_name o) (ob_unit o).
  Hypothesis Uc : forall c, In c cs -> uc_cmp c <> EQ /\ smooth_use q (uc_name c) (uc_unit c).
  Hypothesis Sm : smoothed_problem other os cs eps f po pc.
  Variable x : list R.
  Hypothesis S : sound q x.
  Notation X := (Arr [length x] x).
  Let Eo := proj1 Sm.
  Let Ec := proj2 Sm.

  Lemma uses_smooth n un : used os cs n un -> un <> 0 /\ exists Q v, package other n = Some (AQuantity Q) /\ call Q q [("phi", X)] = Ok v /\
    (exact_use params q X eps Q v (Rabs un) (loss q n un) \/ soft_use params q X eps Q v (Rabs un) (loss q n un)).
  Proof using Uo Uc O S He.
    intros H. apply (use_smooth other q x eps S He O). destruct H as [(o & I & <- & <-)|(c & I & <- & <-)]; [apply (Uo o I)|apply (Uc c I)].
  Qed.
  Lemma scalar_objective o Q v : In o os -> package other (ob_name o) = Some (AQuantity Q) -> call Q q [("phi", X)] = Ok v -> exists m, v = scal m.
  Proof using Uo Uc O S He Eo Sm.
    intros Io Ep Ev. destruct (objective_parts _ _ _ _ _ _ _ Eo) as (l & F & _).
    assert (Cf : In "f" (q_compat Q)).
    { clear - q Io F Ep. induction F as [|o' a os l A F IH]; [contradiction|]. destruct Io as [->|Io]; [|now apply IH].
      destruct (add_approx params q_ndofs (package other) q _ _ _ _ _ _ A Ep) as (_ & _ & _ & _ & H). exact H. }
    destruct (Uo o Io) as (_ & Nz & [I|[E|(I & St)]]).
    - destruct (peak_smooth other q x eps S He _ _ I Nz) as (Q' & v' & A & B & (M & m & Em & _)). assert (Q' = Q) by congruence. subst Q'. exists M. congruence.
    - rewrite E in Ep. destruct (l1_smooth other q x eps S He O _ Nz) as (Q' & v' & A & B & (M & m & Em & _)). assert (Q' = Q) by congruence. subst Q'. exists M. congruence.
    - remember (ob_name o) as n eqn:En. clear En. unfold direct_quantities in I. cbn [List.In] in I.
      assert (Gen : forall r : result R, bind r (fun v => Ok (scal v)) = Ok v -> exists m, v = scal m) by (intros [m|] E; cbn in E; [exists m; congruence|discriminate E]).
      repeat destruct I as [<-|I]; try contradiction;
        (apply (f_equal (fun o => match o with Some (AQuantity Q) => Some Q | _ => None end)) in Ep;
         match type of Ep with ?a = _ => let b := eval cbn in a in change a with b in Ep end);
        injection Ep as <-; cbn [q_compat] in Cf;
        solve [exfalso; cbn in Cf; intuition discriminate|eapply Gen; exact Ev].
  Qed.
  Lemma objective_value : exists r y, weighted other q (asked_terms os) x r /\ f q [("phi", X)] = Ok (scal y) /\ r <= y <= r + eps * objective_loss q os.
  Proof using Uo Uc O S He Eo Sm.
    destruct (objective_near params q_ndofs (package other) q X eps (loss q) os cs f po uses_smooth (fun o I => proj1 (Uo o I)) scalar_objective Eo) as (r & y & T & F & B).
    exists r, y. split; [now apply (ProofProblem2.total_weighted other q os x)|]. split; [exact F|exact B].
  Qed.
  Lemma objective_empty : system_holds po q [("phi", X)].
  Proof using Uo Uc O S He Eo Sm. exact (objective_system params q_ndofs (package other) q X eps (loss q) os cs f po uses_smooth Eo). Qed.
  Lemma conservative : system_holds pc q [("phi", X)] -> SpecConvex.feasible other q (asked_bounds cs) x.
  Proof using Uo Uc O S He Ec Sm.
    intros H. pose proof (smooth_met params q_ndofs (package other) q X eps (loss q) He os cs pc uses_smooth (fun c I => proj1 (Uc c I)) Ec H) as A.
    intros name c b I. unfold asked_bounds in I. apply in_map_iff in I as (k & E & Ik). injection E as <- <- <-.
    destruct (uses_smooth (uc_name k) (uc_unit k)) as (_ & Q & v & Ep & Ev & _); [right; exists k; auto|].
    exists v. split; [exists Q; split; [now apply get_package|exact Ev]|]. exact (A k Q v Ik Ep Ev).
  Qed.
  Lemma margin : SpecConvex.feasible other q (asked_bounds (map (tightened q eps) cs)) x -> system_holds pc q [("phi", X)].
  Proof using Uo Uc O S He Ec Sm.
    intros A. apply (smooth_holds params q_ndofs (package other) q X eps (loss q) He os cs pc uses_smooth (fun c I => proj1 (Uc c I)) Ec).
    intros c Q v Ic Ep Ev. cbv zeta. set (t := tightened q eps c).
    destruct (A (uc_name t) (uc_cmp t) (uc_val t)) as (v' & (Q' & Eg & Ev') & Hm).
    { unfold asked_bounds. apply in_map_iff. exists t. split; [reflexivity|]. now apply in_map. }
    apply get_package in Eg. change (uc_name t) with (uc_name c) in Eg. assert (Q' = Q) by congruence. subst Q'.
    assert (v' = v) by (unfold value_of in Ev'; congruence). subst v'. exact Hm.
  Qed.
End Core.

Section Vanish.
  Variables (other : list string) (q : params).

  Lemma room (cs : list (string * cmp * R)) x : (forall name c b, In (name, c, b) cs -> c <> EQ) -> strictly_feasible other q cs x ->
    exists s, 0 < s /\ forall name c b, In (name, c, b) cs -> exists v, reads other name q x v /\ forall y, In y (el v) -> match c with LE => y <= b - s | GE => b + s <= y | EQ => y = b end.
  Proof using.
    induction cs as [|[[n c] b] cs IH]; intros Ne H; [exists 1; split; [lra|intros ? ? ? []]|].
    destruct IH as (s & Ps & Hs); [intros; eapply Ne; right; eassumption|intros ? ? ? ?; apply H; now right|].
    destruct (H n c b (or_introl eq_refl)) as (v & Rv & Hv).
    assert (E : exists s', 0 < s' /\ forall y, In y (el v) -> match c with LE => y <= b - s' | GE => b + s' <= y | EQ => y = b end).
    { clear - Hv. induction (el v) as [|y l IH]; [exists 1; split; [lra|intros ? []]|]. destruct IH as (s & Ps & Hs); [intros; apply Hv; now right|].
      specialize (Hv y (or_introl eq_refl)). destruct c.
      - exists (Rmin s (b - y)). split; [apply Rmin_glb_lt; lra|]. intros z [<-|I]; [pose proof (Rmin_r s (b - y)); lra|]. specialize (Hs z I). pose proof (Rmin_l s (b - y)). lra.
      - exists (Rmin s (y - b)). split; [apply Rmin_glb_lt; lra|]. intros z [<-|I]; [pose proof (Rmin_r s (y - b)); lra|]. specialize (Hs z I). pose proof (Rmin_l s (y - b)). lra.
      - exists s. split; [exact Ps|]. intros z [<-|I]; [exact Hv|now apply Hs]. }
    destruct E as (s' & Ps' & Hs'). exists (Rmin s s'). split; [now apply Rmin_glb_lt|].
    pose proof (Rmin_l s s'). pose proof (Rmin_r s s'). intros n' c' b' [[= <- <- <-]|I].
    - exists v. split; [exact Rv|]. intros y Iy. specialize (Hs' y Iy). destruct c; lra.
    - destruct (Hs n' c' b' I) as (w & Rw & Hw). exists w. split; [exact Rw|]. intros y Iy. specialize (Hw y Iy). destruct c'; lra.
  Qed.

  Lemma weighted_elsewhere os x y fy : convex_objective other q os -> length x = q_ndofs q -> length y = q_ndofs q -> weighted other q os y fy -> exists fx, weighted other q os x fx.
  Proof using.
    intros Ho Lx Ly (vs & F & _). cut (exists us, Forall2 (fun o m => reads other (fst o) q x (scal m)) os us); [intros (us & G); eexists; exists us; split; [exact G|reflexivity]|].
    induction F as [|[n w] m os vs Hm F IH]; [exists []; constructor|]. destruct IH as (us & G); [intros ? ? ?; apply Ho; now right|].
    destruct (Ho n w (or_introl eq_refl)) as (_ & Cx). destruct (Cx x y 0 Lx Ly ltac:(lra)) as (ux & uy & uz & Rx & Ry & _ & S1 & S2 & L1 & L2 & _).
    cbn [fst] in Hm. pose proof (ProofConvex.reads_fun _ _ _ _ _ _ Ry Hm) as ->. destruct ux as [sx lx]. cbn [sh el scal length] in *.
    destruct lx as [|mx [|? ?]]; [cbn in L1; congruence| |cbn in L1; congruence]. exists (mx :: us). constructor; [|exact G]. unfold scal. replace [] with sx by congruence. exact Rx.
  Qed.

  Lemma mixed cs x y t s : convex_constraints other q cs -> (forall name c b, In (name, c, b) cs -> c <> EQ) -> length x = q_ndofs q -> length y = q_ndofs q -> 0 <= t <= 1 ->
    (forall name c b, In (name, c, b) cs -> exists v, reads other name q x v /\ forall y, In y (el v) -> match c with LE => y <= b - s | GE => b + s <= y | EQ => y = b end) ->
    SpecConvex.feasible other q cs y ->
    forall name c b, In (name, c, b) cs -> exists v, reads other name q (lincomb t (1 - t) x y) v /\ forall y, In y (el v) -> match c with LE => y <= b - t * s | GE => b + t * s <= y | EQ => False end.
  Proof using.
    intros Hc Ne Lx Ly Ht Hx Hy name c b I. destruct (Hx name c b I) as (vx & Rx & Mx). destruct (Hy name c b I) as (vy & Ry & My). specialize (Hc name c b I). specialize (Ne name c b I).
    assert (G : forall rel, on_chord rel other name q -> exists vz, reads other name q (lincomb t (1 - t) x y) vz /\ forall z, In z (el vz) -> exists u v, In u (el vx) /\ In v (el vy) /\ rel z (t * u + (1 - t) * v)).
    { intros rel Hr. destruct (Hr x y t Lx Ly Ht) as (ux & uy & uz & Qx & Qy & Qz & _ & _ & L1 & L2 & F).
      assert (Ex := ProofConvex.reads_fun _ _ _ _ _ _ Qx Rx). assert (Ey := ProofConvex.reads_fun _ _ _ _ _ _ Qy Ry). subst ux uy. exists uz. split; [exact Qz|].
      clear -L1 L2 F. revert L1 L2 F. generalize (el vx) (el vy) (el uz). intros lx ly lz. revert lx ly. induction lz as [|z lz IH]; intros [|u lx] [|v ly] L1 L2 F k Hk; try discriminate; [contradiction|].
      unfold lincomb in F. cbn [map2] in F. inversion F; subst. destruct Hk as [<-|Hk].
      - exists u, v. split; [now left|]. split; [now left|assumption].
      - destruct (IH lx ly) with (z := k) as (u' & v' & A & B & C); auto. exists u', v'. split; [now right|]. split; [now right|exact C]. }
    destruct c; [| |now contradiction Ne].
    - destruct (G Rle Hc) as (vz & Rz & H). exists vz. split; [exact Rz|]. intros z Hz. destruct (H z Hz) as (u & v & Iu & Iv & E). specialize (Mx u Iu). specialize (My v Iv). cbn in Mx, My |- *.
      assert (t * u <= t * (b - s)) by (apply Rmult_le_compat_l; lra). assert ((1 - t) * v <= (1 - t) * b) by (apply Rmult_le_compat_l; lra). lra.
    - destruct (G eq Hc) as (vz & Rz & H). exists vz. split; [exact Rz|]. intros z Hz. destruct (H z Hz) as (u & v & Iu & Iv & ->). specialize (Mx u Iu). specialize (My v Iv). cbn in Mx, My |- *.
      assert (t * (b + s) <= t * u) by (apply Rmult_le_compat_l; lra). assert ((1 - t) * b <= (1 - t) * v) by (apply Rmult_le_compat_l; lra). lra.
  Qed.

  Definition margins (cs : list user_constraint) : R := Rsum (map (fun c => Rabs (Rabs (uc_unit c) * loss q (uc_name c) (uc_unit c))) cs).
  Lemma margins_ge cs c : In c cs -> Rabs (uc_unit c) * loss q (uc_name c) (uc_unit c) <= margins cs.
  Proof using.
    unfold margins, Rsum. intros I. assert (N : forall l, 0 <= fold_right Rplus 0 (map (fun c => Rabs (Rabs (uc_unit c) * loss q (uc_name c) (uc_unit c))) l)).
    { induction l as [|k l IH]; cbn [map fold_right]; [lra|]. pose proof (Rabs_pos (Rabs (uc_unit k) * loss q (uc_name k) (uc_unit k))). lra. }
    induction cs as [|k cs IH]; [contradiction|]. cbn [map fold_right]. destruct I as [->|I].
    - pose proof (Rle_abs (Rabs (uc_unit c) * loss q (uc_name c) (uc_unit c))). specialize (N cs). lra.
    - specialize (IH I). pose proof (Rabs_pos (Rabs (uc_unit k) * loss q (uc_name k) (uc_unit k))). lra.
  Qed.
  Lemma margins_pos cs : 0 <= margins cs.
  Proof using.
    unfold margins, Rsum. induction cs as [|k l IH]; cbn [map fold_right]; [lra|]. pose proof (Rabs_pos (Rabs (uc_unit k) * loss q (uc_name k) (uc_unit k))). lra.
  Qed.

  Lemma tight_point os cs xs xb fb d : convex_objective other q (asked_terms os) -> convex_constraints other q (asked_bounds cs) ->
    (forall c, In c cs -> uc_cmp c <> EQ) -> length xs = q_ndofs q -> length xb = q_ndofs q -> strictly_feasible other q (asked_bounds cs) xs ->
    SpecConvex.feasible other q (asked_bounds cs) xb -> weighted other q (asked_terms os) xb fb -> 0 < d ->
    exists eps0, 0 < eps0 /\ forall eps, 0 < eps < eps0 -> exists z rz, length z = q_ndofs q /\
      SpecConvex.feasible other q (asked_bounds (map (tightened q eps) cs)) z /\ weighted other q (asked_terms os) z rz /\ rz + eps * objective_loss q os <= fb + d.
  Proof using.
    intros Ho Hc Ne Ls Lb St Fb Wb Pd. assert (Ne' : forall name c b, In (name, c, b) (asked_bounds cs) -> c <> EQ).
    { intros n c b I. unfold asked_bounds in I. apply in_map_iff in I as (k & [= <- <- <-] & Ik). now apply Ne. }
    destruct (room _ xs Ne' St) as (s & Ps & Hs). destruct (weighted_elsewhere _ xs xb fb Ho Ls Lb Wb) as (fs & Ws).
    set (D := Rabs (fs - fb) + 1). assert (PD : 1 <= D) by (unfold D; pose proof (Rabs_pos (fs - fb)); lra).
    set (t := Rmin 1 (d / (2 * D))). assert (Pt : 0 < t <= 1).
    { split; [|apply Rmin_l]. apply Rmin_glb_lt; [lra|]. apply Rdiv_lt_0_compat; lra. }
    set (K := margins cs + Rabs (objective_loss q os) + 1). assert (PK : 1 <= K) by (unfold K; pose proof (margins_pos cs); pose proof (Rabs_pos (objective_loss q os)); lra).
    set (m := Rmin (t * s) (d / 2)). assert (Pm : 0 < m) by (apply Rmin_glb_lt; [now apply Rmult_lt_0_compat|lra]).
    exists (m / K). split; [apply Rdiv_lt_0_compat; lra|]. intros eps (He & Hlt).
    assert (EK : eps * K < m). { apply Rmult_lt_compat_r with (r := K) in Hlt; [|lra]. unfold Rdiv in Hlt. rewrite Rmult_assoc, Rinv_l, Rmult_1_r in Hlt by lra. exact Hlt. }
    set (z := lincomb t (1 - t) xs xb). destruct (weighted_convex other q _ Ho xs xb t fs fb Ls Lb ltac:(lra) Ws Wb) as (rz & Wz & Hz).
    exists z, rz. split; [unfold z; rewrite length_lincomb; congruence|]. split; [|split; [exact Wz|]].
    - intros name c b I. unfold asked_bounds in I. rewrite map_map in I. apply in_map_iff in I as (k & E & Ik).
      destruct (mixed _ xs xb t s Hc Ne' Ls Lb ltac:(lra) Hs Fb (uc_name k) (uc_cmp k) (uc_val k)) as (v & Rv & Hv).
      { unfold asked_bounds. apply in_map_iff. exists k. auto. }
      injection E as <- <- <-. unfold tightened. cbn [uc_name uc_cmp uc_val]. exists v. split; [exact Rv|].
      assert (Mg : Rabs (uc_unit k) * (eps * loss q (uc_name k) (uc_unit k)) <= t * s).
      { replace (Rabs (uc_unit k) * (eps * loss q (uc_name k) (uc_unit k))) with (eps * (Rabs (uc_unit k) * loss q (uc_name k) (uc_unit k))) by ring.
        apply Rle_trans with (eps * K). 2: { pose proof (Rmin_l (t * s) (d / 2)). fold m in H. lra. }
        apply Rmult_le_compat_l; [lra|]. pose proof (margins_ge cs k Ik). pose proof (Rabs_pos (objective_loss q os)). unfold K. lra. }
      intros y Iy. specialize (Hv y Iy). destruct (uc_cmp k); cbn in *; [lra|lra|contradiction].
    - assert (H1 : eps * objective_loss q os <= d / 2).
      { apply Rle_trans with (eps * K). 2: { pose proof (Rmin_r (t * s) (d / 2)). fold m in H. lra. }
        apply Rmult_le_compat_l; [lra|]. pose proof (Rle_abs (objective_loss q os)). pose proof (margins_pos cs). unfold K. lra. }
      assert (H2 : t * (fs - fb) <= d / 2).
      { apply Rle_trans with (t * D); [apply Rmult_le_compat_l; [lra|]; unfold D; pose proof (Rle_abs (fs - fb)); lra|].
        apply Rle_trans with (d / (2 * D) * D); [apply Rmult_le_compat_r; [lra|apply Rmin_r]|]. right. field. lra. }
      lra.
  Qed.
End Vanish.
