(** What smoothing costs when the problem is handed over with smoothing="approx". *)
From Coq Require Import String List Bool Arith ZArith Reals Lra Lia.
From Verif Require Import Base ModelArray ModelMath SpecMath ModelSurface SpecSurface ModelParams SpecField
  ModelQuantity SpecQuantity ModelWrapper SpecWrapper ProofWrapper ModelShipped ModelPackage SpecPackage ProofPackage4 ProofPackage5 WitnessField PropPackage ProofNfp3
  SpecConvex ProofConvex PropConvex SpecBest SpecProblem SpecApprox ProofApprox3.
Import ListNotations.
Open Scope R_scope.
Open Scope string_scope.
Open Scope list_scope.

(** ** C148 *)
(** Coefficients that satisfy the generated system satisfy the user's bounds,
    and the generated objective is never below the user's. *)
Theorem C148_smoothed_problem_is_conservative :
  forall other q eps os cs f po pc x y, 0 < eps -> ordered q -> sound q x ->
  (forall o, In o os -> 0 <= ob_weight o /\ smooth_use q (ob_name o) (ob_unit o)) ->
  (forall c, In c cs -> uc_cmp c <> EQ /\ smooth_use q (uc_name c) (uc_unit c)) ->
  smoothed_problem other os cs eps f po pc -> smoothed_value f po pc q x y ->
  SpecConvex.feasible other q (asked_bounds cs) x /\ exists r, weighted other q (asked_terms os) x r /\ r <= y <= r + eps * objective_loss q os.
Proof.
  intros other q eps os cs f po pc x y He O S Uo Uc Sm (_ & Hc & Hf).
  split; [exact (conservative other q eps os cs f po pc He O Uo Uc Sm x S Hc)|].
  destruct (objective_value other q eps os cs f po pc He O Uo Uc Sm x S) as (r & y' & W & F & B). rewrite Hf in F. injection F as <-. exists r. split; [exact W|exact B].
Qed.
Print Assumptions C148_smoothed_problem_is_conservative.
(** Coefficients that satisfy the user's bounds with the margin to spare
    satisfy the generated system. *)
Theorem C148_margin_suffices :
  forall other q eps os cs f po pc x, 0 < eps -> ordered q -> sound q x ->
  (forall o, In o os -> 0 <= ob_weight o /\ smooth_use q (ob_name o) (ob_unit o)) ->
  (forall c, In c cs -> uc_cmp c <> EQ /\ smooth_use q (uc_name c) (uc_unit c)) ->
  smoothed_problem other os cs eps f po pc ->
  SpecConvex.feasible other q (asked_bounds (map (tightened q eps) cs)) x -> exists y, smoothed_value f po pc q x y.
Proof.
  intros other q eps os cs f po pc x He O S Uo Uc Sm Hc.
  destruct (objective_value other q eps os cs f po pc He O Uo Uc Sm x S) as (r & y & W & F & B). exists y.
  split; [exact (objective_empty other q eps os cs f po pc He O Uo Uc Sm x S)|]. split; [exact (margin other q eps os cs f po pc He O Uo Uc Sm x S Hc)|exact F].
Qed.
Print Assumptions C148_margin_suffices.
(** A best point of the generated problem against every design that meets the
    user's bounds with the margin to spare. *)
Theorem C148_loss_of_smoothing :
  forall other q eps os cs f po pc x z rz, 0 < eps -> ordered q -> sound q x ->
  (forall o, In o os -> 0 <= ob_weight o /\ smooth_use q (ob_name o) (ob_unit o)) ->
  (forall c, In c cs -> uc_cmp c <> EQ /\ smooth_use q (uc_name c) (uc_unit c)) ->
  smoothed_problem other os cs eps f po pc -> smoothed_best f po pc q x ->
  length z = q_ndofs q -> SpecConvex.feasible other q (asked_bounds (map (tightened q eps) cs)) z -> weighted other q (asked_terms os) z rz ->
  SpecConvex.feasible other q (asked_bounds cs) x /\ exists r, weighted other q (asked_terms os) x r /\ r <= rz + eps * objective_loss q os.
Proof.
  intros other q eps os cs f po pc x z rz He O S Uo Uc Sm (Lx & y & Vy & Least) Lz Fz Wz.
  destruct (C148_smoothed_problem_is_conservative other q eps os cs f po pc x y He O S Uo Uc Sm Vy) as (Fx & r & Wx & B1 & _).
  pose proof (sound_all q x S z Lz) as Sz. destruct (C148_margin_suffices other q eps os cs f po pc z He O Sz Uo Uc Sm Fz) as (y' & Vz).
  destruct (C148_smoothed_problem_is_conservative other q eps os cs f po pc z y' He O Sz Uo Uc Sm Vz) as (_ & r' & Wz' & _ & B2).
  pose proof (ProofNfp3.weighted_det _ _ _ _ _ _ Wz Wz') as <-. pose proof (Least z y' Lz Vz).
  split; [exact Fx|]. exists r. split; [exact Wx|]. lra.
Qed.
Print Assumptions C148_loss_of_smoothing.
(** For convex figures whose bounds can be met with room to spare the loss
    tends to nothing with lse_epsilon. *)
Theorem C148_smoothing_vanishes :
  forall other q os cs xs xb fb, ordered q -> sound q xs ->
  (forall o, In o os -> 0 <= ob_weight o /\ smooth_use q (ob_name o) (ob_unit o)) ->
  (forall c, In c cs -> uc_cmp c <> EQ /\ smooth_use q (uc_name c) (uc_unit c)) ->
  convex_objective other q (asked_terms os) -> convex_constraints other q (asked_bounds cs) ->
  strictly_feasible other q (asked_bounds cs) xs -> best other q (asked_terms os) (asked_bounds cs) xb fb ->
  forall d, 0 < d -> exists eps0, 0 < eps0 /\
  forall eps f po pc x, 0 < eps < eps0 -> smoothed_problem other os cs eps f po pc -> smoothed_best f po pc q x ->
  SpecConvex.feasible other q (asked_bounds cs) x /\ exists r, weighted other q (asked_terms os) x r /\ fb <= r <= fb + d.
Proof.
  intros other q os cs xs xb fb O S Uo Uc Ho Hc St (Lb & Fb & Wb & Least) d Pd.
  destruct (tight_point other q os cs xs xb fb d Ho Hc (fun c I => proj1 (Uc c I)) (proj2 (proj2 (proj2 (proj2 S)))) Lb St Fb Wb Pd) as (eps0 & P0 & H).
  exists eps0. split; [exact P0|]. intros eps f po pc x Hlt Sm Bx. destruct (H eps Hlt) as (z & rz & Lz & Fz & Wz & B).
  pose proof (sound_all q xs S x (proj1 Bx)) as Sx.
  destruct (C148_loss_of_smoothing other q eps os cs f po pc x z rz (proj1 Hlt) O Sx Uo Uc Sm Bx Lz Fz Wz) as (Fx & r & Wx & Hr).
  split; [exact Fx|]. exists r. split; [exact Wx|]. split; [|lra]. exact (Least x fb r (proj1 Bx) I Fx Wb Wx).
Qed.
Print Assumptions C148_smoothing_vanishes.

(** A non-trivial case: a bound on the largest potential and one on the
    potential at every point; the design without modulation is the best one,
    meets both with room to spare, and is the best point of the generated
    problem. *)
Example C148_example :
  let os := [OB "f_Phi" 2 (1 / 2)] in let cs := [UC "f_max_Phi" LE 3 5; UC "Phi" GE 7 (-1)] in let x := repeat 0 4 in
  ordered shown /\ sound shown x /\
  (forall o, In o os -> 0 <= ob_weight o /\ smooth_use shown (ob_name o) (ob_unit o)) /\
  (forall c, In c cs -> uc_cmp c <> EQ /\ smooth_use shown (uc_name c) (uc_unit c)) /\
  convex_objective [] shown (asked_terms os) /\ convex_constraints [] shown (asked_bounds cs) /\
  strictly_feasible [] shown (asked_bounds cs) x /\ best [] shown (asked_terms os) (asked_bounds cs) x 0 /\
  SpecConvex.feasible [] shown (asked_bounds (map (tightened shown (1 / 100)) cs)) x /\
  exists f po pc, smoothed_problem [] os cs (1 / 100) f po pc /\ smoothed_best f po pc shown x.
Proof.
  intros os cs x. pose proof (shown_sound x eq_refl) as S. assert (O : ordered shown) by apply device_increasing.
  assert (Uo : forall o, In o os -> 0 <= ob_weight o /\ smooth_use shown (ob_name o) (ob_unit o)).
  { intros o [<-|[]]. split; [cbn; lra|]. split; [cbn; lra|]. right. right. split; [cbn; tauto|discriminate]. }
  assert (Uc : forall c, In c cs -> uc_cmp c <> EQ /\ smooth_use shown (uc_name c) (uc_unit c)).
  { intros c [<-|[<-|[]]]; (split; [discriminate|]); (split; [cbn; lra|]).
    - left. cbn. tauto.
    - right. right. split; [cbn; tauto|discriminate]. }
  assert (Z : forall name, In name ["Phi"; "Phi2"; "f_max_Phi"; "f_max_Phi2"; "f_max_Phi4"; "f_l1_Phi"; "f_Phi"] -> exists u, reads [] name shown x u /\ List.Forall (eq 0) (el u)).
  { intros name I. destruct (zero_units [] shown S name I) as (u & A & F). exists u. split; [now apply automatic_reads in A|exact F]. }
  assert (W0 : weighted [] shown (asked_terms os) x 0).
  { destruct (integral_value [] shown x S "f_Phi" "Phi" (q_eval shown) (fun y => y * y / 2) ltac:(cbn; tauto)) as (r & _ & _ & R1 & _).
    destruct (Z "f_Phi") as (u & Ru & F); [cbn; tauto|]. pose proof (ProofConvex.reads_fun _ _ _ _ _ _ Ru R1) as ->. inversion F as [|? ? E _]; subst.
    exists [0]. split; [repeat constructor; exact R1|]. unfold Rsum. cbn. lra. }
  assert (Pos : forall z r, length z = 4%nat -> weighted [] shown (asked_terms os) z r -> 0 <= r).
  { intros z r Lz (vs & F & ->). inversion F as [|? m ? l Hm F']; subst. inversion F'; subst. cbn [fst] in Hm.
    destruct (integral_value [] shown z (shown_sound z Lz) "f_Phi" "Phi" (q_eval shown) (fun y => y * y / 2) ltac:(cbn; tauto)) as (r & v & d & R1 & _ & Ed & Er).
    pose proof (ProofConvex.reads_fun _ _ _ _ _ _ R1 Hm) as X. injection X as ->. destruct (proj1 shown_areas) as (d' & Ed' & Pw). rewrite Ed in Ed'. injection Ed' as <-.
    assert (0 <= m).
    { rewrite Er. apply Rmult_le_pos; [apply pos_INR|]. apply (sum_weighted_nonneg (fun y => y * y / 2)); [intros w Iw; left; now apply Pw|].
      intros y _. pose proof (Rle_0_sqr y). unfold Rsqr in *. lra. }
    unfold Rsum. cbn. rewrite Rabs_pos_eq by lra. lra. }
  assert (Hb : forall cs', (forall name c b, In (name, c, b) cs' -> In name ["Phi"; "f_max_Phi"] /\ match c with LE => 0 <= b | GE => b <= 0 | EQ => b = 0 end) -> SpecConvex.feasible [] shown cs' x).
  { intros cs' H name c b I. destruct (H name c b I) as (In1 & Hb). destruct (Z name) as (u & Ru & F); [cbn in *; tauto|]. exists u. split; [exact Ru|].
    intros y Iy. rewrite List.Forall_forall in F. rewrite <- (F y Iy). destruct c; cbn; lra. }
  assert (Ln : forall a, 0 < a -> ln a <= a - 1).
  { intros a Pa. pose proof (exp_ineq1_le (ln a)) as E. rewrite exp_ln in E by exact Pa. lra. }
  assert (Ft : SpecConvex.feasible [] shown (asked_bounds (map (tightened shown (1 / 100)) cs)) x).
  { apply Hb. intros name c b I. destruct I as [[= <- <- <-]|[[= <- <- <-]|[]]]; (split; [cbn; tauto|]); unfold loss.
    - cbn [lookup smoothed_peaks String.eqb Ascii.eqb Bool.eqb uc_name uc_unit]. rewrite Rabs_pos_eq by lra.
      match goal with |- context [ln ?a] => replace a with 8 by (cbn; lra) end. pose proof (Ln 8 ltac:(lra)). lra.
    - change (lookup "Phi" smoothed_peaks) with (@None shape_kind). change (String.eqb "Phi" "f_l1_Phi") with false.
      change (lookup "Phi" (documented ++ undocumented)) with (Some CoilField). cbv iota. cbn [uc_unit]. rewrite Rabs_pos_eq by lra.
      match goal with |- context [ln ?a] => replace a with 4 by (cbn; lra) end. pose proof (Ln 4 ltac:(lra)). lra. }
  assert (Cv : convex_objective [] shown (asked_terms os) /\ convex_constraints [] shown (asked_bounds cs)).
  { split.
    - intros name w [[= <- <-]|[]]. split; [rewrite Rabs_pos_eq by lra; lra|]. apply (C111_convex_quantities [] shown x S O). cbn. tauto.
    - intros name c b [[= <- <- <-]|[[= <- <- <-]|[]]].
      + apply (C111_convex_quantities [] shown x S O). cbn. tauto.
      + apply (C111_affine_quantities [] shown x S). cbn. tauto. }
  assert (St : strictly_feasible [] shown (asked_bounds cs) x).
  { intros name c b [[= <- <- <-]|[[= <- <- <-]|[]]];
      match goal with |- exists v, reads _ ?n _ _ _ /\ _ => destruct (Z n) as (u & Ru & F) end; try (cbn; tauto); exists u; (split; [exact Ru|]); intros y Iy;
      rewrite List.Forall_forall in F; rewrite <- (F y Iy); lra. }
  assert (F0 : SpecConvex.feasible [] shown (asked_bounds cs) x).
  { apply Hb. intros name c b [[= <- <- <-]|[[= <- <- <-]|[]]]; (split; [cbn; tauto|lra]). }
  do 4 (split; [assumption|]). split; [apply Cv|]. split; [apply Cv|]. split; [exact St|]. split.
  { split; [reflexivity|]. split; [exact F0|]. split; [exact W0|]. intros y fx fy Ly _ _ Wx Wy.
    rewrite (ProofNfp3.weighted_det _ _ _ _ _ _ Wx W0). exact (Pos y fy Ly Wy). }
  split; [exact Ft|].
  assert (Po : exists r, parse_objectives q_ndofs (package []) (Objectives (map ob_name os) (map (fun o => UScalar (ob_unit o)) os)) (map ob_weight os) (Some "approx") [("lse_epsilon", 1 / 100)] = Ok r).
  { apply parse_objectives_ok. split; [reflexivity|]. split; [cbn; lia|]. split; [right; right; right; reflexivity|].
    intros n u I. cbn [os map combine ob_name ob_unit In] in I. repeat destruct I as [I|I]; try contradiction; injection I as <- <-;
      (eexists; split; [reflexivity|split; [cbn; tauto|discriminate]]). }
  assert (Pc : exists r, parse_constraints q_ndofs (package []) (map uc_name cs) (map (fun c => op_string (uc_cmp c)) cs) (map (fun c => UScalar (uc_unit c)) cs) (map uc_val cs) (Some "approx") [("lse_epsilon", 1 / 100)] = Ok r).
  { apply parse_constraints_ok. do 3 (split; [reflexivity|]). split; [right; right; right; reflexivity|].
    intros n t u I. cbn [cs map combine uc_name uc_cmp uc_unit op_string In] in I. repeat destruct I as [I|I]; try contradiction; injection I as <- <- <-;
      (split; [eexists; split; [reflexivity|split; [cbn; tauto|discriminate]]|cbn; tauto]). }
  destruct Po as ([f po] & Eo). destruct Pc as (pc & Ec). exists f, po, pc. assert (Sm : smoothed_problem [] os cs (1 / 100) f po pc) by (split; assumption).
  split; [exact Sm|]. split; [reflexivity|]. destruct (C148_margin_suffices [] shown (1 / 100) os cs f po pc x ltac:(lra) O S Uo Uc Sm Ft) as (y & Vy).
  exists y. split; [exact Vy|]. intros x' y' Lx' Vy'.
  destruct (C148_smoothed_problem_is_conservative [] shown (1 / 100) os cs f po pc x y ltac:(lra) O S Uo Uc Sm Vy) as (_ & r & Wr & _ & B).
  destruct (C148_smoothed_problem_is_conservative [] shown (1 / 100) os cs f po pc x' y' ltac:(lra) O (shown_sound x' Lx') Uo Uc Sm Vy') as (_ & r' & Wr' & B' & _).
  rewrite (ProofNfp3.weighted_det _ _ _ _ _ _ Wr W0) in B. pose proof (Pos x' r' Lx' Wr').
  assert (objective_loss shown os = 0) as E by (unfold objective_loss, Rsum; cbn; lra). rewrite E in B. lra.
Qed.
