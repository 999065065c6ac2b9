(** Property C138: designs for axisymmetric machines. *)
From Coq Require Import String List Bool Arith ZArith Reals Lra Lia.
From Verif Require Import Base ModelArray ModelMath SpecMath ModelSurface SpecSurface ProofSurface ProofSurface2
  ModelParams ModelField SpecField ProofField ProofField3 WitnessField
  ModelQuantity SpecQuantity ModelWrapper SpecWrapper ModelShipped ModelPackage SpecPackage ProofPackage4 PropPackage
  SpecConvex ProofConvex PropConvex SpecScale SpecRefine ProofRefine SpecMirror PropMirror ProofMirror2 SpecBest PropAttained SpecNfp ProofNfp ProofNfp2 ProofNfp3 ProofNfp4 PropNfp SpecAxi ProofAxi.
Import ListNotations.
Open Scope R_scope.
Open Scope string_scope.
Open Scope list_scope.

(** ** C138 *)
Theorem C138_axisymmetric_design_no_worse :
  forall other k q x os cs fx, sound q x -> ordered q -> axisymmetric_machine q -> uniform_grids k q -> (q_ntor q < k)%nat ->
  (forall name w, In (name, w) os -> 0 <= w /\ even_quantity other q name) -> turned_constraints other q cs ->
  feasible other q cs x -> weighted other q os x fx ->
  exists z fz, length z = q_ndofs q /\ axisymmetric_design q z /\ feasible other q cs z /\ weighted other q os z fz /\ fz <= fx.
Proof. intros. now apply (axi_no_worse other k q x os cs fx). Qed.
Print Assumptions C138_axisymmetric_design_no_worse.

(** With a regularised objective the best design is axisymmetric. *)
Theorem C138_best_design_is_axisymmetric :
  forall other k q x os cs fx, sound q x -> ordered q -> axisymmetric_machine q -> uniform_grids k q -> (q_ntor q < k)%nat ->
  resolved q -> regular (q_eval q) ->
  (forall name w, In (name, w) os -> 0 <= w /\ even_quantity other q name) -> turned_constraints other q cs -> regularised q os ->
  best other q os cs x fx -> axisymmetric_design q x.
Proof.
  intros other k q x os cs fx S O A G Hk Rs Rg Ho Hc Reg Bx. pose proof Bx as (Lx & Fx & Wx & Le).
  destruct (axi_no_worse other k q x os cs fx S O A G Hk Ho Hc Fx Wx) as (z & fz & Lz & Az & Fz & Wz & B).
  assert (Co : convex_objective other q os) by (intros name w I; destruct (Ho name w I) as (P & Q); split; [exact P|now apply (even_convex other q x)]).
  assert (Cc : convex_constraints other q cs).
  { intros name c b I. destruct (Hc name c b I) as [(Q & ->)|Q]; [now apply (even_convex other q x)|].
    assert (Af : affine_quantity other name q) by (apply (proj1 (C111_affine_quantities other q x S)); destruct Q as [<-|[<-|[]]]; cbn; tauto).
    destruct c; [now apply affine_convex|exact Af|exact Af]. }
  destruct (C126_one_best_design other q os cs x fx S O Rs Rg Co Cc Reg Fx Wx) as (x' & fx' & _ & U).
  assert (Bz : best other q os cs z fz).
  { split; [exact Lz|]. split; [exact Fz|]. split; [exact Wz|]. intros y f1 fy Ly _ Fy W1 Wy. rewrite (weighted_det _ _ _ _ _ _ W1 Wz). pose proof (Le y fx fy Ly I Fy Wx Wy). lra. }
  destruct (U x fx Bx) as (-> & _). destruct (U z fz Bz) as (-> & _). exact Az.
Qed.
Print Assumptions C138_best_design_is_axisymmetric.

(** Two circular tori described with two field periods, four toroidal points
    per period, three poloidal points, harmonics up to toroidal number one. *)
Definition torus (r a : R) (ps ts : list R) : surface :=
  match make_surface 2 true 1 0 (arr1 ps) (arr1 ts) (arr1 [r; a; a]) with Ok s => s | Raise _ => ring 0 0 0 0 0 0 end.
Definition tokamak : params :=
  let ps := [0; 1/8; 1/4; 3/8] in let ts := [0; 1/2] in
  {| q_plasma := torus 3 (/ 2) ps ts; q_winding := torus 3 1 [0; 1/4; 1/2; 3/4] ts; q_eval := torus 3 1 ps [0; 1/3; 2/3];
     q_G := 2; q_I := 1; q_Bnormal := [[1; 2]; [1; 2]; [1; 2]; [1; 2]]; q_qphi := ps; q_qtheta := [0; 1/3; 2/3];
     q_stellsym := true; q_mpol := 1; q_ntor := 1; q_ndofs := 4; q_ndofs_half := 4 |}.
Lemma torus_axi r a p0 p1 ps t0 t1 : axisymmetric (torus r a (p0 :: p1 :: ps) [t0; t1]).
Proof.
  exists (fun p t => cyl_point p (r + a * cos (2 * PI * t)) (a * sin (2 * PI * t))). split.
  - set (s := torus r a (p0 :: p1 :: ps) [t0; t1]). intros ps' ts' Hp Ht. destruct (layout_sym s [r; a] [a] eq_refl eq_refl eq_refl eq_refl ps' ts' Hp Ht) as (s' & E & V).
    exists s'. split; [exact E|]. rewrite V. f_equal. apply map_ext. intros p. apply map_ext. intros t. unfold series, cyl_point, Rsum. cbn -[PI cos sin].
    replace (2 * PI * (1 * t - 0 * (1 + 1) * p)) with (2 * PI * t) by ring.
    replace (2 * PI * (0 * t - 0 * (1 + 1) * p)) with 0 by ring. rewrite cos_0. f_equal; ring.
  - intros p t d. unfold cyl_point, rotz. cbn [vx vy vz]. rewrite Rmult_plus_distr_l, cos_plus, sin_plus. f_equal; ring.
Qed.
Lemma three_increasing a b c : a <= b -> b <= c -> increasing [a; b; c].
Proof. intros H H' i j [H1 H2]. simpl in H2. destruct i as [|[|[|i]]], j as [|[|[|j]]]; simpl; try lra; lia. Qed.
Lemma tokamak_sound x : length x = 4%nat -> sound tokamak x.
Proof.
  assert (B : forall r a p0 p1 ps, built (torus r a (p0 :: p1 :: ps) [0; 1/2])) by (intros; exists 2%nat, true, 1%nat, 0%nat, (arr1 (p0 :: p1 :: ps)), (arr1 [0; 1/2]), (arr1 [r; a; a]); reflexivity).
  intros L. split.
  - split; [apply B|]. split; [apply B|].
    exists (q_plasma tokamak), (q_winding tokamak), 2, 1, (Some (q_Bnormal tokamak)), 1%nat, 1%nat, (Some (arr1 (q_qphi tokamak))), (Some (arr1 [0; 1/3; 2/3])), (Some true). reflexivity.
  - split; [reflexivity|]. split; [reflexivity|]. split; [split; [reflexivity|repeat constructor]|exact L].
Qed.
Example C138_example : let q := tokamak in let x := [1; 2; 3; 4] in let os := [("f_B", 1); ("f_K", 2)] in let cs := [("Bnormal", LE, 3); ("f_max_Phi", LE, 100)] in
  sound q x /\ ordered q /\ axisymmetric_machine q /\ uniform_grids 2 q /\ (q_ntor q < 2)%nat /\
  (forall name w, In (name, w) os -> 0 <= w /\ even_quantity [] q name) /\ turned_constraints [] q cs /\
  (exists fx, weighted [] q os x fx) /\
  resolved q /\ regular (q_eval q) /\ regularised q os /\ (exists y fy, best [] q os [("f_max_Phi", LE, 100)] y fy) /\
  feasible [] q [("f_max_Phi", LE, 100)] (repeat 0 4).
Proof.
  cbv zeta. assert (S : forall x, length x = 4%nat -> sound tokamak x) by exact tokamak_sound.
  assert (W4 : forall x, [x + INR 0 * / (INR 2 * INR 4); x + INR 1 * / (INR 2 * INR 4); x + INR 2 * / (INR 2 * INR 4); x + INR 3 * / (INR 2 * INR 4)] = [x; x + 1/8; x + 1/4; x + 3/8]).
  { intros x. cbn [INR]. repeat (f_equal; try field). }
  split; [now apply S|]. split; [split; [|split; [|split]]; cbn; first [apply two_increasing; lra|apply four_increasing; lra|apply three_increasing; lra]|].
  split; [split; [apply torus_axi|split; [apply torus_axi|exists (fun t => 1 + 2 * t); unfold tokamak, sample; cbn; repeat (f_equal; try field)]]|].
  assert (G : [0; 1/8; 1/4; 3/8] = equispaced 0 (/ (INR 2 * INR (2 * 2))) (2 * 2)) by (refine (eq_trans _ (eq_sym (W4 0))); repeat (f_equal; try ring)).
  split; [split; [reflexivity|split; [exists 0, 2%nat; split; [lia|exact G]|split; [exists 0, 2%nat; split; [lia|exact G]|exists 0, 1%nat; split; [lia|]]]]|].
  { unfold q_nfp, equispaced. cbn. repeat (f_equal; try field). }
  split; [cbn; lia|]. split; [intros name w [E|[E|[]]]; injection E as <- <-; (split; [lra|left; cbn; tauto])|].
  split; [intros name c b [E|[E|[]]]; injection E as <- <- <-; [right; cbn; tauto|left; split; [left; cbn; tauto|reflexivity]]|].
  assert (Fe : feasible [] tokamak [("f_max_Phi", LE, 100)] (repeat 0 4)).
  { destruct (zero_units [] tokamak (S (repeat 0 4) eq_refl) "f_max_Phi" ltac:(cbn; tauto)) as (u & A & F). apply automatic_reads in A.
    intros name c b [E|[]]. injection E as <- <- <-. exists u. split; [exact A|]. intros y Hy. rewrite List.Forall_forall in F. rewrite <- (F y Hy). lra. }
  assert (W : forall x, length x = 4%nat -> exists fx, weighted [] tokamak [("f_B", 1); ("f_K", 2)] x fx).
  { intros x L. destruct (scalar_figure [] tokamak x "f_B" (S x L) ltac:(cbn; tauto)) as (a & Ra). destruct (scalar_figure [] tokamak x "f_K" (S x L) ltac:(cbn; tauto)) as (b & Rb).
    eexists. exists [a; b]. split; [|reflexivity]. constructor; [exact Ra|]. constructor; [exact Rb|constructor]. }
  assert (Rs : resolved tokamak) by (exists 0, 0, 4%nat, 3%nat; split; [exact G|]; split; [unfold equispaced; cbn; repeat (f_equal; try field)|cbn; lia]).
  assert (Rg : regular (q_eval tokamak)).
  { apply (ring_regular 3 1 0 0 0 0 [0; 1/8; 1/4; 3/8] [0; 1/3; 2/3]); [lra|reflexivity]. }
  assert (Reg : regularised tokamak [("f_B", 1); ("f_K", 2)]) by (exists 2; split; [lra|]; right; split; [cbn; tauto|reflexivity]).
  split; [now apply W|]. split; [exact Rs|]. split; [exact Rg|]. split; [exact Reg|]. split; [|exact Fe].
  destruct (W (repeat 0 4) eq_refl) as (f0 & W0).
  assert (O : ordered tokamak) by (split; [|split; [|split]]; cbn; first [apply two_increasing; lra|apply four_increasing; lra|apply three_increasing; lra]).
  destruct (C126_one_best_design [] tokamak [("f_B", 1); ("f_K", 2)] [("f_max_Phi", LE, 100)] (repeat 0 4) f0 (S (repeat 0 4) eq_refl) O Rs Rg) as (y & fy & B & _); auto.
  - intros name w [E|[E|[]]]; injection E as <- <-; (split; [lra|]); apply (even_convex [] tokamak (repeat 0 4) _ (S (repeat 0 4) eq_refl) O); left; cbn; tauto.
  - intros name c b [E|[]]; injection E as <- <- <-. apply (even_convex [] tokamak (repeat 0 4) _ (S (repeat 0 4) eq_refl) O); left; cbn; tauto.
  - exists y, fy. exact B.
Qed.
