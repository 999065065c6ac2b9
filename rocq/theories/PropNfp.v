(** Properties C134 and C135: the declared number of field periods. *)
From Coq Require Import String List Bool Arith ZArith Reals Lra Lia.
From Verif Require Import Base ModelArray ModelMath SpecMath ModelSurface SpecSurface ProofSurface ProofSurface2
  ModelParams ModelField SpecField ProofField3 WitnessField
  ModelQuantity SpecQuantity ModelWrapper SpecWrapper ModelShipped ModelPackage SpecPackage ProofPackage4 PropPackage
  SpecConvex ProofConvex PropConvex SpecScale SpecRefine ProofRefine SpecMirror PropMirror SpecNfp ProofNfp ProofNfp2 ProofNfp3 ProofNfp4.
Import ListNotations.
Open Scope R_scope.
Open Scope string_scope.
Open Scope list_scope.

(** ** C134 *)
Theorem C134_every_surface_has_fewer_periods :
  forall k m s ps ts, s_nfp s = (k * m)%nat -> (k <> 0)%nat -> legal s -> ps <> [] -> ts <> [] ->
  exists d s', make_surface m (s_stellsym s) (s_mpol s) (k * s_ntor s) (arr1 ps) (arr1 ts) (arr1 d) = Ok s' /\ legal s' /\ same_shape s s'.
Proof. exact described_surface. Qed.
Print Assumptions C134_every_surface_has_fewer_periods.

Theorem C134_every_potential_remains :
  forall k q q' x, made q -> made q' -> fewer_periods k q q' -> q_stellsym q = q_stellsym q' -> q_mpol q = q_mpol q' ->
  (k * q_ntor q <= q_ntor q')%nat -> length x = q_ndofs q ->
  exists x', length x' = q_ndofs q' /\ same_potential q x q' x'.
Proof.
  intros k q q' x M M' D H1 H2 H3 L. destruct (described k q q' x D M M' H1 H2 H3 L) as (x' & L' & E). exists x'. split; [exact L'|].
  now apply (proj2 (potential_same q q' x x' M M' L L')).
Qed.
Print Assumptions C134_every_potential_remains.

Lemma scalar_figure other q x name : sound q x ->
  In name ["f_B"; "f_K"; "f_Phi"; "f_max_Bnormal"; "f_max_Bnormal2"; "f_max_K2"; "f_huber_K"; "f_max_Phi"; "f_max_Phi2"; "f_max_Phi4"; "f_l1_Phi"; "f_B_normalized_by_Bnormal_IG"] ->
  exists s, reads other name q x (scal s).
Proof.
  intros S H.
  assert (A : forall nm fld h, In (nm, fld, h) [("f_max_K2", "K2", fun y : R => y); ("f_max_K_dot_grad_K_cyl", "K_dot_grad_K_cyl", Rabs); ("f_max_Bnormal", "Bnormal", Rabs);
    ("f_max_Bnormal2", "Bnormal", fun y => y * y); ("f_max_Phi", "Phi", Rabs); ("f_max_Phi2", "Phi", fun y => y * y); ("f_max_Phi4", "Phi", fun y => y ^ 4)] -> exists s, reads other nm q x (scal s)).
  { intros nm fld h I. destruct (largest_value other q x S nm fld h I) as (m & _ & Rm & _). eauto. }
  assert (B : forall nm fld surf h, In (nm, fld, surf, h) [("f_K", "K2", q_eval q, fun y => y / 2); ("f_B", "Bnormal", q_plasma q, fun y => y * y / 2); ("f_Phi", "Phi", q_eval q, fun y => y * y / 2);
    ("f_l1_Phi", "Phi", q_eval q, Rabs); ("f_huber_K", "K2", q_eval q, sqrt)] -> exists s, reads other nm q x (scal s)).
  { intros nm fld surf h I. destruct (integral_value other q x S nm fld surf h I) as (m & _ & _ & Rm & _). eauto. }
  repeat (destruct H as [<-|H]; [first [eapply A; cbn; tauto|eapply B; cbn; tauto|destruct (normalised_value other q x S) as (_ & _ & w & _ & _ & Rw & _); eauto]|]). destruct H.
Qed.
Theorem C134_same_figures :
  forall other k q q' x x' name, fewer_periods k q q' -> sound q x -> sound q' x' -> same_potential q x q' x' ->
  In name ["f_B"; "f_K"; "f_Phi"; "f_max_Bnormal"; "f_max_Bnormal2"; "f_max_K2"; "f_huber_K"; "f_max_Phi"; "f_max_Phi2"; "f_max_Phi4"; "f_l1_Phi"; "f_B_normalized_by_Bnormal_IG"] ->
  exists r, reads other name q x (scal r) /\ reads other name q' x' (scal r).
Proof.
  intros other k q q' x x' name D S S' P H. destruct (scalar_figure other q x name S H) as (r & Rd). exists r. split; [exact Rd|].
  pose proof S as (M & _ & _ & _ & L). pose proof S' as (M' & _ & _ & _ & L').
  apply (agrees_same other q x q' x' name r); [|exact Rd]. apply (fewer_even other k q q' x x' name D S S'); [now apply (potential_same q q' x x')|].
  cbn in H |- *. intuition.
Qed.
Print Assumptions C134_same_figures.
Theorem C134_same_fields :
  forall other k q q' x x' name, fewer_periods k q q' -> sound q x -> sound q' x' -> same_potential q x q' x' ->
  In name ["K2"; "Phi"; "Bnormal"] ->
  exists v v', reads other name q x v /\ reads other name q' x' v' /\ el v' = concat (repeat (el v) k).
Proof.
  intros other k q q' x x' name D S S' P H. pose proof S as (M & Lw & Lp & Ps & L). pose proof S' as (M' & Lw' & Lp' & Ps' & L').
  pose proof (proj1 (potential_same q q' x x' M M' L L') P) as E.
  destruct H as [<-|[<-|[<-|[]]]]; [apply (fewer_K2 other k q q' x x')|apply (fewer_Phi other k q q' x x')|apply (fewer_Bnormal other k q q' x x')]; auto.
Qed.
Print Assumptions C134_same_fields.

(** A machine with two lobes, described with two field periods and with one. *)
Definition lobes (two : bool) (r a e : R) (ps ts : list R) : surface :=
  match (if two then make_surface 2 true 1 1 (arr1 ps) (arr1 ts) (arr1 [r; 0; 0; a; e; 0; 0; a; e])
         else make_surface 1 true 1 2 (arr1 ps) (arr1 ts) (arr1 [r; 0; 0; 0; 0; a; 0; e; 0; 0; 0; 0; a; 0; e])) with
  | Ok s => s | Raise _ => ring 0 0 0 0 0 0 end.
Lemma lobes_shape r a e p0 p1 t0 t1 ps' p0' p1' : same_shape (lobes true r a e [p0; p1] [t0; t1]) (lobes false r a e (p0' :: p1' :: ps') [t0; t1]).
Proof.
  eexists. split; [apply (layout_sym (lobes true r a e [p0; p1] [t0; t1]) [r; 0; 0; a; e] [0; 0; a; e]); reflexivity|].
  intros ps ts Hp Ht. destruct (layout_sym (lobes false r a e (p0' :: p1' :: ps') [t0; t1]) [r; 0; 0; 0; 0; a; 0; e] [0; 0; 0; 0; a; 0; e] eq_refl eq_refl eq_refl eq_refl ps ts Hp Ht) as (s' & A & B).
  exists s'. split; [exact A|]. rewrite B. f_equal. apply map_ext. intros p. apply map_ext. intros t.
  unfold series, Rsum. cbn -[PI cos sin].
  replace (2 * PI * (1 * t - 2 * 1 * p)) with (2 * PI * (1 * t - 1 * (1 + 1) * p)) by ring.
  replace (2 * PI * (1 * t - 0 * 1 * p)) with (2 * PI * (1 * t - 0 * (1 + 1) * p)) by ring.
  replace (2 * PI * (0 * t - 0 * 1 * p)) with (2 * PI * (0 * t - 0 * (1 + 1) * p)) by ring.
  f_equal; ring.
Qed.
Definition machine (two : bool) : params :=
  let ps := if two then [0; 1/4] else [0; 1/4; 1/2; 3/4] in let ts := [0; 1/2] in
  let Bn := if two then [[1; 2]; [-1; 3]] else [[1; 2]; [-1; 3]; [1; 2]; [-1; 3]] in
  {| q_plasma := lobes two 3 (/ 2) (/ 10) ps ts; q_winding := lobes two 3 1 (/ 10) [0; 1/2] ts; q_eval := lobes two 3 1 (/ 10) ps ts;
     q_G := 2; q_I := 1; q_Bnormal := Bn; q_qphi := ps; q_qtheta := ts;
     q_stellsym := true; q_mpol := 1; q_ntor := if two then 1 else 2; q_ndofs := if two then 4 else 7; q_ndofs_half := if two then 4 else 7 |}.
Lemma machine_made two : made (machine two).
Proof.
  assert (B : forall r a e ps p0 p1, built (lobes two r a e (p0 :: p1 :: ps) [0; 1/2])).
  { intros. unfold built. destruct two; [exists 2%nat, true, 1%nat, 1%nat, (arr1 (p0 :: p1 :: ps)), (arr1 [0; 1/2]), (arr1 [r; 0; 0; a; e; 0; 0; a; e])|exists 1%nat, true, 1%nat, 2%nat, (arr1 (p0 :: p1 :: ps)), (arr1 [0; 1/2]), (arr1 [r; 0; 0; 0; 0; a; 0; e; 0; 0; 0; 0; a; 0; e])]; reflexivity. }
  split; [destruct two; apply B|]. split; [apply B|].
  exists (q_plasma (machine two)), (q_winding (machine two)), 2, 1, (Some (q_Bnormal (machine two))), 1%nat, (q_ntor (machine two)), (Some (arr1 (q_qphi (machine two)))), (Some (arr1 [0; 1/2])), (Some true).
  destruct two; reflexivity.
Qed.
Lemma machine_sound two x : length x = q_ndofs (machine two) -> sound (machine two) x.
Proof.
  intros L. split; [apply machine_made|]. split; [destruct two; reflexivity|]. split; [destruct two; reflexivity|]. split; [destruct two; (split; [reflexivity|repeat constructor])|exact L].
Qed.

Lemma four_increasing a b c d : a <= b -> b <= c -> c <= d -> increasing [a; b; c; d].
Proof. intros H H' H'' i j [H1 H2]. simpl in H2. destruct i as [|[|[|[|i]]]], j as [|[|[|[|j]]]]; simpl; try lra; lia. Qed.
Lemma machine_ordered two : ordered (machine two).
Proof. destruct two; (split; [|split; [|split]]); cbn; first [apply two_increasing; lra|apply four_increasing; lra]. Qed.
Lemma machine_fewer : fewer_periods 2 (machine true) (machine false).
Proof.
  assert (P : periods_covered 2 2 [0; 1/4] [0; 1/4; 1/2; 3/4]).
  { exists 0, 2%nat. split; [lia|]. unfold equispaced. cbn. split; repeat (f_equal; try field). }
  split; [reflexivity|]. split; [reflexivity|]. split; [apply lobes_shape|]. split; [apply lobes_shape|]. split; [reflexivity|]. split; [reflexivity|]. split; [reflexivity|]. split; [reflexivity|].
  split; [exists 0, 1%nat; split; [lia|]; unfold equispaced, q_nfp; cbn; apply two_eq; field|].
  split; [exact P|]. split; [reflexivity|]. split; [exact P|]. split; [reflexivity|].
  exists (fun p t => 5 * t + (1 - 3 * t) * cos (2 * PI * (2 * p))).
  assert (A : cos (2 * PI * (2 * 0)) = 1) by (replace (2 * PI * (2 * 0)) with 0 by ring; apply cos_0).
  assert (B : cos (2 * PI * (2 * (1/4))) = -1) by (replace (2 * PI * (2 * (1/4))) with PI by field; apply cos_PI).
  assert (T : forall p, cos (2 * PI * (2 * (p + / 2))) = cos (2 * PI * (2 * p))).
  { intros p. replace (2 * PI * (2 * (p + / 2))) with (2 * PI * (2 * p) + 2 * INR 1 * PI) by (cbn [INR]; field). apply cos_period. }
  assert (A' : cos (2 * PI * (2 * (1/2))) = 1) by (refine (eq_trans _ (eq_trans (T 0) A)); do 3 f_equal; field).
  assert (B' : cos (2 * PI * (2 * (3/4))) = -1) by (refine (eq_trans _ (eq_trans (T (1/4)) B)); do 3 f_equal; field).
  split; [|split].
  - unfold machine, sample. cbn [q_Bnormal q_plasma lobes s_qphi s_qtheta make_surface is_ndarray arr1 elements el ndim sh length negb Nat.eqb getclamp bind map].
    cbn -[cos PI]. rewrite A, B. repeat (f_equal; try field).
  - unfold machine, sample. cbn -[cos PI]. rewrite A, B, A', B'. repeat (f_equal; try field).
  - intros p t. change (INR (q_nfp (machine true))) with 2. now rewrite T.
Qed.
Lemma machine_harmonics : periodic_harmonics 2 (machine true) (machine false).
Proof. repeat split. Qed.
Example C134_example : let q := machine true in let q' := machine false in let x := [1; 2; 3; 4] in
  made q /\ made q' /\ fewer_periods 2 q q' /\ legal (q_winding q) /\ s_nfp (q_winding q) = (2 * s_nfp (q_winding q'))%nat /\
  exists x', sound q x /\ sound q' x' /\ same_potential q x q' x' /\
    exists r, reads [] "f_B" q x (scal r) /\ reads [] "f_B" q' x' (scal r).
Proof.
  cbv zeta. split; [apply machine_made|]. split; [apply machine_made|]. split; [apply machine_fewer|]. split; [reflexivity|]. split; [reflexivity|].
  destruct (C134_every_potential_remains 2 (machine true) (machine false) [1; 2; 3; 4] (machine_made _) (machine_made _) machine_fewer eq_refl eq_refl (le_n _) eq_refl) as (x' & L' & P).
  exists x'. assert (S : sound (machine true) [1; 2; 3; 4]) by (now apply machine_sound). assert (S' : sound (machine false) x') by (now apply machine_sound).
  split; [exact S|]. split; [exact S'|]. split; [exact P|]. apply (C134_same_figures [] 2 _ _ _ _ "f_B" machine_fewer S S' P). cbn. tauto.
Qed.

(** ** C135 *)
Theorem C135_periodic_design_no_worse :
  forall other k q q' x os cs fx, made q -> legal (q_winding q) -> legal (q_plasma q) -> plasma_shaped q -> sound q' x -> ordered q' ->
  fewer_periods k q q' -> periodic_harmonics k q q' ->
  (forall name w, In (name, w) os -> 0 <= w /\ even_quantity other q' name) -> turned_constraints other q' cs ->
  feasible other q' cs x -> weighted other q' os x fx ->
  exists y fy, length y = q_ndofs q /\ feasible other q cs y /\ weighted other q os y fy /\ fy <= fx.
Proof. intros. now apply (periodic_no_worse other k q q' x os cs fx). Qed.
Print Assumptions C135_periodic_design_no_worse.

Theorem C135_periodic_optimum_is_optimum :
  forall other k q q' z os cs fz, sound q z -> made q' -> legal (q_winding q') -> legal (q_plasma q') -> plasma_shaped q' -> ordered q' ->
  fewer_periods k q q' -> periodic_harmonics k q q' ->
  (forall name w, In (name, w) os -> 0 <= w /\ even_quantity other q' name) -> turned_constraints other q' cs ->
  feasible other q cs z -> weighted other q os z fz -> least other q os cs z (fun _ => True) ->
  exists x, length x = q_ndofs q' /\ same_potential q z q' x /\ feasible other q' cs x /\ weighted other q' os x fz /\ least other q' os cs x (fun _ => True).
Proof. intros. now apply (periodic_still_optimal other k q q' z os cs fz). Qed.
Print Assumptions C135_periodic_optimum_is_optimum.

Lemma machine_zero two name : In name ["Phi"; "Phi2"; "f_max_Phi"; "f_max_Phi2"; "f_max_Phi4"; "f_l1_Phi"; "f_Phi"] ->
  exists u, reads [] name (machine two) (repeat 0 (q_ndofs (machine two))) u /\ List.Forall (eq 0) (el u).
Proof.
  intros I. destruct (zero_units [] (machine two) (machine_sound two _ (repeat_length _ _)) name I) as (u & A & F). exists u. split; [now apply automatic_reads in A|exact F].
Qed.
Example C135_example : let q := machine true in let q' := machine false in
  let os := [("f_B", 1); ("f_K", 2)] in let cs := [("Phi", LE, 3); ("f_max_Phi4", LE, 5); ("Phi", GE, -2)] in
  let x := [1; 2; 3; 4; 5; 6; 7] in
  made q /\ sound q' x /\ ordered q' /\ fewer_periods 2 q q' /\ periodic_harmonics 2 q q' /\
  (forall name w, In (name, w) os -> 0 <= w /\ even_quantity [] q' name) /\ turned_constraints [] q' cs /\
  (exists fx y fy, weighted [] q' os x fx /\ length y = 4%nat /\ weighted [] q os y fy /\ fy <= fx) /\
  feasible [] q cs (repeat 0 4) /\ weighted [] q [("f_max_Phi", 1)] (repeat 0 4) 0 /\ least [] q [("f_max_Phi", 1)] cs (repeat 0 4) (fun _ => True).
Proof.
  cbv zeta. assert (S : sound (machine false) [1; 2; 3; 4; 5; 6; 7]) by (now apply machine_sound).
  assert (Ho : forall name w, In (name, w) [("f_B", 1); ("f_K", 2)] -> 0 <= w /\ even_quantity [] (machine false) name).
  { intros name w [E|[E|[]]]; injection E as <- <-; (split; [lra|left; cbn; tauto]). }
  split; [apply machine_made|]. split; [exact S|]. split; [apply machine_ordered|]. split; [apply machine_fewer|]. split; [apply machine_harmonics|]. split; [exact Ho|].
  split; [|split; [|split; [|split]]].
  - intros name c b [E|[E|[E|[]]]]; injection E as <- <- <-.
    + right. cbn. tauto.
    + left. split; [left; cbn; tauto|reflexivity].
    + right. cbn. tauto.
  - destruct (reads_f_B [] _ _ S) as (r1 & _ & R1). destruct (reads_f_K [] _ _ S) as (r2 & _ & R2).
    assert (W : weighted [] (machine false) [("f_B", 1); ("f_K", 2)] [1; 2; 3; 4; 5; 6; 7] (Rsum (map2 (fun o m => snd o * m) [("f_B", 1); ("f_K", 2)] [r1; r2]))).
    { exists [r1; r2]. split; [repeat constructor; assumption|reflexivity]. }
    destruct (C135_periodic_design_no_worse [] 2 (machine true) (machine false) _ [("f_B", 1); ("f_K", 2)] [] _ (machine_made true) eq_refl eq_refl
      ltac:(split; [reflexivity|repeat constructor]) S (machine_ordered _) machine_fewer machine_harmonics Ho
      ltac:(intros ? ? ? []) ltac:(intros ? ? ? []) W) as (y & fy & Ly & _ & Wy & B).
    eexists. exists y, fy. split; [exact W|]. auto.
  - intros name c b [E|[E|[E|[]]]]; injection E as <- <- <-.
    + destruct (machine_zero true "Phi") as (u & Rd & F); [cbn; tauto|]. exists u. split; [exact Rd|]. intros y Hy. rewrite List.Forall_forall in F. rewrite <- (F y Hy). lra.
    + destruct (machine_zero true "f_max_Phi4") as (u & Rd & F); [cbn; tauto|]. exists u. split; [exact Rd|]. intros y Hy. rewrite List.Forall_forall in F. rewrite <- (F y Hy). lra.
    + destruct (machine_zero true "Phi") as (u & Rd & F); [cbn; tauto|]. exists u. split; [exact Rd|]. intros y Hy. rewrite List.Forall_forall in F. rewrite <- (F y Hy). lra.
  - destruct (scalar_figure [] (machine true) (repeat 0 4) "f_max_Phi" (machine_sound true (repeat 0 4) eq_refl) ltac:(cbn; tauto)) as (m0 & R2).
    destruct (machine_zero true "f_max_Phi") as (u & Rd & F); [cbn; tauto|]. rewrite (reads_fun _ _ _ _ _ _ Rd R2) in F. inversion F; subst.
    exists [0]. split; [repeat constructor; exact R2|]. unfold Rsum. cbn. ring.
  - intros y fx fy L _ _ (vx & Fx & ->) (vy & Fy & ->).
    inversion Fx as [|? m ? ? Rx Fx']; subst. inversion Fx'; subst. inversion Fy as [|? m' ? ? Ry Fy']; subst. inversion Fy'; subst. cbn [fst] in *.
    destruct (machine_zero true "f_max_Phi") as (u & A & F); [cbn; tauto|]. rewrite (reads_fun _ _ _ _ _ _ A Rx) in F. inversion F; subst.
    destruct (largest_value [] (machine true) y (machine_sound true y L) "f_max_Phi" "Phi" Rabs ltac:(cbn; tauto)) as (m0 & v & R2 & Rv & Mx).
    pose proof (reads_fun _ _ _ _ _ _ Ry R2) as E. injection E as ->. destruct Mx as [Mx _]. apply in_map_iff in Mx as (z & <- & _).
    unfold Rsum. cbn [map2 fold_right snd]. pose proof (Rabs_pos z). lra.
Qed.
