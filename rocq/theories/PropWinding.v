(** Properties of winding surface generation. *)
From Coq Require Import String List Bool Arith ZArith Reals Lra Lia.
From Verif Require Import Base ModelArray ModelMath SpecMath ProofMath ModelSurface SpecSurface ProofSurface
  ModelWinding SpecWinding ProofWinding ProofWinding2 ProofWinding3 ProofWinding4 ProofWinding5 WitnessWinding.
Import ListNotations.
Open Scope R_scope.
Open Scope string_scope.
Open Scope list_scope.

(** ** C57 *)
Theorem C57_least_squares :
  forall mpol ntor, exists cl sl, complete_modes mpol ntor cl sl /\
    forall solve phi theta r z nfp st lam w, honest_solver solve -> 0 <= lam ->
      shape_as theta phi -> shape_as z r ->
      match w with Some w => shape_as w phi /\ shape_as r w | None => length (concat r) = length (concat phi) end ->
      let T := of_arrays phi theta r z (match w with Some w => w | None => map (map (fun _ => 1)) phi end) in
      (exists x, fit_surfacerzfourier solve phi theta r z nfp st mpol ntor lam w = Ok x /\
         length x = legal_length st mpol ntor /\
         forall y, length y = legal_length st mpol ntor -> fit_cost nfp st cl sl lam T x <= fit_cost nfp st cl sl lam T y) /\
      (forall x0, lam = 0 -> length x0 = legal_length st mpol ntor ->
         (forall t, In t T -> coords nfp st cl sl x0 (tg_phi t) (tg_theta t) = (tg_r t, tg_z t)) ->
         determined nfp st mpol ntor cl sl T ->
         fit_surfacerzfourier solve phi theta r z nfp st mpol ntor lam w = Ok x0).
Proof.
  intros mpol ntor. exists (cmodes mpol ntor), (smodes mpol ntor). split; [split; [apply cmodes_once|apply smodes_once]|].
  intros solve phi theta r z nfp st lam w Hs Hl S1 S2 Sw T. split; [now apply fit_correct|].
  intros x0 -> L0 H1 H2. now apply fit_recovers.
Qed.
Print Assumptions C57_least_squares.
(** Arrays whose shapes disagree are rejected. *)
Theorem C57_shapes :
  forall solve phi theta r z nfp st mpol ntor lam w,
    ~ shape_as theta phi \/ ~ shape_as z r \/ (exists v, w = Some v /\ (~ shape_as v phi \/ ~ shape_as r v)) \/
      (w = None /\ length (concat r) <> length (concat phi)) ->
    exists e, fit_surfacerzfourier solve phi theta r z nfp st mpol ntor lam w = Raise e /\ (e = TypeError \/ e = ValueError).
Proof. exact fit_rejects. Qed.
Print Assumptions C57_shapes.
Example C57_example :
  honest_solver ls_solve /\
  fit_surfacerzfourier ls_solve [[0; 0]] [[0; 1/4]] [[3; 2]] [[0; 1]] 1 true 1 0 0 None = Ok [2; 1; 1] /\
  (exists x, fit_surfacerzfourier ls_solve [[0; 0]] [[0; 1/4]] [[3; 2]] [[0; 1]] 1 true 1 0 5 (Some [[2; 1/2]]) = Ok x) /\
  fit_surfacerzfourier ls_solve [[0; 0]] [[0; 1/4]] [[3; 2]] [[0; 1]] 1 true 1 0 5 (Some [[2]]) = Raise ValueError.
Proof.
  split; [exact ls_honest|]. split; [|split].
  - destruct small_fit_data as [D1 D2]. apply fit_recovers; auto; try reflexivity; exact ls_honest.
  - destruct (fit_correct ls_solve [[0; 0]] [[0; 1/4]] [[3; 2]] [[0; 1]] 1 true 1 0 5 (Some [[2; 1/2]]) ls_honest) as (x & E & _);
      try reflexivity; [lra|split; reflexivity|]. exists x. exact E.
  - reflexivity.
Qed.

(** ** C58 *)
Theorem C58_intersection_exact :
  forall p0 p1 p2 p3,
    (transverse p0 p1 p2 p3 -> (get_line_intersection p0 p1 p2 p3 = true <-> cross_at_point p0 p1 p2 p3)) /\
    (~ transverse p0 p1 p2 p3 -> get_line_intersection p0 p1 p2 p3 = false).
Proof.
  intros. pose proof (line_intersection_iff p0 p1 p2 p3) as H. split; intros T.
  - rewrite H. tauto.
  - destruct (get_line_intersection p0 p1 p2 p3); auto. exfalso. tauto.
Qed.
Print Assumptions C58_intersection_exact.
Example C58_example :
  transverse (0, 0) (2, 2) (0, 2) (2, 0) /\ cross_at_point (0, 0) (2, 2) (0, 2) (2, 0) /\
  get_line_intersection (0, 0) (2, 2) (0, 2) (2, 0) = true /\
  ~ transverse (0, 0) (2, 0) (1, 0) (3, 0) /\ cross_at_point (0, 0) (2, 0) (1, 0) (3, 0).
Proof.
  assert (T : transverse (0, 0) (2, 2) (0, 2) (2, 0)) by (unfold transverse; cbn; lra).
  assert (C : cross_at_point (0, 0) (2, 2) (0, 2) (2, 0)).
  { exists (1, 1). split; exists (1/2); split; try lra; cbn; f_equal; lra. }
  split; [exact T|]. split; [exact C|]. split; [apply line_intersection_iff; auto|].
  split; [unfold transverse; cbn; lra|]. exists (1, 0). split; [exists (1/2)|exists 0]; split; try lra; cbn; f_equal; lra.
Qed.

(** ** C59 *)
Theorem C59_weights_partial :
  forall p, let w := polygon_self_intersection (map fst p) (map snd p) in
    length w = length p /\ (forall v, In v w -> v = 0 \/ v = 1) /\
    ((forall i, (i < length p)%nat -> ~ crossed p i) -> forall v, In v w -> v = 1) /\
    (forall k c, (0 < k < length p)%nat -> count_crossed p (seq 0 k) c -> nth k w 0 = if Nat.even c then 1 else 0) /\
    (forall c, p <> [] -> count_crossed p (seq 0 (length p)) c -> nth 0 w 0 = if Nat.even c then 1 else 0).
Proof.
  intros p w. split; [apply length_weights|]. split; [intros v; apply weights_01|]. split; [intros H v; now apply weights_simple|].
  split.
  - intros k c Hk Hc. apply weights_parity; [lia|]. destruct k; [lia|exact Hc].
  - intros c Hp Hc. apply weights_parity; [destruct p; [congruence|cbn; lia]|exact Hc].
Qed.
Print Assumptions C59_weights_partial.
(** The first vertex is dropped when an odd number of edges is crossed. *)
Theorem C59_first_vertex_refuted :
  exists p, (0 < length p)%nat /\ nth 0 (polygon_self_intersection (map fst p) (map snd p)) 0 = 0.
Proof. exists spike. split; [cbn; lia|]. rewrite (weights_parity spike 0 3); [reflexivity|cbn; lia|exact spike_count]. Qed.
Print Assumptions C59_first_vertex_refuted.
Example C59_example :
  (forall i, (i < length triangle)%nat -> ~ crossed triangle i) /\ count_crossed spike (seq 0 5) 3 /\
  (forall v, In v (polygon_self_intersection (map fst triangle) (map snd triangle)) -> v = 1).
Proof. split; [exact triangle_simple|]. split; [exact spike_count|]. intros v. apply weights_simple. exact triangle_simple. Qed.

(** ** C60 *)
Theorem C60_arc_angles_partial :
  forall p, (0 < length p)%nat -> 0 < dist2 (corner p 1) (corner p 0) ->
    let th := arc_angles (map fst p) (map snd p) in
    let total := Rsum (map (fun k => dist2 (corner p (k + 1)) (corner p k)) (seq 0 (length p))) in
    length th = length p /\ nth 0 th 0 = 0 /\ (forall k, (k < length p)%nat -> 0 <= nth k th 0 < 1) /\
    (forall k, (S k < length p)%nat -> nth (S k) th 0 = nth k th 0 + dist2 (corner p (S k + 1)) (corner p (S k)) / total).
Proof. intros p Hp H0. exact (arc_angles_valid p Hp H0). Qed.
Print Assumptions C60_arc_angles_partial.
(** The increment belongs to the next edge, not to the edge between the two
    points. *)
Theorem C60_increment_refuted :
  exists p, (0 < length p)%nat /\ 0 < dist2 (corner p 1) (corner p 0) /\
    let th := arc_angles (map fst p) (map snd p) in
    ~ exists a, forall k, (S k < length p)%nat -> nth (S k) th 0 - nth k th 0 = a * dist2 (corner p (S k)) (corner p k).
Proof.
  destruct triangle_sides as (D0 & D1 & D2). exists triangle. split; [cbn; lia|]. split; [change (0 < seg triangle 0); lra|].
  destruct (arc_angles_valid triangle) as (_ & _ & _ & H); [cbn; lia|lra|]. intros th [a Ha].
  pose proof (Ha 0%nat ltac:(cbn; lia)) as A0. pose proof (Ha 1%nat ltac:(cbn; lia)) as A1.
  unfold th in A0, A1. rewrite (H 0%nat) in A0 by (cbn; lia). rewrite (H 1%nat) in A1 by (cbn; lia).
  change (dist2 (corner triangle 1) (corner triangle 0)) with (seg triangle 0) in A0.
  change (dist2 (corner triangle 2) (corner triangle 1)) with (seg triangle 1) in A1.
  assert (ET : Rsum (map (seg triangle) (seq 0 (length triangle))) = 12) by (unfold Rsum; cbn [length triangle seq map fold_right]; fold triangle; rewrite D0, D1, D2; ring).
  rewrite ET, D1, D0 in A0. rewrite ET, D2, D1 in A1. lra.
Qed.
Print Assumptions C60_increment_refuted.
Example C60_example : (0 < length triangle)%nat /\ 0 < dist2 (corner triangle 1) (corner triangle 0).
Proof. split; [cbn; lia|]. change (0 < seg triangle 0). destruct triangle_sides as (D0 & _). lra. Qed.

(** ** C61 *)
Theorem C61_generators_partial :
  forall solve n m gamma d nfp st u mpol ntor pol tor, honest_solver solve ->
    (1 <= n)%nat -> (1 <= m)%nat -> (1 <= pol)%nat -> (1 <= tor)%nat -> rect n m gamma -> (forall v, u = Some v -> rect n m v) ->
    (exists x, gen_winding_surface_arc solve gamma d nfp st u mpol ntor pol tor None "self-intersection" = Ok x /\ length x = legal_length st mpol ntor) /\
    (exists x, gen_winding_surface_offset solve gamma d nfp st u mpol ntor = Ok x /\ length x = legal_length st mpol ntor) /\
    ((n = 1 \/ tor <= if st then 2 else 1)%nat ->
     exists x, gen_winding_surface_atan solve gamma d nfp st u mpol ntor pol tor None = Ok x /\ length x = legal_length st mpol ntor) /\
    (~ (n = 1 \/ tor <= if st then 2 else 1)%nat ->
     gen_winding_surface_atan solve gamma d nfp st u mpol ntor pol tor None = Raise TypeError).
Proof.
  intros solve n m gamma d nfp st u mpol ntor pol tor Hs Hn Hm Hp Ht Hg Hu.
  split; [now apply (arc_ok solve n m)|]. split; [now apply (offset_ok solve n m)|]. split; intros H.
  - apply (atan_ok solve n m); auto. destruct st; [tauto|]. destruct H; [tauto|]. right; lia.
  - apply (atan_raises solve n m); auto; [|destruct st]; lia.
Qed.
Print Assumptions C61_generators_partial.
(** With the default interpolation the atan generator fails for every
    non-symmetric plasma with at least two toroidal points. *)
Theorem C61_nonsymmetric_refuted :
  exists solve n m gamma d nfp mpol ntor, honest_solver solve /\ (1 <= m)%nat /\ rect n m gamma /\
    gen_winding_surface_atan solve gamma d nfp false None mpol ntor 2 2 None = Raise TypeError.
Proof.
  exists ls_solve, 2%nat, 4%nat, quarter_gamma, (1/2), 1%nat, 1%nat, 0%nat. split; [exact ls_honest|]. split; [lia|].
  destruct quarter_rect as [H _]. split; [exact H|]. apply (atan_raises ls_solve 2 4); auto; try lia; [exact ls_honest|discriminate].
Qed.
Print Assumptions C61_nonsymmetric_refuted.
Example C61_example : honest_solver ls_solve /\ rect 2 4 quarter_gamma /\
  exists x, gen_winding_surface_atan ls_solve quarter_gamma (1/2) 1 true None 1 0 2 2 None = Ok x.
Proof.
  split; [exact ls_honest|]. destruct quarter_rect as [H _]. split; [exact H|].
  destruct (atan_ok ls_solve 2 4 quarter_gamma (1/2) 1 true None 1 0 2 2) as (x & E & _); auto; try lia; [exact ls_honest|discriminate|]. eauto.
Qed.

(** ** C82 *)
(** The hull rule leaves out corners of the hull. *)
Theorem C82_hull_refuted :
  exists r z marks i, length z = length r /\ graham_scan r z = Ok marks /\ extreme r z i /\ nth i marks false = false.
Proof.
  exists [0; 1; 1; 0], [0; 0; 1; 1], [false; true; true; true], 0%nat. split; [reflexivity|]. split; [exact square_hull|]. split; [|reflexivity].
  split; [cbn; lia|]. exists (-1), (-1). intros [|[|[|[|j]]]] Hj Hn; cbn in *; try lia; lra.
Qed.
Print Assumptions C82_hull_refuted.

(** ** C83 *)
Theorem C83_rules_partial :
  forall solve gamma d nfp st u mpol ntor pol tor lam rule, rule <> "self-intersection" ->
    forall x, gen_winding_surface_arc solve gamma d nfp st u mpol ntor pol tor lam rule <> Ok x.
Proof. exact generator_rule. Qed.
Print Assumptions C83_rules_partial.
(** The documented rule 'hull' never produces a surface. *)
Theorem C83_hull_refuted :
  forall solve gamma d nfp st u mpol ntor pol tor lam x,
    gen_winding_surface_arc solve gamma d nfp st u mpol ntor pol tor lam "hull" <> Ok x.
Proof. intros. apply generator_rule. discriminate. Qed.
Print Assumptions C83_hull_refuted.
Example C83_example : honest_solver ls_solve /\
  exists x, gen_winding_surface_arc ls_solve quarter_gamma (1/2) 1 true None 1 0 2 2 None "self-intersection" = Ok x.
Proof.
  split; [exact ls_honest|]. destruct quarter_rect as [H _].
  destruct (arc_ok ls_solve 2 4 quarter_gamma (1/2) 1 true None 1 0 2 2) as (x & E & _); auto; try lia; [exact ls_honest|discriminate|]. eauto.
Qed.

(** ** C84 *)
(** No smoothing parameter can be chosen. *)
Theorem C84_smoothing_refuted :
  forall solve gamma d nfp st u mpol ntor pol tor lam rule x,
    gen_winding_surface_atan solve gamma d nfp st u mpol ntor pol tor (Some lam) <> Ok x /\
    gen_winding_surface_arc solve gamma d nfp st u mpol ntor pol tor (Some lam) rule <> Ok x.
Proof. intros. split; apply generator_lam; exact EmptyString. Qed.
Print Assumptions C84_smoothing_refuted.

(** ** C85 *)
Theorem C85_size :
  forall c solve n m gamma d nfp st u mpol ntor pol tor lam rule, 0 < c -> honest_solver solve -> homogeneous_solver solve ->
    (1 <= n)%nat -> (1 <= m)%nat -> (1 <= pol)%nat -> (1 <= tor)%nat -> rect n m gamma -> (forall v, u = Some v -> rect n m v) ->
    (forall x, gen_winding_surface_offset solve gamma d nfp st u mpol ntor = Ok x ->
       gen_winding_surface_offset solve (map (map (scale3 c)) gamma) (c * d) nfp st u mpol ntor = Ok (map (Rmult c) x)) /\
    (forall x, gen_winding_surface_arc solve gamma d nfp st u mpol ntor pol tor lam rule = Ok x ->
       gen_winding_surface_arc solve (map (map (scale3 c)) gamma) (c * d) nfp st u mpol ntor pol tor lam rule = Ok (map (Rmult c) x)) /\
    (forall x, gen_winding_surface_atan solve gamma d nfp st u mpol ntor pol tor lam = Ok x ->
       gen_winding_surface_atan solve (map (map (scale3 c)) gamma) (c * d) nfp st u mpol ntor pol tor lam = Ok (map (Rmult c) x)).
Proof.
  intros c solve n m gamma d nfp st u mpol ntor pol tor lam rule Hc Hs Hh Hn Hm Hp Ht Hg Hu. split; [|split]; intros x E.
  - pose proof (offset_scale c Hc solve gamma d nfp st u mpol ntor Hh) as Q. rewrite E in Q. exact Q.
  - pose proof (arc_scaled c Hc solve n m gamma d nfp st u mpol ntor pol tor lam rule Hs Hh Hn Hm Hp Ht Hg Hu) as Q. rewrite E in Q. exact Q.
  - pose proof (atan_scaled c Hc solve n m gamma d nfp st u mpol ntor pol tor lam Hs Hh Hn Hm Hp Ht Hg Hu) as Q. rewrite E in Q. exact Q.
Qed.
Print Assumptions C85_size.
Example C85_example : honest_solver ls_solve /\ homogeneous_solver ls_solve /\ rect 2 4 quarter_gamma /\
  exists x, gen_winding_surface_arc ls_solve quarter_gamma (1/2) 1 true None 1 0 2 2 None "self-intersection" = Ok x.
Proof. split; [exact ls_honest|]. split; [exact ls_homogeneous|]. split; [apply quarter_rect|]. apply C83_example. Qed.

(** ** C86 *)
Theorem C86_offset_exact :
  forall mpol ntor, exists cl sl, complete_modes mpol ntor cl sl /\
    forall solve n m gamma u d nfp st x0 (phi : nat -> nat -> R),
      honest_solver solve -> (1 <= n)%nat -> rect n m gamma -> rect n m u -> length x0 = legal_length st mpol ntor ->
      let rows := if st then (n / 2)%nat else n in
      (forall i j, (i < rows)%nat -> (j < m)%nat ->
         let rz := coords nfp st cl sl x0 (phi i j) (INR j / INR m) in
         0 < fst rz /\ add3 (node i j gamma) (scale3 d (node i j u)) = cyl_point (phi i j) (fst rz) (snd rz)) ->
      (forall x, length x = legal_length st mpol ntor ->
         (forall i j, (i < rows)%nat -> (j < m)%nat -> coords nfp st cl sl x (phi i j) (INR j / INR m) = (0, 0)) ->
         forall v, In v x -> v = 0) ->
      gen_winding_surface_offset solve gamma d nfp st (Some u) mpol ntor = Ok x0.
Proof.
  intros mpol ntor. exists (cmodes mpol ntor), (smodes mpol ntor). split; [split; [apply cmodes_once|apply smodes_once]|].
  intros. now apply (offset_reproduces solve n m gamma u d nfp st mpol ntor x0 phi).
Qed.
Print Assumptions C86_offset_exact.
(** A circular torus of radii 3 and 1, moved out by 1/2. *)
Example C86_example :
  gen_winding_surface_offset ls_solve quarter_gamma (1/2) 1 true (Some quarter_normals) 1 0 = Ok [3; 3/2; 3/2].
Proof.
  destruct quarter_rect as [H1 H2]. apply (offset_reproduces ls_solve 2 4 quarter_gamma quarter_normals (1/2) 1 true 1 0 [3; 3/2; 3/2] (fun _ _ => 0)); auto.
  - exact ls_honest. - exact quarter_data. - exact quarter_determined.
Qed.
