(** Changing the size of the plasma. *)
From Coq Require Import String List Bool Arith ZArith Reals Lra Lia.
From Verif Require Import Base ModelArray ModelMath SpecMath ProofMath ModelSurface SpecSurface ProofSurface ProofSurface2
  ModelQuadcoil ProofLinear ModelWinding SpecWinding ProofWinding ProofWinding2 ProofWinding3 ProofWinding4.
Import ListNotations.
Open Scope R_scope.

Definition rmap {A B} (f : A -> B) (x : result A) : result B := match x with Ok a => Ok (f a) | Raise e => Raise e end.

Lemma gmap_gmap {A B C} (f : B -> C) (g : A -> B) x : gmap f (gmap g x) = gmap (fun a => f (g a)) x.
Proof. unfold gmap. rewrite map_map. apply map_ext. intros. apply map_map. Qed.
Lemma gmap_ext {A B} (f g : A -> B) x : (forall a, f a = g a) -> gmap f x = gmap g x.
Proof. intros H. unfold gmap. apply map_ext. intros. now apply map_ext. Qed.
Lemma map_map2 {A B C D} (f : C -> D) (g : A -> B -> C) x y : map f (map2 g x y) = map2 (fun a b => f (g a b)) x y.
Proof. revert y; induction x; destruct y; cbn; congruence. Qed.
Lemma map2_ext' {A B C} (f g : A -> B -> C) x y : (forall a b, f a b = g a b) -> map2 f x y = map2 g x y.
Proof. intros H. revert y; induction x; destruct y; cbn; congruence. Qed.
Lemma map2_mapl {A A' B C} (f : A' -> B -> C) (g : A -> A') x y : map2 f (map g x) y = map2 (fun a b => f (g a) b) x y.
Proof. revert y; induction x; destruct y; cbn; congruence. Qed.
Lemma map2_mapr {A B B' C} (f : A -> B' -> C) (g : B -> B') x y : map2 f x (map g y) = map2 (fun a b => f a (g b)) x y.
Proof. revert y; induction x; destruct y; cbn; congruence. Qed.
Lemma gmap2_move {A B A' B' C C'} (f : A' -> B' -> C') (g : A -> A') (h : B -> B') (f' : A -> B -> C) (k : C -> C') x y :
  (forall a b, f (g a) (h b) = k (f' a b)) -> gmap2 f (gmap g x) (gmap h y) = gmap k (gmap2 f' x y).
Proof.
  intros H. unfold gmap2, gmap. rewrite map2_mapl, map2_mapr, map_map2. apply map2_ext'. intros a b.
  rewrite map2_mapl, map2_mapr, map_map2. now apply map2_ext'.
Qed.
Lemma gmap_id' {A} (f : A -> A) x : (forall a, f a = a) -> gmap f x = x.
Proof. intros H. unfold gmap. rewrite (map_ext _ (fun r => r)); [apply map_id|]. intros. rewrite (map_ext _ (fun r => r)); [apply map_id|]. auto. Qed.
Lemma roll_right_map {A B} (f : A -> B) l : roll_right (map f l) = map f (roll_right l).
Proof.
  destruct l as [|x l]; auto. change (last (f x :: map f l) (f x) :: removelast (f x :: map f l) = map f (last (x :: l) x :: removelast (x :: l))).
  assert (E1 : last (f x :: map f l) (f x) = f (last (x :: l) x)).
  { change (f x :: map f l) with (map f (x :: l)). generalize (x :: l) as m. induction m as [|a m IH]; auto. destruct m; auto. }
  assert (E2 : removelast (f x :: map f l) = map f (removelast (x :: l))).
  { change (f x :: map f l) with (map f (x :: l)). generalize (x :: l) as m. induction m as [|a m IH]; auto. destruct m as [|b m]; auto.
    change (removelast (map f (a :: b :: m))) with (f a :: removelast (map f (b :: m))). rewrite IH. reflexivity. }
  rewrite E1, E2. reflexivity.
Qed.
Lemma roll_left_map {A B} (f : A -> B) l : roll_left (map f l) = map f (roll_left l).
Proof. destruct l; auto. cbn. now rewrite map_app. Qed.

Section Scale.
  Variable c : R. Hypothesis Hc : 0 < c.
  Let sc3 := scale3 c.
  Let sc := Rmult c.

  Lemma rot_scale a v : rot_vec a (sc3 v) = sc3 (rot_vec a v).
  Proof. unfold rot_vec, sc3, scale3. cbn. f_equal; ring. Qed.
  Lemma sub_scale a b : sub3 (sc3 a) (sc3 b) = sc3 (sub3 a b).
  Proof. unfold sub3, sc3, scale3. cbn. f_equal; ring. Qed.
  Lemma cross_scale a b : cross3 (sc3 a) (sc3 b) = scale3 (c * c) (cross3 a b).
  Proof. unfold cross3, sc3, scale3. cbn. f_equal; ring. Qed.
  Lemma norm_scale k v : 0 <= k -> norm3 (scale3 k v) = k * norm3 v.
  Proof.
    intros Hk. unfold norm3, dot3, scale3. cbn. replace (_ + _ + _) with ((k * k) * (vx v * vx v + vy v * vy v + vz v * vz v)) by ring.
    rewrite sqrt_mult_alt by nra. now rewrite sqrt_square.
  Qed.
  Lemma unit_scale v : scale3 (/ norm3 (scale3 (c * c) v)) (scale3 (c * c) v) = scale3 (/ norm3 v) v.
  Proof.
    rewrite norm_scale by nra. destruct (Req_dec (norm3 v) 0) as [E|N].
    - rewrite E, Rmult_0_r, Rinv_0. unfold scale3. cbn. f_equal; ring.
    - unfold scale3. cbn. f_equal; field; split; auto; lra.
  Qed.
  Lemma normals_scale nfp g : approx_unitnormal nfp (gmap sc3 g) = approx_unitnormal nfp g.
  Proof.
    unfold approx_unitnormal. set (th := 2 * PI / INR nfp).
    replace (tl (gmap sc3 g) ++ [map (rot_vec th) (hd [] (gmap sc3 g))]) with (gmap sc3 (tl g ++ [map (rot_vec th) (hd [] g)])).
    2:{ unfold gmap. rewrite map_app. destruct g; cbn; auto. do 2 f_equal. rewrite !map_map. apply map_ext. intros. symmetry. apply rot_scale. }
    rewrite (gmap2_move sub3 sc3 sc3 sub3 sc3) by apply sub_scale.
    replace (map (fun row => map2 sub3 (roll_right row) row) (gmap sc3 g)) with (gmap sc3 (map (fun row => map2 sub3 (roll_right row) row) g)).
    2:{ unfold gmap. rewrite !map_map. apply map_ext. intros row. rewrite roll_right_map, map2_mapl, map2_mapr, map_map2. apply map2_ext'. intros. symmetry. apply sub_scale. }
    rewrite (gmap2_move cross3 sc3 sc3 cross3 (scale3 (c * c))) by apply cross_scale.
    rewrite gmap_gmap. apply gmap_ext. intros. apply unit_scale.
  Qed.
  Lemma firstn_gmap {A B} (f : A -> B) k g : firstn k (gmap f g) = gmap f (firstn k g).
  Proof. unfold gmap. apply firstn_map. Qed.
  Lemma length_gmap {A B} (f : A -> B) g : length (gmap f g) = length g.
  Proof. apply map_length. Qed.
  Lemma points_scale g u d st : offset_points (gmap sc3 g) u (c * d) st = gmap sc3 (offset_points g u d st).
  Proof.
    unfold offset_points. cbv zeta. rewrite length_gmap, firstn_gmap.
    assert (E : forall a b, gmap2 (fun p n => add3 p (scale3 (c * d) n)) (gmap sc3 a) b = gmap sc3 (gmap2 (fun p n => add3 p (scale3 d n)) a b)).
    { intros a b. rewrite <- (gmap_id' (fun x : vec3 => x) b) at 1 by auto. apply gmap2_move. intros. unfold add3, sc3, scale3. cbn. f_equal; ring. }
    destruct st; apply E.
  Qed.
  Lemma atan2_scale y x : atan2 (c * y) (c * x) = atan2 y x.
  Proof.
    unfold atan2. destruct (Rlt_dec 0 (c * x)), (Rlt_dec 0 x); try (exfalso; nra).
    - f_equal. field. lra.
    - destruct (Rlt_dec (c * x) 0), (Rlt_dec x 0); try (exfalso; nra).
      + replace (c * y / (c * x)) with (y / x) by (field; lra). destruct (Rle_dec 0 (c * y)), (Rle_dec 0 y); auto; exfalso; nra.
      + destruct (Rlt_dec 0 (c * y)), (Rlt_dec 0 y); auto; try (exfalso; nra).
        destruct (Rlt_dec (c * y) 0), (Rlt_dec y 0); auto; exfalso; nra.
  Qed.
  Lemma radius_scale v : radius (sc3 v) = c * radius v.
  Proof.
    unfold radius, sc3, scale3. cbn. replace (_ + _) with ((c * c) * (vy v * vy v + vx v * vx v)) by ring.
    rewrite sqrt_mult_alt by nra. now rewrite sqrt_square by lra.
  Qed.

  (** The fit. *)
  Lemma shape_gmap {A B} (f : A -> B) g : gshape (gmap f g) = gshape g.
  Proof. unfold gshape, gmap. rewrite map_map. apply map_ext. intros. apply map_length. Qed.
  Lemma same_shape_l {A B C} (f : A -> B) g (h : grid C) : same_shape (gmap f g) h = same_shape g h.
  Proof. unfold same_shape. now rewrite shape_gmap. Qed.
  Lemma same_shape_r {A B C} (f : A -> B) g (h : grid C) : same_shape h (gmap f g) = same_shape h g.
  Proof. unfold same_shape. now rewrite shape_gmap. Qed.
  Lemma concat_gmap {A B} (f : A -> B) g : concat (gmap f g) = map f (concat g).
  Proof. unfold gmap. now rewrite concat_map. Qed.
  Lemma rhs_scale (r z w : list R) :
    concat (map2 (fun rz w => point_rhs (fst rz) (snd rz) w) (combine (map sc r) (map sc z)) w)
    = map sc (concat (map2 (fun rz w => point_rhs (fst rz) (snd rz) w) (combine r z) w)).
  Proof.
    revert z w; induction r; intros [|b z] [|v w]; cbn; auto. rewrite IHr. unfold sc. f_equal; [ring|f_equal; ring].
  Qed.
  Lemma tdotv_scale n A b : tdotv n A (map sc b) = map sc (tdotv n A b).
  Proof.
    unfold tdotv. rewrite map_map. apply map_ext. intros i. generalize (col A i) as a. intros a. revert b; induction a as [|x a IH]; intros [|y b]; unfold ldot in *; cbn in *; unfold sc in *; try ring.
    rewrite IH. ring.
  Qed.
  Lemma gones_gmap {A B} (f : A -> B) g : gones (gmap f g) = gones g.
  Proof. unfold gones. now rewrite gmap_gmap. Qed.
  Lemma fit_scale solve phi theta r z nfp st mpol ntor lam w : homogeneous_solver solve ->
    fit_surfacerzfourier solve phi theta (gmap sc r) (gmap sc z) nfp st mpol ntor lam w
    = rmap (map sc) (fit_surfacerzfourier solve phi theta r z nfp st mpol ntor lam w).
  Proof.
    intros Hh. unfold fit_surfacerzfourier. rewrite !same_shape_l, !same_shape_r.
    destruct (negb (same_shape phi theta)); auto. destruct (negb (same_shape r z)); auto.
    cbv zeta. rewrite gones_gmap, !concat_gmap.
    assert (F : forall wb A M, (if Nat.eqb (length A) (length (concat (map2 (fun rz w => point_rhs (fst rz) (snd rz) w) (combine (map sc (concat r)) (map sc (concat z))) wb)))
       then Ok (solve M (tdotv (length (m2_n2 st mpol ntor)) A (concat (map2 (fun rz w => point_rhs (fst rz) (snd rz) w) (combine (map sc (concat r)) (map sc (concat z))) wb)))) else Raise TypeError)
      = rmap (map sc) (if Nat.eqb (length A) (length (concat (map2 (fun rz w => point_rhs (fst rz) (snd rz) w) (combine (concat r) (concat z)) wb)))
       then Ok (solve M (tdotv (length (m2_n2 st mpol ntor)) A (concat (map2 (fun rz w => point_rhs (fst rz) (snd rz) w) (combine (concat r) (concat z)) wb)))) else Raise TypeError)).
    { intros wb A M. rewrite rhs_scale, map_length, tdotv_scale. destruct (Nat.eqb _ _); auto. cbn [rmap]. f_equal. apply Hh. }
    destruct w as [w|]; [|apply F]. rewrite ?same_shape_l. destruct (negb (same_shape w phi)); auto. destruct (negb (same_shape r w)); auto.
  Qed.
  Lemma offset_scale solve g d nfp st u mpol ntor : homogeneous_solver solve ->
    gen_winding_surface_offset solve (gmap sc3 g) (c * d) nfp st u mpol ntor
    = rmap (map sc) (gen_winding_surface_offset solve g d nfp st u mpol ntor).
  Proof.
    intros Hh. unfold gen_winding_surface_offset. destruct g as [|row g'] eqn:E; auto.
    cbn [gmap map]. change (map sc3 row :: map (map sc3) g') with (gmap sc3 (row :: g')). rewrite <- E.
    rewrite normals_scale. rewrite same_shape_r.
    destruct (negb _); auto. rewrite map_length, points_scale. cbv zeta. rewrite <- fit_scale by auto.
    rewrite !gmap_gmap. set (pts := offset_points _ _ _ _).
    rewrite (gmap_ext (fun a => radius (sc3 a)) (fun a => sc (radius a)) pts) by (intros; apply radius_scale).
    assert (EP : gmap (fun a => atan2 (vy (sc3 a)) (vx (sc3 a)) / PI / 2) pts = gmap (fun p => atan2 (vy p) (vx p) / PI / 2) pts)
      by (apply gmap_ext; intros; unfold sc3; cbn [scale3 vx vy]; now rewrite atan2_scale).
    rewrite EP. reflexivity.
  Qed.

  (** The contours. *)
  Lemma ldot_scale_dofs a x : ldot a (map sc x) = c * ldot a x.
  Proof. revert x; induction a as [|y a IH]; intros [|b x]; unfold ldot in *; cbn in *; unfold sc in *; try (rewrite IH); ring. Qed.
  Lemma pt_scale nfp st mpol ntor x p t : pt (plain nfp st mpol ntor (map sc x)) 0 0 p t = sc3 (pt (plain nfp st mpol ntor x) 0 0 p t).
  Proof.
    rewrite !pt00. unfold cyl_point, sc3, scale3, rval, zval. cbn [plain s_nfp s_stellsym s_mpol s_ntor s_dofs vx vy vz]. rewrite !ldot_scale_dofs. f_equal; ring.
  Qed.
  Lemma interpolated_scale solve n m g d nfp st u mpol ntor pol tor : honest_solver solve -> homogeneous_solver solve ->
    (1 <= n)%nat -> (1 <= m)%nat -> (1 <= pol)%nat -> (1 <= tor)%nat -> rect n m g -> (forall v, u = Some v -> rect n m v) ->
    exists phi pts, interpolated solve g d nfp st u mpol ntor pol tor = Ok (phi, pts) /\
      interpolated solve (gmap sc3 g) (c * d) nfp st u mpol ntor pol tor = Ok (phi, gmap sc3 pts).
  Proof.
    intros Hs Hh Hn Hm Hp Ht Hg Hu. destruct (offset_ok solve n m g d nfp st u mpol ntor Hs Hn Hg Hu) as (x & E & L).
    destruct (interpolated_ok solve n m g d nfp st u mpol ntor pol tor x Hn Hm Hp Ht Hg E L) as [_ E1].
    destruct (interpolated_ok solve n m (gmap sc3 g) (c * d) nfp st u mpol ntor pol tor (map sc x) Hn Hm Hp Ht) as [_ E2].
    - now apply rect_gmap. - rewrite offset_scale, E by auto. reflexivity. - now rewrite map_length.
    - eexists _, _. split; [exact E1|]. rewrite E2. do 2 f_equal. unfold sample, gmap. rewrite map_map. apply map_ext. intros. rewrite map_map. apply map_ext. intros. apply pt_scale.
  Qed.
  Let scp (p : R * R) := (c * fst p, c * snd p).
  Lemma line_scale p0 p1 p2 p3 : get_line_intersection (scp p0) (scp p1) (scp p2) (scp p3) = get_line_intersection p0 p1 p2 p3.
  Proof.
    unfold get_line_intersection, scp. cbn [fst snd].
    set (D := - (fst p3 - fst p2) * (snd p1 - snd p0) + (fst p1 - fst p0) * (snd p3 - snd p2)).
    replace (- (c * fst p3 - c * fst p2) * (c * snd p1 - c * snd p0) + (c * fst p1 - c * fst p0) * (c * snd p3 - c * snd p2)) with (c * c * D) by (unfold D; ring).
    destruct (Req_EM_T D 0) as [E|N], (Req_EM_T (c * c * D) 0) as [E'|N']; auto.
    { exfalso. apply N'. rewrite E. ring. }
    { exfalso. apply Rmult_integral in E' as [E'|E']; [nra|auto]. }
    replace ((- (c * snd p1 - c * snd p0) * (c * fst p0 - c * fst p2) + (c * fst p1 - c * fst p0) * (c * snd p0 - c * snd p2)) * (1 / (c * c * D)))
      with ((- (snd p1 - snd p0) * (fst p0 - fst p2) + (fst p1 - fst p0) * (snd p0 - snd p2)) * (1 / D)) by (field; split; [auto|lra]).
    replace (((c * fst p3 - c * fst p2) * (c * snd p0 - c * snd p2) - (c * snd p3 - c * snd p2) * (c * fst p0 - c * fst p2)) * (1 / (c * c * D)))
      with (((fst p3 - fst p2) * (snd p0 - snd p2) - (snd p3 - snd p2) * (fst p0 - fst p2)) * (1 / D)) by (field; split; [auto|lra]).
    reflexivity.
  Qed.
  Let sce (e : (R * R) * (R * R)) := (scp (fst e), scp (snd e)).
  Lemma combine_map' {A B A' B'} (f : A -> A') (g : B -> B') x y : combine (map f x) (map g y) = map (fun p => (f (fst p), g (snd p))) (combine x y).
  Proof. revert y; induction x; destruct y; cbn; congruence. Qed.
  Lemma self_scale es a e : has_self_intersection (map sce es) a (sce e) = has_self_intersection es a e.
  Proof.
    unfold has_self_intersection. rewrite map_length. rewrite <- (map_id (seq 0 (length es))) at 1. rewrite combine_map'.
    generalize (combine (seq 0 (length es)) es) as l. induction l as [|b l IH]; auto. cbn [map existsb fst snd]. rewrite IH. f_equal.
    unfold sce at 1 2 3 4. cbn [fst snd]. now rewrite line_scale.
  Qed.
  Lemma scan_scale es l : forall a w, scan_weights (map sce es) a w (map sce l) = scan_weights es a w l.
  Proof. induction l as [|e l IH]; intros; cbn [map scan_weights]; auto. rewrite self_scale, IH. reflexivity. Qed.
  Lemma selfint_scale r z : polygon_self_intersection (map sc r) (map sc z) = polygon_self_intersection r z.
  Proof.
    unfold polygon_self_intersection. cbv zeta. rewrite combine_map'. 
    replace (map (fun p => (sc (fst p), sc (snd p))) (combine r z)) with (map scp (combine r z)) by reflexivity.
    rewrite roll_left_map, combine_map'.
    replace (map (fun p => (scp (fst p), scp (snd p))) (combine (combine r z) (roll_left (combine r z)))) with (map sce (combine (combine r z) (roll_left (combine r z)))) by reflexivity.
    now rewrite scan_scale.
  Qed.
  Lemma cumsum_scale l : forall acc, cumsum (c * acc) (map sc l) = map sc (cumsum acc l).
  Proof. induction l as [|a l IH]; intros; cbn [cumsum map]; auto. replace (c * acc + sc a) with (c * (acc + a)) by (unfold sc; ring). now rewrite IH. Qed.
  Lemma segment_scale r z : segment_lengths (map sc r) (map sc z) = map sc (segment_lengths r z).
  Proof.
    unfold segment_lengths. rewrite !roll_left_map, !map2_mapl, !map2_mapr, map_map2.
    assert (E : forall l m, map2 (fun a b => sc a - sc b) l m = map sc (map2 Rminus l m)).
    { intros. rewrite map_map2. apply map2_ext'. intros. unfold sc. ring. }
    rewrite !E, map2_mapl, map2_mapr. apply map2_ext'. intros a b. unfold sc.
    replace (c * a * (c * a) + c * b * (c * b)) with (c * c * (a * a + b * b)) by ring. rewrite sqrt_mult_alt by nra. now rewrite sqrt_square by lra.
  Qed.
  Lemma last_map' (l : list R) : last (map sc l) 0 = c * last l 0.
  Proof. induction l as [|a l IH]; [cbn; ring|]. destruct l; [reflexivity|]. exact IH. Qed.
  Lemma arc_scale r z : arc_angles (map sc r) (map sc z) = arc_angles r z.
  Proof.
    unfold arc_angles. rewrite segment_scale. replace (cumsum 0 (map sc (segment_lengths r z))) with (map sc (cumsum 0 (segment_lengths r z)))
      by (rewrite <- cumsum_scale; now rewrite Rmult_0_r).
    set (l := cumsum 0 (segment_lengths r z)). cbv zeta. rewrite last_map'. replace (hd 0 (map sc l)) with (c * hd 0 l) by (destruct l; cbn; unfold sc; ring).
    rewrite map_map. apply map_ext. intros a. unfold sc. destruct (Req_dec (last l 0) 0) as [E|N].
    - rewrite E, Rmult_0_r. unfold Rdiv. rewrite Rinv_0. ring.
    - field. split; auto; lra.
  Qed.
  Lemma map2_rows_scale {A} (f : list R -> list R -> A) r z : (forall a b, f (map sc a) (map sc b) = f a b) ->
    map2 f (gmap sc r) (gmap sc z) = map2 f r z.
  Proof. intros H. unfold gmap. rewrite map2_mapl, map2_mapr. apply map2_ext'. auto. Qed.
  Lemma gmap_radius_scale g : gmap radius (gmap sc3 g) = gmap sc (gmap radius g).
  Proof. rewrite !gmap_gmap. apply gmap_ext. intros. apply radius_scale. Qed.
  Lemma gmap_vz_scale g : gmap vz (gmap sc3 g) = gmap sc (gmap vz g).
  Proof. rewrite !gmap_gmap. apply gmap_ext. intros. reflexivity. Qed.
  Theorem arc_scaled solve n m g d nfp st u mpol ntor pol tor lam rule : honest_solver solve -> homogeneous_solver solve ->
    (1 <= n)%nat -> (1 <= m)%nat -> (1 <= pol)%nat -> (1 <= tor)%nat -> rect n m g -> (forall v, u = Some v -> rect n m v) ->
    gen_winding_surface_arc solve (gmap sc3 g) (c * d) nfp st u mpol ntor pol tor lam rule
    = rmap (map sc) (gen_winding_surface_arc solve g d nfp st u mpol ntor pol tor lam rule).
  Proof.
    intros Hs Hh Hn Hm Hp Ht Hg Hu. destruct (interpolated_scale solve n m g d nfp st u mpol ntor pol tor Hs Hh Hn Hm Hp Ht Hg Hu) as (phi & pts & E1 & E2).
    unfold gen_winding_surface_arc. rewrite E1, E2. cbn [bind]. rewrite gmap_radius_scale, gmap_vz_scale.
    set (r := gmap radius pts). set (z := gmap vz pts).
    replace (rule_weights rule (gmap sc r) (gmap sc z)) with (rule_weights rule r z).
    2:{ unfold rule_weights. rewrite map2_rows_scale by apply selfint_scale. reflexivity. }
    rewrite map2_rows_scale by apply arc_scale. destruct (rule_weights rule r z); auto. cbn [bind]. destruct (static_lam lam); auto. cbn [bind]. now apply fit_scale.
  Qed.
  Lemma average_scale g : row_average (gmap sc g) = map sc (row_average g).
  Proof.
    unfold row_average, gmap. rewrite !map_map. apply map_ext. intros row. rewrite map_length.
    replace (fold_right Rplus 0 (map sc row)) with (c * fold_right Rplus 0 row) by (induction row; cbn; [ring|]; rewrite <- IHrow; unfold sc; ring).
    unfold sc, Rdiv. ring.
  Qed.
  Lemma sub_column_scale g x : sub_column (gmap sc g) (map sc x) = rmap (gmap sc) (sub_column g x).
  Proof.
    assert (R1 : forall (row : list R) v, map (fun a => a - sc v) (map sc row) = map sc (map (fun a => a - v) row)).
    { intros. rewrite !map_map. apply map_ext. intros. unfold sc. ring. }
    unfold sub_column. rewrite map_length, length_gmap. destruct (Nat.eqb (length x) (length g)).
    - cbn [rmap]. unfold gmap. rewrite map2_mapl, map2_mapr, map_map2. apply f_equal. apply map2_ext'. intros. apply R1.
    - destruct x as [|v [|v' x]]; cbn [map].
      + destruct g as [|r [|r' g]]; reflexivity.
      + cbn [rmap]. unfold gmap. rewrite !map_map. apply f_equal. apply map_ext. intros. apply R1.
      + destruct g as [|r [|r' g]]; try reflexivity. cbn [gmap map rmap]. rewrite !R1. do 3 apply f_equal. rewrite !map_map. apply map_ext. intros. apply R1.
  Qed.
  Lemma centre_scale g st tor : centre_rows (gmap sc3 g) st tor = gmap sc3 (centre_rows g st tor).
  Proof. unfold centre_rows. rewrite length_gmap, firstn_gmap. destruct st; auto. Qed.
  Theorem atan_scaled solve n m g d nfp st u mpol ntor pol tor lam : honest_solver solve -> homogeneous_solver solve ->
    (1 <= n)%nat -> (1 <= m)%nat -> (1 <= pol)%nat -> (1 <= tor)%nat -> rect n m g -> (forall v, u = Some v -> rect n m v) ->
    gen_winding_surface_atan solve (gmap sc3 g) (c * d) nfp st u mpol ntor pol tor lam
    = rmap (map sc) (gen_winding_surface_atan solve g d nfp st u mpol ntor pol tor lam).
  Proof.
    intros Hs Hh Hn Hm Hp Ht Hg Hu. destruct (interpolated_scale solve n m g d nfp st u mpol ntor pol tor Hs Hh Hn Hm Hp Ht Hg Hu) as (phi & pts & E1 & E2).
    unfold gen_winding_surface_atan. rewrite E1, E2. cbn [bind]. rewrite centre_scale, !gmap_radius_scale, !gmap_vz_scale, !average_scale.
    set (r := gmap radius pts). set (z := gmap vz pts). cbv zeta. rewrite !sub_column_scale. rewrite map2_rows_scale by apply selfint_scale.
    destruct (sub_column z _) as [dz|]; auto. cbn [bind rmap]. destruct (sub_column r _) as [dr|]; auto. cbn [bind rmap].
    replace (gmap2 (fun a b => atan2 a b / PI / 2) (gmap sc dz) (gmap sc dr)) with (gmap2 (fun a b => atan2 a b / PI / 2) dz dr).
    2:{ rewrite (gmap2_move _ sc sc (fun a b => atan2 a b / PI / 2) (fun x => x)); [symmetry; apply gmap_id'; auto|]. intros. unfold sc. now rewrite atan2_scale. }
    destruct (orb _ _); auto. destruct (static_lam lam); auto. cbn [bind]. now apply fit_scale.
  Qed.
End Scale.
