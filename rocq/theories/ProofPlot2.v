(** Lemmas about the plots of whole problems. *)
From Coq Require Import String List Bool Arith ZArith Reals Lra Lia.
From Verif Require Import Base ModelArray ModelMath ModelQuantity ModelWrapper ModelSurface ModelParams ModelQuadcoil ModelPlot
  SpecMath SpecQuantity SpecWrapper SpecWinding SpecPlot ProofArray ProofQuadcoil ProofPlot.
Import ListNotations.
Open Scope R_scope.
Open Scope string_scope.
Open Scope list_scope.

Section Panels.
  Variable P : Type.
  Variable ndofs : P -> nat.
  Variable ns : namespace P.
  Variables (qp : P) (d : dofs) (i j : nat) (ri rj : R) (phi : arr).
  Hypothesis Hphi : lookup "phi" d = Some phi.
  Hypothesis Nij : i <> j.
  Hypothesis Hi : (i < length (el phi))%nat.
  Hypothesis Hj : (j < length (el phi))%nat.
  Let xs n := linspace_closed ((1 - ri) * nth i (el phi) 0) ((1 + ri) * nth i (el phi) 0) n.
  Let ys n := linspace_closed ((1 - rj) * nth j (el phi) 0) ((1 + rj) * nth j (el phi) 0) n.

  Definition put (a b : R) : dofs := dict_set d "phi" (Arr (sh phi) (set_at (set_at (el phi) i a) j b)).
  Lemma put_moved a b : moved d i j a b (put a b).
  Proof using Hphi Nij Hi Hj.
    exists phi, (Arr (sh phi) (set_at (set_at (el phi) i a) j b)). split; [exact Hphi|]. unfold put.
    split; [rewrite lookup_set, String.eqb_refl; reflexivity|]. cbn [sh el]. split; [reflexivity|]. split; [now rewrite !set_at_length|].
    split; [|split; [|split]].
    - rewrite set_at_nth, set_at_length. destruct (Nat.eqb_spec i j); [contradiction|]. cbn [andb]. rewrite set_at_nth, Nat.eqb_refl.
      destruct (Nat.ltb_spec i (length (el phi))); [reflexivity|lia].
    - rewrite set_at_nth, set_at_length, Nat.eqb_refl. destruct (Nat.ltb_spec j (length (el phi))); [reflexivity|lia].
    - intros m Nm Nm'. rewrite !set_at_nth. destruct (Nat.eqb_spec m j); [contradiction|]. destruct (Nat.eqb_spec m i); [contradiction|]. reflexivity.
    - intros key Nk. rewrite lookup_set. destruct (String.eqb_spec key "phi"); [contradiction|reflexivity].
  Qed.
  Lemma eval_put f a b : plot_eval P f qp d i j a b = f qp (put a b).
  Proof using Hphi. unfold plot_eval, getitem. rewrite Hphi. reflexivity. Qed.
  Lemma clamp_at k : (k < length (el phi))%nat -> getclamp (el phi) k = Ok (nth k (el phi) 0).
  Proof.
    intros Hk. unfold getclamp. destruct (el phi) as [|x l] eqn:Ee; [cbn in Hk; lia|].
    rewrite Nat.min_l by (cbn [length] in *; lia). reflexivity.
  Qed.
  Lemma all_ok_map {A B} (g : A -> result B) (h : A -> B) l : (forall x, g x = Ok (h x)) -> all_ok (map g l) = Ok (map h l).
  Proof. intros E. induction l as [|x l IH]; [reflexivity|]. cbn [map all_ok]. rewrite E, IH. reflexivity. Qed.

  Lemma panel_ok name u n cm ct cv pc f : (2 <= n)%nat -> plot_function P ndofs ns name u cm ct (match cv with Some v => v | None => 0 end) = Ok f ->
    (cm = true -> cv <> None) -> pc || cm = true -> (forall a b d', moved d i j a b d' -> exists v, f qp d' = Ok (scal v)) ->
    exists p, plot_panel P ndofs ns name qp d i j ri rj u n cm ct cv pc = Ok p /\ pn_name p = name /\ pn_constraint p = cm /\
      panel_over n d i j (xs n) (ys n) (fun d' z => f qp d' = Ok (scal z)) p.
  Proof using Hphi Nij Hi Hj.
    intros Hn Ef Hcv Hpc Hf. unfold plot_panel, plot_quantity. unfold getitem at 1. rewrite Hphi. cbn [bind].
    rewrite (clamp_at i Hi), (clamp_at j Hj). cbn [bind]. rewrite Ef. cbn [bind]. fold (xs n) (ys n).
    replace (match cm, cv with true, None => Raise AttributeError | _, _ => Ok tt end) with (@Ok unit tt).
    2:{ destruct cm, cv; try reflexivity. exfalso. now apply Hcv. }
    cbn [bind]. set (h := fun a b => match f qp (put a b) with Ok v => hd 0 (el v) | Raise _ => 0 end).
    assert (Hh : forall a b, f qp (put a b) = Ok (scal (h a b))).
    { intros a b. unfold h. destruct (Hf a b (put a b) (put_moved a b)) as (v & ->). reflexivity. }
    rewrite (all_ok_map _ (fun a => map (fun b => scal (h a b)) (ys n))).
    2:{ intros a. apply all_ok_map. intros b. rewrite eval_put. apply Hh. }
    cbn [bind]. rewrite Hpc. unfold contour.
    assert (Lx : length (xs n) = n) by apply linspace_length. assert (Ly : length (ys n) = n) by apply linspace_length.
    rewrite map_length, Lx. destruct (Nat.ltb_spec n 2); [lia|].
    replace (forallb _ _) with true.
    2:{ symmetry. apply forallb_forall. intros r Hr. apply in_map_iff in Hr as (a & <- & _). apply forallb_forall. intros y Hy. apply in_map_iff in Hy as (b & <- & _). reflexivity. }
    cbn [bind]. eexists. split; [reflexivity|]. cbn [pn_name pn_constraint]. split; [reflexivity|]. split; [reflexivity|].
    split; [reflexivity|]. split; [reflexivity|]. split; [exact Lx|]. split; [exact Ly|].
    intros k l Hk Hl. cbn [pn_z]. exists (put (nth k (xs n) 0) (nth l (ys n) 0)). split; [apply put_moved|]. rewrite Hh. f_equal. f_equal.
    rewrite map_map. rewrite (nth_indep _ [] (map (fun a : arr => hd 0 (el a)) (map (fun b => scal (h 0 b)) (ys n)))) by (rewrite map_length; lia).
    rewrite (map_nth (fun a => map (fun a : arr => hd 0 (el a)) (map (fun b => scal (h a b)) (ys n)))), map_map. cbn [scal el hd].
    set (x0 := nth k (xs n) 0). set (y0 := nth l (ys n) 0).
    rewrite (nth_indep (map _ (ys n)) 0 (h x0 0)) by (rewrite map_length; lia). now rewrite (map_nth (h x0)).
  Qed.

  (** The panel of one constraint. *)
  Lemma constraint_panel name t u v func c k : drawable ns qp d i j (name, t, u, v) (func, c, k) ->
    exists p, plot_panel P ndofs ns name qp d i j ri rj u 100 true t (Some v) false = Ok p /\ marks qp d i j (xs 100) (ys 100) (name, t, u, v) (func, c, k) p.
  Proof using Hphi Nij Hi Hj.
    intros (Nc & -> & -> & Nk & Sup & (q & Hq & Sm) & Hd).
    destruct (inequality_plot P ndofs ns name k c v q func Nc Nk Sup Hq Sm) as (f & Ef & Hf).
    destruct (panel_ok name (UScalar k) 100 true (op_string c) (Some v) false f) as (p & Ep & E1 & E2 & E3); try reflexivity; try discriminate; auto.
    { apply Nat.leb_le. reflexivity. }
    { intros a b d' Hm. destruct (Hd a b d' Hm) as (fld & F1 & F2 & F3). destruct (Hf qp d' fld F1 F2 F3) as (z & Ez & _). eauto. }
    exists p. split; [exact Ep|]. split; [exact E1|]. split; [exact E2|]. destruct E3 as (X & Y & LX & LY & K).
    repeat (split; [assumption|]). intros k' l Hk Hl. destruct (K k' l Hk Hl) as (d' & Hm & Ez). exists d'. split; [exact Hm|].
    destruct (Hd _ _ d' Hm) as (fld & F1 & F2 & F3). exists fld. split; [exact F1|]. destruct (Hf qp d' fld F1 F2 F3) as (z & Ez' & A & B).
    rewrite Ez in Ez'. unfold scal in Ez'. assert (Q : z = nth l (nth k' (pn_z p) []) 0) by congruence. rewrite <- Q. split; assumption.
  Qed.
  Lemma constraint_panels gs : forall ms, Forall2 (drawable ns qp d i j) gs ms ->
    exists ps, plot_constraints P ndofs ns qp d i j ri rj (names_of gs) (types_of gs) (units_of gs) (values_of gs) = Ok ps /\
      length ps = length gs /\
      forall m, (m < length gs)%nat -> forall g ms', nth_error gs m = Some g -> nth_error ms m = Some ms' -> exists p, nth_error ps m = Some p /\ marks qp d i j (xs 100) (ys 100) g ms' p.
  Proof using Hphi Nij Hi Hj.
    induction gs as [|g gs IH]; intros ms F; inversion F as [|g' [[func c] k] gs' ms' D F']; subst.
    - exists []. split; [reflexivity|]. split; [reflexivity|]. intros m Hm. cbn in Hm. lia.
    - destruct g as [[[name t] u] v]. destruct (constraint_panel name t u v func c k D) as (p & Ep & Mp).
      destruct (IH ms' F') as (ps & Eps & L & K).
      exists (p :: ps). cbn [names_of types_of units_of values_of map plot_constraints fst snd]. rewrite Ep. cbn [bind].
      change (map (fun g : string * string * unit_arg * R => fst (fst (fst g))) gs) with (names_of gs).
      change (map (fun g : string * string * unit_arg * R => snd (fst (fst g))) gs) with (types_of gs).
      change (map (fun g : string * string * unit_arg * R => snd (fst g)) gs) with (units_of gs).
      change (map (@snd (string * string * unit_arg) R) gs) with (values_of gs). rewrite Eps. cbn [bind].
      split; [reflexivity|]. split; [cbn [length]; now rewrite L|].
      intros [|m] Hm g0 m0 Eg Em; cbn [nth_error] in *.
      + exists p. split; [reflexivity|]. injection Eg as <-. injection Em as <-. exact Mp.
      + apply (K m); auto. cbn [length] in Hm. lia.
  Qed.
  (** The whole figure. *)
  Lemma figure name q u gs ms kw : ns name = Some (AQuantity q) -> (forall a b d', moved d i j a b d' -> exists v, call q qp d' = Ok (scal v)) ->
    Forall2 (drawable ns qp d i j) gs ms ->
    exists p ps, plot_quadcoil P ndofs ns qp d (OneName name) (UScalar u) (names_of gs) (types_of gs) (units_of gs) (values_of gs) i j ri rj kw = Ok (p :: ps) /\
      pn_name p = name /\ pn_constraint p = false /\
      panel_over 100 d i j (xs 100) (ys 100) (fun d' z => exists v, call q qp d' = Ok (scal v) /\ z = v / u) p /\
      length ps = length gs /\
      forall m g ms', nth_error gs m = Some g -> nth_error ms m = Some ms' -> exists p', nth_error ps m = Some p' /\ marks qp d i j (xs 100) (ys 100) g ms' p'.
  Proof using Hphi Nij Hi Hj.
    intros Hq Hv F.
    destruct (panel_ok name (UScalar u) 100 false "" None true (fun qp d => bind (get_quantity ns name) (fun q => bind (call q qp d) (fun v => divide_by v (UScalar u)))))
      as (p & Ep & E1 & E2 & E3); try reflexivity; try discriminate.
    { apply Nat.leb_le. reflexivity. }
    { intros a b d' Hm. destruct (Hv a b d' Hm) as (v & Ev). exists (v / u). unfold get_quantity. rewrite Hq. cbn [bind]. rewrite Ev. reflexivity. }
    destruct (constraint_panels gs ms F) as (ps & Eps & L & K). exists p, ps. unfold plot_quadcoil. rewrite Ep. cbn [bind]. rewrite Eps. cbn [bind].
    split; [reflexivity|]. split; [exact E1|]. split; [exact E2|]. split.
    - destruct E3 as (X & Y & LX & LY & K'). repeat (split; [assumption|]). intros k l Hk Hl. destruct (K' k l Hk Hl) as (d' & Hm & Ez).
      exists d'. split; [exact Hm|]. destruct (Hv _ _ d' Hm) as (v & Ev). exists v. split; [exact Ev|].
      unfold get_quantity in Ez. rewrite Hq in Ez. cbn [bind] in Ez. rewrite Ev in Ez. cbn [bind divide_by] in Ez.
      change (op2 Rdiv (scal v) (scal u)) with (Ok (scal (v / u))) in Ez. unfold scal in Ez. congruence.
    - split; [exact L|]. intros m g ms' Eg Em. apply (K m); auto. apply nth_error_Some. congruence.
  Qed.
End Panels.

Lemma all_ok_raise {A} (e : exn) (l : list (result A)) : exists e', all_ok (Raise e :: l) = Raise e'.
Proof. cbn. eauto. Qed.
(** Nothing is drawn without a numerical unit for the objective. *)
Lemma no_unit P ndofs (ns : namespace P) qp d o u names types units values i j ri rj kw : (forall k, u <> UScalar k) ->
  exists e, plot_quadcoil P ndofs ns qp d o u names types units values i j ri rj kw = Raise e.
Proof.
  intros Nu. unfold plot_quadcoil. destruct o as [name|l].
  2:{ destruct (getitem d "phi") as [phi|]; [|cbn; eauto]. cbn [bind]. destruct (getclamp (el phi) i); [|cbn; eauto]. cbn [bind].
      destruct (getclamp (el phi) j); cbn; eauto. }
  unfold plot_panel, plot_quantity. destruct (getitem d "phi") as [phi|] eqn:Ep; [|cbn; eauto]. cbn [bind]. destruct (getclamp (el phi) i) as [a|]; [|cbn; eauto]. cbn [bind].
  destruct (getclamp (el phi) j) as [b|]; [|cbn; eauto]. cbn [bind plot_function].
  assert (E : forall x y, exists e, plot_eval P (fun qp d => bind (get_quantity ns name) (fun q => bind (call q qp d) (fun v => divide_by v u))) qp d i j x y = Raise e).
  { intros x y. unfold plot_eval. rewrite Ep. cbn [bind]. destruct (get_quantity ns name) as [q|]; [|cbn; eauto]. cbn [bind]. destruct (call q qp _); [|cbn; eauto]. cbn [bind].
    destruct u as [|k|]; cbn; eauto. exfalso. now apply (Nu k). }
  set (xs := linspace_closed ((1 - ri) * a) ((1 + ri) * a) 100). set (ys := linspace_closed ((1 - rj) * b) ((1 + rj) * b) 100).
  assert (Lx : length xs = 100%nat) by apply linspace_length. assert (Ly : length ys = 100%nat) by apply linspace_length. clearbody xs ys.
  destruct xs as [|x xs]; [discriminate Lx|]. destruct ys as [|y ys]; [discriminate Ly|]. cbn [map all_ok].
  destruct (E x y) as (e & ->). cbn [bind]. eauto.
Qed.
(** Nor with several objectives. *)
Lemma no_tuple P ndofs (ns : namespace P) qp d l u names types units values i j ri rj kw :
  exists e, plot_quadcoil P ndofs ns qp d (Names l) u names types units values i j ri rj kw = Raise e.
Proof.
  unfold plot_quadcoil. destruct (getitem d "phi") as [phi|]; [|cbn; eauto]. cbn [bind]. destruct (getclamp (el phi) i); [|cbn; eauto]. cbn [bind].
  destruct (getclamp (el phi) j); cbn; eauto.
Qed.
