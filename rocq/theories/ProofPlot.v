(** Lemmas behind the properties of the plots and VTK files. *)
From Coq Require Import String List Bool Arith ZArith Reals Lra Lia.
From Verif Require Import Base ModelArray ModelMath ModelQuantity ModelWrapper ModelSurface ModelParams ModelQuadcoil ModelPlot
  SpecMath SpecQuantity SpecWrapper ProofArray ProofMath ProofQuantity ProofSlack ProofWrapper ProofWrapper2 ProofQuadcoil.
Import ListNotations.
Open Scope R_scope.
Open Scope string_scope.
Open Scope list_scope.

(** ** Constraint mode *)
Lemma approx_lists P ndofs (ns : namespace P) name u use sp a :
  add_quantity ndofs ns name u use (Some "approx") sp = Ok a -> ad_g a = [] /\ ad_h a = [].
Proof.
  unfold add_quantity. destruct (get_quantity ns name) as [q|]; [|discriminate]. cbn [bind].
  destruct (scaled_f_impl q (Some "approx") sp) as [f|]; [|discriminate]. cbn [bind].
  unfold scaled_g_ineq_impl, scaled_h_eq_impl, scaled_slack_dofs_init, slack_only.
  cbn [bind String.eqb Ascii.eqb Bool.eqb].
  destruct (negb (mem use (q_compat q))); [discriminate|]. destruct (unit_callable ndofs q u); [|discriminate]. cbn [bind].
  intros [= <-]. auto.
Qed.
(** What the function to plot is. *)
Lemma plot_function_ok P ndofs (ns : namespace P) name u t val :
  match add_quantity ndofs ns name u t (Some "approx") [("lse_epsilon", / 10 ^ 10)] with
  | Ok a => plot_function P ndofs ns name u true t val =
      if String.eqb t "==" then Raise IndexError
      else if mem t ["<="; ">="] then Ok (cons_func_centered (ad_f a) val (ad_unit a) (sign_of t) (Some "approx") [("lse_epsilon", / 10 ^ 10)])
      else Raise ValueError
  | Raise e => plot_function P ndofs ns name u true t val = Raise e
  end.
Proof.
  unfold plot_function, parse_constraints. cbn [length Nat.eqb andb parse_cons_loop].
  destruct (add_quantity ndofs ns name u t (Some "approx") [("lse_epsilon", / 10 ^ 10)]) as [a|] eqn:Ea; [|reflexivity].
  destruct (approx_lists _ _ _ _ _ _ _ _ Ea) as [Eg Eh]. cbn [bind p_g p_h empty_parsed app]. rewrite Eg, Eh.
  destruct (String.eqb_spec t "==") as [->|N]; [reflexivity|].
  destruct (mem t ["<="; ">="]) eqn:Em; [|reflexivity]. cbn [bind p_g p_h app].
  destruct (String.eqb_spec t "=") as [->|N2]; [discriminate Em|]. reflexivity.
Qed.
Lemma equality_fails P ndofs (ns : namespace P) name u t val : t = "==" \/ t = "=" ->
  exists e, plot_function P ndofs ns name u true t val = Raise e.
Proof.
  intros Ht. pose proof (plot_function_ok P ndofs ns name u t val) as H.
  destruct (add_quantity ndofs ns name u t (Some "approx") [("lse_epsilon", / 10 ^ 10)]) as [a|e]; [|eauto].
  destruct Ht as [-> | ->]; cbn in H; eauto.
Qed.

Lemma eps_pos : 0 < / 10 ^ 10.
Proof. apply Rinv_0_lt_compat, pow_lt. lra. Qed.
Lemma inequality_plot P ndofs (ns : namespace P) name u c val q func : c <> EQ -> u <> 0 ->
  supported ns name (op_string c) (UScalar u) -> ns name = Some (AQuantity q) -> smooth_quantity q func ->
  exists f, plot_function P ndofs ns name (UScalar u) true (op_string c) val = Ok f /\
    forall qp d fld, func qp d = Ok fld -> wf fld -> el fld <> [] ->
      exists v, f qp d = Ok (scal v) /\ (v <= 0 -> meets c val fld) /\
        let margin := Rabs u * (/ 10 ^ 10 * ln (INR (length (el fld)))) in
        (meets c (match c with GE => val + margin | _ => val - margin end) fld -> v <= 0).
Proof.
  intros Nc Hu Sup E Sm. set (sp := [("lse_epsilon", / 10 ^ 10)]).
  destruct (proj2 (add_ok_iff P ndofs ns name (UScalar u) (op_string c) (Some "approx") sp)) as (a & Ha).
  { split; [exact Sup|]. red. auto. }
  pose proof (plot_function_ok P ndofs ns name (UScalar u) (op_string c) val) as H. fold sp in H. rewrite Ha in H.
  eexists. split; [rewrite H; destruct c; [reflexivity|reflexivity|congruence]|].
  intros qp d fld Hf W Ne. assert (Hpos : 0 < Rabs u) by (apply Rabs_pos_lt; auto).
  destruct (smooth_approx_add _ _ _ _ _ _ _ _ _ _ _ _ _ Ha E Sm Hf W) as [Vf [Vu _]].
  set (m := map (fun x => sign_of (op_string c) * (x / Rabs u - val / Rabs u)) (el fld)).
  assert (Nm : m <> []) by (unfold m; destruct (el fld); [congruence|discriminate]).
  destruct (exists_max m Nm) as [M HM].
  assert (VB : exists v, cons_func_centered (ad_f a) val (ad_unit a) (sign_of (op_string c)) (Some "approx") sp qp d = Ok (scal v) /\
     M <= v <= M + / 10 ^ 10 * ln (INR (length m))).
  { destruct (sh fld) as [|n s] eqn:Es.
    - assert (Lm : length (el fld) = 1%nat) by (red in W; rewrite Es in W; exact W).
      destruct (el fld) as [|x [|x2 l]] eqn:Ee; [discriminate Lm| |discriminate Lm].
      exists (sign_of (op_string c) * (x / Rabs u - val / Rabs u)). split.
      + unfold cons_func_centered. rewrite Vf, Vu. cbn [bind map].
        change (Arr [] [x / Rabs u]) with (scal (x / Rabs u)). rewrite op2_scal. cbn [bind]. rewrite op2_scal. cbn [bind]. reflexivity.
      + unfold m in *. cbn [map] in *. destruct HM as [[<-|[]] _]. cbn [length INR]. rewrite ln_1. lra.
    - exists (max_lse m (/ 10 ^ 10)). split; [|apply max_lse_bounds; auto; apply eps_pos].
      rewrite (centered_approx P (ad_f a) _ (ad_unit a) _ sp (/ 10 ^ 10) qp d fld (Rabs u)); [reflexivity|rewrite Es; exact Vf|exact W|congruence|rewrite Vu; reflexivity|reflexivity]. }
  destruct VB as (v & Ev & B1 & B2). exists v. split; [exact Ev|]. destruct HM as [HMin HM]. split.
  - intros V0 x Hx.
    assert (Hm : In (sign_of (op_string c) * (x / Rabs u - val / Rabs u)) m)
      by (apply (in_map (fun x => sign_of (op_string c) * (x / Rabs u - val / Rabs u))); auto).
    specialize (HM _ Hm). destruct c; [| |congruence]; unfold sign_of in HM; cbn in HM.
    + rewrite Rmult_1_l in HM. apply (scaled_le x val (Rabs u)); auto. lra.
    + apply (scaled_ge x val (Rabs u)); auto. lra.
  - cbv zeta. intros Mt. assert (Lm : length m = length (el fld)) by (unfold m; apply map_length). rewrite Lm in B2.
    set (k := / 10 ^ 10 * ln (INR (length (el fld)))) in *.
    unfold m in HMin. apply in_map_iff in HMin. destruct HMin as (x & EM & Hx). specialize (Mt x Hx). cbv beta in Mt.
    assert (I : 0 < / Rabs u) by (apply Rinv_0_lt_compat; auto).
    assert (K : Rabs u * k * / Rabs u = k) by (field; lra).
    destruct c; [| |congruence]; unfold sign_of in EM; cbn in EM.
    + assert (x * / Rabs u <= (val - Rabs u * k) * / Rabs u) by (apply Rmult_le_compat_r; lra). unfold Rdiv in EM. lra.
    + assert ((val + Rabs u * k) * / Rabs u <= x * / Rabs u) by (apply Rmult_le_compat_r; lra). unfold Rdiv in EM. lra.
Qed.

(** ** The axes and the values *)
Lemma linspace_length a b n : length (linspace_closed a b n) = n.
Proof. unfold linspace_closed. destruct n as [|[|n]]; auto. rewrite map_length, seq_length. reflexivity. Qed.
Lemma linspace_nth a b n k : (2 <= n)%nat -> (k < n)%nat ->
  nth k (linspace_closed a b n) 0 = a + INR k * ((b - a) / INR (n - 1)).
Proof.
  intros Hn Hk. unfold linspace_closed. destruct n as [|[|n]]; try lia.
  set (f := fun i => a + INR i * ((b - a) / INR (S (S n) - 1))).
  rewrite (nth_indep _ 0 (f 0%nat)) by (rewrite map_length, seq_length; lia). rewrite map_nth, seq_nth by lia. reflexivity.
Qed.
Lemma all_ok_nth {A} (l : list (result A)) xs : all_ok l = Ok xs <-> l = map Ok xs.
Proof.
  revert xs. induction l as [|r l IH]; intros xs; cbn [all_ok].
  - destruct xs; split; intros H; try reflexivity; discriminate H.
  - destruct r as [x|e]; cbn [bind].
    + destruct (all_ok l) as [y|e] eqn:El; cbn [bind].
      * split.
        -- intros [= <-]. cbn [map]. f_equal. apply IH. reflexivity.
        -- destruct xs as [|x' xs]; [discriminate|]. cbn [map]. intros H. injection H as -> H. apply IH in H. congruence.
      * split; [discriminate|]. destruct xs as [|x' xs]; [discriminate|]. cbn [map]. intros H. injection H as -> H. apply IH in H. discriminate.
    + split; [discriminate|]. destruct xs; discriminate.
Qed.
Lemma set_at_nth l i v k : nth k (set_at l i v) 0 = if Nat.eqb k i && Nat.ltb i (length l) then v else nth k l 0.
Proof.
  revert i k. induction l as [|x l IH]; intros i k.
  - cbn [set_at length]. destruct i; cbn; rewrite andb_false_r; reflexivity.
  - destruct i as [|i], k as [|k]; cbn [set_at nth]; auto. rewrite IH. reflexivity.
Qed.
Lemma set_at_length l i v : length (set_at l i v) = length l.
Proof. revert i. induction l as [|x l IH]; intros [|i]; cbn; auto. Qed.
Lemma linspace_distinct a b n : (2 <= n)%nat -> a <> b -> NoDup (linspace_closed a b n).
Proof.
  intros Hn Hab. apply (NoDup_nth _ 0). rewrite linspace_length. intros k l Hk Hl. rewrite !linspace_nth by auto. intros H.
  assert (D : (b - a) / INR (n - 1) <> 0).
  { unfold Rdiv. apply Rmult_integral_contrapositive_currified; [lra|]. apply Rinv_neq_0_compat. apply not_0_INR. lia. }
  apply INR_eq. apply (Rmult_eq_reg_r ((b - a) / INR (n - 1))); auto. lra.
Qed.

Section Values.
  Variable P : Type.
  Variable ndofs : P -> nat.
  Variable ns : namespace P.

  Lemma plot_values name qp d i j ri rj unit n cm ct cv xs ys Z phi :
    plot_quantity P ndofs ns name qp d i j ri rj unit n cm ct cv = Ok (xs, ys, Z) -> lookup "phi" d = Some phi ->
    i <> j -> (i < length (el phi))%nat -> (j < length (el phi))%nat ->
    xs = linspace_closed ((1 - ri) * nth i (el phi) 0) ((1 + ri) * nth i (el phi) 0) n /\
    ys = linspace_closed ((1 - rj) * nth j (el phi) 0) ((1 + rj) * nth j (el phi) 0) n /\
    length Z = n /\ (forall r, In r Z -> length r = n) /\
    exists f, plot_function P ndofs ns name unit cm ct (match cv with Some v => v | None => 0 end) = Ok f /\
    forall k l, (k < n)%nat -> (l < n)%nat -> exists d' phi',
      f qp d' = Ok (nth l (nth k Z []) (scal 0)) /\
      (forall key, key <> "phi" -> lookup key d' = lookup key d) /\
      lookup "phi" d' = Some phi' /\ sh phi' = sh phi /\ length (el phi') = length (el phi) /\
      nth i (el phi') 0 = nth k xs 0 /\ nth j (el phi') 0 = nth l ys 0 /\
      forall m, m <> i -> m <> j -> nth m (el phi') 0 = nth m (el phi) 0.
  Proof.
    unfold plot_quantity. intros H Hphi Nij Hi Hj. unfold getitem in H. rewrite Hphi in H. cbn [bind] in H.
    assert (G : forall k, (k < length (el phi))%nat -> getclamp (el phi) k = Ok (nth k (el phi) 0)).
    { intros k Hk. unfold getclamp. destruct (el phi) as [|x l] eqn:Ee; [cbn in Hk; lia|].
      rewrite Nat.min_l by (cbn [length] in *; lia). reflexivity. }
    rewrite (G i Hi), (G j Hj) in H. cbn [bind] in H.
    set (xs0 := linspace_closed ((1 - ri) * nth i (el phi) 0) ((1 + ri) * nth i (el phi) 0) n) in *.
    set (ys0 := linspace_closed ((1 - rj) * nth j (el phi) 0) ((1 + rj) * nth j (el phi) 0) n) in *.
    destruct (plot_function P ndofs ns name unit cm ct (match cv with Some v => v | None => 0 end)) as [f|] eqn:Ef; [|discriminate H]. cbn [bind] in H.
    match type of H with bind ?A _ = _ => destruct A as [[]|]; [|discriminate H] end. cbn [bind] in H.
    match type of H with bind ?A _ = _ => destruct A as [Z0|] eqn:EZ; [|discriminate H] end. cbn [bind] in H.
    injection H as <- <- <-. split; [reflexivity|]. split; [reflexivity|].
    apply all_ok_nth in EZ.
    assert (LZ : length Z0 = n).
    { rewrite <- (map_length Ok Z0), <- EZ, map_length. apply linspace_length. }
    assert (ROW : forall k, (k < n)%nat -> map (fun y => plot_eval P f qp d i j (nth k xs0 0) y) ys0 = map Ok (nth k Z0 [])).
    { intros k Hk. apply all_ok_nth.
      assert (A : nth k (map (fun x => all_ok (map (fun y => plot_eval P f qp d i j x y) ys0)) xs0) (Ok []) = nth k (map Ok Z0) (Ok [])) by (rewrite EZ; reflexivity).
      rewrite (map_nth Ok Z0 [] k) in A. rewrite <- A.
      set (F := fun x => all_ok (map (fun y => plot_eval P f qp d i j x y) ys0)).
      rewrite (nth_indep _ (Ok []) (F 0)) by (rewrite map_length; unfold xs0; rewrite linspace_length; exact Hk).
      rewrite map_nth. reflexivity. }
    split; [exact LZ|]. split.
    { intros r Hr. apply (In_nth _ _ []) in Hr. destruct Hr as (k & Hk & <-). rewrite LZ in Hk. specialize (ROW k Hk).
      apply (f_equal (@length (result arr))) in ROW. rewrite !map_length in ROW. rewrite <- ROW. apply linspace_length. }
    exists f. split; [reflexivity|]. intros k l Hk Hl. specialize (ROW k Hk).
    assert (A : nth l (map (fun y => plot_eval P f qp d i j (nth k xs0 0) y) ys0) (Ok (scal 0)) = nth l (map Ok (nth k Z0 [])) (Ok (scal 0))) by (rewrite ROW; reflexivity).
    rewrite (map_nth Ok (nth k Z0 []) (scal 0) l) in A.
    set (F := fun y => plot_eval P f qp d i j (nth k xs0 0) y) in A.
    rewrite (nth_indep _ (Ok (scal 0)) (F 0)) in A by (rewrite map_length; unfold ys0; rewrite linspace_length; exact Hl).
    rewrite map_nth in A. unfold F, plot_eval, getitem in A. rewrite Hphi in A. cbn [bind] in A.
    eexists _, _. split; [exact A|]. split.
    { intros key Nk. rewrite lookup_set. destruct (String.eqb_spec key "phi"); [contradiction|reflexivity]. }
    split; [rewrite lookup_set, String.eqb_refl; reflexivity|]. cbn [sh el]. split; [reflexivity|].
    split; [rewrite !set_at_length; reflexivity|].
    split; [|split].
    - rewrite set_at_nth, set_at_length. destruct (Nat.eqb_spec i j); [contradiction|]. cbn [andb]. rewrite set_at_nth, Nat.eqb_refl.
      destruct (Nat.ltb_spec i (length (el phi))); [reflexivity|lia].
    - rewrite set_at_nth, set_at_length, Nat.eqb_refl. destruct (Nat.ltb_spec j (length (el phi))); [reflexivity|lia].
    - intros m Nm Nm'. rewrite !set_at_nth. destruct (Nat.eqb_spec m j); [contradiction|]. destruct (Nat.eqb_spec m i); [contradiction|]. reflexivity.
  Qed.
End Values.

(** ** VTK files *)
Lemma nth_rows {A} (g : grid A) n i j d : (forall r, In r g -> length r = n) -> (i < n)%nat -> (j < length g)%nat ->
  nth (j * n + i) (concat g) d = nth i (nth j g []) d.
Proof.
  revert j. induction g as [|r g IH]; intros j H Hi Hj; [cbn in Hj; lia|]. cbn [concat].
  assert (Lr : length r = n) by (apply H; left; reflexivity). destruct j as [|j].
  - cbn [Nat.mul Nat.add nth]. rewrite app_nth1 by lia. reflexivity.
  - rewrite app_nth2 by (rewrite Lr; cbn; lia). replace (S j * n + i - length r)%nat with (j * n + i)%nat by (rewrite Lr; cbn; lia).
    cbn [nth]. apply IH; [intros; apply H; right; auto|exact Hi|cbn in Hj; lia].
Qed.
Lemma length_rows {A} (g : grid A) n : (forall r, In r g -> length r = n) -> length (concat g) = (length g * n)%nat.
Proof.
  induction g as [|r g IH]; intros H; [reflexivity|]. cbn [concat length]. rewrite app_length, IH by (intros; apply H; right; auto).
  rewrite (H r) by (left; reflexivity). cbn. lia.
Qed.
Lemma ncols_rows {A} (g : grid A) n : (forall r, In r g -> length r = n) -> g <> [] -> ncols g = n.
Proof. destruct g as [|r g]; [congruence|]. intros H _. apply H. left. reflexivity. Qed.

Lemma append_length a b : String.length (String.append a b) = (String.length a + String.length b)%nat.
Proof. induction a; cbn; auto. Qed.
Lemma substring_end a b : String.substring (String.length a) (String.length b) (String.append a b) = b.
Proof.
  induction a as [|c a IH]; cbn [String.length String.append].
  - induction b as [|c b IHb]; [reflexivity|]. cbn. f_equal. exact IHb.
  - exact IH.
Qed.
Lemma substring_split n s : (n <= String.length s)%nat ->
  s = String.append (String.substring 0 n s) (String.substring n (String.length s - n) s).
Proof.
  revert s. induction n as [|n IH]; intros s Hn.
  - rewrite Nat.sub_0_r. destruct s; [reflexivity|]. cbn [String.substring String.append].
    clear Hn. cbn [String.length String.substring]. f_equal. induction s as [|c s IHs]; [reflexivity|]. cbn. f_equal. exact IHs.
  - destruct s as [|c s]; [cbn in Hn; lia|]. cbn [String.length Nat.sub String.substring String.append]. f_equal. apply IH. cbn in Hn. lia.
Qed.
Lemma vts_name_ends name : (exists stem, vts_name name = String.append stem ".vts") /\
  (forall stem, name = String.append stem ".vts" -> vts_name name = name).
Proof.
  unfold vts_name. split.
  - destruct (String.eqb_spec (String.substring (String.length name - 4) 4 name) ".vts") as [E|N]; [|eauto].
    exists (String.substring 0 (String.length name - 4) name).
    destruct (le_lt_dec 4 (String.length name)) as [H4|H4].
    + rewrite <- E. rewrite (substring_split (String.length name - 4) name) at 1 by lia.
      replace (String.length name - (String.length name - 4))%nat with 4%nat by lia. reflexivity.
    + exfalso. replace (String.length name - 4)%nat with 0%nat in E by lia.
      assert (L : forall s k, (String.length (String.substring 0 k s) <= String.length s)%nat).
      { induction s as [|c s IHs]; intros [|k]; cbn; try lia. specialize (IHs k). lia. }
      specialize (L name 4%nat). rewrite E in L. cbn in L. lia.
  - intros stem ->. rewrite append_length. cbn [String.length]. replace (String.length stem + 4 - 4)%nat with (String.length stem) by lia.
    change 4%nat with (String.length ".vts") at 1. rewrite substring_end, String.eqb_refl. reflexivity.
Qed.
