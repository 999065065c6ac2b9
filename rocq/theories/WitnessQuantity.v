(** Concrete quantities and parameter objects used as examples and witnesses. *)
From Coq Require Import String List Bool Arith ZArith Reals Lra Lia.
From Verif Require Import Base ModelArray ModelMath ModelQuantity ModelWrapper ModelShipped
  SpecMath SpecQuantity SpecWrapper.
Import ListNotations.
Open Scope R_scope.
Open Scope string_scope.
Open Scope list_scope.

(** The field that returns the degrees of freedom themselves. *)
Definition id_field : field unit := fun _ d => getitem d "phi".
Lemma id_field_phi_only : phi_only id_field.
Proof. intros qp d d' E. unfold id_field, getitem. rewrite E. reflexivity. Qed.

(** The object built by an argument list with an empty registry. *)
Definition no_sym : unit -> bool := fun _ => false.
Definition nfp1 : unit -> R := fun _ => 1.
Definition da2 : unit -> arr := fun _ => Arr [2%nat] [1; 3].

Lemma max_two (a b : R) : a <= b -> is_max b [a; b].
Proof. intros H. split; [right; left; auto|]. intros y [<-|[<-|[]]]; lra. Qed.
Lemma max_abs_two (a b : R) : Rabs a <= Rabs b -> is_max (Rabs b) (map Rabs [a; b]).
Proof. apply max_two. Qed.
Lemma Rabs_m4 : Rabs (-4) = 4. Proof. rewrite Rabs_left; lra. Qed.
Lemma Rabs_3 : Rabs 3 = 3. Proof. rewrite Rabs_right; lra. Qed.
Lemma max_3_4 : is_max 4 (map Rabs [3; -4]).
Proof. rewrite <- Rabs_m4. apply max_abs_two. rewrite Rabs_m4, Rabs_3. lra. Qed.

Lemma wf_id n (l : list R) : length l = n -> wf (Arr [n] l).
Proof. intros H. red. simpl. lia. Qed.

From Verif Require Import ProofArray ProofMath ProofQuantity ProofSlack ProofSlackInit ProofSlackLim.

(** The slack inequality and objective of the plain and squared variants are
    defined and non-trivial at phi = (3, -4). *)
Lemma ex_c23 : exists reg q,
  init_quantity [] (generate_linf_norm unit no_sym id_field "t" false true true) = (reg, Ok q) /\
  phi_only id_field /\
  id_field tt [("phi", Arr [2%nat] [3; -4])] = Ok (Arr [2%nat] [3; -4]) /\
  is_max 4 (map Rabs [3; -4]).
Proof. do 2 eexists. split; [reflexivity|]. split; [apply id_field_phi_only|]. split; [reflexivity|apply max_3_4]. Qed.

Lemma ex_c24 : exists reg q,
  init_quantity [] (generate_l1_norm unit da2 nfp1 no_sym id_field "s" false false true) = (reg, Ok q) /\
  sh (da2 tt) = sh (Arr [2%nat] [3; -4]) /\ wf (da2 tt) /\ wf (Arr [2%nat] [3; -4]) /\
  (forall a, In a (el (da2 tt)) -> 0 <= a) /\ 0 <= nfp1 tt /\
  call q tt [("phi", Arr [2%nat] [3; -4])] = Ok (scal 15).
Proof.
  do 2 eexists. split; [reflexivity|]. split; [reflexivity|]. split; [reflexivity|]. split; [reflexivity|].
  split; [simpl; intros a [<-|[<-|[]]]; lra|]. split; [unfold nfp1; lra|].
  unfold call, getitem. simpl. unfold l1_raw. simpl.
  rewrite (Rabs_right 3), (Rabs_left (-4)) by lra. do 2 f_equal. unfold asum, nfp1. simpl. f_equal. lra.
Qed.

(** A squared L-infinity quantity whose starting slack value is infeasible. *)
Lemma init_sq_witness : exists (q : quantity unit) phi u M reg,
  init_quantity [] (generate_linf_norm unit no_sym id_field "t" false true true) = (reg, Ok q) /\
  0 < u /\ call q tt [("phi", phi)] = Ok (scal M) /\
  ~ init_feasible_tight q tt phi "t" u (M / u) /\
  exists I G p gv, scaled_slack_dofs_init q (Some "slack") = Ok (Some [("t", I)]) /\
    scaled_g_ineq_impl q (Some "slack") = Ok (Some G) /\
    I tt [("phi", phi)] (scal u) = Ok p /\
    G tt (state phi "t" p) (scal u) = Ok gv /\ ~ all_le0 gv.
Proof.
  set (args := generate_linf_norm unit no_sym id_field "t" false true true).
  destruct (init_quantity [] args) as [reg [q|e]] eqn:E; [|discriminate E].
  exists q, (Arr [1%nat] [1/2]), 1, (1/4), reg.
  assert (HM : is_max (1/2) (map Rabs [1/2])).
  { simpl. rewrite Rabs_right by lra. split; [left; auto|]. intros y [<-|[]]; lra. }
  destruct (linf_sq_init _ _ _ _ _ _ _ _ _ E) with (qp := tt) (phi := Arr [1%nat] [1/2]) (fld := Arr [1%nat] [1/2]) (u := 1) (M := 1/2)
    as [H1 [I [G [p [gv [X1 [X2 [X3 [X4 X5]]]]]]]]]; auto; try lra; try discriminate.
  { apply id_field_phi_only. }
  split; [reflexivity|]. split; [lra|]. split.
  { pose proof (linf_built _ _ _ _ _ _ _ _ _ _ E) as ->. unfold call. simpl.
    rewrite (linf_raw_value id_field true tt _ (Arr [1%nat] [1/2]) (1/2)); auto.
    do 2 f_equal. unfold sq. lra. }
  split.
  - replace (1/4/1) with (1/2 * (1/2) / 1) by field. rewrite H1. lra.
  - exists I, G, p, gv. repeat split; auto. rewrite X5. lra.
Qed.

(** Squared and fourth-power smoothed quantities with unit 2. *)
Lemma approx_sq_witness : exists (q : quantity unit) phi u raw reg,
  init_quantity [] (generate_linf_norm unit no_sym id_field "t" false true true) = (reg, Ok q) /\
  0 < u /\ call q tt [("phi", phi)] = Ok (scal raw) /\ ~ approx_converges q tt phi u (raw / u).
Proof.
  set (args := generate_linf_norm unit no_sym id_field "t" false true true).
  destruct (init_quantity [] args) as [reg [q|e]] eqn:E; [|discriminate E].
  exists q, (Arr [1%nat] [1]), 2, 1, reg.
  assert (HM : is_max 1 (map Rabs [1])).
  { simpl. rewrite Rabs_right by lra. split; [left; auto|]. intros y [<-|[]]; lra. }
  split; [reflexivity|]. split; [lra|]. split.
  { pose proof (linf_built _ _ _ _ _ _ _ _ _ _ E) as ->. unfold call. simpl.
    rewrite (linf_raw_value id_field true tt _ (Arr [1%nat] [1]) 1); auto.
    do 2 f_equal. unfold sq. lra. }
  intros C. pose proof (approx_linf_limit _ _ _ _ _ _ _ _ _ _ E tt (Arr [1%nat] [1]) (Arr [1%nat] [1]) 2 1 eq_refl eq_refl ltac:(lra) HM) as C2.
  pose proof (tends_unique _ _ _ C C2) as X. simpl in X. lra.
Qed.
Lemma approx_4_witness : exists (q : quantity unit) phi u raw reg,
  init_quantity [] (generate_linf_norm_4 id_field "t") = (reg, Ok q) /\
  0 < u /\ call q tt [("phi", phi)] = Ok (scal raw) /\ ~ approx_converges q tt phi u (raw / u).
Proof.
  set (args := generate_linf_norm_4 id_field "t").
  destruct (init_quantity [] args) as [reg [q|e]] eqn:E; [|discriminate E].
  exists q, (Arr [1%nat] [1]), 2, 1, reg.
  assert (HM : is_max 1 (map Rabs [1])).
  { simpl. rewrite Rabs_right by lra. split; [left; auto|]. intros y [<-|[]]; lra. }
  split; [reflexivity|]. split; [lra|]. split.
  { pose proof (linf4_built _ _ _ _ _ _ E) as ->. unfold call. simpl. unfold linf4_raw. simpl.
    do 2 f_equal. unfold sq. lra. }
  intros C. pose proof (approx_linf4_limit _ _ _ _ _ _ E tt (Arr [1%nat] [1]) (Arr [1%nat] [1]) 2 1 eq_refl eq_refl ltac:(lra) HM) as C2.
  pose proof (tends_unique _ _ _ C C2) as X. unfold sq in X. lra.
Qed.

Lemma max_def l M : is_max M (map Rabs l) -> is_max (M * M) (map (fun x => x * x) l).
Proof.
  intros H. apply (is_max_map_mono (fun x => x * x) (fun x => x * x) M l); auto.
  - intros a b Ha Hab. nra.
  - intros x. pose proof (sq_abs x). unfold sq in H0. auto.
Qed.

(** The limit of the smoothed squared quantity in terms of its raw value. *)
Lemma approx_sq_limit P ss func aux pd au reg reg' q :
  init_quantity reg (generate_linf_norm P ss func aux pd true au) = (reg', Ok q) ->
  forall qp phi fld u, func qp [("phi", phi)] = Ok fld -> wf fld -> el fld <> [] -> 0 < u ->
  exists raw, call q qp [("phi", phi)] = Ok (scal raw) /\
    approx_converges q qp phi u (raw / (u * u)).
Proof.
  intros I qp phi fld u Hf W Hn Hu. destruct (exists_max _ (map_nonempty Rabs _ Hn)) as [M HM].
  exists (sq M). split.
  - rewrite (linf_built _ _ _ _ _ _ _ _ _ _ I). unfold call. simpl.
    rewrite (linf_raw_value func true qp _ fld M); auto.
  - replace (sq M / (u * u)) with (M / u * (M / u)) by (unfold sq; field; lra).
    apply (approx_linf_limit _ _ _ _ _ _ _ _ _ _ I qp phi fld u M); auto.
Qed.
Lemma approx_4_limit P (func : field P) aux reg reg' q :
  init_quantity reg (generate_linf_norm_4 func aux) = (reg', Ok q) ->
  forall qp phi fld u, func qp [("phi", phi)] = Ok fld -> wf fld -> el fld <> [] -> 0 < u ->
  exists raw, call q qp [("phi", phi)] = Ok (scal raw) /\
    approx_converges q qp phi u (raw / (u * u * (u * u))).
Proof.
  intros I qp phi fld u Hf W Hn Hu. destruct (exists_max _ (map_nonempty Rabs _ Hn)) as [M HM].
  exists (sq (sq M)). split.
  - rewrite (linf4_built _ _ _ _ _ _ I). unfold call. simpl. unfold linf4_raw. rewrite Hf. cbn [bind].
    destruct (amax_spec (amap (fun x => sq (sq x)) fld)) as [M' [E' HM']]; [apply map_nonempty; auto|].
    rewrite E'. cbn [bind]. do 2 f_equal. eapply is_max_unique; [exact HM'|]. apply linf4_max; auto.
  - replace (sq (sq M) / (u * u * (u * u))) with (sq (M * M / (u * u))) by (unfold sq; field; lra).
    apply (approx_linf4_limit _ _ _ _ _ _ I qp phi fld u M); auto.
Qed.
Lemma approx_plain_limit P ss func aux pd au reg reg' q :
  init_quantity reg (generate_linf_norm P ss func aux pd false au) = (reg', Ok q) ->
  forall qp phi fld u, func qp [("phi", phi)] = Ok fld -> wf fld -> el fld <> [] -> 0 < u ->
  exists raw, call q qp [("phi", phi)] = Ok (scal raw) /\
    approx_converges q qp phi u (raw / u).
Proof.
  intros I qp phi fld u Hf W Hn Hu. destruct (exists_max _ (map_nonempty Rabs _ Hn)) as [M HM].
  exists M. split.
  - rewrite (linf_built _ _ _ _ _ _ _ _ _ _ I). unfold call. simpl.
    rewrite (linf_raw_value func false qp _ fld M); auto.
  - apply (approx_linf_limit _ _ _ _ _ _ _ _ _ _ I qp phi fld u M); auto.
Qed.

(** The shipped definitions all succeed, whatever the fields do. *)
Definition is_ok {A} (r : result A) : bool := match r with Ok _ => true | Raise _ => false end.
Lemma shipped_all_ok P da nfp ss (F : string -> field P) :
  forallb (fun p => is_ok (snd p)) (snd (define_all [] (shipped P da nfp ss F))) = true /\
  length (fst (define_all [] (shipped P da nfp ss F))) = 11%nat.
Proof. split; reflexivity. Qed.

(** The L1 slack objective on a vector field. *)
Definition da22 : unit -> arr := fun _ => Arr [2%nat; 2%nat] [1; 1; 1; 1].
Lemma l1_vector_witness : exists (q : quantity unit) phi reg,
  init_quantity [] (generate_l1_norm unit da22 nfp1 no_sym id_field "s" false false true) = (reg, Ok q) /\
  sh phi = sh (da22 tt) ++ [3%nat] /\
  (exists raw, call q tt [("phi", phi)] = Ok (scal raw)) /\
  forall sp u (l : list R), length l = length (el phi) ->
  exists F, scaled_f_impl q (Some "slack") sp = Ok F /\
    F tt (state phi "s" (Arr [length (el phi)] l)) (scal u) = Raise ValueError.
Proof.
  set (args := generate_l1_norm unit da22 nfp1 no_sym id_field "s" false false true).
  destruct (init_quantity [] args) as [reg [q|e]] eqn:E; [|discriminate E].
  exists q, (Arr [2%nat; 2%nat; 3%nat] (repeat 1 12)), reg. split; [reflexivity|]. split; [reflexivity|]. split.
  - pose proof (l1_built _ _ _ _ _ _ _ false _ _ _ _ E) as ->. eexists. reflexivity.
  - intros sp u l Hl.
    apply (l1_vector_raises _ _ _ _ _ _ _ false _ _ _ _ E) with (a := 2%nat) (b := 2%nat);
    auto; try discriminate; try reflexivity. apply id_field_phi_only.
Qed.

Lemma ex_c26_huber : exists reg q,
  init_quantity [] (generate_huber unit da22 nfp1 id_field) = (reg, Ok q) /\
  wf (Arr [2%nat; 2%nat; 3%nat] (repeat 1 12)) /\ wf (da22 tt) /\ sh (da22 tt) = [2%nat; 2%nat].
Proof. do 2 eexists. repeat split. Qed.

Lemma ex_c27 : known_mode (Some "slack") /\ ~ known_mode (Some "exact") /\
  id_field tt [("phi", Arr [2%nat] [3; -4])] = Ok (Arr [2%nat] [3; -4]) /\ wf (Arr [2%nat] [3; -4]).
Proof. split; [red; auto|]. split; [intros [H|[H|H]]; discriminate H|]. split; reflexivity. Qed.

(** The smoothed Huber penalty of a one-point vector field. *)
Definition da11 : unit -> arr := fun _ => Arr [1%nat; 1%nat] [1].
Definition vec_field (a b c : R) : arr := Arr [1%nat; 1%nat; 3%nat] [a; b; c].
Lemma huber_at_point reg q eps u a b c : init_quantity [] (generate_huber unit da11 nfp1 id_field) = (reg, Ok q) ->
  bind (scaled_f_impl q (Some "approx") [("lse_epsilon", eps)]) (fun F =>
     scalar_value (F tt [("phi", vec_field a b c)] (scal u)))
  = Ok (sqrt ((a / u + eps * eps) * (a / u + eps * eps) + ((b / u + eps * eps) * (b / u + eps * eps) + ((c / u + eps * eps) * (c / u + eps * eps) + 0))) - eps).
Proof.
  intros E. unfold init_quantity in E. cbn in E. injection E as _ <-. cbn. unfold sq, rownorm, nfp1, asum. cbn. f_equal. ring.
Qed.
Lemma huber_witness : exists reg q, init_quantity [] (generate_huber unit da11 nfp1 id_field) = (reg, Ok q) /\
  forall eps u, 0 < eps -> 0 < u -> exists at_zero at_field at_minus : R,
    let value phi := bind (scaled_f_impl q (Some "approx") [("lse_epsilon", eps)]) (fun F =>
       scalar_value (F tt [("phi", phi)] (scal u))) in
    let e := eps * eps * u in
    value (vec_field 0 0 0) = Ok at_zero /\ value (vec_field (- e) (- e) (- e)) = Ok at_field /\
    value (vec_field e e e) = Ok at_minus /\ at_field < at_zero /\ at_minus <> at_field.
Proof.
  do 2 eexists. split; [reflexivity|]. intros eps u He Hu. do 3 eexists. cbv zeta.
  split; [eapply huber_at_point; reflexivity|]. split; [eapply huber_at_point; reflexivity|]. split; [eapply huber_at_point; reflexivity|].
  replace (0 / u) with 0 by (unfold Rdiv; ring). replace (- (eps * eps * u) / u) with (- (eps * eps)) by (field; lra).
  replace (eps * eps * u / u) with (eps * eps) by (field; lra).
  replace (- (eps * eps) + eps * eps) with 0 by ring. replace (0 * 0 + (0 * 0 + (0 * 0 + 0))) with 0 by ring. rewrite sqrt_0.
  assert (0 < eps * eps) by nra.
  split.
  - assert (0 < sqrt ((0 + eps * eps) * (0 + eps * eps) + ((0 + eps * eps) * (0 + eps * eps) + ((0 + eps * eps) * (0 + eps * eps) + 0)))); [|lra].
    apply sqrt_lt_R0. nra.
  - assert (0 < sqrt ((eps * eps + eps * eps) * (eps * eps + eps * eps) + ((eps * eps + eps * eps) * (eps * eps + eps * eps) + ((eps * eps + eps * eps) * (eps * eps + eps * eps) + 0)))); [|lra].
    apply sqrt_lt_R0. nra.
Qed.
