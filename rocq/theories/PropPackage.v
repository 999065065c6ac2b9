(** Properties C105-C110: the list of quantities of the documentation. *)
From Coq Require Import String List Bool Arith ZArith Reals Lra Lia.
From Verif Require Import Base ModelArray ModelMath SpecMath ModelSurface SpecSurface ProofSurface2
  ModelParams ModelField SpecField ProofField ProofField2 ProofField3 ProofSurface3 WitnessField
  ModelQuantity SpecQuantity ModelWrapper ModelShipped ModelPackage SpecPackage
  ProofRescale ProofPackage ProofPackage2 ProofPackage3 ProofPackage4 ProofPackage5.
Import ListNotations.
Open Scope R_scope.
Open Scope string_scope.
Open Scope list_scope.

(** The configuration of the examples: a coil surface around a plasma surface,
    net currents 2 and 1, and its four coefficients. *)
Definition shown : params := device 1 2 1 [[0; 1]; [2; 3]] true.
Lemma shown_sound x : length x = 4%nat -> sound shown x.
Proof.
  intros L. split; [apply device_made|]. split; [reflexivity|]. split; [reflexivity|]. split; [apply device_shaped|exact L].
Qed.
Lemma shown_areas : (exists d, da (q_eval shown) = Ok d /\ forall w, In w (concat d) -> 0 < w) /\
  (exists d, da (q_plasma shown) = Ok d /\ forall w, In w (concat d) -> 0 < w).
Proof.
  destruct (made_facts _ (device_made 1 2 1 [[0; 1]; [2; 3]] true)) as (_ & _ & _ & _ & Ce & _ & Cp). fold shown in Ce, Cp. split.
  - rewrite (da_copy _ _ _ _ (ring_legal _ _ _ _ _ _) Ce). eexists. split; [reflexivity|]. intros w Hw.
    rewrite concat_sample in Hw. apply in_map_iff in Hw as ([p t] & <- & _). cbn [fst snd].
    apply Rmult_lt_0_compat; [cbn; lra|]. apply norm_pos. apply ring_normal. lra.
  - rewrite (da_copy _ _ _ _ (ring_legal _ _ _ _ _ _) Cp). eexists. split; [reflexivity|]. intros w Hw.
    rewrite concat_sample in Hw. apply in_map_iff in Hw as ([p t] & <- & _). cbn [fst snd].
    apply Rmult_lt_0_compat; [cbn; lra|]. apply norm_pos. apply ring_normal. lra.
Qed.

(** ** C105 *)
(** Two documented names do not exist. *)
Theorem C105_documented_names_refuted :
  exists name kind, In (name, kind) documented /\ forall other, get_quantity (package other) name = Raise ValueError.
Proof. exists "Phi_abs", CoilField. split; [cbn; tauto|]. intros other. apply package_missing. cbn. tauto. Qed.
Print Assumptions C105_documented_names_refuted.
Theorem C105_missing_names :
  forall other name, In name ["f_max_Bnormal_abs"; "Phi_abs"] ->
  In name (map fst documented) /\ get_quantity (package other) name = Raise ValueError.
Proof. intros other name I. split; [destruct I as [<-|[<-|[]]]; cbn; tauto|now apply package_missing]. Qed.
Print Assumptions C105_missing_names.

(** All others do, and are accepted as objective exactly if they are numbers
    and as upper bound always.  Missing: the two names above. *)
Theorem C105_documented_uses_partial :
  forall other name kind u w v mode sp,
  In (name, kind) documented -> ~ In name ["f_max_Bnormal_abs"; "Phi_abs"] -> u <> UOther -> known_mode mode ->
  ((exists r, parse_objectives q_ndofs (package other) (Objectives [name] [u]) [w] mode sp = Ok r) <-> kind = Number) /\
  (exists r, parse_constraints q_ndofs (package other) [name] ["<="] [u] [v] mode sp = Ok r).
Proof.
  intros other name kind u w v mode sp I N Hu Hm. assert (I' : In (name, kind) (documented ++ undocumented)) by (apply in_or_app; now left).
  split; [now apply objective_use|now apply constraint_use with (k := kind)].
Qed.
Print Assumptions C105_documented_uses_partial.
(** And nothing else exists than the documented names and eight more. *)
Theorem C105_no_other_names :
  forall other name Q, get_quantity (package other) name = Ok Q -> In name (map fst (documented ++ undocumented)).
Proof.
  intros other name Q G. apply package_only in G. repeat (destruct G as [<-|G]; [cbn; tauto|]). contradiction.
Qed.
Print Assumptions C105_no_other_names.

Example C105_example : In ("f_B", Number) documented /\ ~ In "f_B" ["f_max_Bnormal_abs"; "Phi_abs"] /\ UScalar 2 <> UOther /\ known_mode (Some "slack") /\
  In ("K", CoilVector) documented /\ ~ In "K" ["f_max_Bnormal_abs"; "Phi_abs"].
Proof.
  split; [cbn; tauto|]. split; [intros [X|[X|[]]]; discriminate|]. split; [discriminate|]. split; [unfold known_mode; tauto|].
  split; [cbn; tauto|]. intros [X|[X|[]]]; discriminate.
Qed.

(** ** C106 *)
(** Missing: K_theta of parameter objects without stellarator symmetry, and the two absent names. *)
Theorem C106_documented_shapes_partial :
  forall other q x name kind, sound q x -> In (name, kind) (documented ++ undocumented) ->
  ~ In name ["f_max_Bnormal_abs"; "Phi_abs"] -> (name = "K_theta" -> q_stellsym q = true) ->
  exists v, reads other name q x v /\ sh v = shape_of q kind /\ wf v.
Proof.
  intros other q x name kind S I N T. destruct (value_sound other q x S name kind I N T) as (Q & v & G & V & Sh & W). exists v.
  split; [now exists Q|auto].
Qed.
Print Assumptions C106_documented_shapes_partial.

Theorem C106_K_theta_shape_refuted :
  exists q x, sound q x /\ In ("K_theta", CoilField) documented /\
  forall other, exists Q, get_quantity (package other) "K_theta" = Ok Q /\ value_of Q q x = Raise TypeError.
Proof.
  exists (device 1 2 1 [[0; 1]; [2; 3]] false), [1; 2; 3; 4; 5; 6; 7; 8; 9]. split; [|split].
  - split; [apply device_made|]. split; [reflexivity|]. split; [reflexivity|]. split; [apply device_shaped|reflexivity].
  - cbn. tauto.
  - intros other. eexists. split; [reflexivity|].
    change (bind (K_theta (device 1 2 1 [[0; 1]; [2; 3]] false) [1; 2; 3; 4; 5; 6; 7; 8; 9]) (fun v => Ok (of_grid v)) = Raise TypeError).
    rewrite K_theta_general by reflexivity. reflexivity.
Qed.
Print Assumptions C106_K_theta_shape_refuted.

Example C106_example : sound shown [1; 2; 3; 4] /\ q_stellsym shown = true /\ shape_of shown CoilVector = [2; 2; 3]%nat /\
  In ("K_theta", CoilField) (documented ++ undocumented) /\ ~ In "K_theta" ["f_max_Bnormal_abs"; "Phi_abs"].
Proof.
  split; [now apply shown_sound|]. do 2 (split; [reflexivity|]). split; [cbn; tauto|]. intros [X|[X|[]]]; discriminate.
Qed.

(** ** C107 *)
(** Missing: K_theta and the three force quantities (next theorems). *)
Theorem C107_units_partial :
  forall mu_0 other name Q, get_quantity (package other) name = Ok Q ->
  ~ In name ["K_theta"; "f_max_force_cyl"; "f_l1_force_cyl"; "f_max_force2_cyl"] -> dimensionless mu_0 other name.
Proof. intros mu_0 other name Q G N s c b q q' x _ _ _ Hc Hb S M' H. eapply unit_exact; eauto. Qed.
Print Assumptions C107_units_partial.

(** What happens to the others when the unit of length is divided by [c]. *)
Theorem C107_units_off :
  forall mu_0 other s c b q q' x, 0 < c -> 0 < b -> sound q x -> made q' -> rescaled c b q q' ->
  (q_stellsym q = true -> in_units c mu_0 other "K_theta" s c b q q' x) /\
  in_units (/ (c * c)) mu_0 other "f_max_force_cyl" s c b q q' x /\
  in_units (/ (c * c)) mu_0 other "f_l1_force_cyl" s c b q q' x /\
  in_units (/ (c * c * (c * c))) mu_0 other "f_max_force2_cyl" s c b q q' x.
Proof. intros. now apply unit_off. Qed.
Print Assumptions C107_units_off.

(** Every configuration has a rescaled one. *)
Theorem C107_rescaled_exists : forall c b q, made q -> exists q', made q' /\ rescaled c b q q'.
Proof. exact rescale_exists. Qed.
Print Assumptions C107_rescaled_exists.

Lemma shown_K_theta other : reads other "K_theta" shown (repeat 0 4) (Arr [2; 2]%nat [2; 2; 2; 2]).
Proof.
  eexists. split; [reflexivity|]. change (bind (K_theta shown (repeat 0 4)) (fun v => Ok (of_grid v)) = Ok (Arr [2; 2]%nat [2; 2; 2; 2])).
  rewrite K_theta_made by (try apply device_made; reflexivity). cbn [bind]. unfold sample, of_grid. cbn [shown device q_qphi q_qtheta map concat app length hd].
  fold shown. rewrite !(proj1 (proj2 (phi_zeros shown 4 _ _))). cbn [shown device q_G]. rewrite Rplus_0_l. reflexivity.
Qed.
Theorem C107_K_theta_unit_refuted :
  exists name, (forall other, exists Q, get_quantity (package other) name = Ok Q) /\ forall mu_0 other, 0 < mu_0 -> ~ dimensionless mu_0 other name.
Proof.
  exists "K_theta". split; [intros other; eexists; reflexivity|]. intros mu_0 other Hm D.
  destruct (rescale_exists 2 1 shown (device_made _ _ _ _ _)) as (q' & M' & H).
  pose proof (shown_sound (repeat 0 4) eq_refl) as S. set (s := Scales 1 1 1).
  specialize (D s 2 1 shown q' (repeat 0 4) ltac:(cbn; lra) ltac:(cbn; lra) ltac:(cbn; lra) ltac:(lra) ltac:(lra) S M' H).
  destruct (unit_off mu_0 other s 2 1 shown q' (repeat 0 4) ltac:(lra) ltac:(lra) S M' H) as (E & _). specialize (E eq_refl).
  destruct D as (Q & u & v & v' & G & U & V & V' & _ & D). destruct E as (Q1 & u1 & v1 & v1' & G1 & U1 & V1 & V1' & _ & E).
  rewrite G in G1. injection G1 as <-. rewrite U in U1. injection U1 as <-. rewrite V in V1. injection V1 as <-. rewrite V' in V1'. injection V1' as <-.
  rewrite D in E. destruct (shown_K_theta other) as (Q2 & G2 & V2). rewrite G in G2. injection G2 as <-. rewrite V in V2. injection V2 as ->.
  cbn [el map] in E. injection E as E _ _ _. assert (Eu : u s = K_unit mu_0 s) by (change (Some (K_unit mu_0) = Some u) in U; injection U as <-; reflexivity).
  rewrite Eu in E. unfold K_unit, s in E. cbn [sc_B] in E. assert (2 / (1 / mu_0) = 2 * mu_0) as R by (field; lra). rewrite R in E. lra.
Qed.
Print Assumptions C107_K_theta_unit_refuted.

Example C107_example : sound shown [1; 2; 3; 4] /\ (exists q', made q' /\ rescaled 2 3 shown q') /\ 0 < sc_B (Scales 5 1 3) /\
  q_stellsym shown = true /\ exists Q, get_quantity (package []) "f_K" = Ok Q.
Proof.
  split; [now apply shown_sound|]. split; [apply rescale_exists, device_made|]. split; [cbn; lra|]. split; [reflexivity|]. eexists. reflexivity.
Qed.

(** ** C108 *)
Theorem C108_automatic_unit_refuted :
  exists name kind q, In (name, kind) documented /\ sound q (repeat 0 (q_ndofs q)) /\ forall other, automatic_unit other name q (scal 0).
Proof.
  exists "f_max_Phi", Number, shown. split; [cbn; tauto|]. split; [now apply shown_sound|]. intros other.
  destruct (zero_units other shown (shown_sound (repeat 0 4) eq_refl) "f_max_Phi" ltac:(cbn; tauto)) as (u & A & F).
  destruct (largest_value other shown (repeat 0 4) (shown_sound (repeat 0 4) eq_refl) "f_max_Phi" "Phi" Rabs ltac:(cbn; tauto)) as (m & v & Rm & _).
  pose proof A as A'. apply automatic_reads in A' as (Q & G & V). destruct Rm as (Q' & G' & V'). rewrite G in G'. injection G' as <-.
  change (value_of Q shown (repeat 0 4) = Ok u) in V. rewrite V in V'. injection V' as ->. inversion F; subst. exact A.
Qed.
Print Assumptions C108_automatic_unit_refuted.
(** The units of all quantities of the single-valued potential vanish, always. *)
Theorem C108_potential_units_vanish :
  forall other q, sound q (repeat 0 (q_ndofs q)) ->
  forall name, In name ["Phi"; "Phi2"; "f_max_Phi"; "f_max_Phi2"; "f_max_Phi4"; "f_l1_Phi"; "f_Phi"] ->
  exists u, automatic_unit other name q u /\ List.Forall (eq 0) (el u).
Proof. exact zero_units. Qed.
Print Assumptions C108_potential_units_vanish.
(** The units of the current quantities are positive.  Missing: the quantities
    above and those of C108_field_units, whose unit can vanish. *)
Theorem C108_current_units_partial :
  forall other q d, sound q (repeat 0 (q_ndofs q)) -> da (q_eval q) = Ok d -> (forall w, In w (concat d) -> 0 < w) ->
  q_G q <> 0 \/ q_I q <> 0 ->
  forall name, In name ["f_max_K2"; "f_K"; "f_huber_K"] -> exists m, automatic_unit other name q (scal m) /\ 0 < m.
Proof. intros other q d S. now apply current_units. Qed.
Print Assumptions C108_current_units_partial.
(** The units of the field errors are positive exactly if the net currents leave
    a normal field somewhere on the plasma grid. *)
Theorem C108_field_units :
  forall other q d, sound q (repeat 0 (q_ndofs q)) -> da (q_plasma q) = Ok d -> (forall w, In w (concat d) -> 0 < w) ->
  forall name, In name ["f_B"; "f_max_Bnormal"; "f_max_Bnormal2"] ->
  exists m v, automatic_unit other name q (scal m) /\ automatic_unit other "Bnormal" q v /\ 0 <= m /\
    (0 < m <-> exists y, In y (el v) /\ y <> 0).
Proof. intros other q d S. now apply field_units. Qed.
Print Assumptions C108_field_units.

Example C108_example : sound shown (repeat 0 (q_ndofs shown)) /\ (q_G shown <> 0 \/ q_I shown <> 0) /\
  (exists d, da (q_eval shown) = Ok d /\ forall w, In w (concat d) -> 0 < w) /\
  (exists d, da (q_plasma shown) = Ok d /\ forall w, In w (concat d) -> 0 < w).
Proof. split; [now apply shown_sound|]. split; [left; cbn; lra|]. exact shown_areas. Qed.

(** ** C109 *)
Theorem C109_largest_values :
  forall other q x, sound q x -> forall name fld h, In (name, fld, h)
    [("f_max_K2", "K2", fun y : R => y); ("f_max_K_dot_grad_K_cyl", "K_dot_grad_K_cyl", Rabs); ("f_max_Bnormal", "Bnormal", Rabs);
     ("f_max_Bnormal2", "Bnormal", fun y => y * y); ("f_max_Phi", "Phi", Rabs); ("f_max_Phi2", "Phi", fun y => y * y); ("f_max_Phi4", "Phi", fun y => y ^ 4)] ->
  exists m v, reads other name q x (scal m) /\ reads other fld q x v /\ is_max m (map h (el v)).
Proof. exact largest_value. Qed.
Print Assumptions C109_largest_values.
Theorem C109_integrals :
  forall other q x, sound q x -> forall name fld surf h, In (name, fld, surf, h)
    [("f_K", "K2", q_eval q, fun y => y / 2); ("f_B", "Bnormal", q_plasma q, fun y => y * y / 2); ("f_Phi", "Phi", q_eval q, fun y => y * y / 2);
     ("f_l1_Phi", "Phi", q_eval q, Rabs); ("f_huber_K", "K2", q_eval q, sqrt)] ->
  exists r v d, reads other name q x (scal r) /\ reads other fld q x v /\ da surf = Ok d /\
    r = INR (q_nfp q) * Rsum (map2 (fun w y => w * h y) (concat d) (el v)).
Proof. exact integral_value. Qed.
Print Assumptions C109_integrals.
Theorem C109_squares :
  forall other q x, sound q x -> forall name fld, In (name, fld) [("Phi2", "Phi"); ("Bnormal2", "Bnormal")] ->
  exists v w, reads other name q x v /\ reads other fld q x w /\ el v = map (fun y => y * y) (el w).
Proof. exact squares_value. Qed.
Print Assumptions C109_squares.
Theorem C109_current_strength :
  forall other q x, sound q x -> exists v w, reads other "K2" q x v /\ reads other "K" q x w /\ length (el w) = (3 * length (el v))%nat /\
  forall i, (i < length (el v))%nat -> nth i (el v) 0 = nth (3 * i) (el w) 0 ^ 2 + nth (3 * i + 1) (el w) 0 ^ 2 + nth (3 * i + 2) (el w) 0 ^ 2.
Proof. exact K2_value. Qed.
Print Assumptions C109_current_strength.
Theorem C109_normalised_error :
  forall other q x, sound q x -> exists r r0 v, reads other "f_B" q x (scal r) /\ reads other "f_B" q (repeat 0 (q_ndofs q)) (scal r0) /\
  reads other "f_B_normalized_by_Bnormal_IG" q x (scal v) /\ v = r / r0.
Proof. exact normalised_value. Qed.
Print Assumptions C109_normalised_error.
Theorem C109_total_potential :
  forall other q x, sound q x -> exists v w, reads other "Phi_with_net_current" q x v /\ reads other "Phi" q x w /\ sh v = sh w /\
  el v = map2 Rplus (el w) (flat_map (fun p => map (fun t => q_G q * p + q_I q * t) (q_qtheta q)) (q_qphi q)).
Proof. exact total_value. Qed.
Print Assumptions C109_total_potential.

Example C109_example : sound shown [1; 2; 3; 4].
Proof. now apply shown_sound. Qed.

(** ** C110 *)
(** The call shown in the documentation, with the coefficient array. *)
Theorem C110_array_call_refuted :
  exists Q, get_quantity (package []) "K_theta" = Ok Q /\
  exists q x v, sound q x /\ value_of Q q x = Ok v /\ call_any Q q (AArray (Arr [length x] x)) = Raise TypeError.
Proof.
  destruct (shown_K_theta []) as (Q & G & V). exists Q. split; [exact G|]. exists shown, (repeat 0 4). eexists.
  split; [now apply shown_sound|]. split; [exact V|reflexivity].
Qed.
Print Assumptions C110_array_call_refuted.
(** With the dictionary returned by the solver the slack entries do not matter.
    Missing: the call with the array. *)
Theorem C110_dictionary_call_partial :
  forall Q q d x, lookup "phi" d = Some (Arr [length x] x) -> call_any Q q (ADict d) = value_of Q q x.
Proof. intros Q q d x E. unfold call_any, value_of, call, getitem. rewrite E. reflexivity. Qed.
Print Assumptions C110_dictionary_call_partial.
Example C110_example : lookup "phi" [("aux", scal 3); ("phi", Arr [2%nat] [1; 2])] = Some (Arr [length [1; 2]] [1; 2]).
Proof. reflexivity. Qed.
