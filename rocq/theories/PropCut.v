(** Properties of the exchange of surfaces with other codes and of coil
    cutting (C62-C65, C90-C98). *)
From Coq Require Import String List Bool Arith ZArith Reals Lra Lia.
From Verif Require Import Base ModelArray ModelMath SpecMath ModelSurface SpecSurface WitnessSurface
  ModelParams ModelField SpecField ProofField2 WitnessField ModelSimsopt ModelCut SpecIo ProofSimsopt ProofTrig ProofCut ProofCut2 WitnessCut.
Import ListNotations.
Open Scope R_scope.

(** ** C62 *)
Theorem C62_coils_conserve_current :
  forall find q x n shift order l, q_nfp q <> 0%nat -> simsopt_coil_from_qp find q x n shift order = Ok l ->
  poloidal_current l = q_G q /\
  (forall k, (k < q_nfp q)%nat -> poloidal_current (in_period k l) = q_G q / INR (q_nfp q)) /\
  (forall c, In c l -> (cl_period c < q_nfp q)%nat /\
     (if cl_flip c then - cl_current c else cl_current c) = q_G q / INR (length l)).
Proof. intros. split; [eapply coils_current|eapply coils_period_current]; eauto. Qed.
Print Assumptions C62_coils_conserve_current.

Example C62_example : forall st, let q := device 1 2 1 [[0; 1]; [2; 3]] st in
  q_nfp q <> 0%nat /\ exists l, simsopt_coil_from_qp (straight 1) q (repeat 0 (q_ndofs q)) 3 0 (Some 1%nat) = Ok l.
Proof.
  intros st q. split; [exact (Nat.neq_succ_0 1)|]. apply straight_set; [discriminate|]. apply repeat_length.
Qed.

(** ** C63 *)
Theorem C63_coefficients_partial :
  forall a N order, length a = (2 * order + 1)%nat -> (2 * order < N)%nat ->
  ifft_simsopt (samples N (trig_poly a)) order = Ok a.
Proof. exact ifft_poly. Qed.
Print Assumptions C63_coefficients_partial.

Theorem C63_too_few_samples :
  forall x order, (length x < 2 * order)%nat -> ifft_simsopt x order = Raise AssertionError.
Proof. exact ifft_short. Qed.
Print Assumptions C63_too_few_samples.

Theorem C63_two_per_order_refuted :
  exists a N order b, length a = (2 * order + 1)%nat /\ (2 * order <= N)%nat /\
  ifft_simsopt (samples N (trig_poly a)) order = Ok b /\ b <> a.
Proof. exact doubled. Qed.
Print Assumptions C63_two_per_order_refuted.

Example C63_example : length [1; 2; 3; 4; 5] = (2 * 2 + 1)%nat /\ (2 * 2 < 7)%nat /\ (length [1; 2; 3] < 2 * 2)%nat.
Proof. repeat split; simpl; lia. Qed.

(** ** C64 *)
Theorem C64_header_partial :
  forall s f b, save_focus b (FocusJax s) = Ok f ->
  (ff_modes f = length (ff_body f) <-> s_stellsym s = true /\ s_mpol s = 0%nat).
Proof. exact focus_header. Qed.
Print Assumptions C64_header_partial.

Theorem C64_header_refuted :
  exists s f, legal s /\ save_focus true (FocusJax s) = Ok f /\ ff_modes f <> length (ff_body f).
Proof. exact header_wrong. Qed.
Print Assumptions C64_header_refuted.

Example C64_example : exists f g, save_focus true (FocusJax torus) = Ok f /\ save_focus true (FocusJax circle) = Ok g.
Proof. do 2 eexists. split; reflexivity. Qed.

(** ** C65 *)
Theorem C65_potential_partial :
  forall q x, legal (q_winding q) ->
  exists p w, quadcoil_to_simsopt_cp q x = Ok p /\ to_simsopt (q_winding q) = Ok w /\ sp_winding p = w /\ sp_G p = q_G q /\
   sp_dofs p = x /\ sp_nfp p = q_nfp q /\ sp_stellsym p = q_stellsym q /\ sp_mpol p = q_mpol q /\ sp_ntor p = q_ntor q /\
   (sp_I p = q_I q <-> q_I q = 0).
Proof. exact potential_passed. Qed.
Print Assumptions C65_potential_partial.

Theorem C65_toroidal_current_refuted :
  exists q x p, made q /\ length x = q_ndofs q /\ quadcoil_to_simsopt_cp q x = Ok p /\ sp_I p <> q_I q.
Proof. exact toroidal_lost. Qed.
Print Assumptions C65_toroidal_current_refuted.

Example C65_example : legal (q_winding (device 1 2 0 [[0; 1]; [2; 3]] true)).
Proof. reflexivity. Qed.

(** ** C90 *)
Theorem C90_coils_on_winding_surface :
  forall find q x n shift save coils current file F,
  coil_xyz_from_qp find q x n shift save = Ok (coils, current, file) -> reports gamma (q_winding q) F ->
  exists paths, coil_zeta_theta_from_qp find q x n shift = Ok paths /\
    coils = map (map (fun zt => F (fst zt / (2 * PI)) (snd zt / (2 * PI)))) paths.
Proof. exact cut_on_surface. Qed.
Print Assumptions C90_coils_on_winding_surface.

Example C90_example : forall st, let q := device 1 2 1 [[0; 1]; [2; 3]] st in
  (exists coils current file, coil_xyz_from_qp (straight 1) q (repeat 0 (q_ndofs q)) 3 0 true = Ok (coils, current, file) /\
    length coils = if st then 3%nat else 6%nat) /\
  exists F, reports gamma (q_winding q) F.
Proof.
  intros st q. split.
  - destruct (straight_coils 1 2 1 [[0; 1]; [2; 3]] st (repeat 0 (q_ndofs q)) 3 0 true) as (c & i & f & E & L & _);
      try discriminate; [apply repeat_length|]. exists c, i, f. split; [exact E|]. rewrite L. destruct st; reflexivity.
  - eexists. apply ProofSurface2.layout_sym with (rc := [1 * 3; 1 * 1]) (zs := [1 * 1]); reflexivity.
Qed.

(** ** C91 *)
Theorem C91_levels :
  forall q ps ts q' x n, made q -> length x = q_ndofs q -> ps <> [] -> ts <> [] -> on_points q ps ts = Ok q' ->
  (n <> 0)%nat ->
  exists zeta theta data, forall find shift, exists f, 0 <= f < 1 /\ (exists z, shift = IZR z + f) /\
  coil_zeta_theta_from_qp find q' x n shift =
  bind (find zeta theta data
         (if q_stellsym q then map (fun k => (INR k + 1 / 2) / (2 * INR n)) (seq 0 n)
          else map (fun k => (INR k + 1 / 2 + f) / (2 * INR n)) (seq 0 (2 * n)))) (fun segs => Ok (concat segs)).
Proof. exact cut_level_call. Qed.
Print Assumptions C91_levels.

Theorem C91_half_and_mirror :
  forall n, (n <> 0)%nat ->
  map (fun k => (INR k + 1 / 2) / (2 * INR n)) (seq 0 (2 * n))
  = map (fun k => (INR k + 1 / 2) / (2 * INR n)) (seq 0 n)
    ++ rev (map (fun l => 1 - l) (map (fun k => (INR k + 1 / 2) / (2 * INR n)) (seq 0 n))).
Proof. exact half_levels. Qed.
Print Assumptions C91_half_and_mirror.

Theorem C91_whole_shift :
  forall find q x n shift z,
  coil_zeta_theta_from_qp find q x n (shift + IZR z) = coil_zeta_theta_from_qp find q x n shift.
Proof. exact cut_whole_shift. Qed.
Print Assumptions C91_whole_shift.

Theorem C91_symmetric_shift :
  forall find q x n shift shift', q_stellsym q = true ->
  coil_zeta_theta_from_qp find q x n shift = coil_zeta_theta_from_qp find q x n shift'.
Proof. exact cut_sym_shift. Qed.
Print Assumptions C91_symmetric_shift.

Theorem C91_no_coils :
  forall find q ps ts q' x shift, made q -> length x = q_ndofs q -> ps <> [] -> ts <> [] -> on_points q ps ts = Ok q' ->
  coil_zeta_theta_from_qp find q' x 0 shift = Raise ZeroDivisionError.
Proof. exact cut_no_coils. Qed.
Print Assumptions C91_no_coils.

Example C91_example : forall st, let q := device 1 2 1 [[0; 1]; [2; 3]] st in
  made q /\ length (repeat 1 (q_ndofs q)) = q_ndofs q /\ [0; 1/8] <> [] /\ [1/16; 1/3] <> [] /\
  on_points q [0; 1/8] [1/16; 1/3] = Ok q /\ q_stellsym q = st.
Proof.
  intros st q. split; [apply device_made|]. split; [apply repeat_length|]. split; [discriminate|]. split; [discriminate|].
  split; [apply device_placed|reflexivity].
Qed.

(** ** C92 *)
Theorem C92_contours_of_the_potential :
  forall q ps ts q' x n shift F t0 N,
  made q -> length x = q_ndofs q -> qreports (fun q => Phi_with_net_current q x) q F ->
  ps <> [] -> N <> 0%nat -> ts = equispaced t0 (/ INR N) N -> on_points q ps ts = Ok q' ->
  / 2 ^ 52 < Rabs (q_G q) -> n <> 0%nat ->
  let zeta := map (fun p => 2 * PI * (p - / INR (q_nfp q))) ps ++ map (fun p => 2 * PI * p) ps
              ++ map (fun p => 2 * PI * (p + / INR (q_nfp q))) ps in
  exists levels, forall find,
  coil_zeta_theta_from_qp find q' x n shift =
  bind (find zeta (map (fun t => 2 * PI * t) ts)
     (map (fun t => map (fun z => F (z / (2 * PI)) t / (q_G q / INR (q_nfp q))) zeta) ts) levels)
     (fun segs => Ok (concat segs)).
Proof. exact cut_data_call. Qed.
Print Assumptions C92_contours_of_the_potential.

Example C92_example : let q := device 1 2 1 [[0; 1]; [2; 3]] true in
  made q /\ length [1; 2; 3; 4] = q_ndofs q /\ (exists F, qreports (fun q => Phi_with_net_current q [1; 2; 3; 4]) q F) /\
  (exists q', on_points q [0; 1/4] (equispaced 0 (/ INR 2) 2) = Ok q') /\ / 2 ^ 52 < Rabs (q_G q).
Proof.
  intros q. split; [apply device_made|]. split; [reflexivity|]. split; [eexists; apply tot_reports; [apply device_made|reflexivity]|].
  split; [eexists; reflexivity|]. cbn [q device q_G]. rewrite Rabs_pos_eq by lra.
  apply Rlt_le_trans with 1; [|lra]. rewrite <- Rinv_1. apply Rinv_lt_contravar; [|simpl; lra]. rewrite Rmult_1_l. apply pow_lt. lra.
Qed.

(** ** C93 *)
Theorem C93_coil_current_partial :
  forall find q x n shift save coils current file, q_nfp q <> 0%nat -> q_G q <> 0 ->
  coil_xyz_from_qp find q x n shift save = Ok (coils, current, file) ->
  (n <> 0)%nat /\
  (current = q_G q / INR (q_nfp q) * (1 / (2 * INR n)) <-> length coils = if q_stellsym q then n else (2 * n)%nat).
Proof. exact level_current. Qed.
Print Assumptions C93_coil_current_partial.

Theorem C93_coil_current_refuted :
  exists find q x n coils current file,
  made q /\ length x = q_ndofs q /\ coil_xyz_from_qp find q x n 0 false = Ok (coils, current, file) /\
  current <> q_G q / INR (q_nfp q) * (1 / (2 * INR n)).
Proof. exact two_paths. Qed.
Print Assumptions C93_coil_current_refuted.

Example C93_example : forall st, let q := device 1 2 1 [[0; 1]; [2; 3]] st in
  q_nfp q <> 0%nat /\ q_G q <> 0 /\
  exists coils current file, coil_xyz_from_qp (straight 1) q (repeat 0 (q_ndofs q)) 3 0 true = Ok (coils, current, file) /\
    length coils = if q_stellsym q then 3%nat else (2 * 3)%nat.
Proof.
  intros st q. split; [exact (Nat.neq_succ_0 1)|]. split; [cbn; lra|].
  destruct (straight_coils 1 2 1 [[0; 1]; [2; 3]] st (repeat 0 (q_ndofs q)) 3 0 true) as (c & i & f & E & L & _);
      try discriminate; [apply repeat_length|]. exists c, i, f. split; [exact E|]. rewrite L. destruct st; reflexivity.
Qed.

(** ** C94 *)
Theorem C94_file_current_partial :
  forall find q x n shift coils current f, q_nfp q <> 0%nat ->
  coil_xyz_from_qp find q x n shift true = Ok (coils, current, Some f) ->
  file_current f = if q_stellsym q then q_G q / 2 else q_G q.
Proof. exact file_current_value. Qed.
Print Assumptions C94_file_current_partial.

Theorem C94_file_current_refuted :
  exists find q x n coils current f,
  made q /\ length x = q_ndofs q /\ coil_xyz_from_qp find q x n 0 true = Ok (coils, current, Some f) /\
  file_current f <> q_G q.
Proof. exact half_file. Qed.
Print Assumptions C94_file_current_refuted.

Example C94_example : forall st, let q := device 1 2 1 [[0; 1]; [2; 3]] st in
  q_nfp q <> 0%nat /\
  exists coils current f, coil_xyz_from_qp (straight 1) q (repeat 0 (q_ndofs q)) 3 0 true = Ok (coils, current, Some f).
Proof.
  intros st q. split; [exact (Nat.neq_succ_0 1)|].
  destruct (straight_coils 1 2 1 [[0; 1]; [2; 3]] st (repeat 0 (q_ndofs q)) 3 0 true) as (c & i & f & E & _ & _ & F);
      try discriminate; [apply repeat_length|]. destruct (F eq_refl) as (g & ->). exists c, i, g. exact E.
Qed.

(** ** C95 *)
Theorem C95_curves_through_points_partial :
  forall coils order curves, simsopt_curves_from_xyz coils order = Ok curves ->
  Forall2 (fun c v => length c = (2 * cv_order v + 1)%nat ->
    forall j, (j < length c)%nat -> curve_point v (INR j / INR (length c)) = nth j c zero3) coils curves.
Proof. exact curves_through. Qed.
Print Assumptions C95_curves_through_points_partial.

Theorem C95_even_number_of_points :
  forall x order dofs, ifft_simsopt x order = Ok dofs -> length x = (2 * order)%nat ->
  ((forall j, (j < length x)%nat -> trig_poly dofs (INR j / INR (length x)) = nth j x 0) <-> alternating x = 0).
Proof. exact through_even. Qed.
Print Assumptions C95_even_number_of_points.

Theorem C95_curves_through_points_refuted :
  exists coils curves, simsopt_curves_from_xyz coils None = Ok curves /\
  ~ Forall2 (fun c v => forall j, (j < length c)%nat -> curve_point v (INR j / INR (length c)) = nth j c zero3) coils curves.
Proof. exact not_through. Qed.
Print Assumptions C95_curves_through_points_refuted.

Example C95_example : exists v dofs,
  simsopt_curves_from_xyz [[V3 1 0 0; V3 0 1 0; V3 0 0 1]] None = Ok [v] /\
  length [V3 1 0 0; V3 0 1 0; V3 0 0 1] = (2 * cv_order v + 1)%nat /\
  ifft_simsopt [1; 2; 3; 2] 2 = Ok dofs /\ length [1; 2; 3; 2] = (2 * 2)%nat.
Proof. do 2 eexists. split; [reflexivity|]. split; [reflexivity|]. split; reflexivity. Qed.

(** ** C96 *)
Theorem C96_focus_file_describes_surface :
  forall s f F b, save_focus b (FocusJax s) = Ok f -> reports gamma s F ->
  forall p t, focus_surface f p t = F p t.
Proof. exact focus_jax. Qed.
Print Assumptions C96_focus_file_describes_surface.

Theorem C96_focus_file_from_simsopt :
  forall ss s f F b, save_focus b (FocusSimsopt ss) = Ok f -> to_simsopt s = Ok ss -> reports gamma s F ->
  forall p t, focus_surface f p t = F p t.
Proof. exact focus_simsopt. Qed.
Print Assumptions C96_focus_file_from_simsopt.

Example C96_example : exists f F ss g, save_focus false (FocusJax torus) = Ok f /\ reports gamma torus F /\
  to_simsopt torus_general = Ok ss /\ save_focus false (FocusSimsopt ss) = Ok g.
Proof.
  do 4 eexists. split; [reflexivity|]. split; [apply ProofSurface2.layout_sym with (rc := [3; 1]) (zs := [1]); reflexivity|].
  split; reflexivity.
Qed.

(** ** C97 *)
Theorem C97_jax_and_simsopt_accepted_partial :
  forall b, (forall s, legal s -> exists f, save_focus b (FocusJax s) = Ok f) /\
  (forall s, ~ legal s -> save_focus b (FocusJax s) = Raise ValueError) /\
  (forall ss, exists f, save_focus b (FocusSimsopt ss) = Ok f) /\
  (forall s, save_focus b (FocusDesc (Ok s)) = Raise (if b then AttributeError else ImportError)) /\
  save_focus b FocusOther = Raise (if b then TypeError else ImportError).
Proof.
  intros b. split; [|split; [|split; [|split]]].
  - intros s L. destruct (legal_to_simsopt s L) as (ss & E). cbn [save_focus]. rewrite E. eexists. reflexivity.
  - intros s L. cbn [save_focus]. now rewrite (illegal_to_simsopt s L).
  - intros ss. eexists. reflexivity.
  - intros s. destruct b; reflexivity.
  - destruct b; reflexivity.
Qed.
Print Assumptions C97_jax_and_simsopt_accepted_partial.

Theorem C97_desc_surface_refuted : exists s, legal s /\ save_focus true (FocusDesc (Ok s)) = Raise AttributeError.
Proof. exists torus. split; reflexivity. Qed.
Print Assumptions C97_desc_surface_refuted.

Example C97_example : legal torus /\ exists s, ~ legal s.
Proof.
  split; [reflexivity|]. exists {| s_nfp := 2; s_stellsym := true; s_mpol := 1; s_ntor := 0; s_dofs := [3; 1];
     s_qphi := [0]; s_qtheta := [0]; s_theta_mesh := [[0]]; s_phi_mesh := [[0]]; s_dphi := 0; s_dtheta := 0 |}.
  discriminate.
Qed.

(** ** C98 *)
Theorem C98_simsopt_round_trip :
  forall s, built s -> legal s -> exists ss, to_simsopt s = Ok ss /\ from_simsopt ss = Ok s.
Proof. exact simsopt_round_trip. Qed.
Print Assumptions C98_simsopt_round_trip.

Theorem C98_simsopt_round_trip_back :
  forall ss s, ss_qphi ss <> [] -> ss_qtheta ss <> [] -> from_simsopt ss = Ok s ->
  legal s /\ exists ss', to_simsopt s = Ok ss' /\ ss_nfp ss' = ss_nfp ss /\ ss_stellsym ss' = ss_stellsym ss /\
    ss_qphi ss' = ss_qphi ss /\ ss_qtheta ss' = ss_qtheta ss /\
    forall m n, is_mode (ss_mpol ss) (ss_ntor ss) (m, n) ->
      ss_rc ss' m n = ss_rc ss m n /\
      ((m, n) <> (0%Z, 0%Z) -> ss_zs ss' m n = ss_zs ss m n) /\
      (ss_stellsym ss = false ->
        ss_zc ss' m n = ss_zc ss m n /\ ((m, n) <> (0%Z, 0%Z) -> ss_rs ss' m n = ss_rs ss m n)).
Proof. exact simsopt_round_trip_back. Qed.
Print Assumptions C98_simsopt_round_trip_back.

Example C98_example : built torus /\ legal torus /\
  exists ss, to_simsopt torus = Ok ss /\ ss_qphi ss <> [] /\ ss_qtheta ss <> [] /\ from_simsopt ss = Ok torus.
Proof.
  split; [unfold built; repeat eexists; apply torus_made|]. split; [apply torus_legal|].
  destruct (simsopt_round_trip torus) as (ss & E1 & E2); [unfold built; repeat eexists; apply torus_made|apply torus_legal|].
  exists ss. split; auto. injection E1 as <-. cbn. split; [discriminate|]. split; [discriminate|]. exact E2.
Qed.
