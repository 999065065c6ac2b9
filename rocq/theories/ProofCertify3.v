(** The solver's problem of a convex call, as a function of the flat unknowns,
    and the flat unknowns that stand for a design. *)
From Coq Require Import String List Bool Arith ZArith Reals Lra Lia Permutation.
From Verif Require Import Base ModelArray ProofArray ModelMath SpecMath ProofMath ModelSurface SpecSurface ModelParams ModelField SpecField
  ModelQuantity SpecQuantity ProofQuantity ProofSlack ModelWrapper SpecWrapper ProofWrapper ProofWrapper2 ModelShipped ModelPackage SpecPackage
  SpecConvex ProofPackage ProofPackage2 ProofPackage3 ProofPackage4 ProofConvex ModelSolver SpecSolver ProofSolver ModelQuadcoil SpecQuadcoil ProofQuadcoil ProofQuadcoil2
  SpecProblem ProofProblem ProofProblem2 ProofEnd ProofEnd2 SpecEnd ProofEnd3 ProofEnd4 SpecCert ProofCert PropConvex SpecBest SpecCertify ProofCertify ProofCertify2.
Import ListNotations.
Open Scope R_scope.
Open Scope string_scope.
Open Scope list_scope.

Lemma firstn_comb s t n : forall a b, firstn n (lincomb s t a b) = lincomb s t (firstn n a) (firstn n b).
Proof. induction n as [|n IH]; intros [|p a] [|q b]; try reflexivity. cbn. f_equal. apply IH. Qed.
Lemma skipn_comb s t n : forall a b, length a = length b -> skipn n (lincomb s t a b) = lincomb s t (skipn n a) (skipn n b).
Proof. induction n as [|n IH]; intros [|p a] [|q b] L; try discriminate; try reflexivity. cbn. apply IH. now injection L. Qed.
Lemma unravel_comb a b s : forall z1 z2 key c1 c2 c3, length z1 = length z2 ->
  lookup key (unravel s z1) = Some c1 -> lookup key (unravel s z2) = Some c2 -> lookup key (unravel s (lincomb a b z1 z2)) = Some c3 ->
  el c3 = lincomb a b (el c1) (el c2).
Proof.
  induction s as [|(k, shp) s IH]; intros z1 z2 key c1 c2 c3 L; cbn [unravel lookup]; [discriminate|]. destruct (String.eqb key k).
  - intros [= <-] [= <-] [= <-]. cbn [el]. apply firstn_comb.
  - rewrite skipn_comb by exact L. apply IH. rewrite !skipn_length. now rewrite L.
Qed.

Section Call.
  Variables (other : list string) (E : library) (a : args (x_solver E)) (p : prepared) (U : string -> R) (os : list objective) (cs : list user_constraint).
  Notation q := (fn_qp (pr_fn p)).
  Notation P := (solver_problem E a p).
  Hypothesis Hp : prepare (package other) a = Ok p.
  Hypothesis As : asks a os cs.
  Hypothesis Hs : qc_smoothing a = Some "slack".
  Hypothesis Hm : qc_merge a = false.
  Hypothesis O : ordered q.
  Hypothesis Sx : exists x, sound q x.
  Hypothesis Uo : forall o, In o os -> 0 <= ob_weight o /\ scaled_use U q (ob_name o) (ob_unit o).
  Hypothesis Uc : forall c, In c cs -> scaled_use U q (uc_name c) (uc_unit c).
  Hypothesis Hu : pr_unit p <> 0.
  Hypothesis Hphi : forall x, qc_phi_init a = Some x -> length x = q_ndofs q.

  (** A design that meets the constraints has its representative. *)
  Lemma representative : forall x r, length x = q_ndofs q -> SpecConvex.feasible other q (asked_bounds cs) x -> weighted other q (asked_terms os) x r ->
    exists z d, length z = length (pr_x0 p) /\ stands_for p z d x /\ admissible P z /\ p_f _ P z = r.
  Proof using Hp As Hs Hm O Sx Uo Uc Hu Hphi.
    destruct (handed_problem (package other) a p os cs Hp As Hs Hm) as (f & po & pc & Eo & Ec & Ff & Fg & Fh & Ng & Nh & Fa).
    destruct (prepare_fields (package other) a p Hp) as (_ & _ & _ & _ & _ & _ & phi & x0 & Ephi & _ & Ex & Ex0 & Est).
    rewrite Fa in Ex. pose proof (all_sound p Sx) as Sa.
    assert (Lphi : length phi = q_ndofs q).
    { rewrite Ephi. destruct (qc_phi_init a) as [v|] eqn:Ev; [now apply Hphi|apply repeat_length]. }
    destruct (x0_facts other q U os cs (qc_smoothing_params a) f po pc O Uo Uc Eo Ec Sa phi (pr_unit p) x0 Lphi Ex) as (N0 & _ & _ & W0).
    assert (Ltot : length (pr_x0 p) = total (structure x0)).
    { rewrite Ex0. apply ravel_length. intros [k v] I. cbn. apply lookup_in in I; [|exact N0]. exact (proj1 (W0 k v I)). }
    pose proof (all_steady other q U os cs (qc_smoothing_params a) f po pc O Uo Uc Eo Ec Sx) as Ast.
    destruct (merged_steady q po pc (ModelWrapper.p_g po ++ ModelWrapper.p_g pc) (Some "slack") (qc_smoothing_params a)) as (ng & Hg); [auto|].
    destruct (merged_steady q po pc (ModelWrapper.p_h po ++ ModelWrapper.p_h pc) None []) as (nh & Hh); [auto|].
    assert (Unp : forall z, length z = length (pr_x0 p) -> exists d x, unscale (pr_structure p) (pr_unit p) z = Ok d /\ length x = q_ndofs q /\ solver_state po pc q (vec x) d).
    { intros z Lz. rewrite Est. apply (unpack other q U os cs (qc_smoothing_params a) f po pc O Uo Uc Eo Ec Sa phi (pr_unit p) x0 Lphi Ex). congruence. }
    assert (Adm : forall z d x, unscale (pr_structure p) (pr_unit p) z = Ok d -> length x = q_ndofs q -> solver_state po pc q (vec x) d ->
      (admissible P z <-> system_holds po q d /\ system_holds pc q d)).
    { intros z d x Ed Lx St. pose proof (conj (Sa x Lx) St : state q po pc x d) as Sd. unfold admissible. cbn [solver_problem ModelSolver.p_g ModelSolver.p_h].
      assert (Ev : forall g, In g (ModelWrapper.p_g po ++ ModelWrapper.p_g pc) \/ In g (ModelWrapper.p_h po ++ ModelWrapper.p_h pc) -> exists o, g q d = Ok o).
      { intros g I. destruct (Ast g I) as (Lg & HL). destruct (HL x d Sd) as (o & Eo' & _). eauto. }
      destruct (merge_plain _ (map Some (ModelWrapper.p_g po ++ ModelWrapper.p_g pc)) (Some "slack") (qc_smoothing_params a) q d) as (og & Eg & Mg & _).
      { intros g I. apply in_map_iff in I as (g1 & [= <-] & I). auto. }
      destruct (merge_plain _ (map Some (ModelWrapper.p_h po ++ ModelWrapper.p_h pc)) None [] q d) as (oh & Eh & _ & Mh).
      { intros g I. apply in_map_iff in I as (g1 & [= <-] & I). auto. }
      unfold g_scaled, h_scaled. rewrite Ed. cbn [bind]. rewrite Fg, Fh, Eg, Eh. cbn [list_of]. rewrite !List.Forall_forall.
      change ((all_le0 og /\ all_eq0 oh) <-> system_holds po q d /\ system_holds pc q d). rewrite Mg, Mh. clear Mg Mh Eg Eh. split.
      - intros (A & B).
        assert (KG : forall g, In g (ModelWrapper.p_g po ++ ModelWrapper.p_g pc) -> exists o, g q d = Ok o /\ all_le0 o).
        { intros g I. destruct (Ev g (or_introl I)) as (o & Eo'). exists o. split; [exact Eo'|]. apply (A g); [now apply in_map|exact Eo']. }
        assert (KH : forall g, In g (ModelWrapper.p_h po ++ ModelWrapper.p_h pc) -> exists o, g q d = Ok o /\ all_eq0 o).
        { intros g I. destruct (Ev g (or_intror I)) as (o & Eo'). exists o. split; [exact Eo'|]. apply (B g); [now apply in_map|exact Eo']. }
        repeat split; intros g I; [apply KG|apply KH|apply KG|apply KH]; apply in_app_iff; auto.
      - intros ((A1 & A2) & (B1 & B2)). split; intros g o I Eg; apply in_map_iff in I as (g1 & [= <-] & I); apply in_app_iff in I as [I|I].
        + destruct (A1 _ I) as (o' & E' & H). assert (o' = o) by congruence. now subst o'.
        + destruct (B1 _ I) as (o' & E' & H). assert (o' = o) by congruence. now subst o'.
        + destruct (A2 _ I) as (o' & E' & H). assert (o' = o) by congruence. now subst o'.
        + destruct (B2 _ I) as (o' & E' & H). assert (o' = o) by congruence. now subst o'. }
    assert (Val : forall z d x, unscale (pr_structure p) (pr_unit p) z = Ok d -> length x = q_ndofs q -> solver_state po pc q (vec x) d ->
      exists y, f q d = Ok (scal y) /\ f_scaled p z = Ok (scal y)).
    { intros z d x Ed Lx St. destruct (objective_value other q U os cs (qc_smoothing_params a) f po pc O Uo Uc Eo Ec Sx x d (conj (Sa x Lx) St)) as (y & Ey).
      exists y. split; [exact Ey|]. unfold f_scaled. rewrite Ed. cbn [bind]. rewrite Ff. exact Ey. }
    intros x r Lx Fx Wx. destruct (from_user_ext other q U os cs (qc_smoothing_params a) f po pc O Uo Uc Eo Ec x (Sa x Lx) r Fx Wx) as (D & _ & HD).
    destruct (HD D) as (St & _); [auto|].
    destruct (repack other q U os cs (qc_smoothing_params a) f po pc O Uo Uc Eo Ec Sa phi (pr_unit p) x0 Lphi Ex Hu x D Lx St) as (z & d & Lz & Ed & Hd).
    rewrite <- Est in Ed. destruct (HD d Hd) as (St' & S1 & S2 & Ey). exists z, d. split; [congruence|]. split; [exact (conj Ed (conj Lx (proj1 St')))|]. split; [apply (Adm z d x Ed Lx St'); auto|].
    destruct (Val z d x Ed Lx St') as (y & Ey' & Fy). cbn [solver_problem ModelSolver.p_f]. rewrite Fy. cbn. rewrite Ey in Ey'. now injection Ey'.
  Qed.

  (** A bound on the bending of the rows of f_max_K2 between two designs. *)
  Lemma bend_exists x y : (forall x, length x = q_ndofs q -> sound q x) -> length x = q_ndofs q -> length y = q_ndofs q ->
    exists bend, 0 <= bend /\ ((forall un, ~ used os cs "f_max_K2" un) -> bend = 0) /\
      forall un, used os cs "f_max_K2" un -> forall vx vy, implementation "_K2" q (at_phi x) = Ok vx -> implementation "_K2" q (at_phi y) = Ok vy ->
        Forall2 (fun p r => 2 * (p + r) <= bend * Rabs un) (el vx) (el vy).
  Proof using other Uo Uc.
    intros Sa Lx Ly.
    destruct (in_dec string_dec "f_max_K2" (map ob_name os ++ map uc_name cs)) as [Y|N].
    2:{ exists 0. assert (Z : forall un, ~ used os cs "f_max_K2" un).
        { intros un [(o & Io & En & _)|(c & Ic & En & _)]; apply N, in_app_iff; [left|right]; apply in_map_iff; eauto. }
        split; [lra|]. split; [reflexivity|]. intros un Un. now apply Z in Un. }
    destruct (derived_K2 other q Sa x y 0 Lx Ly ltac:(lra)) as (ax & ay & vx & vy & vz & R1 & R2 & _ & _ & _ & L & E1 & E2 & _).
    assert (V1 : implementation "_K2" q (at_phi x) = Ok vx) by (eapply (field_of other q "_K2" "K2"); [reflexivity|reflexivity|exact R1]).
    assert (V2 : implementation "_K2" q (at_phi y) = Ok vy) by (eapply (field_of other q "_K2" "K2"); [reflexivity|reflexivity|exact R2]).
    assert (Low : forall l : list R, exists b, 0 < b /\ forall u, In u l -> u <> 0 -> b <= Rabs u).
    { clear. intros l. induction l as [|u l (b & Hb & IH)]; [exists 1; split; [lra|intros u []]|]. destruct (Req_dec u 0) as [->|Nz].
      - exists b. split; [exact Hb|]. intros v [<-|I] Hv; [now contradiction Hv|auto].
      - exists (Rmin b (Rabs u)). split; [apply Rmin_glb_lt; [exact Hb|now apply Rabs_pos_lt]|]. intros v [<-|I] Hv; [apply Rmin_r|].
        eapply Rle_trans; [apply Rmin_l|auto]. }
    destruct (Low (map ob_unit os ++ map uc_unit cs)) as (b & Hb & HL).
    assert (Big : exists M, 0 <= M /\ Forall2 (fun p r => 2 * (p + r) <= M) (el vx) (el vy)).
    { rewrite E1, E2. clear - L. revert ay L. induction ax as [|u ax IH]; intros [|v ay] L; try discriminate; [exists 0; split; [lra|constructor]|].
      destruct (IH ay ltac:(now injection L)) as (M & HM & F). exists (Rmax M (2 * (dot3 u u + dot3 v v))). split; [eapply Rle_trans; [exact HM|apply Rmax_l]|].
      cbn [map]. constructor; [apply Rmax_r|]. clear - F. induction F; constructor; auto. eapply Rle_trans; [eassumption|apply Rmax_l]. }
    destruct Big as (M & HM & F). exists (M / b). assert (Hi : 0 < / b) by (apply Rinv_0_lt_compat; exact Hb).
    assert (Hd : 0 <= M / b) by (apply Rmult_le_pos; lra). split; [exact Hd|]. split.
    - intros No. exfalso. apply in_app_iff in Y as [Y|Y]; apply in_map_iff in Y as (o & En & Io); apply (No (ob_unit o)) || apply (No (uc_unit o)); [left|right]; exists o; auto.
    - intros un Un wx wy W1 W2. assert (wx = vx) by congruence. assert (wy = vy) by congruence. subst wx wy.
      destruct (scaled_used q U os cs Uo Uc _ un Un) as (Nz & _).
      assert (Hl : b <= Rabs un). { apply HL; [|exact Nz]. apply in_app_iff. destruct Un as [(o & Io & _ & <-)|(c & Ic & _ & <-)]; [left|right]; apply in_map_iff; eauto. }
      assert (HMb : M <= M / b * Rabs un). { apply Rle_trans with (M / b * b); [right; field; lra|apply Rmult_le_compat_l; assumption]. }
      clear - F HMb. induction F; constructor; auto. lra.
  Qed.

  Section Near.
  Hypothesis Cv : nearly_convex_call other q os cs.
  Lemma near_problem z1 z2 : length z1 = length (pr_x0 p) -> length z2 = length (pr_x0 p) ->
    exists bend, 0 <= bend /\ ((forall un, ~ used os cs "f_max_K2" un) -> bend = 0) /\ forall t, 0 <= t <= 1 ->
    let zt := lincomb t (1 - t) z1 z2 in
    p_f _ P zt <= t * p_f _ P z1 + (1 - t) * p_f _ P z2 /\
    Forall2 (fun r s => r <= s + t * (1 - t) * bend) (p_g _ P zt) (lincomb t (1 - t) (p_g _ P z1) (p_g _ P z2)) /\
    p_h _ P zt = lincomb t (1 - t) (p_h _ P z1) (p_h _ P z2).
  Proof using Hp As Hs Hm O Sx Uo Uc Hu Hphi Cv.
    destruct (handed_problem (package other) a p os cs Hp As Hs Hm) as (f & po & pc & Eo & Ec & Ff & Fg & Fh & Ng & Nh & Fa).
    destruct (prepare_fields (package other) a p Hp) as (_ & _ & _ & _ & _ & _ & phi & x0 & Ephi & _ & Ex & Ex0 & Est).
    rewrite Fa in Ex. pose proof (all_sound p Sx) as Sa.
    assert (Lphi : length phi = q_ndofs q).
    { rewrite Ephi. destruct (qc_phi_init a) as [v|] eqn:Ev; [now apply Hphi|apply repeat_length]. }
    destruct (x0_facts other q U os cs (qc_smoothing_params a) f po pc O Uo Uc Eo Ec Sa phi (pr_unit p) x0 Lphi Ex) as (N0 & _ & _ & W0).
    assert (Ltot : length (pr_x0 p) = total (structure x0)).
    { rewrite Ex0. apply ravel_length. intros [k v] I. cbn. apply lookup_in in I; [|exact N0]. exact (proj1 (W0 k v I)). }
    assert (Unp : forall z, length z = length (pr_x0 p) -> exists d x, unscale (pr_structure p) (pr_unit p) z = Ok d /\ length x = q_ndofs q /\ solver_state po pc q (vec x) d).
    { intros z Lz. rewrite Est. apply (unpack other q U os cs (qc_smoothing_params a) f po pc O Uo Uc Eo Ec Sa phi (pr_unit p) x0 Lphi Ex). congruence. }
    intros Lz1 Lz2. destruct (Unp z1 Lz1) as (d & x & Ed & Lx & Sd). destruct (Unp z2 Lz2) as (e & y & Ee & Ly & Se).
    destruct (bend_exists x y Sa Lx Ly) as (bend & HE & HN & HB). exists bend. split; [exact HE|]. split; [exact HN|].
    intros t Ht zt. assert (Lzt : length zt = length (pr_x0 p)) by (unfold zt, lincomb; rewrite map2_len by congruence; exact Lz1).
    destruct (Unp zt Lzt) as (k & w & Ek & Lw & Sk).
    pose proof (unscale_lookup _ _ _ _ Ed) as LD. pose proof (unscale_lookup _ _ _ _ Ee) as LE. pose proof (unscale_lookup _ _ _ _ Ek) as LK.
    assert (Ew : w = lincomb t (1 - t) x y).
    { destruct Sd as (Pd & _). destruct Se as (Pe & _). destruct Sk as (Pk & _). rewrite LD in Pd. rewrite LE in Pe. rewrite LK in Pk. cbn [String.eqb Ascii.eqb Bool.eqb] in Pd, Pe, Pk.
      destruct (lookup "phi_scaled" (unravel (pr_structure p) z1)) as [c1|] eqn:E1; [|discriminate Pd].
      destruct (lookup "phi_scaled" (unravel (pr_structure p) z2)) as [c2|] eqn:E2; [|discriminate Pe].
      destruct (lookup "phi_scaled" (unravel (pr_structure p) zt)) as [c3|] eqn:E3; [|discriminate Pk].
      cbn [option_map] in Pd, Pe, Pk. assert (X : forall u c v, Some (amap (fun v => v * u) c) = Some (vec v) -> v = map (fun v => v * u) (el c)).
      { clear. intros u c v [= H1 H2]. now rewrite <- H2. }
      apply X in Pd, Pe, Pk. subst x y w. rewrite lincomb_map. f_equal. apply (unravel_comb t (1 - t) _ z1 z2 _ _ _ _ ltac:(congruence) E1 E2 E3). }
    subst w.
    assert (Hk : forall key init, lookup key (dict_union (p_slack po) (p_slack pc)) = Some init -> exists a b c, lookup key d = Some a /\ lookup key e = Some b /\ lookup key k = Some c /\
      el c = lincomb t (1 - t) (el a) (el b)).
    { intros key init L. destruct (slack_key other q U os cs (qc_smoothing_params a) f po pc O Uo Uc Eo Ec Sa key init L) as (K1 & K2 & _).
      destruct Sd as (_ & Sd). destruct Se as (_ & Se). destruct Sk as (_ & Sk).
      destruct (Sd _ _ L) as (_ & a1 & _ & A1 & _). destruct (Se _ _ L) as (_ & b1 & _ & B1 & _). destruct (Sk _ _ L) as (_ & c1 & _ & C1 & _).
      exists a1, b1, c1. do 3 (split; [assumption|]). rewrite LD in A1. rewrite LE in B1. rewrite LK in C1.
      destruct (String.eqb_spec key "phi_scaled"); [contradiction|]. destruct (String.eqb_spec key "phi"); [contradiction|].
      exact (unravel_comb t (1 - t) _ z1 z2 _ _ _ _ ltac:(congruence) A1 B1 C1). }
    pose proof (conj (Sa x Lx) Sd : state q po pc x d) as TD. pose proof (conj (Sa y Ly) Se : state q po pc y e) as TE. pose proof (conj (Sa _ Lw) Sk : state q po pc _ k) as TK.
    destruct (objective_bowl other q U os cs (qc_smoothing_params a) f po pc O Uo Uc Eo Ec Sx Cv t x y d e k Ht TD TE TK Hk bend HE HB Sa) as (yd & ye & yk & F1 & F2 & F3 & F4).
    destruct (all_bowl other q U os cs (qc_smoothing_params a) f po pc O Uo Uc Eo Ec Sx Cv t x y d e k Ht TD TE TK Hk bend HE HB Sa) as (BG & BH).
    destruct (merged_bowl q t d e k (near t bend) _ (Some "slack") (qc_smoothing_params a) BG) as (g1 & g2 & g3 & G1 & G2 & G3 & _ & _ & G4).
    destruct (merged_bowl q t d e k eq _ None [] BH) as (h1 & h2 & h3 & H1 & H2 & H3 & _ & _ & H4).
    cbn [solver_problem ModelSolver.p_f ModelSolver.p_g ModelSolver.p_h]. unfold f_scaled, g_scaled, h_scaled. rewrite Ed, Ee, Ek. cbn [bind]. rewrite Ff, Fg, Fh, F1, F2, F3, G1, G2, G3, H1, H2, H3.
    cbn [real_of list_of]. split; [exact F4|]. split; [exact G4|]. now apply eq_of_Forall2.
  Qed.
  End Near.

  Hypothesis Cv : convex_call other q os cs.
  Lemma convex_problem z1 z2 t : length z1 = length (pr_x0 p) -> length z2 = length (pr_x0 p) -> 0 <= t <= 1 ->
    let zt := lincomb t (1 - t) z1 z2 in
    p_f _ P zt <= t * p_f _ P z1 + (1 - t) * p_f _ P z2 /\ Forall2 Rle (p_g _ P zt) (lincomb t (1 - t) (p_g _ P z1) (p_g _ P z2)) /\
    p_h _ P zt = lincomb t (1 - t) (p_h _ P z1) (p_h _ P z2).
  Proof using Hp As Hs Hm O Sx Uo Uc Hu Hphi Cv.
    intros L1 L2 Ht. destruct Cv as (C1 & C2 & C3 & C4).
    destruct (near_problem ltac:(split; [exact C1|split; [exact C2|split; intros u Iu; right; auto]]) z1 z2 L1 L2) as (bend & _ & HN & H).
    destruct (H t Ht) as (H1 & H2 & H3). split; [exact H1|]. split; [|exact H3]. rewrite HN in H2.
    - clear - H2. induction H2; constructor; auto. lra.
    - assert (No : ~ In "f_max_K2" (convex_slacks ++ direct_quantities)) by (cbn; clear; intuition discriminate).
      intros un [(o & Io & Eo & _)|(c & Ic & Ec & _)]; apply No; [rewrite <- Eo; auto|rewrite <- Ec; auto].
  Qed.
End Call.
