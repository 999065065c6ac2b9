(** Best designs of least-squares problems depend linearly on the net currents
    and the plasma field. *)
From Coq Require Import String List Bool Arith ZArith Reals Lra Lia.
From Verif Require Import Base ModelArray ModelMath SpecMath ModelSurface SpecSurface ProofSurface2
  ModelParams ModelField SpecField ProofField ProofField3
  ModelQuantity ModelWrapper SpecWrapper ModelPackage SpecPackage SpecConvex ProofConvex SpecBest ProofSquares ProofBest.
Import ListNotations.
Open Scope R_scope.
Open Scope string_scope.
Open Scope list_scope.

(** The device without net currents and plasma field. *)
Definition quiet (q : params) : params :=
  {| q_plasma := q_plasma q; q_winding := q_winding q; q_eval := q_eval q; q_G := 0; q_I := 0;
     q_Bnormal := gzeros (length (s_qphi (q_plasma q))) (length (s_qtheta (q_plasma q)));
     q_qphi := q_qphi q; q_qtheta := q_qtheta q; q_stellsym := q_stellsym q; q_mpol := q_mpol q; q_ntor := q_ntor q;
     q_ndofs := q_ndofs q; q_ndofs_half := q_ndofs_half q |}.
Lemma add_zeros g n m : length g = n -> List.Forall (fun row : list R => length row = m) g -> glincomb 1 1 g (gzeros n m) = g.
Proof.
  intros <- F. unfold glincomb, gzeros. induction F as [|r g E F IH]; [reflexivity|]. cbn [length repeat map2]. f_equal; [|exact IH].
  subst m. clear. unfold lincomb. induction r as [|x r IH]; [reflexivity|]. cbn [length repeat map2]. f_equal; [ring|exact IH].
Qed.
Lemma quiet_adds q : plasma_shaped q -> superposed 1 1 q (quiet q) q.
Proof.
  intros (L & F). split; [repeat split; reflexivity|]. split; [repeat split; reflexivity|]. cbn. split; [ring|]. split; [ring|].
  symmetry. now apply add_zeros.
Qed.
Lemma quiet_shaped q : plasma_shaped (quiet q).
Proof.
  split; cbn; unfold gzeros; [apply repeat_length|]. apply List.Forall_forall. intros r I. apply repeat_spec in I. subst r. apply repeat_length.
Qed.
Lemma quiet_same_field name q q' x : same_geometry q' q -> field name (quiet q') x = field name (quiet q) x.
Proof.
  intros G. pose proof (field_superposed name 1 0 (quiet q) (quiet q) (quiet q') x x) as A.
  pose proof G as (G1 & G2 & G3 & G4 & G5 & G6 & G7 & G8 & G9).
  assert (L : lincomb 1 0 x x = x) by (unfold lincomb; clear; induction x as [|a x IH]; [reflexivity|]; cbn [map2]; f_equal; [ring|exact IH]).
  rewrite L in A. rewrite A; try apply quiet_shaped; auto.
  - generalize (field name (quiet q) x). clear. intros l. unfold lincomb. induction l as [|a l IH]; [reflexivity|]. cbn [map2]. f_equal; [ring|exact IH].
  - split; [exact G|]. split; [exact G|]. cbn. split; [ring|]. split; [ring|]. rewrite G1. clear.
    unfold glincomb, gzeros. induction (length (s_qphi (q_plasma q))); [reflexivity|]. cbn [repeat map2]. f_equal; [|exact IHn].
    clear. unfold lincomb. induction (length (s_qtheta (q_plasma q))); [reflexivity|]. cbn [repeat map2]. f_equal; [ring|exact IHn].
Qed.

Section Optimality.
  Variables (other : list string) (q : params) (x : list R) (os : list (string * R)).
  Hypothesis S : sound q x.
  Hypothesis O : ordered q.
  Hypothesis H : forall name c, In (name, c) os -> 0 <= c /\ In name quadratic_figures.
  Let Lx : length x = q_ndofs q. Proof. apply S. Qed.
  Let P : plasma_shaped q. Proof. apply S. Qed.
  Lemma val_step h u : length h = length x -> val q (lincomb 1 1 x h) u = val q x u + val (quiet q) h u.
  Proof using S. intros L. rewrite (val_superposed 1 1 q (quiet q) q x h u (quiet_adds q P) P (quiet_shaped q)) by congruence. ring. Qed.
  (** No direction improves to first order. *)
  Definition balanced : Prop := forall h, length h = q_ndofs q -> ip (entries q os) (wt q) (val (quiet q) h) (val q x) = 0.
  Lemma best_balanced : least other q os [] x (fun _ => True) -> balanced.
  Proof using S O H.
    intros B h Lh. set (y := lincomb 1 1 x h). assert (Ly : length y = q_ndofs q) by (unfold y; rewrite length_lincomb; congruence).
    pose proof (smallest_excess (entries q os) (wt q) (wt_nonneg q x os S O H) (q_ndofs q) (val q) x (val_affine q x os S) Lx
      (least_smallest other q x os S H x Lx B) y Ly) as E.
    set (U := entries q os) in *. set (w := wt q) in *.
    assert (D : forall u, In u U -> val q y u = 1 * val q x u + 1 * val (quiet q) h u) by (intros u _; unfold y; rewrite val_step by congruence; ring).
    unfold en in E. rewrite (ip_ext U w _ _ _ _ D D) in E. rewrite ip_lin in E.
    rewrite (ip_sym U w (val q x)), (ip_sym U w (val (quiet q) h)), !ip_lin in E.
    rewrite (ip_ext U w (fun u => val q y u - val q x u) (val (quiet q) h) (fun u => val q y u - val q x u) (val (quiet q) h)) in E by (intros u Hu; rewrite (D u Hu); ring).
    rewrite (ip_sym U w (val q x) (val (quiet q) h)) in E. lra.
  Qed.
  Lemma balanced_best : balanced -> least other q os [] x (fun _ => True).
  Proof using S O H.
    intros B y fx fy Ly _ _ Wx Wy. rewrite (weighted_fun other q os _ _ _ Wx (objective_reads other q x os S H x Lx)), (weighted_fun other q os _ _ _ Wy (objective_reads other q x os S H y Ly)).
    set (h := lincomb 1 (-1) y x). assert (Lh : length h = q_ndofs q) by (unfold h; rewrite length_lincomb; congruence).
    assert (Ey : y = lincomb 1 1 x h).
    { unfold h. assert (L : length y = length x) by congruence. clear -L. unfold lincomb. revert x L. induction y as [|a y IH]; intros [|b x] L; try discriminate; [reflexivity|].
      cbn [map2]. f_equal; [ring|]. apply IH. now injection L. }
    rewrite (pythagoras (entries q os) (wt q) (val q) x y).
    - pose proof (en_nonneg (entries q os) (wt q) (wt_nonneg q x os S O H) (fun u => val q y u - val q x u)). lra.
    - rewrite (ip_ext _ _ _ (val (quiet q) h) _ (val q x)); [now apply B| |reflexivity].
      intros u _. rewrite Ey, val_step by congruence. ring.
  Qed.
End Optimality.

Lemma entries_same q q' os : same_geometry q' q -> entries q' os = entries q os.
Proof. intros G. unfold entries. induction os as [|o l IH]; [reflexivity|]. cbn [flat_map]. now rewrite IH, (weights_same _ _ _ G). Qed.
Lemma wt_same q q' u : same_geometry q' q -> wt q' u = wt q u.
Proof. intros G. unfold wt. now rewrite (weights_same _ _ _ G). Qed.
Lemma val_quiet_same q q' h u : same_geometry q' q -> val (quiet q') h u = val (quiet q) h u.
Proof. intros G. unfold val. now rewrite (quiet_same_field _ q q' h G). Qed.

Lemma superposed_sound a b q1 q2 q x1 x2 : made q -> superposed a b q1 q2 q -> sound q1 x1 -> sound q2 x2 -> sound q (lincomb a b x1 x2).
Proof.
  intros M Su S1 S2. pose proof Su as (G1 & G2 & _). pose proof G1 as (E1 & E2 & _ & _ & _ & _ & _ & _ & N1). pose proof G2 as (_ & _ & _ & _ & _ & _ & _ & _ & N2).
  split; [exact M|]. rewrite E1, E2. split; [apply S1|]. split; [apply S1|]. split; [apply (superposed_shape a b q1 q2 q); [exact Su|apply S1|apply S2]|].
  destruct S1 as (_ & _ & _ & _ & L1). destruct S2 as (_ & _ & _ & _ & L2). rewrite length_lincomb; congruence.
Qed.
Lemma best_superposed other a b q1 q2 q os x1 x2 : made q -> superposed a b q1 q2 q -> sound q1 x1 -> sound q2 x2 -> ordered q ->
  (forall name c, In (name, c) os -> 0 <= c /\ In name quadratic_figures) ->
  least other q1 os [] x1 (fun _ => True) -> least other q2 os [] x2 (fun _ => True) -> least other q os [] (lincomb a b x1 x2) (fun _ => True).
Proof.
  intros M Su S1 S2 O H B1 B2. pose proof Su as (G1 & G2 & _). pose proof (superposed_sound a b q1 q2 q x1 x2 M Su S1 S2) as S.
  assert (O1 : ordered q1). { destruct G1 as (E1 & _ & _ & E4 & E5 & _). unfold ordered in *. rewrite <- E1, <- E4, <- E5. exact O. }
  assert (O2 : ordered q2). { destruct G2 as (E1 & _ & _ & E4 & E5 & _). unfold ordered in *. rewrite <- E1, <- E4, <- E5. exact O. }
  apply balanced_best; auto. intros h Lh. pose proof (best_balanced other q1 x1 os S1 O1 H B1 h) as Z1. pose proof (best_balanced other q2 x2 os S2 O2 H B2 h) as Z2.
  assert (N1 : q_ndofs q = q_ndofs q1) by apply G1. assert (N2 : q_ndofs q = q_ndofs q2) by apply G2.
  specialize (Z1 ltac:(congruence)). specialize (Z2 ltac:(congruence)).
  assert (T1 : ip (entries q os) (wt q) (val q1 x1) (val (quiet q) h) = 0).
  { rewrite ip_sym, <- Z1, (entries_same q1 q os G1). unfold ip. apply Rsum_ext. intros u _. now rewrite (wt_same q1 q u G1), (val_quiet_same q1 q h u G1). }
  assert (T2 : ip (entries q os) (wt q) (val q2 x2) (val (quiet q) h) = 0).
  { rewrite ip_sym, <- Z2, (entries_same q2 q os G2). unfold ip. apply Rsum_ext. intros u _. now rewrite (wt_same q2 q u G2), (val_quiet_same q2 q h u G2). }
  rewrite ip_sym. rewrite (ip_ext _ _ _ (fun u => a * val q1 x1 u + b * val q2 x2 u) _ (val (quiet q) h)).
  - rewrite ip_lin, T1, T2. ring.
  - intros u _. apply val_superposed; [exact Su|apply S1|apply S2|]. destruct S1 as (_ & _ & _ & _ & L1). destruct S2 as (_ & _ & _ & _ & L2). congruence.
  - reflexivity.
Qed.
