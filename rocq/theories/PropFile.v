(** Property C137: the coils file holds the coils that are returned, as closed loops. *)
From Coq Require Import List Bool Arith ZArith Reals Lra Lia.
From Verif Require Import Base ModelArray ModelMath SpecMath ModelSurface SpecSurface ModelParams ModelField SpecField ModelSimsopt ModelCut SpecIo ProofCut WitnessField WitnessCut SpecFile.
Import ListNotations.
Open Scope R_scope.

Lemma wires_map i pts p : wires (map (fun v => (v, i)) pts ++ [(p, 0)]) = map2 (fun a b => (a, b, i)) pts (tl pts ++ [p]).
Proof.
  induction pts as [|a pts IH]; [reflexivity|]. destruct pts as [|b pts]; [reflexivity|].
  cbn [map app tl] in *. cbn [wires]. cbn [wires] in IH. rewrite IH. reflexivity.
Qed.
Lemma nth_map2 {A B C} (f : A -> B -> C) l1 l2 j da db dc : (j < length l1)%nat -> (j < length l2)%nat ->
  nth j (map2 f l1 l2) dc = f (nth j l1 da) (nth j l2 db).
Proof. revert l2 j. induction l1 as [|a l1 IH]; intros [|b l2] [|j]; cbn; try lia; auto. intros. apply IH; lia. Qed.
Lemma length_map2 {A B C} (f : A -> B -> C) l1 l2 : length l1 = length l2 -> length (map2 f l1 l2) = length l1.
Proof. revert l2. induction l1 as [|a l1 IH]; intros [|b l2]; cbn; try lia. intros. now rewrite IH by lia. Qed.
Lemma filament_polygon i pts rows : filament i pts = Ok rows -> polygon pts i (wires rows) /\ map fst rows = pts ++ firstn 1 pts.
Proof.
  destruct pts as [|a pts]; [discriminate|]. intros E. cbn [filament] in E. injection E as E. subst rows. split.
  - change ((a, i) :: map (fun v => (v, i)) pts ++ [(a, 0)]) with (map (fun v => (v, i)) (a :: pts) ++ [(a, 0)]). rewrite wires_map. cbn [tl].
    assert (Ln : length (pts ++ [a]) = length (a :: pts)) by (rewrite app_length; cbn; lia).
    split; [now apply length_map2|]. intros j d Hj. rewrite (nth_map2 _ _ _ j d d) by lia. do 2 f_equal.
    destruct (Nat.eq_dec (j + 1) (length (a :: pts))) as [E|E].
    + rewrite E, Nat.mod_same by discriminate. rewrite app_nth2 by (cbn in E; lia). cbn in E. replace (j - length pts)%nat with 0%nat by lia. reflexivity.
    + rewrite Nat.mod_small by lia. cbn in Hj, E. rewrite app_nth1 by lia. replace (j + 1)%nat with (Datatypes.S j) by lia. reflexivity.
  - cbn [map fst firstn app]. f_equal. rewrite map_app, map_map. cbn [map fst]. now rewrite map_id.
Qed.

(** ** C137 *)
Theorem C137_file_holds_closed_loops :
  forall find q x n shift coils current file,
  coil_xyz_from_qp find q x n shift true = Ok (coils, current, file) ->
  exists f, file = Some f /\ cf_periods f = q_nfp q /\
    Forall2 (fun pts rows => polygon pts current (wires rows) /\ map fst rows = pts ++ firstn 1 pts) coils (cf_filaments f).
Proof.
  intros find q x n shift coils current file E. destruct (xyz_parts _ _ _ _ _ _ _ _ _ E) as [_ H]. destruct (H eq_refl) as (fs & F & ->).
  exists {| cf_periods := q_nfp q; cf_filaments := fs |}. split; [reflexivity|]. split; [reflexivity|]. cbn [cf_filaments]. clear E H.
  revert fs F. induction coils as [|c coils IH]; intros fs F; cbn [filaments] in F; [injection F as <-; constructor|].
  destruct (filament current c) eqn:E1; [|discriminate]. cbn [bind] in F. destruct (filaments current coils); [|discriminate]. cbn [bind] in F. injection F as <-.
  constructor; [now apply filament_polygon|now apply IH].
Qed.
Print Assumptions C137_file_holds_closed_loops.

(** Saving changes nothing in what is returned; what is returned without saving
    can be saved unless a contour is empty. *)
Theorem C137_saving_is_transparent :
  forall find q x n shift coils current,
  coil_xyz_from_qp find q x n shift false = Ok (coils, current, None) ->
  (forall c, In c coils -> c <> []) ->
  exists f, coil_xyz_from_qp find q x n shift true = Ok (coils, current, Some f).
Proof.
  intros find q x n shift coils current. unfold coil_xyz_from_qp. destruct (coil_zeta_theta_from_qp find q x n shift) as [paths|]; [|discriminate]. cbn [bind].
  destruct (to_simsopt (q_winding q)) as [ss|]; [|discriminate]. cbn [bind]. destruct (coil_currents q (length paths)) as [i|]; [|discriminate]. cbn [bind].
  intros E Ne. assert (coils = map (map (cut_point ss)) paths /\ current = i) as (-> & ->) by (injection E; auto).
  destruct (filaments_ok i _ Ne) as (fs & ->). cbn [bind]. eexists. reflexivity.
Qed.
Print Assumptions C137_saving_is_transparent.

(** Straight contours on a circular torus with one field period: six coils, saved and not saved. *)
Example C137_example : let q := device 1 2 1 [[0; 1]; [2; 3]] false in let x := repeat 0 (q_ndofs q) in
  (exists coils current f, coil_xyz_from_qp (straight 1) q x 3 0 true = Ok (coils, current, Some f) /\ length coils = 6%nat) /\
  (exists coils current, coil_xyz_from_qp (straight 1) q x 3 0 false = Ok (coils, current, None) /\ length coils = 6%nat /\ forall c, In c coils -> c <> []).
Proof.
  intros q x. split.
  - destruct (straight_coils 1 2 1 [[0; 1]; [2; 3]] false x 3 0 true) as (c & i & f & E & L & _ & F); try discriminate; [apply repeat_length|].
    destruct (F eq_refl) as (g & ->). exists c, i, g. split; [exact E|exact L].
  - destruct (straight_coils 1 2 1 [[0; 1]; [2; 3]] false x 3 0 false) as (c & i & f & E & L & Ne & _); try discriminate; [apply repeat_length|].
    exists c, i. split; [|split; [exact L|intros p Hp ->; now apply Ne in Hp]]. fold q in E. rewrite E. f_equal. f_equal.
    revert E. clear. unfold coil_xyz_from_qp. destruct (coil_zeta_theta_from_qp _ _ _ _ _); [|discriminate]. cbn [bind]. destruct (to_simsopt _); [|discriminate]. cbn [bind].
    destruct (coil_currents _ _); [|discriminate]. cbn [bind]. intros E. now injection E.
Qed.
