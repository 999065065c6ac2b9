(** Property C145: the left- and right-handed versions of a machine have the same figures. *)
From Coq Require Import String List Bool Arith ZArith Reals Lra Lia.
From Verif Require Import Base ModelArray ModelMath SpecMath ModelSurface SpecSurface ProofSurface ModelParams ModelField SpecField ProofField ProofField2 ProofField3 ProofField4
  ModelQuantity ModelWrapper SpecWrapper ModelPackage SpecPackage ProofPackage4 SpecConvex ProofConvex PropConvex WitnessField
  SpecBest ProofBest PropBest PropAttained SpecMirror ProofNfp ProofNfp2 SpecOrigin PropOrigin SpecHand ProofHand ProofHand2.
Import ListNotations.
Open Scope R_scope.
Open Scope string_scope.
Open Scope list_scope.

(** ** C145 *)
(** The figures of merit are the same numbers; the fields on the grid take the same values. *)
Theorem C145_mirror_images_have_the_same_figures :
  forall other q q' x x' name, sound q x -> sound q' x' -> mirrored_device q q' -> mirrored_potential q x q' x' -> In name origin_names ->
  exists v v', reads other name q x v /\ reads other name q' x' v' /\ (forall y, In y (el v') <-> In y (el v)) /\ (forall r, v = scal r -> v' = scal r).
Proof. intros other q q' x x' name S S' D P I. apply hand_agrees; auto. now apply origin_comparable. Qed.
Print Assumptions C145_mirror_images_have_the_same_figures.

(** The current is the reflected current reversed; the field is the reflected field; the normal field is the same. *)
Theorem C145_mirror_images_have_mirrored_fields :
  forall q q' x x', sound q x -> sound q' x' -> mirrored_device q q' -> mirrored_potential q x q' x' ->
  exists k b n, qreports (fun q => K q x OnEval) q k /\ qreports (fun q => K q x' OnEval) q' (fun p t => scale3 (-1) (flipz (k p (- t)))) /\
    preports (fun q => winding_surface_B q x) q b /\ preports (fun q => winding_surface_B q x') q' (fun p t => flipz (b p (- t))) /\
    preports (fun q => Bnormal q x) q n /\ preports (fun q => Bnormal q x') q' (fun p t => n p (- t)).
Proof.
  intros q q' x x' S S' D P. pose proof S as (M & Lw & Lp & _ & L). pose proof S' as (M' & Lw' & Lp' & _ & L').
  assert (E : forall p t, phi_of q' x' p t = phi_of q x p (- t)) by (apply hand_phi; auto).
  assert (Ext : forall (A : Type) (m : params -> result (grid A)) r F G, (forall p t, F p t = G p t) -> qreports m r F -> qreports m r G).
  { intros A m r F G H Q ps ts Hp Ht. destruct (Q ps ts Hp Ht) as (r' & A1 & A2). exists r'. split; [exact A1|]. rewrite A2. f_equal. now apply sample_ext. }
  assert (Pxt : forall (A : Type) (m : params -> result (grid A)) r F G, (forall p t, F p t = G p t) -> preports m r F -> preports m r G).
  { intros A m r F G H Q ps ts Hp Ht. destruct (Q ps ts Hp Ht) as (r' & A1 & A2). exists r'. split; [exact A1|]. rewrite A2. f_equal. now apply sample_ext. }
  exists (kval q x), (fun p t => bval q x (pt (q_plasma q) 0 0 p t)), (bnval q x).
  split; [now apply K_reports|]. split; [|split; [now apply B_reports|split; [|split; [now apply ProofField6.Bn_reports|]]]].
  - eapply Ext; [|apply (K_reports q' x' M' Lw' L')]. intros p t. apply (hd_kval q q' x x' S S' D E).
  - eapply Pxt; [|apply (B_reports q' x' M' Lw' Lp' L')]. intros p t. cbv beta. destruct D as (Dp & D). destruct (mirrored_pt _ _ Lp Lp' Dp p t) as (-> & _). apply (hd_bval q q' x x' S S' (conj Dp D) E).
  - eapply Pxt; [|apply (ProofField6.Bn_reports q' x' M' Lw' Lp' L')]. intros p t. apply (hd_bnval q q' x x' S S' D E).
Qed.
Print Assumptions C145_mirror_images_have_mirrored_fields.

(** The best designs of the mirror image are the mirror images of the best designs, with the same objective. *)
Theorem C145_best_designs_are_mirrored :
  forall other q q' z z' os cs x fx, sound q z -> sound q' z' -> mirrored_device q q' -> same_harmonics q q' ->
  (forall name w, In (name, w) os -> In name origin_names) -> (forall name c d, In (name, c, d) cs -> In name origin_names) ->
  best other q os cs x fx -> exists x', best other q' os cs x' fx /\ mirrored_potential q x q' x'.
Proof.
  intros other q q' z z' os cs x fx S S' D U Co Cc. apply (hand_best other q q' z z' os cs x fx S S' D U).
  - intros name w I. now apply origin_comparable, (Co name w).
  - intros name c d I. now apply origin_comparable, (Cc name c d).
Qed.
Print Assumptions C145_best_designs_are_mirrored.

(** Every machine whose poloidal grids are their own mirror images, whole turns of
    equispaced angles for one, has a mirror image on the same grids and of the same kind. *)
Theorem C145_mirror_images_exist :
  forall q x b, sound q x -> mirrored_angles (s_qtheta (q_plasma q)) (s_qtheta (q_plasma q)) -> mirrored_angles (s_qtheta (q_winding q)) (s_qtheta (q_winding q)) -> mirrored_angles (q_qtheta q) (q_qtheta q) ->
  (forall p t, b p (t + 1) = b p t) -> q_Bnormal q = sample b (s_qphi (q_plasma q)) (s_qtheta (q_plasma q)) ->
  exists q', sound q' x /\ mirrored_device q q' /\ same_harmonics q q'.
Proof. exact mirrored_exists. Qed.
Print Assumptions C145_mirror_images_exist.
Theorem C145_whole_turns_mirror_themselves : forall n, (0 < n)%nat -> mirrored_angles (equispaced 0 (/ INR n) n) (equispaced 0 (/ INR n) n).
Proof. exact whole_turn. Qed.
Print Assumptions C145_whole_turns_mirror_themselves.

(** The machine of C143 and its mirror image. *)
Lemma lit_turns st : mirrored_angles (s_qtheta (q_plasma (lit st))) (s_qtheta (q_plasma (lit st))) /\ mirrored_angles (s_qtheta (q_winding (lit st))) (s_qtheta (q_winding (lit st))) /\ mirrored_angles (q_qtheta (lit st)) (q_qtheta (lit st)).
Proof.
  pose proof (whole_turn 2 ltac:(lia)) as W2. pose proof (whole_turn 3 ltac:(lia)) as W3.
  split; [|split; [destruct st; exact W2|destruct st; exact W3]].
  replace (s_qtheta (q_plasma (lit st))) with (equispaced 0 (/ INR 2) 2); [exact W2|].
  transitivity [0; 1 / 2]; [|destruct st; reflexivity]. unfold equispaced. cbn [seq map INR]. f_equal; [ring|]. f_equal. field.
Qed.
Definition wavy (p t : R) : R := / 2 + 8 * p - cos (2 * PI * t) / 2.
Lemma wavy_turn p t : wavy p (t + 1) = wavy p t.
Proof. unfold wavy. replace (2 * PI * (t + 1)) with (2 * PI * t + 2 * INR 1 * PI) by (cbn [INR]; ring). now rewrite cos_period. Qed.
Lemma lit_wavy st : q_Bnormal (lit st) = sample wavy (s_qphi (q_plasma (lit st))) (s_qtheta (q_plasma (lit st))).
Proof.
  transitivity (sample wavy [0; 1 / 4] [0; 1 / 2]); [|destruct st; reflexivity]. transitivity [[0; 1]; [2; 3]]; [destruct st; reflexivity|].
  unfold sample, wavy. cbn [map]. replace (2 * PI * 0) with 0 by ring. replace (2 * PI * (1 / 2)) with PI by field. rewrite cos_0, cos_PI. repeat f_equal; lra.
Qed.
Example C145_example : exists q' x x' fx b, let cs := [("f_max_K2", LE, b)] in
  sound (lit false) nine /\ sound q' nine /\ mirrored_device (lit false) q' /\ same_harmonics (lit false) q' /\
  (forall name w, In (name, w) penalised -> In name origin_names) /\ (forall name c d, In (name, c, d) cs -> In name origin_names) /\
  best [] (lit false) penalised cs x fx /\ best [] q' penalised cs x' fx /\ mirrored_potential (lit false) x q' x'.
Proof.
  pose proof (lit_sound false nine eq_refl) as S. destruct (lit_turns false) as (T1 & T2 & T3).
  destruct (mirrored_exists (lit false) nine wavy S T1 T2 T3 wavy_turn (lit_wavy false)) as (q' & S' & D & U).
  destruct C143_example as (_ & x & _ & fx & b & _ & _ & _ & _ & No & Nc & B & _).
  destruct (C145_best_designs_are_mirrored [] (lit false) q' nine nine penalised [("f_max_K2", LE, b)] x fx S S' D U No Nc B) as (x' & B' & P).
  exists q', x, x', fx, b. cbv zeta. tauto.
Qed.
