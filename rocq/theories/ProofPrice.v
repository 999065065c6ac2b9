(** Lemmas for C144. *)
From Coq Require Import List Bool Arith Lia Reals Lra.
From Coquelicot Require Import Coquelicot.
From Verif Require Import Base ModelSolver SpecSolver ProofSolver RDeriv ProofSolverR SpecCert ProofCert SpecPrice.
Import ListNotations.
Open Scope R_scope.

Lemma dot_le mu gv dg : List.Forall (fun m => 0 <= m) mu -> Forall2 Rle gv dg -> dotR mu gv <= dotR mu dg.
Proof.
  intros Hm H. revert mu Hm. induction H as [|v e gv dg Hv H IH]; intros [|m mu] Hm; unfold dotR in *; simpl; try lra.
  inversion Hm; subst. specialize (IH mu ltac:(assumption)). unfold sumR in *. assert (m * v <= m * e) by (apply Rmult_le_compat_l; assumption). lra.
Qed.
Lemma dot_priced mu gv : List.Forall (fun m => 0 <= m) mu -> Forall2 (fun m v => m = 0 \/ v <= 0) mu gv -> dotR mu gv <= 0.
Proof.
  intros Hm H. revert Hm. induction H as [|m v mu gv Hv H IH]; intros Hm; unfold dotR in *; simpl; try lra.
  inversion Hm; subst. specialize (IH ltac:(assumption)). unfold sumR in *.
  assert (m * v <= 0) by (destruct Hv as [-> |Hv]; [lra|rewrite <- (Rmult_0_r m); apply Rmult_le_compat_l; assumption]). lra.
Qed.
Lemma dot_priced0 lam hv : Forall2 (fun l v => l = 0 \/ v = 0) lam hv -> dotR lam hv = 0.
Proof. induction 1 as [|l v lam hv Hv H IH]; unfold dotR in *; simpl; [reflexivity|]. unfold sumR in *. rewrite IH. destruct Hv as [-> | ->]; ring. Qed.
Lemma dot_minus mu gv dl : length gv = length dl -> dotR mu (map2 Rminus gv dl) = dotR mu gv - dotR mu dl.
Proof.
  revert mu dl. induction gv as [|v gv IH]; intros [|m mu] [|e dl] L; try discriminate; unfold dotR in *; simpl; try ring.
  injection L as L. specialize (IH mu dl L). unfold sumR in *. rewrite IH. ring.
Qed.
Lemma minus_le gv dl : length gv = length dl -> List.Forall (fun v => v <= 0) (map2 Rminus gv dl) -> Forall2 Rle gv dl.
Proof.
  revert dl. induction gv as [|v gv IH]; intros [|e dl] L H; try discriminate; constructor.
  - inversion H; subst. lra.
  - apply IH; [now injection L|]. now inversion H.
Qed.
Lemma neg_le gv dl : length gv = length dl -> List.Forall (fun v => v <= 0) gv -> Forall2 Rle (map2 Rminus gv dl) (map Ropp dl).
Proof.
  revert dl. induction gv as [|v gv IH]; intros [|e dl] L H; try discriminate; constructor.
  - inversion H; subst. lra.
  - apply IH; [now injection L|]. now inversion H.
Qed.
Lemma dot_opp mu dl : dotR mu (map Ropp dl) = - dotR mu dl.
Proof. revert dl. induction mu as [|m mu IH]; intros [|e dl]; unfold dotR in *; simpl; try ring. specialize (IH dl). unfold sumR in *. rewrite IH. ring. Qed.

(** What a solve says about every point. *)
Lemma solved_facts {fin} (P : problem (R_num fin)) n ng nh eta d u : solved P n ng nh eta d u ->
  0 < u /\ List.Forall (fun m => 0 <= m) (d_mu _ d) /\ length (d_mu _ d) = ng /\ length (d_lam _ d) = nh /\ length (d_x _ d : list R) = n /\ sized P n ng nh /\
  d_f _ d = p_f _ P (d_x _ d) /\ d_g _ d = p_g _ P (d_x _ d) /\ d_h _ d = p_h _ P (d_x _ d) /\
  forall y : list R, length y = n -> convex_from P (d_x _ d) y ->
    d_f _ d + dotR (d_lam _ d) (d_h _ d) + dotR (d_mu _ d) (d_g _ d) <= p_f _ P y + dotR (d_lam _ d) (p_h _ P y) + dotR (d_mu _ d) (p_g _ P y) + eta * (normR (map2 Rminus y (d_x _ d)) / u).
Proof.
  intros (o & ag & x0 & c0 & lam0 & mu0 & fo & fi & d1 & Hcnt & Hsh & Hm & Hg & Hs & Hx & Hc & Lm & Ll & Hmu & Hst & Hml & -> & Hsol).
  destruct (solve_inv _ o ag Hcnt P _ _ _ _ _ _ _ Hsol) as (d1' & Hml' & Hlast & _). rewrite Hml in Hml'. injection Hml' as <-.
  assert (Hp : passes o ag P (init_dict (R_num fin) P x0 c0 lam0 mu0) d1) by apply (main_inv _ o ag Hcnt P _ _ _ _ _ _ _ Hml).
  assert (S0 : sound_state fin n ng nh (init_dict (R_num fin) P x0 c0 lam0 mu0)) by (repeat split; try assumption; simpl; try assumption; lra).
  pose proof (passes_sound fin o ag Hcnt P Hm n _ _ Hs Hsh Hg _ _ Hp S0) as S1. pose proof (pass_sound fin o ag Hcnt P Hm n _ _ Hs Hsh Hg _ _ _ _ _ _ S1 Hlast) as S2.
  destruct (body_inv _ o ag Hcnt P _ _ _ _ _ _ Hlast) as (r & _ & _ & _ & _ & Ef & Eg & Eh & _).
  split; [apply S1|]. split; [apply S2|]. split; [apply S2|]. split; [apply S2|]. split; [apply S2|]. split; [exact Hs|]. split; [exact Ef|]. split; [exact Eg|]. split; [exact Eh|].
  intros y Hy Hcv. rewrite Ef, Eg, Eh. exact (certificate fin o ag Hcnt P Hm n _ _ Hs Hsh Hg eta _ _ _ _ _ _ y Hst S1 Hlast Hy Hcv).
Qed.
