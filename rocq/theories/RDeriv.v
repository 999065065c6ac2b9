(** Derivative rules for real functions in plain real notation (wrappers of
    Coquelicot lemmas). *)
From Coq Require Import Reals Lra.
From Coquelicot Require Import Coquelicot.
Open Scope R_scope.

Lemma dR_const (c t : R) : is_derive (fun _ : R => c) t 0.
Proof. apply (is_derive_const (K := R_AbsRing) (V := R_NormedModule)). Qed.

Lemma dR_id (t : R) : is_derive (fun x : R => x) t 1.
Proof. apply (is_derive_id (K := R_AbsRing)). Qed.

Lemma dR_plus (f g : R -> R) (t df dg : R) : is_derive f t df -> is_derive g t dg ->
  is_derive (fun x : R => f x + g x) t (df + dg).
Proof. intros; apply (is_derive_plus (K := R_AbsRing) (V := R_NormedModule)); assumption. Qed.

Lemma dR_minus (f g : R -> R) (t df dg : R) : is_derive f t df -> is_derive g t dg ->
  is_derive (fun x : R => f x - g x) t (df - dg).
Proof. intros; apply (is_derive_minus (K := R_AbsRing) (V := R_NormedModule)); assumption. Qed.

Lemma dR_opp (f : R -> R) (t df : R) : is_derive f t df -> is_derive (fun x : R => - f x) t (- df).
Proof. intros; apply (is_derive_opp (K := R_AbsRing) (V := R_NormedModule)); assumption. Qed.

Lemma dR_scal (k : R) (f : R -> R) (t df : R) : is_derive f t df -> is_derive (fun x : R => k * f x) t (k * df).
Proof. intros; apply is_derive_scal; assumption. Qed.

Lemma dR_scal_r (k : R) (f : R -> R) (t df : R) : is_derive f t df -> is_derive (fun x : R => f x * k) t (df * k).
Proof.
  intros H. apply is_derive_ext with (f := fun x => k * f x); [intros; apply Rmult_comm|].
  rewrite Rmult_comm. apply dR_scal; assumption.
Qed.

Lemma dR_mult (f g : R -> R) (t df dg : R) : is_derive f t df -> is_derive g t dg ->
  is_derive (fun x : R => f x * g x) t (df * g t + f t * dg).
Proof.
  intros. apply (is_derive_mult (K := R_AbsRing)); try assumption. intros; apply Rmult_comm.
Qed.

Lemma dR_comp (f g : R -> R) (t df dg : R) : is_derive f (g t) df -> is_derive g t dg ->
  is_derive (fun x : R => f (g x)) t (dg * df).
Proof. intros. apply (is_derive_comp (K := R_AbsRing) (V := R_NormedModule)); assumption. Qed.

Lemma dR_inv (f : R -> R) (t df : R) : f t <> 0 -> is_derive f t df ->
  is_derive (fun x : R => / f x) t (- df / (f t * f t)).
Proof.
  intros H0 H. evar_last; [apply (is_derive_inv f t df H H0)|]. simpl. field. assumption.
Qed.

Lemma dR_div (f g : R -> R) (t df dg : R) : g t <> 0 -> is_derive f t df -> is_derive g t dg ->
  is_derive (fun x : R => f x / g x) t ((df * g t - f t * dg) / (g t * g t)).
Proof.
  intros H0 Hf Hg. evar_last; [apply (dR_mult _ _ _ _ _ Hf (dR_inv _ _ _ H0 Hg))|].
  simpl. field. assumption.
Qed.

Lemma dR_eq (f : R -> R) (t a b : R) : a = b -> is_derive f t a -> is_derive f t b.
Proof. intros ->; auto. Qed.

Lemma dR_ext (f g : R -> R) t a : (forall x, f x = g x) -> is_derive f t a -> is_derive g t a.
Proof. intros H. apply is_derive_ext; assumption. Qed.

Lemma dR_sqrt (f : R -> R) (t df : R) : 0 < f t -> is_derive f t df ->
  is_derive (fun x : R => sqrt (f x)) t (df / (2 * sqrt (f t))).
Proof.
  intros H0 H. evar_last; [apply (dR_comp sqrt f t (/ (2 * sqrt (f t))) df)|].
  - apply is_derive_Reals. apply derivable_pt_lim_sqrt. assumption.
  - assumption.
  - simpl. reflexivity.
Qed.

Lemma dR_sin (f : R -> R) (t df : R) : is_derive f t df -> is_derive (fun x : R => sin (f x)) t (df * cos (f t)).
Proof. intros H. apply (dR_comp sin f); [apply is_derive_sin|assumption]. Qed.

Lemma dR_cos (f : R -> R) (t df : R) : is_derive f t df -> is_derive (fun x : R => cos (f x)) t (df * - sin (f t)).
Proof. intros H. apply (dR_comp cos f); [apply is_derive_cos|assumption]. Qed.

Lemma dR_unique (f : R -> R) (t a b : R) : is_derive f t a -> is_derive f t b -> a = b.
Proof. intros H1 H2. apply is_derive_unique in H1, H2. congruence. Qed.
