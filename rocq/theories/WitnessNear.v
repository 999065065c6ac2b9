(** A call for the example of C133. *)
From Coq Require Import String List Bool Arith ZArith Reals Lra Lia.
From Coquelicot Require Import Coquelicot.
From Verif Require Import Base ModelArray ProofArray ModelMath SpecMath ProofMath ModelSurface SpecSurface ModelParams ModelField SpecField ProofField3
  ModelQuantity ModelWrapper SpecWrapper ModelPackage SpecPackage WitnessField WitnessSolver WitnessQuadcoil PropPackage
  SpecConvex ModelSolver SpecSolver ProofSolver ModelQuadcoil SpecQuadcoil ProofQuadcoil
  SpecProblem ProofEnd SpecEnd ProofEnd4 ProofEnd5 SpecCert ProofCert WitnessCert ProofPackage ProofPackage2 ProofPackage3 ProofPackage4 PropConvex ProofProblem ProofProblem2
  SpecBest ProofSquares ProofBest PropBest WitnessEnd SpecNear ProofNear.
Import ListNotations.
Open Scope R_scope.
Open Scope string_scope.
Open Scope list_scope.

(** ** Central differences are exact on sums of squares of affine functions *)
Lemma linear_parts : forall n (B : list R -> R), (forall a b x y, length x = n -> length y = n -> B (lincomb a b x y) = a * B x + b * B y) ->
  forall d, length d = n -> dotR (map (fun i => B (bump i 1 (repeat 0 n))) (seq 0 n)) d = B d.
Proof.
  induction n as [|n IH]; intros B L [|a d] Ld; try discriminate Ld.
  - pose proof (L 0 0 [] [] eq_refl eq_refl) as H. unfold dotR, sumR. cbn in *. lra.
  - injection Ld as Ld. cbn [seq map]. rewrite <- seq_shift, map_map. unfold dotR, sumR in *. cbn [map2 fold_right repeat bump].
    rewrite (IH (fun d => B (0 :: d))); [|intros s t x y Lx Ly; rewrite <- L by (cbn; congruence); f_equal; unfold lincomb; cbn; f_equal; ring|exact Ld].
    assert (E : a :: d = lincomb a 1 ((0 + 1) :: repeat 0 n) (0 :: d)).
    { unfold lincomb. cbn. f_equal; [ring|]. clear - Ld. revert n Ld. induction d as [|b d IH]; intros [|n] Ld; try discriminate Ld; [reflexivity|]. cbn. f_equal; [ring|]. apply IH. now injection Ld. }
    rewrite E. rewrite L; [ring|cbn; now rewrite repeat_length|cbn; congruence].
Qed.
Lemma bump_unit : forall z i h, bump i h z = lincomb 1 h z (bump i 1 (repeat 0 (length z))).
Proof.
  unfold lincomb. induction z as [|a z IH]; intros [|i] h; cbn; try reflexivity.
  - f_equal; [ring|]. clear. induction z as [|b z IH]; cbn; [reflexivity|]. f_equal; [ring|exact IH].
  - f_equal; [ring|apply IH].
Qed.
Lemma bump_length : forall z i h, length (bump i h z) = length z.
Proof. induction z as [|a z IH]; intros [|i] h; cbn; try reflexivity. now rewrite IH. Qed.

Section Central.
  Context {T : Type}.
  Variables (U : list T) (w : T -> R) (n : nat) (E : list R -> T -> R) (f : list R -> R).
  Hypothesis A : affine U n E.
  Hypothesis Hf : forall z, length z = n -> f z = en U w (E z).
  Let L (d : list R) (u : T) : R := E d u - E (repeat 0 n) u.
  Lemma along z d t u : length z = n -> length d = n -> In u U -> E (lincomb 1 t z d) u = 1 * E z u + t * L d u.
  Proof using A.
    intros Lz Ld H. assert (X : lincomb 1 t z d = lincomb 1 1 z (lincomb t 0 d d)).
    { assert (Q : length z = length d) by congruence. clear - Q. unfold lincomb. revert d Q. induction z as [|a z IH]; intros [|b d] Q; try discriminate Q; [reflexivity|]. cbn. f_equal; [ring|]. apply IH. now injection Q. }
    pose proof (affine_add U n E A z (lincomb t 0 d d) u Lz (lincomb_length t 0 d d n Ld Ld) H) as P1. rewrite <- X in P1.
    pose proof (affine_scale U n E A t d u Ld H) as P2. unfold L. lra.
  Qed.
  Lemma square_along z d t : length z = n -> length d = n -> f (lincomb 1 t z d) = f z + t * (2 * ip U w (E z) (L d)) + t * t * en U w (L d).
  Proof using A Hf.
    intros Lz Ld. rewrite !Hf by (assumption || now apply lincomb_length). unfold en.
    rewrite (ip_ext U w _ (fun u => 1 * E z u + t * L d u) _ (fun u => 1 * E z u + t * L d u)) by (intros; now apply along).
    rewrite ip_lin, !(ip_sym U w _ (fun u => 1 * E z u + t * L d u)), !ip_lin, (ip_sym U w (L d) (E z)). ring.
  Qed.
  Lemma central_slope z : length z = n -> slope f z (central f z).
  Proof using A Hf.
    intros Lz. split; [unfold central; now rewrite map_length, seq_length|]. intros d Ld.
    set (B := fun d => 2 * ip U w (E z) (L d)).
    assert (Ec : central f z = map (fun i => B (bump i 1 (repeat 0 n))) (seq 0 n)).
    { unfold central. rewrite Lz. apply map_ext. intros i. rewrite !(bump_unit z i), Lz.
      assert (Le : length (bump i 1 (repeat 0 n)) = n) by (rewrite bump_length; apply repeat_length).
      rewrite !square_along by assumption. unfold B. field. }
    rewrite Ec, linear_parts; [| |congruence].
    - apply (is_derive_ext (fun t => f z + t * B d + t * t * en U w (L d))).
      + intros t. symmetry. apply square_along; congruence.
      + auto_derive; [trivial|]. ring.
    - intros a b x y Lx Ly. unfold B.
      rewrite (ip_ext U w (E z) (E z) (L (lincomb a b x y)) (fun u => a * L x u + b * L y u)); [rewrite (ip_sym U w (E z) (fun u => _)), ip_lin, !(ip_sym U w _ (E z)); ring|reflexivity|].
      intros u H. unfold L. assert (X : lincomb a b x y = lincomb 1 1 (lincomb a 0 x x) (lincomb b 0 y y)).
      { assert (Q : length x = length y) by congruence. clear - Q. unfold lincomb. revert y Q. induction x as [|p x IH]; intros [|r y] Q; try discriminate Q; [reflexivity|]. cbn. f_equal; [ring|]. apply IH. now injection Q. }
      rewrite X, (affine_add U n E A) by (assumption || now apply lincomb_length). rewrite !(affine_scale U n E A) by assumption. ring.
  Qed.
End Central.

(** ** The call *)
(** An optimiser that stays where it is and remembers the last gradient. *)
Definition heed : optimiser RN :=
  Build_optimiser RN (nat * list R) (fun _ => (O, [])) (fun _ g s x _ => (map (fun _ => 0) x, (S (fst s), g))) fst snd (fun _ => 0).
Lemma heed_counted : counted heed.
Proof. split; reflexivity. Qed.
Lemma heed_shaped : shaped heed.
Proof. intros f g s x v. cbn. apply map_length. Qed.
Definition E133 : library := fd_lib heed.
Definition terms133 := [OB "f_B" 1 1; OB "f_K" 2 4].
Definition call133 : args unit :=
  {| qc_nfp := 2; qc_stellsym := true; qc_plasma_mpol := 1; qc_plasma_ntor := 0; qc_plasma_dofs := [1 * 3; 1 * / 2; 1 * / 2];
     qc_G := 2; qc_I := 1; qc_mpol := 1; qc_ntor := 1; qc_qphi := Some (equispaced 0 (/ (INR 2 * INR 3)) 3); qc_qtheta := Some (equispaced 0 (/ INR 3) 3);
     qc_phi_init := Some [1; 2; 3; 4]; qc_phi_unit := Some 5; qc_plasma_stellsym := true;
     qc_plasma_qphi := Some [0; 1/4]; qc_plasma_qtheta := Some [0; 1/2]; qc_Bnormal := Some (Arr [2; 2]%nat [0; 1; 2; 3]);
     qc_distance := None; qc_generator := no_gen; qc_winding_dofs := Some [1 * 3; 1 * 1; 1 * 1]; qc_winding_mpol := 1; qc_winding_ntor := 0;
     qc_winding_qphi := Some [0 + INR 0 * / (INR 2 * INR 1); 0 + INR 1 * / (INR 2 * INR 1)];
     qc_winding_qtheta := Some [0 + INR 0 * / INR 2; 0 + INR 1 * / INR 2]; qc_winding_stellsym := true;
     qc_objective_name := NTuple ["f_B"; "f_K"]; qc_objective_weight := WArr (Arr [2%nat] [1; 4]); qc_objective_unit := UsSeq [UScalar 1; UScalar 2];
     qc_constraint_name := NTuple []; qc_constraint_type := NTuple []; qc_constraint_unit := UsSeq []; qc_constraint_value := VSeq [];
     qc_metric_name := NTuple ["f_B"; "K"]; qc_value_only := true; qc_smoothing := Some "slack"; qc_smoothing_params := [];
     qc_verbose := false; qc_merge := false; qc_c_init := 1; qc_c_growth := 2; qc_tol := loose;
     qc_maxiter_tot := 1; qc_maxiter_inner := 1; qc_gplus_mask := some_mask; qc_linear_solver := None |}.
Lemma builds133 : builds call133 (lit true).
Proof. split; [left; split; [reflexivity|]; eexists; reflexivity|]. eexists. split; reflexivity. Qed.
Lemma asks133 : asks call133 terms133 [].
Proof. split; [right; repeat split|repeat split]. Qed.
Lemma use133 t : In t terms133 -> 0 <= ob_weight t /\ scaled_use U120 (lit true) (ob_name t) (ob_unit t) /\ supported (package []) (ob_name t) "f" (UScalar (ob_unit t)).
Proof.
  intros [<-|[<-|[]]]; (split; [cbn; lra|]); (split;
  [split; [cbn; lra|]; right; (split; [cbn; tauto|discriminate])
  |eexists; split; [reflexivity|split; [cbn; tauto|discriminate]]]).
Qed.
Lemma metrics133 m : In m (metrics call133) -> reportable (lit true) (negb (qc_value_only call133)) m.
Proof.
  intros [<-|[<-|[]]]; right; [exists Number|exists CoilVector]; (split; [cbn; tauto|]); (split; [cbn; intuition discriminate|]); (split; [discriminate|]); cbn; (reflexivity || discriminate).
Qed.
Lemma prepared133 : exists p, prepare (package []) call133 = Ok p /\ fn_qp (pr_fn p) = lit true.
Proof.
  apply (prepare_ok [] call133 (lit true) U120 terms133 []); try reflexivity; try discriminate.
  - exact builds133.
  - exact asks133.
  - apply lit_ordered.
  - exists [1; 2; 3; 4]. apply lit_sound. reflexivity.
  - intros t I. destruct (use133 t I) as (? & ? & ?); auto.
  - intros c [].
  - intros t I. apply (use133 t I).
  - intros c [].
  - intros x [= <-]. reflexivity.
Qed.
Lemma start133 p : prepare (package []) call133 = Ok p -> pr_unit p = 5 /\ unconstrained (pr_fn p) = true.
Proof.
  intros H. split.
  - assert (E : match prepare (package []) call133 with Ok p => pr_unit p = 5 | Raise e => True end) by (calc120; reflexivity).
    rewrite H in E. exact E.
  - assert (E : match prepare (package []) call133 with Ok p => unconstrained (pr_fn p) = true | Raise e => True end) by (calc120; reflexivity).
    rewrite H in E. exact E.
Qed.
(** One step of the optimiser. *)
Lemma heed_step f (x0 : list R) fs xs gt r : run_opt RN heed central 1 x0 f 1 fs xs gt = Some r -> r_x _ r = x0 /\ r_grad _ r = central f x0.
Proof.
  unfold run_opt. cbn -[central init_carry]. intros [= <-]. split; [exact (still x0)|reflexivity].
Qed.
Lemma slope133 p r : prepare (package []) call133 = Ok p ->
  run_opt RN heed central 1 (pr_x0 p) (fun x => real_of (f_scaled p x)) 1 (fstop_inner_last loose) (xstop_inner_last loose) (gtol_inner loose) = Some r ->
  slope (fun y => real_of (f_scaled p y)) (r_x _ r) (r_grad _ r).
Proof.
  intros Hp Hr. destruct (heed_step _ _ _ _ _ _ Hr) as (-> & ->). destruct (start133 p Hp) as (Un & Free).
  assert (Fq : fn_qp (pr_fn p) = lit true) by (destruct prepared133 as (p' & Hp' & Fq); congruence).
  assert (Qd : forall name c, In (name, c) (asked_terms terms133) -> 0 <= c /\ In name quadratic_figures).
  { intros name c [E|[E|[]]]; cbn in E; injection E as <- <-; rewrite Rabs_right by lra; (split; [lra|cbn; tauto]). }
  pose proof (lit_sound true) as Sa.
  destruct (plain_problem [] call133 p U120 terms133 Hp asks133 eq_refl eq_refl) as (Lx0 & PP); rewrite ?Fq; try assumption.
  - apply lit_ordered.
  - intros t I. destruct (use133 t I) as (? & ? & _); auto.
  - intros x [= <-]. reflexivity.
  - rewrite Fq in Lx0, PP. rewrite Un in PP.
    apply (central_slope (entries (lit true) (asked_terms terms133)) (wt (lit true)) 4 (fun z => val (lit true) (map (fun v => v * 5) z))); [| |exact Lx0].
    + intros x y t u Lx Ly I. rewrite <- (val_affine (lit true) [1; 2; 3; 4] (asked_terms terms133) (Sa [1; 2; 3; 4] eq_refl) _ _ t u) by (assumption || (rewrite map_length; assumption)).
      f_equal. unfold lincomb. assert (Q : length x = length y) by congruence. clear - Q. revert y Q. induction x as [|p x IH]; intros [|r y] Q; try discriminate Q; [reflexivity|]. cbn. f_equal; [ring|]. apply IH. now injection Q.
    + intros z Lz. destruct (PP z Lz) as (_ & v & -> & Wv). cbn [real_of].
      refine (weighted_fun [] (lit true) (asked_terms terms133) _ _ _ Wv _). apply (objective_reads [] (lit true) [1; 2; 3; 4]); [now apply Sa|exact Qd|now rewrite map_length].
Qed.
