(** Least squares: an affine map into a space with a weighted inner product. *)
From Coq Require Import List Arith Reals Lra Lia Psatz.
From Verif Require Import Base ModelArray ModelMath SpecMath ModelSurface SpecSurface ModelParams SpecField ProofField3.
Import ListNotations.
Open Scope R_scope.

Section Squares.
  Context {T : Type}.
  Variable U : list T.
  Variable w : T -> R.
  Hypothesis W : forall u, In u U -> 0 <= w u.
  Definition ip (f g : T -> R) : R := Rsum (map (fun u => w u * (f u * g u)) U).
  Definition en (f : T -> R) : R := ip f f.

  Lemma Rsum_ext {A} (f g : A -> R) l : (forall u, In u l -> f u = g u) -> Rsum (map f l) = Rsum (map g l).
  Proof. intros H. f_equal. now apply map_ext_in. Qed.
  Lemma ip_lin a b f g h : ip (fun u => a * f u + b * g u) h = a * ip f h + b * ip g h.
  Proof. unfold ip. rewrite <- Rsum_lin. apply Rsum_ext. intros. ring. Qed.
  Lemma ip_sym f g : ip f g = ip g f.
  Proof. unfold ip. apply Rsum_ext. intros. ring. Qed.
  Lemma ip_ext f f' g g' : (forall u, In u U -> f u = f' u) -> (forall u, In u U -> g u = g' u) -> ip f g = ip f' g'.
  Proof. intros A B. unfold ip. apply Rsum_ext. intros. now rewrite A, B. Qed.
  Lemma en_nonneg f : 0 <= en f.
  Proof using W. unfold en, ip. apply Rsum_nonneg. intros. apply Rmult_le_pos; [auto|]. apply Rle_0_sqr. Qed.
  Lemma en_zero f : en f = 0 -> forall u, In u U -> w u * f u = 0.
  Proof using W.
    unfold en, ip. induction U as [|u l IH]; intros E v H; [destruct H|]. cbn in E.
    assert (A : 0 <= w u * (f u * f u)) by (apply Rmult_le_pos; [apply W; now left|apply Rle_0_sqr]).
    assert (B : 0 <= Rsum (map (fun u => w u * (f u * f u)) l)).
    { apply Rsum_nonneg. intros. apply Rmult_le_pos; [apply W; now right|apply Rle_0_sqr]. }
    unfold Rsum in *. assert (C : w u * (f u * f u) = 0) by lra. destruct H as [<-|H].
    - destruct (Req_dec (w u) 0) as [->|N]; [ring|]. apply Rmult_integral in C as [C|C]; [contradiction|]. apply Rmult_integral in C as [C|C]; rewrite C; ring.
    - apply IH; auto; [|lra]. intros. apply W. now right.
  Qed.
  Lemma ip_zero f g : en f = 0 -> ip f g = 0.
  Proof using W.
    intros E. unfold ip. rewrite (Rsum_ext _ (fun u => 0 * 0 + 0 * 0)); [rewrite (Rsum_lin 0 0 (fun _ => 0) (fun _ => 0)); ring|].
    intros u H. pose proof (en_zero f E u H) as Z. replace (w u * (f u * g u)) with (w u * f u * g u) by ring. rewrite Z. ring.
  Qed.

  Definition affine (n : nat) (E : list R -> T -> R) : Prop :=
    forall x y t u, length x = n -> length y = n -> In u U -> E (lincomb t (1 - t) x y) u = t * E x u + (1 - t) * E y u.
  Lemma lincomb_length a b x y n : length x = n -> length y = n -> length (lincomb a b x y) = n.
  Proof. intros A B. rewrite length_lincomb; congruence. Qed.
  Lemma lincomb_zero a b n : lincomb a b (repeat 0 n) (repeat 0 n) = repeat 0 n.
  Proof. unfold lincomb. induction n; cbn; [reflexivity|]. f_equal; [ring|assumption]. Qed.
  Lemma lincomb_lincomb a b c d e f x y z : length x = length y -> length z = length x ->
    lincomb a b (lincomb c d x y) (lincomb e f z z) = lincomb 1 1 (lincomb (a * c) (a * d) x y) (lincomb (b * (e + f)) 0 z z).
  Proof.
    unfold lincomb. revert y z. induction x as [|x1 x IH]; intros [|y1 y] [|z1 z]; cbn; intros; try discriminate; [reflexivity|].
    f_equal; [ring|]. apply IH; lia.
  Qed.
  Lemma repeat0_length n : length (repeat 0 n) = n.
  Proof. apply repeat_length. Qed.
  (** The linear part. *)
  Lemma affine_scale n E : affine n E -> forall s x u, length x = n -> In u U -> E (lincomb s 0 x x) u - E (repeat 0 n) u = s * (E x u - E (repeat 0 n) u).
  Proof.
    intros A s x u L H. replace (lincomb s 0 x x) with (lincomb s (1 - s) x (repeat 0 n)).
    - rewrite A; auto using repeat0_length. ring.
    - subst n. unfold lincomb. clear. induction x; cbn; [reflexivity|]. f_equal; [ring|assumption].
  Qed.
  Lemma affine_add n E : affine n E -> forall x y u, length x = n -> length y = n -> In u U ->
    E (lincomb 1 1 x y) u - E (repeat 0 n) u = (E x u - E (repeat 0 n) u) + (E y u - E (repeat 0 n) u).
  Proof.
    intros A x y u Lx Ly H. replace (lincomb 1 1 x y) with (lincomb 2 0 (lincomb (1/2) (1 - 1/2) x y) (lincomb (1/2) (1 - 1/2) x y)).
    - rewrite (affine_scale n E A); auto using lincomb_length. rewrite A; auto. field.
    - subst n. unfold lincomb. clear -Ly. revert y Ly. induction x; intros [|y1 y] Ly; cbn in *; try discriminate; [reflexivity|]. f_equal; [field|]. apply IHx. lia.
  Qed.

  (** The normal equations always have a solution. *)
  Lemma normal_equations : forall n E, affine n E ->
    exists x, length x = n /\ forall y, length y = n -> ip (fun u => E y u - E x u) (E x) = 0.
  Proof using W.
    induction n as [|n IH]; intros E A.
    - exists []. split; [reflexivity|]. intros [|] L; [|discriminate].
      rewrite (ip_ext _ (fun u => 0 * 0 + 0 * 0) _ (E [])) by (intros; ring). rewrite (ip_lin 0 0 (fun _ => 0) (fun _ => 0)). ring.
    - set (z := repeat 0 n). assert (Lz : length z = n) by apply repeat_length.
      set (E0 := fun x => E (0 :: x)). set (D := fun u => E (1 :: z) u - E (0 :: z) u).
      assert (A0 : affine n E0).
      { intros x y t u Lx Ly H. unfold E0. rewrite <- A; cbn [length]; auto. unfold lincomb at 2. cbn [map2]. f_equal. f_equal. ring. }
      set (E1 := fun x u => D u + (E0 x u - E0 z u)).
      assert (A1 : affine n E1). { intros x y t u Lx Ly H. unfold E1. rewrite A0; auto. ring. }
      assert (step : forall s x u, length x = n -> In u U -> E (s :: x) u = E0 x u + s * D u).
      { intros s x u Lx H. pose proof (affine_add (S n) E A (s :: z) (0 :: x) u) as P. cbn [length] in P. rewrite Lz, Lx in P. specialize (P eq_refl eq_refl H).
        assert (Q : lincomb 1 1 (s :: z) (0 :: x) = s :: x).
        { unfold lincomb. cbn [map2]. f_equal; [ring|]. clear -Lx. unfold z. revert x Lx. induction n; intros [|a x] Lx; cbn in *; try discriminate; [reflexivity|]. f_equal; [ring|]. apply IHn. lia. }
        rewrite Q in P.
        pose proof (affine_scale (S n) E A s (1 :: z) u) as P'. cbn [length] in P'. rewrite Lz in P'. specialize (P' eq_refl H).
        assert (Q' : lincomb s 0 (1 :: z) (1 :: z) = s :: z).
        { unfold lincomb. cbn [map2]. f_equal; [ring|]. clear. unfold z. induction n; cbn; [reflexivity|]. f_equal; [ring|assumption]. }
        rewrite Q' in P'. change (repeat 0 (S n)) with (0 :: z) in *. unfold E0, D. lra. }
      destruct (IH E0 A0) as (x & Lx & Ox). destruct (IH E1 A1) as (y & Ly & Oy).
      assert (Ox' : forall v, length v = n -> ip (fun u => E0 v u - E0 z u) (E0 x) = 0).
      { intros v Lv. rewrite (ip_ext _ (fun u => 1 * (E0 v u - E0 x u) + (-1) * (E0 z u - E0 x u)) _ (E0 x)) by (intros; ring).
        rewrite (ip_lin 1 (-1) (fun u => E0 v u - E0 x u) (fun u => E0 z u - E0 x u)). rewrite !Ox by auto. ring. }
      assert (Oy' : forall v, length v = n -> ip (fun u => E0 v u - E0 z u) (E1 y) = 0).
      { intros v Lv. rewrite (ip_ext _ (fun u => 1 * (E1 v u - E1 y u) + (-1) * (E1 z u - E1 y u)) _ (E1 y)) by (intros; unfold E1; ring).
        rewrite (ip_lin 1 (-1) (fun u => E1 v u - E1 y u) (fun u => E1 z u - E1 y u)). rewrite !Oy by auto. ring. }
      assert (fin : forall s v, length v = n -> (forall u, In u U -> E (s :: v) u = E0 x u + s * E1 y u) ->
        ip (E1 y) (fun u => E0 x u + s * E1 y u) = 0 -> forall t, length t = S n -> ip (fun u => E t u - E (s :: v) u) (E (s :: v)) = 0).
      { intros s v Lv Ev Od [|t1 t] Lt; [discriminate|]. injection Lt as Lt.
        rewrite (ip_ext _ (fun u => 1 * (1 * (E0 t u - E0 z u) + (-1) * (E0 x u - E0 z u)) + (1 * ((t1 - s) * E1 y u) + (-1) * (t1 * (E0 y u - E0 z u)))) _ (fun u => E0 x u + s * E1 y u)).
        2: { intros u H. rewrite Ev by auto. rewrite step by auto. unfold E1. ring. }
        2: { intros; now apply Ev. }
        assert (Z : forall v, length v = n -> ip (fun u => E0 v u - E0 z u) (fun u => E0 x u + s * E1 y u) = 0).
        { intros v' Lv'. rewrite ip_sym. rewrite (ip_ext _ (fun u => 1 * E0 x u + s * E1 y u) _ (fun u => E0 v' u - E0 z u)) by (intros; ring).
          rewrite ip_lin, (ip_sym (E0 x)), (ip_sym (E1 y)), Ox', Oy' by auto. ring. }
        rewrite (ip_ext _ (fun u => 1 * (E0 t u - E0 z u) + 1 * ((-1) * (E0 x u - E0 z u) + 1 * ((t1 - s) * E1 y u + (- t1) * (E0 y u - E0 z u)))) _ (fun u => E0 x u + s * E1 y u)) by (intros; ring).
        rewrite (ip_lin 1 1 (fun u => E0 t u - E0 z u)), (ip_lin (-1) 1 (fun u => E0 x u - E0 z u)), (ip_lin (t1 - s) (- t1) (E1 y)).
        rewrite !Z by auto. rewrite Od. ring. }
      destruct (Req_dec (en (E1 y)) 0) as [Ez|Nz].
      + exists (0 :: x). split; [cbn; lia|]. apply fin; auto.
        * intros u H. rewrite step by auto. ring.
        * apply ip_zero, Ez.
      + set (s := - ip (E1 y) (E0 x) / en (E1 y)). exists (s :: lincomb 1 s x y).
        assert (Ll : length (lincomb 1 s x y) = n) by now apply lincomb_length. split; [cbn; lia|]. apply fin; auto.
        * intros u H. rewrite step by auto.
          assert (Q : E0 (lincomb 1 s x y) u = E0 x u + s * (E0 y u - E0 z u)).
          { pose proof (affine_add n E0 A0 x (lincomb s 0 y y) u Lx (lincomb_length s 0 y y n Ly Ly) H) as P.
            rewrite (affine_scale n E0 A0 s y u Ly H) in P. fold z in P.
            replace (lincomb 1 s x y) with (lincomb 1 1 x (lincomb s 0 y y)); [lra|].
            clearbody s. clear -Lx Ly. subst n. unfold lincomb. revert y Ly. induction x; intros [|y1 y] Ly; cbn in *; try discriminate; [reflexivity|]. f_equal; [ring|]. apply IHx. lia. }
          rewrite Q. unfold E1. ring.
        * rewrite ip_sym. rewrite (ip_ext _ (fun u => 1 * E0 x u + s * E1 y u) _ (E1 y)) by (intros; ring).
          rewrite ip_lin. fold (en (E1 y)). rewrite (ip_sym (E0 x)). unfold s. field. exact Nz.
  Qed.

  Lemma pythagoras (E : list R -> T -> R) x y : ip (fun u => E y u - E x u) (E x) = 0 -> en (E y) = en (E x) + en (fun u => E y u - E x u).
  Proof.
    intros O. unfold en. rewrite (ip_ext (E y) (fun u => 1 * E x u + 1 * (E y u - E x u)) (E y) (E y)) by (intros; ring).
    rewrite (ip_lin 1 1 (E x) (fun u => E y u - E x u)). rewrite (ip_sym (E x)), (ip_sym (fun u => E y u - E x u)).
    rewrite (ip_ext (E y) (fun u => 1 * E x u + 1 * (E y u - E x u)) (E x) (E x)) by (intros; ring).
    rewrite (ip_ext (E y) (fun u => 1 * E x u + 1 * (E y u - E x u)) (fun u => E y u - E x u) (fun u => E y u - E x u)) by (intros; ring).
    rewrite !(ip_lin 1 1 (E x) (fun u => E y u - E x u)). rewrite O, (ip_sym (E x) (fun u => E y u - E x u)), O. ring.
  Qed.
  (** There is a smallest value, and what lies above it is the energy of the difference. *)
  Lemma smallest_exists n E : affine n E -> exists x, length x = n /\ forall y, length y = n -> en (E x) <= en (E y).
  Proof using W.
    intros A. destruct (normal_equations n E A) as (x & L & O). exists x. split; [exact L|]. intros y Ly.
    rewrite (pythagoras E x y (O y Ly)). pose proof (en_nonneg (fun u => E y u - E x u)). lra.
  Qed.
  Lemma smallest_excess n E x : affine n E -> length x = n -> (forall y, length y = n -> en (E x) <= en (E y)) ->
    forall y, length y = n -> en (E y) = en (E x) + en (fun u => E y u - E x u).
  Proof using W.
    intros A L Sm y Ly. destruct (normal_equations n E A) as (z & Lz & O).
    pose proof (pythagoras E z x (O x L)) as P1. pose proof (pythagoras E z y (O y Ly)) as P2. pose proof (Sm z Lz).
    pose proof (en_nonneg (fun u => E x u - E z u)). assert (Z : en (fun u => E x u - E z u) = 0) by lra.
    assert (X : en (E x) = en (E z)) by lra. rewrite P2, X. f_equal. unfold en, ip. apply Rsum_ext. intros u Hu.
    pose proof (en_zero _ Z u Hu) as Q. cbv beta in Q.
    replace (w u * ((E y u - E z u) * (E y u - E z u))) with
      (w u * ((E y u - E x u) * (E y u - E x u)) + w u * (E x u - E z u) * (2 * (E y u - E x u) + (E x u - E z u))) by ring.
    rewrite Q. ring.
  Qed.
End Squares.
