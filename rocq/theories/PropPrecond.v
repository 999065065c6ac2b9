(** Properties C162 and C163: the helpers for preconditioning and for normalised differences. *)
From Coq Require Import List Arith Reals Lra Lia.
From Verif Require Import Base ModelArray ModelMath ModelQuadcoil ProofLinear ModelPrecond.
Import ListNotations.
Open Scope R_scope.

(** A square matrix whose transpose is its inverse. *)
Definition orthogonal (n : nat) (V : matrix) : Prop :=
  length V = n /\ (forall r, In r V -> length r = n) /\
  forall x, length x = n -> matvec (transpose n V) (matvec V x) = x /\ matvec V (matvec (transpose n V) x) = x.
(** What [jnp.linalg.svd] returns for a symmetric positive definite matrix: the
    rows of the basis are orthonormal eigenvectors, the values their eigenvalues. *)
Definition eigen_svd (n : nat) (H : matrix) (o : svd_out) : Prop :=
  length H = n /\ orthogonal n (basis o) /\ length (sv o) = n /\ (forall s, In s (sv o) -> 0 < s) /\
  forall x, length x = n -> matvec H x = matvec (transpose n (basis o)) (map2 Rmult (sv o) (matvec (basis o) x)).

(** ** C162 *)
(** The two coordinate transforms undo each other. *)
Theorem C162_coordinates_convert_back : forall n svd hess, length hess = n ->
  orthogonal n (basis (svd hess)) -> length (sv (svd hess)) = n -> (forall s, In s (sv (svd hess)) -> 0 < s) ->
  forall x_to_xp xp_to_x, precondition svd hess = (x_to_xp, xp_to_x) ->
  forall x, length x = n -> xp_to_x (x_to_xp x) = x /\ x_to_xp (xp_to_x x) = x.
Proof.
  intros n svd hess Lh (Lv & Rv & Inv) Ls Ps f g E x Lx. unfold precondition in E. rewrite Lh in E. injection E as <- <-. set (o := svd hess) in *.
  assert (Undo : forall (y : list R) s, length y = length s -> (forall a, In a s -> 0 < a) -> map2 Rdiv (map2 Rmult y (map sqrt s)) (map sqrt s) = y /\ map2 Rmult (map2 Rdiv y (map sqrt s)) (map sqrt s) = y).
  { clear. intros y s. revert y. induction s as [|a s IH]; intros [|b y] L P; try discriminate; [split; reflexivity|]. cbn.
    destruct (IH y) as (I1 & I2); [cbn in L; lia|intros; apply P; now right|]. pose proof (sqrt_lt_R0 a (P a (or_introl eq_refl))). rewrite I1, I2. split; f_equal; field; lra. }
  unfold x_to_xp, xp_to_x, scale. split.
  - rewrite (proj1 (Undo (matvec (basis o) x) (sv o) ltac:(rewrite matvec_length; lia) Ps)). apply (Inv x Lx).
  - assert (Ld : length (map2 Rdiv x (map sqrt (sv o))) = n).
    { assert (L : forall (a b : list R), length a = length b -> length (map2 Rdiv a b) = length a) by (induction a as [|u a IH]; intros [|v b] L; try discriminate; cbn; [reflexivity|now rewrite IH by (cbn in L; lia)]).
      rewrite L; [exact Lx|]. rewrite map_length. lia. }
    rewrite (proj2 (Inv _ Ld)). exact (proj2 (Undo x (sv o) ltac:(lia) Ps)).
Qed.
Print Assumptions C162_coordinates_convert_back.

(** For a symmetric positive definite matrix the quadratic form is the sum of
    squares in the new coordinates, so that its Hessian there is the identity. *)
Theorem C162_quadratic_form_becomes_round : forall n svd hess, eigen_svd n hess (svd hess) ->
  forall x_to_xp xp_to_x, precondition svd hess = (x_to_xp, xp_to_x) ->
  (forall x, length x = n -> ldot x (matvec hess x) = ldot (x_to_xp x) (x_to_xp x)) /\
  (forall y, length y = n -> ldot (xp_to_x y) (matvec hess (xp_to_x y)) = ldot y y).
Proof.
  intros n svd hess (Lh & Or & Ls & Ps & He) f g E.
  assert (Back := C162_coordinates_convert_back n svd hess Lh Or Ls Ps f g E).
  assert (Q : forall x, length x = n -> ldot x (matvec hess x) = ldot (f x) (f x)).
  { intros x Lx. unfold precondition in E. injection E as <- <-. set (o := svd hess) in *. destruct Or as (Lv & Rv & _). rewrite (He x Lx).
    assert (Lb : length (matvec (basis o) x) = n) by (rewrite matvec_length; exact Lv).
    assert (Lm : length (map2 Rmult (sv o) (matvec (basis o) x)) = n).
    { assert (L : forall (a b : list R), length a = length b -> length (map2 Rmult a b) = length a) by (induction a as [|u a IH]; intros [|v b] L; try discriminate; cbn; [reflexivity|now rewrite IH by (cbn in L; lia)]).
      rewrite L; lia. }
    rewrite <- (ldot_matvec n n (basis o) x _ (conj Lv Rv) Lx Lm). unfold x_to_xp, scale. revert Lb Ls Ps. clear. generalize (matvec (basis o) x) as b. generalize (sv o) as s. revert n.
    intros n s b Lb Ls. assert (L : length s = length b) by lia. clear n Lb Ls. revert b L. unfold ldot.
    induction s as [|a s IH]; intros [|c b] L P; try discriminate; [reflexivity|]. cbn. rewrite (IH b) by (cbn in L; lia || (intros; apply P; now right)).
    pose proof (sqrt_sqrt a ltac:(left; apply P; now left)) as S. f_equal. transitivity (c * c * (sqrt a * sqrt a)); [rewrite S|]; ring. }
  split; [exact Q|]. intros y Ly. assert (Lg : length (g y) = n).
  { unfold precondition in E. injection E as <- <-. unfold xp_to_x. rewrite matvec_length. rewrite Lh. unfold transpose. now rewrite map_length, seq_length. }
  rewrite (Q _ Lg). now rewrite (proj2 (Back y Ly)).
Qed.
Print Assumptions C162_quadratic_form_becomes_round.

(** The matrix has to be positive definite: for an indefinite one the quadratic
    form is not the sum of squares. *)
Example C162_indefinite : exists svd hess, length hess = 2%nat /\ (forall i j, nth j (nth i hess []) 0 = nth i (nth j hess []) 0) /\
  orthogonal 2 (basis (svd hess)) /\ (forall s, In s (sv (svd hess)) -> 0 < s) /\
  (exists U, orthogonal 2 U /\ forall x, length x = 2%nat -> matvec hess x = matvec U (map2 Rmult (sv (svd hess)) (matvec (basis (svd hess)) x))) /\
  exists x, length x = 2%nat /\ ldot x (matvec hess x) <> ldot (fst (precondition svd hess) x) (fst (precondition svd hess) x).
Proof.
  exists (fun _ => {| sv := [1; 1]; basis := [[1; 0]; [0; 1]] |}), [[1; 0]; [0; -1]]. cbn [basis sv].
  split; [reflexivity|]. split; [intros [|[|[|i]]] [|[|[|j]]]; reflexivity|].
  split.
  { split; [reflexivity|]. split; [intros r [<-|[<-|[]]]; reflexivity|]. intros [|a [|b [|c x]]] L; try discriminate. cbn. split; f_equal; try f_equal; ring. }
  split; [intros s [<-|[<-|[]]]; lra|]. split.
  { exists [[1; 0]; [0; -1]]. split.
    - split; [reflexivity|]. split; [intros r [<-|[<-|[]]]; reflexivity|]. intros [|a [|b [|c x]]] L; try discriminate. cbn. split; f_equal; try f_equal; ring.
    - intros [|a [|b [|c x]]] L; try discriminate. cbn. f_equal; [ring|f_equal; ring]. }
  exists [0; 1]. split; [reflexivity|]. cbn. rewrite sqrt_1. lra.
Qed.

(** The eigenvalues 4 and 1 along (3, 4) / 5 and (-4, 3) / 5. *)
Example C162_example : let o := {| sv := [4; 1]; basis := [[3/5; 4/5]; [-4/5; 3/5]] |} in let hess := [[52/25; 36/25]; [36/25; 73/25]] in
  eigen_svd 2 hess o /\ fst (precondition (fun _ => o) hess) [5; 0] = [6; -4] /\ ldot [5; 0] (matvec hess [5; 0]) = 52.
Proof.
  cbv zeta. assert (S4 : sqrt 4 = 2) by (replace 4 with (2 * 2) by ring; apply sqrt_square; lra). split; [|split].
  - split; [reflexivity|]. split.
    { split; [reflexivity|]. split; [intros r [<-|[<-|[]]]; reflexivity|]. intros [|a [|b [|c x]]] L; try discriminate. cbn. split; f_equal; try f_equal; field. }
    split; [reflexivity|]. split; [intros s [<-|[<-|[]]]; lra|]. intros [|a [|b [|c x]]] L; try discriminate. cbn. f_equal; [field|f_equal; field].
  - cbn. rewrite S4, sqrt_1. f_equal; [field|f_equal; field].
  - cbn. field.
Qed.

(** ** C163 *)
(** The value of the normalised difference. *)
Definition ndiff (x1 x2 : R) : R := if Rlt_dec 0 (Rmax (Rabs x1) (Rabs x2)) then Rabs (x1 - x2) / Rmax (Rabs x1) (Rabs x2) else Rmax (Rabs x1) (Rabs x2).
Lemma ndiff_value x1 x2 : delta_normalized x1 x2 = map Fin (map2 ndiff x1 x2).
Proof.
  unfold delta_normalized. revert x2. induction x1 as [|a x1 IH]; intros [|b x2]; try reflexivity. cbn [map2 map]. rewrite IH. f_equal. unfold delta_normalized1, ndiff, ext_div.
  destruct (Rlt_dec _ _) as [H|H]; [|reflexivity]. destruct (Req_EM_T _ 0) as [Z|Z]; [lra|reflexivity].
Qed.
(** The normalised difference is finite, symmetric, does not depend on the
    scale, lies between 0 and 2, and vanishes only for equal values. *)
Theorem C163_normalised_difference : forall x1 x2, length x1 = length x2 ->
  delta_normalized x1 x2 = delta_normalized x2 x1 /\
  (forall k, k <> 0 -> delta_normalized (map (Rmult k) x1) (map (Rmult k) x2) = delta_normalized x1 x2) /\
  exists l, delta_normalized x1 x2 = map Fin l /\ (forall v, In v l -> 0 <= v <= 2) /\ ((forall v, In v l -> v = 0) <-> x1 = x2).
Proof.
  assert (One : forall a b, ndiff a b = ndiff b a /\ (forall k, k <> 0 -> ndiff (k * a) (k * b) = ndiff a b) /\
    0 <= ndiff a b <= 2 /\ (ndiff a b = 0 <-> a = b)).
  { intros a b. unfold ndiff. pose proof (Rmax_l (Rabs a) (Rabs b)) as Ma. pose proof (Rmax_r (Rabs a) (Rabs b)) as Mb. pose proof (Rabs_pos a) as Pa. pose proof (Rabs_pos b) as Pb.
    split; [now rewrite (Rabs_minus_sym a b), (Rmax_comm (Rabs a))|]. split.
    { intros k Hk. pose proof (Rabs_pos_lt k Hk) as Pk. rewrite <- Rmult_minus_distr_l, !Rabs_mult, RmaxRmult by lra. set (m := Rmax (Rabs a) (Rabs b)) in *.
      destruct (Rlt_dec 0 m) as [H|H], (Rlt_dec 0 (Rabs k * m)) as [H'|H'].
      - field. lra.
      - exfalso. apply H'. now apply Rmult_lt_0_compat.
      - exfalso. assert (m = 0) by lra. rewrite H0 in H'. lra.
      - assert (m = 0) by lra. rewrite H0. ring. }
    pose proof (Rabs_triang a (- b)) as T. rewrite Rabs_Ropp in T. change (a + - b) with (a - b) in T. set (m := Rmax (Rabs a) (Rabs b)) in *. pose proof (Rabs_pos (a - b)) as Pd.
    destruct (Rlt_dec 0 m) as [H|H].
    - assert (Ed : Rabs (a - b) = Rabs (a - b) / m * m) by (field; lra). set (q := Rabs (a - b) / m) in *. split; [split|].
      + unfold q. apply Rmult_le_pos; [exact Pd|left; now apply Rinv_0_lt_compat].
      + apply (Rmult_le_reg_r m); [exact H|]. lra.
      + split; intros E.
        * rewrite E in Ed. destruct (Req_dec (a - b) 0) as [Z|Z]; [lra|]. pose proof (Rabs_pos_lt _ Z). lra.
        * unfold q. rewrite E, Rminus_diag_eq, Rabs_R0 by reflexivity. unfold Rdiv. ring.
    - assert (m = 0) by lra. split; [lra|]. split; [intros _|lra]. destruct (Req_dec a 0) as [Za|Za]; [|pose proof (Rabs_pos_lt _ Za); lra].
      destruct (Req_dec b 0) as [Zb|Zb]; [lra|pose proof (Rabs_pos_lt _ Zb); lra]. }
  assert (All : forall x1 x2, length x1 = length x2 -> map2 ndiff x1 x2 = map2 ndiff x2 x1 /\ (forall k, k <> 0 -> map2 ndiff (map (Rmult k) x1) (map (Rmult k) x2) = map2 ndiff x1 x2) /\
    (forall v, In v (map2 ndiff x1 x2) -> 0 <= v <= 2) /\ ((forall v, In v (map2 ndiff x1 x2) -> v = 0) <-> x1 = x2)).
  2: { intros x1 x2 L. rewrite !ndiff_value. destruct (All x1 x2 L) as (A1 & A2 & A3 & A4). split; [now rewrite A1|]. split; [intros k Hk; now rewrite ndiff_value, (A2 k Hk)|]. eexists. split; [reflexivity|]. auto. }
  induction x1 as [|a x1 IH]; intros [|b x2] L; try discriminate.
  - cbn. repeat split; try contradiction; intuition.
  - destruct (IH x2) as (I1 & I2 & I3 & I4); [cbn in L; lia|]. destruct (One a b) as (O1 & O2 & O3 & O4). cbn. split; [now rewrite I1, O1|].
    split; [intros k Hk; now rewrite (I2 k Hk), (O2 k Hk)|]. split; [intros v [<-|I]; auto|]. split.
    + intros H. f_equal; [apply O4, H; now left|apply I4; intros v I; apply H; now right].
    + intros [= -> ->]. intros v [<-|I]; [now apply O4|]. exact (proj2 I4 eq_refl v I).
Qed.
Print Assumptions C163_normalised_difference.

Example C163_example : delta_normalized [1; -3; 0; 2] [2; 3; 0; 2] = [Fin (1 / 2); Fin 2; Fin 0; Fin 0].
Proof.
  rewrite ndiff_value. unfold ndiff. cbn [map2 map].
  assert (A : forall x, 0 <= x -> Rabs x = x) by (intros; now apply Rabs_pos_eq).
  replace (Rabs (1 - 2)) with 1 by (rewrite Rabs_minus_sym, A; lra). replace (Rabs (-3 - 3)) with 6 by (rewrite Rabs_minus_sym, A; lra).
  replace (Rabs (-3)) with 3 by (rewrite Rabs_left; lra). replace (Rabs (0 - 0)) with 0 by (rewrite A; lra). replace (Rabs (2 - 2)) with 0 by (rewrite A; lra).
  rewrite !A by lra. rewrite (Rmax_right 1 2), !Rmax_left by lra.
  destruct (Rlt_dec 0 2); [|lra]. destruct (Rlt_dec 0 3); [|lra]. destruct (Rlt_dec 0 0); [lra|]. replace (6 / 3) with 2 by field. replace (0 / 2) with 0 by field. reflexivity.
Qed.
