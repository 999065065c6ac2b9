(** Property C117: surfaces loaded from DESC. *)
From Coq Require Import String List Bool Arith ZArith Reals Lra Lia.
From Coquelicot Require Import Coquelicot.
From Verif Require Import Base ModelArray ModelMath SpecMath ModelSurface SpecSurface ProofSurface ProofSurface2 ProofSurface3 ModelDesc.
Import ListNotations.
Open Scope R_scope.

Lemma sin_series nfp cl l phi theta : l <> [] ->
  series sin nfp ((0%Z, 0%Z) :: cl) l phi theta = series sin nfp cl (skipn 1 l) phi theta.
Proof.
  destruct l as [|y l]; [contradiction|]. intros _. unfold series, Rsum. cbn [skipn combine map fold_right fst snd].
  replace (2 * PI * (0 * theta - 0 * INR nfp * phi)) with 0 by ring. rewrite sin_0. ring.
Qed.
Lemma from_desc_ok d ps ts : ps <> [] -> ts <> [] -> exists s, from_desc d (arr1 ps) (arr1 ts) = Ok s /\
  s_nfp s = d_nfp d /\ s_stellsym s = d_sym d /\ s_mpol s = d_M d /\ s_ntor s = d_N d /\ s_qphi s = ps /\ s_qtheta s = ts /\
  s_dofs s = from_desc_dofs (d_sym d) (d_tables d).
Proof.
  intros Hp Ht. unfold from_desc, make_surface, arr1. cbn [is_ndarray ndim sh length Nat.eqb negb elements el].
  destruct ps as [|p ps], ts as [|t ts]; try contradiction. unfold getclamp. cbn [bind nth_error length].
  destruct ps, ts; eexists; (split; [reflexivity|]); repeat split.
Qed.

(** ** C117 *)
(** One list of modes, complete and without repetition, in whose order the
    four tables are read; the loaded surface is the one with these Fourier
    coefficients, for symmetric and general surfaces. *)
Theorem C117_imported_surface :
  forall M N, exists cl, once_each (is_mode M N) cl /\
  forall d ps ts, d_M d = M -> d_N d = N -> ps <> [] -> ts <> [] ->
  length (t_rc (d_tables d)) = length cl -> length (t_rs (d_tables d)) = length cl ->
  length (t_zc (d_tables d)) = length cl -> length (t_zs (d_tables d)) = length cl ->
  exists s, from_desc d (arr1 ps) (arr1 ts) = Ok s /\ legal s /\
    s_nfp s = d_nfp d /\ s_stellsym s = d_sym d /\ s_qphi s = ps /\ s_qtheta s = ts /\
    (d_sym d = true -> reports gamma s (fun phi theta =>
       cyl_point phi (series cos (d_nfp d) cl (t_rc (d_tables d)) phi theta) (series sin (d_nfp d) cl (t_zs (d_tables d)) phi theta))) /\
    (d_sym d = false -> reports gamma s (fun phi theta =>
       cyl_point phi (series cos (d_nfp d) cl (t_rc (d_tables d)) phi theta + series sin (d_nfp d) cl (t_rs (d_tables d)) phi theta)
                     (series cos (d_nfp d) cl (t_zc (d_tables d)) phi theta + series sin (d_nfp d) cl (t_zs (d_tables d)) phi theta))).
Proof.
  intros M N. exists (cmodes M N). split; [apply cmodes_once|]. intros d ps ts EM EN Hp Ht L1 L2 L3 L4. rewrite length_cmodes in *.
  destruct (from_desc_ok d ps ts Hp Ht) as (s & E & E1 & E2 & E3 & E4 & E5 & E6 & E7). exists s. rewrite EM in E3. rewrite EN in E4.
  assert (Nz : forall l : list R, length l = n_modes M N -> l <> []) by (intros [|? ?]; [unfold n_modes; cbn; lia|discriminate]).
  assert (Ls : forall l : list R, length l = n_modes M N -> length (skipn 1 l) = (n_modes M N - 1)%nat) by (intros l H; rewrite skipn_length; lia).
  split; [exact E|]. split.
  { unfold legal, legal_length. rewrite E2, E3, E4, E7. unfold from_desc_dofs. destruct (d_sym d); rewrite !app_length, !Ls by auto; lia. }
  split; [exact E1|]. split; [exact E2|]. split; [exact E5|]. split; [exact E6|]. split; intros Hs.
  - unfold from_desc_dofs in E7. rewrite Hs in E7, E2. 
    pose proof (layout_sym s _ _ E2 E7 ltac:(rewrite E3, E4; auto) ltac:(rewrite E3, E4; auto)) as H. rewrite E1, E3, E4 in H.
    intros ps' ts' Hp' Ht'. destruct (H ps' ts' Hp' Ht') as (s' & C & G). exists s'. split; [exact C|]. rewrite G. f_equal.
    apply map_ext. intros p. apply map_ext. intros t.
    assert (Es : forall l : list R, length l = n_modes M N -> series sin (d_nfp d) (cmodes M N) l p t = series sin (d_nfp d) (smodes M N) (skipn 1 l) p t)
      by (intros; unfold cmodes; apply sin_series; auto).
    rewrite !Es by auto. reflexivity.
  - unfold from_desc_dofs in E7. rewrite Hs in E7, E2.
    pose proof (layout_gen s _ _ _ _ E2 E7 ltac:(rewrite E3, E4; auto) ltac:(rewrite E3, E4; auto) ltac:(rewrite E3, E4; auto) ltac:(rewrite E3, E4; auto)) as H.
    cbv zeta in H. rewrite E1, E3, E4 in H.
    intros ps' ts' Hp' Ht'. destruct (H ps' ts' Hp' Ht') as (s' & C & G). exists s'. split; [exact C|]. rewrite G. f_equal.
    apply map_ext. intros p. apply map_ext. intros t.
    assert (Es : forall l : list R, length l = n_modes M N -> series sin (d_nfp d) (cmodes M N) l p t = series sin (d_nfp d) (smodes M N) (skipn 1 l) p t)
      by (intros; unfold cmodes; apply sin_series; auto).
    rewrite !Es by auto. reflexivity.
Qed.
Print Assumptions C117_imported_surface.
(** Tables whose total size does not fit the stated resolution are accepted
    on loading and rejected by every later evaluation. *)
Theorem C117_wrong_sizes_rejected_late :
  forall d ps ts, ps <> [] -> ts <> [] ->
  length (from_desc_dofs (d_sym d) (d_tables d)) <> legal_length (d_sym d) (d_M d) (d_N d) ->
  exists s, from_desc d (arr1 ps) (arr1 ts) = Ok s /\ forall a b, gammadash a b s = Raise TypeError.
Proof.
  intros d ps ts Hp Ht H. destruct (from_desc_ok d ps ts Hp Ht) as (s & E & E1 & E2 & E3 & E4 & E5 & E6 & E7). exists s. split; [exact E|].
  intros a b. apply illegal_raises. unfold legal. now rewrite E2, E3, E4, E7.
Qed.
Print Assumptions C117_wrong_sizes_rejected_late.

(** A general surface with modes (0,0), (0,1), (1,-1), (1,0), (1,1). *)
Definition desc_shape : desc_surface :=
  {| d_nfp := 3; d_sym := false; d_M := 1; d_N := 1;
     d_tables := {| t_rc := [3; 1; 1/2; 0; 2]; t_rs := [0; 1; 2; 3; 4]; t_zc := [1; 0; 1; 0; 1]; t_zs := [0; 5; 6; 7; 8] |} |}.
Example C117_example : exists cl s, once_each (is_mode 1 1) cl /\ from_desc desc_shape (arr1 [0; 1/3]) (arr1 [0; 1/4]) = Ok s /\
  length (t_rc (d_tables desc_shape)) = length cl /\ length (t_rs (d_tables desc_shape)) = length cl /\
  length (t_zc (d_tables desc_shape)) = length cl /\ length (t_zs (d_tables desc_shape)) = length cl /\
  s_dofs s = [3; 1; 1/2; 0; 2; 1; 2; 3; 4; 1; 0; 1; 0; 1; 5; 6; 7; 8] /\
  length (from_desc_dofs true (d_tables desc_shape)) <> legal_length true 2 1.
Proof.
  exists (cmodes 1 1). eexists. split; [apply cmodes_once|]. split; [reflexivity|]. repeat split. cbn. discriminate.
Qed.
