(** The harmonics of a surface described with fewer field periods. *)
From Coq Require Import String List Bool Arith ZArith Reals Lra Lia.
From Verif Require Import Base ModelArray ModelMath SpecMath ProofMath ModelSurface SpecSurface ProofSurface ProofSurface2
  ModelParams ModelField SpecField ProofField ProofRefine SpecNfp ProofNfp ProofNfp2 ProofNfp3.
Import ListNotations.
Open Scope R_scope.

Definition tagged (st : bool) mpol ntor : list (bool * colm) :=
  let c := map CCos (cmodes mpol ntor) in let s := map CSin (smodes mpol ntor) in
  let r := if st then c else c ++ s in let z := if st then s else c ++ s in
  map (pair false) r ++ map (pair true) z.
Definition rtag (c : bool * colm) : colm := if fst c then CZero else snd c.
Definition ztag (c : bool * colm) : colm := if fst c then snd c else CZero.
Lemma rcols_tagged st mpol ntor : rcols st mpol ntor = map rtag (tagged st mpol ntor).
Proof. unfold rcols, tagged. cbv zeta. rewrite map_app, !map_map. unfold rtag. cbn [fst snd]. now rewrite map_id. Qed.
Lemma zcols_tagged st mpol ntor : zcols st mpol ntor = map ztag (tagged st mpol ntor).
Proof. unfold zcols, tagged. cbv zeta. rewrite map_app, !map_map. unfold ztag. cbn [fst snd]. now rewrite map_id. Qed.
Definition widen (k : nat) (mn : Z * Z) : Z * Z := (fst mn, (Z.of_nat k * snd mn)%Z).
Definition restate (k : nat) (c : bool * colm) : bool * colm :=
  (fst c, match snd c with CZero => CZero | CCos mn => CCos (widen k mn) | CSin mn => CSin (widen k mn) end).
Lemma widen_mode k m n mn : (k <> 0)%nat -> is_mode m n mn -> is_mode m (k * n) (widen k mn).
Proof. destruct mn as [a b]. unfold widen, is_mode. cbn [fst snd]. intros Hk [(Ha & Hb)|(Ha & Hb)]; [left|right]; nia. Qed.
Lemma widen_cos k m n mn : (k <> 0)%nat -> In mn (cmodes m n) -> In (widen k mn) (cmodes m (k * n)).
Proof. intros Hk H. apply (proj2 (cmodes_once m (k * n))). apply widen_mode; [exact Hk|]. now apply (proj2 (cmodes_once m n)). Qed.
Lemma widen_sin k m n mn : (k <> 0)%nat -> In mn (smodes m n) -> In (widen k mn) (smodes m (k * n)).
Proof.
  intros Hk H. destruct mn as [a b]. apply smodes_in in H as (H & H0). unfold widen. cbn [fst snd]. apply smodes_in. split; [now apply (widen_mode k m n (a, b))|].
  intros E. injection E as -> E. apply H0. f_equal. nia.
Qed.
Lemma restate_in k st m n c : (k <> 0)%nat -> In c (tagged st m n) -> In (restate k c) (tagged st m (k * n)).
Proof.
  intros Hk. unfold tagged. cbv zeta. rewrite !in_app_iff, !in_map_iff.
  assert (C : forall d, In d (map CCos (cmodes m n)) -> In (snd (restate k (false, d))) (map CCos (cmodes m (k * n)))).
  { intros d Hd. apply in_map_iff in Hd as (mn & <- & Hm). cbn [restate snd]. apply in_map. now apply widen_cos. }
  assert (D : forall d, In d (map CSin (smodes m n)) -> In (snd (restate k (false, d))) (map CSin (smodes m (k * n)))).
  { intros d Hd. apply in_map_iff in Hd as (mn & <- & Hm). cbn [restate snd]. apply in_map. now apply widen_sin. }
  intros [(d & <- & Hd)|(d & <- & Hd)]; [left|right]; exists (snd (restate k (false, d))); (split; [reflexivity|]); destruct st; auto;
    rewrite in_app_iff in *; destruct Hd; auto.
Qed.
Lemma widen_entry k m p t mn : cmn_entry m 0 0 p t (widen k mn) = cmn_entry (k * m) 0 0 p t mn /\ smn_entry m 0 0 p t (widen k mn) = smn_entry (k * m) 0 0 p t mn.
Proof.
  assert (E : phase_even m (fst (widen k mn)) (snd (widen k mn)) p t = phase_even (k * m) (fst mn) (snd mn) p t).
  { unfold phase_even, widen. cbn [fst snd]. rewrite mult_IZR, mult_INR, <- INR_IZR_INZ. ring. }
  unfold cmn_entry, smn_entry. cbn [Nat.add Nat.modulo Nat.divmod fst snd Nat.eqb Nat.sub]. rewrite E. unfold derivative_factor. cbn [pow]. split; reflexivity.
Qed.
Lemma restate_entry k m p t c : centry m 0 0 p t (rtag (restate k c)) = centry (k * m) 0 0 p t (rtag c) /\ centry m 0 0 p t (ztag (restate k c)) = centry (k * m) 0 0 p t (ztag c).
Proof. destruct c as [[|] [|mn|mn]]; unfold restate, rtag, ztag; cbn [fst snd centry]; split; try reflexivity; apply widen_entry. Qed.
Lemma described_surface k m s ps ts : s_nfp s = (k * m)%nat -> (k <> 0)%nat -> legal s -> ps <> [] -> ts <> [] ->
  exists d s', make_surface m (s_stellsym s) (s_mpol s) (k * s_ntor s) (arr1 ps) (arr1 ts) (arr1 d) = Ok s' /\ legal s' /\ same_shape s s'.
Proof.
  intros En Hk L Hp Ht. unfold legal in L.
  assert (Lt : forall st mp nt, length (tagged st mp nt) = legal_length st mp nt) by (intros; rewrite <- length_rcols, rcols_tagged; now rewrite map_length).
  destruct (embed (map (restate k) (tagged (s_stellsym s) (s_mpol s) (s_ntor s))) (tagged (s_stellsym s) (s_mpol s) (k * s_ntor s))) with (x := s_dofs s) as (d & Ld & Ed).
  - intros c Hc. apply in_map_iff in Hc as (c' & <- & Hc). now apply restate_in.
  - rewrite map_length, Lt. exact L.
  - exists d. rewrite Lt in Ld.
    assert (E : exists s', make_surface m (s_stellsym s) (s_mpol s) (k * s_ntor s) (arr1 ps) (arr1 ts) (arr1 d) = Ok s' /\
      s_nfp s' = m /\ s_stellsym s' = s_stellsym s /\ s_mpol s' = s_mpol s /\ s_ntor s' = (k * s_ntor s)%nat /\ s_dofs s' = d).
    { unfold make_surface. destruct ps as [|p0 [|]]; [contradiction| |]; (destruct ts as [|t0 [|]]; [contradiction| |]); cbn; eexists; (split; [reflexivity|repeat split]). }
    destruct E as (s' & E & E1 & E2 & E3 & E4 & E5). exists s'. split; [exact E|].
    assert (L' : legal s') by (unfold legal; now rewrite E2, E3, E4, E5). split; [exact L'|].
    assert (P : forall p t, pt s' 0 0 p t = pt s 0 0 p t).
    { intros p t. assert (Rv : rval s' 0 0 p t = rval s 0 0 p t /\ zval s' 0 0 p t = zval s 0 0 p t).
      { unfold rval, zval. rewrite E1, E2, E3, E4, E5, En, !rcols_tagged, !zcols_tagged, !map_map, (Ed (fun c => centry m 0 0 p t (rtag c))), (Ed (fun c => centry m 0 0 p t (ztag c))), !map_map.
        split; apply ldot_map_ext; intros c _; apply restate_entry. }
      destruct Rv as (A & B). unfold pt. cbn [Nat.add seq map]. now rewrite A, B. }
    exists (pt s 0 0). split; [exact (reports_gammadash s 0 0 L)|].
    intros ps' ts' Hp' Ht'. destruct (reports_gammadash s' 0 0 L' ps' ts' Hp' Ht') as (s2 & A & B). exists s2. split; [exact A|].
    refine (eq_trans B _). f_equal. apply map_ext. intros p. apply map_ext. intros t. apply P.
Qed.
