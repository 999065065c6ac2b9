(** Lemmas about the building stage and the output of quadcoil. *)
From Coq Require Import String List Bool Arith ZArith Reals Lra Lia Permutation.
From Verif Require Import Base ModelArray ModelMath ModelQuantity ModelWrapper ModelSurface ModelParams
  ModelField ModelSolver SpecSolver ModelQuadcoil SpecMath SpecSurface SpecQuadcoil ProofArray.
Import ListNotations.
Open Scope R_scope.
Open Scope string_scope.
Open Scope list_scope.

(** ** Input checking *)
Lemma eqb_neq_true n m : negb (Nat.eqb n m) = true <-> n <> m.
Proof. rewrite negb_true_iff. apply Nat.eqb_neq. Qed.

Lemma objective_check names w u :
  bind (or_else (negb (Nat.eqb (length names) w))
         (bind (len_units u) (fun m => Ok (negb (Nat.eqb (@length string names) m)))))
         (fun bad : bool => if bad then Raise ValueError else Ok tt) = Ok tt
  <-> w = length names /\ exists us, u = UsSeq us /\ length us = length names.
Proof.
  destruct (Nat.eqb (length names) w) eqn:E; cbn [negb or_else bind].
  - apply Nat.eqb_eq in E. destruct u; cbn [len_units bind].
    1,2,4: split; [discriminate|intros (_ & us & H & _); discriminate].
    destruct (Nat.eqb (length names) (length l)) eqn:F; cbn [negb].
    + apply Nat.eqb_eq in F. split; auto. intros _. split; [auto|]. exists l. auto.
    + apply Nat.eqb_neq in F. split; [discriminate|]. intros (_ & us & H & K). injection H as ->. lia.
  - apply Nat.eqb_neq in E. split; [discriminate|]. intros (H & _). lia.
Qed.

Lemma input_checking_iff on ow ou cn ct cu cv :
  input_checking on ow ou cn ct cu cv = Ok tt <->
  good_objective on ow ou /\ good_constraints cn ct cu cv.
Proof.
  unfold input_checking.
  match goal with |- bind ?A _ = _ <-> _ => assert (HA : A = Ok tt <-> good_objective on ow ou) end.
  { destruct on as [s|names|].
    - split; auto. intros _. left. eauto.
    - destruct ow as [w|w|]; cbn [weight_len].
      + split; [discriminate|]. intros [[s H]|(n & w' & us & _ & H & _)]; discriminate.
      + unfold ndim. destruct (Nat.eqb (length (sh w)) 1) eqn:E; cbn [weight_len].
        * apply Nat.eqb_eq in E. rewrite objective_check. split.
          -- intros (H & us & H1 & H2). right. exists names, w, us. repeat split; auto.
          -- intros [[s H]|(n & w' & us & H1 & H2 & H3 & H4 & H5 & H6)]; [discriminate|].
             injection H1 as <-. injection H2 as <-. split; auto. exists us. auto.
        * apply Nat.eqb_neq in E. split; [discriminate|].
          intros [[s H]|(n & w' & us & H1 & H2 & H3 & _)]; [discriminate|]. injection H2 as <-. lia.
      + split; [discriminate|]. intros [[s H]|(n & w' & us & _ & H & _)]; discriminate.
    - split; [discriminate|]. intros [[s H]|(n & w' & us & H & _)]; discriminate. }
  match goal with |- bind ?A _ = _ <-> _ => set (X := A) in *; destruct X as [[]|e] eqn:EX end; cbn [bind].
  2: { split; [discriminate|]. intros [H _]. apply HA in H. discriminate. }
  assert (good_objective on ow ou) by now apply HA. clear HA.
  cut ((match cn with
  | NTuple names =>
      match ct with
      | NTuple types =>
          bind (or_else (negb (Nat.eqb (length names) (length types)))
               (bind (len_units cu) (fun m =>
                or_else (negb (Nat.eqb (length names) m))
               (bind (len_values cv) (fun k => Ok (negb (Nat.eqb (length names) k)))))))
               (fun bad : bool => if bad then Raise ValueError else Ok tt)
      | _ => Raise TypeError
      end
  | _ => Raise TypeError
  end) = Ok tt <-> good_constraints cn ct cu cv); [tauto|].
  destruct cn as [s|names|]; try (split; [discriminate|intros (n & t & us & vs & K & _); discriminate]).
  destruct ct as [s|types|]; try (split; [discriminate|intros (n & t & us & vs & _ & K & _); discriminate]).
  destruct (Nat.eqb (length names) (length types)) eqn:E1; cbn [negb or_else bind].
  2: { apply Nat.eqb_neq in E1. split; [discriminate|]. intros (n & t & us & vs & H1 & H2 & _ & _ & H3 & _). injection H1 as <-. injection H2 as <-. lia. }
  apply Nat.eqb_eq in E1.
  destruct cu as [|u|us|]; cbn [len_units bind]; try (split; [discriminate|intros (n & t & us & vs & _ & _ & K & _); discriminate]).
  destruct (Nat.eqb (length names) (length us)) eqn:E2; cbn [negb or_else bind].
  2: { apply Nat.eqb_neq in E2. split; [discriminate|]. intros (n & t & us' & vs & H1 & _ & H2 & _ & _ & H3 & _). injection H1 as <-. injection H2 as <-. lia. }
  apply Nat.eqb_eq in E2.
  destruct cv as [vs|]; cbn [len_values bind]; try (split; [discriminate|intros (n & t & us' & vs & _ & _ & _ & K & _); discriminate]).
  destruct (Nat.eqb (length names) (length vs)) eqn:E3; cbn [negb].
  - apply Nat.eqb_eq in E3. split; auto. intros _. exists names, types, us, vs. repeat split; auto.
  - apply Nat.eqb_neq in E3. split; [discriminate|]. intros (n & t & us' & vs' & H1 & _ & _ & H2 & _ & _ & H3). injection H1 as <-. injection H2 as <-. lia.
Qed.

Lemma input_checking_raises on ow ou cn ct cu cv e :
  input_checking on ow ou cn ct cu cv = Raise e -> e = TypeError \/ e = ValueError.
Proof.
  unfold input_checking, or_else, len_units, len_values.
  repeat (match goal with
  | |- context [match ?x with _ => _ end] => destruct x
  end; cbn [bind]); intros H; try discriminate; injection H as <-; auto.
Qed.

Lemma one_surface_iff {L} (a : args L) : one_surface a = Ok tt <-> one_winding a.
Proof.
  unfold one_surface, one_winding. destruct (qc_distance a) as [d|], (qc_winding_dofs a) as [w|]; split; intros H; try discriminate; auto.
  - destruct H as [[H _]|[H _]]; discriminate.
  - right. eauto.
  - left. eauto.
  - destruct H as [[_ [w H]]|[_ [d H]]]; discriminate.
Qed.
Lemma one_surface_raises {L} (a : args L) e : one_surface a = Raise e -> e = ValueError.
Proof. unfold one_surface. destruct (qc_distance a), (qc_winding_dofs a); intros H; congruence. Qed.

Lemma default_ok {L} (a : args L) : qc_nfp a <> 0%nat -> exists qd, default_quadpoints a = Ok qd.
Proof.
  intros H. unfold default_quadpoints. apply Nat.eqb_neq in H. rewrite H.
  destruct (qc_plasma_qphi a), (qc_qphi a); eauto.
Qed.

Lemma call_rejected ns E (a : args (x_solver E)) : qc_nfp a <> 0%nat ->
  ~ (one_winding a /\
     good_objective (qc_objective_name a) (qc_objective_weight a) (qc_objective_unit a) /\
     good_constraints (qc_constraint_name a) (qc_constraint_type a) (qc_constraint_unit a) (qc_constraint_value a)) ->
  exists e, (e = TypeError \/ e = ValueError) /\ quadcoil ns E a = Some (Raise e).
Proof.
  intros Hn Hbad. destruct (default_ok a Hn) as [qd Hqd]. unfold quadcoil, prepare. rewrite Hqd. cbn [bind].
  destruct (one_surface a) as [[]|e] eqn:E1; cbn [bind].
  2: { apply one_surface_raises in E1. subst. eauto. }
  destruct (input_checking _ _ _ _ _ _ _) as [[]|e] eqn:E2; cbn [bind].
  2: { apply input_checking_raises in E2. eauto. }
  exfalso. apply Hbad. apply one_surface_iff in E1. apply input_checking_iff in E2. tauto.
Qed.

Lemma winding_rejected ns E (a : args (x_solver E)) : qc_nfp a <> 0%nat -> ~ one_winding a ->
  quadcoil ns E a = Some (Raise ValueError).
Proof.
  intros Hn Hbad. destruct (default_ok a Hn) as [qd Hqd]. unfold quadcoil, prepare. rewrite Hqd. cbn [bind].
  destruct (one_surface a) as [[]|e] eqn:E1; cbn [bind].
  - exfalso. apply Hbad. now apply one_surface_iff.
  - apply one_surface_raises in E1. now subst.
Qed.

(** ** Dictionaries *)
Lemma lookup_set {A} (d : ModelArray.dict A) k k' v : lookup k (dict_set d k' v) = if String.eqb k k' then Some v else lookup k d.
Proof.
  induction d as [|[k1 v1] d IH]; cbn [dict_set lookup].
  - reflexivity.
  - destruct (String.eqb k' k1) eqn:E1.
    + apply String.eqb_eq in E1. subst k1. cbn [lookup]. destruct (String.eqb k k') eqn:E2; auto.
    + cbn [lookup]. destruct (String.eqb k k1) eqn:E2.
      * apply String.eqb_eq in E2. subst k1. rewrite String.eqb_sym, E1. reflexivity.
      * exact IH.
Qed.
Lemma keys_set {A} (d : ModelArray.dict A) k v :
  map fst (dict_set d k v) = map fst d \/ (map fst (dict_set d k v) = map fst d ++ [k] /\ ~ In k (map fst d)).
Proof.
  induction d as [|[k1 v1] d IH]; cbn [dict_set map fst].
  - right. auto.
  - destruct (String.eqb k k1) eqn:E1.
    + apply String.eqb_eq in E1. subst. left. reflexivity.
    + apply String.eqb_neq in E1. cbn [map fst]. destruct IH as [->|[-> H]]; [left; reflexivity|right].
      split; [reflexivity|]. intros [K|K]; auto.
Qed.
Lemma nodup_set {A} (d : ModelArray.dict A) k v : NoDup (map fst d) -> NoDup (map fst (dict_set d k v)).
Proof.
  intros H. destruct (keys_set d k v) as [->|[-> K]]; auto.
  apply NoDup_rev in H. rewrite <- (rev_involutive (map fst d)). change [k] with (rev [k]). rewrite <- rev_app_distr.
  apply NoDup_rev. cbn. constructor; auto. now rewrite <- in_rev.
Qed.
Lemma lookup_none {A} (d : ModelArray.dict A) k : lookup k d = None <-> ~ In k (map fst d).
Proof.
  induction d as [|[k1 v1] d IH]; cbn [lookup map fst In]; [tauto|].
  destruct (String.eqb k k1) eqn:E1.
  - apply String.eqb_eq in E1. subst. split; [discriminate|tauto].
  - apply String.eqb_neq in E1. rewrite IH. intuition congruence.
Qed.
Lemma lookup_in {A} (d : ModelArray.dict A) k v : NoDup (map fst d) -> (lookup k d = Some v <-> In (k, v) d).
Proof.
  induction d as [|[k1 v1] d IH]; cbn [lookup map fst In]; intros N.
  - split; [discriminate|tauto].
  - inversion N; subst. destruct (String.eqb k k1) eqn:E1.
    + apply String.eqb_eq in E1. subst. split; [intros [= ->]; auto|]. intros [[= ->]|I]; auto.
      exfalso. apply H1. apply in_map_iff. exists (k1, v). auto.
    + apply String.eqb_neq in E1. rewrite IH by auto. intuition congruence.
Qed.
Lemma insert_perm {A} (kv : string * A) d : Permutation (insert_key kv d) (kv :: d).
Proof.
  induction d as [|kv' d IH]; cbn [insert_key]; auto. destruct (String.leb _ _); auto.
  rewrite IH. apply perm_swap.
Qed.
Lemma sort_perm {A} (d : ModelArray.dict A) : Permutation (sort_keys d) d.
Proof. induction d as [|kv d IH]; cbn [sort_keys fold_right]; auto. rewrite insert_perm. constructor. exact IH. Qed.
Lemma sort_nodup {A} (d : ModelArray.dict A) : NoDup (map fst d) -> NoDup (map fst (sort_keys d)).
Proof. intros H. eapply Permutation_NoDup; [|exact H]. apply Permutation_map. symmetry. apply sort_perm. Qed.
Lemma lookup_sort {A} (d : ModelArray.dict A) k : NoDup (map fst d) -> lookup k (sort_keys d) = lookup k d.
Proof.
  intros H. destruct (lookup k d) as [v|] eqn:E.
  - apply lookup_in; [now apply sort_nodup|]. apply lookup_in in E; auto. eapply Permutation_in; [|exact E]. symmetry. apply sort_perm.
  - apply lookup_none. apply lookup_none in E. intros I. apply E. eapply Permutation_in; [|exact I]. apply Permutation_map, sort_perm.
Qed.
Lemma unravel_ravel_list (d : ModelArray.dict arr) : (forall kv, In kv d -> wf (snd kv)) ->
  unravel (map (fun kv => (fst kv, sh (snd kv))) d) (concat (map (fun kv => el (snd kv)) d)) = d.
Proof.
  induction d as [|[k a] d IH]; intros H; auto. cbn [map concat unravel fst snd].
  assert (W : length (el a) = size (sh a)) by (apply (H (k, a)); simpl; auto).
  rewrite <- W, firstn_app, skipn_app, Nat.sub_diag, firstn_all, skipn_all. cbn [firstn skipn app]. rewrite app_nil_r.
  rewrite IH by (intros; apply H; simpl; auto). destruct a; reflexivity.
Qed.
Lemma unravel_ravel (d : ModelArray.dict arr) : (forall kv, In kv d -> wf (snd kv)) ->
  unravel (structure d) (ravel d) = sort_keys d.
Proof.
  intros H. unfold structure, ravel. apply unravel_ravel_list. intros kv I. apply H. eapply Permutation_in; [apply sort_perm|exact I].
Qed.
Lemma unravel_keys s v : map (fun kv : string * arr => (fst kv, sh (snd kv))) (unravel s v) = s.
Proof. revert v. induction s as [|[k shp] s IH]; intros v; cbn [unravel map fst snd]; auto. now rewrite IH. Qed.
Lemma unravel_fst s v : map fst (unravel s v) = map fst s.
Proof. revert v. induction s as [|[k shp] s IH]; intros v; cbn [unravel map fst snd]; auto. now rewrite IH. Qed.
Definition total (s : list (string * list nat)) : nat := fold_right (fun kv n => (size (snd kv) + n)%nat) 0%nat s.
Lemma unravel_flat s v : length v = total s -> flat (unravel s v) = v.
Proof.
  revert v. induction s as [|[k shp] s IH]; intros v H; cbn [unravel flat map concat total fold_right snd] in *.
  - destruct v; [reflexivity|discriminate].
  - cbn [el]. fold (total s) in H. fold (flat (unravel s (skipn (size shp) v))).
    rewrite IH by (rewrite skipn_length; lia). apply firstn_skipn.
Qed.
Lemma unravel_wf s v kv : length v = total s -> In kv (unravel s v) -> wf (snd kv).
Proof.
  revert v. induction s as [|[k shp] s IH]; intros v H; cbn [unravel total fold_right snd In] in *; [tauto|].
  fold (total s) in H. intros [<-|I].
  - unfold wf. cbn [snd el sh]. rewrite firstn_length. lia.
  - apply (IH (skipn (size shp) v)); auto. rewrite skipn_length. lia.
Qed.
Lemma ravel_length d : (forall kv, In kv d -> wf (snd kv)) -> length (ravel d) = total (structure d).
Proof.
  intros H. assert (H' : forall kv, In kv (sort_keys d) -> wf (snd kv)) by (intros kv I; apply H; eapply Permutation_in; [apply sort_perm|exact I]).
  unfold ravel, structure. generalize dependent (sort_keys d). clear. intros d H. induction d as [|kv d IH]; auto.
  cbn [map concat total fold_right snd]. rewrite app_length, IH by (intros; apply H; simpl; auto). rewrite (H kv) by (simpl; auto). reflexivity.
Qed.

(** ** The inputs *)
Lemma y_nodup {L} (a : args L) : NoDup (map fst (y_dict a)).
Proof.
  unfold y_dict.
  assert (H0 : NoDup (map fst [("plasma_dofs", vec_arr (qc_plasma_dofs a));
            ("net_poloidal_current_amperes", scal (qc_G a)); ("net_toroidal_current_amperes", scal (qc_I a))])).
  { cbn. repeat constructor; cbn; intuition discriminate. }
  destruct (qc_objective_name a), (names_of (qc_constraint_name a)), (qc_Bnormal a), (qc_distance a);
    repeat apply nodup_set; exact H0.
Qed.
Lemma wf_vec l : wf (vec_arr l).
Proof. unfold wf, vec_arr. cbn. lia. Qed.
Lemma set_wf (d : ModelArray.dict arr) k v : (forall kv, In kv d -> wf (snd kv)) -> wf v -> forall kv, In kv (dict_set d k v) -> wf (snd kv).
Proof.
  intros H Hv. induction d as [|[k1 v1] d IH]; cbn [dict_set]; intros kv I.
  - destruct I as [<-|[]]. exact Hv.
  - destruct (String.eqb k k1).
    + destruct I as [<-|I]; [exact Hv|]. apply H. simpl. auto.
    + destruct I as [<-|I]; [apply (H (k1, v1)); simpl; auto|]. apply IH; auto. intros kv' J. apply H. simpl. auto.
Qed.
Lemma y_wf {L} (a : args L) : (forall b, qc_Bnormal a = Some b -> wf b) -> forall kv, In kv (y_dict a) -> wf (snd kv).
Proof.
  intros HB. unfold y_dict.
  assert (H0 : forall kv, In kv [("plasma_dofs", vec_arr (qc_plasma_dofs a));
            ("net_poloidal_current_amperes", scal (qc_G a)); ("net_toroidal_current_amperes", scal (qc_I a))] -> wf (snd kv)).
  { intros kv [<-|[<-|[<-|[]]]]; cbn [snd]; try apply wf_vec; reflexivity. }
  destruct (qc_objective_name a), (names_of (qc_constraint_name a)), (qc_Bnormal a) as [b|], (qc_distance a);
    repeat (apply set_wf; [|first [apply wf_vec | reflexivity | apply HB; reflexivity]]); exact H0.
Qed.

Lemma y_lookup {L} (a : args L) : one_winding a ->
  good_objective (qc_objective_name a) (qc_objective_weight a) (qc_objective_unit a) ->
  good_constraints (qc_constraint_name a) (qc_constraint_type a) (qc_constraint_unit a) (qc_constraint_value a) ->
  forall k shp, (exists v, lookup k (y_dict a) = Some v /\ sh v = shp) <-> in_use a k shp.
Proof.
  intros Hw Ho (cn & ct & cu & cv & Hc1 & Hc2 & Hc3 & Hc4 & _ ) k shp.
  split.
  - intros (v & Hl & Hs). unfold y_dict in Hl. rewrite Hc1, Hc4 in Hl. cbn [names_of values_of] in Hl.
    assert (Base : forall v, lookup k [("plasma_dofs", vec_arr (qc_plasma_dofs a));
            ("net_poloidal_current_amperes", scal (qc_G a)); ("net_toroidal_current_amperes", scal (qc_I a))] = Some v -> sh v = shp -> in_use a k shp).
    { clear. intros v H <-. cbn [lookup] in H.
      destruct (String.eqb k "plasma_dofs") eqn:E1; [apply String.eqb_eq in E1; injection H as <-; subst; constructor|].
      destruct (String.eqb k "net_poloidal_current_amperes") eqn:E2; [apply String.eqb_eq in E2; injection H as <-; subst; constructor|].
      destruct (String.eqb k "net_toroidal_current_amperes") eqn:E3; [apply String.eqb_eq in E3; injection H as <-; subst; constructor|discriminate]. }
    assert (Wind : forall (d : ModelArray.dict arr),
       lookup k (match qc_distance a with
        | None => dict_set d "winding_dofs" (vec_arr (match qc_winding_dofs a with Some w => w | None => [] end))
        | Some x => dict_set d "plasma_coil_distance" (scal x) end) = Some v ->
       (lookup k d = Some v -> in_use a k shp) -> in_use a k shp).
    { intros d H K. destruct (qc_distance a) as [x|] eqn:Ed; rewrite lookup_set in H.
      - destruct (String.eqb k "plasma_coil_distance") eqn:E1; auto. apply String.eqb_eq in E1. injection H as <-. subst. econstructor. exact Ed.
      - destruct (String.eqb k "winding_dofs") eqn:E1; auto. apply String.eqb_eq in E1. injection H as <-. subst.
        destruct Hw as [[_ [w Hw]]|[_ [d' Hw]]]; [|congruence]. rewrite Hw. cbn. econstructor; eauto. }
    apply (Wind _ Hl). clear Hl Wind. intros Hl.
    set (d0 := [("plasma_dofs", vec_arr (qc_plasma_dofs a));
            ("net_poloidal_current_amperes", scal (qc_G a)); ("net_toroidal_current_amperes", scal (qc_I a))]) in *.
    set (d1 := match qc_objective_name a with
           | NStr _ => d0
           | _ => dict_set d0 "objective_weight" (vec_arr (weights_of (qc_objective_weight a))) end) in *.
    set (d2 := match cn with [] => d1 | _ => dict_set d1 "constraint_value" (vec_arr cv) end) in *.
    assert (H1 : lookup k d1 = Some v -> in_use a k shp).
    { unfold d1. destruct (qc_objective_name a) as [s|on|] eqn:Eo;
         [intros Hl2; exact (Base v Hl2 Hs)| |destruct Ho as [[s Ho]|(n & w & us & Ho & _)]; discriminate].
      rewrite lookup_set. destruct (String.eqb k "objective_weight") eqn:E1; [|intros Hl2; exact (Base v Hl2 Hs)].
      apply String.eqb_eq in E1. intros [= <-]. rewrite <- Hs, E1. destruct Ho as [[s Ho]|(n & w & us & Ho & Hw' & _)]; [discriminate|].
      rewrite Hw'. cbn. eapply use_weight; eauto. }
    assert (H2 : lookup k d2 = Some v -> in_use a k shp).
    { unfold d2. destruct cn as [|c0 cn]; [exact H1|]. rewrite lookup_set. destruct (String.eqb k "constraint_value") eqn:E1; [|exact H1].
      apply String.eqb_eq in E1. intros [= <-]. rewrite <- Hs, E1. eapply use_value; eauto. discriminate. }
    destruct (qc_Bnormal a) as [b|] eqn:Eb; [|exact (H2 Hl)].
    rewrite lookup_set in Hl. destruct (String.eqb k "Bnormal_plasma") eqn:E1; [|exact (H2 Hl)].
    apply String.eqb_eq in E1. injection Hl as <-. rewrite <- Hs, E1. eapply use_Bnormal; eauto.
  - intros H. unfold y_dict. rewrite Hc1, Hc4. cbn [names_of values_of].
    destruct H as [| | |b Hb|n w Hn Hw1|n vs Hn Hne Hv|w Hd Hw1|d Hd];
      [ | | |rewrite Hb|rewrite Hn, Hw1|rewrite Hc1 in Hn; injection Hn as <-; destruct cn; [congruence|]; rewrite Hc4 in Hv; injection Hv as <-
       |rewrite Hd, Hw1|rewrite Hd];
    try (destruct (qc_objective_name a)); try (destruct cn); try (destruct (qc_Bnormal a)); try (destruct (qc_distance a));
    repeat rewrite lookup_set; cbn [lookup String.eqb Ascii.eqb Bool.eqb]; eexists; (split; [reflexivity|]); reflexivity.
Qed.

(** ** From the flat inputs back to the parameter object *)
Lemma y_to_qp_ext {L} (a : args L) qd y y' : (forall k, lookup k y = lookup k y') -> y_to_qp a qd y = y_to_qp a qd y'.
Proof. intros H. unfold y_to_qp, getitem. rewrite !H. reflexivity. Qed.
Lemma parse_ext {L} ns (a : args L) qd y y' : (forall k, lookup k y = lookup k y') ->
  f_g_h_from_y ns a qd y = f_g_h_from_y ns a qd y'.
Proof. intros H. unfold f_g_h_from_y. rewrite (y_to_qp_ext a qd y y' H), !H. reflexivity. Qed.
Lemma flat_inputs {L} (a : args L) k : (forall b, qc_Bnormal a = Some b -> wf b) ->
  lookup k (unravel (structure (y_dict a)) (ravel (y_dict a))) = lookup k (y_dict a).
Proof. intros H. rewrite unravel_ravel by now apply y_wf. apply lookup_sort, y_nodup. Qed.

Section Stages.
  Variable ns : namespace params.

  Lemma prepare_fields {L} (a : args L) p : prepare ns a = Ok p ->
    one_winding a /\
    good_objective (qc_objective_name a) (qc_objective_weight a) (qc_objective_unit a) /\
    good_constraints (qc_constraint_name a) (qc_constraint_type a) (qc_constraint_unit a) (qc_constraint_value a) /\
    pr_y p = y_dict a /\ f_g_h_from_y ns a (pr_qd p) (y_dict a) = Ok (pr_fn p) /\
    y_to_qp a (pr_qd p) (y_dict a) = Ok (fn_qp (pr_fn p)) /\
    exists phi x, phi = (match qc_phi_init a with Some x => x | None => repeat 0 (q_ndofs (fn_qp (pr_fn p))) end) /\
      phi_unit_of a (fn_qp (pr_fn p)) phi = Ok (pr_unit p) /\
      x_dict (fn_aux (pr_fn p)) (fn_qp (pr_fn p)) phi (pr_unit p) = Ok x /\
      pr_x0 p = ravel x /\ pr_structure p = structure x.
  Proof.
    unfold prepare. destruct (default_quadpoints a) as [qd|] eqn:Eq; [|discriminate]. cbn [bind].
    destruct (one_surface a) as [[]|] eqn:E1; [|discriminate]. cbn [bind]. apply one_surface_iff in E1.
    destruct (input_checking _ _ _ _ _ _ _) as [[]|] eqn:E2; [|discriminate]. cbn [bind]. apply input_checking_iff in E2.
    destruct (f_g_h_from_y ns a qd (y_dict a)) as [fn|] eqn:E3; [|discriminate]. cbn [bind].
    assert (E4 : y_to_qp a qd (y_dict a) = Ok (fn_qp fn)).
    { unfold f_g_h_from_y in E3. destruct (y_to_qp a qd (y_dict a)) as [qp|]; [|discriminate]. cbn [bind] in E3.
      destruct (parse_objectives _ _ _ _ _ _) as [[f po]|]; [|discriminate]. cbn [bind] in E3.
      destruct (parse_constraints _ _ _ _ _ _ _ _) as [pc|]; [|discriminate]. cbn [bind] in E3. injection E3 as <-. reflexivity. }
    set (phi := match qc_phi_init a with Some x => x | None => _ end).
    destruct (phi_unit_of a (fn_qp fn) phi) as [u|] eqn:E5; [|discriminate]. cbn [bind].
    destruct (x_dict (fn_aux fn) (fn_qp fn) phi u) as [x|] eqn:E6; [|discriminate]. cbn [bind].
    match goal with |- bind ?A _ = _ -> _ => destruct A as [g0|]; [|discriminate] end. cbn [bind].
    match goal with |- bind ?A _ = _ -> _ => destruct A as [h0|]; [|discriminate] end. cbn [bind].
    match goal with |- bind ?A _ = _ -> _ => destruct A as [f0|]; [|discriminate] end. cbn [bind].
    destruct (isscalar f0); [|discriminate]. intros [= <-]. cbn. destruct E2.
    repeat (split; [assumption || reflexivity|]). exists phi, x. auto.
  Qed.

  Lemma metric_at_inputs {L} (a : args L) p : prepare ns a = Ok p -> (forall b, qc_Bnormal a = Some b -> wf b) ->
    y_to_qp a (pr_qd p) (unravel (structure (pr_y p)) (ravel (pr_y p))) = Ok (fn_qp (pr_fn p)).
  Proof.
    intros Hp HB. destruct (prepare_fields a p Hp) as (_ & _ & _ & Ey & _ & Eq & _). rewrite Ey, <- Eq.
    apply y_to_qp_ext. intros k. now apply flat_inputs.
  Qed.

  Variable E : library.
  Notation L := (x_solver E).

  Definition made_entry (a : args L) (p : prepared) (r : solve_results E) (m : string) (v : arr) : ModelQuadcoil.entry :=
    let y := ravel (pr_y p) in
    let x := optimum E r in
    let g := metric_gradient E (setup ns E a p r) (fun x y => real_of (f_metric ns E a p m x y)) x y in
    {| e_value := Some v;
       e_grad := Some (map (fun kv => (String.append "df_d" (fst kv), snd kv)) (unravel (structure (pr_y p)) g));
       e_extra := if qc_verbose a
                       then "vihp" :: match r with
                            | Direct _ => []
                            | Constrained _ => ["hess_rank"; "Ohess_rank"; "hess_cond"; "Ohess_cond"; "hess_err"; "Ohess_err"]
                            end
                       else [] |}.

  Lemma grad_metrics_ok names (a : args L) p r : forall out out', grad_metrics ns E names a p r out = Ok out' ->
    (forall m, In m names -> exists v, f_metric ns E a p m (optimum E r) (ravel (pr_y p)) = Ok v /\ isscalar v = true /\
       lookup m out' = Some (made_entry a p r m v)) /\
    (forall m, ~ In m names -> lookup m out' = lookup m out).
  Proof.
    induction names as [|n names IH]; intros out out' H; cbn [grad_metrics] in H.
    - injection H as <-. split; [intros m []|reflexivity].
    - destruct (f_metric ns E a p n (optimum E r) (ravel (pr_y p))) as [v|] eqn:Ev; [|discriminate]. cbn [bind] in H.
      destruct (isscalar v) eqn:Es; [|discriminate]. apply IH in H. destruct H as [H1 H2].
      split.
      + intros m Im. destruct (in_dec string_dec m names) as [J|J]; [auto|].
        destruct Im as [->|Im]; [|contradiction]. exists v. repeat split; auto. rewrite (H2 m J), lookup_set, String.eqb_refl. reflexivity.
      + intros m Nm. rewrite (H2 m) by (intros J; apply Nm; right; exact J). rewrite lookup_set.
        destruct (String.eqb m n) eqn:Emn; auto. apply String.eqb_eq in Emn. subst. exfalso. apply Nm. left. reflexivity.
  Qed.
  Lemma grad_metrics_ex names (a : args L) p r : forall out,
    (forall m, In m names -> exists v, f_metric ns E a p m (optimum E r) (ravel (pr_y p)) = Ok v /\ isscalar v = true) ->
    exists out', grad_metrics ns E names a p r out = Ok out'.
  Proof.
    induction names as [|n names IH]; intros out H; cbn [grad_metrics]; [eauto|].
    destruct (H n (or_introl eq_refl)) as (v & Ev & Es). rewrite Ev. cbn [bind]. rewrite Es. apply IH. intros m I. apply H. right. exact I.
  Qed.

  Lemma value_metrics_ok names fn d : forall out out', value_metrics ns names fn d out = Ok out' ->
    (forall m, In m names -> m <> "f_obj" -> exists q v, get_quantity ns m = Ok q /\ call q (fn_qp fn) d = Ok v /\
       lookup m out' = Some {| e_value := Some v; e_grad := None; e_extra := [] |}) /\
    (forall m, (~ In m names \/ m = "f_obj") -> lookup m out' = lookup m out).
  Proof.
    induction names as [|n names IH]; intros out out' H; cbn [value_metrics] in H.
    - injection H as <-. split; [intros m []|reflexivity].
    - destruct (String.eqb n "f_obj") eqn:En.
      + apply String.eqb_eq in En. destruct (fn_f fn (fn_qp fn) d); [|discriminate]. cbn [bind] in H. apply IH in H. destruct H as [H1 H2]. split.
        * intros m [->|I] N; [contradiction|auto].
        * intros m [N|N]; apply H2; auto. left. intros I. apply N. right. exact I.
      + apply String.eqb_neq in En. destruct (get_quantity ns n) as [q|] eqn:Eq; [|discriminate]. cbn [bind] in H.
        destruct (call q (fn_qp fn) d) as [v|] eqn:Ev; [|discriminate]. cbn [bind] in H. apply IH in H. destruct H as [H1 H2]. split.
        * intros m Im N. destruct (in_dec string_dec m names) as [J|J]; [auto|]. destruct Im as [->|Im]; [|contradiction].
          exists q, v. repeat split; auto. rewrite H2 by auto. rewrite lookup_set, String.eqb_refl. reflexivity.
        * intros m Nm. rewrite H2 by (destruct Nm as [Nm|Nm]; auto; left; intros I; apply Nm; right; exact I). rewrite lookup_set.
          destruct (String.eqb m n) eqn:Emn; auto. apply String.eqb_eq in Emn. subst. exfalso. destruct Nm as [Nm|Nm]; [apply Nm; left; reflexivity|contradiction].
  Qed.
  Lemma value_metrics_ex names fn d : forall out,
    (forall m, In m names -> if String.eqb m "f_obj" then exists v, fn_f fn (fn_qp fn) d = Ok v
       else exists q v, get_quantity ns m = Ok q /\ call q (fn_qp fn) d = Ok v) ->
    exists out', value_metrics ns names fn d out = Ok out'.
  Proof.
    induction names as [|n names IH]; intros out H; cbn [value_metrics]; [eauto|].
    specialize (H n (or_introl eq_refl)) as H0. destruct (String.eqb n "f_obj").
    - destruct H0 as [v ->]. cbn [bind]. apply IH. intros m I. apply H. right. exact I.
    - destruct H0 as (q & v & -> & Hv). cbn [bind]. rewrite Hv. cbn [bind]. apply IH. intros m I. apply H. right. exact I.
  Qed.

  Lemma quadcoil_ok (a : args L) o : quadcoil ns E a = Some (Ok o) ->
    exists p r dofs, prepare ns a = Ok p /\ solve E a p = Some r /\ finish ns E a p r = Ok o /\
      unscale (pr_structure p) (pr_unit p) (optimum E r) = Ok dofs /\
      o_qp E o = fn_qp (pr_fn p) /\ o_dofs E o = dofs /\ o_results E o = r.
  Proof.
    unfold quadcoil. destruct (prepare ns a) as [p|] eqn:Ep; [|discriminate].
    destruct (solve E a p) as [r|] eqn:Er; [|discriminate]. intros [= H].
    exists p, r. unfold finish in *. destruct (unscale (pr_structure p) (pr_unit p) (optimum E r)) as [d|] eqn:Ed; [|discriminate].
    exists d. repeat split; auto; cbn [bind] in H.
    all: destruct (qc_value_only a);
    [destruct (value_metrics ns (metrics a) (pr_fn p) d []); [|discriminate]|
     match type of H with bind ?A _ = _ => destruct A; [|discriminate] end]; cbn [bind] in H; injection H as <-; reflexivity.
  Qed.
End Stages.
