(** Property C141: the distance of the coils sets a floor on their current. *)
From Coq Require Import String List Bool Arith ZArith Reals Lra Lia Psatz.
From Verif Require Import Base ModelArray ModelMath SpecMath ModelSurface SpecSurface ProofSurface ProofSurface2 ProofSurface3
  ModelParams ModelField SpecField ProofField ProofField2 ProofField3 ProofField4 WitnessField ProofSimsopt ProofTrig
  ModelQuantity SpecQuantity ModelWrapper SpecWrapper ModelShipped ModelPackage SpecPackage ProofPackage ProofPackage4 SpecConvex ProofConvex
  ProofPeriods PropPeriods PropQuad PropNfp PropAxi SpecNorms PropNorms SpecFloor ProofFloor PropFloor SpecDist ProofDist.
Import ListNotations.
Open Scope R_scope.
Open Scope string_scope.
Open Scope list_scope.

Lemma gamma_self s : legal s -> resampled s (s_qphi s) (s_qtheta s) s -> gamma s = Ok (sample (pt s 0 0) (s_qphi s) (s_qtheta s)).
Proof. intros L C. now apply (gammadash_copy s (s_qphi s) (s_qtheta s) s 0 0). Qed.
Lemma apart_points q x d p t : sound q x -> apart q d -> In p (s_qphi (q_plasma q)) -> In t (s_qtheta (q_plasma q)) ->
  forall p' t', In p' (s_qphi (q_winding q)) -> In t' (s_qtheta (q_winding q)) -> d <= norm3 (sub3 (pt (q_plasma q) 0 0 p t) (pt (q_winding q) 0 0 p' t')).
Proof.
  intros (M & Lw & Lp & _) (_ & H) Ip It p' t' Ip' It'. destruct (made_facts q M) as (_ & _ & _ & _ & _ & Cw & Cp).
  apply (H _ _ _ _ (gamma_self _ Lp Cp) (gamma_self _ Lw Cw)); rewrite concat_sample; apply in_map_iff; [exists (p, t)|exists (p', t')]; (split; [reflexivity|now apply pairs_in]).
Qed.

(** ** C141 *)
(** The field of the coils on the plasma is at most mu0/(4 pi) times the total current over the squared distance. *)
Theorem C141_field_bounded_by_current :
  forall other q x r d g, sound q x -> default_grid q -> apart q d -> reads other "f_huber_K" q x (scal r) -> winding_surface_B q x = Ok g ->
  forall B, In B (concat g) -> norm3 B <= / 10 ^ 7 * r / (d * d).
Proof.
  intros other q x r d g S (x0 & t0 & n & m & N2 & M2 & E1 & E2 & E3 & E4) Ap Rr Hg B IB. pose proof S as (M & Lw & Lp & _ & L). rewrite (B_made q x M Lw Lp L) in Hg. injection Hg as <-.
  rewrite concat_sample in IB. apply in_map_iff in IB as ([p t] & <- & I). apply pairs_in in I as (Ip & It). cbn [fst snd].
  replace (/ 10 ^ 7) with fak by (unfold fak; f_equal; ring). apply (field_le other q x x0 t0 n m S N2 M2 E1 E2 E3 E4 r _ d Rr); [apply Ap|]. now apply (apart_points q x).
Qed.
Print Assumptions C141_field_bounded_by_current.

(** What the coils take away from the normal field that is there without them. *)
Theorem C141_change_of_normal_field :
  forall other q x r d b, sound q x -> default_grid q -> apart q d -> reads other "f_huber_K" q x (scal r) -> Bnormal q x = Ok b ->
  forall y y0, In (y, y0) (combine (concat b) (concat (q_Bnormal q))) -> Rabs (y - y0) <= / 10 ^ 7 * r / (d * d).
Proof.
  intros other q x r d b S (x0 & t0 & n & m & N2 & M2 & E1 & E2 & E3 & E4) Ap Rr Hb y y0 I. pose proof S as (M & Lw & Lp & Ps & L). rewrite (Bnormal_made q x M Lw Lp Ps L) in Hb. injection Hb as <-.
  assert (Bd : forall p t, In p (s_qphi (q_plasma q)) -> In t (s_qtheta (q_plasma q)) -> Rabs (bnval q x p t) <= / 10 ^ 7 * r / (d * d)).
  { intros p t Ip It. unfold bnval. pose proof (dot_le (unit_at (q_plasma q) p t) (bval q x (pt (q_plasma q) 0 0 p t))) as D. pose proof (unit_le (q_plasma q) p t) as U.
    assert (F : norm3 (bval q x (pt (q_plasma q) 0 0 p t)) <= / 10 ^ 7 * r / (d * d)).
    { replace (/ 10 ^ 7) with fak by (unfold fak; f_equal; ring). apply (field_le other q x x0 t0 n m S N2 M2 E1 E2 E3 E4 r _ d Rr); [apply Ap|]. now apply (apart_points q x). }
    pose proof (norm3_nonneg (bval q x (pt (q_plasma q) 0 0 p t))) as P1. pose proof (norm3_nonneg (unit_at (q_plasma q) p t)) as P2.
    set (u := norm3 (unit_at (q_plasma q) p t)) in *. set (v := norm3 (bval q x (pt (q_plasma q) 0 0 p t))) in *. set (z := / 10 ^ 7 * r / (d * d)) in *. assert (u * v <= 1 * v) by (now apply Rmult_le_compat_r). lra. }
  destruct Ps as (Z1 & Z2). revert I Bd Z1 Z2. unfold sample. generalize (q_Bnormal q) as G. generalize (s_qphi (q_plasma q)) as ps. generalize (s_qtheta (q_plasma q)) as ts. clear. set (z := / 10 ^ 7 * r / (d * d)).
  intros ts ps G. revert G. induction ps as [|p ps IH]; intros [|g G] I Bd Z1 Z2; try discriminate; [destruct I|].
  cbn [map gmap2 map2 concat] in I. cbn [length] in Z1. inversion Z2 as [|? ? Zg Z2']; subst.
  assert (Cb : forall (l l' : list R) (k k' : list R), length l = length l' -> combine (l ++ k) (l' ++ k') = combine l l' ++ combine k k').
  { induction l as [|a l IHl]; intros [|a' l'] k k' E; try discriminate; [reflexivity|]. cbn. f_equal. apply IHl. now injection E. }
  rewrite Cb in I by (clear - Zg; revert g Zg; induction ts as [|t ts IH]; intros [|y g] E; try discriminate; [reflexivity|]; cbn; f_equal; apply IH; now injection E).
  apply in_app_iff in I as [I|I].
  - assert (Bp : forall t, In t ts -> Rabs (bnval q x p t) <= z) by (intros; apply Bd; [now left|assumption]). clear - I Bp Zg. revert g Zg I. induction ts as [|t ts IH]; intros [|v g] Zg I; try discriminate; [destruct I|].
    cbn [map map2 combine] in I. destruct I as [I|I].
    + injection I as <- <-. replace (bnval q x p t + v - v) with (bnval q x p t) by ring. apply Bp. now left.
    + apply (IH ltac:(intros; apply Bp; now right) g); [now injection Zg|exact I].
  - apply (IH G I); [intros; apply Bd; [now right|assumption]|now injection Z1|exact Z2'].
Qed.
Print Assumptions C141_change_of_normal_field.

(** Cancelling a required field needs a total current that grows with the square of the distance. *)
Theorem C141_current_needed :
  forall other q x r mB d y0, sound q x -> default_grid q -> apart q d -> reads other "f_huber_K" q x (scal r) -> reads other "f_max_Bnormal" q x (scal mB) ->
  In y0 (concat (q_Bnormal q)) -> 10 ^ 7 * (d * d) * (Rabs y0 - mB) <= r.
Proof.
  intros other q x r mB d y0 S Dg Ap Rr Rm I. pose proof S as (M & Lw & Lp & Ps & L). assert (Pd : 0 < d) by apply Ap.
  destruct (reads_Bnormal other q x S) as (b & Hb & Rb). destruct (largest_value other q x S "f_max_Bnormal" "Bnormal" Rabs ltac:(cbn; tauto)) as (m & v & Rm' & Rv & (_ & Mx)).
  pose proof (reads_fun _ _ _ _ _ _ Rm Rm') as X. injection X as <-. pose proof (reads_fun _ _ _ _ _ _ Rv Rb) as ->. unfold of_grid in Mx. cbn [el] in Mx.
  assert (C : exists y, In (y, y0) (combine (concat b) (concat (q_Bnormal q)))).
  { assert (E : length (concat b) = length (concat (q_Bnormal q))).
    { rewrite (Bnormal_made q x M Lw Lp Ps L) in Hb. injection Hb as <-. destruct Ps as (Z1 & Z2). revert Z1 Z2. unfold sample. generalize (q_Bnormal q), (s_qphi (q_plasma q)), (s_qtheta (q_plasma q)). clear.
      intros G ps ts. revert G. induction ps as [|p ps IH]; intros [|g G] Z1 Z2; try discriminate; [reflexivity|]. cbn [map gmap2 map2 concat]. inversion Z2 as [|? ? Zg Z2']; subst. rewrite !app_length. f_equal; [|apply IH; [now injection Z1|exact Z2']].
      clear - Zg. revert g Zg. induction ts as [|t ts IH]; intros [|y g] E; try discriminate; [reflexivity|]. cbn. f_equal. apply IH. now injection E. }
    revert E I. generalize (concat b), (concat (q_Bnormal q)). clear. induction l as [|a l IH]; intros [|c k] E I; try discriminate; [destruct I|]. destruct I as [<-|I]; [exists a; now left|].
    destruct (IH k ltac:(now injection E) I) as (y & J). exists y. now right. }
  destruct C as (y & C). pose proof (C141_change_of_normal_field other q x r d b S Dg Ap Rr Hb y y0 C) as H.
  assert (Hy : Rabs y <= mB) by (apply Mx, in_map; exact (in_combine_l _ _ _ _ C)).
  assert (T : Rabs y0 - mB <= / 10 ^ 7 * r / (d * d)) by (pose proof (Rabs_triang_inv y0 y); rewrite Rabs_minus_sym in H; lra).
  apply Rle_trans with (10 ^ 7 * (d * d) * (/ 10 ^ 7 * r / (d * d))); [apply Rmult_le_compat_l; [nra|exact T]|]. right. field. lra.
Qed.
Print Assumptions C141_current_needed.

(** The same floor for the peak and the mean square of the current density. *)
Theorem C141_density_needed :
  forall other q x a fK mK mB d y0, sound q x -> ordered q -> default_grid q -> apart q d -> area q (q_eval q) a ->
  reads other "f_K" q x (scal fK) -> reads other "f_max_K2" q x (scal mK) -> reads other "f_max_Bnormal" q x (scal mB) ->
  In y0 (concat (q_Bnormal q)) -> mB <= Rabs y0 ->
  Rsqr (10 ^ 7 * (d * d) * (Rabs y0 - mB)) <= 2 * a * fK /\ 10 ^ 7 * (d * d) * (Rabs y0 - mB) <= a * sqrt mK.
Proof.
  intros other q x a fK mK mB d y0 S O Dg Ap Ha Rk Rm Rb I Hm. assert (Pd : 0 < d) by apply Ap.
  destruct (integral_value other q x S "f_huber_K" "K2" (q_eval q) sqrt ltac:(cbn; tauto)) as (r & _ & _ & Rr & _).
  destruct (integral_value other q x S "f_l1_Phi" "Phi" (q_eval q) Rabs ltac:(cbn; tauto)) as (l1 & _ & _ & Rl & _).
  destruct (reads_f_Phi other q x S) as (fP & _ & RP). pose proof (C141_current_needed other q x r mB d y0 S Dg Ap Rr Rb I) as C.
  destruct (C140_squares_bound_absolute_values other q x a fK fP l1 r S O Ha Rk RP Rl Rr) as (_ & Q). split.
  - eapply Rle_trans; [|exact Q]. apply Rsqr_incr_1; [exact C| |]; assert (0 <= 10 ^ 7 * (d * d) * (Rabs y0 - mB)) by (apply Rmult_le_pos; [nra|lra]); lra.
  - destruct (reads_f_B other q x S) as (fB & _ & RB). pose proof S as (M & Lw & Lp & _). destruct (made_facts q M) as (_ & _ & _ & _ & _ & _ & Cp).
    destruct (largest_value other q x S "f_max_Bnormal2" "Bnormal" (fun y => y * y) ltac:(cbn; tauto)) as (b2 & _ & Rb2 & _).
    destruct (largest_value other q x S "f_max_Phi" "Phi" Rabs ltac:(cbn; tauto)) as (p1 & _ & Rp1 & _). destruct (largest_value other q x S "f_max_Phi2" "Phi" (fun y => y * y) ltac:(cbn; tauto)) as (p2 & _ & Rp2 & _).
    assert (Hp : exists ap, area q (q_plasma q) ap) by (eexists; eexists; split; [exact (da_copy _ _ _ _ Lp Cp)|reflexivity]). destruct Hp as (ap & Hp).
    destruct (C140_peaks_bound_integrals other q x a ap fK fB fP l1 r mK b2 p1 p2 S O Ha Hp Rk RB RP Rl Rr Rm Rb2 Rp1 Rp2) as (_ & _ & _ & _ & Z). lra.
Qed.
Print Assumptions C141_density_needed.

(** Two tori sampled at the default points. *)
Lemma finite_apart (f : vec3 -> vec3 -> R) l l' : (forall a b, In a l -> In b l' -> 0 < f a b) -> exists d, 0 < d /\ forall a b, In a l -> In b l' -> d <= f a b.
Proof.
  assert (One : forall a k, (forall b, In b k -> 0 < f a b) -> exists d, 0 < d /\ forall b, In b k -> d <= f a b).
  { intros a k. induction k as [|b k IH]; intros H; [exists 1; split; [lra|intros ? []]|]. destruct (IH ltac:(intros; apply H; now right)) as (d & Pd & Hd). pose proof (H b (or_introl eq_refl)) as Pb.
    exists (Rmin d (f a b)). split; [now apply Rmin_pos|]. intros c [<-|I]; [apply Rmin_r|]. eapply Rle_trans; [apply Rmin_l|now apply Hd]. }
  induction l as [|a l IH]; intros H; [exists 1; split; [lra|intros ? ? []]|]. destruct (IH ltac:(intros; apply H; [now right|assumption])) as (d & Pd & Hd).
  destruct (One a l' ltac:(intros; apply H; [now left|assumption])) as (d' & Pd' & Hd'). exists (Rmin d d'). split; [now apply Rmin_pos|].
  intros c b [<-|I] J; [eapply Rle_trans; [apply Rmin_r|now apply Hd']|eapply Rle_trans; [apply Rmin_l|now apply Hd]].
Qed.
Definition sampled : params :=
  match make_params (plasma_at 1) coil4 2 1 (Some [[0; 1]; [2; 3]]) 1 1 None None (Some true) with Ok q => q | Raise _ => tokamak end.
Example C141_example : let q := sampled in let x := [1; 2; 3; 4] in
  sound q x /\ ordered q /\ default_grid q /\ (exists d, apart q d) /\ (exists a, area q (q_eval q) a) /\ In 3 (concat (q_Bnormal q)) /\
  (exists r, reads [] "f_huber_K" q x (scal r)).
Proof.
  cbv zeta. assert (S : sound sampled [1; 2; 3; 4]).
  { destruct C122_example as (q & qf & _ & Eq & _ & S). unfold sampled. rewrite Eq. exact S. }
  pose proof S as (M & Lw & Lp & _). destruct (made_facts sampled M) as (_ & _ & _ & _ & C & Cw & Cp).
  assert (F : four = [0; 1/4; 1/2; 3/4]) by (unfold four, equispaced; cbn; repeat (f_equal; try field)).
  split; [exact S|]. split; [split; [|split; [|split]]|].
  - change (q_qphi sampled) with (firstn 2 four). rewrite F. cbn. apply two_increasing. lra.
  - change (q_qtheta sampled) with [0; 1/2]. apply two_increasing. lra.
  - cbn. apply two_increasing; lra.
  - cbn. apply two_increasing; lra.
  - split; [exists 0, 0, 2%nat, 2%nat; split; [lia|]; split; [lia|]; split; [reflexivity|]; split; [reflexivity|]; split; [|reflexivity]; change (q_qtheta sampled) with [0; 1/2]; unfold equispaced; cbn; repeat (f_equal; try field)|].
    split; [|split; [eexists; eexists; split; [exact (da_copy _ _ _ _ Lw C)|reflexivity]|]].
    + destruct (finite_apart (fun P W => norm3 (sub3 P W)) (concat (sample (pt (q_plasma sampled) 0 0) (s_qphi (q_plasma sampled)) (s_qtheta (q_plasma sampled)))) (concat (sample (pt (q_winding sampled) 0 0) (s_qphi (q_winding sampled)) (s_qtheta (q_winding sampled))))) as (d & Pd & Hd).
      * intros P W IP IW. rewrite concat_sample in IP, IW. apply in_map_iff in IP as ([p t] & <- & _). apply in_map_iff in IW as ([p' t'] & <- & _). cbn [fst snd]. apply norm_pos. intros E.
        assert (E' : pt (q_plasma sampled) 0 0 p t = pt (q_winding sampled) 0 0 p' t').
        { destruct (pt (q_plasma sampled) 0 0 p t) as [a b c]. destruct (pt (q_winding sampled) 0 0 p' t') as [a' b' c']. unfold sub3, zero3 in E. simpl in E. injection E as X1 X2 X3. f_equal; lra. }
        assert (Pp : pt (q_plasma sampled) 0 0 p t = pt (ring (1 * 3) (1 * / 2) 0 0 0 0) 0 0 p t) by reflexivity. rewrite !Rmult_1_l in Pp.
        assert (Wp : pt (q_winding sampled) 0 0 p' t' = pt (ring 3 1 0 0 0 0) 0 0 p' t') by reflexivity. rewrite Pp, Wp in E'.
        exact (rings_apart 3 (/ 2) 1 0 0 0 0 0 0 0 0 p t p' t' ltac:(lra) ltac:(lra) ltac:(lra) E').
      * exists d. split; [exact Pd|]. intros gp gw P W Hp Hw IP IW. rewrite (gamma_self _ Lp Cp) in Hp. rewrite (gamma_self _ Lw Cw) in Hw. injection Hp as <-. injection Hw as <-. now apply Hd.
    + split; [cbn; tauto|]. destruct (integral_value [] _ _ S "f_huber_K" "K2" (q_eval sampled) sqrt ltac:(cbn; tauto)) as (r & _ & _ & Rr & _). now exists r.
Qed.
