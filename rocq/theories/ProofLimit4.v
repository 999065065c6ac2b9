(** The best designs on refined grids, for C130. *)
From Coq Require Import String List Bool Arith ZArith Reals Lra Lia FunctionalExtensionality.
From Coquelicot Require Import Coquelicot.
From Verif Require Import Base ModelArray ProofArray ModelMath SpecMath ProofMath ModelSurface SpecSurface ProofSurface ProofSurface2 ProofSurface3
  ModelParams ModelField SpecField ProofField ProofField2 ProofField3 ProofField4 ProofField6
  ModelQuantity ModelWrapper ModelPackage SpecPackage ProofPackage ProofPackage2 ProofPackage3 ProofPackage4 SpecConvex ProofConvex SpecBest ProofSquares ProofBest ProofUnique ProofUnique2 ProofPeriods
  ProofAttained ProofAttained2 PropConvex SpecQuad ProofQuad ProofQuad2 ProofQuad3 ProofQuad4 PropQuad SpecLimit ProofLimit ProofLimit2 ProofLimit3.
Import ListNotations.
Open Scope R_scope.
Open Scope string_scope.
Open Scope list_scope.

(** The largest squared difference of two vectors. *)
Definition widest (x y : list R) : R := fold_right Rmax 0 (map2 (fun a b => (b - a) ^ 2) x y).
Lemma widest_all x y j : length x = length y -> (nth j y 0 - nth j x 0) ^ 2 <= widest x y.
Proof.
  unfold widest. revert y j. induction x as [|a x IH]; intros [|b y] j L; try discriminate.
  - destruct j; cbn; lra.
  - cbn [map2 fold_right]. destruct j; cbn [nth]; [apply Rmax_l|]. eapply Rle_trans; [apply IH; now injection L|apply Rmax_r].
Qed.
Lemma widest_some x y : length x = length y -> exists j, widest x y = (nth j y 0 - nth j x 0) ^ 2.
Proof.
  unfold widest. revert y. induction x as [|a x IH]; intros [|b y] L; try discriminate.
  - exists 0%nat. cbn. ring.
  - cbn [map2 fold_right]. destruct (IH y ltac:(now injection L)) as (j & E). unfold Rmax. destruct (Rle_dec _ _); [exists (Datatypes.S j)|exists 0%nat]; [exact E|reflexivity].
Qed.

Section Limit.
  Variables (n : nat) (F : list R -> R) (Fs : nat -> nat -> list R -> R) (mu : R) (z : list R).
  Hypothesis Pm : 0 < mu.
  Hypothesis Lz : length z = n.
  Hypothesis Strong : eventually (fun i j => forall x y t k, length x = n -> length y = n -> 0 <= t <= 1 ->
    Fs i j (lincomb t (1 - t) x y) <= t * Fs i j x + (1 - t) * Fs i j y - t * (1 - t) * (mu * (nth k y 0 - nth k x 0) ^ 2)).
  Hypothesis Lim : forall x, length x = n -> forall e, 0 < e -> eventually (fun i j => Rabs (Fs i j x - F x) <= e).
  Lemma lim_strong x y t k : length x = n -> length y = n -> 0 <= t <= 1 ->
    F (lincomb t (1 - t) x y) <= t * F x + (1 - t) * F y - t * (1 - t) * (mu * (nth k y 0 - nth k x 0) ^ 2).
  Proof using Strong Lim.
    intros Lx Ly Ht. apply le_epsilon. intros e Pe. assert (Lc : length (lincomb t (1 - t) x y) = n) by (rewrite length_lincomb; congruence).
    destruct (eventually_and _ _ Strong (eventually_and _ _ (Lim _ Lx (e / 2) ltac:(lra)) (eventually_and _ _ (Lim _ Ly (e / 2) ltac:(lra)) (Lim _ Lc (e / 2) ltac:(lra))))) as (N & HN).
    destruct (HN N N (le_n _) (le_n _)) as (H & A & B & C). specialize (H x y t k Lx Ly Ht). set (d := t * (1 - t) * (mu * (nth k y 0 - nth k x 0) ^ 2)) in *. clearbody d.
    assert (U : forall a b, Rabs (a - b) <= e / 2 -> a <= b + e / 2 /\ b <= a + e / 2) by (intros a b G; revert G; unfold Rabs; destruct (Rcase_abs _); lra).
    apply U in A, B, C. destruct A as (A & _), B as (B & _), C as (_ & C).
    assert (t * Fs N N x <= t * (F x + e / 2)) by (apply Rmult_le_compat_l; lra). assert ((1 - t) * Fs N N y <= (1 - t) * (F y + e / 2)) by (apply Rmult_le_compat_l; lra). lra.
  Qed.
  Let G x y := mu * widest x y.
  Lemma strong_G x y t : length x = n -> length y = n -> 0 <= t <= 1 -> F (lincomb t (1 - t) x y) <= t * F x + (1 - t) * F y - t * (1 - t) * G x y.
  Proof using Strong Lim. intros Lx Ly Ht. unfold G. destruct (widest_some x y ltac:(congruence)) as (k & ->). now apply lim_strong. Qed.
  Lemma G_each x y j : length x = n -> length y = n -> mu * (nth j y 0 - nth j x 0) ^ 2 <= G x y.
  Proof using Pm. intros Lx Ly. unfold G. apply Rmult_le_compat_l; [lra|]. apply widest_all. congruence. Qed.
  Lemma limit_designs : exists X, length X = n /\ (forall y, length y = n -> F X <= F y) /\ (forall y, length y = n -> F y <= F X -> y = X) /\
    forall e, 0 < e -> exists c, 0 < c /\ eventually (fun i j => forall x, length x = n -> Fs i j x <= Fs i j X + c -> within e X x /\ Rabs (Fs i j x - F X) <= e).
  Proof using Pm Lz Strong Lim.
    destruct (attained n F G (fun _ => True) mu strong_G Pm G_each) with (z := z) as (X & LX & _ & B); auto. exists X. split; [exact LX|].
    assert (B' : forall y, length y = n -> F X <= F y) by (intros; now apply B). split; [exact B'|].
    assert (Grow : forall y, length y = n -> F X + G X y <= F y).
    { intros y Ly. assert (Step : forall t, 0 <= t < 1 -> F X <= F y - t * G X y).
      { intros t Ht. pose proof (strong_G X y t LX Ly ltac:(lra)) as H. pose proof (B' (lincomb t (1 - t) X y) ltac:(rewrite length_lincomb; congruence)). apply (Rmult_le_reg_l (1 - t)); [lra|]. lra. }
      apply le_epsilon. intros e Pe. assert (G0 : 0 <= G X y) by (eapply Rle_trans; [|apply (G_each X y 0%nat LX Ly)]; apply Rmult_le_pos; [lra|apply pow2_ge_0]).
      set (g := G X y) in *. set (t := g / (g + e)). assert (Pt : 0 <= t < 1).
      { unfold t. split; [apply Rmult_le_pos; [lra|apply Rlt_le, Rinv_0_lt_compat; lra]|]. apply Rmult_lt_reg_r with (g + e); [lra|]. unfold Rdiv. rewrite Rmult_assoc, Rinv_l by lra. lra. }
      specialize (Step t Pt). assert (g - e <= t * g); [|lra]. apply Rmult_le_reg_r with (g + e); [lra|]. unfold t. replace (g / (g + e) * g * (g + e)) with (g * g) by (field; lra). nra. }
    split.
    - intros y Ly Hy. apply (nth_ext _ _ 0 0); [congruence|]. intros j _. pose proof (Grow y Ly). pose proof (G_each X y j LX Ly) as H0. assert (Z : mu * (nth j y 0 - nth j X 0) ^ 2 <= 0) by lra.
      pose proof (pow2_ge_0 (nth j y 0 - nth j X 0)). assert ((nth j y 0 - nth j X 0) ^ 2 = 0) by nra. nra.
    - intros e Pe. apply (minimisers_converge n F G mu Fs X Pm G_each LX Grow); [|exact Lim|exact Pe].
      revert Strong. apply eventually_imp. intros i j H x y t Lx Ly Ht. specialize (H x y t n Lx Ly Ht). rewrite !nth_overflow in H by lia. lra.
  Qed.
End Limit.

Section Designs.
  Variables (other : list string) (q : params) (Bp : R -> R -> R) (p0 t0 : R) (z : list R) (os : list (string * R)).
  Hypothesis S : sound q z.
  Hypothesis CB : cont2 Bp.
  Hypothesis Nw : forall p t, wn q p t <> zero3.
  Hypothesis Nz : forall p t, nrm (q_plasma q) p t <> zero3.
  Hypothesis Off : forall p t p' t', In p' (s_qphi (q_winding q)) -> In t' (s_qtheta (q_winding q)) -> pt (q_plasma q) 0 0 p t <> pt (q_winding q) 0 0 p' t'.
  Hypothesis Ho : forall name c, In (name, c) os -> 0 <= c /\ In name grid_figures.
  Hypothesis Rg : regularised q os.
  Notation exact_f := (exact_figure other q Bp p0 t0).
  Lemma sound_x x : length x = q_ndofs q -> sound q x.
  Proof using S. intros L. exact (sound_all q z S x L). Qed.
  Lemma shows_wfield x fld F : length x = q_ndofs q -> fld = "K2" \/ fld = "Phi" -> shows other fld q x F -> F = wfield q x fld.
  Proof using S Nw. intros L Hf Sh. extensionality p. extensionality t. apply (shows_unique other fld q x); [|exact Sh]. apply wfield_fielded; auto. now apply sound_x. Qed.
  Lemma reads_bnval x Bc : length x = q_ndofs q -> preports (fun q => Bnormal q x) q Bc -> Bc = bnval q x.
  Proof using S.
    intros L HB. destruct (sound_x x L) as (M & Lw & Lp & _). extensionality p. extensionality t. destruct (HB [p] [t] ltac:(discriminate) ltac:(discriminate)) as (q1 & E1 & V1). destruct (Bn_reports q x M Lw Lp L [p] [t] ltac:(discriminate) ltac:(discriminate)) as (q2 & E2 & V2).
    rewrite E1 in E2. injection E2 as ->. rewrite V1 in V2. cbn in V2. now injection V2.
  Qed.
  Lemma exact_settles x name r : length x = q_ndofs q -> exact_f x name r -> settles other q Bp p0 t0 x name r.
  Proof using S CB Nw Nz Off.
    intros L [(fld & h & nf & F & Hi & Hn & Sh & ->)|[(fld & h & F & Hi & Sh & Hl)|[(nf & Bc & -> & Hn & HB & ->)|(h & Bc & Hi & HB & Hl)]]]; pose proof (sound_x x L) as Sx; pose proof Sx as (_ & Lw & Lp & _).
    - assert (Hf : fld = "K2" \/ fld = "Phi") by (destruct Hi as [X|[X|[X|[X|[]]]]]; injection X as <- <- <-; auto). rewrite (shows_wfield x fld F L Hf Sh), (reports_nrm _ _ Lw Hn). now apply (integral_settles other q Bp p0 t0 x Sx Nw name fld h).
    - assert (Hf : fld = "K2" \/ fld = "Phi") by (destruct Hi as [X|[X|[X|[X|[]]]]]; injection X as <- <- <-; auto). rewrite (shows_wfield x fld F L Hf Sh) in Hl. now apply (max_settles other q Bp p0 t0 x Sx Nw name fld h).
    - rewrite (reads_bnval x Bc L HB), (reports_nrm _ _ Lp Hn). now apply error_settles.
    - rewrite (reads_bnval x Bc L HB) in Hl. now apply (worst_settles other q Bp p0 t0 x Sx CB Nz Off name h).
  Qed.
  Lemma lub_of (H : R -> R -> R) a b c d : a < b -> c < d -> cont2 H -> exists r, is_lub (fun y => exists p t, a <= p < b /\ c <= t < d /\ y = H p t) r.
  Proof.
    clear. intros L1 L2 C. destruct (bounded_above H a c (b - a) (d - c) ltac:(lra) ltac:(lra) C) as (M & HM). destruct (completeness (fun y => exists p t, a <= p < b /\ c <= t < d /\ y = H p t)) as (r & Hr).
    - exists M. intros y (p & t & Hp & Ht & ->). apply HM; lra.
    - exists (H a c), a, c. repeat split; lra.
    - now exists r.
  Qed.
  Lemma shows_own x fld : length x = q_ndofs q -> fld = "K2" \/ fld = "Phi" -> shows other fld q x (wfield q x fld).
  Proof using S Nw.
    intros L Hf ps ts Hp Ht. pose proof (sound_x x L) as Sx. destruct (wfield_fielded other q x Sx Nw fld Hf) as (_ & _ & _ & H). destruct Sx as (M & _). destruct (made_facts q M) as (Nf & Md & _).
    destruct (placed_ok q ps ts Nf Md Hp Ht) as (q' & E). exists q'. eexists. split; [exact E|]. split; [exact (H _ _ _ E)|]. reflexivity.
  Qed.
  Lemma exact_exists x name : length x = q_ndofs q -> In name grid_figures -> exists r, exact_f x name r.
  Proof using S CB Nw Nz Off.
    intros L Hi. pose proof (sound_x x L) as Sx. pose proof Sx as (M & Lw & Lp & _).
    assert (I1 : forall nm fld h, In (nm, fld, h) winding_integrals -> exists r, exact_f x nm r).
    { intros nm fld h I. assert (Hf : fld = "K2" \/ fld = "Phi") by (destruct I as [X|[X|[X|[X|[]]]]]; injection X as <- <- <-; auto).
      eexists. left. exists fld, h, (nrm (q_winding q)), (wfield q x fld). split; [exact I|]. split; [apply reports_of; intros; now apply normal_copy|]. split; [now apply shows_own|reflexivity]. }
    assert (I2 : forall nm fld h, In (nm, fld, h) winding_maxima -> exists r, exact_f x nm r).
    { intros nm fld h I. assert (Hf : fld = "K2" \/ fld = "Phi") by (destruct I as [X|[X|[X|[X|[]]]]]; injection X as <- <- <-; auto).
      assert (Hh : forall y, continuity_pt h y) by (intros y; destruct I as [X|[X|[X|[X|[]]]]]; injection X as <- <- <-; [reg|apply Rcontinuity_abs|reg|reg]).
      destruct (wfield_fielded other q x Sx Nw fld Hf) as (CF & PF & TF & _). pose proof (nfp_pos q x Sx) as Pk. assert (Pi : 0 < / INR (q_nfp q)) by now apply Rinv_0_lt_compat.
      destruct (lub_of (fun p t => h (wfield q x fld p t)) 0 (/ INR (q_nfp q)) 0 1 Pi ltac:(lra) ltac:(apply cont2_comp; assumption)) as (r & Ub & Lb). exists r. right; left. exists fld, h, (wfield q x fld).
      split; [exact I|]. split; [now apply shows_own|]. split.
      - intros y (p & t & ->). destruct (into_period (/ INR (q_nfp q)) 0 p Pi) as (k1 & C1). destruct (into_period 1 0 t ltac:(lra)) as (k2 & C2).
        rewrite <- (whole_periods (fun p => wfield q x fld p t) _ (fun y => PF y t) k1 p). rewrite <- (whole_periods (fun t => wfield q x fld (p + IZR k1 * / INR (q_nfp q)) t) _ (fun y => TF _ y) k2 t).
        apply Ub. do 2 eexists. split; [|split; [|reflexivity]]; lra.
      - intros b Hb. apply Lb. intros y (p & t & _ & _ & ->). apply Hb. eauto. }
    assert (HB : preports (fun q => Bnormal q x) q (bnval q x)) by (now apply Bn_reports).
    assert (I3 : forall nm h, In (nm, h) plasma_maxima -> exists r, exact_f x nm r).
    { intros nm h I. assert (Cn : cont2 (bnval q x)) by now apply cont2_bnval. assert (CG : cont2 (fun p t => h (bnval q x p t + Bp p t))). { destruct I as [X|[X|[]]]; injection X as <- <-; cont2. }
      pose proof (nfp_pos q x Sx) as Pk. assert (Pi : 0 < / INR (q_nfp q)) by now apply Rinv_0_lt_compat.
      destruct (lub_of _ p0 (p0 + / INR (q_nfp q)) t0 (t0 + 1) ltac:(lra) ltac:(lra) CG) as (r & Hr). exists r. right; right; right. exists h, (bnval q x). auto. }
    destruct Hi as [<-|[<-|[<-|[<-|[<-|[<-|[<-|[<-|[<-|[<-|[<-|[]]]]]]]]]]]].
    all: try (eapply I1; cbn; tauto). all: try (eapply I2; cbn; tauto). all: try (eapply I3; cbn; tauto).
    eexists. right; right; left. exists (nrm (q_plasma q)), (bnval q x). split; [reflexivity|]. split; [apply reports_of; intros; now apply normal_copy|]. split; [exact HB|reflexivity].
  Qed.

  (** The objective on a grid. *)
  Definition on_grid (n m : nat) (x : list R) : R := match regridded q Bp p0 t0 n m with Ok q' => total other q' os x | Raise _ => 0 end.
  Lemma objective_settles l x r : length x = q_ndofs q -> exact_objective other q Bp p0 t0 l x r ->
    forall e, 0 < e -> eventually (fun n m => forall q', regridded q Bp p0 t0 n m = Ok q' -> Rabs (total other q' l x - r) <= e).
  Proof using S CB Nw Nz Off.
    intros L (vs & F & ->). induction F as [|o v l vs H F IH]; intros e Pe.
    - exists 0%nat. intros. unfold total, Rsum. cbn. rewrite Rminus_0_r, Rabs_R0. lra.
    - destruct o as [name c]. cbn [fst snd] in *. assert (Pc : 0 < Rabs c + 1) by (pose proof (Rabs_pos c); lra).
      generalize (eventually_and _ _ (IH (e / 2) ltac:(lra)) (exact_settles x name v L H (e / 2 / (Rabs c + 1)) ltac:(apply Rdiv_lt_0_compat; lra))). apply eventually_imp.
      intros n m (A & (q1 & w & E1 & Rw & B)) q' E'. rewrite E' in E1. injection E1 as <-. specialize (A q' E'). unfold total in *. cbn [map map2 fst snd]. unfold Rsum in *. cbn [fold_right].
      rewrite (entry_reads _ _ _ 0 _ _ Rw). cbn [scal el nth].
      set (u := fold_right Rplus 0 (map _ _)) in *. set (u' := fold_right Rplus 0 (map2 _ _ _)) in *. replace (c * w + u - (c * v + u')) with (c * (w - v) + (u - u')) by ring.
      eapply Rle_trans; [apply Rabs_triang|]. rewrite Rabs_mult. assert (Rabs c * Rabs (w - v) <= e / 2); [|lra].
      apply Rle_trans with ((Rabs c + 1) * (e / 2 / (Rabs c + 1))); [|right; field; lra]. apply Rmult_le_compat; [apply Rabs_pos|apply Rabs_pos|lra|exact B].
  Qed.
  Lemma objective_exists x : length x = q_ndofs q -> exists r, exact_objective other q Bp p0 t0 os x r.
  Proof using S CB Nw Nz Off Ho.
    intros L. assert (X : exists vs, Forall2 (fun o v => exact_f x (fst o) v) os vs).
    { clear Rg. revert Ho. induction os as [|[name c] l IH]; intros Ho'; [exists []; constructor|]. destruct (IH (fun n w H => Ho' n w (or_intror H))) as (vs & F). destruct (exact_exists x name L (proj2 (Ho' name c (or_introl eq_refl)))) as (v & Hv). exists (v :: vs). now constructor. }
    destruct X as (vs & F). eexists. exists vs. split; [exact F|reflexivity].
  Qed.

  (** What holds on every fine enough grid. *)
  Lemma increasing_equi a h n : 0 < h -> increasing (equispaced a h n).
  Proof.
    clear. intros Ph i j. rewrite equi_len. intros Hj. rewrite !equi_nth by lia. assert (INR i <= INR j) by (apply le_INR; lia). nra.
  Qed.
  Lemma grid_facts : exists mu, 0 < mu /\ eventually (fun n m => exists q', regridded q Bp p0 t0 n m = Ok q' /\ sound q' z /\ ordered q' /\ resolved q' /\ regular (q_eval q') /\ regularised q' os /\
    q_ndofs q' = q_ndofs q /\ convex_objective other q' os /\ (exists fz, weighted other q' os z fz) /\
    forall x y k, length x = q_ndofs q -> length y = q_ndofs q -> mu * (nth k y 0 - nth k x 0) ^ 2 <= gap q' os x y).
  Proof using S Nw Nz Ho Rg.
    destruct Rg as (c & Pc & D). destruct (winding_bounds q p0 t0 Nw) as (kappa & T & Pk & T1 & HB). assert (PT : 0 < T) by lra.
    exists (c * (kappa / T / 4)). split; [apply Rmult_lt_0_compat; [exact Pc|]; repeat apply Rdiv_lt_0_compat; lra|].
    exists (2 + 2 * q_ntor q + 2 * q_mpol q)%nat. intros n m Hn Hm. destruct (regridded_facts q Bp p0 t0 n m z S ltac:(lia) ltac:(lia)) as (q' & E & S' & En & Ed & Ew & Es & Em & Et & P1 & P2 & Cw & Cp & _).
    exists q'. split; [exact E|]. split; [exact S'|]. pose proof (nfp_pos q z S) as Pf. assert (Pn : 0 < INR n) by (apply lt_0_INR; lia). assert (Pm : 0 < INR m) by (apply lt_0_INR; lia).
    assert (O : ordered q').
    { pose proof (copy_fields _ _ _ _ Cp) as (_ & _ & _ & _ & _ & Q1 & Q2 & _). unfold ordered. rewrite P1, P2, Q1, Q2. repeat split; apply increasing_equi; first [apply Rinv_0_lt_compat; nra|now apply Rinv_0_lt_compat]. }
    assert (Rs : resolved q'). { exists p0, t0, n, m. rewrite En, Et, Em, P1, P2. repeat split; lia || reflexivity. }
    pose proof S as (M & Lw & _). assert (Rgl : regular (q_eval q')).
    { intros g v Hg Hv. rewrite (normal_copy _ _ _ _ Lw Cw) in Hg. injection Hg as <-. rewrite concat_sample in Hv. apply in_map_iff in Hv as (u & <- & _). apply Nw. }
    assert (Hc : convex_objective other q' os).
    { intros name w Hi. destruct (Ho name w Hi) as (A & B). split; [exact A|]. apply (C111_convex_quantities other q' z S' O). unfold grid_figures in B. cbn [In] in B |- *. tauto. }
    split; [exact O|]. split; [exact Rs|]. split; [exact Rgl|]. split; [exists c; rewrite Es; auto|]. split; [exact Ed|]. split; [exact Hc|]. split.
    - assert (X : exists vs, Forall2 (fun o v => reads other (fst o) q' z (scal v)) os vs).
      { clear D. revert Ho. clear Rg Hc. induction os as [|[name w] l IH]; intros Ho'; [exists []; constructor|]. destruct (IH (fun a b H => Ho' a b (or_intror H))) as (vs & F).
        assert (V : exists v, reads other name q' z (scal v)).
        { assert (J1 : forall nm fld sf h, In (nm, fld, sf, h) [("f_K", "K2", q_eval q', fun y => y / 2); ("f_B", "Bnormal", q_plasma q', fun y => y * y / 2); ("f_Phi", "Phi", q_eval q', fun y => y * y / 2); ("f_l1_Phi", "Phi", q_eval q', Rabs); ("f_huber_K", "K2", q_eval q', sqrt)] -> exists v, reads other nm q' z (scal v)).
          { intros nm fld sf h Hi. destruct (integral_value other q' z S' nm fld sf h Hi) as (v & _ & _ & H & _). now exists v. }
          assert (J2 : forall nm fld h, In (nm, fld, h) [("f_max_K2", "K2", fun y : R => y); ("f_max_K_dot_grad_K_cyl", "K_dot_grad_K_cyl", Rabs); ("f_max_Bnormal", "Bnormal", Rabs); ("f_max_Bnormal2", "Bnormal", fun y => y * y); ("f_max_Phi", "Phi", Rabs); ("f_max_Phi2", "Phi", fun y => y * y); ("f_max_Phi4", "Phi", fun y => y ^ 4)] -> exists v, reads other nm q' z (scal v)).
          { intros nm fld h Hi. destruct (largest_value other q' z S' nm fld h Hi) as (v & _ & H & _). now exists v. }
          destruct (proj2 (Ho' name w (or_introl eq_refl))) as [<-|[<-|[<-|[<-|[<-|[<-|[<-|[<-|[<-|[<-|[<-|[]]]]]]]]]]]]; first [eapply J1; cbn; tauto|eapply J2; cbn; tauto]. }
        destruct V as (v & Hv). exists (v :: vs). now constructor. }
      destruct X as (vs & F). eexists. exists vs. split; [exact F|reflexivity].
    - intros x y k Lx Ly. rewrite <- Ed in Lx, Ly. assert (Kb : forall p t, In p (q_qphi q') -> In t (q_qtheta q') -> kappa <= norm3 (wn q' p t) /\ dot3 (w1 q' p t) (w1 q' p t) + dot3 (w2 q' p t) (w2 q' p t) <= T).
      { intros p t Ip It. rewrite P1 in Ip. rewrite P2 in It. destruct (in_grid q p0 t0 z S n m p t ltac:(lia) ltac:(lia) Ip It) as (B1 & B2). unfold wn, w1, w2. rewrite Ew. apply HB; [|exact B2].
        assert (/ INR (q_nfp q) <= 1); [|lra]. rewrite <- Rinv_1. apply Rinv_le_contravar; [lra|]. change 1 with (INR 1). apply le_INR. destruct (made_facts q M) as (Nf & _). unfold q_nfp. lia. }
      assert (E1 : q_qphi q' = equispaced p0 (/ (INR (q_nfp q') * INR n)) n) by (now rewrite En, P1). assert (E2 : q_qtheta q' = equispaced t0 (/ INR m) m) by exact P2.
      destruct (lt_dec k (q_ndofs q')) as [Hk|Hk].
      2:{ rewrite !nth_overflow by lia. replace (c * (kappa / T / 4) * (0 - 0) ^ 2) with 0 by ring. assert (N : exists name, In (name, c) os /\ In name quadratic_figures) by (destruct D as [I|[I _]]; eexists; (split; [exact I|cbn; tauto])). destruct N as (name & I & Q).
          eapply Rle_trans; [|apply (gap_contains other q' z os name c x y S' O Hc I Q)]. apply Rmult_le_pos; [lra|]. apply energy_nonneg, (weights_pos name q' z S' O). }
      assert (Kt : kappa / T <= kappa). { apply Rmult_le_reg_r with T; [exact PT|]. unfold Rdiv. rewrite Rmult_assoc, Rinv_l by lra. nra. }
      destruct D as [I|[I St]].
      + eapply Rle_trans; [|apply (gap_contains other q' z os "f_Phi" c x y S' O Hc I); cbn; tauto]. rewrite Rmult_assoc. apply Rmult_le_compat_l; [lra|].
        eapply Rle_trans; [|apply (rate_Phi q' z p0 t0 n m kappa S' E1 E2 ltac:(lia) ltac:(lia) ltac:(lia) ltac:(lia) Pk (fun p t H1 H2 => proj1 (Kb p t H1 H2)) x y k Lx Ly Hk)]. apply Rmult_le_compat_r; [apply pow2_ge_0|]. lra.
      + eapply Rle_trans; [|apply (gap_contains other q' z os "f_K" c x y S' O Hc I); cbn; tauto]. rewrite Rmult_assoc. apply Rmult_le_compat_l; [lra|].
        apply (rate_K q' z p0 t0 n m kappa T S' E1 E2 ltac:(lia) ltac:(lia) ltac:(lia) ltac:(lia) Pk (fun p t H1 H2 => proj1 (Kb p t H1 H2)) (fun p t H1 H2 => proj2 (Kb p t H1 H2)) T1 x y k ltac:(congruence) Lx Ly Hk).
  Qed.

  Definition limit_objective (x : list R) : R := real (Lim_seq (fun k => on_grid k k x)).
  Lemma on_grid_settles x r : length x = q_ndofs q -> exact_objective other q Bp p0 t0 os x r -> forall e, 0 < e -> eventually (fun n m => Rabs (on_grid n m x - r) <= e).
  Proof using S CB Nw Nz Off.
    intros L H e Pe. destruct (objective_settles os x r L H e Pe) as (N & HN). exists (Nat.max N 2). intros n m Hn Hm. destruct (regridded_facts q Bp p0 t0 n m z S ltac:(lia) ltac:(lia)) as (q' & E & _).
    unfold on_grid. rewrite E. apply (HN n m ltac:(lia) ltac:(lia) q' E).
  Qed.
  Lemma limit_exact x r : length x = q_ndofs q -> exact_objective other q Bp p0 t0 os x r -> limit_objective x = r.
  Proof using S CB Nw Nz Off.
    intros L H. unfold limit_objective. assert (X : is_lim_seq (fun k => on_grid k k x) r).
    { apply is_lim_seq_spec. intros e. destruct (on_grid_settles x r L H (e / 2) ltac:(destruct e as [e Pe]; cbn; lra)) as (N & HN). exists N. intros k Hk. specialize (HN k k Hk Hk). destruct e as [e Pe]. cbn in *. lra. }
    now rewrite (is_lim_seq_unique _ _ X).
  Qed.
  Lemma designs_converge : exists X fX, length X = q_ndofs q /\ exact_objective other q Bp p0 t0 os X fX /\
    (forall y fy, length y = q_ndofs q -> exact_objective other q Bp p0 t0 os y fy -> fX <= fy /\ (fy <= fX -> y = X)) /\
    forall e, 0 < e -> exists c, 0 < c /\ eventually (fun n m => exists q', regridded q Bp p0 t0 n m = Ok q' /\ (exists b fb, best other q' os [] b fb) /\
      forall x fx, length x = q_ndofs q -> weighted other q' os x fx -> (forall y fy, length y = q_ndofs q -> weighted other q' os y fy -> fx <= fy + c) ->
      within e X x /\ Rabs (fx - fX) <= e).
  Proof using S CB Nw Nz Off Ho Rg.
    pose proof S as (_ & _ & _ & _ & Lz'). destruct grid_facts as (mu & Pm & Ev).
    destruct (limit_designs (q_ndofs q) limit_objective on_grid mu z Pm Lz') as (X & LX & B & U & Cv).
    - revert Ev. apply eventually_imp. intros n m (q' & E & S' & O & Rs & Rgl & Rq & Ed & Hc & (fz & Wz) & Gp) x y t k Lx Ly Ht. unfold on_grid. rewrite E.
      pose proof (total_strong other q' os z fz S' Hc Wz x y t ltac:(congruence) ltac:(congruence) Ht) as H. specialize (Gp x y k Lx Ly).
      assert (t * (1 - t) * (mu * (nth k y 0 - nth k x 0) ^ 2) <= t * (1 - t) * gap q' os x y) by (apply Rmult_le_compat_l; [apply Rmult_le_pos; lra|exact Gp]). lra.
    - intros x Lx e Pe. destruct (objective_exists x Lx) as (r & Hr). rewrite (limit_exact x r Lx Hr). now apply on_grid_settles.
    - destruct (objective_exists X LX) as (fX & HX). exists X, fX. split; [exact LX|]. split; [exact HX|]. split.
      { intros y fy Ly Hy. pose proof (B y Ly) as B1. pose proof (U y Ly) as U1. rewrite (limit_exact X fX LX HX), (limit_exact y fy Ly Hy) in *. auto. }
      intros e Pe. destruct (Cv e Pe) as (c & Pc & Ec). exists c. split; [exact Pc|]. generalize (eventually_and _ _ Ev Ec). apply eventually_imp.
      intros n m ((q' & E & S' & O & Rs & Rgl & Rq & Ed & Hc & (fz & Wz) & Gp) & H). exists q'. split; [exact E|]. split.
      + destruct (best_design other q' os [] z fz S' Hc ltac:(intros ? ? ? []) ltac:(intros ? ? ? []) Wz mu Pm) as (b & fb & Hb); [|exists b, fb; exact Hb].
        intros x y j Lx Ly. apply Gp; congruence.
      + intros x fx Lx Wx Near. unfold on_grid in H. rewrite E in H. rewrite (limit_exact X fX LX HX) in H. pose proof (total_weighted other q' os z fz S' Hc Wz) as TW.
        rewrite (weighted_fun other q' os x _ _ Wx (TW x ltac:(congruence))) in *. apply H; [exact Lx|]. apply (Near X); [exact LX|]. apply TW. congruence.
  Qed.
End Designs.
