(** The statements about the package: uses, units, formulas. *)
From Coq Require Import String List Bool Arith ZArith Reals Lra Lia.
From Verif Require Import Base ModelArray ProofArray ModelMath SpecMath ProofMath ModelSurface SpecSurface ProofSurface ProofSurface2 ProofSurface3
  SpecWinding ProofWinding4 ModelParams ModelField SpecField ProofField ProofField2 ProofField3 ModelForce
  ModelQuantity SpecQuantity ModelWrapper SpecWrapper ProofWrapper ModelShipped ModelPackage SpecPackage ProofRescale ProofPackage ProofPackage2.
Import ListNotations.
Open Scope R_scope.
Open Scope string_scope.
Open Scope list_scope.

(** ** Uses *)
Lemma package_kind other name k : In (name, k) (documented ++ undocumented) -> ~ In name ["f_max_Bnormal_abs"; "Phi_abs"] ->
  exists Q, package other name = Some (AQuantity Q) /\ In "<=" (q_compat Q) /\ (In "f" (q_compat Q) <-> k = Number).
Proof.
  intros I N. repeat (destruct I as [I|I]; [injection I as <- <-;
    first [exfalso; apply N; cbn; tauto
          |eexists; split; [reflexivity|]; split; [cbn; tauto|]; cbn; split;
           [intros X; repeat destruct X as [X|X]; first [discriminate X|contradiction X|reflexivity]
           |intros X; first [discriminate X|tauto]]]|]).
  contradiction.
Qed.
Lemma package_missing other name : In name ["f_max_Bnormal_abs"; "Phi_abs"] -> get_quantity (package other) name = Raise ValueError.
Proof. intros [<-|[<-|[]]]; unfold get_quantity, package, package_namespace; cbn; destruct (mem _ other); reflexivity. Qed.
Lemma objective_use other name k u w mode sp : In (name, k) (documented ++ undocumented) -> ~ In name ["f_max_Bnormal_abs"; "Phi_abs"] ->
  u <> UOther -> known_mode mode ->
  (exists r, parse_objectives q_ndofs (package other) (Objectives [name] [u]) [w] mode sp = Ok r) <-> k = Number.
Proof.
  intros I N Hu Hm. destruct (package_kind other name k I N) as (Q & EQ & _ & Hf). rewrite parse_objectives_ok. cbn [length combine]. split.
  - intros (_ & _ & _ & H). destruct (H name u (or_introl eq_refl)) as (Q' & EQ' & Hc & _). apply Hf. rewrite EQ in EQ'. injection EQ' as ->. exact Hc.
  - intros Hk. split; [reflexivity|]. split; [constructor|]. split; [now right|]. intros n u' [X|[]]. injection X as <- <-. exists Q. rewrite Hf. auto.
Qed.
Lemma constraint_use other name k u v mode sp : In (name, k) (documented ++ undocumented) -> ~ In name ["f_max_Bnormal_abs"; "Phi_abs"] ->
  u <> UOther -> known_mode mode ->
  exists r, parse_constraints q_ndofs (package other) [name] ["<="] [u] [v] mode sp = Ok r.
Proof.
  intros I N Hu Hm. destruct (package_kind other name k I N) as (Q & EQ & Hc & _). apply parse_constraints_ok. cbn [length combine].
  do 3 (split; [reflexivity|]). split; [now right|]. intros n t u' [X|[]]. injection X as <- <- <-. split; [now exists Q|cbn; tauto].
Qed.

(** ** Units *)
Lemma in_units_of k mu_0 other name s c b q q' x u kv ku sv : reported c b q q' x other name kv sv ->
  desc_unit mu_0 name = Some u -> u (rescaled_scales c b s) = ku * u s -> ku <> 0 -> kv = k * ku ->
  in_units k mu_0 other name s c b q q' x.
Proof.
  intros (Q & G & v & V & V' & _ & _) U E Hk ->. exists Q, u, v, (amap (Rmult (k * ku)) v).
  do 5 (split; [first [assumption|reflexivity]|]). unfold amap. cbn [el]. rewrite map_map. apply map_ext. intros y. rewrite E.
  unfold Rdiv. rewrite Rinv_mult. generalize (/ u s). intros e. field. exact Hk.
Qed.
Section Dims.
  Variables (mu_0 : R) (other : list string) (s : scales) (c b : R) (q q' : params) (x : list R).
  Hypothesis Hc : 0 < c.
  Hypothesis Hb : 0 < b.
  Hypothesis S : sound q x.
  Hypothesis M' : made q'.
  Hypothesis H : rescaled c b q q'.
  Lemma unit_exact name Q : get_quantity (package other) name = Ok Q ->
    ~ In name ["K_theta"; "f_max_force_cyl"; "f_l1_force_cyl"; "f_max_force2_cyl"] -> in_units 1 mu_0 other name s c b q q' x.
  Proof using Hc Hb S M' H.
    intros G N. apply package_only in G. destruct (every_quantity c b q q' x other Hc Hb H S M') as [_ E].
    assert (Ha : forall k sv u ku, In (name, k, sv) _ -> _) by (intros k sv u ku Hi; rewrite List.Forall_forall in E; exact (in_units_of 1 mu_0 other name s c b q q' x u k ku sv (E _ Hi))).
    clear E. assert (Hc0 : c <> 0) by lra. assert (Hb0 : b <> 0) by lra.
    repeat (destruct G as [<-|G]; [first [exfalso; apply N; cbn; tauto|
      eapply Ha; [cbn; tauto|reflexivity|
        cbv beta; unfold Phi_unit, K_unit, rescaled_scales, Rdiv; cbn [sc_B sc_a sc_R0]; rewrite ?Rinv_mult; generalize (/ mu_0), (/ sc_a s); intros e f; 
        first [now instantiate (1 := b); ring | now instantiate (1 := b * b); ring | now instantiate (1 := c * c * b); ring
              | now instantiate (1 := b * b * (c * c)); ring | now instantiate (1 := b * b / c); field; assumption | now instantiate (1 := 1); ring
              | now instantiate (1 := c * b); ring | now instantiate (1 := c * b * (c * b)); ring | now instantiate (1 := sq (sq (c * b))); unfold sq; ring
              | now instantiate (1 := c * c * (c * b)); ring | now instantiate (1 := c * b * (c * b) * (c * c)); ring]
        |unfold sq, Rdiv; repeat apply Rmult_integral_contrapositive_currified; try apply Rinv_neq_0_compat; lra
        |unfold sq; ring]]|]).
    contradiction.
  Qed.
End Dims.
