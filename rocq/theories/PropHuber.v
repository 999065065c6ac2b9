(** How nearly even the smoothed Huber penalty is. *)
From Coq Require Import String List Bool Arith ZArith Reals Lra Lia.
From Coquelicot Require Import Coquelicot.
From Verif Require Import Base ModelArray ModelMath ModelQuantity ModelWrapper ModelShipped
  SpecMath SpecQuantity ProofSlack ProofHuber WitnessQuantity.
Import ListNotations.
Open Scope R_scope.
Open Scope string_scope.
Open Scope list_scope.

(** ** C72 *)
(** Missing from the property: the gap, which is of second order in the
    smoothing parameter and does not vanish
    ([C72_huber_even_and_least_at_zero_refuted]).  Up to it, the penalty of a
    field and of its negative agree and no field has a smaller penalty than the
    zero field. *)
Theorem C72_huber_almost_even_partial :
  forall P da nfp (func : field P) reg reg' q,
  init_quantity reg (generate_huber P da nfp func) = (reg', Ok q) ->
  forall qp phi phi' fld fld' u eps a b c t,
  func qp [("phi", phi)] = Ok fld -> func qp [("phi", phi')] = Ok fld' -> wf fld -> wf fld' -> wf (da qp) ->
  sh fld = a :: b :: c :: t -> sh fld' = sh fld -> sh (da qp) = [a; b] -> 0 < u ->
  List.Forall (fun w => 0 <= w) (el (da qp)) -> 0 <= nfp qp ->
  let value phi := bind (scaled_f_impl q (Some "approx") [("lse_epsilon", eps)]) (fun F => scalar_value (F qp [("phi", phi)] (scal u))) in
  let gap := 2 * (sqrt (INR (size (c :: t))) * (eps * eps) * (Rsum (el (da qp)) * nfp qp)) in
  exists v v', value phi = Ok v /\ value phi' = Ok v' /\
    (el fld' = map Ropp (el fld) -> Rabs (v' - v) <= gap) /\
    ((forall x, In x (el fld) -> x = 0) -> v <= v' + gap).
Proof. exact huber_almost_even. Qed.
Print Assumptions C72_huber_almost_even_partial.
Example C72_example : exists reg q,
  init_quantity [] (generate_huber unit da22 nfp1 id_field) = (reg, Ok q) /\
  let fld := Arr [2%nat; 2%nat; 3%nat] [1; 2; 3; 4; 5; 6; 7; 8; 9; 10; 11; 12] in
  let fld' := Arr [2%nat; 2%nat; 3%nat] (map Ropp (el fld)) in
  id_field tt [("phi", fld)] = Ok fld /\ id_field tt [("phi", fld')] = Ok fld' /\ wf fld /\ wf fld' /\ wf (da22 tt) /\
  sh (da22 tt) = [2%nat; 2%nat] /\ List.Forall (fun w => 0 <= w) (el (da22 tt)) /\ 0 <= nfp1 tt.
Proof. do 2 eexists. split; [reflexivity|]. cbv zeta. repeat split; try reflexivity; [repeat constructor; cbn; lra|unfold nfp1; lra]. Qed.
