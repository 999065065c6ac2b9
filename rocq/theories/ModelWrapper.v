(** Model of src/quadcoil/wrapper.py.  No proofs here. *)
From Coq Require Import String List Bool Arith ZArith Reals.
From Verif Require Import Base ModelArray ModelMath ModelQuantity.
Import ListNotations.
Open Scope R_scope.
Open Scope string_scope.
Open Scope list_scope.

Section Wrapper.
  Variable P : Type.
  (** [qp.ndofs] *)
  Variable qp_ndofs : P -> nat.

  (** quantity.py 59-192, see ModelQuantity. *)
  Notation quantity := (quantity P).
  (** A function of (qp, dofs) (wrapper.py 46-92). *)
  Definition callable := P -> dofs -> result arr.

  (** An attribute of the module quadcoil.quantity (wrapper.py 25-34). *)
  Inductive attr : Type := AQuantity (q : quantity) | AOther.
  (** The module namespace: [hasattr]/[getattr] (wrapper.py 25-34). *)
  Definition namespace := string -> option attr.

  (** wrapper.py 8-35, [get_quantity]. *)
  Definition get_quantity (ns : namespace) (name : string) : result quantity :=
    match ns name with
    | Some (AQuantity q) => Ok q
    | Some AOther => Raise ValueError
    | None => Raise ValueError
    end.

  (** The list of results of a list of calls, or the first exception (wrapper.py 66-73). *)
  Fixpoint collect {A} (l : list (result A)) : result (list A) :=
    match l with
    | [] => Ok []
    | r :: l => bind r (fun a => bind (collect l) (fun x => Ok (a :: x)))
    end.

  (** wrapper.py 37-91, [merge_callables].  [jnp.array(outputs)] of rows of
      unequal length raises (line 82). *)
  Definition merge_callables (fs : list (option callable)) (merge_constraints : bool)
      (smoothing : option string) (sp : smoothing_params) : callable := fun qp d =>
    bind (collect (map (fun f : callable => f qp d)
           (flat_map (fun o => match o with Some f => [f] | None => [] end) fs))) (fun outs =>
    let outs := map (fun o => flatten (atleast_1d o)) outs in
    match outs with
    | [] => Ok (Arr [0%nat] [])
    | o0 :: _ =>
      if merge_constraints then
        match smoothing with
        | Some s =>
          if String.eqb s "approx" then
            bind (getitem sp "lse_epsilon") (fun eps =>
            if forallb (fun o => Nat.eqb (length (el o)) (length (el o0))) outs
            then Ok (Arr [1%nat] [max_lse (concat (map el outs)) eps])
            else Raise ValueError)
          else Raise AttributeError
        | None => Raise AttributeError
        end
      else Ok (Arr [length (concat (map el outs))] (concat (map el outs)))
    end).

  (** The [unit] argument: None, a scalar, or anything else (wrapper.py 144-153). *)
  Inductive unit_arg : Type := UNone | UScalar (u : R) | UOther.

  (** The value of [_add_quantity]: scaled value, inequality and equality
      constraints, unit, initial slack values (wrapper.py 180-186). *)
  Record added : Type := {
    ad_f : callable;
    ad_g : list callable;
    ad_h : list callable;
    ad_unit : P -> result arr;
    ad_slack : dict callable
  }.

  (** wrapper.py 144-153: the unit as a function of qp. *)
  Definition unit_callable (q : quantity) (u : unit_arg) : result (P -> result arr) :=
    match u with
    | UNone => Ok (fun qp => call q qp [("phi", Arr [qp_ndofs qp] (repeat 0 (qp_ndofs qp)))])
    | UScalar u => Ok (fun _ => Ok (scal (Rabs u)))
    | UOther => Raise TypeError
    end.
  (** wrapper.py 156-158, [apply_unit]. *)
  Definition apply_unit (uc : P -> result arr) (f : scaled P) : callable := fun qp d =>
    bind (uc qp) (fun u => f qp d u).

  (** wrapper.py 93-186, [_add_quantity]. *)
  Definition add_quantity (ns : namespace) (name : string) (u : unit_arg) (use_case : string)
      (smoothing : option string) (sp : smoothing_params) : result added :=
    bind (get_quantity ns name) (fun q =>
    bind (scaled_f_impl q smoothing sp) (fun f =>
    bind (scaled_g_ineq_impl q smoothing) (fun g =>
    bind (scaled_h_eq_impl q smoothing) (fun h =>
    bind (scaled_slack_dofs_init q smoothing) (fun init =>
    if negb (mem use_case (q_compat q)) then Raise ValueError
    else
    bind (unit_callable q u) (fun uc =>
    Ok {| ad_f := apply_unit uc f;
          ad_g := match g with Some g => [apply_unit uc g] | None => [] end;
          ad_h := match h with Some h => [apply_unit uc h] | None => [] end;
          ad_unit := uc;
          ad_slack := match init with
                      | Some d => map (fun kv => (fst kv, apply_unit uc (snd kv))) d
                      | None => []
                      end |})))))).

  (** wrapper.py 254-262, [f_tot]: out = 0; out = out + f_i * w_i.  The sum
      is elementwise with broadcasting. *)
  Fixpoint f_tot_from (acc : arr) (fs : list callable) (ws : list R) (qp : P) (d : dofs)
    : result arr :=
    match fs, ws with
    | f :: fs, w :: ws =>
        bind (f qp d) (fun v => bind (op2 Rplus acc (amap (fun x => x * w) v)) (fun acc =>
        f_tot_from acc fs ws qp d))
    | [], _ => Ok acc
    | _ :: _, [] => Raise IndexError
    end.

  (** The [objective_name]/[objective_unit] arguments: one string with one
      unit, or a tuple of names with a tuple of units.  (A string name with a
      tuple of units is rejected by [_add_quantity]: UOther.) (wrapper.py 188-235). *)
  Inductive objective_arg : Type :=
  | OneObjective (name : string) (u : unit_arg)
  | Objectives (names : list string) (units : list unit_arg).

  (** The three accumulators of the parsers (wrapper.py 236-263, 322-383). *)
  Record parsed : Type := {
    p_g : list callable; p_h : list callable; p_slack : dict callable
  }.

  (** wrapper.py 236-253, the loop; [objective_unit[i]] beyond the end of the
      tuple raises IndexError. *)
  Fixpoint parse_obj_loop (ns : namespace) (names : list string) (units : list unit_arg)
      (smoothing : option string) (sp : smoothing_params)
      (fs : list callable) (acc : parsed) : result (list callable * parsed) :=
    match names with
    | [] => Ok (fs, acc)
    | n :: names =>
        match units with
        | [] => Raise IndexError
        | u :: units =>
            bind (add_quantity ns n u "f" smoothing sp) (fun a =>
            parse_obj_loop ns names units smoothing sp (fs ++ [ad_f a])
              {| p_g := p_g acc ++ ad_g a; p_h := p_h acc ++ ad_h a;
                 p_slack := dict_union (p_slack acc) (ad_slack a) |})
        end
    end.

  (** Their initial values (wrapper.py 236-240, 322-326). *)
  Definition empty_parsed : parsed := {| p_g := []; p_h := []; p_slack := [] |}.

  (** wrapper.py 188-263, [_parse_objectives]. *)
  Definition parse_objectives (ns : namespace) (o : objective_arg) (weights : list R)
      (smoothing : option string) (sp : smoothing_params) : result (callable * parsed) :=
    let '(names, units, weights) :=
      match o with
      | OneObjective n u => ([n], [u], [1])
      | Objectives ns us => (ns, us, weights)
      end in
    if negb (Nat.eqb (length names) (length weights)) then Raise ValueError
    else bind (parse_obj_loop ns names units smoothing sp [] empty_parsed) (fun '(fs, acc) =>
         Ok (f_tot_from (scal 0) fs weights, acc)).

  (** wrapper.py 346-349 *)
  Definition sign_of (cons_type : string) : R := if String.eqb cons_type ">=" then -1 else 1.

  (** wrapper.py 353-368, [cons_func_centered_i]. *)
  Definition cons_func_centered (f : callable) (val : R) (uc : P -> result arr) (sign : R)
      (smoothing : option string) (sp : smoothing_params) : callable := fun qp d =>
    bind (f qp d) (fun fv =>
    bind (bind (uc qp) (fun u => op2 Rdiv (scal val) u)) (fun vu =>
    bind (op2 Rminus fv vu) (fun diff =>
    let out := amap (fun x => sign * x) diff in
    match smoothing with
    | Some s =>
        if String.eqb s "approx" && negb (isscalar out)
        then bind (getitem sp "lse_epsilon") (fun eps => Ok (scal (max_lse (el out) eps)))
        else Ok out
    | None => Ok out
    end))).

  (** wrapper.py 326-375, the loop. *)
  Fixpoint parse_cons_loop (ns : namespace) (names types : list string)
      (units : list unit_arg) (vals : list R)
      (smoothing : option string) (sp : smoothing_params) (acc : parsed) : result parsed :=
    match names, types, units, vals with
    | n :: names, t :: types, u :: units, v :: vals =>
        bind (add_quantity ns n u t smoothing sp) (fun a =>
        let acc := {| p_g := p_g acc ++ ad_g a; p_h := p_h acc ++ ad_h a;
                      p_slack := dict_union (p_slack acc) (ad_slack a) |} in
        let c := cons_func_centered (ad_f a) v (ad_unit a) (sign_of t) smoothing sp in
        if String.eqb t "==" then
          parse_cons_loop ns names types units vals smoothing sp
            {| p_g := p_g acc; p_h := p_h acc ++ [c]; p_slack := p_slack acc |}
        else if mem t ["<="; ">="] then
          parse_cons_loop ns names types units vals smoothing sp
            {| p_g := p_g acc ++ [c]; p_h := p_h acc; p_slack := p_slack acc |}
        else Raise ValueError)
    | [], _, _, _ => Ok acc
    | _, _, _, _ => Raise IndexError
    end.

  (** wrapper.py 265-382, [_parse_constraints]. *)
  Definition parse_constraints (ns : namespace) (names types : list string)
      (units : list unit_arg) (vals : list R)
      (smoothing : option string) (sp : smoothing_params) : result parsed :=
    let n := length names in
    if Nat.eqb n (length types) && Nat.eqb n (length units) && Nat.eqb n (length vals)
    then parse_cons_loop ns names types units vals smoothing sp empty_parsed
    else Raise ValueError.
End Wrapper.
Arguments AQuantity {P} _. Arguments AOther {P}.
Arguments get_quantity {P} _ _. Arguments merge_callables {P} _ _ _ _ _ _.
Arguments unit_callable {P} _ _ _. Arguments apply_unit {P} _ _ _ _.
Arguments ad_f {P} _ _ _. Arguments ad_g {P} _. Arguments ad_h {P} _.
Arguments ad_unit {P} _ _. Arguments ad_slack {P} _.
Arguments p_g {P} _. Arguments p_h {P} _. Arguments p_slack {P} _.
Arguments add_quantity {P} _ _ _ _ _ _ _. Arguments f_tot_from {P} _ _ _ _ _.
Arguments parse_obj_loop {P} _ _ _ _ _ _ _ _. Arguments parse_objectives {P} _ _ _ _ _ _.
Arguments cons_func_centered {P} _ _ _ _ _ _ _ _.
Arguments parse_cons_loop {P} _ _ _ _ _ _ _ _ _. Arguments parse_constraints {P} _ _ _ _ _ _ _ _.
Arguments empty_parsed {P}.
