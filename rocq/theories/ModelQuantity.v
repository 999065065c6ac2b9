(** Model of src/quadcoil/quantity/quantity.py.  No proofs here. *)
From Coq Require Import String List Bool Arith ZArith Reals.
From Verif Require Import Base ModelArray ModelMath.
Import ListNotations.
Open Scope R_scope.
Open Scope string_scope.
Open Scope list_scope.

(** quantity.py 14-20, [_get_unique_indices]: the mask, and the selected
    (i, j) pairs in the order of the 'ij' meshgrid. *)
Definition sym_index (n i : nat) : nat := ((n - i) mod n)%nat.
(** quantity.py 14-20: the mask. *)
Definition unique_mask (n_phi n_theta i j : nat) : bool :=
  let i_sym := sym_index n_theta i in
  let j_sym := sym_index n_phi j in
  (i <? i_sym)%nat || ((i =? i_sym)%nat && (j <=? j_sym)%nat).
(** quantity.py 14-20: the pairs selected. *)
Definition unique_indices (n_phi n_theta : nat) : list (nat * nat) :=
  filter (fun p => unique_mask n_phi n_theta (fst p) (snd p))
         (list_prod (seq 0 n_theta) (seq 0 n_phi)).

(** quantity.py 23-36, [_compress_by_stellsym]: the body in force is
    [f.flatten()]; the symmetry reduction is commented out. *)
Definition compress_by_stellsym (f : arr) : arr := flatten f.
(** quantity.py 39-57, [_expand_by_stellsym]: a reshape. *)
Definition expand_by_stellsym (f : arr) (s : list nat) : result arr := reshape f s.

Section Quantity.
  (** The QuadcoilParams object is opaque here.  The code of this file looks
      at [qp.eval_surface.da()], [qp.nfp] and [qp.stellsym] only. *)
  Variable P : Type.
  Variable qp_da : P -> arr.
  Variable qp_nfp : P -> R.
  Variable qp_stellsym : P -> bool.

  (** The dofs argument of every implementation (quantity.py 59-192). *)
  Definition dofs := dict arr.
  (** A field: (qp, dofs) -> array; it may raise (quantity.py 59-192). *)
  Definition field := P -> dofs -> result arr.
  (** A scaled implementation: (qp, dofs, unit) -> array.  [unit] is an array
      because an automatic unit of a field-valued quantity is one (quantity.py 59-192). *)
  Definition scaled := P -> dofs -> arr -> result arr.
  (** smoothing_params: only the entry 'lse_epsilon' is ever read (quantity.py 328, 591). *)
  Definition smoothing_params := dict R.

  (** quantity.py 59-192, class [_Quantity]; [desc_unit] is left out (it only
      serves the DESC interface). *)
  Record quantity : Type := {
    q_raw : field;
    q_approx : smoothing_params -> scaled;
    q_slack_f : scaled;
    q_slack_g : option scaled;
    q_slack_h : option scaled;
    q_slack_init : option (dict scaled);
    q_compat : list string
  }.

  (** A constructor argument that is expected to be a function: the code only
      distinguishes instances of [_Quantity] from everything else (quantity.py 157-164). *)
  Inductive impl (A : Type) : Type := IsQuantity | IsImpl (a : A).
  Arguments IsQuantity {A}. Arguments IsImpl {A} _.
  (** [isinstance(x, _Quantity)] (quantity.py 157-164). *)
  Definition is_quantity {A} (i : impl A) : bool :=
    match i with IsQuantity => true | IsImpl _ => false end.
  (** The argument [_scaled_slack_dofs_init]: None, a dict, or anything else
      (quantity.py 165-183). *)
  Inductive init_arg : Type := NoInit | NotDict | InitDict (d : dict scaled).

  (** The arguments of [__init__] (quantity.py 146-155). *)
  Record quantity_args : Type := {
    a_raw : impl field;
    a_approx : smoothing_params -> scaled;
    a_slack_f : impl scaled;
    a_slack_g : impl (option scaled);
    a_slack_h : impl (option scaled);
    a_init : init_arg;
    a_compat : list string
  }.

  (** [s in l] for a list of strings (quantity.py 181, wrapper.py 130-136). *)
  Definition mem (s : string) (l : list string) : bool := existsb (String.eqb s) l.
  (** quantity.py 181. *)
  Definition legal_uses : list string := ["<="; "=="; ">="; "f"].

  (** quantity.py 146-192, [__init__].  The class-level registry
      [_used_aux_names] is threaded explicitly: the result is the registry
      after the call and the constructed object or the exception. *)
  Definition init_quantity (reg : list string) (a : quantity_args)
    : list string * result quantity :=
    match a_slack_f a, a_raw a, a_slack_g a, a_slack_h a with
    | IsImpl sf, IsImpl raw, IsImpl sg, IsImpl sh =>
        let obj init := {| q_raw := raw; q_approx := a_approx a; q_slack_f := sf;
                           q_slack_g := sg; q_slack_h := sh; q_slack_init := init;
                           q_compat := a_compat a |} in
        match a_init a with
        | NoInit => (reg, Ok (obj None))
        | NotDict => (reg, Raise TypeError)
        | InitDict d =>
            let names := map fst d in
            if existsb (fun n => mem n reg) names then (reg, Raise ValueError)
            else if forallb (fun c => mem c legal_uses) (a_compat a)
            then (reg ++ names, Ok (obj (Some d)))
            else (reg, Raise ValueError)
        end
    | _, _, _, _ => (reg, Raise TypeError)
    end.

  (** quantity.py 194-207, [__call__]: only the entry 'phi' of dofs is kept. *)
  Definition call (q : quantity) (qp : P) (d : dofs) : result arr :=
    bind (getitem d "phi") (fun phi => q_raw q qp [("phi", phi)]).

  (** quantity.py 209-223, [scaled_f_impl]. *)
  Definition scaled_f_impl (q : quantity) (smoothing : option string) (sp : smoothing_params)
    : result scaled :=
    match smoothing with
    | None => Ok (fun qp d unit => bind (q_raw q qp d) (fun r => op2 Rdiv r unit))
    | Some s =>
        if String.eqb s "slack" then Ok (q_slack_f q)
        else if String.eqb s "approx" then Ok (q_approx q sp)
        else Raise ValueError
    end.
  (** quantity.py 225-262: the three getters share this shape. *)
  Definition slack_only {A} (smoothing : option string) (x : option A) : result (option A) :=
    match smoothing with
    | None => Ok None
    | Some s =>
        if String.eqb s "slack" then Ok x
        else if String.eqb s "approx" then Ok None
        else Raise ValueError
    end.
  (** quantity.py 225-236 *)
  Definition scaled_g_ineq_impl (q : quantity) (smoothing : option string) :=
    slack_only smoothing (q_slack_g q).
  (** quantity.py 238-249 *)
  Definition scaled_h_eq_impl (q : quantity) (smoothing : option string) :=
    slack_only smoothing (q_slack_h q).
  (** quantity.py 251-262 *)
  Definition scaled_slack_dofs_init (q : quantity) (smoothing : option string) :=
    slack_only smoothing (q_slack_init q).

  (** quantity.py 265-277, [generate_c2] (the arguments given to the class). *)
  Definition generate_c2 (func : field) (compat : list string) : quantity_args :=
    let f : scaled := fun qp d unit => bind (func qp d) (fun r => op2 Rdiv r unit) in
    {| a_raw := IsImpl func; a_approx := fun _ => f; a_slack_f := IsImpl f;
       a_slack_g := IsImpl None; a_slack_h := IsImpl None; a_init := NoInit;
       a_compat := compat |}.

  (** [x**2] (quantity.py 324-328). *)
  Definition sq (x : R) : R := x * x.

  (** quantity.py 324, 330: jnp.max(jnp.abs(func)), squared when [square]. *)
  Definition linf_raw (func : field) (square : bool) : field := fun qp d =>
    bind (func qp d) (fun f =>
    bind (amax (amap Rabs f)) (fun m =>
    Ok (scal (if square then sq m else m)))).
  (** quantity.py 325, 331 *)
  Definition linf_slack_f (aux : string) (square : bool) : scaled := fun _ d _ =>
    bind (getitem d aux) (fun p => Ok (if square then amap sq p else p)).
  (** quantity.py 326, 332: raw/sqrt(unit) when [square], raw/unit otherwise. *)
  Definition linf_init (func : field) (square : bool) : scaled := fun qp d unit =>
    bind (linf_raw func square qp d) (fun r =>
    op2 Rdiv r (if square then amap sqrt unit else unit)).
  (** quantity.py 327-328, 333-334; a missing 'lse_epsilon' raises KeyError. *)
  Definition linf_approx (func : field) (square : bool) (sp : smoothing_params) : scaled :=
    fun qp d unit =>
    bind (func qp d) (fun f =>
    bind (op2 Rdiv f unit) (fun fu =>
    bind (getitem sp "lse_epsilon") (fun eps =>
    let v := linf_lse (el fu) eps in
    Ok (scal (if square then sq v else v))))).
  (** quantity.py 336-353; [compress] is the choice of lines 343-346. *)
  Definition linf_slack_g (func : field) (aux : string)
      (positive_definite square auto_stellsym : bool) : scaled := fun qp d unit =>
    let unit_eff := if square then amap sqrt unit else unit in
    bind (func qp d) (fun f =>
    let f := if auto_stellsym && qp_stellsym qp then compress_by_stellsym f else flatten f in
    bind (getitem d aux) (fun p =>
    bind (bind (op2 Rdiv f unit_eff) (fun x => op2 Rminus x p)) (fun g_plus =>
    if positive_definite then Ok g_plus
    else bind (bind (op2 Rdiv (amap Ropp f) unit_eff) (fun x => op2 Rminus x p)) (fun g_minus =>
         stack2 g_plus g_minus)))).
  (** quantity.py 279-365, [generate_linf_norm]. *)
  Definition generate_linf_norm (func : field) (aux : string)
      (positive_definite square auto_stellsym : bool) : quantity_args :=
    {| a_raw := IsImpl (linf_raw func square);
       a_approx := linf_approx func square;
       a_slack_f := IsImpl (linf_slack_f aux square);
       a_slack_g := IsImpl (Some (linf_slack_g func aux positive_definite square auto_stellsym));
       a_slack_h := IsImpl None;
       a_init := InitDict [(aux, linf_init func square)];
       a_compat := ["f"; "<="] |}.

  (** quantity.py 404 *)
  Definition linf4_raw (func : field) : field := fun qp d =>
    bind (func qp d) (fun f =>
    bind (amax (amap (fun x => sq (sq x)) f)) (fun m => Ok (scal m))).
  (** quantity.py 411-412 *)
  Definition linf4_approx (func : field) (sp : smoothing_params) : scaled := fun qp d unit =>
    bind (func qp d) (fun f =>
    bind (op2 Rdiv (amap sq f) (amap sq unit)) (fun fu =>
    bind (getitem sp "lse_epsilon") (fun eps =>
    Ok (scal (sq (linf_lse (el fu) eps)))))).
  (** quantity.py 414-420 *)
  Definition linf4_slack_g (func : field) (aux : string) : scaled := fun qp d unit =>
    bind (func qp d) (fun f =>
    bind (getitem d aux) (fun p =>
    bind (op2 Rdiv (amap sq f) (amap sqrt unit)) (fun x => op2 Rminus x p))).
  (** quantity.py 424 *)
  Definition linf4_init (func : field) : scaled := fun qp d unit =>
    bind (func qp d) (fun f =>
    bind (amax (amap sq f)) (fun m => op2 Rdiv (scal m) (amap sqrt unit))).
  (** quantity.py 367-435, [generate_linf_norm_4]. *)
  Definition generate_linf_norm_4 (func : field) (aux : string) : quantity_args :=
    {| a_raw := IsImpl (linf4_raw func);
       a_approx := linf4_approx func;
       a_slack_f := IsImpl (linf_slack_f aux true);
       a_slack_g := IsImpl (Some (linf4_slack_g func aux));
       a_slack_h := IsImpl None;
       a_init := InitDict [(aux, linf4_init func)];
       a_compat := ["f"; "<="] |}.

  (** quantity.py 473-478, 486-491: more than two dimensions are merged into
      one after the second; [-1] is the remaining number of elements. *)
  Definition merge_tail (f : arr) : arr :=
    match sh f with
    | n0 :: n1 :: ((_ :: _) as rest) => Arr [n0; n1; size rest] (el f)
    | _ => f
    end.
  (** quantity.py 480-481, 496-497: jnp.sum(da * x) * nfp *)
  Definition weighted_sum (qp : P) (x : arr) : result arr :=
    bind (op2 Rmult (qp_da qp) x) (fun w => Ok (scal (asum w * qp_nfp qp))).
  (** quantity.py 470-481 *)
  Definition huber_raw (func : field) : field := fun qp d =>
    bind (func qp d) (fun f =>
    bind (norm_last (merge_tail f)) (fun n => weighted_sum qp n)).
  (** quantity.py 483-497 *)
  Definition huber_approx (func : field) (sp : smoothing_params) : scaled := fun qp d unit =>
    bind (func qp d) (fun f =>
    bind (op2 Rdiv (merge_tail f) unit) (fun fu =>
    bind (getitem sp "lse_epsilon") (fun eps =>
    bind (norm_last (amap (fun x => x + sq eps) fu)) (fun n =>
    weighted_sum qp (amap (fun x => x - eps) n))))).
  (** quantity.py 437-519, [generate_huber]; in slack mode epsilon is 1e-3
      (lines 499-508, the warning is not modelled). *)
  Definition generate_huber (func : field) : quantity_args :=
    {| a_raw := IsImpl (huber_raw func);
       a_approx := huber_approx func;
       a_slack_f := IsImpl (huber_approx func [("lse_epsilon", 1 / 1000)]);
       a_slack_g := IsImpl None;
       a_slack_h := IsImpl None;
       a_init := NoInit;
       a_compat := ["f"; "<="] |}.

  (** quantity.py 567, 590: da.reshape(da.shape + (1,) * (field.ndim - da.ndim)) *)
  Definition expand_da (qp : P) (f : arr) : arr :=
    let da := qp_da qp in Arr (sh da ++ repeat 1%nat (ndim f - ndim da)) (el da).
  (** quantity.py 564-568 *)
  Definition l1_raw (func : field) : field := fun qp d =>
    bind (func qp d) (fun f =>
    bind (op2 Rmult (expand_da qp f) (amap Rabs f)) (fun w =>
    Ok (scal (asum w * qp_nfp qp)))).
  (** quantity.py 572-582; [eval_shape(func, qp, dofs).shape] is the shape of
      the field.  Note that line 581 broadcasts [da] itself. *)
  Definition l1_slack_f (func : field) (aux : string) (auto_stellsym : bool) : scaled :=
    fun qp d _ =>
    bind (func qp d) (fun f =>
    bind (getitem d aux) (fun p =>
    bind (if auto_stellsym && qp_stellsym qp then expand_by_stellsym p (sh f)
          else reshape p (sh f)) (fun x =>
    bind (broadcast_to (qp_da qp) (sh x)) (fun da =>
    bind (op2 Rmult da (amap Rabs x)) (fun w =>
    Ok (scal (asum w * qp_nfp qp))))))).
  (** quantity.py 584-592 *)
  Definition l1_approx (func : field) (sp : smoothing_params) : scaled := fun qp d unit =>
    bind (func qp d) (fun f =>
    bind (broadcast_to (expand_da qp f) (sh f)) (fun da =>
    bind (getitem sp "lse_epsilon") (fun eps =>
    bind (op2 Rmult da (Arr (sh f) (abs_lse (el f) eps))) (fun w =>
    op2 Rdiv (scal (asum w * qp_nfp qp)) unit)))).
  (** quantity.py 594-606: the same statements as lines 336-353 without the
      square root. *)
  Definition l1_slack_g (func : field) (aux : string)
      (positive_definite auto_stellsym : bool) : scaled :=
    linf_slack_g func aux positive_definite false auto_stellsym.
  (** quantity.py 615-621 *)
  Definition l1_init (func : field) (auto_stellsym : bool) : scaled := fun qp d unit =>
    bind (func qp d) (fun f =>
    let f := if auto_stellsym && qp_stellsym qp then compress_by_stellsym f else flatten f in
    op2 Rdiv (amap Rabs f) unit).
  (** quantity.py 521-631, [generate_l1_norm]; the argument [square] is
      accepted and ignored by the code. *)
  Definition generate_l1_norm (func : field) (aux : string)
      (positive_definite square auto_stellsym : bool) : quantity_args :=
    {| a_raw := IsImpl (l1_raw func);
       a_approx := l1_approx func;
       a_slack_f := IsImpl (l1_slack_f func aux auto_stellsym);
       a_slack_g := IsImpl (Some (l1_slack_g func aux positive_definite auto_stellsym));
       a_slack_h := IsImpl None;
       a_init := InitDict [(aux, l1_init func auto_stellsym)];
       a_compat := ["f"; "<="] |}.
End Quantity.
Arguments IsQuantity {A}. Arguments IsImpl {A} _.
Arguments NoInit {P}. Arguments NotDict {P}. Arguments InitDict {P} _.
Arguments init_quantity {P} _ _. Arguments call {P} _ _ _.
Arguments q_raw {P} _ _ _. Arguments q_approx {P} _ _ _ _ _. Arguments q_slack_f {P} _ _ _ _.
Arguments q_slack_g {P} _. Arguments q_slack_h {P} _. Arguments q_slack_init {P} _.
Arguments q_compat {P} _.
Arguments a_raw {P} _. Arguments a_approx {P} _ _ _ _ _. Arguments a_slack_f {P} _.
Arguments a_slack_g {P} _. Arguments a_slack_h {P} _. Arguments a_init {P} _.
Arguments a_compat {P} _.
Arguments scaled_f_impl {P} _ _ _. Arguments scaled_g_ineq_impl {P} _ _.
Arguments scaled_h_eq_impl {P} _ _. Arguments scaled_slack_dofs_init {P} _ _.
Arguments generate_c2 {P} _ _.
Arguments linf_raw {P} _ _ _ _. Arguments linf_slack_f {P} _ _ _ _ _.
Arguments linf_init {P} _ _ _ _ _. Arguments linf_approx {P} _ _ _ _ _ _.
Arguments linf4_raw {P} _ _ _. Arguments linf4_approx {P} _ _ _ _ _.
Arguments linf4_slack_g {P} _ _ _ _ _. Arguments linf4_init {P} _ _ _ _.
Arguments generate_linf_norm_4 {P} _ _.
