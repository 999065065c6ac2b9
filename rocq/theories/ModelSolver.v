(** Model of src/quadcoil/solver.py: the inner optimisation loop and the
    augmented-Lagrangian outer loop, over an arbitrary arithmetic. *)
From Coq Require Import List Bool Arith.
From Verif Require Import Base.
Import ListNotations.

Section Solver.
  Variable N : Num.
  (** One-dimensional arrays (solver.py 83-226). *)
  Notation vec := (list N).
  (** The comparison [<] of solver.py 160-185, 440-455. *)
  Notation "a '<?t' b" := (n_ltb N a b) (at level 70).
  (** The comparison [<=] of solver.py 160-185, 440-455. *)
  Notation "a '<=?t' b" := (n_leb N a b) (at level 70).

  (** The optax optimiser handed to the inner loop (solver.py 73-78: L-BFGS
      with zoom line search).  Opaque: [o_init] is [opt.init] (134),
      [o_update value_fn grad state params value] is [opt.update] (146-148),
      and [o_count], [o_grad], [o_value] are the entries 'count', 'grad' and
      'value' read from the state with [otu.tree_get] (164, 165, 221, 222 and
      inside optax.value_and_grad_from_state, 139). *)
  Record optimiser : Type := {
    o_state : Type;
    o_init : vec -> o_state;
    o_update : (vec -> N) -> vec -> o_state -> vec -> N -> vec * o_state;
    o_count : o_state -> nat;
    o_grad : o_state -> vec;
    o_value : o_state -> N
  }.

  Variable opt : optimiser.
  (** jax.grad (solver.py 136, 139): opaque. *)
  Variable autograd : (vec -> N) -> vec -> vec.

  (** [optax.value_and_grad_from_state(fun)] (solver.py 139, 145): reuse the
      value and gradient stored in the optimiser state when the stored value is
      finite, otherwise evaluate. *)
  Definition value_and_grad_from_state (f : vec -> N) (params : vec) (st : o_state opt)
    : N * vec :=
    if n_finite N (o_value opt st) then (o_value opt st, o_grad opt st)
    else (f params, autograd f params).

  (** The loop carry of [run_opt_optax] (solver.py 125-135, 142). *)
  Record carry : Type := {
    k_params : vec; k_updates : vec; k_value : N; k_rec : vec;
    k_dx : vec; k_du : vec; k_df : N; k_state : o_state opt
  }.

  (** [jnp.linspace(start, stop, n)] (solver.py 129): [n] points, endpoint
      included. *)
  Definition linspace (start stop : N) (n : nat) : vec :=
    map (fun i => let s := n_div N (n_nat N i) (n_nat N (n - 1)) in
                  n_add N (n_mul N start (n_sub N (n_one N) s)) (n_mul N stop s))
        (seq 0 n).

  (** [init_carry] (solver.py 124-135). *)
  Definition init_carry (f : vec -> N) (x0 : vec) (fstop : N) (n_history : nat) : carry :=
    {| k_params := x0;
       k_updates := vzeros_like N x0;
       k_value := f x0;
       k_rec := map (fun l => n_add N l (n_mul N (f x0) (n_nat N 2)))
                    (linspace (n_mul N (n_nat N 1000) fstop) (n_zero N) n_history);
       k_dx := vzeros_like N x0;
       k_du := vzeros_like N x0;
       k_df := n_zero N;
       k_state := o_init opt x0 |}.

  (** [step] (solver.py 143-160). *)
  Definition step (f : vec -> N) (k : carry) : carry :=
    let '(value2, grad2) := value_and_grad_from_state f (k_params k) (k_state k) in
    let '(updates2, state2) := o_update opt f grad2 (k_state k) (k_params k) value2 in
    let params2 := vadd N (k_params k) updates2 in
    {| k_params := params2;
       k_updates := updates2;
       k_value := value2;
       k_rec := tl (k_rec k) ++ [value2];
       k_dx := vabs N (vsub N params2 (k_params k));
       k_du := vabs N (vsub N updates2 (k_updates k));
       k_df := n_abs N (n_sub N value2 (k_value k));
       k_state := state2 |}.

  (** [jnp.average(val_rec[:-1] - val_rec[1:])] (solver.py 173). *)
  Definition avg_improvement (rec : vec) : N :=
    let d := vsub N (removelast rec) (tl rec) in
    n_div N (vsum N d) (n_nat N (length d)).

  (** [continuing_criterion] (solver.py 162-214); printing omitted. *)
  Definition continuing (maxiter : nat) (fstop xstop gtol : N) (k : carry) : bool :=
    let iter_num := o_count opt (k_state k) in
    let err := vnorm N (o_grad opt (k_state k)) in
    let dx_norm := vnorm N (k_dx k) in
    let du_norm := vnorm N (k_du k) in
    (iter_num =? 0)
    || ((iter_num <? maxiter)
        && (gtol <?t err)
        && (fstop <?t avg_improvement (k_rec k))
        && ((xstop <?t dx_norm) || (xstop <?t du_norm) || (fstop <?t k_df k))).

  (** The tuple returned by [run_opt_optax] (solver.py 218-226). *)
  Record opt_out : Type := {
    r_x : vec; r_f : N; r_grad : vec; r_count : nat; r_dx : N; r_du : N; r_df : N
  }.

  (** solver.py 218-226. *)
  Definition pack_out (k : carry) : opt_out :=
    {| r_x := k_params k; r_f := k_value k;
       r_grad := o_grad opt (k_state k); r_count := o_count opt (k_state k);
       r_dx := vnorm N (k_dx k); r_du := vnorm N (k_du k); r_df := k_df k |}.

  (** [run_opt_optax] (solver.py 83-226) with its default [n_history = 10];
      [run_opt_lbfgs] (25-80) is this function at the L-BFGS optimiser.  The
      fuel bounds the while_loop of line 215. *)
  Definition run_opt (fuel : nat) (x0 : vec) (f : vec -> N) (maxiter : nat)
             (fstop xstop gtol : N) : option opt_out :=
    match while_fuel fuel (continuing maxiter fstop xstop gtol)
                     (fun k => Some (step f k)) (init_carry f x0 fstop 10) with
    | Some k => Some (pack_out k)
    | None => None
    end.

  (** Thresholding functions (solver.py 231-243); [gx] is the value [g_ineq(x)]
      and [scale] has its default 1. *)
  Definition gplus_hard (gx mu : vec) (c : N) : vec :=
    map2 (fun g m => n_max N g (n_div N (n_opp N m) c)) gx mu.
  (** solver.py 233-239. *)
  Definition gplus_elu (gx mu : vec) (c : N) : vec :=
    map2 (fun g m => let s := n_add N g (n_div N m c) in
                     if s <?t n_zero N
                     then n_sub N (n_div N (n_sub N (n_exp N (n_mul N (n_one N) s)) (n_one N)) (n_one N)) (n_div N m c)
                     else n_sub N s (n_div N m c)) gx mu.
  (** solver.py 241-243. *)
  Definition gplus_softplus (gx mu : vec) (c : N) : vec :=
    map2 (fun g m => let s := n_add N g (n_div N m c) in
                     n_sub N (n_div N (n_ln N (n_add N (n_one N) (n_exp N (n_mul N (n_one N) s)))) (n_one N)) (n_div N m c))
         gx mu.

  (** Parameters of [solve_constrained] (solver.py 245-278). *)
  Record problem : Type := {
    p_f : vec -> N; p_g : vec -> vec; p_h : vec -> vec;
    p_mask : vec -> vec -> N -> vec;   (* gplus_mask, applied to g(x), mu, c *)
    p_growth : N; p_csafe : N;
    p_xstop_outer : N; p_ctol : N;
    p_fstop : N; p_xstop : N; p_gtol : N;
    p_fstop_last : N; p_xstop_last : N; p_gtol_last : N;
    p_maxiter_tot : nat; p_maxiter_inner : nat
  }.

  (** The dictionary carried by the outer loop (solver.py 576-597, 599-620). *)
  Record dict : Type := {
    d_tot : nat; d_dx : N; d_df : N; d_dg : N; d_dh : N;
    d_f : N; d_g : vec; d_h : vec; d_x : vec;
    d_laug : N; d_gradl : N; d_c : N; d_lam : vec; d_mu : vec;
    d_niter : nat; d_dxs : N; d_du : N; d_dl : N; d_xunit : N
  }.

  Variable P : problem.

  (** [outer_convergence_criterion] (solver.py 404-452); True = continue. *)
  Definition outer_continue (d : dict) : bool :=
    (d_tot d =? 0)
    || ((d_tot d <? p_maxiter_tot P)
        && ((p_xstop_outer P <=?t d_dx d)
            || ((vany N (fun g => p_ctol P <=?t g) (d_g d)
                 || vany N (fun h => p_ctol P <=?t n_abs N h) (d_h d))
                && (d_c d <=?t p_csafe P)))).

  (** [l_k] (solver.py 476-484) as a function of the scaled unknown. *)
  Definition l_k (x_unit c : N) (lam mu : vec) (x : vec) : N :=
    let X := vmuls N x x_unit in
    let gp := p_mask P (p_g P X) mu c in
    n_add N (n_add N (n_add N (p_f P X)
                              (vdot N lam (p_h P X)))
                     (vdot N mu gp))
            (n_mul N (n_div N c (n_nat N 2))
                     (n_add N (vsum N (vmul N (p_h P X) (p_h P X)))
                              (vsum N (vmul N gp gp)))).

  (** [update_multiplier] (solver.py 505-513). *)
  Definition update_multiplier (g h : vec) (c : N) (niter : nat) : bool :=
    (vall N (fun v => v <?t p_ctol P) g && vall N (fun v => n_abs N v <?t p_ctol P) h)
    || (p_csafe P <=?t c)
    || (p_maxiter_inner P <=? niter).

  (** [body_fun_augmented_lagrangian] (solver.py 456-598), printing omitted.
      [jnp.linalg.norm] of the scalar [f_km1 - f_k] (517) is its absolute
      value. *)
  Definition body (fuel : nat) (fstop xstop gtol : N) (d : dict) : option dict :=
    match run_opt fuel (vdivs N (d_x d) (d_xunit d))
                  (l_k (d_xunit d) (d_c d) (d_lam d) (d_mu d))
                  (p_maxiter_inner P) fstop xstop gtol with
    | None => None
    | Some r =>
        let x_k := vmuls N (r_x r) (d_xunit d) in
        let x_norm := vnorm N x_k in
        let x_unit_new := if n_neb N x_norm (n_zero N) then x_norm else n_one N in
        let f_k := p_f P x_k in
        let g_k := p_g P x_k in
        let h_k := p_h P x_k in
        let gp_k := p_mask P (p_g P x_k) (d_mu d) (d_c d) in
        let c_new := if update_multiplier g_k h_k (d_c d) (r_count r) then d_c d
                     else n_mul N (d_c d) (p_growth P) in
        Some {| d_tot := d_tot d + r_count r;
                d_dx := vnorm N (vsub N x_k (d_x d));
                d_df := n_abs N (n_sub N (d_f d) f_k);
                d_dg := vnorm N (vsub N (d_g d) g_k);
                d_dh := vnorm N (vsub N (d_h d) h_k);
                d_f := f_k; d_g := g_k; d_h := h_k; d_x := x_k;
                d_laug := r_f r;
                d_gradl := vnorm N (r_grad r);
                d_c := c_new;
                d_lam := vadd N (d_lam d) (vscale N (d_c d) h_k);
                d_mu := vadd N (d_mu d) (vscale N (d_c d) gp_k);
                d_niter := r_count r;
                d_dxs := r_dx r; d_du := r_du r; d_dl := r_df r;
                d_xunit := x_unit_new |}
    end.

  (** [init_dict] (solver.py 599-620). *)
  Definition init_dict (x0 : vec) (c0 : N) (lam0 mu0 : vec) : dict :=
    {| d_tot := 0; d_dx := n_zero N; d_df := n_zero N; d_dg := n_zero N; d_dh := n_zero N;
       d_f := p_f P x0; d_g := p_g P x0; d_h := p_h P x0; d_x := x0;
       d_laug := n_zero N; d_gradl := n_zero N; d_c := c0; d_lam := lam0; d_mu := mu0;
       d_niter := 0; d_dxs := n_zero N; d_du := n_zero N; d_dl := n_zero N;
       d_xunit := n_one N |}.

  (** The main loop of [solve_constrained] (solver.py 622-626). *)
  Definition main_loop (fuel_out fuel_in : nat) (d : dict) : option dict :=
    while_fuel fuel_out outer_continue
               (body fuel_in (p_fstop P) (p_xstop P) (p_gtol P)) d.

  (** The last pass (solver.py 628-633). *)
  Definition last_pass (fuel_in : nat) (d : dict) : option dict :=
    body fuel_in (p_fstop_last P) (p_xstop_last P) (p_gtol_last P) d.

  (** [solve_constrained] (solver.py 245-634). *)
  Definition solve_constrained (fuel_out fuel_in : nat) (x0 : vec) (c0 : N) (lam0 mu0 : vec)
    : option dict :=
    match main_loop fuel_out fuel_in (init_dict x0 c0 lam0 mu0) with
    | None => None
    | Some d => last_pass fuel_in d
    end.
End Solver.
