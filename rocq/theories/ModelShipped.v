(** The quantities defined by the package, in the order in which
    src/quadcoil/quantity/__init__.py imports them.  No proofs here.

    The fields themselves (_K, _Phi, ...) are modelled elsewhere; here they are
    parameters, because the construction of a quantity does not evaluate them.
    regularization.py is not imported by __init__.py and is left out. *)
From Coq Require Import String List Bool Arith ZArith Reals.
From Verif Require Import Base ModelArray ModelMath ModelQuantity ModelWrapper.
Import ListNotations.
Open Scope string_scope.
Open Scope list_scope.

Section Shipped.
  Variable P : Type.
  Variable qp_da : P -> arr.
  Variable qp_nfp : P -> R.
  Variable qp_stellsym : P -> bool.
  (** The implementations, by their Python name. *)
  Variable F : string -> field P.

  (** Short name for _Quantity.generate_c2 (quantity.py 265-277). *)
  Notation c2 f l := (generate_c2 (F f) l).
  (** Short name for _Quantity.generate_linf_norm (quantity.py 279-365). *)
  Notation linf f aux pd sq au := (generate_linf_norm P qp_stellsym (F f) aux pd sq au).

  (** The quantities defined at import by the files named in the list, in the order of quantity/__init__.py 1-8. *)
  Definition shipped : list (string * quantity_args P) :=
  [ (* current.py 117-162 *)
    ("K", c2 "_K" ["<="; ">="]);
    ("K2", c2 "_K2" ["<="]);
    ("f_max_K2", linf "_K2" "scaled_max_K2_f_max_K2" false false true);
    ("f_huber_K", generate_huber P qp_da qp_nfp (F "_K"));
    ("K_theta", c2 "_K_theta" ["<="; ">="]);
    ("f_K", c2 "_f_K" ["f"; "<="]);
    (* curvature.py 55-77 *)
    ("K_dot_grad_K", c2 "_K_dot_grad_K" ["<="; ">="; "=="]);
    ("K_dot_grad_K_cyl", c2 "_K_dot_grad_K_cyl" ["<="; ">="]);
    ("f_max_K_dot_grad_K_cyl", linf "_K_dot_grad_K_cyl" "max_KK_cyl" false false true);
    (* magnetic_field.py 67-116 *)
    ("winding_surface_B", c2 "_winding_surface_B" ["<="; ">="]);
    ("Bnormal", c2 "_Bnormal" ["<="; ">="]);
    ("Bnormal2", c2 "_Bnormal2" ["<="]);
    ("f_B", c2 "_f_B" ["f"; "<="]);
    ("f_B_normalized_by_Bnormal_IG", c2 "_f_B_normalized_by_Bnormal_IG" ["f"; "<="]);
    ("f_max_Bnormal", linf "_Bnormal" "scaled max Bnormal" false false false);
    ("f_max_Bnormal2", linf "_Bnormal2" "scaled max Bnormal2" true false false);
    (* force.py 523-547 *)
    ("f_max_force_cyl", linf "_force_cyl" "max_force_cyl" false false true);
    ("f_l1_force_cyl",
       generate_l1_norm P qp_da qp_nfp qp_stellsym (F "_force_cyl") "l1_force_cyl" false false true);
    ("f_max_force2_cyl", linf "_force_cyl" "max_force2_cyl" false true true);
    (* dipole.py 52-113 *)
    ("Phi", c2 "_Phi" ["<="; ">="]);
    ("Phi_with_net_current", c2 "_Phi_with_net_current" ["<="; ">="]);
    ("Phi2", c2 "_Phi2" ["<="]);
    ("f_max_Phi", linf "_Phi" "scaled_max_Phi" false false true);
    ("f_max_Phi2", linf "_Phi" "scaled_max_Phi_f_max_Phi2" false true true);
    ("f_max_Phi4", generate_linf_norm_4 (F "_Phi") "scaled_max_Phi2_f_max_Phi4");
    ("f_l1_Phi",
       generate_l1_norm P qp_da qp_nfp qp_stellsym (F "_Phi") "scaled_abs_Phi" false false true);
    ("f_Phi", c2 "_f_Phi" ["f"; "<="]) ].

  (** Executing a sequence of definitions (module bodies run top to bottom;
      the registry is a class attribute, quantity.py 144). *)
  Fixpoint define_all (reg : list string) (defs : list (string * quantity_args P))
    : list string * list (string * result (quantity P)) :=
    match defs with
    | [] => (reg, [])
    | (n, a) :: defs =>
        let (reg, r) := init_quantity reg a in
        let (reg, rs) := define_all reg defs in
        (reg, (n, r) :: rs)
    end.

  (** The namespace of quadcoil.quantity after the import; [other] lists the
      remaining public names (jnp, jit, ...) (quantity/__init__.py 1-8). *)
  Definition package_namespace (other : list string) : namespace P := fun name =>
    match lookup name (snd (define_all [] shipped)) with
    | Some (Ok q) => Some (AQuantity q)
    | Some (Raise _) => None
    | None => if mem name other then Some AOther else None
    end.
End Shipped.
Arguments define_all {P} _ _.
