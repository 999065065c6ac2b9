(** The quantities of the package with their implementations: the names of
    ModelShipped resolved to the functions of ModelField and ModelForce, and the
    normalisation constants of the DESC interface.  No proofs here. *)
From Coq Require Import String List Bool Arith ZArith Reals.
From Verif Require Import Base ModelArray ModelMath ModelSurface ModelParams ModelField ModelForce
  ModelQuantity ModelWrapper ModelShipped.
Import ListNotations.
Open Scope R_scope.
Open Scope string_scope.
Open Scope list_scope.

(** A grid of numbers as an array of shape (n phi, n theta); rows have equal
    lengths in every use (quantity/current.py 58-59, dipole.py 23). *)
Definition of_grid (g : grid R) : arr := Arr [length g; length (hd [] g)] (concat g).
(** A grid of three-vectors as an array of shape (n phi, n theta, 3)
    (quantity/current.py 54, curvature.py 40, magnetic_field.py 34, force.py 167). *)
Definition of_grid3 (g : grid vec3) : arr :=
  Arr [length g; length (hd [] g); 3%nat] (flat_map (fun v => [vx v; vy v; vz v]) (concat g)).

(** [dofs['phi']] as a list of coefficients (quantity/current.py 10, dipole.py
    13, curvature.py 10, force.py 15).  An array that is not one-dimensional is
    taken row by row. *)
Definition coefficients (d : dofs) : result (list R) := bind (getitem d "phi") (fun a => Ok (el a)).

(** magnetic_field.py 45, [_Bnormal2]. *)
Definition Bnormal2 (q : params) (x : list R) : result (grid R) :=
  bind (Bnormal q x) (fun b => Ok (gmap (fun y => y * y) b)).

(** The implementations by their Python name (current.py 9-103, dipole.py
    10-41, curvature.py 9-47, magnetic_field.py 9-62, force.py 116-168); a name
    that is not defined raises NameError. *)
Definition implementation (name : string) : field params := fun q d =>
  bind (coefficients d) (fun x =>
  let field2 g := bind g (fun v => Ok (of_grid v)) in
  let field3 g := bind g (fun v => Ok (of_grid3 v)) in
  let number r := bind r (fun v => Ok (scal v)) in
  if String.eqb name "_K" then field3 (K q x OnEval)
  else if String.eqb name "_K2" then field2 (K2 q x)
  else if String.eqb name "_K_theta" then field2 (K_theta q x)
  else if String.eqb name "_f_K" then number (f_K q x)
  else if String.eqb name "_K_dot_grad_K" then field3 (K_dot_grad_K q x)
  else if String.eqb name "_K_dot_grad_K_cyl" then field3 (K_dot_grad_K_cyl q x)
  else if String.eqb name "_winding_surface_B" then field3 (winding_surface_B q x)
  else if String.eqb name "_Bnormal" then field2 (Bnormal q x)
  else if String.eqb name "_Bnormal2" then field2 (Bnormal2 q x)
  else if String.eqb name "_f_B" then number (f_B q x)
  else if String.eqb name "_f_B_normalized_by_Bnormal_IG" then number (f_B_normalized q x)
  else if String.eqb name "_force_cyl" then field3 (force_cyl q x)
  else if String.eqb name "_Phi" then field2 (Phi q x)
  else if String.eqb name "_Phi_with_net_current" then field2 (Phi_with_net_current q x)
  else if String.eqb name "_Phi2" then field2 (Phi2 q x)
  else if String.eqb name "_f_Phi" then number (f_Phi q x)
  else Raise NameError).

(** [qp.eval_surface.da()] (quantity/quantity.py 480, 496, 566, 578, 589); a
    surface on which it raises gives the empty array here. *)
Definition params_da (q : params) : arr :=
  match da (q_eval q) with Ok g => of_grid g | Raise _ => Arr [0%nat] [] end.

(** quadcoil.quantity with its quantities (quantity/__init__.py 1-8); [other]
    lists the remaining public names. *)
Definition package (other : list string) : namespace params :=
  package_namespace params params_da (fun q => INR (q_nfp q)) q_stellsym implementation other.

(** The entries of the dictionary of scales that are read: magnetic field, minor
    and major radius (current.py 55, 104, dipole.py 24; DESC's compute_scaling_factors). *)
Record scales : Type := Scales { sc_B : R; sc_a : R; sc_R0 : R }.

Section Units.
  (** scipy.constants.mu_0 (current.py 4): a positive number. *)
  Variable mu_0 : R.
  (** current.py 55, [_K_desc_unit]. *)
  Definition K_unit (s : scales) : R := sc_B s / mu_0.
  (** dipole.py 24, [_Phi_desc_unit]. *)
  Definition Phi_unit (s : scales) : R := K_unit s * sc_a s.
  (** force.py 517, [_force_desc_unit]. *)
  Definition force_unit (s : scales) : R := sc_B s * K_unit s * (sc_a s * sc_a s).
  (** The attribute [desc_unit] of each quantity, by its name (current.py 60,
      104-105, 117-162; curvature.py 42, 55-77; magnetic_field.py 35, 52, 67-116;
      force.py 517-547; dipole.py 42-47, 52-113). *)
  Definition desc_unit (name : string) : option (scales -> R) :=
    lookup name
    [ ("K", K_unit);
      ("K2", fun s => K_unit s * K_unit s);
      ("f_max_K2", fun s => K_unit s * K_unit s);
      ("f_huber_K", fun s => K_unit s * sc_R0 s * sc_a s);
      ("K_theta", K_unit);
      ("f_K", fun s => K_unit s * K_unit s * sc_R0 s * sc_a s);
      ("K_dot_grad_K", fun s => K_unit s * K_unit s / sc_a s);
      ("K_dot_grad_K_cyl", fun s => K_unit s * K_unit s / sc_a s);
      ("f_max_K_dot_grad_K_cyl", fun s => K_unit s * K_unit s / sc_a s);
      ("winding_surface_B", sc_B);
      ("Bnormal", sc_B);
      ("Bnormal2", fun s => sc_B s * sc_B s);
      ("f_B", fun s => sc_B s * sc_B s * sc_R0 s * sc_a s);
      ("f_B_normalized_by_Bnormal_IG", fun _ => 1);
      ("f_max_Bnormal", sc_B);
      ("f_max_Bnormal2", fun s => sc_B s * sc_B s);
      ("f_max_force_cyl", force_unit);
      ("f_l1_force_cyl", fun s => force_unit s * sc_R0 s * sc_a s);
      ("f_max_force2_cyl", fun s => force_unit s * force_unit s);
      ("Phi", Phi_unit);
      ("Phi_with_net_current", Phi_unit);
      ("Phi2", fun s => Phi_unit s * Phi_unit s);
      ("f_max_Phi", Phi_unit);
      ("f_max_Phi2", fun s => Phi_unit s * Phi_unit s);
      ("f_max_Phi4", fun s => Phi_unit s * Phi_unit s * (Phi_unit s * Phi_unit s));
      ("f_l1_Phi", fun s => Phi_unit s * sc_R0 s * sc_a s);
      ("f_Phi", fun s => Phi_unit s * Phi_unit s * sc_R0 s * sc_a s) ].
End Units.

(** The second argument of [__call__] as a user may give it: a dictionary, or
    the coefficient array itself (quantity/quantity.py 195, docs/quantity.rst 26-37). *)
Inductive call_arg : Type := ADict (d : dofs) | AArray (a : arr).
(** quantity/quantity.py 194-207, [__call__] on either: [dofs['phi']] of an
    array raises TypeError (a JAX array cannot be indexed by a string). *)
Definition call_any (Q : quantity params) (q : params) (a : call_arg) : result arr :=
  match a with ADict d => call Q q d | AArray _ => Raise TypeError end.
