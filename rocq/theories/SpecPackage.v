(** Vocabulary for the statements about the package as a whole. *)
From Coq Require Import String List Bool Arith ZArith Reals.
From Verif Require Import Base ModelArray ModelMath ModelSurface SpecSurface ModelParams ModelField SpecField
  ModelQuantity ModelWrapper ModelPackage.
Import ListNotations.
Open Scope R_scope.
Open Scope string_scope.
Open Scope list_scope.

(** The list of available quantities of docs/quantity.rst with the output shape
    given there. *)
Inductive shape_kind : Type := PlasmaVector | PlasmaField | CoilVector | CoilField | Number.
Definition documented : list (string * shape_kind) :=
  [ ("winding_surface_B", PlasmaVector); ("Bnormal", PlasmaField); ("f_B", Number);
    ("f_B_normalized_by_Bnormal_IG", Number); ("f_max_Bnormal_abs", Number); ("f_max_Bnormal2", Number);
    ("K", CoilVector); ("K2", CoilField); ("K_theta", CoilField); ("f_K", Number); ("f_max_K2", Number);
    ("K_dot_grad_K", CoilVector); ("K_dot_grad_K_cyl", CoilVector); ("f_max_K_dot_grad_K_cyl", Number);
    ("Phi", CoilField); ("Phi_abs", CoilField); ("Phi2", CoilField); ("Phi_with_net_current", CoilField);
    ("f_max_Phi", Number); ("f_l1_Phi", Number); ("f_max_Phi2", Number) ].
(** The array shape meant by a kind. *)
Definition shape_of (q : params) (k : shape_kind) : list nat :=
  match k with
  | PlasmaVector => [length (s_qphi (q_plasma q)); length (s_qtheta (q_plasma q)); 3%nat]
  | PlasmaField => [length (s_qphi (q_plasma q)); length (s_qtheta (q_plasma q))]
  | CoilVector => [length (q_qphi q); length (q_qtheta q); 3%nat]
  | CoilField => [length (q_qphi q); length (q_qtheta q)]
  | Number => []
  end.
(** Quantities outside the documented list. *)
Definition undocumented : list (string * shape_kind) :=
  [ ("f_huber_K", Number); ("Bnormal2", PlasmaField); ("f_max_Bnormal", Number); ("f_max_force_cyl", Number);
    ("f_l1_force_cyl", Number); ("f_max_force2_cyl", Number); ("f_max_Phi4", Number); ("f_Phi", Number) ].

(** The value of a quantity at the coefficients [x]. *)
Definition value_of (Q : quantity params) (q : params) (x : list R) : result arr :=
  call Q q [("phi", Arr [length x] x)].

(** A sound problem and coefficient vector. *)
Definition sound (q : params) (x : list R) : Prop :=
  made q /\ legal (q_winding q) /\ legal (q_plasma q) /\ plasma_shaped q /\ length x = q_ndofs q.

(** The same configuration with all lengths multiplied by [c] and all fields by
    [b], hence all currents by [c * b]. *)
Definition rescaled (c b : R) (q q' : params) : Prop :=
  resized c (q_plasma q) (q_plasma q') /\ resized c (q_winding q) (q_winding q') /\
  q_G q' = c * b * q_G q /\ q_I q' = c * b * q_I q /\ q_stellsym q' = q_stellsym q /\
  q_mpol q' = q_mpol q /\ q_ntor q' = q_ntor q /\ q_qphi q' = q_qphi q /\ q_qtheta q' = q_qtheta q /\
  q_Bnormal q' = map (map (Rmult b)) (q_Bnormal q).
(** What DESC's scales become. *)
Definition rescaled_scales (c b : R) (s : scales) : scales := Scales (b * sc_B s) (c * sc_a s) (c * sc_R0 s).

(** What a quantity reports in DESC units, before and after the change of units:
    arrays of the same shape, the entries of the second [k] times those of the first. *)
Definition in_units (k mu_0 : R) (other : list string) (name : string) (s : scales) (c b : R) (q q' : params) (x : list R) : Prop :=
  exists Q u v v',
    get_quantity (package other) name = Ok Q /\ desc_unit mu_0 name = Some u /\
    value_of Q q x = Ok v /\ value_of Q q' (map (Rmult (c * b)) x) = Ok v' /\ sh v' = sh v /\
    map (fun y => y / u (rescaled_scales c b s)) (el v') = map (fun y => k * (y / u s)) (el v).
(** The value in DESC units does not depend on the units of length and field. *)
Definition dimensionless (mu_0 : R) (other : list string) (name : string) : Prop :=
  forall s c b q q' x, 0 < sc_B s -> 0 < sc_a s -> 0 < sc_R0 s -> 0 < c -> 0 < b ->
    sound q x -> made q' -> rescaled c b q q' -> in_units 1 mu_0 other name s c b q q' x.

(** The unit chosen when the user gives none: the value at vanishing coefficients. *)
Definition automatic_unit (other : list string) (name : string) (q : params) (u : arr) : Prop :=
  exists Q uc, get_quantity (package other) name = Ok Q /\ unit_callable q_ndofs Q UNone = Ok uc /\ uc q = Ok u.

(** The package has a quantity [name] and it returns [v] at the coefficients [x]. *)
Definition reads (other : list string) (name : string) (q : params) (x : list R) (v : arr) : Prop :=
  exists Q, get_quantity (package other) name = Ok Q /\ value_of Q q x = Ok v.
