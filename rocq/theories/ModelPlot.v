(** Model of src/quadcoil/plotting.py over the reals: which function a plot
    shows, on which values, and the content of the VTK files.  Drawing itself
    is not modelled.  No proofs here. *)
From Coq Require Import String List Bool Arith ZArith Reals.
From Verif Require Import Base ModelArray ModelMath ModelQuantity ModelWrapper ModelSurface ModelParams ModelQuadcoil.
Import ListNotations.
Open Scope R_scope.
Open Scope string_scope.
Open Scope list_scope.

(** [np.linspace(a, b, n)] (plotting.py 55-56). *)
Definition linspace_closed (a b : R) (n : nat) : list R :=
  match n with
  | 1%nat => [a]
  | _ => map (fun i => a + INR i * ((b - a) / INR (n - 1))) (seq 0 n)
  end.
(** [l[0]] of a Python list (plotting.py 68, 70). *)
Definition first {A} (l : list A) : result A := match l with [] => Raise IndexError | x :: _ => Ok x end.
(** [phi.at[i].set(v)] (plotting.py 75); an index out of range has no effect. *)
Fixpoint set_at (l : list R) (i : nat) (v : R) : list R :=
  match l, i with
  | [], _ => []
  | _ :: l, O => v :: l
  | x :: l, S i => x :: set_at l i v
  end.

(** What one call of [plot_quantity] draws (plotting.py 92-123): the axes, the
    values and whether the curve of value 0 is marked. *)
Record panel : Type := Panel { pn_name : string; pn_x : list R; pn_y : list R; pn_z : list (list R); pn_constraint : bool }.
(** The argument [objective_name] of [plot_quadcoil] (plotting.py 128): a name,
    or a tuple of names as [quadcoil] takes it. *)
Inductive objective_names : Type := OneName (name : string) | Names (names : list string).

Section Plot.
  (** The quantities and parameter objects. *)
  Variable P : Type.
  Variable qp_ndofs : P -> nat.
  Variable ns : namespace P.

  (** [get_quantity(name)(qp, dofs)/unit] (plotting.py 72): dividing by anything
      but a number raises TypeError. *)
  Definition divide_by (v : arr) (unit : unit_arg) : result arr :=
    match unit with UScalar u => op2 Rdiv v (scal u) | _ => Raise TypeError end.
  (** plotting.py 58-72: the function to plot.  [constraint_value] None is only
      noticed after parsing (82-84).  The smoothing width is 1e-10. *)
  Definition plot_function (name : string) (unit : unit_arg) (constraint_mode : bool) (constraint_type : string)
      (constraint_value : R) : result (callable P) :=
    if constraint_mode then
      bind (parse_constraints qp_ndofs ns [name] [constraint_type] [unit] [constraint_value]
              (Some "approx") [("lse_epsilon", / 10 ^ 10)]) (fun p =>
      if String.eqb constraint_type "=" then first (p_h p) else first (p_g p))
    else Ok (fun qp d => bind (get_quantity ns name) (fun q => bind (call q qp d) (fun v => divide_by v unit))).

  (** plotting.py 74-78, [eval_f]. *)
  Definition plot_eval (f : callable P) (qp : P) (d : dofs) (i_phi j_phi : nat) (vi vj : R) : result arr :=
    bind (getitem d "phi") (fun phi =>
    f qp (dict_set d "phi" (Arr (sh phi) (set_at (set_at (el phi) i_phi vi) j_phi vj)))).
  (** A list of results, the first error winning (vmap, plotting.py 81, 87). *)
  Fixpoint all_ok {A} (l : list (result A)) : result (list A) :=
    match l with [] => Ok [] | r :: l => bind r (fun x => bind (all_ok l) (fun xs => Ok (x :: xs))) end.
  (** plotting.py 7-90: the axes and the values plotted; row [i] belongs to the
      i-th value of phi[i_phi].  Indexing past the end clamps. *)
  Definition plot_quantity (name : string) (qp : P) (d : dofs) (i_phi j_phi : nat) (i_range j_range : R) (unit : unit_arg)
      (ngrid : nat) (constraint_mode : bool) (constraint_type : string) (constraint_value : option R)
      : result (list R * list R * list (list arr)) :=
    bind (getitem d "phi") (fun phi0 =>
    bind (getclamp (el phi0) i_phi) (fun phi_i0 =>
    bind (getclamp (el phi0) j_phi) (fun phi_j0 =>
    let xs := linspace_closed ((1 - i_range) * phi_i0) ((1 + i_range) * phi_i0) ngrid in
    let ys := linspace_closed ((1 - j_range) * phi_j0) ((1 + j_range) * phi_j0) ngrid in
    bind (plot_function name unit constraint_mode constraint_type
            (match constraint_value with Some v => v | None => 0 end)) (fun f =>
    bind (match constraint_mode, constraint_value with true, None => Raise AttributeError | _, _ => Ok tt end) (fun _ =>
    bind (all_ok (map (fun x => all_ok (map (fun y => plot_eval f qp d i_phi j_phi x y) ys)) xs)) (fun Z =>
    Ok (xs, ys, Z))))))).

  (** [plt.contour] (plotting.py 94-99, 107): the values must form a
      two-dimensional array with at least two rows and columns, else TypeError. *)
  Definition contour (Z : list (list arr)) : result (list (list R)) :=
    if Nat.ltb (length Z) 2 then Raise TypeError
    else if forallb (forallb (fun a => match sh a with [] => true | _ => false end)) Z
    then Ok (map (map (fun a => hd 0 (el a))) Z) else Raise TypeError.
  (** plotting.py 92-123: what a call of [plot_quantity] draws.  Colours, labels,
      shading and the legend are left out. *)
  Definition plot_panel (name : string) (qp : P) (d : dofs) (i_phi j_phi : nat) (i_range j_range : R) (unit : unit_arg)
      (ngrid : nat) (constraint_mode : bool) (constraint_type : string) (constraint_value : option R) (plot_contours : bool)
      : result panel :=
    bind (plot_quantity name qp d i_phi j_phi i_range j_range unit ngrid constraint_mode constraint_type constraint_value) (fun r =>
    let '(xs, ys, Z) := r in
    if plot_contours || constraint_mode then bind (contour Z) (fun z => Ok (Panel name xs ys z constraint_mode))
    else Ok (Panel name xs ys [] false)).

  (** plotting.py 147-158: the loop over the constraints.  The number of grid
      points is the default of [plot_quantity], 100 (line 12). *)
  Fixpoint plot_constraints (qp : P) (d : dofs) (i_phi j_phi : nat) (i_range j_range : R)
      (names types : list string) (units : list unit_arg) (values : list R) : result (list panel) :=
    match names with
    | [] => Ok []
    | name :: names =>
        match types, units, values with
        | t :: types, u :: units, v :: values =>
            bind (plot_panel name qp d i_phi j_phi i_range j_range u 100 true t (Some v) false) (fun p =>
            bind (plot_constraints qp d i_phi j_phi i_range j_range names types units values) (fun ps => Ok (p :: ps)))
        | _, _, _ => Raise IndexError
        end
    end.
  (** plotting.py 126-160, [plot_quadcoil]: the panels drawn, the objective first.
      [get_quantity] of a tuple raises TypeError.  The extra keyword arguments
      [kwargs] are accepted and not used. *)
  Definition plot_quadcoil (qp : P) (d : dofs) (objective_name : objective_names) (objective_unit : unit_arg)
      (names types : list string) (units : list unit_arg) (values : list R) (i_phi j_phi : nat) (i_range j_range : R)
      (kwargs : ModelArray.dict R) : result (list panel) :=
    bind (match objective_name with
          | OneName name => plot_panel name qp d i_phi j_phi i_range j_range objective_unit 100 false "" None true
          | Names _ => bind (getitem d "phi") (fun phi => bind (getclamp (el phi) i_phi) (fun _ => bind (getclamp (el phi) j_phi) (fun _ => Raise TypeError)))
          end) (fun p =>
    bind (plot_constraints qp d i_phi j_phi i_range j_range names types units values) (fun ps => Ok (p :: ps))).
End Plot.

(** ** VTK files *)
(** A structured grid as saved by pyvista (plotting.py 183-188): name of the
    file, dimensions, points and values attached to them in storage order. *)
Record vtk_file (A : Type) : Type := VtkFile {
  vt_name : string; vt_dims : nat * nat * nat; vt_points : list vec3; vt_data : list A }.
Arguments VtkFile {A}. Arguments vt_name {A}. Arguments vt_dims {A}. Arguments vt_points {A}. Arguments vt_data {A}.
(** plotting.py 167-168, 195-196, 226-227. *)
Definition vts_name (name : string) : string :=
  let n := String.length name in
  if String.eqb (String.substring (n - 4) 4 name) ".vts" then name else String.append name ".vts".
(** Number of columns of an array given by its rows ([x.shape[1]]) (plotting.py 185, 247). *)
Definition ncols {A} (g : grid A) : nat := match g with [] => 0%nat | r :: _ => length r end.
(** [grid.dimensions = ...] (plotting.py 185): pyvista rejects dimensions that
    do not match the number of points, and an array attached to the points must
    have as many entries (216, 250): ValueError. *)
Definition structured_grid {A} (name : string) (dims : nat * nat * nat) (points : list vec3) (data : option (list A))
    : result (vtk_file A) :=
  let '(a, b, c) := dims in
  if negb (Nat.eqb (a * b * c) (length points)) then Raise ValueError
  else match data with
  | None => Ok (VtkFile name dims points [])
  | Some d => if Nat.eqb (length d) (length points) then Ok (VtkFile name dims points d) else Raise ValueError
  end.
(** plotting.py 162-188, [gamma_to_vtk], with pyvista installed. *)
Definition gamma_to_vtk (gamma : grid vec3) (name : string) : result (vtk_file unit) :=
  structured_grid (vts_name name) (ncols gamma, length gamma, 1%nat) (concat gamma) None.
(** plotting.py 190-219, [gamma_and_field_to_vtk]. *)
Definition gamma_and_field_to_vtk (gamma f : grid vec3) (name : string) : result (vtk_file vec3) :=
  structured_grid (vts_name name) (length gamma, ncols gamma, 1%nat) (concat gamma) (Some (concat f)).
(** plotting.py 221-253, [gamma_and_scalar_field_to_vtk]. *)
Definition gamma_and_scalar_field_to_vtk (gamma : grid vec3) (f : grid R) (name : string) : result (vtk_file R) :=
  structured_grid (vts_name name) (ncols gamma, length gamma, 1%nat) (concat gamma) (Some (concat f)).
