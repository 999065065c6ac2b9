(** Vocabulary for the statements about the function quadcoil. *)
From Coq Require Import String List Bool Arith ZArith Reals Lra.
From Coquelicot Require Import Coquelicot.
From Verif Require Import Base ModelArray ModelMath ModelQuantity ModelWrapper ModelSurface ModelParams
  ModelSolver ModelQuadcoil SpecMath SpecSurface.
Import ListNotations.
Open Scope R_scope.
Open Scope string_scope.
Open Scope list_scope.

(** ** Arguments *)
(** A single objective, or a tuple of names with an array of as many weights
    and as many units. *)
Definition good_objective (name : names_arg) (weight : weight_arg) (units : units_arg) : Prop :=
  (exists s, name = NStr s) \/
  (exists names w us, name = NTuple names /\ weight = WArr w /\ length (sh w) = 1%nat /\ units = UsSeq us /\
     length (el w) = length names /\ length us = length names).
(** Four sequences of one length, the first two of them tuples. *)
Definition good_constraints (name type : names_arg) (units : units_arg) (vals : values_arg) : Prop :=
  exists names types us vs, name = NTuple names /\ type = NTuple types /\ units = UsSeq us /\ vals = VSeq vs /\
    length types = length names /\ length us = length names /\ length vs = length names.
(** Exactly one way of giving the winding surface. *)
Definition one_winding {L} (a : args L) : Prop :=
  (qc_distance a = None /\ exists w, qc_winding_dofs a = Some w) \/
  (qc_winding_dofs a = None /\ exists d, qc_distance a = Some d).

(** The inputs with respect to which a call is differentiated, with the shape
    of their gradients. *)
Inductive in_use {L} (a : args L) : string -> list nat -> Prop :=
| use_plasma : in_use a "plasma_dofs" [length (qc_plasma_dofs a)]
| use_G : in_use a "net_poloidal_current_amperes" []
| use_I : in_use a "net_toroidal_current_amperes" []
| use_Bnormal : forall b, qc_Bnormal a = Some b -> in_use a "Bnormal_plasma" (sh b)
| use_weight : forall names w, qc_objective_name a = NTuple names -> qc_objective_weight a = WArr w ->
    in_use a "objective_weight" [length (el w)]
| use_value : forall names vs, qc_constraint_name a = NTuple names -> names <> [] ->
    qc_constraint_value a = VSeq vs -> in_use a "constraint_value" [length vs]
| use_winding : forall w, qc_distance a = None -> qc_winding_dofs a = Some w -> in_use a "winding_dofs" [length w]
| use_distance : forall d, qc_distance a = Some d -> in_use a "plasma_coil_distance" [].

(** The same call with another choice of one option. *)
Definition with_value_only {L} (a : args L) (b : bool) : args L :=
  {| qc_nfp := qc_nfp a; qc_stellsym := qc_stellsym a; qc_plasma_mpol := qc_plasma_mpol a;
     qc_plasma_ntor := qc_plasma_ntor a; qc_plasma_dofs := qc_plasma_dofs a; qc_G := qc_G a; qc_I := qc_I a;
     qc_mpol := qc_mpol a; qc_ntor := qc_ntor a; qc_qphi := qc_qphi a; qc_qtheta := qc_qtheta a;
     qc_phi_init := qc_phi_init a; qc_phi_unit := qc_phi_unit a; qc_plasma_stellsym := qc_plasma_stellsym a;
     qc_plasma_qphi := qc_plasma_qphi a; qc_plasma_qtheta := qc_plasma_qtheta a; qc_Bnormal := qc_Bnormal a;
     qc_distance := qc_distance a; qc_generator := qc_generator a; qc_winding_dofs := qc_winding_dofs a;
     qc_winding_mpol := qc_winding_mpol a; qc_winding_ntor := qc_winding_ntor a;
     qc_winding_qphi := qc_winding_qphi a; qc_winding_qtheta := qc_winding_qtheta a;
     qc_winding_stellsym := qc_winding_stellsym a; qc_objective_name := qc_objective_name a;
     qc_objective_weight := qc_objective_weight a; qc_objective_unit := qc_objective_unit a;
     qc_constraint_name := qc_constraint_name a; qc_constraint_type := qc_constraint_type a;
     qc_constraint_unit := qc_constraint_unit a; qc_constraint_value := qc_constraint_value a;
     qc_metric_name := qc_metric_name a; qc_value_only := b; qc_smoothing := qc_smoothing a;
     qc_smoothing_params := qc_smoothing_params a; qc_verbose := qc_verbose a; qc_merge := qc_merge a;
     qc_c_init := qc_c_init a; qc_c_growth := qc_c_growth a; qc_tol := qc_tol a;
     qc_maxiter_tot := qc_maxiter_tot a; qc_maxiter_inner := qc_maxiter_inner a;
     qc_gplus_mask := qc_gplus_mask a; qc_linear_solver := qc_linear_solver a |}.
Definition with_options {L} (a : args L) (m : mask) (ls : option L) : args L :=
  {| qc_nfp := qc_nfp a; qc_stellsym := qc_stellsym a; qc_plasma_mpol := qc_plasma_mpol a;
     qc_plasma_ntor := qc_plasma_ntor a; qc_plasma_dofs := qc_plasma_dofs a; qc_G := qc_G a; qc_I := qc_I a;
     qc_mpol := qc_mpol a; qc_ntor := qc_ntor a; qc_qphi := qc_qphi a; qc_qtheta := qc_qtheta a;
     qc_phi_init := qc_phi_init a; qc_phi_unit := qc_phi_unit a; qc_plasma_stellsym := qc_plasma_stellsym a;
     qc_plasma_qphi := qc_plasma_qphi a; qc_plasma_qtheta := qc_plasma_qtheta a; qc_Bnormal := qc_Bnormal a;
     qc_distance := qc_distance a; qc_generator := qc_generator a; qc_winding_dofs := qc_winding_dofs a;
     qc_winding_mpol := qc_winding_mpol a; qc_winding_ntor := qc_winding_ntor a;
     qc_winding_qphi := qc_winding_qphi a; qc_winding_qtheta := qc_winding_qtheta a;
     qc_winding_stellsym := qc_winding_stellsym a; qc_objective_name := qc_objective_name a;
     qc_objective_weight := qc_objective_weight a; qc_objective_unit := qc_objective_unit a;
     qc_constraint_name := qc_constraint_name a; qc_constraint_type := qc_constraint_type a;
     qc_constraint_unit := qc_constraint_unit a; qc_constraint_value := qc_constraint_value a;
     qc_metric_name := qc_metric_name a; qc_value_only := qc_value_only a; qc_smoothing := qc_smoothing a;
     qc_smoothing_params := qc_smoothing_params a; qc_verbose := qc_verbose a; qc_merge := qc_merge a;
     qc_c_init := qc_c_init a; qc_c_growth := qc_c_growth a; qc_tol := qc_tol a;
     qc_maxiter_tot := qc_maxiter_tot a; qc_maxiter_inner := qc_maxiter_inner a;
     qc_gplus_mask := m; qc_linear_solver := ls |}.

(** The generator keeps its promise: as many coefficients as a surface with
    the symmetry it was told needs. *)
Definition honest_generator (g : generator) : Prop :=
  forall pts d nfp st mpol ntor w, g pts d nfp st mpol ntor = Ok w -> length w = legal_length st mpol ntor.

(** ** Vectors and derivatives *)
(** Sum of absolute values, used as the norm (any norm gives the same notion
    of derivative). *)
Definition size1 (a : list R) : R := fold_right Rplus 0 (map Rabs a).
Definition minus (a b : list R) : list R := map (fun p => fst p - snd p) (combine a b).
Definition inner (a b : list R) : R := Rsum (map (fun p => fst p * snd p) (combine a b)).
(** [y + t e]. *)
Definition shift (y e : list R) (t : R) : list R := map (fun p => fst p + t * snd p) (combine y e).
(** Row times vector. *)
Definition apply_mat (A : list (list R)) (x : list R) : list R := map (fun r => inner r x) A.
(** An m by n matrix. *)
Definition shaped (m n : nat) (A : list (list R)) : Prop := length A = m /\ forall r, In r A -> length r = n.

(** [F] is differentiable at (x, y), with partial gradients [gx] and [gy]. *)
Definition differentiable2 (F : list R -> list R -> R) (x y gx gy : list R) : Prop :=
  length gx = length x /\ length gy = length y /\
  forall eps, 0 < eps -> exists delta, 0 < delta /\
  forall x' y', length x' = length x -> length y' = length y ->
    size1 (minus x' x) + size1 (minus y' y) < delta ->
    Rabs (F x' y' - F x y - inner gx (minus x' x) - inner gy (minus y' y))
      <= eps * (size1 (minus x' x) + size1 (minus y' y)).
(** [f] is differentiable at [x] with gradient [g]. *)
Definition differentiable (f : list R -> R) (x g : list R) : Prop :=
  differentiable2 (fun x _ => f x) x [] g [].
(** The derivative of the vector function [F] at (x, y): one row per component. *)
Definition jacobian2 (F : list R -> list R -> list R) (x y : list R) (Jx Jy : list (list R)) : Prop :=
  length Jx = length Jy /\ length (F x y) = length Jx /\
  forall i, (i < length Jx)%nat ->
    differentiable2 (fun x y => nth i (F x y) 0) x y (nth i Jx []) (nth i Jy []).

(** [l] is twice differentiable at (x, y): [Gx], [Gy] are its partial
    gradients near (x, y), [H] the second derivative in x (symmetric), and the
    mixed derivatives [M] (of Gx by y) and its transpose (of Gy by x) agree. *)
Definition twice_differentiable (l : list R -> list R -> R) (x y : list R)
    (Gx Gy : list R -> list R -> list R) (H M : list (list R)) : Prop :=
  (exists delta, 0 < delta /\ forall x' y', length x' = length x -> length y' = length y ->
     size1 (minus x' x) + size1 (minus y' y) < delta -> differentiable2 l x' y' (Gx x' y') (Gy x' y')) /\
  shaped (length x) (length x) H /\ shaped (length x) (length y) M /\
  jacobian2 Gx x y H M /\
  (forall i j, (i < length x)%nat -> (j < length x)%nat -> nth j (nth i H []) 0 = nth i (nth j H []) 0) /\
  exists N, jacobian2 Gy x y (map (fun j => map (fun r => nth j r 0) M) (seq 0 (length y))) N.

(** The entries of a gradient dictionary one after the other, in order. *)
Definition flat (d : ModelArray.dict arr) : list R := concat (map (fun kv => el (snd kv)) d).

(** A path of unknowns that starts at [x], is continuous there and consists of
    stationary points: the gradient [G] vanishes along it. *)
Definition stationary_path (G : list R -> list R -> list R) (x y e : list R) (X : R -> list R) : Prop :=
  X 0 = x /\
  (forall eps, 0 < eps -> exists delta, 0 < delta /\ forall t, Rabs t < delta ->
     length (X t) = length x /\ size1 (minus (X t) x) < eps) /\
  (exists delta, 0 < delta /\ forall t, Rabs t < delta -> forall v, In v (G (X t) (shift y e t)) -> v = 0).

(** ** Singular value decompositions *)
(** The rows, and the columns, of an n by n matrix are orthonormal. *)
Definition orthogonal (n : nat) (V : list (list R)) : Prop :=
  shaped n n V /\
  (forall i j, (i < n)%nat -> (j < n)%nat -> inner (nth i V []) (nth j V []) = (if Nat.eqb i j then 1 else 0)) /\
  (forall i j, (i < n)%nat -> (j < n)%nat ->
     inner (map (fun r => nth i r 0) V) (map (fun r => nth j r 0) V) = (if Nat.eqb i j then 1 else 0)).
(** The singular values [s] and the right factor [VH] of a singular value
    decomposition of [A] (n columns): A^T A = VH^T diag(s^2) VH, [VH] orthogonal. *)
Definition is_svd (n : nat) (A : list (list R)) (s : list R) (VH : list (list R)) : Prop :=
  length s = n /\ (forall v, In v s -> 0 <= v) /\ orthogonal n VH /\
  forall x z, length x = n -> length z = n ->
    inner (apply_mat A x) (apply_mat A z)
    = Rsum (map (fun i => nth i s 0 * nth i s 0 * (inner (nth i VH []) x * inner (nth i VH []) z)) (seq 0 n)).
(** No non-zero singular value is below the cut-off. *)
Definition exact_rank (tol : R) (s : list R) : Prop :=
  forall v, In v s -> v < tol * fold_right Rmax 0 s -> v = 0.
Definition symmetric_mat (n : nat) (A : list (list R)) : Prop :=
  shaped n n A /\ forall i j, (i < n)%nat -> (j < n)%nat -> nth j (nth i A []) 0 = nth i (nth j A []) 0.
(** The only solution of A x = 0 is 0. *)
Definition injective (n : nat) (A : list (list R)) : Prop :=
  forall x, length x = n -> (forall v, In v (apply_mat A x) -> v = 0) -> forall v, In v x -> v = 0.
(** Size of the residual of A x = b. *)
Definition residual (A : list (list R)) (x b : list R) : R :=
  sqrt (inner (minus (apply_mat A x) b) (minus (apply_mat A x) b)).

(** ** Results *)
(** The metric is named in the call. *)
Definition requested {L} (a : args L) (m : string) : Prop :=
  qc_metric_name a = NStr m \/ exists l, qc_metric_name a = NTuple l /\ In m l.
(** The starting point of the current potential: the user's, or zeros. *)
Definition first_guess {L} (a : args L) (qp : params) : list R :=
  match qc_phi_init a with Some x => x | None => repeat 0 (q_ndofs qp) end.

(** Two calls that differ at most in the values of the differentiable inputs;
    the optional inputs are given in both or in neither. *)
Definition same_settings {L} (a b : args L) : Prop :=
  b = {| qc_nfp := qc_nfp a; qc_stellsym := qc_stellsym a; qc_plasma_mpol := qc_plasma_mpol a;
     qc_plasma_ntor := qc_plasma_ntor a; qc_plasma_dofs := qc_plasma_dofs b; qc_G := qc_G b; qc_I := qc_I b;
     qc_mpol := qc_mpol a; qc_ntor := qc_ntor a; qc_qphi := qc_qphi a; qc_qtheta := qc_qtheta a;
     qc_phi_init := qc_phi_init a; qc_phi_unit := qc_phi_unit a; qc_plasma_stellsym := qc_plasma_stellsym a;
     qc_plasma_qphi := qc_plasma_qphi a; qc_plasma_qtheta := qc_plasma_qtheta a; qc_Bnormal := qc_Bnormal b;
     qc_distance := qc_distance b; qc_generator := qc_generator a; qc_winding_dofs := qc_winding_dofs b;
     qc_winding_mpol := qc_winding_mpol a; qc_winding_ntor := qc_winding_ntor a;
     qc_winding_qphi := qc_winding_qphi a; qc_winding_qtheta := qc_winding_qtheta a;
     qc_winding_stellsym := qc_winding_stellsym a; qc_objective_name := qc_objective_name a;
     qc_objective_weight := qc_objective_weight b; qc_objective_unit := qc_objective_unit a;
     qc_constraint_name := qc_constraint_name a; qc_constraint_type := qc_constraint_type a;
     qc_constraint_unit := qc_constraint_unit a; qc_constraint_value := qc_constraint_value b;
     qc_metric_name := qc_metric_name a; qc_value_only := qc_value_only a; qc_smoothing := qc_smoothing a;
     qc_smoothing_params := qc_smoothing_params a; qc_verbose := qc_verbose a; qc_merge := qc_merge a;
     qc_c_init := qc_c_init a; qc_c_growth := qc_c_growth a; qc_tol := qc_tol a;
     qc_maxiter_tot := qc_maxiter_tot a; qc_maxiter_inner := qc_maxiter_inner a;
     qc_gplus_mask := qc_gplus_mask a; qc_linear_solver := qc_linear_solver a |} /\
  (qc_Bnormal a = None <-> qc_Bnormal b = None) /\
  (qc_distance a = None <-> qc_distance b = None).
(** The scalar value reported for metric [m], and the entries of its gradient
    one after the other. *)
Definition reported {E} (o : output E) (m : string) : R :=
  match lookup m (o_out E o) with
  | Some e => match e_value e with Some v => nth 0 (el v) 0 | None => 0 end
  | None => 0 end.
Definition reported_gradient {E} (o : output E) (m : string) : list R :=
  match lookup m (o_out E o) with
  | Some e => match e_grad e with Some g => flat g | None => [] end
  | None => [] end.
(** A square matrix with an inverse. *)
Definition invertible (n : nat) (A : list (list R)) : Prop :=
  exists K, shaped n n K /\ forall x, length x = n -> apply_mat K (apply_mat A x) = x.
(** A family of calls indexed by t: all succeed, share their settings, and the
    flat inputs (in the order of the gradient entries) move along [e]. *)
Definition family {E} (ns : namespace params) (A : R -> args (x_solver E)) (O : R -> output E) (e : list R) : Prop :=
  forall t, quadcoil ns E (A t) = Some (Ok (O t)) /\ same_settings (A 0) (A t) /\
    (forall b, qc_Bnormal (A t) = Some b -> wf b) /\
    structure (y_dict (A t)) = structure (y_dict (A 0)) /\
    ravel (y_dict (A t)) = shift (ravel (y_dict (A 0))) e t.
(** What automatic differentiation returns at one point: the derivatives of
    the metric [F], and the directional derivative along [v] of the partial
    gradient of [l]; [M] holds the mixed second derivatives of [l]. *)
Definition autodiff_exact (E : library) (l F : list R -> list R -> R) (x y gx gy v : list R) (M : list (list R)) : Prop :=
  differentiable2 F x y gx gy /\ x_jac_x E F x y = gx /\ x_jac_y E F x y = gy /\
  x_jvp E (fun x' => x_jac_y E l x' y) x v = apply_mat (map (fun j => map (fun r => nth j r 0) M) (seq 0 (length y))) v.
(** Elementwise sum of matrices. *)
Definition plus_mat (A B : list (list R)) : list (list R) := map (fun p => map (fun q => fst q + snd q) (combine (fst p) (snd p))) (combine A B).
(** The svd returned for [M], a matrix with n columns, is correct, and its
    numerical rank at the cut-off [tol] is its rank. *)
Definition svd_exact (E : library) (n : nat) (tol : R) (M : list (list R)) : Prop :=
  is_svd n M (fst (x_svd E M)) (snd (x_svd E M)) /\ exact_rank tol (fst (x_svd E M)).
(** The constrained problem with another thresholding function. *)
Definition with_mask {N : Num} (P : ModelSolver.problem N) (m : list N -> list N -> N -> list N) : ModelSolver.problem N :=
  ModelSolver.Build_problem N (ModelSolver.p_f N P) (ModelSolver.p_g N P) (ModelSolver.p_h N P) m (ModelSolver.p_growth N P) (ModelSolver.p_csafe N P)
    (ModelSolver.p_xstop_outer N P) (ModelSolver.p_ctol N P) (ModelSolver.p_fstop N P) (ModelSolver.p_xstop N P) (ModelSolver.p_gtol N P)
    (ModelSolver.p_fstop_last N P) (ModelSolver.p_xstop_last N P) (ModelSolver.p_gtol_last N P)
    (ModelSolver.p_maxiter_tot N P) (ModelSolver.p_maxiter_inner N P).
