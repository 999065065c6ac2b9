(** Model of src/quadcoil/quadcoil_params.py over the reals.  No proofs here. *)
From Coq Require Import String List Bool Arith ZArith Reals.
From Verif Require Import Base ModelArray ModelMath ModelSurface.
Import ListNotations.
Open Scope R_scope.

(** The attributes of a QuadcoilParams (quadcoil_params.py 33-61, 160-162). *)
Record params : Type := Params {
  q_plasma : surface; q_winding : surface; q_eval : surface;
  q_G : R; q_I : R; q_Bnormal : grid R;
  q_qphi : list R; q_qtheta : list R;
  q_stellsym : bool; q_mpol : nat; q_ntor : nat;
  q_ndofs : nat; q_ndofs_half : nat }.

(** quadcoil_params.py 434-442, [cp_ndofs]: (ndofs, ndofs_half). *)
Definition cp_ndofs (stellsym : bool) (mpol ntor : nat) : nat * nat :=
  let ndofs := (2 * mpol * ntor + mpol + ntor)%nat in
  if stellsym then (ndofs, ndofs) else ((2 * ndofs + 1)%nat, ndofs).

(** An array of zeros with the given numbers of rows and columns
    (quadcoil_params.py 55). *)
Definition gzeros (n m : nat) : grid R := repeat (repeat 0 m) n.

(** What _Params.__init__ (quadcoil_params.py 21-61) leaves behind: the
    attributes common to both parameter classes. *)
Record base_params : Type := BaseParams {
  b_plasma : surface; b_winding : surface; b_eval : surface;
  b_G : R; b_I : R; b_Bnormal : grid R;
  b_qphi : list R; b_qtheta : list R; b_stellsym : bool }.

(** quadcoil_params.py 21-61, [_Params.__init__].  [None] stands for an
    argument left at its default None. *)
Definition make_base (plasma winding : surface) (G I : R) (Bnormal : option (grid R))
    (quadpoints_phi quadpoints_theta : option pyobj) (stellsym : option bool) : result base_params :=
  match s_nfp winding with
  | O => Raise ZeroDivisionError
  | nfp =>
    if negb (Nat.eqb (length (s_qphi winding) mod nfp) 0) then Raise AssertionError
    else
      let st := match stellsym with None => s_stellsym winding && s_stellsym plasma | Some b => b end in
      let qp := match quadpoints_phi with
                | None => arr1 (firstn (length (s_qphi winding) / nfp) (s_qphi winding))
                | Some p => p end in
      let qt := match quadpoints_theta with None => arr1 (s_qtheta winding) | Some t => t end in
      let Bn := match Bnormal with
                | None => gzeros (length (s_qphi plasma)) (length (s_qtheta plasma))
                | Some b => b end in
      bind (copy_and_set_quadpoints winding qp qt) (fun ev =>
      Ok {| b_plasma := plasma; b_winding := winding; b_eval := ev; b_G := G; b_I := I;
            b_Bnormal := Bn; b_qphi := elements qp; b_qtheta := elements qt; b_stellsym := st |})
  end.

(** quadcoil_params.py 135-162, [QuadcoilParams.__init__]. *)
Definition make_params (plasma winding : surface) (G I : R) (Bnormal : option (grid R))
    (mpol ntor : nat) (quadpoints_phi quadpoints_theta : option pyobj) (stellsym : option bool)
  : result params :=
  bind (make_base plasma winding G I Bnormal quadpoints_phi quadpoints_theta stellsym) (fun b =>
  let nd := cp_ndofs (b_stellsym b) mpol ntor in
  Ok {| q_plasma := b_plasma b; q_winding := b_winding b; q_eval := b_eval b;
        q_G := b_G b; q_I := b_I b; q_Bnormal := b_Bnormal b;
        q_qphi := b_qphi b; q_qtheta := b_qtheta b; q_stellsym := b_stellsym b;
        q_mpol := mpol; q_ntor := ntor; q_ndofs := fst nd; q_ndofs_half := snd nd |}).

(** quadcoil_params.py 63-65. *)
Definition q_nfp (q : params) : nat := s_nfp (q_winding q).

(** ** Flattening *)
(** A flattened child: a surface is itself a flattened node (its leaves and
    its static part), the others are leaves (quadcoil_params.py 183-192). *)
Inductive pchild : Type := PNode (n : list leaf * surf_aux) | PLeaf (l : leaf).
(** quadcoil_params.py 193-202.  [ndofs] and [ndofs_half] are stored too. *)
Record params_aux : Type := ParamsAux {
  x_stellsym : bool; x_mpol : nat; x_ntor : nat; x_ndofs : nat; x_ndofs_half : nat }.
(** quadcoil_params.py 182-203, [QuadcoilParams.tree_flatten]. *)
Definition params_flatten (q : params) : list pchild * params_aux :=
  ([PNode (surf_flatten (q_plasma q)); PNode (surf_flatten (q_winding q)); PNode (surf_flatten (q_eval q));
    PLeaf (Leaf0 (q_G q)); PLeaf (Leaf0 (q_I q)); PLeaf (Leaf2 (q_Bnormal q));
    PLeaf (Leaf1 (q_qphi q)); PLeaf (Leaf1 (q_qtheta q))],
   ParamsAux (q_stellsym q) (q_mpol q) (q_ntor q) (q_ndofs q) (q_ndofs_half q)).
(** [children[i]], unflattening the child (a surface, a number, a matrix or a
    vector is expected by the constructor; anything else is a TypeError)
    (quadcoil_params.py 167-180). *)
Definition child_surface (c : list pchild) (i : nat) : result surface :=
  match nth_error c i with
  | Some (PNode (l, x)) => surf_unflatten x l
  | Some _ => Raise TypeError | None => Raise IndexError end.
(** The same for a number (quadcoil_params.py 167-180). *)
Definition child_real (c : list pchild) (i : nat) : result R :=
  match nth_error c i with
  | Some (PLeaf (Leaf0 x)) => Ok x | Some _ => Raise TypeError | None => Raise IndexError end.
(** The same for a matrix (quadcoil_params.py 167-180). *)
Definition child_grid (c : list pchild) (i : nat) : result (grid R) :=
  match nth_error c i with
  | Some (PLeaf (Leaf2 g)) => Ok g | Some _ => Raise TypeError | None => Raise IndexError end.
(** The same for any leaf (quadcoil_params.py 167-180). *)
Definition child_obj (c : list pchild) (i : nat) : result pyobj :=
  match nth_error c i with
  | Some (PLeaf l) => Ok (leaf_obj l) | Some _ => Raise TypeError | None => Raise IndexError end.
(** quadcoil_params.py 167-180, [QuadcoilParams.tree_unflatten].  Child 2, the
    evaluation surface, is not used: the constructor rebuilds it. *)
Definition params_unflatten (x : params_aux) (c : list pchild) : result params :=
  bind (child_surface c 0) (fun plasma => bind (child_surface c 1) (fun winding =>
  bind (child_real c 3) (fun G => bind (child_real c 4) (fun I =>
  bind (child_grid c 5) (fun Bn => bind (child_obj c 6) (fun p => bind (child_obj c 7) (fun t =>
  make_params plasma winding G I (Some Bn) (x_mpol x) (x_ntor x) (Some p) (Some t) (Some (x_stellsym x))))))))).

(** The instance attributes that _Params.__init__ assigns (quadcoil_params.py
    34-61), and the class attribute nfp (63).  QuadcoilParamsFiniteElement
    (445-470) assigns no others. *)
Definition fe_attributes : list string :=
  ["plasma_surface"; "winding_surface"; "net_poloidal_current_amperes"; "net_toroidal_current_amperes";
   "Bnormal_plasma"; "stellsym"; "quadpoints_phi"; "quadpoints_theta"; "eval_surface"; "nfp"]%string.
(** [self.name], as far as the presence of the attribute goes (quadcoil_params.py 486-505). *)
Definition fe_getattr {A} (name : string) (v : A) : result A :=
  if existsb (String.eqb name) fe_attributes then Ok v else Raise AttributeError.
(** quadcoil_params.py 486-505, [QuadcoilParamsFiniteElement.tree_flatten]:
    the static part reads self.ndofs and self.ndofs_half (500-501). *)
Definition fe_flatten (b : base_params) : result (list pchild * params_aux) :=
  bind (fe_getattr "ndofs" 0%nat) (fun nd => bind (fe_getattr "ndofs_half" 0%nat) (fun nh =>
  Ok ([PNode (surf_flatten (b_plasma b)); PNode (surf_flatten (b_winding b)); PNode (surf_flatten (b_eval b));
    PLeaf (Leaf0 (b_G b)); PLeaf (Leaf0 (b_I b)); PLeaf (Leaf2 (b_Bnormal b));
    PLeaf (Leaf1 (b_qphi b)); PLeaf (Leaf1 (b_qtheta b))],
    ParamsAux (b_stellsym b) 0 0 nd nh))).

(** ** Modes and trigonometric operators *)
(** quadcoil_params.py 227-240, [make_mn_helper]: the arrays (m, n). *)
Definition make_mn (mpol ntor : nat) (stellsym : bool) : list Z * list Z :=
  let m1d := arange 0 (mpol + 1) in
  let n1d := arange (- Z.of_nat ntor) (2 * ntor + 1) in
  let n2d := concat (map (fun _ => n1d) m1d) in
  let m2d := concat (map (fun m => map (fun _ => m) n1d) m1d) in
  let m := skipn 1 (skipn ntor m2d) in
  let n := skipn 1 (skipn ntor n2d) in
  if stellsym then (m, n) else ((m ++ [0%Z]) ++ m, (n ++ [0%Z]) ++ n).

(** Which points an operator is evaluated on (current.py 16-28,
    quadcoil_params.py 262-272, 374-383): the evaluation surface, the whole
    winding surface ([winding_surface_mode=True]) or its first field period
    (['divide']). *)
Inductive ws_mode : Type := OnEval | OnWinding | OnDivide.

(** quadcoil_params.py 374-383: the quadrature points of a mode. *)
Definition sel_quadpoints (q : params) (mode : ws_mode) : list R * list R :=
  match mode with
  | OnDivide => (firstn (length (s_qphi (q_winding q)) / s_nfp (q_winding q)) (s_qphi (q_winding q)),
                 s_qtheta (q_winding q))
  | OnWinding => (s_qphi (q_winding q), s_qtheta (q_winding q))
  | OnEval => (q_qphi q, q_qtheta q)
  end.

(** quadcoil_params.py 393-398: [trig_choice]; the scalar 1 of the symmetric
    branch broadcasts, so it is written as a constant array. *)
Definition trig_choice (stellsym : bool) (n_harmonic : nat) : list Z :=
  if stellsym then repeat 1%Z n_harmonic
  else (repeat 1%Z (n_harmonic / 2) ++ repeat (-1)%Z (n_harmonic / 2)) ++ [(-1)%Z].

(** quadcoil_params.py 389-390, 406-417: the argument of the sine or cosine of
    one harmonic at one point. *)
Definition trig_arg (nfp : nat) (phi theta : R) (m n : Z) : R :=
  IZR m * (PI * 2 * theta) - IZR n * INR nfp * (PI * 2 * phi).

(** The seven results of diff_helper (quadcoil_params.py 351-432).  The five
    [partial] matrices are diagonal (an array times the identity) and are
    represented by their diagonals; the product [trig @ partial] is then the
    elementwise product [row_diag]. *)
Record diffs : Type := Diffs {
  d_n : nat;  (* number of harmonics *)
  d_trig : grid (list R); d_trig_diff : grid (list R);
  d_phi : list R; d_theta : list R; d_phi_phi : list R; d_phi_theta : list R; d_theta_theta : list R }.
(** [trig @ partial] at one point (quadcoil_params.py 298-329, current.py 47-48). *)
Definition row_diag (row diag : list R) : list R := map2 Rmult row diag.

(** quadcoil_params.py 351-432, [diff_helper].  Elementwise operations on
    arrays of different lengths raise. *)
Definition diff_helper (q : params) (mode : ws_mode) : result diffs :=
  let '(m, n) := make_mn (q_mpol q) (q_ntor q) (q_stellsym q) in
  let nfp := q_nfp q in
  let '(ps, ts) := sel_quadpoints q mode in
  let c := trig_choice (q_stellsym q) (length m) in
  if negb (Nat.eqb (length c) (length m)) then Raise TypeError
  else
    let row (sgn : Z) (p t : R) :=
      map2 (fun mn k => sin_or_cos (trig_arg nfp p t (fst mn) (snd mn)) (sgn * k)) (combine m n) c in
    Ok {| d_n := length m;
          d_trig := map (fun p => map (fun t => row 1%Z p t) ts) ps;
          d_trig_diff := map (fun p => map (fun t => row (-1)%Z p t) ts) ps;
          d_theta := map2 (fun a k => IZR a * IZR k * 2 * PI) m c;
          d_phi := map2 (fun a k => - IZR a * IZR k * INR nfp * 2 * PI) n c;
          d_theta_theta := map (fun a => - (IZR a * IZR a) * ((2 * PI) * (2 * PI))) m;
          d_phi_phi := map (fun a => - ((IZR a * INR nfp) * (IZR a * INR nfp)) * ((2 * PI) * (2 * PI))) n;
          d_phi_theta := map2 (fun b a => IZR b * INR nfp * IZR a * ((2 * PI) * (2 * PI))) n m |}.

(** [op @ phi_mn] for an operator with one scalar row per point; the last
    dimension must equal the number of coefficients (dipole.py 23). *)
Definition apply_rows (n : nat) (op : grid (list R)) (x : list R) : result (grid R) :=
  if Nat.eqb n (length x) then Ok (gmap (fun row => ldot row x) op) else Raise TypeError.
(** The same for an operator with one three-vector per coefficient and point
    (current.py 54, curvature.py 36-37). *)
Definition vcomb (op : list vec3) (x : list R) : vec3 :=
  V3 (ldot (map vx op) x) (ldot (map vy op) x) (ldot (map vz op) x).
(** The same (current.py 54, curvature.py 36-37). *)
Definition apply_vrows (n : nat) (op : grid (list vec3)) (x : list R) : result (grid vec3) :=
  if Nat.eqb n (length x) then Ok (gmap (fun row => vcomb row x) op) else Raise TypeError.

(** quadcoil_params.py 262-272: the surface of a mode. *)
Definition sel_surface (q : params) (mode : ws_mode) : result surface :=
  match mode with
  | OnDivide => copy_and_set_quadpoints (q_winding q)
      (arr1 (firstn (length (s_qphi (q_winding q)) / s_nfp (q_winding q)) (s_qphi (q_winding q))))
      (arr1 (s_qtheta (q_winding q)))
  | OnWinding => Ok (q_winding q)
  | OnEval => Ok (q_eval q)
  end.

(** quadcoil_params.py 298-313 and 314-329: one of the two operators at one
    point, from the derivatives [d2], [d1] of dg2/|N| and dg1/|N|, the tangents,
    |N| and the rows (trig_diff@partial_phi), (trig@second phi), 
    (trig_diff@partial_theta), (trig@second theta). *)
Definition Kdash_op_at (d2 d1 g2 g1 : vec3) (normN : R) (rphi rphi2 rtheta rtheta2 : list R) : list vec3 :=
  map2 (fun ab cd =>
    sub3 (sub3 (add3 (scale3 (fst ab) d2) (scale3 (/ normN) (scale3 (snd ab) g2)))
               (scale3 (fst cd) d1))
         (scale3 (/ normN) (scale3 (snd cd) g1)))
    (combine rphi rphi2) (combine rtheta rtheta2).

(** The results of Kdash_helper (quadcoil_params.py 340-345). *)
Record kdash : Type := Kdash {
  kd1_op : grid (list vec3); kd2_op : grid (list vec3);
  kd1_const : grid vec3; kd2_const : grid vec3; kd_n : nat }.
(** quadcoil_params.py 246-345, [Kdash_helper]. *)
Definition Kdash_helper (q : params) (mode : ws_mode) : result kdash :=
  bind (sel_surface q mode) (fun s =>
  bind (normal s) (fun N => bind (gammadash1 s) (fun g1 => bind (gammadash2 s) (fun g2 =>
  bind (diff_helper q mode) (fun d =>
  bind (dga_inv_n_dashb s) (fun dg =>
  let geo := gmap2 pair (gmap2 pair (gmap2 pair N g1) g2) dg in
  let trig := gmap2 pair (d_trig d) (d_trig_diff d) in
  Ok {| kd1_op := gmap2 (fun ge tr =>
          let '(Nx, g1x, g2x, (d11, d12, d21, d22)) := ge in
          Kdash_op_at d21 d11 g2x g1x (norm3 Nx)
            (row_diag (snd tr) (d_phi d)) (row_diag (fst tr) (d_phi_phi d))
            (row_diag (snd tr) (d_theta d)) (row_diag (fst tr) (d_phi_theta d))) geo trig;
        kd2_op := gmap2 (fun ge tr =>
          let '(Nx, g1x, g2x, (d11, d12, d21, d22)) := ge in
          Kdash_op_at d22 d12 g2x g1x (norm3 Nx)
            (row_diag (snd tr) (d_phi d)) (row_diag (fst tr) (d_phi_theta d))
            (row_diag (snd tr) (d_theta d)) (row_diag (fst tr) (d_theta_theta d))) geo trig;
        kd1_const := gmap (fun x => let '(d11, d12, d21, d22) := x in
                       sub3 (scale3 (q_G q) d21) (scale3 (q_I q) d11)) dg;
        kd2_const := gmap (fun x => let '(d11, d12, d21, d22) := x in
                       sub3 (scale3 (q_G q) d22) (scale3 (q_I q) d12)) dg;
        kd_n := d_n d |})))))).
