(** Model of the exchange of surfaces and current potentials with simsopt:
    src/quadcoil/surfacerzfourier_jax.py 40-65, io/simsopt.py and io/focus.py.
    simsopt is an external library; what is used of it is modelled here: a
    surface object holds four tables of coefficients filled by [set_dofs] and
    read by [get_dofs], [get_rc], ....  simsopt is taken to be installed
    (otherwise every function here raises at its import).  No proofs here. *)
From Coq Require Import String List Bool Arith ZArith Reals.
From Verif Require Import Base ModelArray ModelMath ModelSurface ModelParams.
Import ListNotations.
Open Scope R_scope.

(** simsopt's SurfaceRZFourier, as constructed in surfacerzfourier_jax.py
    56-63: its attributes nfp, stellsym, mpol, ntor, quadpoints and its
    tables of coefficients indexed by (m, n). *)
Record simsopt_surface : Type := SimsoptSurface {
  ss_nfp : nat; ss_stellsym : bool; ss_mpol : nat; ss_ntor : nat;
  ss_qphi : list R; ss_qtheta : list R;
  ss_rc : Z -> Z -> R; ss_rs : Z -> Z -> R; ss_zc : Z -> Z -> R; ss_zs : Z -> Z -> R }.

(** The modes in the order of simsopt's coefficient vector (used through
    set_dofs and get_dofs, surfacerzfourier_jax.py 48, 64): m = 0 with
    n = n0..ntor, then m = 1..mpol with n = -ntor..ntor; n0 is 0 for the
    cosine of R and 1 for the sine of Z. *)
Definition simsopt_modes (n0 mpol ntor : nat) : list (Z * Z) :=
  map (fun n => (0, n)%Z) (arange (Z.of_nat n0) (ntor + 1 - n0)) ++
  flat_map (fun m => map (fun n => (m, n)) (arange (- Z.of_nat ntor) (2 * ntor + 1))) (arange 1 mpol).
(** The entry of a coefficient table filled from a list (set_dofs,
    surfacerzfourier_jax.py 64); entries that are no degree of freedom keep
    their initial value 0. *)
Definition table (modes : list (Z * Z)) (coefs : list R) (m n : Z) : R :=
  match find (fun c => (Z.eqb (fst (fst c)) m && Z.eqb (snd (fst c)) n)%bool) (combine modes coefs) with
  | Some c => snd c
  | None => 0
  end.

(** surfacerzfourier_jax.py 51-65, [to_simsopt].  set_dofs raises when the
    vector has the wrong length (in simsopt a RuntimeError; ValueError stands
    for it). *)
Definition to_simsopt (s : surface) : result simsopt_surface :=
  let c := simsopt_modes 0 (s_mpol s) (s_ntor s) in
  let o := simsopt_modes 1 (s_mpol s) (s_ntor s) in
  let nc := length c in let no := length o in
  let d := s_dofs s in
  if negb (Nat.eqb (length d) (if s_stellsym s then nc + no else nc + no + nc + no)) then Raise ValueError
  else if s_stellsym s then
    Ok {| ss_nfp := s_nfp s; ss_stellsym := true; ss_mpol := s_mpol s; ss_ntor := s_ntor s;
          ss_qphi := s_qphi s; ss_qtheta := s_qtheta s;
          ss_rc := table c (firstn nc d); ss_rs := (fun _ _ => 0); ss_zc := (fun _ _ => 0);
          ss_zs := table o (skipn nc d) |}
  else
    Ok {| ss_nfp := s_nfp s; ss_stellsym := false; ss_mpol := s_mpol s; ss_ntor := s_ntor s;
          ss_qphi := s_qphi s; ss_qtheta := s_qtheta s;
          ss_rc := table c (firstn nc d);
          ss_rs := table o (firstn no (skipn nc d));
          ss_zc := table c (firstn nc (skipn (nc + no) d));
          ss_zs := table o (skipn (nc + no + nc) d) |}.

(** simsopt's get_dofs (used in surfacerzfourier_jax.py 48 and io/focus.py 44). *)
Definition get_dofs (ss : simsopt_surface) : list R :=
  let rd (t : Z -> Z -> R) := map (fun mn : Z * Z => t (fst mn) (snd mn)) in
  let c := simsopt_modes 0 (ss_mpol ss) (ss_ntor ss) in
  let o := simsopt_modes 1 (ss_mpol ss) (ss_ntor ss) in
  if ss_stellsym ss then rd (ss_rc ss) c ++ rd (ss_zs ss) o
  else rd (ss_rc ss) c ++ rd (ss_rs ss) o ++ rd (ss_zc ss) c ++ rd (ss_zs ss) o.

(** surfacerzfourier_jax.py 40-49, [from_simsopt]. *)
Definition from_simsopt (ss : simsopt_surface) : result surface :=
  make_surface (ss_nfp ss) (ss_stellsym ss) (ss_mpol ss) (ss_ntor ss)
    (arr1 (ss_qphi ss)) (arr1 (ss_qtheta ss)) (arr1 (get_dofs ss)).

(** simsopt's CurrentPotentialFourier as constructed in io/simsopt.py 9-18. *)
Record simsopt_potential : Type := SimsoptPotential {
  sp_winding : simsopt_surface; sp_G : R; sp_I : R; sp_nfp : nat; sp_stellsym : bool;
  sp_mpol : nat; sp_ntor : nat; sp_dofs : list R }.
(** io/simsopt.py 1-19, [quadcoil_to_simsopt_cp].  The coefficient check of
    CurrentPotentialFourier.set_dofs is not modelled. *)
Definition quadcoil_to_simsopt_cp (q : params) (x : list R) : result simsopt_potential :=
  bind (to_simsopt (q_winding q)) (fun w =>
  Ok {| sp_winding := w; sp_G := q_G q; sp_I := 0; sp_nfp := q_nfp q; sp_stellsym := q_stellsym q;
        sp_mpol := q_mpol q; sp_ntor := q_ntor q; sp_dofs := x |}).

(** What get_rs, get_zc, ... return (io/focus.py 50-53): a number, or, for a
    coefficient that a stellarator-symmetric surface does not have, a
    ValueError object that is returned and not raised. *)
Inductive got : Type := Num (x : R) | AValueError.
(** io/focus.py 41, [replace_err].  A real number is always finite. *)
Definition replace_err (g : got) : R := match g with Num x => x | AValueError => 0 end.

(** One line of the body and the whole content of a FOCUS boundary file
    (io/focus.py 42-61). *)
Record focus_line : Type := FocusLine { fl_n : Z; fl_m : Z; fl_Rbc : R; fl_Rbs : R; fl_Zbc : R; fl_Zbs : R }.
(** io/focus.py 42-61: number of modes, of periods and of field coefficients in the header, and the body. *)
Record focus_file : Type := FocusFile { ff_modes : nat; ff_nfp : nat; ff_bn : nat; ff_body : list focus_line }.

(** io/focus.py 48-61, the body of the loops. *)
Definition focus_line_of (ss : simsopt_surface) (m n : Z) : focus_line :=
  let sine_of_R := if ss_stellsym ss then AValueError else Num (ss_rs ss m n) in
  let cosine_of_Z := if ss_stellsym ss then AValueError else Num (ss_zc ss m n) in
  {| fl_n := n; fl_m := m; fl_Rbc := replace_err (Num (ss_rc ss m n)); fl_Rbs := replace_err sine_of_R;
     fl_Zbc := replace_err cosine_of_Z; fl_Zbs := replace_err (Num (ss_zs ss m n)) |}.
(** io/focus.py 41-61, for a simsopt surface. *)
Definition focus_of_simsopt (ss : simsopt_surface) : focus_file :=
  {| ff_modes := length (get_dofs ss); ff_nfp := ss_nfp ss; ff_bn := 0;
     ff_body := flat_map (fun m => map (focus_line_of ss m) (arange (- Z.of_nat (ss_ntor ss)) (2 * ss_ntor ss + 1)))
                  (arange 0 (ss_mpol ss + 1)) |}.

(** The argument of save_focus (io/focus.py 18-40): an object of one of the
    three accepted classes, or of another one.  A DESC surface is represented
    by what SurfaceRZFourierJAX.from_desc makes of it. *)
Inductive focus_arg : Type :=
  | FocusJax (s : surface) | FocusSimsopt (ss : simsopt_surface) | FocusDesc (s : result surface) | FocusOther.
(** io/focus.py 3-65, [save_focus]; the result is the content of the file.  On
    a SurfaceRZFourierJAX, the class of the object at hand after the DESC
    branch, lines 44-48 work and get_rc (line 50) is no attribute. *)
Definition save_focus (desc_installed : bool) (a : focus_arg) : result focus_file :=
  match a with
  | FocusJax s => bind (to_simsopt s) (fun ss => Ok (focus_of_simsopt ss))
  | FocusSimsopt ss => Ok (focus_of_simsopt ss)
  | FocusDesc s => if negb desc_installed then Raise ImportError else bind s (fun _ => Raise AttributeError)
  | FocusOther => if negb desc_installed then Raise ImportError else Raise TypeError
  end.
