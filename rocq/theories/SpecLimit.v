(** Vocabulary for the statements about designs on refined grids. *)
From Coq Require Import String List Bool Arith ZArith Reals Lra.
From Coquelicot Require Import Coquelicot.
From Verif Require Import Base ModelArray ModelMath SpecMath ModelSurface SpecSurface ModelParams ModelField SpecField
  ModelQuantity ModelWrapper ModelPackage SpecPackage SpecConvex SpecQuad.
Import ListNotations.
Open Scope R_scope.
Open Scope string_scope.
Open Scope list_scope.

(** Rebuilding the parameter object with the evaluation points and the plasma
    surface both on [n] equispaced toroidal angles of one field period and [m]
    equispaced poloidal angles of a turn, the plasma field [Bp] evaluated there. *)
Definition regridded (q : params) (Bp : R -> R -> R) (p0 t0 : R) (n m : nat) : result params :=
  let ps := one_period (q_nfp q) p0 n in let ts := one_turn t0 m in
  bind (copy_and_set_quadpoints (q_plasma q) (arr1 ps) (arr1 ts)) (fun plasma =>
  make_params plasma (q_winding q) (q_G q) (q_I q) (Some (sample Bp ps ts))
    (q_mpol q) (q_ntor q) (Some (arr1 ps)) (Some (arr1 ts)) (Some (q_stellsym q))).

(** The figures that are integrals over the winding surface, the figures that are
    maxima over it, and the maxima over the plasma surface. *)
Definition winding_integrals : list (string * string * (R -> R)) :=
  [("f_K", "K2", fun y => y / 2); ("f_Phi", "Phi", fun y => y * y / 2); ("f_l1_Phi", "Phi", Rabs); ("f_huber_K", "K2", sqrt)].
Definition winding_maxima : list (string * string * (R -> R)) :=
  [("f_max_K2", "K2", fun y : R => y); ("f_max_Phi", "Phi", Rabs); ("f_max_Phi2", "Phi", fun y => y * y); ("f_max_Phi4", "Phi", fun y => y ^ 4)].
Definition plasma_maxima : list (string * (R -> R)) := [("f_max_Bnormal", Rabs); ("f_max_Bnormal2", fun y => y * y)].
Definition grid_figures : list string :=
  ["f_K"; "f_Phi"; "f_l1_Phi"; "f_huber_K"; "f_max_K2"; "f_max_Phi"; "f_max_Phi2"; "f_max_Phi4"; "f_B"; "f_max_Bnormal"; "f_max_Bnormal2"].

(** The figure [name] of the design [x] with no grid: integrals in place of sums over
    points, least upper bounds over whole surfaces in place of maxima over points. *)
Definition exact_figure (other : list string) (q : params) (Bp : R -> R -> R) (p0 t0 : R) (x : list R) (name : string) (r : R) : Prop :=
  (exists fld h nf F, In (name, fld, h) winding_integrals /\ reports normal (q_winding q) nf /\ shows other fld q x F /\
     r = integral (fun p t => h (F p t) * norm3 (nf p t)) p0 1 t0) \/
  (exists fld h F, In (name, fld, h) winding_maxima /\ shows other fld q x F /\ is_lub (fun y => exists p t, y = h (F p t)) r) \/
  (exists nf Bc, name = "f_B" /\ reports normal (q_plasma q) nf /\ preports (fun q => Bnormal q x) q Bc /\
     r = INR (q_nfp q) * integral (fun p t => (Bc p t + Bp p t) * (Bc p t + Bp p t) / 2 * norm3 (nf p t)) p0 (/ INR (q_nfp q)) t0) \/
  (exists h Bc, In (name, h) plasma_maxima /\ preports (fun q => Bnormal q x) q Bc /\
     is_lub (fun y => exists p t, p0 <= p < p0 + / INR (q_nfp q) /\ t0 <= t < t0 + 1 /\ y = h (Bc p t + Bp p t)) r).
(** The weighted sum of the exact figures. *)
Definition exact_objective (other : list string) (q : params) (Bp : R -> R -> R) (p0 t0 : R) (os : list (string * R)) (x : list R) (r : R) : Prop :=
  exists vs, Forall2 (fun o v => exact_figure other q Bp p0 t0 x (fst o) v) os vs /\ r = Rsum (map2 (fun o v => snd o * v) os vs).
