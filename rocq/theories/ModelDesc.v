(** Loading a surface from DESC. *)
From Coq Require Import String List Bool Arith ZArith Reals.
From Verif Require Import Base ModelArray ModelMath ModelSurface.
Import ListNotations.
Open Scope R_scope.

(** The attributes of a DESC surface that [from_desc] reads
    (surfacerzfourier_jax.py 86-93).  [ptolemy_identity_rev] belongs to DESC
    and is not modelled: [d_tables] is what it returns for the R and the Z
    coefficients, one entry per mode in the order of
    [make_rzfourier_mc_ms_nc_ns] as the comment in lines 79-85 says. *)
Record desc_surface : Type := DescSurface {
  d_nfp : nat;
  d_sym : bool;
  d_M : nat;
  d_N : nat;
  d_tables : tables
}.
(** surfacerzfourier_jax.py 74-118, [from_desc], with DESC installed
    (otherwise line 78 raises ModuleNotFoundError). *)
Definition from_desc (d : desc_surface) (quadpoints_phi quadpoints_theta : pyobj) : result surface :=
  make_surface (d_nfp d) (d_sym d) (d_M d) (d_N d) quadpoints_phi quadpoints_theta
    (arr1 (from_desc_dofs (d_sym d) (d_tables d))).
