(** Model of the center of buoyancy of compute_hydrostatics (meshmagick/hydrostatics.py) in double precision, with the roundings of M_double.v.

    Simplifications: those of M_dhydro.v and M_dinertia.v. *)
From Coq Require Import Reals List.
From Verif Require Import M_base M_merge M_plane M_mesh M_geometry M_clipper M_inertia M_hydro M_double M_dgeom M_dclip M_dhydro M_dinertia.
Import ListNotations.
Open Scope R_scope.

(** hydrostatics.py:34-46, from the mesh in place: inertia.gravity_center of the clipped mesh. The areas and normals of the faces are computed once
    (mesh.py:712-747), with the sums [fsum]; [fsum'] adds in the integrals of the faces. *)
Definition buoyancy_double (argsort : list R -> list nat) (fdots : nat -> vec -> vec -> R) (fdot : vec -> vec -> R)
  (fsum fsum' : nat -> list R -> R) (ftotal : list R -> R) (f6 f9 f12 : nat -> list R -> R) (rho : R) (wmesh : mesh) : res vec :=
  do k <- mesh_clipper_double argsort fdots fdot water vicinity_tol_double true wmesh;
  do inertia <- plain_inertia_double fsum' fsum ftotal f6 f9 f12 rho (clipped k);
  Ok (rb_cog inertia).
(** hydrostatics.py:152-153: buoyancy_center[2] -= z_corr; np.dot(np.transpose(rotmat_corr), buoyancy_center). The order of a sum may depend on
    the coordinate. *)
Definition to_initial_double (fdots : nat -> vec -> vec -> R) (rot : mat) (z : R) (b : vec) : vec :=
  let c := V3 (vx b) (vy b) (fsub (vz b) z) in
  V3 (fdots 0%nat c (row0 (mtrans rot))) (fdots 1%nat c (row1 (mtrans rot))) (fdots 2%nat c (row2 (mtrans rot))).
