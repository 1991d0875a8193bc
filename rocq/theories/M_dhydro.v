(** Model of the beginning of compute_hydrostatics (meshmagick/hydrostatics.py) in double precision: the position of the mesh, clipping,
    the wetted surface, the displaced volume and the mass, with the roundings of M_double.v.

    Simplifications: those of M_hydro.v, M_dgeom.v and M_dclip.v. *)
From Coq Require Import Reals List.
From Verif Require Import M_base M_merge M_plane M_mesh M_geometry M_clipper M_hydro M_double M_dgeom M_dclip.
Import ListNotations.
Open Scope R_scope.

(** Lines of a matrix *)
Definition row0 (a : mat) : vec := V3 (m00 a) (m01 a) (m02 a).
Definition row1 (a : mat) : vec := V3 (m10 a) (m11 a) (m12 a).
Definition row2 (a : mat) : vec := V3 (m20 a) (m21 a) (m22 a).
(** mesh.py:1272 rotate_matrix, the vertices: np.dot(rotmat, vertices.T). The order of a sum may depend on the coordinate and on the vertex. *)
Definition rotate_double (fdots : nat -> nat -> vec -> vec -> R) (rot : mat) (m : mesh) : mesh :=
  mkMesh (map (fun jv => V3 (fdots 0%nat (fst jv) (snd jv) (row0 rot)) (fdots 1%nat (fst jv) (snd jv) (row1 rot)) (fdots 2%nat (fst jv) (snd jv) (row2 rot)))
              (numbered (verts m))) (faces m).
(** mesh.py:1341-1343 translate_z *)
Definition translate_z_double (t : R) (m : mesh) : mesh :=
  mkMesh (map (fun v => V3 (vx v) (vy v) (fadd (vz v) t)) (verts m)) (faces m).
(** hydrostatics.py:26-28 *)
Definition place_double (fdots : nat -> nat -> vec -> vec -> R) (rot : mat) (z : R) (m : mesh) : mesh :=
  translate_z_double z (rotate_double fdots rot m).

(** The literal 1e-3, mesh_clipper.py:27 *)
Definition vicinity_tol_double : R := fl vicinity_tol.
(** hydrostatics.py:34-48 and 169, from the mesh in place: the wetted surface, the displaced volume and hs_data['disp_mass']. The areas and normals
    of the faces are computed once (mesh.py:712-747), hence the same sums [fsum] in both. *)
Definition displacement_double (argsort : list R -> list nat) (fdots : nat -> vec -> vec -> R) (fdot : vec -> vec -> R)
  (fsum fsum' : nat -> list R -> R) (farea ftotal : list R -> R) (rho : R) (wmesh : mesh) : res (R * R * R) :=
  do k <- mesh_clipper_double argsort fdots fdot water vicinity_tol_double true wmesh;
  do wet <- total_area_double fsum farea (clipped k);
  do v <- volume_double fsum' fsum ftotal (clipped k);
  let mass := fmul rho v in  (* mesh.py:1971 *)
  if Reqb rho 0 then Raise NotANumber else
  let disp_volume := fdiv mass rho in
  Ok (wet, disp_volume, fmul rho disp_volume).
