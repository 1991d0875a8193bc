(** Model of the inertias of meshes (meshmagick/mesh.py) in double precision: the surface integrals of the faces and the mass, the center of gravity and the
    moments of full and of hollow bodies, with the roundings of M_double.v.

    Simplifications: those of M_geometry.v and M_dgeom.v; no number is too large for doubles. *)
From Coq Require Import Reals List.
From Verif Require Import M_base M_merge M_plane M_mesh M_geometry M_inertia M_double M_dgeom.
Import ListNotations.
Open Scope R_scope.

(** Products of arrays of coordinates, term by term *)
Definition vmul_double (a b : vec) : vec := V3 (fmul (vx a) (vx b)) (fmul (vy a) (vy b)) (fmul (vz a) (vz b)).
(** mesh.py:2090-2092: 6.*y0*z0 + 3*(y1*z1 + y2*z2) - y0*f1z - z0*f1y *)
Definition mixed_double (y0 y1 y2 fy z0 z1 z2 fz : R) : R :=
  fsub (fsub (fadd (fmul (fmul 6 y0) z0) (fmul 3 (fadd (fmul y1 z1) (fmul y2 z2)))) (fmul y0 fz)) (fmul z0 fy).
(** mesh.py:2097-2099: y0*g0 + y1*g1 + y2*g2 *)
Definition weighted_double (y0 y1 y2 g0 g1 g2 : R) : R := fadd (fadd (fmul y0 g0) (fmul y1 g1)) (fmul y2 g2).
(** mesh.py:2054-2101 _compute_triangles_integrals, for one triangle *)
Definition triangle_integrals_double (fsum : list R -> R) (a b c : vec) : integrals :=
  let t0 := vadd_double a b in
  let F1 := vadd_double t0 c in
  let t1 := vmul_double a a in
  let t2 := vadd_double t1 (vmul_double b t0) in
  let F2 := vadd_double t2 (vmul_double c F1) in
  let F3 := vadd_double (vadd_double (vmul_double a t1) (vmul_double b t2)) (vmul_double c F2) in
  let g0 := vadd_double F2 (vmul_double a (vadd_double F1 a)) in
  let g1 := vadd_double F2 (vmul_double b (vadd_double F1 b)) in
  let g2 := vadd_double F2 (vmul_double c (vadd_double F1 c)) in
  let delta := norm_double fsum (cross_double (vsub_double b a) (vsub_double c a)) in
  I15 (vdiv_double (vscale_double delta F1) 6)
      (V3 (fdiv (fmul delta (mixed_double (vy a) (vy b) (vy c) (vy F1) (vz a) (vz b) (vz c) (vz F1))) 12)
          (fdiv (fmul delta (mixed_double (vx a) (vx b) (vx c) (vx F1) (vz a) (vz b) (vz c) (vz F1))) 12)
          (fdiv (fmul delta (mixed_double (vx a) (vx b) (vx c) (vx F1) (vy a) (vy b) (vy c) (vy F1))) 12))
      (vdiv_double (vscale_double delta F2) 12)
      (vdiv_double (vscale_double delta F3) 20)
      (V3 (fdiv (fmul delta (weighted_double (vy a) (vy b) (vy c) (vx g0) (vx g1) (vx g2))) 60)
          (fdiv (fmul delta (weighted_double (vz a) (vz b) (vz c) (vy g0) (vy g1) (vy g2))) 60)
          (fdiv (fmul delta (weighted_double (vx a) (vx b) (vx c) (vz g0) (vz g1) (vz g2))) 60)).
Definition add_integrals_double (a b : integrals) : integrals :=
  I15 (vadd_double (i0 a) (i0 b)) (vadd_double (i3 a) (i3 b)) (vadd_double (i6 a) (i6 b)) (vadd_double (i9 a) (i9 b)) (vadd_double (i12 a) (i12 b)).
(** mesh.py:1881-1906 _compute_faces_integrals, one face; the first three are those of M_dgeom.v (proved in P_dinertia.v) *)
Definition face_integrals_double (fsum : list R -> R) (vs : list vec) (f : face) : res integrals :=
  do q <- face_corners vs f;
  Ok (if is_triangle f then triangle_integrals_double fsum (p0 q) (p1 q) (p2 q)
      else add_integrals_double (triangle_integrals_double fsum (p0 q) (p1 q) (p2 q)) (triangle_integrals_double fsum (p0 q) (p2 q) (p3 q))).
Definition faces_integrals_double (fsum : nat -> list R -> R) (m : mesh) : res (list integrals) :=
  mapM (fun jf => face_integrals_double (fsum (fst jf)) (verts m) (snd jf)) (numbered (faces m)).

(** (normals * integrals).sum(axis=1), mesh.py:1978-1981. The order of a sum may depend on the coordinate. *)
Definition flux_double (ftotals : nat -> list R -> R) (sel : integrals -> vec) (ints : list integrals) (props : list fprops) : vec :=
  V3 (ftotals 0%nat (map (fun ip => vx (fp_normal (snd ip)) * vx (sel (fst ip))) (combine ints props)))
     (ftotals 1%nat (map (fun ip => vy (fp_normal (snd ip)) * vy (sel (fst ip))) (combine ints props)))
     (ftotals 2%nat (map (fun ip => vz (fp_normal (snd ip)) * vz (sel (fst ip))) (combine ints props))).
(** mesh.py:1953-1990 eval_plain_mesh_inertias. [ftotal] adds in the volume, [f6], [f9] and [f12] in the three lines of sums. *)
Definition plain_inertia_double (fsum fsum' : nat -> list R -> R) (ftotal : list R -> R) (f6 f9 f12 : nat -> list R -> R) (rho : R) (m : mesh) : res rigid :=
  do vol <- volume_double fsum fsum' ftotal m;
  do ints <- faces_integrals_double fsum m;
  do props <- faces_properties_double fsum' m;
  let mass := fmul rho vol in
  let cog := vdiv_double (flux_double f6 i6 ints props) (fmul 2 vol) in
  let s9 := flux_double f9 i9 ints props in
  let s12 := flux_double f12 i12 ints props in
  let xx := fdiv (fmul rho (fadd (vy s9) (vz s9))) 3 in
  let yy := fdiv (fmul rho (fadd (vx s9) (vz s9))) 3 in
  let zz := fdiv (fmul rho (fadd (vx s9) (vy s9))) 3 in
  let xy := fdiv (fmul rho (vx s12)) 2 in
  let xz := fdiv (fmul rho (vz s12)) 2 in
  let yz := fdiv (fmul rho (vy s12)) 2 in
  Ok (rigid_new mass cog xx yy zz yz xz xy (Some vzero)).

(** get_surface_integrals()[:9].sum(axis=1), mesh.py:2015, three lines *)
Definition vsum_double (ftotals : nat -> list R -> R) (l : list vec) : vec :=
  V3 (ftotals 0%nat (map vx l)) (ftotals 1%nat (map vy l)) (ftotals 2%nat (map vz l)).
(** mesh.py:1992-2026 eval_shell_mesh_inertias *)
Definition shell_inertia_double (fsum fsum' : nat -> list R -> R) (farea : list R -> R) (f0' f3' f6 : nat -> list R -> R) (rho thickness : R) (m : mesh) : res rigid :=
  let surf_density := fmul rho thickness in
  do surface <- total_area_double fsum' farea m;
  let mass := fmul surf_density surface in
  do ints <- faces_integrals_double fsum m;
  let s0 := vsum_double f0' (map i0 ints) in
  let s3 := vsum_double f3' (map i3 ints) in
  let s6 := vsum_double f6 (map i6 ints) in
  let cog := vdiv_double s0 surface in
  let xx := fmul surf_density (fadd (vy s6) (vz s6)) in
  let yy := fmul surf_density (fadd (vx s6) (vz s6)) in
  let zz := fmul surf_density (fadd (vx s6) (vy s6)) in
  Ok (rigid_new mass cog xx yy zz (fmul surf_density (vx s3)) (fmul surf_density (vy s3)) (fmul surf_density (vz s3)) (Some vzero)).
