(** Model of the geometric quantities of class Mesh (meshmagick/mesh.py).

    Simplifications: numpy divides by zero silently (NaN); here such quotients are those of R, unspecified. Theorems
    exclude them by hypotheses. The cache is modelled in M_cache.v. *)
From Coq Require Import Reals List Arith Bool.
From Verif Require Import M_base M_merge M_mesh M_inertia.
Import ListNotations.
Open Scope R_scope.

(** vertices[face], mesh.py:664-675 and others *)
Record corner4 := C4 { p0 : vec; p1 : vec; p2 : vec; p3 : vec }.
Definition face_corners (vs : list vec) (f : face) : res corner4 :=
  do a <- get vs (f0 f); do b <- get vs (f1 f); do c <- get vs (f2 f); do d <- get vs (f3 f); Ok (C4 a b c d).

(** Area, normal and center of one face. *)
Record fprops := mkProps { fp_area : R; fp_normal : vec; fp_center : vec }.
Definition no_props : fprops := mkProps 0 vzero vzero.

(** v / k, component by component *)
Definition vdiv (v : vec) (k : R) : vec := V3 (vx v / k) (vy v / k) (vz v / k).

(** mesh.py:664-669, triangles *)
Definition triangle_props (q : corner4) : fprops :=
  let n := cross (vsub (p1 q) (p0 q)) (vsub (p2 q) (p0 q)) in
  let a := norm n in
  mkProps (a / 2) (vdiv n a) (vdiv (vadd (vadd (p0 q) (p1 q)) (p2 q)) 3).

(** mesh.py:676-690, quadrangles *)
Definition quad_props (q : corner4) : fprops :=
  let n := cross (vsub (p2 q) (p0 q)) (vsub (p3 q) (p1 q)) in
  let a1 := norm (cross (vsub (p1 q) (p0 q)) (vsub (p2 q) (p0 q))) * (1 / 2) in
  let a2 := norm (cross (vsub (p3 q) (p0 q)) (vsub (p2 q) (p0 q))) * (1 / 2) in
  let c1 := vdiv (vadd (vadd (p0 q) (p1 q)) (p2 q)) 3 in
  let c2 := vdiv (vadd (vadd (p2 q) (p3 q)) (p0 q)) 3 in
  mkProps (a1 + a2) (vdiv n (norm n)) (vdiv (vadd (vscale a1 c1) (vscale a2 c2)) (a1 + a2)).

(** out[ids] = value of each of these rows, for the lines [ids] of [rows] (fancy assignment; ids without repetition) *)
Definition assign_rows {A B} (out : list B) (ids : list nat) (rows : list A) (h : A -> res B) : res (list B) :=
  do vals <- mapM (fun i => do r <- get rows i; h r) ids;
  Ok (fold_left (fun l iv => set_nth l (fst iv) (snd iv)) (combine ids vals) out).

(** mesh.py:641-695 _faces_properties, given the (cached) ids of triangles and quadrangles *)
Definition faces_properties_with (tri quad : list nat) (vs : list vec) (fs : list face) : res (list fprops) :=
  do l <- assign_rows (repeat no_props (length fs)) tri fs
            (fun f => do q <- face_corners vs f; Ok (triangle_props q));
  assign_rows l quad fs (fun f => do q <- face_corners vs f; Ok (quad_props q)).
Definition faces_properties (m : mesh) : res (list fprops) :=
  faces_properties_with (triangles_ids (faces m)) (quadrangles_ids (faces m)) (verts m) (faces m).

(** The fifteen surface integrals of one face, three by three. *)
Record integrals := I15 { i0 : vec; i3 : vec; i6 : vec; i9 : vec; i12 : vec }.
Definition no_integrals : integrals := I15 vzero vzero vzero vzero vzero.
Definition add_integrals (a b : integrals) : integrals :=
  I15 (vadd (i0 a) (i0 b)) (vadd (i3 a) (i3 b)) (vadd (i6 a) (i6 b)) (vadd (i9 a) (i9 b)) (vadd (i12 a) (i12 b)).

(** product of two arrays of coordinates, term by term *)
Definition vmul (a b : vec) : vec := V3 (vx a * vx b) (vy a * vy b) (vz a * vz b).

(** mesh.py:2053-2101 _compute_triangles_integrals, for one triangle *)
Definition triangle_integrals (a b c : vec) : integrals :=
  let t0 := vadd a b in
  let F1 := vadd t0 c in
  let t1 := vmul a a in
  let t2 := vadd t1 (vmul b t0) in
  let F2 := vadd t2 (vmul c F1) in
  let F3 := vadd (vadd (vmul a t1) (vmul b t2)) (vmul c F2) in
  let g0 := vadd F2 (vmul a (vadd F1 a)) in
  let g1 := vadd F2 (vmul b (vadd F1 b)) in
  let g2 := vadd F2 (vmul c (vadd F1 c)) in
  let delta := norm (cross (vsub b a) (vsub c a)) in
  I15 (vdiv (vscale delta F1) 6)
      (V3 (delta * (6 * vy a * vz a + 3 * (vy b * vz b + vy c * vz c) - vy a * vz F1 - vz a * vy F1) / 12)
          (delta * (6 * vx a * vz a + 3 * (vx b * vz b + vx c * vz c) - vx a * vz F1 - vz a * vx F1) / 12)
          (delta * (6 * vx a * vy a + 3 * (vx b * vy b + vx c * vy c) - vx a * vy F1 - vy a * vx F1) / 12))
      (vdiv (vscale delta F2) 12)
      (vdiv (vscale delta F3) 20)
      (V3 (delta * (vy a * vx g0 + vy b * vx g1 + vy c * vx g2) / 60)
          (delta * (vz a * vy g0 + vz b * vy g1 + vz c * vy g2) / 60)
          (delta * (vx a * vz g0 + vx b * vz g1 + vx c * vz g2) / 60)).

(** mesh.py:1889-1893 and 1896-1906, one triangle or one quadrangle *)
Definition tri_face_integrals (q : corner4) : integrals := triangle_integrals (p0 q) (p1 q) (p2 q).
Definition quad_face_integrals (q : corner4) : integrals :=
  add_integrals (triangle_integrals (p0 q) (p1 q) (p2 q)) (triangle_integrals (p0 q) (p2 q) (p3 q)).

(** mesh.py:1881-1910 _compute_faces_integrals, given the (cached) ids of triangles and quadrangles *)
Definition faces_integrals_with (tri quad : list nat) (vs : list vec) (fs : list face) : res (list integrals) :=
  do l <- assign_rows (repeat no_integrals (length fs)) tri fs
            (fun f => do q <- face_corners vs f; Ok (tri_face_integrals q));
  assign_rows l quad fs (fun f => do q <- face_corners vs f; Ok (quad_face_integrals q)).
Definition faces_integrals (m : mesh) : res (list integrals) :=
  faces_integrals_with (triangles_ids (faces m)) (quadrangles_ids (faces m)) (verts m) (faces m).

(** mesh.py:1932-1939 _compute_volume, given the (cached) integrals and face properties. Arrays of different lengths
    do not multiply: ValueError (a single face would be broadcast, which no history of M_cache.v needs). *)
Definition same_length {A B} (l : list A) (m : list B) : res unit :=
  if (length l =? length m)%nat then Ok tt else Raise ValueError.
Definition volume_with (ints : list integrals) (props : list fprops) : res R :=
  do _ <- same_length ints props;
  Ok (Rsum (map (fun ip => dot (fp_normal (snd ip)) (i0 (fst ip))) (combine ints props)) / 3).
Definition volume (m : mesh) : res R :=
  do ints <- faces_integrals m; do props <- faces_properties m; volume_with ints props.

(** sum over the faces of normals * integrals, term by term (mesh.py:1973-1976) *)
Definition flux (sel : integrals -> vec) (ints : list integrals) (props : list fprops) : vec :=
  vsum (map (fun ip => vmul (fp_normal (snd ip)) (sel (fst ip))) (combine ints props)).

(** mesh.py:1953-1990 eval_plain_mesh_inertias *)
Definition plain_inertia_with (rho : R) (ints : list integrals) (props : list fprops) : res rigid :=
  do vol <- volume_with ints props;
  let mass := rho * vol in
  let cog := vdiv (flux i6 ints props) (2 * vol) in
  let s9 := flux i9 ints props in
  let s12 := flux i12 ints props in
  let xx := rho * (vy s9 + vz s9) / 3 in
  let yy := rho * (vx s9 + vz s9) / 3 in
  let zz := rho * (vx s9 + vy s9) / 3 in
  let xy := rho * vx s12 / 2 in
  let xz := rho * vz s12 / 2 in
  let yz := rho * vy s12 / 2 in
  Ok (rigid_new mass cog xx yy zz yz xz xy (Some vzero)).
Definition eval_plain_mesh_inertias (rho : R) (m : mesh) : res rigid :=
  do ints <- faces_integrals m; do props <- faces_properties m; plain_inertia_with rho ints props.

(** mesh.py:1992-2026 eval_shell_mesh_inertias *)
Definition shell_inertia_with (rho thickness : R) (ints : list integrals) (props : list fprops) : rigid :=
  let surf_density := rho * thickness in
  let surface := Rsum (map fp_area props) in
  let mass := surf_density * surface in
  let s0 := vsum (map i0 ints) in
  let s3 := vsum (map i3 ints) in
  let s6 := vsum (map i6 ints) in
  let cog := vdiv s0 surface in
  let xx := surf_density * (vy s6 + vz s6) in
  let yy := surf_density * (vx s6 + vz s6) in
  let zz := surf_density * (vx s6 + vy s6) in
  rigid_new mass cog xx yy zz (surf_density * vx s3) (surf_density * vy s3) (surf_density * vz s3) (Some vzero).
Definition eval_shell_mesh_inertias (rho thickness : R) (m : mesh) : res rigid :=
  do props <- faces_properties m; do ints <- faces_integrals m; Ok (shell_inertia_with rho thickness ints props).

(** ndarray.min and ndarray.max on one axis: ValueError on an empty array *)
Definition arr_min (l : list R) : res R :=
  match l with [] => Raise ValueError | a :: t => Ok (fold_left Rmin t a) end.
Definition arr_max (l : list R) : res R :=
  match l with [] => Raise ValueError | a :: t => Ok (fold_left Rmax t a) end.

(** mesh.py:1100-1115 axis_aligned_bbox: (xmin, xmax, ymin, ymax, zmin, zmax) *)
Record bbox := mkBox { xmin : R; xmax : R; ymin : R; ymax : R; zmin : R; zmax : R }.
Definition axis_aligned_bbox (m : mesh) : res bbox :=
  if (0 <? length (verts m))%nat then
    do x0 <- arr_min (map vx (verts m)); do x1 <- arr_max (map vx (verts m));
    do y0 <- arr_min (map vy (verts m)); do y1 <- arr_max (map vy (verts m));
    do z0 <- arr_min (map vz (verts m)); do z1 <- arr_max (map vz (verts m));
    Ok (mkBox x0 x1 y0 y1 z0 z1)
  else Ok (mkBox 0 0 0 0 0 0).

(** mesh.py:1117-1133 squared_axis_aligned_bbox *)
Definition squared_axis_aligned_bbox (m : mesh) : res bbox :=
  do b <- axis_aligned_bbox m;
  let x0 := (xmin b + xmax b) * (1 / 2) in
  let y0 := (ymin b + ymax b) * (1 / 2) in
  let z0 := (zmin b + zmax b) * (1 / 2) in
  do d <- arr_max [(xmax b - xmin b) * (1 / 2); (ymax b - ymin b) * (1 / 2); (zmax b - zmin b) * (1 / 2)];
  Ok (mkBox (x0 - d) (x0 + d) (y0 - d) (y0 + d) (z0 - d) (z0 + d)).

(** mesh.py:2028-2037 _edges_stats: edge i joins corner i-1 to corner i (corner -1 is the last one) *)
Definition face_edge_lengths (q : corner4) : list R :=
  map (fun e => sqrt (dot e e)) [vsub (p0 q) (p3 q); vsub (p1 q) (p0 q); vsub (p2 q) (p1 q); vsub (p3 q) (p2 q)].
Definition edges_stats (m : mesh) : res (R * R * R) :=
  do qs <- mapM (face_corners (verts m)) (faces m);
  let lengths := flat_map face_edge_lengths qs in
  do mn <- arr_min lengths; do mx <- arr_max lengths;
  Ok (mn, mx, Rsum lengths / INR (length lengths)).

(** mesh.py:1751-1784 remove_degenerated_faces, given the (cached) areas. Indexing by a mask of another length is an
    IndexError. *)
Definition remove_degenerated_with (areas : list R) (rtol : R) (fs : list face) : res (list face) :=
  let threshold := Rsum areas / INR (length areas) * rtol in
  if (length areas =? length fs)%nat then
    Ok (map snd (filter (fun af => negb (Rltb (fst af) threshold)) (combine areas fs)))
  else Raise IndexError.
Definition remove_degenerated_faces (rtol : R) (m : mesh) : res mesh :=
  if Rltb 0 rtol then
    do props <- faces_properties m;
    do fs <- remove_degenerated_with (map fp_area props) rtol (faces m);
    Ok (mkMesh (verts m) fs)
  else Raise AssertionError.
