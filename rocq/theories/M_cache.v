(** Model of the cache of class Mesh (dictionary __internals__, meshmagick/mesh.py) and of the operations that read,
    update and invalidate it.

    Simplifications: a history stops at its first exception (the state that an exception leaves behind is not
    modelled); the keys faces_areas/faces_normals/faces_centers are always set and deleted together, and so are
    triangles_ids/quadrangles_ids and v_v/v_f/f_f/boundaries: one option for each group; arrays are values, so that a
    caller who keeps a reference to an array and writes into it is outside the model. *)
From Coq Require Import Reals List Arith Bool.
From Verif Require Import M_base M_merge M_plane M_rotations M_mesh M_inertia M_geometry M_connectivity.
Import ListNotations.

Record cmesh := CM {
  cm : mesh;
  c_props : option (list fprops);
  c_ids : option (list nat * list nat);
  c_conn : option connectivity;
  c_ints : option (list integrals) }.

(** mesh.py:405-421 __init__ *)
Definition fresh (m : mesh) : cmesh := CM m None None None None.

Definition with_mesh (m : mesh) (s : cmesh) : cmesh := CM m (c_props s) (c_ids s) (c_conn s) (c_ints s).
Definition with_props (p : option (list fprops)) (s : cmesh) : cmesh := CM (cm s) p (c_ids s) (c_conn s) (c_ints s).
Definition with_conn (c : option connectivity) (s : cmesh) : cmesh := CM (cm s) (c_props s) (c_ids s) c (c_ints s).
Definition with_ids (i : option (list nat * list nat)) (s : cmesh) : cmesh := CM (cm s) (c_props s) i (c_conn s) (c_ints s).
Definition with_ints (i : option (list integrals)) (s : cmesh) : cmesh := CM (cm s) (c_props s) (c_ids s) (c_conn s) i.

(** mesh.py:764-786, 800-813 triangles_ids, quadrangles_ids *)
Definition q_ids (s : cmesh) : (list nat * list nat) * cmesh :=
  match c_ids s with
  | Some i => (i, s)
  | None => let i := (triangles_ids (faces (cm s)), quadrangles_ids (faces (cm s))) in (i, with_ids (Some i) s)
  end.

(** mesh.py:711-745 faces_areas, faces_centers, faces_normals (641-695 when absent) *)
Definition q_props (s : cmesh) : res (list fprops * cmesh) :=
  match c_props s with
  | Some p => Ok (p, s)
  | None =>
      let '((tri, quad), s) := q_ids s in
      do p <- faces_properties_with tri quad (verts (cm s)) (faces (cm s));
      Ok (p, with_props (Some p) s)
  end.

(** mesh.py:1920-1930 get_surface_integrals (1881-1910 when absent) *)
Definition q_ints (s : cmesh) : res (list integrals * cmesh) :=
  match c_ints s with
  | Some i => Ok (i, s)
  | None =>
      let '((tri, quad), s) := q_ids s in
      do i <- faces_integrals_with tri quad (verts (cm s)) (faces (cm s));
      Ok (i, with_ints (Some i) s)
  end.

(** mesh.py:700-709 _remove_faces_properties *)
Definition remove_faces_properties (s : cmesh) : cmesh := CM (cm s) None None (c_conn s) None.
(** if self._has_faces_properties(): self._remove_faces_properties() *)
Definition drop_if_props (s : cmesh) : cmesh :=
  match c_props s with Some _ => remove_faces_properties s | None => s end.

(** mesh.py:1938-1951 volume *)
Definition q_volume (s : cmesh) : res (R * cmesh) :=
  do (i, s) <- q_ints s;
  do (p, s) <- q_props s;
  do v <- volume_with i p;
  Ok (v, s).
(** mesh.py:1953-1990 *)
Definition q_plain (rho : R) (s : cmesh) : res (rigid * cmesh) :=
  do (i, s) <- q_ints s;
  do (p, s) <- q_props s;
  do r <- plain_inertia_with rho i p;
  Ok (r, s).
(** mesh.py:1992-2026 *)
Definition q_shell (rho thickness : R) (s : cmesh) : res (rigid * cmesh) :=
  do (p, s) <- q_props s;
  do (i, s) <- q_ints s;
  Ok (shell_inertia_with rho thickness i p, s).

(** What the updates of cached properties do: mesh.py:1272-1279 (rotation), 1294-1300 and others (translation), 1467
    (flip). *)
Definition rotate_cached (r : mat) (p : fprops) : fprops := mkProps (fp_area p) (mvec r (fp_normal p)) (mvec r (fp_center p)).
Definition translate_cached (t : vec) (p : fprops) : fprops := mkProps (fp_area p) (fp_normal p) (vadd (fp_center p) t).
Definition flip_cached (p : fprops) : fprops := mkProps (fp_area p) (vopp (fp_normal p)) (fp_center p).

(** Vertices changed, properties updated by [u], surface integrals dropped (rotate_matrix, translate, flip_normals). *)
Definition update_cached (m : mesh) (u : fprops -> fprops) (s : cmesh) : cmesh :=
  CM m (match c_props s with Some p => Some (map u p) | None => None end) (c_ids s) (c_conn s) None.

Section Operations.
  Variable argsort : list R -> list nat.
  Variable order : list nat -> list nat.

  (** mesh.py:1028-1097 vv, vf, ff, boundaries *)
  Definition q_conn (s : cmesh) : res (connectivity * cmesh) :=
    match c_conn s with
    | Some c => Ok (c, s)
    | None => do c <- mesh_connectivity order (cm s); Ok (c, with_conn (Some c) s)
    end.

  (** mesh.py:1384-1459: the vertices are scaled, properties are dropped when faces properties are cached *)
  Definition c_scaling (op : mesh -> res mesh) (s : cmesh) : res cmesh :=
    do m <- op (cm s); Ok (drop_if_props (with_mesh m s)).

  (** mesh.py:1512-1558 merge_duplicates *)
  Definition c_merge (atol : R) (s : cmesh) : res cmesh :=
    do m <- merge_duplicates argsort atol (cm s); Ok (with_conn None (with_mesh m s)).

  (** mesh.py:1681-1714 remove_unused_vertices *)
  Definition c_remove_unused (s : cmesh) : res cmesh :=
    do m <- remove_unused_vertices (cm s); Ok (with_conn None (with_mesh m s)).

  (** mesh.py:1716-1749 heal_triangles *)
  Definition c_heal_triangles (s : cmesh) : cmesh :=
    let s := drop_if_props s in with_mesh (heal_triangles (cm s)) s.

  (** mesh.py:1751-1784 remove_degenerated_faces. The areas are cached by the query, so that the test before the removal
      of face properties always succeeds. *)
  Definition c_remove_degenerated (rtol : R) (s : cmesh) : res cmesh :=
    if Rltb 0 rtol then
      do (p, s) <- q_props s;
      do fs <- remove_degenerated_with (map fp_area p) rtol (faces (cm s));
      Ok (remove_faces_properties (with_mesh (mkMesh (verts (cm s)) fs) s))
    else Raise AssertionError.

  (** mesh.py:1560-1679 heal_normals. On a closed mesh the face properties are cached when the final test is made; the
      intermediate flip_normals only touches what the final removal deletes. *)
  Definition c_heal_normals (s : cmesh) : res cmesh :=
    do (c, s) <- q_conn s;
    let '((tri, quad), s) := q_ids s in
    do (m, ff) <- heal_normals_with order c tri quad (c_props s) (cm s);
    let s' := with_conn (Some (mkConn (c_vv c) (c_vf c) ff (c_bounds c))) (with_mesh m s) in
    match c_bounds c with
    | [] => Ok (remove_faces_properties s')
    | _ => Ok (drop_if_props s')
    end.

  (** mesh.py:1786-1804 heal_mesh *)
  Definition default_rtol : R := (1 / 100000)%R.
  Definition c_heal_mesh (s : cmesh) : res cmesh :=
    let s := drop_if_props s in
    do s <- c_remove_unused s;
    do s <- c_remove_degenerated default_rtol s;
    do s <- c_merge default_atol s;
    let s := c_heal_triangles s in
    c_heal_normals s.

  (** mesh.py:1806-1842 triangulate_quadrangles *)
  Definition c_triangulate (s : cmesh) : res cmesh :=
    let '((_, quad), s) := q_ids s in
    do fs <- triangulate_with quad (faces (cm s));
    Ok (fresh (mkMesh (verts (cm s)) fs)).

  (** Calls that a program can make on one mesh object. *)
  Inductive call :=
  | SetVertices (vs : list vec) | SetFaces (fs : list face)
  | Translate (t : vec) | TranslateX (t : R) | TranslateY (t : R) | TranslateZ (t : R)
  | RotateMatrix (r : mat) | Rotate (phi theta psi : R)
  | Scale (a : R) | ScaleX (a : R) | ScaleY (a : R) | ScaleZ (a : R)
  | FlipNormals | Merge (atol : R) | HealNormals | RemoveUnused | HealTriangles | RemoveDegenerated (rtol : R)
  | HealMesh | Triangulate | Symmetrize (p : plane) | Mirror (p : plane)
  | QIds | QProps | QConn | QInts | QVolume | QPlain (rho : R) | QShell (rho thickness : R)
  | QClosed | QConformal | QBox | QEdges.

  Inductive answer :=
  | Done | Ids (i : list nat * list nat) | Props (p : list fprops) | Conn (c : connectivity) | Ints (i : list integrals)
  | Real (x : R) | Body (b : rigid) | Closed (b : bool) | Conformal (b : option bool) | Box (b : bbox)
  | Edges (e : R * R * R).

  Definition done (r : res cmesh) : res (cmesh * answer) := do s <- r; Ok (s, Done).

  (** One call on a mesh with its cache. *)
  Definition step (c : call) (s : cmesh) : res (cmesh * answer) :=
    match c with
    (* mesh.py:627-639 *)
    | SetVertices vs => Ok (fresh (mkMesh vs (faces (cm s))), Done)
    | SetFaces fs => Ok (fresh (mkMesh (verts (cm s)) fs), Done)
    (* mesh.py:1287-1382 *)
    | Translate t => Ok (update_cached (translate t (cm s)) (translate_cached t) s, Done)
    | TranslateX t => Ok (update_cached (translate_x t (cm s)) (translate_cached (V3 t 0 0)) s, Done)
    | TranslateY t => Ok (update_cached (translate_y t (cm s)) (translate_cached (V3 0 t 0)) s, Done)
    | TranslateZ t => Ok (update_cached (translate_z t (cm s)) (translate_cached (V3 0 0 t)) s, Done)
    (* mesh.py:1201-1282 *)
    | RotateMatrix r => Ok (update_cached (rotate_matrix r (cm s)) (rotate_cached r) s, Done)
    | Rotate a b c => Ok (update_cached (rotate a b c (cm s)) (rotate_cached (cardan_to_rotmat a b c)) s, Done)
    (* mesh.py:1384-1459 *)
    | Scale a => done (c_scaling (scale a) s)
    | ScaleX a => done (c_scaling (scalex a) s)
    | ScaleY a => done (c_scaling (scaley a) s)
    | ScaleZ a => done (c_scaling (scalez a) s)
    (* mesh.py:1461-1473 *)
    | FlipNormals => Ok (update_cached (flip_normals (cm s)) flip_cached s, Done)
    | Merge atol => done (c_merge atol s)
    | HealNormals => done (c_heal_normals s)
    | RemoveUnused => done (c_remove_unused s)
    | HealTriangles => Ok (c_heal_triangles s, Done)
    | RemoveDegenerated rtol => done (c_remove_degenerated rtol s)
    | HealMesh => done (c_heal_mesh s)
    | Triangulate => done (c_triangulate s)
    (* mesh.py:1844-1879: the cache is cleared *)
    | Symmetrize p => done (do m <- symmetrize argsort p (cm s); Ok (fresh m))
    | Mirror p => Ok (fresh (mirror p (cm s)), Done)
    | QIds => let (i, s) := q_ids s in Ok (s, Ids i)
    | QProps => do (p, s) <- q_props s; Ok (s, Props p)
    | QConn => do (c, s) <- q_conn s; Ok (s, Conn c)
    | QInts => do (i, s) <- q_ints s; Ok (s, Ints i)
    | QVolume => do (v, s) <- q_volume s; Ok (s, Real v)
    | QPlain rho => do (b, s) <- q_plain rho s; Ok (s, Body b)
    | QShell rho t => do (b, s) <- q_shell rho t s; Ok (s, Body b)
    (* mesh.py:1135-1199 *)
    | QClosed => do (c, s) <- q_conn s; Ok (s, Closed (match c_bounds c with [] => true | _ => false end))
    | QConformal => do (c, s) <- q_conn s; do b <- is_mesh_conformal_with (c_bounds c) (verts (cm s)); Ok (s, Conformal b)
    (* mesh.py:1100-1115, 2028-2037: nothing is cached *)
    | QBox => do b <- axis_aligned_bbox (cm s); Ok (s, Box b)
    | QEdges => do e <- edges_stats (cm s); Ok (s, Edges e)
    end.

  Fixpoint run (h : list call) (s : cmesh) : res (cmesh * list answer) :=
    match h with
    | [] => Ok (s, [])
    | c :: t => do (s, a) <- step c s; do (s, l) <- run t s; Ok (s, a :: l)
    end.
End Operations.
