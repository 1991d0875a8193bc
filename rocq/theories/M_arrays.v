(** Model of the arrays that Mesh objects hold (meshmagick/mesh.py): which calls write into the arrays of the mesh, which
    replace them, and what mesh.vertices, mesh.faces, mesh.faces_areas, ... hand out.

    Arrays live in a heap and a reference is a position in it: arrays of points (vertices, normals and centers of faces),
    of faces, and of numbers (areas of faces). The values that are computed are those of M_mesh.v, M_geometry.v and
    M_connectivity.v. Simplifications: a program stops at its first exception, as in M_cache.v; an array written by a
    caller keeps its number of lines; ids of triangles, connectivity and surface integrals are values (no call writes into
    an array of these that it handed out, but for the sets of [ff] that heal_normals empties, see M_cache.v); arrays made
    during a call that nobody can reach afterwards may be left out of the heap; verbosity is dropped. *)
From Coq Require Import Ascii String Reals List Arith NArith Bool.
From Verif Require Import M_base M_merge M_plane M_rotations M_mesh M_inertia M_geometry M_connectivity M_cache M_text.
Import ListNotations.

Record heap := mkHeap { h_points : list (list vec); h_faces : list (list face); h_numbers : list (list R) }.

Definition points (h : heap) (a : nat) : list vec := nth a (h_points h) [].
Definition rows (h : heap) (a : nat) : list face := nth a (h_faces h) [].
Definition numbers (h : heap) (a : nat) : list R := nth a (h_numbers h) [].

(** A new array: the heap and the reference. *)
Definition new_points (x : list vec) (h : heap) : heap * nat :=
  (mkHeap (h_points h ++ [x]) (h_faces h) (h_numbers h), length (h_points h)).
Definition new_faces (x : list face) (h : heap) : heap * nat :=
  (mkHeap (h_points h) (h_faces h ++ [x]) (h_numbers h), length (h_faces h)).
Definition new_numbers (x : list R) (h : heap) : heap * nat :=
  (mkHeap (h_points h) (h_faces h) (h_numbers h ++ [x]), length (h_numbers h)).
(** a[:] = x *)
Definition write_points (a : nat) (x : list vec) (h : heap) : heap := mkHeap (set_nth (h_points h) a x) (h_faces h) (h_numbers h).
Definition write_faces (a : nat) (x : list face) (h : heap) : heap := mkHeap (h_points h) (set_nth (h_faces h) a x) (h_numbers h).
Definition write_numbers (a : nat) (x : list R) (h : heap) : heap := mkHeap (h_points h) (h_faces h) (set_nth (h_numbers h) a x).

(** Attributes _vertices and _faces, entries of __internals__, _id and _name (mesh.py:405-421). The entries faces_areas,
    faces_normals and faces_centers are three references. *)
Record obj := mkObj {
  o_verts : nat; o_faces : nat;
  o_props : option (nat * nat * nat);
  o_ids : option (list nat * list nat);
  o_conn : option connectivity;
  o_ints : option (list integrals);
  o_id : nat; o_name : text }.

Fixpoint zip3 (a : list R) (n c : list vec) : list fprops :=
  match a, n, c with
  | x :: a, u :: n, v :: c => mkProps x u v :: zip3 a n c
  | _, _, _ => []
  end.
Definition props_value (h : heap) (p : nat * nat * nat) : list fprops :=
  let '(a, n, c) := p in zip3 (numbers h a) (points h n) (points h c).
(** What the references of an object hold, as a mesh with cache of M_cache.v *)
Definition view (h : heap) (o : obj) : cmesh :=
  CM (mkMesh (points h (o_verts o)) (rows h (o_faces o)))
     (match o_props o with Some p => Some (props_value h p) | None => None end)
     (o_ids o) (o_conn o) (o_ints o).

Definition set_verts (a : nat) (o : obj) : obj := mkObj a (o_faces o) (o_props o) (o_ids o) (o_conn o) (o_ints o) (o_id o) (o_name o).
Definition set_faces (a : nat) (o : obj) : obj := mkObj (o_verts o) a (o_props o) (o_ids o) (o_conn o) (o_ints o) (o_id o) (o_name o).
Definition set_props (p : option (nat * nat * nat)) (o : obj) : obj :=
  mkObj (o_verts o) (o_faces o) p (o_ids o) (o_conn o) (o_ints o) (o_id o) (o_name o).
Definition set_data (ids : option (list nat * list nat)) (conn : option connectivity) (ints : option (list integrals)) (o : obj) : obj :=
  mkObj (o_verts o) (o_faces o) (o_props o) ids conn ints (o_id o) (o_name o).
(** __internals__.clear() *)
Definition cleared (o : obj) : obj := set_props None (set_data None None None o).

(** The state of a method: the heap and self. *)
Definition self := (heap * obj)%type.

(** self._vertices = x, a new array *)
Definition replace_verts (x : list vec) (z : self) : self := let (h, a) := new_points x (fst z) in (h, set_verts a (snd z)).
Definition replace_faces (x : list face) (z : self) : self := let (h, a) := new_faces x (fst z) in (h, set_faces a (snd z)).
(** self._vertices[:] = x *)
Definition fill_verts (x : list vec) (z : self) : self := (write_points (o_verts (snd z)) x (fst z), snd z).
Definition fill_faces (x : list face) (z : self) : self := (write_faces (o_faces (snd z)) x (fst z), snd z).
Definition on_obj (f : obj -> obj) (z : self) : self := (fst z, f (snd z)).

(** self.__internals__.update(faces_properties) (mesh.py:688-693), three new arrays *)
Definition store_props (p : list fprops) (z : self) : self :=
  let (h, a) := new_numbers (map fp_area p) (fst z) in
  let (h, n) := new_points (map fp_normal p) h in
  let (h, c) := new_points (map fp_center p) h in
  (h, set_props (Some (a, n, c)) (snd z)).

(** A query of M_cache.v: what it computes is kept in __internals__, what was there stays. *)
Definition query {A} (q : cmesh -> res (A * cmesh)) (z : self) : res (A * self) :=
  do (x, s) <- q (view (fst z) (snd z));
  let z := on_obj (set_data (c_ids s) (c_conn s) (c_ints s)) z in
  Ok (x, match o_props (snd z), c_props s with None, Some p => store_props p z | _, _ => z end).

(** mesh.py:1911-1914 _remove_surface_integrals *)
Definition drop_ints (o : obj) : obj := set_data (o_ids o) (o_conn o) None o.
Definition drop_conn (o : obj) : obj := set_data (o_ids o) None (o_ints o) o.
(** mesh.py:700-709 _remove_faces_properties *)
Definition remove_props (o : obj) : obj := set_props None (set_data None (o_conn o) None o).
Definition remove_props_if_any (o : obj) : obj := match o_props o with Some _ => remove_props o | None => o end.

(** mesh.py:1301-1303, 1324-1326, 1347-1349, 1373-1377: the centers are moved in place *)
Definition move_centers (t : vec) (z : self) : self :=
  match o_props (snd z) with
  | Some (_, _, c) => (write_points c (map (fun v => vadd v t) (points (fst z) c)) (fst z), snd z)
  | None => z
  end.
(** mesh.py:1287-1308 translate_x: the array of vertices is written into *)
Definition h_translate_x (t : R) (z : self) : self :=
  on_obj drop_ints (move_centers (V3 t 0 0) (fill_verts (verts (translate_x t (cm (view (fst z) (snd z))))) z)).
(** mesh.py:1310-1331, 1333-1354, 1356-1382: the array of vertices is replaced *)
Definition h_translate_y (t : R) (z : self) : self :=
  on_obj drop_ints (move_centers (V3 0 t 0) (replace_verts (verts (translate_y t (cm (view (fst z) (snd z))))) z)).
Definition h_translate_z (t : R) (z : self) : self :=
  on_obj drop_ints (move_centers (V3 0 0 t) (replace_verts (verts (translate_z t (cm (view (fst z) (snd z))))) z)).
Definition h_translate (t : vec) (z : self) : self :=
  on_obj drop_ints (move_centers t (replace_verts (verts (translate t (cm (view (fst z) (snd z))))) z)).

(** mesh.py:1269-1282 rotate_matrix: vertices, normals and centers are replaced *)
Definition h_rotate_matrix (r : mat) (z : self) : self :=
  let z := replace_verts (verts (rotate_matrix r (cm (view (fst z) (snd z))))) z in
  let z := match o_props (snd z) with
           | Some (a, n, c) =>
               let (h, n') := new_points (map (mvec r) (points (fst z) n)) (fst z) in
               let (h, c') := new_points (map (mvec r) (points (fst z) c)) h in
               (h, set_props (Some (a, n', c')) (snd z))
           | None => z
           end in
  on_obj drop_ints z.

(** mesh.py:1384-1459 scale, scalex, scaley, scalez *)
Definition h_scaling (op : mesh -> res mesh) (z : self) : res self :=
  do m <- op (cm (view (fst z) (snd z)));
  Ok (on_obj remove_props_if_any (replace_verts (verts m) z)).

(** mesh.py:1461-1473 flip_normals: the faces are replaced, the normals written into *)
Definition h_flip_normals (z : self) : self :=
  let z := replace_faces (faces (flip_normals (cm (view (fst z) (snd z))))) z in
  let z := match o_props (snd z) with
           | Some (_, n, _) => (write_points n (map vopp (points (fst z) n)) (fst z), snd z)
           | None => z
           end in
  on_obj drop_ints z.

Section Operations.
  Variable argsort : list R -> list nat.
  Variable order : list nat -> list nat.

  (** tools.py:72-78: the loop breaks when there are as many levels as rows, and the array given is returned *)
  Definition keeps_array (atol : R) (vs : list vec) : bool :=
    match refine argsort atol (map (column vs) coords) (length vs) [seq 0 (length vs)] with None => true | Some _ => false end.

  (** mesh.py:1512-1558 merge_duplicates *)
  Definition h_merge (atol : R) (z : self) : res self :=
    let m := cm (view (fst z) (snd z)) in
    do m' <- merge_duplicates argsort atol m;
    let z := if keeps_array atol (verts m) then z else replace_verts (verts m') z in
    Ok (on_obj drop_conn (replace_faces (faces m') z)).

  (** mesh.py:1681-1714 remove_unused_vertices: nothing is assigned anew unless there are fewer vertices *)
  Definition h_remove_unused (z : self) : res self :=
    let m := cm (view (fst z) (snd z)) in
    do m' <- remove_unused_vertices m;
    let z := if length (verts m') <? length (verts m) then replace_faces (faces m') (replace_verts (verts m') z) else z in
    Ok (on_obj drop_conn z).

  (** mesh.py:1716-1749 heal_triangles: the faces are written into *)
  Definition h_heal_triangles (z : self) : self :=
    let z := on_obj remove_props_if_any z in
    fill_faces (faces (heal_triangles (cm (view (fst z) (snd z))))) z.

  (** mesh.py:1751-1784 remove_degenerated_faces *)
  Definition h_remove_degenerated (rtol : R) (z : self) : res self :=
    if Rltb 0 rtol then
      do (p, z) <- query q_props z;
      do fs <- remove_degenerated_with (map fp_area p) rtol (rows (fst z) (o_faces (snd z)));
      Ok (on_obj remove_props_if_any (replace_faces fs z))
    else Raise AssertionError.

  (** mesh.py:1560-1679 heal_normals: the faces are written into by the flood, then possibly flipped as in flip_normals *)
  Definition h_heal_normals (z : self) : res self :=
    do (c, z) <- query (q_conn order) z;
    do ((tri, _), z) <- query (fun s => Ok (q_ids s)) z;
    do st <- flood_faces order tri (c_ff c) (rows (fst z) (o_faces (snd z)));
    let z := fill_faces (fl_faces st) z in
    let z := on_obj (fun o => set_data (o_ids o) (Some (mkConn (c_vv c) (c_vf c) (fl_ff st) (c_bounds c))) (o_ints o) o) z in
    do z <- match c_bounds c with
            | [] =>
                do zmax <- arr_max (map vz (points (fst z) (o_verts (snd z))));
                do (p, z) <- query q_props z;
                Ok (if Rltb (heave zmax p) 0 then h_flip_normals z else z)
            | _ => Ok z
            end;
    Ok (on_obj remove_props_if_any z).

  (** mesh.py:1786-1804 heal_mesh *)
  Definition h_heal_mesh (z : self) : res self :=
    let z := on_obj remove_props_if_any z in
    do z <- h_remove_unused z;
    do z <- h_remove_degenerated default_rtol z;
    do z <- h_merge default_atol z;
    h_heal_normals (h_heal_triangles z).

  (** mesh.py:1806-1842 triangulate_quadrangles: the lines of the quadrangles are overwritten (1828-1829), then the faces
      are replaced *)
  Definition h_triangulate (z : self) : res self :=
    do ((_, quad), z) <- query (fun s => Ok (q_ids s)) z;
    let fs := rows (fst z) (o_faces (snd z)) in
    do fs' <- triangulate_with quad fs;
    Ok (replace_faces fs' (on_obj cleared (fill_faces (firstn (length fs) fs') z))).

  (** mesh.py:1844-1866 symmetrize *)
  Definition h_symmetrize (p : plane) (z : self) : res self :=
    do m <- symmetrize argsort p (cm (view (fst z) (snd z)));
    Ok (on_obj cleared (replace_faces (faces m) (replace_verts (verts m) z))).

  (** mesh.py:1868-1879 mirror: the vertices are written into *)
  Definition h_mirror (p : plane) (z : self) : self :=
    on_obj cleared (h_flip_normals (fill_verts (map (reflect p) (points (fst z) (o_verts (snd z)))) z)).

  Definition did (r : res self) : res (self * answer) := do z <- r; Ok (z, Done).
  Definition answered {A} (f : A -> answer) (r : res (A * self)) : res (self * answer) := do (x, z) <- r; Ok (z, f x).

  (** The calls of M_cache.v *)
  Definition h_step (c : call) (z : self) : res (self * answer) :=
    match c with
    (* mesh.py:627-639: the values are copied *)
    | SetVertices vs => Ok (on_obj cleared (replace_verts vs z), Done)
    | SetFaces fs => Ok (on_obj cleared (replace_faces fs z), Done)
    | Translate t => Ok (h_translate t z, Done)
    | TranslateX t => Ok (h_translate_x t z, Done)
    | TranslateY t => Ok (h_translate_y t z, Done)
    | TranslateZ t => Ok (h_translate_z t z, Done)
    | RotateMatrix r => Ok (h_rotate_matrix r z, Done)
    | Rotate a b c => Ok (h_rotate_matrix (cardan_to_rotmat a b c) z, Done)
    | Scale a => did (h_scaling (scale a) z)
    | ScaleX a => did (h_scaling (scalex a) z)
    | ScaleY a => did (h_scaling (scaley a) z)
    | ScaleZ a => did (h_scaling (scalez a) z)
    | FlipNormals => Ok (h_flip_normals z, Done)
    | Merge atol => did (h_merge atol z)
    | HealNormals => did (h_heal_normals z)
    | RemoveUnused => did (h_remove_unused z)
    | HealTriangles => Ok (h_heal_triangles z, Done)
    | RemoveDegenerated rtol => did (h_remove_degenerated rtol z)
    | HealMesh => did (h_heal_mesh z)
    | Triangulate => did (h_triangulate z)
    | Symmetrize p => did (h_symmetrize p z)
    | Mirror p => Ok (h_mirror p z, Done)
    | QIds => answered Ids (query (fun s => Ok (q_ids s)) z)
    | QProps => answered Props (query q_props z)
    | QConn => answered Conn (query (q_conn order) z)
    | QInts => answered Ints (query q_ints z)
    | QVolume => answered Real (query q_volume z)
    | QPlain rho => answered Body (query (q_plain rho) z)
    | QShell rho t => answered Body (query (q_shell rho t) z)
    | QClosed => answered (fun c => Closed (match c_bounds c with [] => true | _ => false end)) (query (q_conn order) z)
    | QConformal => do (c, z) <- query (q_conn order) z;
                    do b <- is_mesh_conformal_with (c_bounds c) (points (fst z) (o_verts (snd z))); Ok (z, Conformal b)
    | QBox => do b <- axis_aligned_bbox (cm (view (fst z) (snd z))); Ok (z, Box b)
    | QEdges => do e <- edges_stats (cm (view (fst z) (snd z))); Ok (z, Edges e)
    end.

  (** ** Programs: several meshes, arrays of the caller *)
  (** The counter _ids of the class is w_next (mesh.py:403, 415). *)
  Record world := mkWorld { w_heap : heap; w_meshes : list obj; w_next : nat }.
  Definition start : world := mkWorld (mkHeap [] [] []) [] 0.

  (** What a program can do. Arrays are given by reference; a caller may hold any reference. *)
  Inductive action :=
  | ArrayV (x : list vec) | ArrayF (x : list face)
  | WriteV (a : nat) (x : list vec) | WriteF (a : nat) (x : list face) | WriteR (a : nat) (x : list R)
  | New (v f : nat) (name : text) | Copy (k : nat) | Add (k l : nat) | Extract (k : nat) (ids : list nat)
  | AssignV (k a : nat) | AssignF (k a : nat) | Call (k : nat) (c : call).

  (** mesh.py:405-421 __init__: np.array copies. A name which is an empty string is not a name. *)
  Definition auto_name (i : nat) : text := M_text.s "mesh_" ++ digits (N.of_nat i).
  Definition make (m : mesh) (name : text) (w : world) : world :=
    let (h, a) := new_points (verts m) (w_heap w) in
    let (h, b) := new_faces (faces m) h in
    let i := w_next w in
    mkWorld h (w_meshes w ++ [mkObj a b None None None None i (match name with [] => auto_name i | _ => name end)]) (S i).

  (** mesh.py:1502-1510 copy.deepcopy: every array of the object is copied, _id and _name too *)
  Definition copied (h : heap) (o : obj) : self :=
    let z := (h, mkObj (o_verts o) (o_faces o) None (o_ids o) (o_conn o) (o_ints o) (o_id o) (o_name o)) in
    let z := replace_faces (rows h (o_faces o)) (replace_verts (points h (o_verts o)) z) in
    match o_props o with Some p => store_props (props_value h p) z | None => z end.

  (** References are those of objects: one that is not there would be a NameError. *)
  Definition mesh_at (w : world) (k : nat) : res obj :=
    match nth_error (w_meshes w) k with Some o => Ok o | None => Raise NameError end.
  Definition array_at {A} (l : list A) (a : nat) : res A := match nth_error l a with Some x => Ok x | None => Raise NameError end.
  Definition with_self (w : world) (k : nat) (z : self) : world := mkWorld (fst z) (set_nth (w_meshes w) k (snd z)) (w_next w).

  Definition act (a : action) (w : world) : res (world * answer) :=
    let h := w_heap w in
    match a with
    | ArrayV x => Ok (mkWorld (fst (new_points x h)) (w_meshes w) (w_next w), Done)
    | ArrayF x => Ok (mkWorld (fst (new_faces x h)) (w_meshes w) (w_next w), Done)
    | WriteV a x =>
        do y <- array_at (h_points h) a;
        if length x =? length y then Ok (mkWorld (write_points a x h) (w_meshes w) (w_next w), Done) else Raise ValueError
    | WriteF a x =>
        do y <- array_at (h_faces h) a;
        if length x =? length y then Ok (mkWorld (write_faces a x h) (w_meshes w) (w_next w), Done) else Raise ValueError
    | WriteR a x =>
        do y <- array_at (h_numbers h) a;
        if length x =? length y then Ok (mkWorld (write_numbers a x h) (w_meshes w) (w_next w), Done) else Raise ValueError
    | New v f name =>
        do vs <- array_at (h_points h) v; do fs <- array_at (h_faces h) f;
        Ok (make (mkMesh vs fs) name w, Done)
    | Copy k =>
        do o <- mesh_at w k;
        let z := copied h o in Ok (mkWorld (fst z) (w_meshes w ++ [snd z]) (w_next w), Done)
    (* mesh.py:1475-1500 __add__ *)
    | Add k l =>
        do o <- mesh_at w k; do o' <- mesh_at w l;
        do m <- add argsort (cm (view h o)) (cm (view h o'));
        Ok (make m (o_name o ++ M_text.s "_" ++ o_name o') w, Done)
    (* mesh.py:846-885 extract_faces *)
    | Extract k ids =>
        do o <- mesh_at w k;
        do (m, _) <- extract_faces (cm (view h o)) ids;
        Ok (make m (M_text.s "mesh_extracted_from_" ++ o_name o) w, Done)
    (* mesh.py:627-639: np.asarray(value).copy() *)
    | AssignV k a =>
        do o <- mesh_at w k; do x <- array_at (h_points h) a;
        Ok (with_self w k (on_obj cleared (replace_verts x (h, o))), Done)
    | AssignF k a =>
        do o <- mesh_at w k; do x <- array_at (h_faces h) a;
        Ok (with_self w k (on_obj cleared (replace_faces x (h, o))), Done)
    | Call k c =>
        do o <- mesh_at w k;
        do (z, x) <- h_step c (h, o);
        Ok (with_self w k z, x)
    end.

  Fixpoint exec (p : list action) (w : world) : res (world * list answer) :=
    match p with
    | [] => Ok (w, [])
    | a :: p => do (w, x) <- act a w; do (w, l) <- exec p w; Ok (w, x :: l)
    end.
End Operations.
