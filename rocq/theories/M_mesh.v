(** Model of the restructuring operations of class Mesh (meshmagick/mesh.py).

    Simplifications: vertex indices are naturals (Python would wrap negative ones); every function works on freshly
    built values, the in place writes and the cache are modelled in M_cache.v; verbosity and names are dropped. *)
From Coq Require Import Reals List Arith Bool.
From Verif Require Import M_base M_merge M_plane M_rotations.
Import ListNotations.

(** One line of the faces array, shape (4,). *)
Record face := F4 { f0 : nat; f1 : nat; f2 : nat; f3 : nat }.
(** A Mesh object without its cache: arrays _vertices and _faces (mesh.py:405-415). *)
Record mesh := mkMesh { verts : list vec; faces : list face }.

Definition entries (f : face) : list nat := [f0 f; f1 f; f2 f; f3 f].

(** ids[face] with an array of indices *)
Definition renumber (ids : list nat) (f : face) : res face :=
  do a <- get ids (f0 f); do b <- get ids (f1 f); do c <- get ids (f2 f); do d <- get ids (f3 f); Ok (F4 a b c d).

(** mesh.py:749 and 822: a face is a triangle when its first and last entries are equal *)
Definition is_triangle (f : face) : bool := f0 f =? f3 f.

(** np.where(mask)[0] *)
Definition where_ {A} (p : A -> bool) (l : list A) : list nat :=
  filter (fun i => match nth_error l i with Some a => p a | None => false end) (seq 0 (length l)).

(** mesh.py:747-753 _triangles_quadrangles *)
Definition triangles_ids (fs : list face) : list nat := where_ is_triangle fs.
Definition quadrangles_ids (fs : list face) : list nat := where_ (fun f => negb (is_triangle f)) fs.

(** mask[idx] = True, IndexError when an index is out of range *)
Definition set_mask (mask : list bool) (idx : list nat) : res (list bool) :=
  if forallb (fun i => i <? length mask) idx then Ok (set_all mask idx true) else Raise IndexError.

(** a[idx] = np.arange(len(idx)), [n] being the first value *)
Fixpoint set_arange (l : list nat) (idx : list nat) (n : nat) : list nat :=
  match idx with
  | [] => l
  | i :: t => set_arange (set_nth l i n) t (S n)
  end.

(** mesh.py:846-885 extract_faces with return_index=True: the new mesh and id_v *)
Definition extract_faces (m : mesh) (ids : list nat) : res (mesh * list nat) :=
  let nv := length (verts m) in
  do fs <- mapM (get (faces m)) ids;
  do mask <- set_mask (repeat false nv) (flat_map entries fs);
  let id_v := where_ (fun b => b) mask in
  do v_extracted <- mapM (get (verts m)) id_v;
  let new_id := set_arange (seq 0 nv) id_v 0 in
  do faces_extracted <- mapM (renumber new_id) fs;
  Ok (mkMesh v_extracted faces_extracted, id_v).

(** mesh.py:1681-1714 remove_unused_vertices *)
Definition remove_unused_vertices (m : mesh) : res mesh :=
  let nv := length (verts m) in
  do used <- set_mask (repeat false nv) (flat_map entries (faces m));
  let id_v := where_ (fun b => b) used in
  if length id_v <? nv then
    let new_id := set_arange (seq 0 nv) id_v 0 in
    do fs <- mapM (renumber new_id) (faces m);
    do vs <- mapM (get (verts m)) id_v;
    Ok (mkMesh vs fs)
  else Ok m.

(** np.roll(face, 1) *)
Definition roll1 (f : face) : face := F4 (f3 f) (f0 f) (f1 f) (f2 f).

(** mesh.py:1727-1728, one of the three passes *)
Definition roll_quads (fs : list face) : list face := map (fun f => if is_triangle f then f else roll1 f) fs.

(** mesh.py:1716-1749 heal_triangles *)
Definition heal_triangles (m : mesh) : mesh :=
  mkMesh (verts m) (roll_quads (roll_quads (roll_quads (faces m)))).

(** mesh.py:1806-1842 triangulate_quadrangles, given self.quadrangles_ids. The in place writes use the rows read
    before (faces[:, t2] is a copy). *)
Definition triangulate_with (quads : list nat) (fs : list face) : res (list face) :=
  do qs <- mapM (get fs) quads;
  let new_faces := map (fun f => F4 (f0 f) (f1 f) (f2 f) (f0 f)) qs in
  let fs' := fold_left (fun l i => match nth_error fs i with
                                   | Some f => set_nth l i (F4 (f0 f) (f2 f) (f3 f) (f0 f))
                                   | None => l end) quads fs in
  Ok (fs' ++ new_faces).
Definition triangulate_quadrangles (m : mesh) : res mesh :=
  do fs <- triangulate_with (quadrangles_ids (faces m)) (faces m);
  Ok (mkMesh (verts m) fs).

(** np.fliplr on one line *)
Definition flip_face (f : face) : face := F4 (f3 f) (f2 f) (f1 f) (f0 f).
(** mesh.py:1461-1473 flip_normals *)
Definition flip_normals (m : mesh) : mesh := mkMesh (verts m) (map flip_face (faces m)).

(** faces + n *)
Definition shift_face (n : nat) (f : face) : face := F4 (f0 f + n) (f1 f + n) (f2 f + n) (f3 f + n).

(** mesh.py:1851 and 1876: v - 2 * (v.n - c) n *)
Definition reflect (p : plane) (v : vec) : vec :=
  vsub v (vscale 2 (vscale (dot v (p_normal p) - p_scalar p) (p_normal p))).

(** mesh.py:1868-1879 mirror *)
Definition mirror (p : plane) (m : mesh) : mesh :=
  flip_normals (mkMesh (map (reflect p) (verts m)) (faces m)).

(** Columns of the vertices array. *)
Definition coords : list (vec -> R) := [vx; vy; vz].

Section Merging.
  (** numpy's argsort, see S_merge.sorting *)
  Variable argsort : list R -> list nat.

  (** mesh.py:1512-1558 merge_duplicates with return_index=True *)
  Definition merge_duplicates_index (atol : R) (m : mesh) : res (mesh * list nat) :=
    do (uniq, new_id) <- merge_duplicate_rows argsort atol coords (verts m);
    do fs <- mapM (renumber new_id) (faces m);
    Ok (mkMesh uniq fs, new_id).
  Definition merge_duplicates (atol : R) (m : mesh) : res mesh :=
    do (m', _) <- merge_duplicates_index atol m; Ok m'.

  (** The default tolerance 1e-8 (mesh.py:1512). *)
  Definition default_atol : R := (1 / 100000000)%R.

  (** mesh.py:1475-1500 __add__ *)
  Definition add_concat (m1 m2 : mesh) : mesh :=
    mkMesh (verts m1 ++ verts m2) (faces m1 ++ map (shift_face (length (verts m1))) (faces m2)).
  Definition add (m1 m2 : mesh) : res mesh := merge_duplicates default_atol (add_concat m1 m2).

  (** mesh.py:1844-1866 symmetrize *)
  Definition symmetrize_concat (p : plane) (m : mesh) : mesh :=
    mkMesh (verts m ++ map (reflect p) (verts m))
           (faces m ++ map (fun f => flip_face (shift_face (length (verts m)) f)) (faces m)).
  Definition symmetrize (p : plane) (m : mesh) : res mesh := merge_duplicates default_atol (symmetrize_concat p m).
End Merging.

(** mesh.py:1269-1282 rotate_matrix *)
Definition rotate_matrix (r : mat) (m : mesh) : mesh := mkMesh (map (mvec r) (verts m)) (faces m).
(** mesh.py:1246-1267 rotate; 1201-1244 rotate_x, rotate_y, rotate_z *)
Definition rotate (phi theta psi : R) (m : mesh) : mesh := rotate_matrix (cardan_to_rotmat phi theta psi) m.
Definition rotate_x (a : R) := rotate a 0 0.
Definition rotate_y (a : R) := rotate 0 a 0.
Definition rotate_z (a : R) := rotate 0 0 a.

(** mesh.py:1355-1382 translate; 1287-1353 translate_x, translate_y, translate_z *)
Definition translate (t : vec) (m : mesh) : mesh := mkMesh (map (fun v => vadd v t) (verts m)) (faces m).
Definition translate_x (t : R) (m : mesh) : mesh := mkMesh (map (fun v => V3 (vx v + t) (vy v) (vz v)) (verts m)) (faces m).
Definition translate_y (t : R) (m : mesh) : mesh := mkMesh (map (fun v => V3 (vx v) (vy v + t) (vz v)) (verts m)) (faces m).
Definition translate_z (t : R) (m : mesh) : mesh := mkMesh (map (fun v => V3 (vx v) (vy v) (vz v + t)) (verts m)) (faces m).

(** mesh.py:1384-1459 scale, scalex, scaley, scalez (assert 0 < alpha) *)
Definition scaling (f : vec -> vec) (alpha : R) (m : mesh) : res mesh :=
  if Rltb 0 alpha then Ok (mkMesh (map f (verts m)) (faces m)) else Raise AssertionError.
Definition scale (a : R) := scaling (vscale a) a.
Definition scalex (a : R) := scaling (fun v => V3 (vx v * a) (vy v) (vz v)) a.
Definition scaley (a : R) := scaling (fun v => V3 (vx v) (vy v * a) (vz v)) a.
Definition scalez (a : R) := scaling (fun v => V3 (vx v) (vy v) (vz v * a)) a.
