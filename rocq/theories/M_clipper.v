(** Model of meshmagick/mesh_clipper.py: class MeshClipper.

    Simplifications: the masks of the vertices of a part are recomputed from their distances; writing of debug files,
    messages and names are dropped; the object is built once (the setters of the plane and of the tolerance clear
    everything and build it again, mesh_clipper.py:80-113). *)
From Coq Require Import Reals List Arith Bool.
From Verif Require Import M_base M_merge M_plane M_mesh M_connectivity.
Import ListNotations.

(** mesh_clipper.py:124-126. A distance equal to the tolerance is in no mask. *)
Definition above (tol d : R) : bool := Rltb tol d.
Definition on (tol d : R) : bool := Rltb (Rabs d) tol.
Definition below (tol d : R) : bool := Rltb d (- tol).

(** mesh_clipper.py:121 *)
Definition distances (p : plane) (m : mesh) : list R := map (plane_dist p) (verts m).

(** mesh_clipper.py:129-134: the mesh is refused, with "above" or "below" as second argument of the exception. *)
Inductive side := AllAbove | AllBelow.
Definition refused (tol : R) (ds : list R) : option side :=
  if forallb (above tol) ds then Some AllAbove
  else if forallb (below tol) ds then Some AllBelow else None.

(** mask[faces].sum(axis=1) *)
Definition count_corners (mask : R -> bool) (ds : list R) (f : face) : res nat :=
  do l <- mapM (get ds) (entries f); Ok (length (filter mask l)).

(** mesh_clipper.py:152-166: lines of the faces array above, crossing and below *)
Definition partition_ids (tol : R) (ds : list R) (fs : list face) : res (list nat * list nat * list nat) :=
  do na <- mapM (count_corners (above tol) ds) fs;
  do nb <- mapM (count_corners (below tol) ds) fs;
  let m_above := map (fun n => n =? 4) na in
  let m_below := map (fun n => n =? 4) nb in
  let m_crown := map (fun ab => negb (fst ab) && negb (snd ab)) (combine m_above m_below) in
  Ok (where_ (fun b => b) m_above, where_ (fun b => b) m_crown, where_ (fun b => b) m_below).

(** mesh_clipper.py:170-178 generate_mesh: the mesh, the ids of its vertices and their distances *)
Record part := mkPart { pt_mesh : mesh; pt_ids : list nat; pt_dist : list R }.
Definition generate_mesh (m : mesh) (ds : list R) (ids : list nat) : res part :=
  do (m', id_v) <- extract_faces m ids;
  do d <- mapM (get ds) id_v;
  Ok (mkPart m' id_v d).

(** mesh_clipper.py:138-186 _partition_mesh *)
Record partition := mkPartition { above_ids : list nat; crown_ids : list nat; below_ids : list nat;
                                  upper : part; crown : part; lower : part }.
Definition partition_mesh (p : plane) (tol : R) (m : mesh) : res partition :=
  let ds := distances p m in
  do (ia, ic, ib) <- partition_ids tol ds (faces m);
  do u <- generate_mesh m ds ia;
  do c <- generate_mesh m ds ic;
  do l <- generate_mesh m ds ib;
  Ok (mkPartition ia ic ib u c l).

(** np.roll(face, -k) *)
Definition roll_by (k : nat) (l : list nat) : list nat := skipn k l ++ firstn k l.

(** p0, p1, ... = vertices[face] *)
Definition unpack3 (l : list nat) : res (nat * nat * nat) :=
  match l with [a; b; c] => Ok (a, b, c) | _ => Raise ValueError end.
Definition unpack4 (l : list nat) : res (nat * nat * nat * nat) :=
  match l with [a; b; c; d] => Ok (a, b, c, d) | _ => Raise ValueError end.

(** What one crown face gives: the edges whose intersections are appended, the faces, the boundary edge and the
    increment of the index of the next intersection. *)
Record cutting := Cut { q_edges : list (nat * nat); q_faces : list (list nat); q_bound : option (nat * nat); q_shift : nat }.

(** mesh_clipper.py:369-661, one turn of the loop on the faces of the crown, [n] being the current index *)
Definition clip_face (tol : R) (dist : list R) (n : nat) (face : list nat) : res cutting :=
  do ds <- mapM (get dist) face;
  let va := where_ (above tol) ds in
  let vo := where_ (on tol) ds in
  let vb := where_ (below tol) ds in
  let type a o b := (length va =? a) && (length vo =? o) && (length vb =? b) in
  if type 2 0 2 then
    do a0 <- get va 0; do a1 <- get va 1;
    do (i0, i1, i2, i3) <- unpack4 (if a1 =? a0 + 1 then roll_by a1 face else face);
    Ok (Cut [(i0, i1); (i2, i3)] [[n; i1; i2; n + 1]] (Some (n, n + 1)) 2)
  else if type 3 0 1 then
    do b0 <- get vb 0; let face := roll_by b0 face in
    do i0 <- get face 0; do i1 <- get face 1; do i3 <- get face 3;
    Ok (Cut [(i0, i3); (i0, i1)] [[n; i0; n + 1; n]] (Some (n, n + 1)) 2)
  else if type 1 0 3 then
    do a0 <- get va 0; let face := roll_by a0 face in
    do i0 <- get face 0; do i1 <- get face 1; do i3 <- get face 3; do i2 <- get face 2;
    Ok (Cut [(i0, i1); (i0, i3)] [[n; i1; i3; n + 1]; [i1; i2; i3; i1]] (Some (n, n + 1)) 2)
  else if type 1 0 2 then
    do a0 <- get va 0;
    do (i0, i1, i2) <- unpack3 (roll_by a0 face);
    Ok (Cut [(i0, i1); (i0, i2)] [[n; i1; i2; n + 1]] (Some (n, n + 1)) 2)
  else if type 2 0 1 then
    do b0 <- get vb 0;
    do (i0, i1, i2) <- unpack3 (roll_by b0 face);
    Ok (Cut [(i0, i2); (i0, i1)] [[n; i0; n + 1; n]] (Some (n, n + 1)) 2)
  else if type 2 1 1 then
    do o0 <- get vo 0; let face := roll_by o0 face in
    do i0 <- get face 0; do i1 <- get face 1; do d1 <- get dist i1;
    do i2 <- get face 2;
    if Rltb d1 0 then Ok (Cut [(i1, i2)] [[i0; i1; n; i0]] (Some (i0, n)) 1)
    else do i3 <- get face 3; Ok (Cut [(i2, i3)] [[n; i3; i0; n]] (Some (n, i0)) 1)
  else if type 1 1 2 then
    do o0 <- get vo 0; let face := roll_by o0 face in
    do i0 <- get face 0; do i1 <- get face 1; do d1 <- get dist i1;
    do i2 <- get face 2; do i3 <- get face 3;
    if Rltb d1 0 then Ok (Cut [(i2, i3)] [[i0; i1; i2; n]] (Some (i0, n)) 1)
    else Ok (Cut [(i1, i2)] [[n; i2; i3; i0]] (Some (n, i0)) 1)
  else if type 0 1 3 then Ok (Cut [] [face] None 0)
  else if type 2 1 0 || type 3 1 0 then Ok (Cut [] [] None 0)
  else if type 1 1 1 then
    do o0 <- get vo 0; let face := roll_by o0 face in
    do i0 <- get face 0; do i1 <- get face 1; do i2 <- get face 2; do d1 <- get dist i1;
    if Rltb d1 0 then Ok (Cut [(i1, i2)] [[i0; i1; n; i0]] (Some (i0, n)) 1)
    else Ok (Cut [(i1, i2)] [[n; i2; i0; n]] (Some (n, i0)) 1)
  else if type 1 2 0 then Ok (Cut [] [] None 0)
  else if type 0 2 1 then
    do b0 <- get vb 0; let face := roll_by b0 face in
    do i0 <- get face 0; do i1 <- get face 1; do i2 <- get face 2;
    Ok (Cut [] [face ++ [i0]] (Some (i2, i1)) 0)
  else if type 0 2 2 then
    do o0 <- get vo 0; do o1 <- get vo 1;
    let face := if o1 =? o0 + 1 then roll_by o1 face else face in
    do i0 <- get face 0; do i3 <- get face 3;
    Ok (Cut [] [face] (Some (i0, i3)) 0)
  else if type 0 1 2 then do i0 <- get face 0; Ok (Cut [] [face ++ [i0]] None 0)
  else if type 2 2 0 then Ok (Cut [] [] None 0)
  else if type 1 2 1 then
    do a0 <- get va 0; let face := roll_by a0 face in
    do i1 <- get face 1; do i3 <- get face 3; do i2 <- get face 2;
    Ok (Cut [] [[i1; i2; i3; i1]] (Some (i1, i3)) 0)
  else if type 3 0 0 || type 4 0 0 then Ok (Cut [] [] None 0)
  else if type 0 0 3 then do i0 <- get face 0; Ok (Cut [] [face ++ [i0]] None 0)
  else if type 0 0 4 then Ok (Cut [] [face] None 0)
  else if type 0 3 0 || type 0 4 0 then Ok (Cut [] [] None 0)
  else Raise PlainException.

(** mesh.py:330-353, the point *)
Definition intersection (p : plane) (a b : vec) : res vec :=
  do x <- get_edge_intersection p a b;
  match x with Some x => Ok x | None => Raise NotANumber end.

(** Variables of the loop: intersections, crown_faces, the two dictionaries of boundary edges, index. *)
Record crown_state := mkCrown { cs_ints : list vec; cs_faces : list (list nat);
                                cs_direct : list (nat * nat); cs_inv : list (nat * nat); cs_index : nat }.

(** mesh_clipper.py:367-666, one turn: the cut points, then the dictionaries at 663-666 *)
Definition clip_step (p : plane) (tol : R) (vs : list vec) (dist : list R) (st : crown_state) (f : face) : res crown_state :=
  do c <- clip_face tol dist (cs_index st) (face_w f);
  do xs <- mapM (fun e => do a <- get vs (fst e); do b <- get vs (snd e); intersection p a b) (q_edges c);
  let '(d, i) := match q_bound c with
                 | Some (a, b) => (od_set (cs_direct st) a b, od_set (cs_inv st) b a)
                 | None => (cs_direct st, cs_inv st)
                 end in
  Ok (mkCrown (cs_ints st ++ xs) (cs_faces st ++ q_faces c) d i (cs_index st + q_shift c)).
Definition clip_faces (p : plane) (tol : R) (vs : list vec) (dist : list R) (fs : list face) : res crown_state :=
  foldM (clip_step p tol vs dist) fs (mkCrown [] [] [] [] (length vs)).

(** mesh.py:410-415 Mesh(vertices, crown_faces): np.array(faces).shape[1] == 4. No line: the shape has one component.
    Lines of different lengths: no array (ValueError with numpy 1.24 or later). *)
Definition to_face (l : list nat) : res face :=
  match l with [a; b; c; d] => Ok (F4 a b c d) | _ => Raise AssertionError end.
Definition faces_array (ls : list (list nat)) : res (list face) :=
  match ls with
  | [] => Raise IndexError
  | l :: t => if forallb (fun l' => length l' =? length l) t then mapM to_face ls else Raise ValueError
  end.

(** dict(zip(new_id[keys], new_id[values])), mesh_clipper.py:679-681 *)
Definition renumber_dict (ids : list nat) (d : list (nat * nat)) : res (list (nat * nat)) :=
  do l <- mapM (fun e => do a <- get ids (fst e); do b <- get ids (snd e); Ok (a, b)) d;
  Ok (fold_left (fun d e => od_set d (fst e) (snd e)) l []).

(** mesh_clipper.py:705-711: the queue, in the order of the line, and what is left of the direct edges. The dictionary
    of direct edges shrinks, its length is enough fuel. *)
Fixpoint queue (fuel : nat) (inv d : list (nat * nat)) (v : nat) : list nat * list (nat * nat) :=
  match fuel with
  | O => ([], d)
  | S n =>
      match od_get inv v with
      | None => ([], d)
      | Some w =>
          match od_get d w with
          | None => ([], d)
          | Some _ => let (l, d') := queue n inv (od_del d w) w in (l ++ [w], d')
          end
      end
  end.

(** mesh_clipper.py:683-746: closed polygons and open lines. [chain] is the loop at 693-697. *)
Fixpoint curves (fuel : nat) (inv d : list (nat * nat)) : list (list nat) * list (list nat) :=
  match fuel with
  | O => ([], [])
  | S n =>
      match rev d with
      | [] => ([], [])
      | (o, t) :: r =>
          let (l, d') := chain (length d) (rev r) t in
          let line := o :: t :: l in
          if o =? last line 0 then let (c, op) := curves n inv d' in (line :: c, op)
          else
            let (q, d'') := queue (length d) inv d' o in
            let (c, op) := curves n inv d'' in (c, (q ++ line) :: op)
      end
  end.

Section Clipper.
  Variable argsort : list R -> list nat.

  (** mesh_clipper.py:676 *)
  Definition crown_atol : R := (1 / 100000)%R.

  (** mesh_clipper.py:337-752 _clip_crown_by_plane *)
  Definition clip_crown (p : plane) (tol : R) (assert_closed : bool) (c : part) :
    res (mesh * list (list nat) * list (list nat)) :=
    let vs := verts (pt_mesh c) in
    do st <- clip_faces p tol vs (pt_dist c) (faces (pt_mesh c));
    do fs <- faces_array (cs_faces st);
    do (m, new_id) <- merge_duplicates_index argsort crown_atol (mkMesh (vs ++ cs_ints st) fs);
    do direct <- renumber_dict new_id (cs_direct st);
    do inv <- renumber_dict new_id (cs_inv st);
    let (closed, open) := curves (length direct) inv direct in
    if assert_closed && negb (length open =? 0) then Raise RuntimeError else Ok (m, closed, open).

  Record clipper := mkClipper { k_partition : partition; clipped_crown : mesh;
                                polygons : list (list nat); lines : list (list nat); clipped : mesh }.

  (** mesh_clipper.py:27-39, 108-113 and 754-761 *)
  Definition mesh_clipper (p : plane) (tol : R) (assert_closed : bool) (m : mesh) : res clipper :=
    match refused tol (distances p m) with
    | Some _ => Raise RuntimeError
    | None =>
        do part <- partition_mesh p tol m;
        do (cc, closed, open) <- clip_crown p tol assert_closed (crown part);
        do r <- add argsort (pt_mesh (lower part)) cc;
        Ok (mkClipper part cc closed open r)
    end.
End Clipper.
