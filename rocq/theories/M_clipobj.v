(** Model of the objects of class MeshClipper (meshmagick/mesh_clipper.py) with their setters, and of the planes and meshes
    that they share.

    Meshes, planes and clippers are Python objects: they live in three stores and a reference is a position in a store.
    Simplifications: names and messages are dropped; the meshes that a clipper hands out are not changed afterwards. *)
From Coq Require Import Reals List Arith Bool.
From Verif Require Import M_base M_merge M_plane M_mesh M_connectivity M_clipper M_hydro.
Import ListNotations.
Local Open Scope R_scope.

(** The dictionary __internals__: what is there after _vertices_positions_wrt_plane (121-136), _partition_mesh (138-186),
    _clip_crown_by_plane (748-752) and _clip (754-761) *)
Record internals := mkInternals { i_dist : option (list R); i_part : option partition;
                                  i_crown : option (mesh * list (list nat) * list (list nat)); i_clipped : option mesh }.
(** mesh_clipper.py:36 and 84, 104: an empty dictionary *)
Definition empty : internals := mkInternals None None None None.
(** mesh_clipper.py:30-36: the attributes; mesh and plane are references *)
Record clip_object := mkObject { c_mesh : nat; c_plane : nat; c_tol : R; c_assert : bool; c_data : internals }.

Section Objects.
  Variable argsort : list R -> list nat.

  (** mesh_clipper.py:108-113 _update: the dictionary afterwards, and the exception if there is one *)
  Definition update (p : plane) (tol : R) (closed : bool) (m : mesh) (i : internals) : internals * option exn :=
    match refused tol (distances p m) with
    | Some _ => (i, Some RuntimeError)
    | None =>
        let i := mkInternals (Some (distances p m)) (i_part i) (i_crown i) (i_clipped i) in
        match partition_mesh p tol m with
        | Raise e => (i, Some e)
        | Ok part =>
            let i := mkInternals (i_dist i) (Some part) (i_crown i) (i_clipped i) in
            match clip_crown argsort p tol closed (crown part) with
            | Raise e => (i, Some e)
            | Ok c =>
                let i := mkInternals (i_dist i) (i_part i) (Some c) (i_clipped i) in
                match add argsort (pt_mesh (lower part)) (fst (fst c)) with
                | Raise e => (i, Some e)
                | Ok r => (mkInternals (i_dist i) (i_part i) (i_crown i) (Some r), None)
                end
            end
        end
    end.

  Record world := mkWorld { w_planes : list plane; w_meshes : list mesh; w_clippers : list clip_object }.
  (** mesh_clipper.py:26: the default plane is made once, when the module is read, and is the first plane. *)
  Definition start : world := mkWorld [plane_new (V3 0 0 1) 0] [] [].
  Definition default_plane : nat := 0%nat.

  Inductive call :=
  | NewPlane (normal : vec) (scalar : R) | EditPlane (p : nat) (o : plane_op)
  | NewMesh (m : mesh) | EditMesh (r : nat) (m : mesh)
  | NewClipper (mesh : nat) (plane : option nat) (tol : R) (closed : bool)
  | SetPlane (k p : nat) | SetTol (k : nat) (tol : R) | AssertClosed (k : nat) (b : bool).

  Definition put {A} (l : list A) (i : nat) (x : A) : list A := firstn i l ++ x :: skipn (S i) l.
  Definition with_clippers (w : world) (l : list clip_object) : world := mkWorld (w_planes w) (w_meshes w) l.
  (** _update of the object [o], whose references must be there *)
  Definition refresh (w : world) (o : clip_object) : clip_object * option exn :=
    match nth_error (w_planes w) (c_plane o), nth_error (w_meshes w) (c_mesh o) with
    | Some p, Some m => let (i, e) := update p (c_tol o) (c_assert o) m (c_data o) in (mkObject (c_mesh o) (c_plane o) (c_tol o) (c_assert o) i, e)
    | _, _ => (o, Some NameError)
    end.

  (** One call: the objects afterwards, and the exception if there is one. A reference that is not there is a NameError. *)
  Definition step (w : world) (c : call) : world * option exn :=
    match c with
    (* mesh.py:162-174 *)
    | NewPlane n s => (mkWorld (w_planes w ++ [plane_new n s]) (w_meshes w) (w_clippers w), None)
    (* the methods of Plane, mesh.py:186-309 *)
    | EditPlane r o =>
        match nth_error (w_planes w) r with
        | Some p => (mkWorld (put (w_planes w) r (plane_step p o)) (w_meshes w) (w_clippers w), None)
        | None => (w, Some NameError)
        end
    | NewMesh m => (mkWorld (w_planes w) (w_meshes w ++ [m]) (w_clippers w), None)
    (* any method of Mesh that changes vertices or faces *)
    | EditMesh r m =>
        match nth_error (w_meshes w) r with
        | Some _ => (mkWorld (w_planes w) (put (w_meshes w) r m) (w_clippers w), None)
        | None => (w, Some NameError)
        end
    (* mesh_clipper.py:26-38 *)
    | NewClipper m p tol b =>
        let (o, e) := refresh w (mkObject m (match p with Some p => p | None => default_plane end) tol b empty) in
        match e with None => (with_clippers w (w_clippers w ++ [o]), None) | Some e => (w, Some e) end
    (* mesh_clipper.py:100-106 *)
    | SetPlane k p =>
        match nth_error (w_clippers w) k, nth_error (w_planes w) p with
        | Some o, Some _ =>
            let (o', e) := refresh w (mkObject (c_mesh o) p (c_tol o) (c_assert o) empty) in (with_clippers w (put (w_clippers w) k o'), e)
        | _, _ => (w, Some NameError)
        end
    (* mesh_clipper.py:80-86 *)
    | SetTol k tol =>
        match nth_error (w_clippers w) k with
        | Some o => let (o', e) := refresh w (mkObject (c_mesh o) (c_plane o) tol (c_assert o) empty) in (with_clippers w (put (w_clippers w) k o'), e)
        | None => (w, Some NameError)
        end
    (* mesh_clipper.py:61-70 *)
    | AssertClosed k b =>
        match nth_error (w_clippers w) k with
        | Some o => (with_clippers w (put (w_clippers w) k (mkObject (c_mesh o) (c_plane o) (c_tol o) b (c_data o))), None)
        | None => (w, Some NameError)
        end
    end.
  (** A sequence of calls; exceptions are caught. *)
  Definition after (w : world) (cs : list call) : world := fold_left (fun w c => fst (step w c)) cs w.

  (** hydrostatics.py:35 and hydrostatics_old.py:565: the clipper of the hydrostatics is made without a plane. *)
  Definition hydro_clipper (w : world) (m : mesh) : res clipper :=
    do p <- get (w_planes w) default_plane; mesh_clipper argsort p vicinity_tol true m.
End Objects.

(** The properties, mesh_clipper.py:188-335: a key that is not in the dictionary is a KeyError. *)
Definition key {A} (x : option A) : res A := match x with Some a => Ok a | None => Raise KeyError end.
Definition lower_mesh (o : clip_object) : res mesh := do p <- key (i_part (c_data o)); Ok (pt_mesh (lower p)).
Definition crown_mesh (o : clip_object) : res mesh := do p <- key (i_part (c_data o)); Ok (pt_mesh (crown p)).
Definition upper_mesh (o : clip_object) : res mesh := do p <- key (i_part (c_data o)); Ok (pt_mesh (upper p)).
Definition clipped_crown_mesh (o : clip_object) : res mesh := do c <- key (i_crown (c_data o)); Ok (fst (fst c)).
Definition clipped_mesh (o : clip_object) : res mesh := key (i_clipped (c_data o)).
Definition closed_polygons (o : clip_object) : res (list (list nat)) := do c <- key (i_crown (c_data o)); Ok (snd (fst c)).
Definition open_lines (o : clip_object) : res (list (list nat)) := do c <- key (i_crown (c_data o)); Ok (snd c).
(** mesh_clipper.py:259-276 and 308-324 *)
Definition curves_vertices (o : clip_object) (l : list (list nat)) : res (list (list vec)) :=
  mapM (fun line => do m <- clipped_crown_mesh o; mapM (get (verts m)) line) l.
Definition closed_polygons_vertices (o : clip_object) : res (list (list vec)) := do l <- closed_polygons o; curves_vertices o l.
Definition open_lines_vertices (o : clip_object) : res (list (list vec)) := do l <- open_lines o; curves_vertices o l.
(** mesh_clipper.py:278-287 and 326-335 *)
Definition nb_closed_polygons (o : clip_object) : res nat := do l <- closed_polygons o; Ok (length l).
Definition nb_open_lines (o : clip_object) : res nat := do l <- open_lines o; Ok (length l).
