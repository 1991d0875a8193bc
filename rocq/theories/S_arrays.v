(** Specification of arrays shared by meshes and callers: which arrays belong to a mesh, and what a caller who kept an
    array sees of it after a call. *)
From Coq Require Import Ascii String Reals List Arith NArith Bool.
From Verif Require Import M_base M_merge M_plane M_rotations M_mesh M_geometry M_connectivity M_cache M_text M_arrays.
Import ListNotations.

(** ** Arrays of a mesh *)
(** Arrays of points: vertices, normals, centers. *)
Definition own_points (o : obj) : list nat :=
  o_verts o :: match o_props o with Some (_, n, c) => [n; c] | None => [] end.
Definition own_faces (o : obj) : list nat := [o_faces o].
Definition own_numbers (o : obj) : list nat := match o_props o with Some (a, _, _) => [a] | None => [] end.

Definition apart {A} (l l' : list A) : Prop := forall a, In a l -> In a l' -> False.
(** No array belongs to two meshes. *)
Definition not_shared (o o' : obj) : Prop :=
  apart (own_points o) (own_points o') /\ apart (own_faces o) (own_faces o') /\ apart (own_numbers o) (own_numbers o').
Definition all_own (w : world) : Prop :=
  forall k l o o', k <> l -> nth_error (w_meshes w) k = Some o -> nth_error (w_meshes w) l = Some o' -> not_shared o o'.

(** The arrays of two heaps that do not belong to [o] are the same. *)
Definition others_same (h h' : heap) (o : obj) : Prop :=
  (forall a x, nth_error (h_points h) a = Some x -> ~ In a (own_points o) -> nth_error (h_points h') a = Some x) /\
  (forall a x, nth_error (h_faces h) a = Some x -> ~ In a (own_faces o) -> nth_error (h_faces h') a = Some x) /\
  (forall a x, nth_error (h_numbers h) a = Some x -> ~ In a (own_numbers o) -> nth_error (h_numbers h') a = Some x).

(** ** Programs *)
(** Writing into arrays of mesh [k] is what spoils the mesh. *)
Definition spares (k : nat) (a : action) (w : world) : Prop :=
  forall o, nth_error (w_meshes w) k = Some o ->
  match a with
  | WriteV a _ => ~ In a (own_points o)
  | WriteF a _ => ~ In a (own_faces o)
  | WriteR a _ => ~ In a (own_numbers o)
  | _ => True
  end.
(** The calls that a program makes on mesh [k], with the values given. *)
Definition call_on (k : nat) (a : action) (w : world) : list call :=
  match a with
  | Call k' c => if k' =? k then [c] else []
  | AssignV k' a => if k' =? k then [SetVertices (points (w_heap w) a)] else []
  | AssignF k' a => if k' =? k then [SetFaces (rows (w_heap w) a)] else []
  | _ => []
  end.
Section Programs.
  Variable argsort : list R -> list nat.
  Variable order : list nat -> list nat.
  (** The program [p] run from [w] never writes into arrays of mesh [k], and makes the calls [h] on it, with answers [l]. *)
  Inductive history (k : nat) : list action -> world -> list call -> list answer -> world -> Prop :=
  | h_nil : forall w, history k [] w [] [] w
  | h_cons : forall a p w x w' h l w'', spares k a w -> act argsort order a w = Ok (w', x) -> history k p w' h l w'' ->
      history k (a :: p) w (call_on k a w ++ h) (map (fun _ => x) (call_on k a w) ++ l) w''.
End Programs.

(** ** Kept arrays *)
(** What has become of an array that was handed out: still that of the mesh, or left alone. *)
Inductive fate := Attached | Detached.

Definition vertices_fate (c : call) (before after : mesh) : fate :=
  match c with
  | SetVertices _ | Translate _ | TranslateY _ | TranslateZ _ | RotateMatrix _ | Rotate _ _ _
  | Scale _ | ScaleX _ | ScaleY _ | ScaleZ _ | Symmetrize _ => Detached
  | Merge _ | RemoveUnused | HealMesh => if length (verts after) =? length (verts before) then Attached else Detached
  | _ => Attached
  end.

(** The array of vertices kept by a caller after a call that took [o] in heap [h] to [o'] in [h'] *)
Definition vertices_kept (f : fate) (h h' : heap) (o o' : obj) : Prop :=
  match f with
  (* it is that of the mesh *)
  | Attached => o_verts o' = o_verts o
  (* it is of no use to the mesh and has not changed *)
  | Detached => ~ In (o_verts o) (own_points o') /\ points h' (o_verts o) = points h (o_verts o)
  end.
Definition faces_kept (c : call) (h h' : heap) (o o' : obj) : Prop :=
  match c with
  | SetFaces _ | FlipNormals | Merge _ | RemoveDegenerated _ | HealMesh | Symmetrize _ | Mirror _ =>
      o_faces o' <> o_faces o /\ rows h' (o_faces o) = rows h (o_faces o)
  | RemoveUnused =>
      if length (points h' (o_verts o')) =? length (points h (o_verts o)) then o_faces o' = o_faces o
      else o_faces o' <> o_faces o /\ rows h' (o_faces o) = rows h (o_faces o)
  (* the faces before the last reversal of all of them, if there was one *)
  | HealNormals => o_faces o' = o_faces o \/
      o_faces o' <> o_faces o /\ rows h' (o_faces o') = map flip_face (rows h' (o_faces o))
  (* without the faces that were added at the end *)
  | Triangulate => o_faces o' <> o_faces o /\
      rows h' (o_faces o) = firstn (length (rows h (o_faces o))) (rows h' (o_faces o'))
  | _ => o_faces o' = o_faces o
  end.
(** Centers and normals of the faces that were handed out *)
Definition properties_kept (c : call) (h h' : heap) (a n e : nat) (o' : obj) : Prop :=
  match c with
  | Translate t => o_props o' = Some (a, n, e) /\ points h' e = map (fun v => vadd v t) (points h e) /\ points h' n = points h n
  | TranslateX t => o_props o' = Some (a, n, e) /\ points h' e = map (fun v => vadd v (V3 t 0 0)) (points h e) /\ points h' n = points h n
  | TranslateY t => o_props o' = Some (a, n, e) /\ points h' e = map (fun v => vadd v (V3 0 t 0)) (points h e) /\ points h' n = points h n
  | TranslateZ t => o_props o' = Some (a, n, e) /\ points h' e = map (fun v => vadd v (V3 0 0 t)) (points h e) /\ points h' n = points h n
  | RotateMatrix _ | Rotate _ _ _ => (exists n' e', o_props o' = Some (a, n', e') /\ n' <> n /\ e' <> e) /\
      points h' e = points h e /\ points h' n = points h n
  | FlipNormals => o_props o' = Some (a, n, e) /\ points h' e = points h e /\ points h' n = map vopp (points h n)
  | Mirror _ => o_props o' = None /\ points h' e = points h e /\ points h' n = map vopp (points h n)
  | SetVertices _ | SetFaces _ | Scale _ | ScaleX _ | ScaleY _ | ScaleZ _ | HealTriangles | RemoveDegenerated _
  | Triangulate | Symmetrize _ => o_props o' = None /\ points h' e = points h e /\ points h' n = points h n
  | HealNormals => o_props o' = None /\ points h' e = points h e /\
      (points h' n = points h n \/ points h' n = map vopp (points h n))
  | HealMesh => o_props o' = None /\ points h' e = points h e /\ points h' n = points h n
  | _ => o_props o' = Some (a, n, e) /\ points h' e = points h e /\ points h' n = points h n
  end.

(** ** Arrays of the caller *)
Section Reached.
  Variable argsort : list R -> list nat.
  Variable order : list nat -> list nat.
  Definition reached (w : world) : Prop := exists p l, exec argsort order p start = Ok (w, l).
End Reached.
(** An array that belongs to no mesh *)
Definition loose_points (w : world) (a : nat) : Prop :=
  (a < length (h_points (w_heap w)))%nat /\ forall k o, nth_error (w_meshes w) k = Some o -> ~ In a (own_points o).
Definition loose_faces (w : world) (a : nat) : Prop :=
  (a < length (h_faces (w_heap w)))%nat /\ forall k o, nth_error (w_meshes w) k = Some o -> ~ In a (own_faces o).
Definition writes_points (a : nat) (x : action) : bool := match x with WriteV b _ => a =? b | _ => false end.
Definition writes_faces (a : nat) (x : action) : bool := match x with WriteF b _ => a =? b | _ => false end.

(** ** Ids and names *)
Definition labels (w : world) : list (nat * text) := map (fun o => (o_id o, o_name o)) (w_meshes w).
Definition label_name (l : list (nat * text)) (k : nat) : text := snd (nth k l (0%nat, [])).
Definition automatic (i : nat) : text := M_text.s "mesh_" ++ digits (N.of_nat i).
(** The counter and the labels after an action *)
Definition relabel (a : action) (c : nat * list (nat * text)) : nat * list (nat * text) :=
  let (n, l) := c in
  match a with
  | New _ _ name => (S n, l ++ [(n, if List.length name =? 0 then automatic n else name)])
  | Copy k => (n, l ++ [nth k l (0%nat, [])])
  | Add k j => (S n, l ++ [(n, label_name l k ++ M_text.s "_" ++ label_name l j)])
  | Extract k _ => (S n, l ++ [(n, M_text.s "mesh_extracted_from_" ++ label_name l k)])
  | _ => (n, l)
  end.
(** Which mesh a mesh is a copy of, a copy of a copy of, ... *)
Fixpoint origins (p : list action) (l : list nat) : list nat :=
  match p with
  | [] => l
  | (New _ _ _ | Add _ _ | Extract _ _) :: p => origins p (l ++ [length l])
  | Copy k :: p => origins p (l ++ [nth k l 0%nat])
  | _ :: p => origins p l
  end.
Definition is_copy (a : action) : bool := match a with Copy _ => true | _ => false end.
(** New meshes are given no name. *)
Definition unnamed (a : action) : bool :=
  match a with New _ _ name => List.length name =? 0 | Copy _ | Add _ _ | Extract _ _ => false | _ => true end.
