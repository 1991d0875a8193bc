(** Specification of the cache: what each call does on meshes without any cache, and a discipline that makes the cache
    invisible. *)
From Coq Require Import Reals List Arith Bool.
From Verif Require Import M_base M_merge M_plane M_rotations M_mesh M_inertia M_geometry M_connectivity M_cache
  S_mesh S_rotations S_geometry.
Import ListNotations.

Section Fresh.
  Variable argsort : list R -> list nat.
  Variable order : list nat -> list nat.

  Definition heal_mesh (m : mesh) : res mesh :=
    do m <- remove_unused_vertices m;
    do m <- remove_degenerated_faces default_rtol m;
    do m <- merge_duplicates argsort default_atol m;
    heal_normals order (heal_triangles m).

  Definition changed (r : res mesh) : res (mesh * answer) := do m <- r; Ok (m, Done).
  Definition asked {A} (m : mesh) (f : A -> answer) (r : res A) : res (mesh * answer) := do a <- r; Ok (m, f a).

  (** The call on a mesh built afresh from the current vertices and faces. *)
  Definition fresh_step (c : call) (m : mesh) : res (mesh * answer) :=
    match c with
    | SetVertices vs => Ok (mkMesh vs (faces m), Done)
    | SetFaces fs => Ok (mkMesh (verts m) fs, Done)
    | Translate t => Ok (translate t m, Done)
    | TranslateX t => Ok (translate_x t m, Done)
    | TranslateY t => Ok (translate_y t m, Done)
    | TranslateZ t => Ok (translate_z t m, Done)
    | RotateMatrix r => Ok (rotate_matrix r m, Done)
    | Rotate a b c => Ok (rotate a b c m, Done)
    | Scale a => changed (scale a m)
    | ScaleX a => changed (scalex a m)
    | ScaleY a => changed (scaley a m)
    | ScaleZ a => changed (scalez a m)
    | FlipNormals => Ok (flip_normals m, Done)
    | Merge atol => changed (merge_duplicates argsort atol m)
    | HealNormals => changed (heal_normals order m)
    | RemoveUnused => changed (remove_unused_vertices m)
    | HealTriangles => Ok (heal_triangles m, Done)
    | RemoveDegenerated rtol => changed (remove_degenerated_faces rtol m)
    | HealMesh => changed (heal_mesh m)
    | Triangulate => changed (triangulate_quadrangles m)
    | Symmetrize p => changed (symmetrize argsort p m)
    | Mirror p => Ok (mirror p m, Done)
    | QIds => Ok (m, Ids (triangles_ids (faces m), quadrangles_ids (faces m)))
    | QProps => asked m Props (faces_properties m)
    | QConn => asked m Conn (mesh_connectivity order m)
    | QInts => asked m Ints (faces_integrals m)
    | QVolume => asked m Real (volume m)
    | QPlain rho => asked m Body (eval_plain_mesh_inertias rho m)
    | QShell rho t => asked m Body (eval_shell_mesh_inertias rho t m)
    | QClosed => asked m Closed (is_mesh_closed order m)
    | QConformal => asked m Conformal (is_mesh_conformal order m)
    | QBox => asked m Box (axis_aligned_bbox m)
    | QEdges => asked m Edges (edges_stats m)
    end.

  Fixpoint fresh_run (h : list call) (m : mesh) : res (mesh * list answer) :=
    match h with
    | [] => Ok (m, [])
    | c :: t => do (m, a) <- fresh_step c m; do (m, l) <- fresh_run t m; Ok (m, a :: l)
    end.

  (** Conditions on the mesh for the calls that update cached values instead of dropping them. *)
  Definition movable (c : call) (m : mesh) : Prop :=
    match c with
    | Translate _ | TranslateX _ | TranslateY _ | TranslateZ _ | Rotate _ _ _ => valid m /\ proper_mesh m
    | RotateMatrix r => valid m /\ proper_mesh m /\ is_rotation r
    | FlipNormals => valid m /\ planar_mesh m
    | RemoveUnused | HealMesh => valid m
    | _ => True
    end.
  Fixpoint movable_along (h : list call) (m : mesh) : Prop :=
    match h with
    | [] => True
    | c :: t => movable c m /\ forall m' a, fresh_step c m = Ok (m', a) -> movable_along t m'
    end.
End Fresh.

(** ** The discipline *)
(** What may be cached, as far as the sequence of calls tells: ids of triangles, face properties, surface integrals;
    and the connectivity, which may be absent, up to date, or out of date. *)
Inductive conn_state := NoConn | GoodConn | BadConn.
Record flags := Fl { may_ids : bool; has_props : bool; has_ints : bool; fconn : conn_state }.
Definition no_flags : flags := Fl false false false NoConn.
Definition spoil (c : conn_state) : conn_state := match c with NoConn => NoConn | _ => BadConn end.
Definition spoiled (f : flags) : flags := Fl false false false (spoil (fconn f)).

(** Flags after a call, [None] when the call is not covered. *)
Definition next (c : call) (f : flags) : option flags :=
  match c with
  | SetVertices _ | SetFaces _ | Triangulate | Symmetrize _ | Mirror _ => Some no_flags
  | Translate _ | TranslateX _ | TranslateY _ | TranslateZ _ | RotateMatrix _ | Rotate _ _ _ =>
      Some (Fl (may_ids f) (has_props f) false (fconn f))
  (* not when surface integrals are cached without face properties *)
  | Scale _ | ScaleX _ | ScaleY _ | ScaleZ _ =>
      if has_props f then Some (Fl false false false (fconn f))
      else if has_ints f then None else Some f
  | FlipNormals => Some (Fl (may_ids f) (has_props f) false (spoil (fconn f)))
  (* not when anything about the faces is cached *)
  | Merge _ => if may_ids f || has_props f || has_ints f then None else Some no_flags
  (* not when something about the faces is cached, but for the face properties *)
  | HealTriangles => if has_props f then Some (spoiled f) else if may_ids f || has_ints f then None else Some (spoiled f)
  (* not when the connectivity is out of date, nor with cached properties or integrals *)
  | HealNormals =>
      match fconn f with
      | BadConn => None
      | _ => if has_props f || has_ints f then None else Some (Fl true false false BadConn)
      end
  | RemoveUnused => Some (Fl (may_ids f) (has_props f) (has_ints f) NoConn)
  | RemoveDegenerated _ => Some (spoiled f)
  | HealMesh => Some (Fl true false false BadConn)
  | QIds => Some (Fl true (has_props f) (has_ints f) (fconn f))
  | QProps => Some (Fl true true (has_ints f) (fconn f))
  | QInts => Some (Fl true (has_props f) true (fconn f))
  | QVolume | QPlain _ | QShell _ _ => Some (Fl true true true (fconn f))
  (* not when the connectivity is out of date *)
  | QConn | QClosed | QConformal =>
      match fconn f with BadConn => None | _ => Some (Fl (may_ids f) (has_props f) (has_ints f) GoodConn) end
  | QBox | QEdges => Some f
  end.
Fixpoint disciplined (f : flags) (h : list call) : bool :=
  match h with
  | [] => true
  | c :: t => match next c f with Some f => disciplined f t | None => false end
  end.

(** The visible part of a run. *)
Definition visible {A} (r : res (cmesh * A)) : res (mesh * A) :=
  match r with Ok (s, a) => Ok (cm s, a) | Raise e => Raise e end.
