(** Specification of clipper objects: what a clipper shows, and when that is up to date. *)
From Coq Require Import Reals List Arith Bool.
From Verif Require Import M_base M_merge M_plane M_mesh M_connectivity M_clipper M_clipobj S_clipper.
Import ListNotations.
Local Open Scope R_scope.

(** Everything that can be read from the object is that of the clipping [c]. *)
Record exposes (o : clip_object) (c : clipper) : Prop := {
  ex_lower : lower_mesh o = Ok (pt_mesh (lower (k_partition c)));
  ex_crown : crown_mesh o = Ok (pt_mesh (crown (k_partition c)));
  ex_upper : upper_mesh o = Ok (pt_mesh (upper (k_partition c)));
  ex_clipped_crown : clipped_crown_mesh o = Ok (clipped_crown c);
  ex_clipped : clipped_mesh o = Ok (clipped c);
  ex_polygons : closed_polygons o = Ok (polygons c);
  ex_lines : open_lines o = Ok (lines c);
  ex_nb_polygons : nb_closed_polygons o = Ok (length (polygons c));
  ex_nb_lines : nb_open_lines o = Ok (length (lines c));
  ex_polygons_vertices : exists l, closed_polygons_vertices o = Ok l /\
    Forall2 (Forall2 (fun i x => nth_error (verts (clipped_crown c)) i = Some x)) (polygons c) l;
  ex_lines_vertices : exists l, open_lines_vertices o = Ok l /\
    Forall2 (Forall2 (fun i x => nth_error (verts (clipped_crown c)) i = Some x)) (lines c) l }.
(** Nothing can be read from it. *)
Record blank (o : clip_object) : Prop := {
  bl_lower : lower_mesh o = Raise KeyError;
  bl_crown : crown_mesh o = Raise KeyError;
  bl_upper : upper_mesh o = Raise KeyError;
  bl_clipped_crown : clipped_crown_mesh o = Raise KeyError;
  bl_clipped : clipped_mesh o = Raise KeyError;
  bl_polygons : closed_polygons o = Raise KeyError;
  bl_lines : open_lines o = Raise KeyError;
  bl_nb_polygons : nb_closed_polygons o = Raise KeyError;
  bl_nb_lines : nb_open_lines o = Raise KeyError;
  bl_polygons_vertices : closed_polygons_vertices o = Raise KeyError;
  bl_lines_vertices : open_lines_vertices o = Raise KeyError }.

(** The clipper [k] and the plane, the tolerance, the option and the mesh that it has at present *)
Definition holds (w : world) (k : nat) (o : clip_object) (p : plane) (m : mesh) : Prop :=
  nth_error (w_clippers w) k = Some o /\ nth_error (w_planes w) (c_plane o) = Some p /\ nth_error (w_meshes w) (c_mesh o) = Some m.
(** The clipper [k] shows the clipping of its present mesh by its present plane with its present tolerance. *)
Definition current argsort (w : world) (k : nat) : Prop :=
  exists o p m c, holds w k o p m /\ mesh_clipper argsort p (c_tol o) false m = Ok c /\ exposes o c.

(** The call changes in place the plane or the mesh of the clipper [k], or sets its plane or tolerance. *)
Definition touches (w : world) (k : nat) (c : call) : Prop :=
  match c with
  | EditPlane r _ => exists o, nth_error (w_clippers w) k = Some o /\ c_plane o = r
  | EditMesh r _ => exists o, nth_error (w_clippers w) k = Some o /\ c_mesh o = r
  | SetPlane j _ | SetTol j _ => j = k
  | _ => False
  end.
(** The clipper that the call makes or sets *)
Definition builds (w : world) (c : call) (k : nat) : Prop :=
  match c with
  | NewClipper _ _ _ _ => k = length (w_clippers w)
  | SetPlane j _ | SetTol j _ => j = k
  | _ => False
  end.
(** The calls of a sequence that make or set the clipper [k] succeed, and none changes its mesh or its plane in place. *)
Fixpoint careful argsort (w : world) (k : nat) (cs : list call) : Prop :=
  match cs with
  | [] => True
  | c :: cs => (touches w k c -> builds w c k /\ snd (step argsort w c) = None) /\ careful argsort (fst (step argsort w c)) k cs
  end.
(** What the object [o'] has been told by the call: its mesh, plane, tolerance and option *)
Definition told (w : world) (c : call) (k : nat) (o' : clip_object) : Prop :=
  let settings o := (c_mesh o, c_plane o, c_tol o, c_assert o) in
  match c with
  | NewClipper m p tol b => k = length (w_clippers w) /\ settings o' = (m, match p with Some p => p | None => default_plane end, tol, b)
  | SetPlane j p => j = k /\ exists o, nth_error (w_clippers w) k = Some o /\ settings o' = (c_mesh o, p, c_tol o, c_assert o)
  | SetTol j tol => j = k /\ exists o, nth_error (w_clippers w) k = Some o /\ settings o' = (c_mesh o, c_plane o, tol, c_assert o)
  | AssertClosed j b => j = k /\ exists o, nth_error (w_clippers w) k = Some o /\ settings o' = (c_mesh o, c_plane o, c_tol o, b) /\ c_data o' = c_data o
  | _ => False
  end.
(** What can be read from [o'] after clipping the mesh [m] by [q] has failed with [e] *)
Definition failed argsort (q : plane) (tol : R) (closed : bool) (m : mesh) (e : exn) (o' : clip_object) : Prop :=
  mesh_clipper argsort q tol closed m = Raise e /\ clipped_mesh o' = Raise KeyError /\
  (Forall (is_above q tol) (verts m) \/ Forall (is_below q tol) (verts m) -> blank o') /\
  (forall c, closed = true -> mesh_clipper argsort q tol false m = Ok c ->
    e = RuntimeError /\ lines c <> [] /\
    lower_mesh o' = Ok (pt_mesh (lower (k_partition c))) /\ crown_mesh o' = Ok (pt_mesh (crown (k_partition c))) /\ upper_mesh o' = Ok (pt_mesh (upper (k_partition c))) /\
    clipped_crown_mesh o' = Raise KeyError /\ closed_polygons o' = Raise KeyError /\ open_lines o' = Raise KeyError).
