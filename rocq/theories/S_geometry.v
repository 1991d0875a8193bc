(** Specifications of the geometric quantities of a mesh. *)
From Coq Require Import Reals List.
From Verif Require Import M_base M_mesh S_mesh S_integral.
Import ListNotations.
Open Scope R_scope.

Definition unit (u : vec) : Prop := dot u u = 1.
Definition triangle_normal (a b c : vec) : vec := cross (vsub b a) (vsub c a).

(** Exact integral of [phi] over the surface of a mesh / over the signed tetrahedra joining the origin to it. *)
Definition is_triangles_integral (int : vec -> vec -> vec -> R -> Prop) (ts : list (vec * vec * vec)) (I : R) : Prop :=
  exists vals, Forall2 (fun t v => let '(a, b, c) := t in int a b c v) ts vals /\ Rsum vals = I.
Definition point_triangles (vs : list vec) (fs : list face) : list (vec * vec * vec) :=
  map (fun t => let '(i, j, k) := t in (point vs i, point vs j, point vs k)) (mesh_triangles fs).
Definition is_mesh_surface_integral (phi : vec -> R) (m : mesh) (I : R) : Prop :=
  is_triangles_integral (is_surface_integral phi) (point_triangles (verts m) (faces m)) I.
Definition is_mesh_volume_integral (phi : vec -> R) (m : mesh) (I : R) : Prop :=
  is_triangles_integral (is_cone_integral phi) (point_triangles (verts m) (faces m)) I.

(** Signed volume under a surface, by signed tetrahedra with apex [o]. *)
Definition tetra (o a b c : vec) : R := dot (vsub a o) (cross (vsub b o) (vsub c o)) / 6.
Definition signed_volume (o : vec) (m : mesh) : R := surface_sum (tetra o) (verts m) (faces m).

(** A quadrangle whose two triangles lie in one plane and are oriented alike. *)
Definition flat_quad (a b c d : vec) : Prop :=
  exists u k l, unit u /\ 0 <= k /\ 0 <= l /\ 0 < k + l /\
    triangle_normal a b c = vscale k u /\ triangle_normal a c d = vscale l u.
(** In particular, planar quadrangles that turn the same way at every corner and enclose a positive area. *)
Definition convex_planar (a b c d : vec) : Prop :=
  exists u, unit u /\
    dot u (vsub b a) = 0 /\ dot u (vsub c a) = 0 /\ dot u (vsub d a) = 0 /\
    0 <= dot u (cross (vsub b a) (vsub c b)) /\ 0 <= dot u (cross (vsub c b) (vsub d c)) /\
    0 <= dot u (cross (vsub d c) (vsub a d)) /\ 0 <= dot u (cross (vsub a d) (vsub b a)) /\
    0 < dot u (cross (vsub c a) (vsub d b)).
(** Meshes of non degenerate triangles and planar convex quadrangles. *)
Definition planar_face (vs : list vec) (f : face) : Prop :=
  if Nat.eq_dec (f0 f) (f3 f) then triangle_normal (point vs (f0 f)) (point vs (f1 f)) (point vs (f2 f)) <> vzero
  else convex_planar (point vs (f0 f)) (point vs (f1 f)) (point vs (f2 f)) (point vs (f3 f)).
Definition planar_mesh (m : mesh) : Prop := Forall (planar_face (verts m)) (faces m).

(** Faces on which the volume formula is exact. *)
Definition flat_face (vs : list vec) (f : face) : Prop :=
  if Nat.eq_dec (f0 f) (f3 f) then triangle_normal (point vs (f0 f)) (point vs (f1 f)) (point vs (f2 f)) <> vzero
  else flat_quad (point vs (f0 f)) (point vs (f1 f)) (point vs (f2 f)) (point vs (f3 f)).
Definition flat_mesh (m : mesh) : Prop := Forall (flat_face (verts m)) (faces m).

(** Faces whose normal and area are defined: no division by zero. *)
Definition proper_face (vs : list vec) (f : face) : Prop :=
  let a := point vs (f0 f) in let b := point vs (f1 f) in
  let c := point vs (f2 f) in let d := point vs (f3 f) in
  if Nat.eq_dec (f0 f) (f3 f) then triangle_normal a b c <> vzero
  else cross (vsub c a) (vsub d b) <> vzero /\
       (triangle_normal a b c <> vzero \/ triangle_normal a c d <> vzero).
Definition proper_mesh (m : mesh) : Prop := Forall (proper_face (verts m)) (faces m).

(** Box tests. *)
Definition tight (low high : R) (l : list R) : Prop :=
  (forall x, In x l -> low <= x <= high) /\ In low l /\ In high l.

(** Proper edges around a face: a triangle has three. *)
Definition edge_length (a b : vec) : R := norm (vsub b a).
Definition face_sides (vs : list vec) (f : face) : list R :=
  let a := point vs (f0 f) in let b := point vs (f1 f) in
  let c := point vs (f2 f) in let d := point vs (f3 f) in
  if Nat.eq_dec (f0 f) (f3 f) then [edge_length a b; edge_length b c; edge_length c a]
  else [edge_length a b; edge_length b c; edge_length c d; edge_length d a].
Definition is_max (M : R) (l : list R) : Prop := In M l /\ forall x, In x l -> x <= M.
Definition is_min (M : R) (l : list R) : Prop := In M l /\ forall x, In x l -> M <= x.

(** Area and vector area of a face: those of its triangles. *)
Definition face_area (vs : list vec) (f : face) : R :=
  Rsum (map (fun t => let '(i, j, k) := t in norm (triangle_normal (point vs i) (point vs j) (point vs k)) / 2)
            (face_triangles f)).
Definition vector_area (vs : list vec) (f : face) : vec :=
  vsum (map (fun t => let '(i, j, k) := t in vscale (1 / 2) (triangle_normal (point vs i) (point vs j) (point vs k)))
            (face_triangles f)).

(** Error made on the integral of the product of two coordinates over a triangle, times 24 over the surface element. *)
Definition warp (p q : vec -> R) (a b c : vec) : R :=
  4 * ((p b - p a) * (q b - q a) + (p c - p a) * (q c - q a))
  - ((p b - p a) * (q c - q a) + (p c - p a) * (q b - q a)).

(** Lengths of the edges around the faces. *)
Definition true_lengths (m : mesh) : list R := flat_map (face_sides (verts m)) (faces m).

(** Mean area of the faces. *)
Definition mean_area (m : mesh) : R := Rsum (map (face_area (verts m)) (faces m)) / INR (length (faces m)).

(** One of the three coordinates. *)
Definition coordinate (p : vec -> R) : Prop := p = vx \/ p = vy \/ p = vz.
