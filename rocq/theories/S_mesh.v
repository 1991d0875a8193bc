(** Specifications for the restructuring operations on meshes: corner coordinates, boundaries, surface sums. *)
From Coq Require Import Reals List ZArith Sorting.Sorted.
From Verif Require Import M_base M_mesh S_merge.
Import ListNotations.

(** Every vertex index of every face exists. *)
Definition valid_face (nv : nat) (f : face) : Prop := (f0 f < nv /\ f1 f < nv /\ f2 f < nv /\ f3 f < nv)%nat.
Definition valid (m : mesh) : Prop := Forall (valid_face (length (verts m))) (faces m).

(** [ps] are the coordinates of the four entries of face [f]. *)
Definition corners (vs : list vec) (f : face) (ps : list vec) : Prop :=
  exists a b c d, ps = [a; b; c; d] /\
    nth_error vs (f0 f) = Some a /\ nth_error vs (f1 f) = Some b /\
    nth_error vs (f2 f) = Some c /\ nth_error vs (f3 f) = Some d.

(** Face number [k] of the mesh, seen through its corner coordinates. *)
Definition face_points (m : mesh) (k : nat) (ps : list vec) : Prop :=
  exists f, nth_error (faces m) k = Some f /\ corners (verts m) f ps.

(** The vertex is an entry of some face of the list. *)
Definition uses (fs : list face) (i : nat) : Prop :=
  exists f, In f fs /\ (f0 f = i \/ f1 f = i \/ f2 f = i \/ f3 f = i).

(** Points within a tolerance, coordinate by coordinate. *)
Definition near_point (t : R) (a b : vec) : Prop :=
  (Rabs (vx a - vx b) <= t /\ Rabs (vy a - vy b) <= t /\ Rabs (vz a - vz b) <= t)%R.

(** Cyclic rotations of a face. *)
Definition rotations (f : face) : list face :=
  [f; F4 (f1 f) (f2 f) (f3 f) (f0 f); F4 (f2 f) (f3 f) (f0 f) (f1 f); F4 (f3 f) (f0 f) (f1 f) (f2 f)].

(** Two cyclically consecutive equal entries. *)
Definition repeated (f : face) : Prop := f0 f = f1 f \/ f1 f = f2 f \/ f2 f = f3 f \/ f3 f = f0 f.

(** Directed edges along the boundary of a face, null edges excluded from the count below. *)
Definition face_edges (f : face) : list (nat * nat) :=
  [(f0 f, f1 f); (f1 f, f2 f); (f2 f, f3 f); (f3 f, f0 f)].
Definition mesh_edges (fs : list face) : list (nat * nat) := flat_map face_edges fs.
Definition edge_eq_dec : forall x y : nat * nat, {x = y} + {x <> y}.
Proof. decide equality; apply Nat.eq_dec. Defined.
(** Number of times the edge is run along, minus number of times it is run along backwards. *)
Definition net_edge (fs : list face) (i j : nat) : Z :=
  (Z.of_nat (count_occ edge_eq_dec (mesh_edges fs) (i, j)) -
   Z.of_nat (count_occ edge_eq_dec (mesh_edges fs) (j, i)))%Z.
(** No boundary: every edge is run along as often in both directions. *)
Definition closed_surface (fs : list face) : Prop := forall i j, net_edge fs i j = 0%Z.

(** The triangles a surface is made of, a quadrangle being cut along its first diagonal. *)
Definition face_triangles (f : face) : list (nat * nat * nat) :=
  if Nat.eq_dec (f0 f) (f3 f) then [(f0 f, f1 f, f2 f)] else [(f0 f, f1 f, f2 f); (f0 f, f2 f, f3 f)].
Definition mesh_triangles (fs : list face) : list (nat * nat * nat) := flat_map face_triangles fs.

(** Sum of a quantity attached to triangles of points over a surface. *)
Definition point (vs : list vec) (i : nat) : vec := nth i vs vzero.
Definition surface_sum (phi : vec -> vec -> vec -> R) (vs : list vec) (fs : list face) : R :=
  Rsum (map (fun t => let '(a, b, c) := t in phi (point vs a) (point vs b) (point vs c)) (mesh_triangles fs)).

(** [m'] is made of the faces number [ids] of [m], with the vertices they use, vertex [k] of [m'] being vertex
    [nth id_v k] of [m]. *)
Record restricts (m : mesh) (ids : list nat) (m' : mesh) (id_v : list nat) : Prop := {
  restricts_count : length (faces m') = length ids;
  restricts_entries : forall k id f, nth_error ids k = Some id -> nth_error (faces m) id = Some f ->
    exists f', nth_error (faces m') k = Some f' /\
      nth_error id_v (f0 f') = Some (f0 f) /\ nth_error id_v (f1 f') = Some (f1 f) /\
      nth_error id_v (f2 f') = Some (f2 f) /\ nth_error id_v (f3 f') = Some (f3 f);
  (* the vertices kept are exactly the used ones, once each and in the same order *)
  restricts_used : forall i, In i id_v <->
    exists id f, In id ids /\ nth_error (faces m) id = Some f /\ uses [f] i;
  restricts_sorted : StronglySorted lt id_v;
  restricts_vertices : length (verts m') = length id_v /\
    forall k i, nth_error id_v k = Some i -> nth_error (verts m') k = nth_error (verts m) i
}.

(** [v'] is the mirror image of [v] in the plane of unit normal [n] and scalar [c]: the segment from one to the other
    is normal to the plane and its middle lies on the plane. *)
Definition mirror_image (n : vec) (c : R) (v v' : vec) : Prop :=
  (exists k, vsub v' v = vscale k n) /\ dot (vscale (1 / 2) (vadd v v')) n = c.
