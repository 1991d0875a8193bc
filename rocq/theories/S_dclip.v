(** Specification of clipping in double precision: the same mesh up to the numbering of its vertices and to small displacements. *)
From Coq Require Import Reals List Arith.
From Verif Require Import M_base M_plane M_mesh S_mesh S_geometry S_clipper S_double.
Import ListNotations.
Open Scope R_scope.

(** No vertex near enough to the tolerance for roundings to matter: either nearer than [tol] by [e], or at least at [g], more than [e]
    above [tol]. *)
Definition firm (p : plane) (tol e g : R) (x : vec) : Prop :=
  Rabs (height p x) + e < tol \/ tol + e < Rabs (height p x) /\ g <= Rabs (height p x).
(** Each coordinate of two points is the same or differs by more than [t]. *)
Definition apart_or_same (t : R) (x y : R) : Prop := x = y \/ t < Rabs (x - y).
Definition well_spread (t : R) (Q : vec -> Prop) : Prop := forall x y, Q x -> Q y ->
  apart_or_same t (vx x) (vx y) /\ apart_or_same t (vy x) (vy y) /\ apart_or_same t (vz x) (vz y).

Definition map_face (r : nat -> nat) (f : face) : face := F4 (r (f0 f)) (r (f1 f)) (r (f2 f)) (r (f3 f)).
(** [m'] is [m] with its vertices numbered by [r] and moved by at most [t] along each axis. *)
Record alike (t : R) (r : nat -> nat) (m m' : mesh) : Prop := {
  al_count : length (verts m') = length (verts m);
  al_injective : forall i j, r i = r j -> i = j;
  al_faces : faces m' = map (map_face r) (faces m);
  al_verts : forall i v, nth_error (verts m) i = Some v -> exists v', nth_error (verts m') (r i) = Some v' /\ near_point t v v'
}.
