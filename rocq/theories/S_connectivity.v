(** Specifications for connectivity and normal healing. *)
From Coq Require Import Reals List Arith.
From Verif Require Import M_base M_mesh S_mesh.
Import ListNotations.
Open Scope nat_scope.

(** Directed edges around a face: three for a triangle (first and last entries equal), four otherwise. *)
Definition cycle_edges (f : face) : list (nat * nat) :=
  if Nat.eq_dec (f0 f) (f3 f) then [(f0 f, f1 f); (f1 f, f2 f); (f2 f, f0 f)]
  else [(f0 f, f1 f); (f1 f, f2 f); (f2 f, f3 f); (f3 f, f0 f)].
(** No corner is repeated (but for the last entry of a triangle). *)
Definition simple_face (f : face) : Prop :=
  if Nat.eq_dec (f0 f) (f3 f) then NoDup [f0 f; f1 f; f2 f] else NoDup [f0 f; f1 f; f2 f; f3 f].
Definition simple (m : mesh) : Prop := Forall simple_face (faces m).

(** Two vertices consecutive around some face. *)
Definition linked (fs : list face) (u v : nat) : Prop :=
  exists f, In f fs /\ (In (u, v) (cycle_edges f) \/ In (v, u) (cycle_edges f)).
(** Face number [k] has vertex [v] as a corner / has both vertices. *)
Definition face_at (fs : list face) (k v : nat) : Prop := exists f, nth_error fs k = Some f /\ uses [f] v.
Definition holds_both (fs : list face) (u v k : nat) : Prop := face_at fs k u /\ face_at fs k v.

(** Two faces adjacent through two vertices: they are the only two faces holding them, and the vertices are consecutive
    around some face. *)
Definition adjacent (fs : list face) (f g : nat) : Prop :=
  f <> g /\ exists u v, linked fs u v /\ forall k, holds_both fs u v k <-> k = f \/ k = g.

(** Border edge, directed along the only face that holds its two vertices. *)
Definition border (fs : list face) (u v : nat) : Prop :=
  exists k f, nth_error fs k = Some f /\ In (u, v) (cycle_edges f) /\ forall k', holds_both fs u v k' -> k' = k.

(** Consecutive pairs of a list. *)
Fixpoint pairs (l : list nat) : list (nat * nat) :=
  match l with
  | a :: (b :: _) as t => (a, b) :: pairs t
  | _ => []
  end.

(** An iteration order of sets. *)
Definition iteration (order : list nat -> list nat) : Prop := forall l, Permutation.Permutation (order l) l.

(** Orientation of two neighbouring faces: the directed edges around them that join their common vertices are opposite. *)
Definition consistent (f g : face) : Prop :=
  forall u v, In (u, v) (cycle_edges f) -> ~ In (u, v) (cycle_edges g).
(** The common vertices of two faces are the ends of an edge of both. *)
Definition edge_neighbours (f g : face) : Prop :=
  exists u v, u <> v /\ (forall x, uses [f] x /\ uses [g] x <-> x = u \/ x = v) /\
    (In (u, v) (cycle_edges f) \/ In (v, u) (cycle_edges f)) /\
    (In (u, v) (cycle_edges g) \/ In (v, u) (cycle_edges g)).

(** [fs'] is [fs] with the faces of [s] reversed. *)
Definition reversed_by (s : nat -> bool) (fs fs' : list face) : Prop :=
  length fs' = length fs /\
  forall k f, nth_error fs k = Some f -> nth_error fs' k = Some (if s k then flip_face f else f).
(** Every pair of adjacent faces is consistent. *)
Definition oriented (fs : list face) : Prop :=
  forall i j f g, adjacent fs i j -> nth_error fs i = Some f -> nth_error fs j = Some g -> consistent f g.

(** An edge whose two vertices lie in three faces. *)
Definition crowded (fs : list face) : Prop :=
  exists u v a b c, linked fs u v /\ holds_both fs u v a /\ holds_both fs u v b /\ holds_both fs u v c /\
    a <> b /\ a <> c /\ b <> c.
(** The border edges go around: at most one leaves and one enters each vertex, and one leaves when one enters. *)
Definition circular_border (fs : list face) : Prop :=
  (forall a b c, border fs a b -> border fs a c -> b = c) /\
  (forall a b c, border fs b a -> border fs c a -> b = c) /\
  (forall a, (exists b, border fs a b) <-> (exists b, border fs b a)).

(** Adjacent faces meet along an edge of both, and only there. *)
Definition share_edges (fs : list face) : Prop :=
  forall i j f g, adjacent fs i j -> nth_error fs i = Some f -> nth_error fs j = Some g -> edge_neighbours f g.
(** Some choice of reversals makes all adjacent faces consistent. *)
Definition orientable (fs : list face) : Prop :=
  exists s fs', reversed_by s fs fs' /\ oriented fs'.

(** Twice the area enclosed by the horizontal projection of a closed polygon. *)
Definition horizontal_area (vs : list vec) (b : list nat) : R :=
  Rsum (map (fun e => (vx (point vs (fst e)) * vy (point vs (snd e)) - vx (point vs (snd e)) * vy (point vs (fst e)))%R) (pairs b)).
