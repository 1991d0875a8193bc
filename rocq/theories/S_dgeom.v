(** Specification of areas in terms of points, and of faces that roundings cannot reduce to nothing. *)
From Coq Require Import Reals List Arith.
From Verif Require Import M_base M_mesh S_mesh S_geometry S_double.
Import ListNotations.
Open Scope R_scope.

(** Coordinates up to [L]; [L] itself is not smaller than 10^-60. *)
Definition extent (L : R) (m : mesh) : Prop := powerRZ 2 (-200) <= L /\ Forall (bounded L) (verts m).

Definition triangle_area (a b c : vec) : R := norm (triangle_normal a b c) / 2.
Definition face_area (vs : list vec) (f : face) : R :=
  let a := point vs (f0 f) in let b := point vs (f1 f) in let c := point vs (f2 f) in let d := point vs (f3 f) in
  if Nat.eq_dec (f0 f) (f3 f) then triangle_area a b c else triangle_area a b c + triangle_area a c d.
Definition surface_area (m : mesh) : R := Rsum (map (face_area (verts m)) (faces m)).
(** The cross product of the diagonals of a quadrangle, of two sides of a triangle. *)
Definition across (vs : list vec) (f : face) : vec :=
  let a := point vs (f0 f) in let b := point vs (f1 f) in let c := point vs (f2 f) in let d := point vs (f3 f) in
  if Nat.eq_dec (f0 f) (f3 f) then triangle_normal a b c else cross (vsub c a) (vsub d b).

(** Faces whose area is well above the roundings of numbers of size L^2 (about 10^-13 L^2), and that are not folded (the norm of
    the cross product of the diagonals is twice the area for planar convex quadrangles). *)
Definition wide (L : R) (vs : list vec) (f : face) : Prop :=
  1000 * (ulp1 * (L * L)) <= face_area vs f /\ face_area vs f <= norm (across vs f).
