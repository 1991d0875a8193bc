(** Specification: exact integrals over triangles and tetrahedra, as iterated Riemann integrals.
    ([is_RInt] is the Riemann integral of the Coquelicot library.) *)
From Coq Require Import Reals.
From Coquelicot Require Import Coquelicot.
From Verif Require Import M_base.
Open Scope R_scope.

(** [I] is the integral of [f] over the unit triangle 0 <= u, 0 <= v, u + v <= 1. *)
Definition is_unit_triangle_integral (f : R -> R -> R) (I : R) : Prop :=
  exists g : R -> R,
    (forall u, 0 <= u <= 1 -> is_RInt (fun v => f u v) 0 (1 - u) (g u)) /\
    is_RInt g 0 1 I.

(** [I] is the integral of [f] over the unit tetrahedron 0 <= u, v, w, u + v + w <= 1. *)
Definition is_unit_tetra_integral (f : R -> R -> R -> R) (I : R) : Prop :=
  exists g : R -> R -> R, exists h : R -> R,
    (forall u v, 0 <= u -> 0 <= v -> u + v <= 1 -> is_RInt (fun w => f u v w) 0 (1 - u - v) (g u v)) /\
    (forall u, 0 <= u <= 1 -> is_RInt (fun v => g u v) 0 (1 - u) (h u)) /\
    is_RInt h 0 1 I.

(** The point of the triangle [a], [b], [c] with parameters [u], [v]. *)
Definition triangle_point (a b c : vec) (u v : R) : vec :=
  vadd a (vadd (vscale u (vsub b a)) (vscale v (vsub c a))).

(** Surface element of the parametrisation: the parallelogram area. *)
Definition triangle_jacobian (a b c : vec) : R := norm (cross (vsub b a) (vsub c a)).

(** [I] is the surface integral of [phi] over the triangle [a], [b], [c]. *)
Definition is_surface_integral (phi : vec -> R) (a b c : vec) (I : R) : Prop :=
  is_unit_triangle_integral (fun u v => phi (triangle_point a b c u v) * triangle_jacobian a b c) I.

(** [I] is the signed volume integral of [phi] over the tetrahedron with apex the origin and base [a], [b], [c]
    (positive when the origin sees the base clockwise, i.e. when the base normal points away from the origin). *)
Definition is_cone_integral (phi : vec -> R) (a b c : vec) (I : R) : Prop :=
  is_unit_tetra_integral
    (fun u v w => phi (vadd (vscale u a) (vadd (vscale v b) (vscale w c))) * dot a (cross b c)) I.
