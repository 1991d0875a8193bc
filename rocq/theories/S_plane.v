(** Specification vocabulary for planes. *)
From Coq Require Import Reals List.
From Verif Require Import M_base M_plane.
Open Scope R_scope.

(** The set of points of a plane object: n.x = c. *)
Definition on_plane (p : plane) (x : vec) : Prop := dot (p_normal p) x = p_scalar p.

(** [x] is on the segment from [a] to [b]. *)
Definition on_segment (a b x : vec) : Prop :=
  exists t, 0 <= t <= 1 /\ x = vadd (vscale (1 - t) a) (vscale t b).

Definition distance (a b : vec) : R := norm (vsub a b).

(** The operation assigns the normal directly. *)
Definition assigns_normal (o : plane_op) : Prop := match o with PSetNormal _ => True | _ => False end.
(** The assigned normal, if any, is not the zero vector. *)
Definition nonzero_normal (o : plane_op) : Prop := match o with PSetNormal v => v <> vzero | _ => True end.
