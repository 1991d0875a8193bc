(** Specification vocabulary for rotations. *)
From Coq Require Import Reals.
From Verif Require Import M_base M_rotations.
Open Scope R_scope.

(** A rotation of space: its inverse is its transpose and it keeps orientation. *)
Definition is_rotation (r : mat) : Prop := mmul (mtrans r) r = mid /\ mdet r = 1.

Definition unit_vec (v : vec) : Prop := dot v v = 1.
Definition unit_quat (q : quat) : Prop :=
  q0 q * q0 q + q1 q * q1 q + q2 q * q2 q + q3 q * q3 q = 1.
Definition qopp (q : quat) : quat := Q4 (- q0 q) (- q1 q) (- q2 q) (- q3 q).

(** Elementary rotations about the axes. *)
Definition Rot_x (a : R) : mat := M3 1 0 0  0 (cos a) (- sin a)  0 (sin a) (cos a).
Definition Rot_y (a : R) : mat := M3 (cos a) 0 (sin a)  0 1 0  (- sin a) 0 (cos a).
Definition Rot_z (a : R) : mat := M3 (cos a) (- sin a) 0  (sin a) (cos a) 0  0 0 1.

(** The image of [v] by the rotation of angle [angle] about the unit vector [axis]. *)
Definition rotate_about (axis : vec) (angle : R) (v : vec) : vec :=
  vadd (vadd (vscale (cos angle) v) (vscale (sin angle) (cross axis v)))
       (vscale ((1 - cos angle) * dot axis v) axis).
