(** Model of the changes of the point of reduction in meshmagick/inertia.py (RigidBodyInertia) in double precision, with the roundings of M_double.v.

    Simplifications: those of M_inertia.v. *)
From Coq Require Import Reals List.
From Verif Require Import M_base M_merge M_plane M_mesh M_geometry M_inertia M_double M_dgeom.
Open Scope R_scope.

(** inertia.py:134-136, _huygens_transport: self._mass * (np.dot(p_g, p_g) * np.eye(3) - np.outer(p_g, p_g)) *)
Definition huygens_double (fdot : vec -> vec -> R) (b : rigid) : mat :=
  let pg := vsub_double (rb_cog b) (rb_point b) in
  let n := fdot pg pg in
  let entry e x y := fmul (rb_mass b) (fsub (fmul n e) (fmul x y)) in
  M3 (entry 1 (vx pg) (vx pg)) (entry 0 (vx pg) (vy pg)) (entry 0 (vx pg) (vz pg))
     (entry 0 (vy pg) (vx pg)) (entry 1 (vy pg) (vy pg)) (entry 0 (vy pg) (vz pg))
     (entry 0 (vz pg) (vx pg)) (entry 0 (vz pg) (vy pg)) (entry 1 (vz pg) (vz pg)).
(** The sum of two arrays *)
Definition madd_double (a b : mat) : mat :=
  M3 (fadd (m00 a) (m00 b)) (fadd (m01 a) (m01 b)) (fadd (m02 a) (m02 b))
     (fadd (m10 a) (m10 b)) (fadd (m11 a) (m11 b)) (fadd (m12 a) (m12 b))
     (fadd (m20 a) (m20 b)) (fadd (m21 a) (m21 b)) (fadd (m22 a) (m22 b)).
(** inertia.py:117-123, shift_at_cog; also 91-102, at_cog *)
Definition shift_at_cog_double (fdot : vec -> vec -> R) (b : rigid) : rigid :=
  mkRigid (rb_mass b) (rb_cog b) (rb_cog b) (madd_double (rb_mat b) (huygens_double fdot b)).
(** inertia.py:83-89, setter of reduction_point *)
Definition set_reduction_point_double (fdot : vec -> vec -> R) (b : rigid) (p : vec) : rigid :=
  let mat_at_cog := rb_mat (shift_at_cog_double fdot b) in
  let b1 := mkRigid (rb_mass b) (rb_cog b) p (rb_mat b) in
  mkRigid (rb_mass b1) (rb_cog b1) (rb_point b1) (madd_double mat_at_cog (huygens_double fdot b1)).
