(** Model of meshmagick/inertia.py: RigidBodyInertia and the analytic shapes. *)
From Coq Require Import Reals.
From Verif Require Import M_base.
Open Scope R_scope.

(** inertia.py:17-56, class RigidBodyInertia. The attributes _mass, _cog, _point, _3d_rotational_inertia.
    Simplification: arguments are already floats and arrays of length 3 (the asserts at 44, 50, 110, 118 hold). *)
Record rigid := mkRigid { rb_mass : R; rb_cog : vec; rb_point : vec; rb_mat : mat }.

(** inertia.py:41-56, __init__: a missing reduction point is the center of gravity; products are stored negated. *)
Definition rigid_new (mass : R) (cog : vec) (xx yy zz yz xz xy : R) (point : option vec) : rigid :=
  mkRigid mass cog (match point with None => cog | Some p => p end)
          (M3 xx (- xy) (- xz) (- xy) yy (- yz) (- xz) (- yz) zz).

(** np.outer *)
Definition outer (a b : vec) : mat :=
  M3 (vx a * vx b) (vx a * vy b) (vx a * vz b)
     (vy a * vx b) (vy a * vy b) (vy a * vz b)
     (vz a * vx b) (vz a * vy b) (vz a * vz b).

(** inertia.py:134-136, _huygens_transport *)
Definition huygens (b : rigid) : mat :=
  let pg := vsub (rb_cog b) (rb_point b) in
  mscale (rb_mass b) (msub (mscale (dot pg pg) mid) (outer pg pg)).

(** inertia.py:117-123, shift_at_cog *)
Definition shift_at_cog (b : rigid) : rigid :=
  mkRigid (rb_mass b) (rb_cog b) (rb_cog b) (madd (rb_mat b) (huygens b)).

(** inertia.py:91-102, at_cog (a deep copy, shifted) *)
Definition at_cog (b : rigid) : rigid := shift_at_cog b.

(** inertia.py:84-89, setter of reduction_point *)
Definition set_reduction_point (b : rigid) (p : vec) : rigid :=
  let mat_at_cog := rb_mat (at_cog b) in
  let b1 := mkRigid (rb_mass b) (rb_cog b) p (rb_mat b) in
  mkRigid (rb_mass b1) (rb_cog b1) (rb_point b1) (madd mat_at_cog (huygens b1)).

(** inertia.py:105-115, set_cog *)
Definition set_cog (b : rigid) (c : vec) : rigid := mkRigid (rb_mass b) c (rb_point b) (rb_mat b).

(** inertia.py:125-132, is_at_cog *)
Definition is_at_cog (b : rigid) : bool :=
  (Reqb (vx (rb_point b)) (vx (rb_cog b)) && Reqb (vy (rb_point b)) (vy (rb_cog b))
   && Reqb (vz (rb_point b)) (vz (rb_cog b)))%bool.

(** inertia.py:138-196, the six accessors *)
Definition rb_xx (b : rigid) := m00 (rb_mat b).
Definition rb_yy (b : rigid) := m11 (rb_mat b).
Definition rb_zz (b : rigid) := m22 (rb_mat b).
Definition rb_yz (b : rigid) := - m12 (rb_mat b).
Definition rb_xz (b : rigid) := - m02 (rb_mat b).
Definition rb_xy (b : rigid) := - m01 (rb_mat b).

(** inertia.py:228-243 *)
Definition right_circular_cylinder (radius length density : R) : rigid :=
  let vol := PI * radius ^ 2 * length in
  let mass := density * vol in
  let Ixx := mass * (3 * radius ^ 2 + length ^ 2) / 12 in
  let Izz := mass * radius ^ 2 / 2 in
  rigid_new mass (V3 0 0 0) Ixx Ixx Izz 0 0 0 None.

(** inertia.py:245-260 *)
Definition hollow_right_circular_cylinder (int_radius ext_radius length density : R) : rigid :=
  let vol := PI * length * (ext_radius ^ 2 - int_radius ^ 2) in
  let mass := density * vol in
  let R2r2 := ext_radius ^ 2 + int_radius ^ 2 in
  let Ixx := mass * (3 * R2r2 + length ^ 2) / 12 in
  let Izz := mass * R2r2 / 2 in
  rigid_new mass (V3 0 0 0) Ixx Ixx Izz 0 0 0 None.

(** inertia.py:263-281 *)
Definition right_circular_cone (radius length density : R) : rigid :=
  let vol := PI * radius ^ 2 * length / 3 in
  let mass := density * vol in
  let Ixx := 3 * mass * (radius ^ 2 + length ^ 2 / 4) / 20 in
  let Izz := 3 * mass * radius ^ 2 / 10 in
  rigid_new mass (V3 0 0 0) Ixx Ixx Izz 0 0 0 None.

(** inertia.py:284-296 *)
Definition sphere (radius density : R) : rigid :=
  let vol := 4 * PI * radius ^ 3 / 3 in
  let mass := density * vol in
  let Ixx := 2 * mass * radius ^ 2 / 5 in
  rigid_new mass (V3 0 0 0) Ixx Ixx Ixx 0 0 0 None.

(** inertia.py:299-311. The division by ext^3 - int^3 is by zero when the radii are equal. *)
Definition hollow_sphere (int_radius ext_radius density : R) : rigid :=
  let vol := 4 * PI * (ext_radius ^ 3 - int_radius ^ 3) / 3 in
  let mass := density * vol in
  let Ixx := 2 * mass * (ext_radius ^ 5 - int_radius ^ 5) / (ext_radius ^ 3 - int_radius ^ 3) / 5 in
  rigid_new mass (V3 0 0 0) Ixx Ixx Ixx 0 0 0 None.

(** inertia.py:314-331 *)
Definition hemisphere (radius density : R) : rigid :=
  let vol := 2 * PI * radius ^ 3 / 3 in
  let mass := density * vol in
  let Ixx := 26 / 100 * mass * radius ^ 2 in
  rigid_new mass (V3 0 0 0) Ixx Ixx Ixx 0 0 0 None.

(** inertia.py:334-356 *)
Definition elliptical_cylinder (a b length density : R) : rigid :=
  let vol := PI * a * b * length in
  let mass := density * vol in
  let Ixx := mass * (3 * b ^ 2 + length ^ 2) / 12 in
  let Iyy := mass * (3 * a ^ 2 + length ^ 2) / 12 in
  let Izz := mass * (a ^ 2 + b ^ 2) / 4 in
  rigid_new mass (V3 0 0 0) Ixx Iyy Izz 0 0 0 None.

(** inertia.py:359-380 *)
Definition ellipsoid (a b c density : R) : rigid :=
  let vol := 4 * PI * a * b * c / 3 in
  let mass := density * vol in
  let Ixx := mass * (a ^ 2 + c ^ 2) / 5 in
  let Iyy := mass * (a ^ 2 + b ^ 2) / 5 in
  let Izz := mass * (b ^ 2 + c ^ 2) / 5 in
  rigid_new mass (V3 0 0 0) Ixx Iyy Izz 0 0 0 None.

(** inertia.py:383-397 *)
Definition torus (chord_radius tube_radius density : R) : rigid :=
  let vol := 2 * PI ^ 2 * tube_radius ^ 2 * chord_radius in
  let mass := density * vol in
  let Ixx := mass * (4 * chord_radius ^ 2 + 5 * tube_radius ^ 2) / 8 in
  let Iyy := mass * (4 * chord_radius ^ 2 + 3 * tube_radius ^ 2) / 4 in
  rigid_new mass (V3 0 0 0) Ixx Iyy Ixx 0 0 0 None.

(** inertia.py:400-415 *)
Definition right_angle_wedge (base height length density : R) : rigid :=
  let vol := base * height * length / 2 in
  let mass := density * vol in
  let Ixx := mass * (2 * height ^ 2 + 3 * length ^ 2) / 36 in
  let Iyy := mass * (base ^ 2 + height ^ 2) / 18 in
  let Izz := mass * (2 * base ^ 2 + 3 * length ^ 2) / 36 in
  rigid_new mass (V3 0 0 0) Ixx Iyy Izz 0 0 0 None.

(** inertia.py:418-433 *)
Definition isoceles_wedge (base height length density : R) : rigid :=
  let vol := base * height * length / 2 in
  let mass := density * vol in
  let Ixx := mass * (2 * height ^ 2 + 3 * length ^ 2) / 36 in
  let Iyy := mass * (4 * height ^ 2 + 3 * base ^ 2) / 72 in
  let Izz := mass * (2 * length ^ 2 + base ^ 2) / 24 in
  rigid_new mass (V3 0 0 0) Ixx Iyy Izz 0 0 0 None.

(** inertia.py:436-455 *)
Definition right_rectangular_pyramid (a b height density : R) : rigid :=
  let vol := a * b * height / 3 in
  let mass := density * vol in
  let Ixx := mass * (b ^ 2 + 3 * height ^ 2 / 4) / 20 in
  let Iyy := mass * (a ^ 2 + 3 * height ^ 2 / 4) / 20 in
  let Izz := mass * (a ^ 2 + b ^ 2) / 20 in
  rigid_new mass (V3 0 0 0) Ixx Iyy Izz 0 0 0 None.

(** inertia.py:458-470 *)
Definition cube (a density : R) : rigid :=
  let vol := a ^ 3 in
  let mass := density * vol in
  let Ixx := mass * a ^ 2 / 6 in
  rigid_new mass (V3 0 0 0) Ixx Ixx Ixx 0 0 0 None.

(** inertia.py:473-494 *)
Definition rectangular_prism (a b h density : R) : rigid :=
  let vol := a * b * h in
  let mass := density * vol in
  let Ixx := mass * (b ^ 2 + h ^ 2) / 12 in
  let Iyy := mass * (a ^ 2 + h ^ 2) / 12 in
  let Izz := mass * (a ^ 2 + b ^ 2) / 12 in
  rigid_new mass (V3 0 0 0) Ixx Iyy Izz 0 0 0 None.

(** inertia.py:497-516. Simplification: the defaults density = steel, thickness = 0.02 are passed explicitly. *)
Definition circular_cone_shell (Rad height density thickness : R) : rigid :=
  let surface := PI * Rad * sqrt (Rad ^ 2 + height ^ 2) in
  let sigma := density * thickness in
  let mass := sigma * surface in
  let Ixx := mass * (Rad ^ 2 + 2 * height ^ 2 / 9) / 4 in
  let Izz := mass * Rad ^ 2 / 2 in
  rigid_new mass (V3 0 0 0) Ixx Ixx Izz 0 0 0 None.

(** inertia.py:519-538 *)
Definition frustrum_of_circular_cone_shell (r Rad height density thickness : R) : rigid :=
  let surface := PI * (Rad + r) * sqrt (height ^ 2 + (Rad - r) ^ 2) in
  let sigma := density * thickness in
  let mass := sigma * surface in
  let Ixx := mass * (Rad ^ 2 + r ^ 2) / 4
             + mass * height ^ 2 * (1 + 2 * Rad * r / (Rad + r) ^ 2) / 18 in
  let Izz := mass * (Rad ^ 2 + r ^ 2) / 2 in
  rigid_new mass (V3 0 0 0) Ixx Ixx Izz 0 0 0 None.

(** inertia.py:541-556 *)
Definition lateral_cylindrical_shell (Rad H density thickness : R) : rigid :=
  let surface := 2 * PI * Rad * H in
  let sigma := density * thickness in
  let mass := sigma * surface in
  let Ixx := mass * (Rad ^ 2 + H ^ 2 / 6) / 2 in
  let Izz := mass * Rad ^ 2 in
  rigid_new mass (V3 0 0 0) Ixx Ixx Izz 0 0 0 None.

(** inertia.py:559-574 *)
Definition total_cylindrical_shell (Rad H density thickness : R) : rigid :=
  let surface := 2 * PI * Rad * (Rad + H) in
  let sigma := density * thickness in
  let mass := sigma * surface in
  let Ixx := mass * (2 * Rad ^ 2 * (Rad + 2 * H) + H ^ 2 * (3 * Rad + H)) / 12 / (Rad + H) in
  let Izz := mass * Rad ^ 2 * ((Rad + 2 * H) / (Rad + H)) / 2 in
  rigid_new mass (V3 0 0 0) Ixx Ixx Izz 0 0 0 None.

(** inertia.py:577-590 *)
Definition spherical_shell (Rad density thickness : R) : rigid :=
  let surface := 4 * PI * Rad ^ 2 in
  let sigma := density * thickness in
  let mass := sigma * surface in
  let Ixx := 2 * mass * Rad ^ 2 / 3 in
  rigid_new mass (V3 0 0 0) Ixx Ixx Ixx 0 0 0 None.

(** inertia.py:593-611 *)
Definition hemispherical_shell (Rad density thickness : R) : rigid :=
  let surface := 2 * PI * Rad ^ 2 in
  let sigma := density * thickness in
  let mass := sigma * surface in
  let Ixx := 5 * mass * Rad ^ 2 / 12 in
  let Izz := 2 * mass * Rad ^ 2 / 3 in
  rigid_new mass (V3 0 0 0) Ixx Ixx Izz 0 0 0 None.

(** inertia.py:619-635, class RotationalInertia3D: the six stored values and the property [array]. *)
Definition rotational_array (xx xy yy xz yz zz : R) : mat :=
  M3 xx (- xy) (- xz) (- xy) yy (- yz) (- xz) (- yz) zz.
