(** Model of the rotation helpers and of class Plane in meshmagick/mesh.py (lines 37-378). *)
From Coq Require Import Reals List.
From Verif Require Import M_base M_rotations.
Import ListNotations.
Open Scope R_scope.

(** mesh.py:37-73 _rodrigues *)
Definition rodrigues (thetax thetay : R) : mat :=
  let theta := sqrt (thetax * thetax + thetay * thetay) in
  let '(nx, ny, ctheta, stheta) :=
    if Req_EM_T theta 0 then (0, 0, 1, 0)
    else (thetax / theta, thetay / theta, cos theta, sin theta) in
  let nxny := nx * ny in
  madd (madd (mscale ctheta mid)
             (mscale (1 - ctheta) (M3 (nx * nx) nxny 0  nxny (ny * ny) 0  0 0 0)))
       (mscale stheta (M3 0 0 ny  0 0 (- nx)  (- ny) nx 0)).

(** mesh.py:76-104 _cardan *)
Definition cardan2 (phi theta : R) : mat :=
  let cphi := cos phi in
  let sphi := sin phi in
  let ctheta := cos theta in
  let stheta := sin theta in
  M3 ctheta 0 (- stheta)
     (sphi * stheta) cphi (sphi * ctheta)
     (cphi * stheta) (- sphi) (cphi * ctheta).

(** mesh.py:107-133 _get_rotation_matrix; the convention is 'fixed', 'cardan' or any other string *)
Inductive atype := AFixed | ACardan | AOther.
Definition get_rotation_matrix (theta_x theta_y : R) (a : atype) : res mat :=
  match a with
  | AFixed => Ok (rodrigues theta_x theta_y)
  | ACardan => Ok (cardan2 theta_x theta_y)
  | AOther => Raise AttributeError
  end.

(** mesh.py:136-143 _get_axis_angle_from_rotation_matrix. Dividing the Python float 1. by 2*sin(theta) raises when
    that is zero. *)
Definition get_axis_angle_from_rotation_matrix (r : mat) : res (R * vec) :=
  do theta <- py_acos ((m00 r + m11 r + m22 r - 1) * (1 / 2));
  do k <- py_div 1 (2 * sin theta);
  Ok (theta, vscale k (V3 (m21 r - m12 r) (m02 r - m20 r) (m10 r - m01 r))).

(** A Plane object: mesh.py:148-172 (the name is dropped). *)
Record plane := mkPlane { p_normal : vec; p_scalar : R; p_rot : mat }.

(** value / np.linalg.norm(value), mesh.py:166,190. For the zero vector numpy gives NaN: excluded by hypotheses. *)
Definition normalize (v : vec) : vec := V3 (vx v / norm v) (vy v / norm v) (vz v / norm v).

(** mesh.py:246-265 get_normal_orientation_wrt_z *)
Definition orientation_wrt_z (n : vec) : R * R :=
  let stheta := sqrt (vx n * vx n + vy n * vy n) in
  let ctheta := vz n in
  if Req_EM_T stheta 0 then
    if Req_EM_T (vz n) 1 then (0, 0)
    else if Req_EM_T (vz n) (-1) then (PI, 0) else (0, 0)
  else
    let theta := atan2 stheta ctheta in
    let theta_stheta := theta / stheta in
    (- theta_stheta * vy n, theta_stheta * vx n).

(** mesh.py:162-174 Plane.__init__ *)
Definition plane_new (normal : vec) (scalar : R) : plane :=
  let n := normalize normal in
  let '(tx, ty) := orientation_wrt_z n in
  mkPlane n scalar (rodrigues tx ty).

(** mesh.py:186-190 normal.setter: the stored rotation is left as it is *)
Definition set_normal (p : plane) (v : vec) : plane := mkPlane (normalize v) (p_scalar p) (p_rot p).

(** mesh.py:197-200 c.setter *)
Definition set_c (p : plane) (c : R) : plane := mkPlane (p_normal p) c (p_rot p).

(** mesh.py:202-217 rotate_normal *)
Definition rotate_normal (p : plane) (tx ty : R) : plane :=
  let m := rodrigues tx ty in
  mkPlane (normalize (mvec m (p_normal p))) (p_scalar p) (mmul m (p_rot p)).

(** mesh.py:219-244 set_normal_from_angles *)
Definition set_normal_from_angles (p : plane) (tx ty : R) : plane :=
  let theta := sqrt (tx * tx + ty * ty) in
  if Req_EM_T theta 0 then mkPlane (V3 0 0 1) (p_scalar p) mid
  else
    let stheta_theta := sin theta / theta in
    let ctheta := cos theta in
    mkPlane (V3 (stheta_theta * ty) (- stheta_theta * tx) ctheta) (p_scalar p) (rodrigues tx ty).

(** mesh.py:267-283 set_plane_parameters *)
Definition set_plane_parameters (p : plane) (scalar tx ty : R) : plane :=
  let p' := rotate_normal p tx ty in
  let ctheta := cos (sqrt (tx * tx + ty * ty)) in
  mkPlane (p_normal p') (p_scalar p' * ctheta + scalar) (p_rot p').

(** mesh.py:285-301 get_point_dist_wrt_plane, for one point *)
Definition plane_dist (p : plane) (x : vec) : R := dot x (p_normal p) - p_scalar p.

(** mesh.py:303-309 flip_normal. [self.normal *= -1] multiplies in place and then calls the setter. *)
Definition flip_normal (p : plane) : plane :=
  let n := normalize (vscale (-1) (p_normal p)) in
  let '(tx, ty) := orientation_wrt_z n in
  mkPlane n (p_scalar p) (rodrigues tx ty).

(** mesh.py:311-328 coord_in_plane, for one point *)
Definition coord_in_plane (p : plane) (x : vec) : vec :=
  vadd (vscale (- p_scalar p) (p_normal p)) (mvec (p_rot p) x).

(** mesh.py:330-353 get_edge_intersection. The division is a numpy one: x/0 is an infinity, which fails the test and
    raises, and 0/0 is NaN, which passes it and gives a NaN point, modelled by [Ok None]. *)
Definition get_edge_intersection (p : plane) (a b : vec) : res (option vec) :=
  let an := dot a (p_normal p) in
  let bn := dot b (p_normal p) in
  if Req_EM_T (an - bn) 0 then
    if Req_EM_T (an - p_scalar p) 0 then Ok None else Raise RuntimeError
  else
    let t := (an - p_scalar p) / (an - bn) in
    if Rlt_dec t 0 then Raise RuntimeError
    else if Rlt_dec 1 t then Raise RuntimeError
    else Ok (Some (vadd (vscale (1 - t) a) (vscale t b))).

(** mesh.py:355-374 orthogonal_projection_on_plane, for one point *)
Definition projection (p : plane) (x : vec) : vec :=
  vsub x (vscale (plane_dist p x) (p_normal p)).

(** mesh.py:376-378 get_origin *)
Definition plane_origin (p : plane) : vec := vscale (p_scalar p) (p_normal p).

(** The mutating methods, as commands, and their effect on the object. *)
Inductive plane_op :=
| PRotate (tx ty : R) | PSetAngles (tx ty : R) | PSetParams (s tx ty : R) | PFlip | PSetC (c : R)
| PSetNormal (v : vec).

Definition plane_step (p : plane) (o : plane_op) : plane :=
  match o with
  | PRotate tx ty => rotate_normal p tx ty
  | PSetAngles tx ty => set_normal_from_angles p tx ty
  | PSetParams s tx ty => set_plane_parameters p s tx ty
  | PFlip => flip_normal p
  | PSetC c => set_c p c
  | PSetNormal v => set_normal p v
  end.

Definition plane_run (p : plane) (ops : list plane_op) : plane := fold_left plane_step ops p.
