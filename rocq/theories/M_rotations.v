(** Model of meshmagick/rotations.py. *)
From Coq Require Import Reals.
From Verif Require Import M_base.
Open Scope R_scope.

(** Quaternions: numpy arrays of 4 floats. *)
Record quat := Q4 { q0 : R; q1 : R; q2 : R; q3 : R }.

Definition qnorm (q : quat) : R := sqrt (q0 q * q0 q + q1 q * q1 q + q2 q * q2 q + q3 q * q3 q).

(** rotations.py:46-48 is_unit_vector, for a quaternion and for a 3-vector *)
Definition is_unit_quat (q : quat) : bool := isclose (qnorm q) 1.
Definition is_unit_vec (v : vec) : bool := isclose (norm v) 1.

(** rotations.py:50-65. (The assertion on [quat.size] holds by typing.) *)
Definition quat_to_axis_angle (q : quat) : res (vec * R) :=
  if is_unit_quat q then
    let d := 1 - q0 q * q0 q in
    if isclose d 0 then Ok (V3 0 0 1, 0)
    else
      do a <- py_acos (q0 q);
      do s <- py_sqrt d;
      Ok (V3 (q1 q / s) (q2 q / s) (q3 q / s), 2 * a)
  else Raise AssertionError.

(** rotations.py:67-74 *)
Definition axis_angle_to_quat (axis : vec) (angle : R) : res quat :=
  if is_unit_vec axis then
    let half_angle := 1 / 2 * angle in
    let c := cos half_angle in
    let s := sin half_angle in
    Ok (Q4 c (s * vx axis) (s * vy axis) (s * vz axis))
  else Raise AssertionError.

(** rotations.py:76-103 *)
Definition quat_to_rotmat (q : quat) : res mat :=
  if is_unit_quat q then
    let q0q0 := q0 q * q0 q in
    let q1q1 := q1 q * q1 q in
    let q2q2 := q2 q * q2 q in
    let q3q3 := q3 q * q3 q in
    let q0q1 := q0 q * q1 q in
    let q0q2 := q0 q * q2 q in
    let q0q3 := q0 q * q3 q in
    let q1q2 := q1 q * q2 q in
    let q1q3 := q1 q * q3 q in
    let q2q3 := q2 q * q3 q in
    Ok (M3 ((q0q0 + q1q1) * 2 - 1) ((q1q2 - q0q3) * 2) ((q1q3 + q0q2) * 2)
           ((q1q2 + q0q3) * 2) ((q0q0 + q2q2) * 2 - 1) ((q2q3 - q0q1) * 2)
           ((q1q3 - q0q2) * 2) ((q2q3 + q0q1) * 2) ((q0q0 + q3q3) * 2 - 1))
  else Raise AssertionError.

(** rotations.py:105-167 *)
Definition rotmat_to_quat (r : mat) : res quat :=
  let tr := m00 r + m11 r + m22 r in
  if Rle_dec 0 tr then
    do s <- py_sqrt (tr + 1);
    do h <- py_div (1 / 2) s;
    Ok (Q4 (1 / 2 * s) ((m21 r - m12 r) * h) ((m02 r - m20 r) * h) ((m10 r - m01 r) * h))
  else
    let i :=
      if Rlt_dec (m00 r) (m11 r) then (if Rlt_dec (m11 r) (m22 r) then 2%nat else 1%nat)
      else (if Rlt_dec (m00 r) (m22 r) then 2%nat else 0%nat) in
    match i with
    | O =>
        do s <- py_sqrt (m00 r - m11 r - m22 r + 1);
        do h <- py_div (1 / 2) s;
        Ok (Q4 ((m21 r - m12 r) * h) (1 / 2 * s) ((m01 r + m10 r) * h) ((m20 r + m02 r) * h))
    | S O =>
        do s <- py_sqrt (m11 r - m22 r - m00 r + 1);
        do h <- py_div (1 / 2) s;
        Ok (Q4 ((m02 r - m20 r) * h) ((m01 r + m10 r) * h) (1 / 2 * s) ((m12 r + m21 r) * h))
    | _ =>
        do s <- py_sqrt (m22 r - m00 r - m11 r + 1);
        do h <- py_div (1 / 2) s;
        Ok (Q4 ((m10 r - m01 r) * h) ((m20 r + m02 r) * h) ((m12 r + m21 r) * h) (1 / 2 * s))
    end.

(** rotations.py:169-187 *)
Definition cardan_to_quat (phi theta psi : R) : quat :=
  let phi_2 := 1 / 2 * phi in
  let theta_2 := 1 / 2 * theta in
  let psi_2 := 1 / 2 * psi in
  let cphi_2 := cos phi_2 in
  let sphi_2 := sin phi_2 in
  let ctheta_2 := cos theta_2 in
  let stheta_2 := sin theta_2 in
  let cpsi_2 := cos psi_2 in
  let spsi_2 := sin psi_2 in
  Q4 (cphi_2 * ctheta_2 * cpsi_2 + sphi_2 * stheta_2 * spsi_2)
     (- cphi_2 * stheta_2 * spsi_2 + ctheta_2 * cpsi_2 * sphi_2)
     (cphi_2 * cpsi_2 * stheta_2 + sphi_2 * ctheta_2 * spsi_2)
     (cphi_2 * ctheta_2 * spsi_2 - sphi_2 * cpsi_2 * stheta_2).

(** rotations.py:189-219, returning (phi, theta, psi). (The domain of asin is met by the tests.) *)
Definition rotmat_to_cardan (r : mat) : R * R * R :=
  if Rlt_dec (m20 r) 1 then
    if Rlt_dec (-1) (m20 r) then
      (atan2 (m21 r) (m22 r), asin (- m20 r), atan2 (m10 r) (m00 r))
    else (0, PI / 2, - atan2 (- m12 r) (m11 r))
  else (0, - (PI / 2), atan2 (- m12 r) (m11 r)).

(** rotations.py:221-242 *)
Definition cardan_to_rotmat (phi theta psi : R) : mat :=
  let cphi := cos phi in
  let sphi := sin phi in
  let ctheta := cos theta in
  let stheta := sin theta in
  let cpsi := cos psi in
  let spsi := sin psi in
  M3 (ctheta * cpsi) (sphi * stheta * cpsi - cphi * spsi) (cphi * stheta * cpsi + sphi * spsi)
     (ctheta * spsi) (sphi * stheta * spsi + cphi * cpsi) (cphi * stheta * spsi - sphi * cpsi)
     (- stheta) (ctheta * sphi) (ctheta * cphi).

(** rotations.py:244-257 *)
Definition quat_to_cardan (q : quat) : res (R * R * R) :=
  do r <- quat_to_rotmat q; Ok (rotmat_to_cardan r).
Definition rotmat_to_axis_angle (r : mat) : res (vec * R) :=
  do q <- rotmat_to_quat r; quat_to_axis_angle q.
Definition axis_angle_to_rotmat (axis : vec) (angle : R) : res mat :=
  do q <- axis_angle_to_quat axis angle; quat_to_rotmat q.
Definition cardan_to_axis_angle (phi theta psi : R) : res (vec * R) :=
  quat_to_axis_angle (cardan_to_quat phi theta psi).
Definition axis_angle_to_cardan (axis : vec) (angle : R) : res (R * R * R) :=
  do q <- axis_angle_to_quat axis angle; quat_to_cardan q.
