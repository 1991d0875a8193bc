(** Properties C43-C47: conversions between rotation representations (meshmagick/rotations.py). *)
From Coq Require Import Reals Lra.
From Verif Require Import M_base M_rotations S_rotations P_base P_rotations.
Open Scope R_scope.

(** ** C43: Cardan and quaternion matrices are rotations *)

Theorem C43_cardan_is_rotation : forall phi theta psi, is_rotation (cardan_to_rotmat phi theta psi).
Proof. exact cardan_rotation. Qed.

Theorem C43_cardan_is_product : forall phi theta psi,
  cardan_to_rotmat phi theta psi = mmul (Rot_z psi) (mmul (Rot_y theta) (Rot_x phi)).
Proof. exact cardan_product. Qed.

Theorem C43_quat_is_rotation : forall q, unit_quat q ->
  exists r, quat_to_rotmat q = Ok r /\ is_rotation r.
Proof. exact quat_rotation. Qed.

Theorem C43_cardan_quat_unit : forall phi theta psi, unit_quat (cardan_to_quat phi theta psi).
Proof. exact cardan_unit_quat. Qed.

Theorem C43_axis_angle_quat_unit : forall axis angle, unit_vec axis ->
  exists q, axis_angle_to_quat axis angle = Ok q /\ unit_quat q.
Proof. exact axis_unit_quat. Qed.

Example C43_case : unit_quat (Q4 (1/2) (1/2) (-1/2) (1/2)) /\ unit_vec (V3 (3/5) 0 (-4/5)).
Proof. split; unfold unit_quat, unit_vec, dot; cbn; lra. Qed.

(** ** C44: the routes from Cardan angles and from axis and angle agree *)

Theorem C44_cardan_quat_rotmat : forall phi theta psi,
  quat_to_rotmat (cardan_to_quat phi theta psi) = Ok (cardan_to_rotmat phi theta psi).
Proof. exact cardan_quat_rotmat. Qed.

Theorem C44_axis_angle_is_rodrigues : forall axis angle, unit_vec axis ->
  exists r, axis_angle_to_rotmat axis angle = Ok r /\ is_rotation r /\
            forall v, mvec r v = rotate_about axis angle v.
Proof. exact axis_angle_rotmat. Qed.

Theorem C44_axis_angle_cardan : forall axis angle, unit_vec axis ->
  exists phi theta psi, axis_angle_to_cardan axis angle = Ok (phi, theta, psi) /\
     axis_angle_to_rotmat axis angle = Ok (cardan_to_rotmat phi theta psi).
Proof. exact axis_cardan_rotmat. Qed.

Example C44_case : rotate_about (V3 0 0 1) (PI / 2) (V3 1 0 5) = V3 0 1 5.
Proof. unfold rotate_about. rewrite cos_PI2, sin_PI2. vring. Qed.

(** ** C45: Cardan angles of a rotation matrix, gimbal lock included *)

Theorem C45_rotmat_roundtrip : forall r, is_rotation r ->
  forall phi theta psi, rotmat_to_cardan r = (phi, theta, psi) -> cardan_to_rotmat phi theta psi = r.
Proof. exact rotmat_cardan_rotmat. Qed.

Theorem C45_angles_roundtrip : forall phi theta psi,
  - PI < phi <= PI -> - (PI / 2) < theta < PI / 2 -> - PI < psi <= PI ->
  rotmat_to_cardan (cardan_to_rotmat phi theta psi) = (phi, theta, psi).
Proof. exact cardan_rotmat_cardan. Qed.

Theorem C45_angles_range : forall r phi theta psi, rotmat_to_cardan r = (phi, theta, psi) ->
  - (PI / 2) <= theta <= PI / 2 /\ - PI < phi <= PI /\ - PI <= psi <= PI.
Proof. exact cardan_range. Qed.

Theorem C45_quat_to_cardan : forall q, unit_quat q ->
  exists phi theta psi, quat_to_cardan q = Ok (phi, theta, psi) /\
     quat_to_rotmat q = Ok (cardan_to_rotmat phi theta psi).
Proof. exact quat_cardan_rotmat. Qed.

(** A matrix in gimbal lock (theta = pi/2) and one in the other (theta = -pi/2). *)
Example C45_case : is_rotation (M3 0 0 1 0 1 0 (-1) 0 0) /\ is_rotation (M3 0 (-1) 0 0 0 (-1) 1 0 0)
  /\ is_rotation (M3 0 0 1 1 0 0 0 1 0).
Proof. repeat split; vring. Qed.
Example C45_case_gimbal : rotmat_to_cardan (M3 0 0 1 0 1 0 (-1) 0 0) = (0, PI / 2, - atan2 (- 0) 1).
Proof. unfold rotmat_to_cardan; cbn; rdec; reflexivity. Qed.

(** ** C46: quaternion of a rotation matrix, all four branches *)

Theorem C46_rotmat_roundtrip : forall r, is_rotation r ->
  exists q, rotmat_to_quat r = Ok q /\ unit_quat q /\ quat_to_rotmat q = Ok r.
Proof. exact rotmat_quat_rotmat. Qed.

Theorem C46_quat_roundtrip : forall q, unit_quat q ->
  exists r q', quat_to_rotmat q = Ok r /\ rotmat_to_quat r = Ok q' /\ (q' = q \/ q' = qopp q).
Proof. exact quat_rotmat_quat. Qed.

(** One rotation for each branch. *)
Example C46_case : is_rotation (M3 1 0 0 0 0 (-1) 0 1 0) /\ is_rotation (M3 1 0 0 0 (-1) 0 0 0 (-1)) /\
  is_rotation (M3 (-1) 0 0 0 1 0 0 0 (-1)) /\ is_rotation (M3 (-1) 0 0 0 (-1) 0 0 0 1).
Proof. repeat split; vring. Qed.
Example C46_case_branch : rotmat_to_quat (M3 (-1) 0 0 0 1 0 0 0 (-1)) = Ok (Q4 0 0 1 0).
Proof.
  unfold rotmat_to_quat; cbn. rdec. replace (1 - -1 - -1 + 1) with (2 * 2) by ring.
  unfold py_sqrt, py_div; rdec; cbn [bind]; rewrite (sqrt_square 2) by lra; rdec.
  cbn. f_equal. apply quat_eq; cbn; field.
Qed.

(** ** C47: axis and angle *)

Theorem C47_roundtrip : forall q, unit_quat q -> 1 / 100000000 < 1 - q0 q * q0 q ->
  exists axis angle, quat_to_axis_angle q = Ok (axis, angle) /\ unit_vec axis /\ 0 < angle < 2 * PI /\
                     axis_angle_to_quat axis angle = Ok q.
Proof. exact quat_axis_angle_quat. Qed.

Theorem C47_cutoff_is_identity : forall q, unit_quat q -> 1 - q0 q * q0 q <= 1 / 100000000 ->
  quat_to_axis_angle q = Ok (ez, 0) /\ axis_angle_to_quat ez 0 = Ok (Q4 1 0 0 0).
Proof. exact quat_axis_angle_cutoff. Qed.

Theorem C47_cutoff_loses_rotation_refuted : exists q axis angle,
  unit_quat q /\ quat_to_axis_angle q = Ok (axis, angle) /\
  axis_angle_to_quat axis angle <> Ok q /\ axis_angle_to_quat axis angle <> Ok (qopp q) /\
  q1 q = 1 / 10000.
Proof.
  exists (Q4 (sqrt (1 - 1 / 100000000)) (1 / 10000) 0 0), ez, 0.
  assert (S : sqrt (1 - 1 / 100000000) * sqrt (1 - 1 / 100000000) = 1 - 1 / 100000000) by (apply sqrt_sqrt; lra).
  assert (U : unit_quat (Q4 (sqrt (1 - 1 / 100000000)) (1 / 10000) 0 0)).
  { unfold unit_quat; cbn. rewrite S. lra. }
  destruct (quat_axis_angle_cutoff _ U) as [E1 E2]; [cbn; rewrite S; lra|].
  split; [assumption|]. split; [assumption|]. rewrite E2.
  split; [intros H; injection H; lra|]. split; [intros H; injection H; lra|]. reflexivity.
Qed.

Theorem C47_rotmat : forall r axis angle q, is_rotation r ->
  rotmat_to_quat r = Ok q -> 1 / 100000000 < 1 - q0 q * q0 q ->
  rotmat_to_axis_angle r = Ok (axis, angle) -> axis_angle_to_rotmat axis angle = Ok r.
Proof. exact rotmat_axis_rotmat. Qed.

Theorem C47_cardan : forall phi theta psi axis angle,
  1 / 100000000 < 1 - q0 (cardan_to_quat phi theta psi) * q0 (cardan_to_quat phi theta psi) ->
  cardan_to_axis_angle phi theta psi = Ok (axis, angle) ->
  axis_angle_to_rotmat axis angle = Ok (cardan_to_rotmat phi theta psi).
Proof. exact cardan_axis_rotmat. Qed.

Example C47_case : unit_quat (Q4 (3/5) 0 (4/5) 0) /\ 1 / 100000000 < 1 - 3/5 * (3/5).
Proof. unfold unit_quat; cbn; lra. Qed.

Print Assumptions C43_cardan_is_rotation.
Print Assumptions C43_quat_is_rotation.
Print Assumptions C44_cardan_quat_rotmat.
Print Assumptions C44_axis_angle_is_rodrigues.
Print Assumptions C45_rotmat_roundtrip.
Print Assumptions C45_angles_roundtrip.
Print Assumptions C46_rotmat_roundtrip.
Print Assumptions C46_quat_roundtrip.
Print Assumptions C47_roundtrip.
