(** Properties C36-C42 and C79: planes and their rotation helpers (meshmagick/mesh.py, class Plane). *)
From Coq Require Import Reals Lra List.
From Verif Require Import M_base M_rotations M_plane S_rotations S_plane P_base P_rotations P_plane.
Import ListNotations.
Open Scope R_scope.

(** ** C36 *)
Theorem C36_fixed_axes_is_rotation : forall tx ty, is_rotation (rodrigues tx ty).
Proof. exact rodrigues_rotation. Qed.

Theorem C36_fixed_axes_is_rodrigues : forall tx ty, (tx <> 0 \/ ty <> 0) ->
  let theta := sqrt (tx * tx + ty * ty) in
  let axis := V3 (tx / theta) (ty / theta) 0 in
  unit_vec axis /\ forall v, mvec (rodrigues tx ty) v = rotate_about axis theta v.
Proof. exact rodrigues_spec. Qed.

Theorem C36_zero_angles_is_identity : rodrigues 0 0 = mid.
Proof. exact rodrigues_0. Qed.

Theorem C36_cardan_is_rotation : forall phi theta, is_rotation (cardan2 phi theta).
Proof. exact cardan2_rotation. Qed.

Theorem C36_cardan_is_transpose : forall phi theta,
  cardan2 phi theta = mtrans (cardan_to_rotmat phi theta 0).
Proof. exact cardan2_trans. Qed.

Theorem C36_conventions : forall tx ty a,
  match get_rotation_matrix tx ty a with Ok r => is_rotation r | Raise e => a = AOther /\ e = AttributeError end.
Proof. exact get_rotation_matrix_spec. Qed.

Example C36_case : mvec (rodrigues 0 (PI / 2)) (V3 0 0 1) = V3 1 0 0.
Proof.
  pose proof PI_RGT_0.
  assert (T : sqrt (0 * 0 + PI / 2 * (PI / 2)) = PI / 2).
  { replace (0 * 0 + PI / 2 * (PI / 2)) with (PI / 2 * (PI / 2)) by ring. apply sqrt_square; lra. }
  change (V3 0 0 1) with ez. rewrite rodrigues_ez; rewrite T; [|lra].
  rewrite sin_PI2, cos_PI2. apply vec_eq; cbn; field; lra.
Qed.

(** ** C37 *)
Theorem C37_normal_and_rotation_linked : forall v c ops,
  v <> vzero -> Forall (fun o => ~ assigns_normal o) ops ->
  let p := plane_run (plane_new v c) ops in
  dot (p_normal p) (p_normal p) = 1 /\ is_rotation (p_rot p) /\ mvec (p_rot p) ez = p_normal p.
Proof. exact plane_run_inv. Qed.

Theorem C37_normal_stays_unit : forall v c ops,
  v <> vzero -> Forall nonzero_normal ops ->
  let p := plane_run (plane_new v c) ops in dot (p_normal p) (p_normal p) = 1.
Proof. exact plane_run_unit. Qed.

(** What each operation does to the normal and the scalar. *)
Theorem C37_new : forall v c, v <> vzero ->
  p_normal (plane_new v c) = vscale (/ norm v) v /\ p_scalar (plane_new v c) = c.
Proof.
  intros v c H. unfold plane_new, normalize. destruct (orientation_wrt_z _); cbn.
  split; [apply vec_eq; cbn; unfold Rdiv; ring|reflexivity].
Qed.

Theorem C37_rotate : forall p tx ty, dot (p_normal p) (p_normal p) = 1 ->
  p_normal (rotate_normal p tx ty) = mvec (rodrigues tx ty) (p_normal p) /\
  p_scalar (rotate_normal p tx ty) = p_scalar p.
Proof.
  intros p tx ty U. split; [|reflexivity]. cbn. apply normalize_unit_id.
  rewrite rotation_dot by apply rodrigues_rotation. exact U.
Qed.

Theorem C37_set_parameters : forall p s tx ty, dot (p_normal p) (p_normal p) = 1 ->
  p_normal (set_plane_parameters p s tx ty) = mvec (rodrigues tx ty) (p_normal p) /\
  p_scalar (set_plane_parameters p s tx ty) = p_scalar p * cos (sqrt (tx * tx + ty * ty)) + s.
Proof.
  intros p s tx ty U. split; [|reflexivity]. cbn. apply normalize_unit_id.
  rewrite rotation_dot by apply rodrigues_rotation. exact U.
Qed.

Theorem C37_set_angles : forall p tx ty,
  p_normal (set_normal_from_angles p tx ty) = mvec (rodrigues tx ty) ez /\
  p_scalar (set_normal_from_angles p tx ty) = p_scalar p.
Proof.
  intros p tx ty. unfold set_normal_from_angles.
  destruct (Req_EM_T (sqrt (tx * tx + ty * ty)) 0) as [Z|Z]; cbn.
  - apply hyp_0 in Z as [-> ->]. rewrite rodrigues_0, mvec_id. auto.
  - rewrite rodrigues_ez by assumption. auto.
Qed.

(** Assigning the normal directly breaks the link with the stored rotation. *)
Theorem C37_assigned_normal_refuted : exists v c w, v <> vzero /\ w <> vzero /\
  let p := plane_run (plane_new v c) [PSetNormal w] in mvec (p_rot p) ez <> p_normal p.
Proof.
  exists ez, 0, ex. split; [intros H; injection H; lra|]. split; [intros H; injection H; lra|].
  cbn. rewrite plane_new_ez. cbn. rewrite normalize_unit_id by (vunfold; ring). rewrite mvec_id.
  intros H; injection H; lra.
Qed.

Example C37_case : V3 1 2 (-2) <> vzero /\
  Forall (fun o => ~ assigns_normal o) [PRotate 1 2; PFlip; PSetC 3; PSetParams 1 (-1) 0; PSetAngles 0 1].
Proof. split; [intros H; injection H; lra|]. repeat constructor; cbn; auto. Qed.

(** ** C38 *)
Theorem C38_angles_roundtrip : forall p tx ty, sqrt (tx * tx + ty * ty) < PI ->
  orientation_wrt_z (p_normal (set_normal_from_angles p tx ty)) = (tx, ty).
Proof. exact angles_roundtrip. Qed.

Theorem C38_normal_roundtrip : forall p n tx ty, dot n n = 1 -> orientation_wrt_z n = (tx, ty) ->
  p_normal (set_normal_from_angles p tx ty) = n.
Proof. exact normal_roundtrip. Qed.

Example C38_case : sqrt (1 * 1 + -1 * -1) < PI /\ dot (V3 0 (3/5) (-4/5)) (V3 0 (3/5) (-4/5)) = 1.
Proof.
  split; [|vunfold; lra]. assert (sqrt (1 * 1 + -1 * -1) < sqrt (2 * 2)) by (apply sqrt_lt_1_alt; lra).
  rewrite sqrt_square in H by lra. pose proof PI2_1. lra.
Qed.

(** ** C39 *)
Theorem C39_intersection : forall p a b,
  plane_dist p a * plane_dist p b <= 0 -> ~ (on_plane p a /\ on_plane p b) ->
  exists x, get_edge_intersection p a b = Ok (Some x) /\ get_edge_intersection p b a = Ok (Some x) /\
            on_plane p x /\ on_segment a b x /\
            forall y, on_segment a b y -> on_plane p y -> y = x.
Proof. exact edge_intersection_ok. Qed.

Theorem C39_same_side_raises : forall p a b,
  0 < plane_dist p a * plane_dist p b -> get_edge_intersection p a b = Raise RuntimeError.
Proof. exact edge_intersection_raises. Qed.

Theorem C39_edge_in_plane_is_nan : forall p a b, on_plane p a -> on_plane p b ->
  get_edge_intersection p a b = Ok None.
Proof. exact edge_intersection_both. Qed.

Example C39_case : let p := mkPlane (V3 0 (3/5) (4/5)) 2 mid in
  plane_dist p (V3 1 0 0) * plane_dist p (V3 0 0 5) <= 0 /\ ~ (on_plane p (V3 1 0 0) /\ on_plane p (V3 0 0 5)).
Proof. unfold plane_dist, on_plane, dot; cbn. split; [lra|]. intros [H _]. lra. Qed.

(** ** C40 *)
Theorem C40_projection_on_plane : forall p x, dot (p_normal p) (p_normal p) = 1 -> on_plane p (projection p x).
Proof. exact projection_on. Qed.
Theorem C40_points_of_plane_fixed : forall p x, on_plane p x -> projection p x = x.
Proof. exact projection_fix. Qed.
Theorem C40_idempotent : forall p x, dot (p_normal p) (p_normal p) = 1 ->
  projection p (projection p x) = projection p x.
Proof. intros; apply projection_fix, projection_on; assumption. Qed.
Theorem C40_nearest : forall p x y, dot (p_normal p) (p_normal p) = 1 -> on_plane p y ->
  distance x (projection p x) <= distance x y.
Proof. exact projection_nearest. Qed.
Theorem C40_signed_distance : forall p x, dot (p_normal p) (p_normal p) = 1 ->
  distance x (projection p x) = Rabs (plane_dist p x).
Proof. exact dist_is_distance. Qed.
Theorem C40_distance_sign : forall p x, plane_dist p x = dot (p_normal p) x - p_scalar p.
Proof. intros; unfold plane_dist; rewrite dot_comm; reflexivity. Qed.
Theorem C40_origin : forall p, dot (p_normal p) (p_normal p) = 1 ->
  on_plane p (plane_origin p) /\ plane_origin p = projection p vzero.
Proof. exact origin_on. Qed.

Example C40_case : let p := mkPlane (V3 0 (3/5) (4/5)) 2 mid in
  dot (p_normal p) (p_normal p) = 1 /\ projection p (V3 1 5 5) = V3 1 2 1.
Proof. cbn; split; [vunfold; lra|]. unfold projection, plane_dist; cbn. vunfold. f_equal; lra. Qed.

(** ** C41 *)
Theorem C41_horizontal_planes : forall c x, let p := plane_new ez c in
  on_plane p x -> vz (coord_in_plane p x) = 0.
Proof.
  intros c x p H. unfold p in *. rewrite plane_new_ez in *. unfold on_plane, coord_in_plane in *; vunfold.
  cbn in *. lra.
Qed.

(** Exact third coordinate for the points of any freshly built plane: it vanishes iff the right side does. *)
Theorem C41_third_coordinate : forall v c x, v <> vzero ->
  let p := plane_new v c in
  on_plane p x ->
  vz (coord_in_plane p x) = 2 * vz (p_normal p) * vz x - c * (1 + vz (p_normal p)).
Proof. exact coord_in_plane_third. Qed.

Theorem C41_in_plane_coordinates_refuted : exists v c x, v <> vzero /\
  let p := plane_new v c in on_plane p x /\ vz (coord_in_plane p x) <> 0.
Proof.
  exists ex, 1, (V3 1 0 0).
  assert (N : ex <> vzero) by (intros H; injection H; lra).
  assert (E : p_normal (plane_new ex 1) = ex).
  { unfold plane_new. rewrite normalize_unit_id by (vunfold; ring). destruct (orientation_wrt_z ex); reflexivity. }
  assert (C : p_scalar (plane_new ex 1) = 1) by (unfold plane_new; destruct (orientation_wrt_z _); reflexivity).
  assert (O : on_plane (plane_new ex 1) (V3 1 0 0)) by (unfold on_plane; rewrite E, C; vunfold; ring).
  split; [exact N|]. split; [exact O|].
  rewrite (coord_in_plane_third ex 1 _ N O), E. cbn. lra.
Qed.

(** ** C42 *)
Theorem C42_flip_is_central_symmetry : forall p x, dot (p_normal p) (p_normal p) = 1 ->
  (on_plane (flip_normal p) x <-> on_plane p (vopp x)).
Proof. exact flip_points. Qed.

Theorem C42_same_plane_iff : forall p, dot (p_normal p) (p_normal p) = 1 ->
  ((forall x, on_plane (flip_normal p) x <-> on_plane p x) <-> p_scalar p = 0).
Proof. exact flip_same_iff. Qed.

Theorem C42_normal_reversed : forall p, dot (p_normal p) (p_normal p) = 1 ->
  p_normal (flip_normal p) = vopp (p_normal p).
Proof. intros p U; apply (flip_inv p U). Qed.

Example C42_case : dot (p_normal (mkPlane ez 3 mid)) (p_normal (mkPlane ez 3 mid)) = 1 /\
  p_scalar (mkPlane ez 3 mid) <> 0.
Proof. cbn; split; [vunfold; ring|lra]. Qed.

(** ** C79 *)
Theorem C79_axis_angle_read : forall axis angle r, unit_vec axis -> 0 < angle < PI ->
  (forall v, mvec r v = rotate_about axis angle v) ->
  get_axis_angle_from_rotation_matrix r = Ok (angle, axis).
Proof. exact axis_angle_read. Qed.

Theorem C79_identity_raises : get_axis_angle_from_rotation_matrix mid = Raise ZeroDivisionError.
Proof.
  unfold get_axis_angle_from_rotation_matrix; cbn.
  replace ((1 + 1 + 1 - 1) * (1 / 2)) with 1 by field. unfold py_acos. rdec. cbn.
  rewrite acos_1, sin_0. unfold py_div. rdec. reflexivity.
Qed.

Example C79_case : unit_vec (V3 (3/5) 0 (-4/5)) /\ 0 < PI / 3 < PI.
Proof. pose proof PI_RGT_0. unfold unit_vec; vunfold; lra. Qed.

Print Assumptions C36_fixed_axes_is_rodrigues.
Print Assumptions C37_normal_and_rotation_linked.
Print Assumptions C37_assigned_normal_refuted.
Print Assumptions C38_angles_roundtrip.
Print Assumptions C38_normal_roundtrip.
Print Assumptions C39_intersection.
Print Assumptions C40_nearest.
Print Assumptions C41_third_coordinate.
Print Assumptions C42_same_plane_iff.
Print Assumptions C79_axis_angle_read.
