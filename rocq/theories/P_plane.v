(** Proofs about planes. *)
From Coq Require Import Reals Lra Lia Psatz List.
From Verif Require Import M_base M_rotations M_plane S_rotations S_plane P_base P_rotations.
Import ListNotations.
Open Scope R_scope.

Lemma hyp_sqr : forall x y, sqrt (x * x + y * y) * sqrt (x * x + y * y) = x * x + y * y.
Proof. intros; apply sqrt_sqrt; nra. Qed.
Lemma hyp_0 : forall x y, sqrt (x * x + y * y) = 0 -> x = 0 /\ y = 0.
Proof. intros x y H. pose proof (hyp_sqr x y) as S. rewrite H in S. split; nra. Qed.

Lemma rodrigues_0 : rodrigues 0 0 = mid.
Proof.
  unfold rodrigues. replace (0 * 0 + 0 * 0) with 0 by ring. rewrite sqrt_0. rdec. vring.
Qed.

Lemma rodrigues_spec : forall tx ty, (tx <> 0 \/ ty <> 0) ->
  let theta := sqrt (tx * tx + ty * ty) in
  let axis := V3 (tx / theta) (ty / theta) 0 in
  unit_vec axis /\ forall v, mvec (rodrigues tx ty) v = rotate_about axis theta v.
Proof.
  intros tx ty H theta axis. pose proof (hypot_pos tx ty H) as P. fold theta in P.
  pose proof (hyp_sqr tx ty) as S. fold theta in S.
  assert (U : unit_vec axis).
  { unfold unit_vec, axis; vunfold. replace (tx / theta * (tx / theta) + ty / theta * (ty / theta) + 0 * 0)
      with ((tx * tx + ty * ty) / (theta * theta)) by (field; lra). rewrite S. field. rewrite <- S. nra. }
  split; auto. intros v. unfold rodrigues. fold theta. destruct (Req_EM_T theta 0); [lra|].
  unfold rotate_about, axis; vunfold. apply vec_eq; cbn; [ | | ].
  - ring.
  - ring.
  - unfold unit_vec, axis in U; vunfold. ring.
Qed.

Lemma mvec_ext : forall a b, (forall v, mvec a v = mvec b v) -> a = b.
Proof.
  intros a b H. pose proof (H ex) as X. pose proof (H ey) as Y. pose proof (H ez) as Z.
  unfold mvec, ex, ey, ez in *; cbn in *.
  injection X; injection Y; injection Z; intros. apply mat_eq; lra.
Qed.

Lemma rotation_of_axis : forall r axis angle, unit_vec axis ->
  (forall v, mvec r v = rotate_about axis angle v) -> is_rotation r.
Proof.
  intros r axis angle U H.
  destruct (axis_angle_rotmat axis angle U) as (r' & _ & R' & H').
  rewrite (mvec_ext r r'); auto. intros; rewrite H, H'; reflexivity.
Qed.

Lemma rodrigues_rotation : forall tx ty, is_rotation (rodrigues tx ty).
Proof.
  intros. destruct (Req_dec tx 0) as [->|N]; [destruct (Req_dec ty 0) as [->|N]|].
  - rewrite rodrigues_0. apply rotation_id.
  - destruct (rodrigues_spec 0 ty (or_intror N)) as [U S]. eapply rotation_of_axis; eauto.
  - destruct (rodrigues_spec tx ty (or_introl N)) as [U S]. eapply rotation_of_axis; eauto.
Qed.

Lemma cardan2_trans : forall phi theta, cardan2 phi theta = mtrans (cardan_to_rotmat phi theta 0).
Proof. intros. unfold cardan2, cardan_to_rotmat, mtrans; cbn. rewrite cos_0, sin_0. f_equal; ring. Qed.

Lemma cardan2_rotation : forall phi theta, is_rotation (cardan2 phi theta).
Proof. intros. rewrite cardan2_trans. apply rotation_trans, cardan_rotation. Qed.

Lemma get_rotation_matrix_spec : forall tx ty a,
  match get_rotation_matrix tx ty a with Ok r => is_rotation r | Raise e => a = AOther /\ e = AttributeError end.
Proof. intros tx ty []; cbn; auto using rodrigues_rotation, cardan2_rotation. Qed.

Lemma axis_angle_read : forall axis angle r, unit_vec axis -> 0 < angle < PI ->
  (forall v, mvec r v = rotate_about axis angle v) ->
  get_axis_angle_from_rotation_matrix r = Ok (angle, axis).
Proof.
  intros axis angle r U Ha H.
  assert (S : 0 < sin angle) by (apply sin_gt_0; lra).
  pose proof (H ex) as X. pose proof (H ey) as Y. pose proof (H ez) as Z.
  unfold rotate_about in *. destruct r, axis as [a b c]. unfold unit_vec in U. vunfold.
  injection X; injection Y; injection Z; clear X Y Z H; intros.
  unfold get_axis_angle_from_rotation_matrix; cbn [M_base.m00 M_base.m01 M_base.m02 M_base.m10 M_base.m11 M_base.m12 M_base.m20 M_base.m21 M_base.m22].
  assert (T : (m00 + m11 + m22 - 1) * (1 / 2) = cos angle).
  { assert (E : m00 + m11 + m22 = 3 * cos angle + (1 - cos angle) * (a*a+b*b+c*c)) by lra.
    rewrite E, U. field. }
  rewrite T. pose proof (COS_bound angle). unfold py_acos. rdec. cbn [bind].
  rewrite acos_cos by lra. unfold py_div. rdec. cbn [bind]. f_equal. f_equal.
  unfold vscale; cbn.
  assert (m21 - m12 = 2 * sin angle * a) as -> by lra.
  assert (m02 - m20 = 2 * sin angle * b) as -> by lra.
  assert (m10 - m01 = 2 * sin angle * c) as -> by lra.
  f_equal; field; lra.
Qed.

(** ** normalisation *)

Lemma normalize_unit : forall v, v <> vzero -> dot (normalize v) (normalize v) = 1.
Proof.
  intros v H. pose proof (norm_pos v H) as P. pose proof (norm_sqr v) as S. unfold dot in S.
  unfold normalize, dot; cbn.
  replace (vx v / norm v * (vx v / norm v) + vy v / norm v * (vy v / norm v) + vz v / norm v * (vz v / norm v))
    with ((vx v * vx v + vy v * vy v + vz v * vz v) / (norm v * norm v)) by (field; lra).
  rewrite <- S. field. lra.
Qed.
Lemma normalize_unit_id : forall v, dot v v = 1 -> normalize v = v.
Proof.
  intros v H. unfold normalize. rewrite norm_unit by assumption. apply vec_eq; cbn; field.
Qed.

Lemma rotation_dot : forall r a b, is_rotation r -> dot (mvec r a) (mvec r b) = dot a b.
Proof.
  intros r a b H. pose proof (rotation_rel r H) as []. vunfold.
  transitivity (
    (vx a * vx b) * (m00 r * m00 r + m10 r * m10 r + m20 r * m20 r) +
    (vy a * vy b) * (m01 r * m01 r + m11 r * m11 r + m21 r * m21 r) +
    (vz a * vz b) * (m02 r * m02 r + m12 r * m12 r + m22 r * m22 r) +
    (vx a * vy b + vy a * vx b) * (m00 r * m01 r + m10 r * m11 r + m20 r * m21 r) +
    (vx a * vz b + vz a * vx b) * (m00 r * m02 r + m10 r * m12 r + m20 r * m22 r) +
    (vy a * vz b + vz a * vy b) * (m01 r * m02 r + m11 r * m12 r + m21 r * m22 r)); [ring|].
  rewrite rr_c00, rr_c11, rr_c22, rr_c01, rr_c02, rr_c12. ring.
Qed.

Lemma rotation_norm : forall r a, is_rotation r -> norm (mvec r a) = norm a.
Proof. intros; rewrite !norm_dot, rotation_dot by assumption; reflexivity. Qed.

(** ** orientation of a unit normal *)

Lemma rodrigues_ez : forall tx ty, let theta := sqrt (tx * tx + ty * ty) in
  theta <> 0 -> mvec (rodrigues tx ty) ez = V3 (sin theta / theta * ty) (- (sin theta / theta) * tx) (cos theta).
Proof.
  intros tx ty theta H. unfold rodrigues. fold theta. destruct (Req_EM_T theta 0); [lra|].
  vunfold. f_equal; field; assumption.
Qed.

Lemma orientation_ez : forall n, dot n n = 1 ->
  forall tx ty, orientation_wrt_z n = (tx, ty) -> mvec (rodrigues tx ty) ez = n.
Proof.
  intros n U tx ty E. unfold orientation_wrt_z in E.
  pose proof (hyp_sqr (vx n) (vy n)) as S.
  set (s := sqrt (vx n * vx n + vy n * vy n)) in *.
  assert (Hs : 0 <= s) by apply sqrt_pos.
  unfold dot in U.
  destruct (Req_EM_T s 0) as [Z|Z].
  - apply hyp_0 in Z as [Zx Zy]. rewrite Zx, Zy in *.
    destruct (Req_EM_T (vz n) 1) as [E1|E1].
    + injection E as <- <-. rewrite rodrigues_0, mvec_id. apply vec_eq; cbn; lra.
    + destruct (Req_EM_T (vz n) (-1)) as [E2|E2]; [|exfalso; apply E2; nra].
      injection E as <- <-. pose proof PI_RGT_0.
      assert (T : sqrt (PI * PI + 0 * 0) = PI).
      { replace (PI * PI + 0 * 0) with (PI * PI) by ring. apply sqrt_square; lra. }
      rewrite rodrigues_ez; rewrite T; [|lra].
      rewrite sin_PI, cos_PI. apply vec_eq; cbn; try lra; field_simplify; lra.
  - assert (0 < s) by lra.
    assert (N : vz n * vz n + s * s = 1) by lra.
    destruct (atan2_polar s (vz n) (or_intror Z)) as [C Sn].
    rewrite N, sqrt_1 in C, Sn.
    set (th := atan2 s (vz n)) in *.
    assert (T0 : 0 < th).
    { unfold th. destruct (Rle_lt_dec (atan2 s (vz n)) 0) as [L|L]; auto.
      exfalso. pose proof (atan2_bound s (vz n)). 
      assert (sin (atan2 s (vz n)) <= 0).
      { destruct (Req_dec (atan2 s (vz n)) 0) as [->|]; [rewrite sin_0; lra|].
        left. apply sin_lt_0_var; lra. }
      fold th in H1. rewrite Sn in H1. lra. }
    injection E as <- <-.
    assert (T : sqrt (- (th / s) * vy n * (- (th / s) * vy n) + th / s * vx n * (th / s * vx n)) = th).
    { replace (- (th / s) * vy n * (- (th / s) * vy n) + th / s * vx n * (th / s * vx n))
        with ((th * th) / (s * s) * (vx n * vx n + vy n * vy n)) by (field; lra).
      rewrite <- S. replace (th * th / (s * s) * (s * s)) with (th * th) by (field; lra).
      apply sqrt_square; lra. }
    rewrite rodrigues_ez; rewrite T; [|lra].
    rewrite C, Sn. apply vec_eq; cbn; field; lra.
Qed.

Record plane_inv (p : plane) : Prop := {
  pi_unit : dot (p_normal p) (p_normal p) = 1;
  pi_rot : is_rotation (p_rot p);
  pi_link : mvec (p_rot p) ez = p_normal p }.

Lemma plane_new_inv : forall v c, v <> vzero -> plane_inv (plane_new v c).
Proof.
  intros v c H. unfold plane_new. pose proof (normalize_unit v H) as U.
  destruct (orientation_wrt_z (normalize v)) as [tx ty] eqn:E.
  constructor; cbn; auto using rodrigues_rotation. apply orientation_ez; auto.
Qed.

Lemma rotate_normal_inv : forall p tx ty, plane_inv p -> plane_inv (rotate_normal p tx ty).
Proof.
  intros p tx ty []. pose proof (rodrigues_rotation tx ty) as R.
  assert (U : dot (mvec (rodrigues tx ty) (p_normal p)) (mvec (rodrigues tx ty) (p_normal p)) = 1)
    by (rewrite rotation_dot; assumption).
  constructor; cbn.
  - rewrite normalize_unit_id by assumption. assumption.
  - apply rotation_mul; assumption.
  - rewrite normalize_unit_id by assumption. rewrite mvec_mul, pi_link0. reflexivity.
Qed.

Lemma set_angles_inv : forall p tx ty, plane_inv (set_normal_from_angles p tx ty).
Proof.
  intros p tx ty. unfold set_normal_from_angles.
  destruct (Req_EM_T (sqrt (tx * tx + ty * ty)) 0) as [Z|Z].
  - constructor; cbn; [vunfold; ring|apply rotation_id|apply mvec_id].
  - pose proof (rodrigues_ez tx ty Z) as E.
    constructor; cbn; [|apply rodrigues_rotation|exact E].
    rewrite <- E, rotation_dot by apply rodrigues_rotation. vunfold; ring.
Qed.

Lemma flip_inv : forall p, dot (p_normal p) (p_normal p) = 1 ->
  plane_inv (flip_normal p) /\ p_normal (flip_normal p) = vopp (p_normal p).
Proof.
  intros p U. unfold flip_normal.
  assert (U' : dot (vscale (-1) (p_normal p)) (vscale (-1) (p_normal p)) = 1) by (rewrite <- U; vring).
  rewrite normalize_unit_id by assumption.
  destruct (orientation_wrt_z (vscale (-1) (p_normal p))) as [tx ty] eqn:E.
  split; [constructor; cbn; auto using rodrigues_rotation, orientation_ez|cbn; vring].
Qed.

Lemma plane_step_inv : forall p o, ~ assigns_normal o -> plane_inv p -> plane_inv (plane_step p o).
Proof.
  intros p [] N I; cbn in *.
  - apply rotate_normal_inv; assumption.
  - apply set_angles_inv.
  - destruct (rotate_normal_inv p tx ty I) as [A B C]. constructor; cbn in *; assumption.
  - apply flip_inv, I.
  - destruct I; constructor; assumption.
  - exfalso; auto.
Qed.

Lemma plane_run_inv : forall v c ops, v <> vzero -> Forall (fun o => ~ assigns_normal o) ops ->
  let p := plane_run (plane_new v c) ops in
  dot (p_normal p) (p_normal p) = 1 /\ is_rotation (p_rot p) /\ mvec (p_rot p) ez = p_normal p.
Proof.
  intros v c ops Hv H. cbn.
  assert (G : forall p, plane_inv p -> plane_inv (plane_run p ops)).
  { induction H; intros p I; cbn; auto. apply IHForall, plane_step_inv; auto. }
  destruct (G _ (plane_new_inv v c Hv)); auto.
Qed.

Lemma plane_run_unit : forall v c ops, v <> vzero -> Forall nonzero_normal ops ->
  let p := plane_run (plane_new v c) ops in
  dot (p_normal p) (p_normal p) = 1.
Proof.
  intros v c ops Hv H. cbn.
  assert (G : forall p, dot (p_normal p) (p_normal p) = 1 ->
              dot (p_normal (plane_run p ops)) (p_normal (plane_run p ops)) = 1).
  { induction H as [|o ops Ho _ IH]; intros p I; cbn; auto. apply IH. destruct o; cbn in *.
    - rewrite normalize_unit_id; rewrite rotation_dot; auto using rodrigues_rotation.
    - apply (pi_unit _ (set_angles_inv p tx ty)).
    - rewrite normalize_unit_id; rewrite rotation_dot; auto using rodrigues_rotation.
    - apply (flip_inv p I).
    - assumption.
    - apply normalize_unit; assumption. }
  apply G, (plane_new_inv v c Hv).
Qed.

(** ** angles round trip *)

Lemma angles_roundtrip : forall p tx ty, sqrt (tx * tx + ty * ty) < PI ->
  orientation_wrt_z (p_normal (set_normal_from_angles p tx ty)) = (tx, ty).
Proof.
  intros p tx ty H. unfold set_normal_from_angles.
  pose proof (hyp_sqr tx ty) as S. pose proof (sqrt_pos (tx * tx + ty * ty)) as P.
  destruct (Req_EM_T (sqrt (tx * tx + ty * ty)) 0) as [Z|Z].
  - apply hyp_0 in Z as [-> ->]. unfold orientation_wrt_z; cbn.
    replace (0 * 0 + 0 * 0) with 0 by ring. rewrite sqrt_0. rdec. reflexivity.
  - set (th := sqrt (tx * tx + ty * ty)) in *.
    assert (Sp : 0 < sin th) by (apply sin_gt_0; lra).
    unfold orientation_wrt_z; cbn.
    assert (E : sqrt (sin th / th * ty * (sin th / th * ty) + - (sin th / th) * tx * (- (sin th / th) * tx)) = sin th).
    { replace (sin th / th * ty * (sin th / th * ty) + - (sin th / th) * tx * (- (sin th / th) * tx))
        with ((sin th * sin th) / (th * th) * (tx * tx + ty * ty)) by (field; assumption).
      rewrite <- S. replace (sin th * sin th / (th * th) * (th * th)) with (sin th * sin th) by (field; assumption).
      apply sqrt_square; lra. }
    rewrite E. destruct (Req_EM_T (sin th) 0); [lra|].
    pose proof (atan2_unique 1 th ltac:(lra) ltac:(lra)) as A. rewrite !Rmult_1_l in A. rewrite A.
    f_equal; field; split; lra.
Qed.

Lemma normal_roundtrip : forall p n tx ty, dot n n = 1 -> orientation_wrt_z n = (tx, ty) ->
  p_normal (set_normal_from_angles p tx ty) = n.
Proof.
  intros p n tx ty U E. pose proof (orientation_ez n U tx ty E) as M.
  unfold set_normal_from_angles. destruct (Req_EM_T (sqrt (tx * tx + ty * ty)) 0) as [Z|Z].
  - apply hyp_0 in Z as [-> ->]. rewrite rodrigues_0, mvec_id in M. cbn. exact M.
  - rewrite rodrigues_ez in M by assumption. cbn. exact M.
Qed.

(** ** edge intersection *)

Lemma dist_lin : forall p a b t,
  plane_dist p (vadd (vscale (1 - t) a) (vscale t b)) = (1 - t) * plane_dist p a + t * plane_dist p b.
Proof. intros; unfold plane_dist; vring. Qed.

Lemma on_plane_dist : forall p x, on_plane p x <-> plane_dist p x = 0.
Proof. intros; unfold on_plane, plane_dist; rewrite dot_comm; split; lra. Qed.

Lemma intersection_t : forall p a b,
  plane_dist p a <> plane_dist p b ->
  let t := plane_dist p a / (plane_dist p a - plane_dist p b) in
  get_edge_intersection p a b =
    if Rlt_dec t 0 then Raise RuntimeError else if Rlt_dec 1 t then Raise RuntimeError
    else Ok (Some (vadd (vscale (1 - t) a) (vscale t b))).
Proof.
  intros p a b H. unfold plane_dist in *. unfold get_edge_intersection; cbn.
  destruct (Req_EM_T (dot a (p_normal p) - dot b (p_normal p)) 0); [lra|].
  replace (dot a (p_normal p) - p_scalar p - (dot b (p_normal p) - p_scalar p))
    with (dot a (p_normal p) - dot b (p_normal p)) by ring. reflexivity.
Qed.

Lemma edge_intersection_ok : forall p a b,
  plane_dist p a * plane_dist p b <= 0 -> ~ (on_plane p a /\ on_plane p b) ->
  exists x, get_edge_intersection p a b = Ok (Some x) /\ get_edge_intersection p b a = Ok (Some x) /\
            on_plane p x /\ on_segment a b x /\
            forall y, on_segment a b y -> on_plane p y -> y = x.
Proof.
  intros p a b H N. rewrite !on_plane_dist in N.
  set (da := plane_dist p a) in *. set (db := plane_dist p b) in *.
  assert (D : da <> db) by (intros E; apply N; nra).
  assert (T : 0 <= da / (da - db) <= 1).
  { destruct (Rtotal_order da db) as [L|[L|L]]; [|lra|].
    - assert (0 <= - da) by nra. assert (0 <= db) by nra.
      replace (da / (da - db)) with ((- da) / (db - da)) by (field; lra).
      split; [apply Rmult_le_pos; [lra|left; apply Rinv_0_lt_compat; lra]|].
      apply Rmult_le_reg_r with (db - da); [lra|].
      replace (- da / (db - da) * (db - da)) with (- da) by (field; lra). lra.
    - assert (0 <= da) by nra. assert (db <= 0) by nra.
      split; [apply Rmult_le_pos; [lra|left; apply Rinv_0_lt_compat; lra]|].
      apply Rmult_le_reg_r with (da - db); [lra|].
      replace (da / (da - db) * (da - db)) with da by (field; lra). lra. }
  exists (vadd (vscale (1 - da / (da - db)) a) (vscale (da / (da - db)) b)).
  split; [|split; [|split; [|split]]].
  - rewrite intersection_t by assumption. fold da db. rdec; reflexivity.
  - rewrite intersection_t by auto. fold da db.
    assert (E : db / (db - da) = 1 - da / (da - db)) by (field; lra). rewrite E.
    rdec. f_equal. f_equal. vring.
  - apply on_plane_dist. rewrite dist_lin. fold da db. field. lra.
  - exists (da / (da - db)); auto.
  - intros y (t & Ht & ->) Hy. apply on_plane_dist in Hy. rewrite dist_lin in Hy. fold da db in Hy.
    assert (t = da / (da - db)) as ->; auto.
    apply Rmult_eq_reg_r with (da - db); [|lra].
    replace (da / (da - db) * (da - db)) with da by (field; lra). lra.
Qed.

Lemma edge_intersection_raises : forall p a b,
  0 < plane_dist p a * plane_dist p b -> get_edge_intersection p a b = Raise RuntimeError.
Proof.
  intros p a b H. set (da := plane_dist p a) in *. set (db := plane_dist p b) in *.
  destruct (Req_dec da db) as [E|D].
  - unfold get_edge_intersection. unfold da, db, plane_dist in *.
    destruct (Req_EM_T (dot a (p_normal p) - dot b (p_normal p)) 0); [|lra].
    destruct (Req_EM_T (dot a (p_normal p) - p_scalar p) 0) as [Z|]; [|reflexivity].
    rewrite Z in H. lra.
  - rewrite intersection_t by assumption. fold da db.
    assert (da / (da - db) < 0 \/ 1 < da / (da - db)) as [C|C]; [|rdec; reflexivity|rdec; reflexivity].
    set (t := da / (da - db)).
    assert (Et : t * (da - db) = da) by (unfold t; field; lra).
    destruct (Rle_lt_dec 0 t) as [H0|]; [|left; auto]. right.
    destruct (Rle_lt_dec t 1) as [H1|]; auto. exfalso.
    assert (da * (1 - t) = - t * db) by lra.
    destruct (Rtotal_order da 0) as [L|[L|L]]; nra.
Qed.

Lemma edge_intersection_both : forall p a b, on_plane p a -> on_plane p b ->
  get_edge_intersection p a b = Ok None.
Proof.
  intros p a b Ha Hb. unfold on_plane in *. unfold get_edge_intersection.
  rewrite (dot_comm a), (dot_comm b), Ha, Hb. rdec. reflexivity.
Qed.

(** ** projection *)

Lemma projection_on : forall p x, dot (p_normal p) (p_normal p) = 1 -> on_plane p (projection p x).
Proof.
  intros p x U. unfold on_plane, projection, plane_dist.
  rewrite dot_sub_r, dot_scale_r, U, (dot_comm x). ring.
Qed.

Lemma projection_fix : forall p x, on_plane p x -> projection p x = x.
Proof.
  intros p x H. apply on_plane_dist in H. unfold projection. rewrite H. vring.
Qed.

Lemma projection_nearest : forall p x y, dot (p_normal p) (p_normal p) = 1 -> on_plane p y ->
  distance x (projection p x) <= distance x y.
Proof.
  intros p x y U H. unfold distance. rewrite !norm_dot. apply sqrt_le_1_alt.
  assert (E : dot (vsub x y) (vsub x y) = plane_dist p x * plane_dist p x
     + dot (vsub (projection p x) y) (vsub (projection p x) y)).
  { assert (Z : dot (vsub (projection p x) y) (p_normal p) = 0).
    { rewrite dot_sub_l, !(dot_comm _ (p_normal p)), (projection_on p x U), H. ring. }
    replace (vsub x y) with (vadd (vsub (projection p x) y) (vscale (plane_dist p x) (p_normal p)))
      by (unfold projection; vring).
    rewrite !dot_add_l, !dot_add_r, !dot_scale_l, !dot_scale_r, U, (dot_comm (p_normal p)), Z. ring. }
  assert (E' : dot (vsub x (projection p x)) (vsub x (projection p x)) = plane_dist p x * plane_dist p x).
  { replace (vsub x (projection p x)) with (vscale (plane_dist p x) (p_normal p)) by (unfold projection; vring).
    rewrite dot_scale_l, dot_scale_r, U. ring. }
  rewrite E, E'. pose proof (dot_nonneg (vsub (projection p x) y)). lra.
Qed.

Lemma dist_is_distance : forall p x, dot (p_normal p) (p_normal p) = 1 ->
  distance x (projection p x) = Rabs (plane_dist p x).
Proof.
  intros p x U. unfold distance, projection.
  replace (vsub x (vsub x (vscale (plane_dist p x) (p_normal p)))) with (vscale (plane_dist p x) (p_normal p)) by vring.
  rewrite norm_scale, (norm_unit _ U). ring.
Qed.

Lemma origin_on : forall p, dot (p_normal p) (p_normal p) = 1 ->
  on_plane p (plane_origin p) /\ plane_origin p = projection p vzero.
Proof.
  intros p U. split.
  - unfold on_plane, plane_origin. rewrite dot_scale_r, U. ring.
  - unfold plane_origin, projection, plane_dist. vring.
Qed.

(** ** coord_in_plane *)

Lemma coord_in_plane_third : forall v c x, v <> vzero ->
  let p := plane_new v c in
  on_plane p x ->
  vz (coord_in_plane p x) = 2 * vz (p_normal p) * vz x - c * (1 + vz (p_normal p)).
Proof.
  intros v c x Hv p Hx.
  assert (E : vz (mvec (p_rot p) x) = - vx (p_normal p) * vx x - vy (p_normal p) * vy x + vz (p_normal p) * vz x).
  { pose proof (plane_new_inv v c Hv) as [_ _ L]. fold p in L.
    unfold p, plane_new in *. set (n := normalize v) in *. clearbody n.
    destruct (orientation_wrt_z n) as [tx ty]; cbn [p_rot p_normal] in *.
    rewrite <- L. unfold rodrigues.
    destruct (Req_EM_T (sqrt (tx * tx + ty * ty)) 0); vunfold; ring. }
  assert (C : p_scalar p = c) by (unfold p, plane_new; destruct (orientation_wrt_z _); reflexivity).
  unfold coord_in_plane. unfold on_plane in Hx. rewrite C in *.
  unfold vadd, vscale; cbn [vz]. rewrite E. unfold dot in Hx. lra.
Qed.

Lemma plane_new_ez : forall c, plane_new ez c = mkPlane ez c mid.
Proof.
  intros. unfold plane_new. rewrite normalize_unit_id by (vunfold; ring).
  unfold orientation_wrt_z, ez; cbn. replace (0 * 0 + 0 * 0) with 0 by ring. rewrite sqrt_0. rdec.
  rewrite rodrigues_0. reflexivity.
Qed.

(** ** flipping *)

Lemma flip_points : forall p x, dot (p_normal p) (p_normal p) = 1 ->
  (on_plane (flip_normal p) x <-> on_plane p (vopp x)).
Proof.
  intros p x U. destruct (flip_inv p U) as [_ E].
  assert (C : p_scalar (flip_normal p) = p_scalar p) by (unfold flip_normal; destruct (orientation_wrt_z _); reflexivity).
  unfold on_plane. rewrite E, C. replace (dot (vopp (p_normal p)) x) with (dot (p_normal p) (vopp x)) by vring. reflexivity.
Qed.

Lemma flip_same_iff : forall p, dot (p_normal p) (p_normal p) = 1 ->
  ((forall x, on_plane (flip_normal p) x <-> on_plane p x) <-> p_scalar p = 0).
Proof.
  intros p U. split.
  - intros H. destruct (origin_on p U) as [O _]. apply H in O. apply flip_points in O; auto.
    unfold on_plane, plane_origin in O.
    replace (dot (p_normal p) (vopp (vscale (p_scalar p) (p_normal p)))) with (- p_scalar p * dot (p_normal p) (p_normal p)) in O by vring.
    rewrite U in O. lra.
  - intros Z x. rewrite flip_points by assumption. unfold on_plane. rewrite Z.
    replace (dot (p_normal p) (vopp x)) with (- dot (p_normal p) x) by vring. split; lra.
Qed.
