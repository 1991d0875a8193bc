(** Proofs about rotations.py. *)
From Coq Require Import Reals Lra Lia Psatz Nsatz.
From Verif Require Import M_base M_rotations S_rotations P_base.
Open Scope R_scope.

Lemma quat_eq : forall a b, q0 a = q0 b -> q1 a = q1 b -> q2 a = q2 b -> q3 a = q3 b -> a = b.
Proof. intros [] []; simpl; intros; subst; reflexivity. Qed.

Lemma sc2 : forall a, sin a * sin a = 1 - cos a * cos a.
Proof. intros; pose proof (sin2_cos2 a); unfold Rsqr in *; lra. Qed.

Lemma isclose_refl : forall a, isclose a a = true.
Proof.
  intros; unfold isclose; apply Rleb_true. replace (a - a) with 0 by ring. rewrite Rabs_R0.
  pose proof (Rabs_pos a). lra.
Qed.

Lemma isclose_0 : forall d, isclose d 0 = true <-> Rabs d <= 1 / 100000000.
Proof.
  intros; unfold isclose; rewrite Rleb_true, Rabs_R0. replace (d - 0) with d by ring. split; lra.
Qed.

Lemma unit_quat_ok : forall q, unit_quat q -> is_unit_quat q = true.
Proof. intros q H; unfold is_unit_quat, qnorm; rewrite H, sqrt_1; apply isclose_refl. Qed.
Lemma unit_vec_ok : forall v, unit_vec v -> is_unit_vec v = true.
Proof. intros v H; unfold is_unit_vec; rewrite norm_unit by exact H; apply isclose_refl. Qed.

(** ** Cardan *)

Lemma cardan_product : forall phi theta psi,
  cardan_to_rotmat phi theta psi = mmul (Rot_z psi) (mmul (Rot_y theta) (Rot_x phi)).
Proof. intros; unfold cardan_to_rotmat, Rot_x, Rot_y, Rot_z; vring. Qed.

Lemma rot_x_rotation : forall a, is_rotation (Rot_x a).
Proof. split; unfold Rot_x; vunfold; [apply mat_eq; cbn|]; ring_simplify; try ring; pose proof (sc2 a); nra. Qed.
Lemma rot_y_rotation : forall a, is_rotation (Rot_y a).
Proof. split; unfold Rot_y; vunfold; [apply mat_eq; cbn|]; ring_simplify; try ring; pose proof (sc2 a); nra. Qed.
Lemma rot_z_rotation : forall a, is_rotation (Rot_z a).
Proof. split; unfold Rot_z; vunfold; [apply mat_eq; cbn|]; ring_simplify; try ring; pose proof (sc2 a); nra. Qed.

Lemma mmul_assoc : forall a b c, mmul a (mmul b c) = mmul (mmul a b) c. Proof. vring. Qed.
Lemma mmul_id_l : forall a, mmul mid a = a. Proof. vring. Qed.
Lemma mmul_id_r : forall a, mmul a mid = a. Proof. vring. Qed.
Lemma mtrans_mul : forall a b, mtrans (mmul a b) = mmul (mtrans b) (mtrans a). Proof. vring. Qed.
Lemma mtrans_trans : forall a, mtrans (mtrans a) = a. Proof. intros []; reflexivity. Qed.
Lemma mdet_mul : forall a b, mdet (mmul a b) = mdet a * mdet b. Proof. vring. Qed.
Lemma mdet_trans : forall a, mdet (mtrans a) = mdet a. Proof. vring. Qed.
Lemma mvec_mul : forall a b v, mvec (mmul a b) v = mvec a (mvec b v). Proof. vring. Qed.
Lemma mvec_id : forall v, mvec mid v = v. Proof. vring. Qed.

Lemma rotation_mul : forall a b, is_rotation a -> is_rotation b -> is_rotation (mmul a b).
Proof.
  intros a b [Ha Da] [Hb Db]. split.
  - rewrite mtrans_mul, mmul_assoc, <- (mmul_assoc (mtrans b)), Ha, mmul_id_r. assumption.
  - rewrite mdet_mul, Da, Db; ring.
Qed.

Lemma rotation_id : is_rotation mid.
Proof. split; vring. Qed.

(** Left inverse is right inverse, for 3x3 matrices, through the adjugate. *)
Definition adj (a : mat) : mat :=
  M3 (m11 a * m22 a - m12 a * m21 a) (m02 a * m21 a - m01 a * m22 a) (m01 a * m12 a - m02 a * m11 a)
     (m12 a * m20 a - m10 a * m22 a) (m00 a * m22 a - m02 a * m20 a) (m02 a * m10 a - m00 a * m12 a)
     (m10 a * m21 a - m11 a * m20 a) (m01 a * m20 a - m00 a * m21 a) (m00 a * m11 a - m01 a * m10 a).

Lemma adj_r : forall a, mmul a (adj a) = mscale (mdet a) mid.
Proof. unfold adj; vring. Qed.
Lemma adj_l : forall a, mmul (adj a) a = mscale (mdet a) mid.
Proof. unfold adj; vring. Qed.
Lemma mscale_1 : forall a, mscale 1 a = a. Proof. vring. Qed.

Lemma rotation_adj : forall r, is_rotation r -> adj r = mtrans r.
Proof.
  intros r [H D].
  rewrite <- (mmul_id_r (mtrans r)), <- (mscale_1 mid), <- D, <- adj_r, mmul_assoc, H, mmul_id_l.
  reflexivity.
Qed.

Lemma rotation_right : forall r, is_rotation r -> mmul r (mtrans r) = mid.
Proof.
  intros r H. rewrite <- rotation_adj by assumption. rewrite adj_r.
  destruct H as [_ D]. rewrite D. apply mscale_1.
Qed.

Lemma rotation_trans : forall r, is_rotation r -> is_rotation (mtrans r).
Proof.
  intros r H. split.
  - rewrite mtrans_trans. apply rotation_right; assumption.
  - rewrite mdet_trans. apply H.
Qed.

Lemma cardan_rotation : forall phi theta psi, is_rotation (cardan_to_rotmat phi theta psi).
Proof.
  intros; rewrite cardan_product.
  apply rotation_mul; [apply rot_z_rotation|apply rotation_mul; [apply rot_y_rotation|apply rot_x_rotation]].
Qed.

(** All the scalar relations between the entries of a rotation matrix. *)
Record rot_rel (r : mat) : Prop := {
  rr_c00 : m00 r * m00 r + m10 r * m10 r + m20 r * m20 r = 1;
  rr_c11 : m01 r * m01 r + m11 r * m11 r + m21 r * m21 r = 1;
  rr_c22 : m02 r * m02 r + m12 r * m12 r + m22 r * m22 r = 1;
  rr_c01 : m00 r * m01 r + m10 r * m11 r + m20 r * m21 r = 0;
  rr_c02 : m00 r * m02 r + m10 r * m12 r + m20 r * m22 r = 0;
  rr_c12 : m01 r * m02 r + m11 r * m12 r + m21 r * m22 r = 0;
  rr_r00 : m00 r * m00 r + m01 r * m01 r + m02 r * m02 r = 1;
  rr_r11 : m10 r * m10 r + m11 r * m11 r + m12 r * m12 r = 1;
  rr_r22 : m20 r * m20 r + m21 r * m21 r + m22 r * m22 r = 1;
  rr_r01 : m00 r * m10 r + m01 r * m11 r + m02 r * m12 r = 0;
  rr_r02 : m00 r * m20 r + m01 r * m21 r + m02 r * m22 r = 0;
  rr_r12 : m10 r * m20 r + m11 r * m21 r + m12 r * m22 r = 0;
  rr_a00 : m00 r = m11 r * m22 r - m12 r * m21 r;
  rr_a01 : m01 r = m12 r * m20 r - m10 r * m22 r;
  rr_a02 : m02 r = m10 r * m21 r - m11 r * m20 r;
  rr_a10 : m10 r = m02 r * m21 r - m01 r * m22 r;
  rr_a11 : m11 r = m00 r * m22 r - m02 r * m20 r;
  rr_a12 : m12 r = m01 r * m20 r - m00 r * m21 r;
  rr_a20 : m20 r = m01 r * m12 r - m02 r * m11 r;
  rr_a21 : m21 r = m02 r * m10 r - m00 r * m12 r;
  rr_a22 : m22 r = m00 r * m11 r - m01 r * m10 r }.

Lemma rotation_rel : forall r, is_rotation r -> rot_rel r.
Proof.
  intros r H. pose proof (rotation_right r H) as HR. pose proof (rotation_adj r H) as HA.
  destruct H as [HL _]. unfold mmul, mtrans, mid, adj in *; simpl in *.
  injection HL; injection HR; injection HA; intros. constructor; lra.
Qed.

Lemma cardan_unit_quat : forall phi theta psi, unit_quat (cardan_to_quat phi theta psi).
Proof.
  intros; unfold unit_quat, cardan_to_quat; simpl.
  pose proof (sc2 (1/2*phi)). pose proof (sc2 (1/2*theta)). pose proof (sc2 (1/2*psi)).
  set (a := cos (1/2*phi)) in *. set (b := sin (1/2*phi)) in *.
  set (c := cos (1/2*theta)) in *. set (d := sin (1/2*theta)) in *.
  set (e := cos (1/2*psi)) in *. set (f := sin (1/2*psi)) in *.
  clearbody a b c d e f.
  transitivity ((a*a+b*b)*(c*c+d*d)*(e*e+f*f)); [ring|].
  replace (a*a+b*b) with 1 by lra. replace (c*c+d*d) with 1 by lra. replace (e*e+f*f) with 1 by lra. ring.
Qed.

Lemma axis_unit_quat : forall axis angle, unit_vec axis ->
  exists q, axis_angle_to_quat axis angle = Ok q /\ unit_quat q.
Proof.
  intros axis angle H. unfold axis_angle_to_quat. rewrite unit_vec_ok by assumption.
  eexists; split; [reflexivity|]. unfold unit_quat; simpl.
  pose proof (sc2 (1/2*angle)). unfold unit_vec, dot in H.
  set (s := sin (1/2*angle)) in *. set (c := cos (1/2*angle)) in *.
  transitivity (c*c + (s*s)*(vx axis * vx axis + vy axis * vy axis + vz axis * vz axis)); [ring|].
  rewrite H. lra.
Qed.

Definition qmat (q : quat) : mat :=
  M3 ((q0 q * q0 q + q1 q * q1 q) * 2 - 1) ((q1 q * q2 q - q0 q * q3 q) * 2) ((q1 q * q3 q + q0 q * q2 q) * 2)
     ((q1 q * q2 q + q0 q * q3 q) * 2) ((q0 q * q0 q + q2 q * q2 q) * 2 - 1) ((q2 q * q3 q - q0 q * q1 q) * 2)
     ((q1 q * q3 q - q0 q * q2 q) * 2) ((q2 q * q3 q + q0 q * q1 q) * 2) ((q0 q * q0 q + q3 q * q3 q) * 2 - 1).

Lemma quat_to_rotmat_unit : forall q, unit_quat q -> quat_to_rotmat q = Ok (qmat q).
Proof. intros q H; unfold quat_to_rotmat; rewrite unit_quat_ok by assumption; reflexivity. Qed.

Lemma qmat_rotation : forall q, unit_quat q -> is_rotation (qmat q).
Proof.
  intros [a b c d] H. unfold unit_quat in H; cbn in H.
  assert (A : a * a = 1 - b * b - c * c - d * d) by lra. clear H.
  split; unfold qmat; vunfold; cbn [q0 q1 q2 q3]; [apply mat_eq; cbn|]; ring [A].
Qed.

Lemma quat_rotation : forall q, unit_quat q ->
  exists r, quat_to_rotmat q = Ok r /\ is_rotation r.
Proof.
  intros q H. exists (qmat q). split; [apply quat_to_rotmat_unit|apply qmat_rotation]; assumption.
Qed.

Lemma half_double_cos : forall a, cos a = cos (1/2*a) * cos (1/2*a) - sin (1/2*a) * sin (1/2*a).
Proof. intros. rewrite <- cos_2a. f_equal. field. Qed.
Lemma half_double_sin : forall a, sin a = 2 * sin (1/2*a) * cos (1/2*a).
Proof. intros. rewrite <- sin_2a. f_equal. field. Qed.

Lemma cardan_quat_rotmat : forall phi theta psi,
  quat_to_rotmat (cardan_to_quat phi theta psi) = Ok (cardan_to_rotmat phi theta psi).
Proof.
  intros. rewrite quat_to_rotmat_unit by apply cardan_unit_quat. f_equal.
  unfold qmat, cardan_to_quat, cardan_to_rotmat; cbn [q0 q1 q2 q3].
  rewrite (half_double_cos phi), (half_double_sin phi), (half_double_cos theta), (half_double_sin theta),
          (half_double_cos psi), (half_double_sin psi).
  pose proof (sc2 (1/2*phi)) as H1. pose proof (sc2 (1/2*theta)) as H2. pose proof (sc2 (1/2*psi)) as H3.
  set (a := cos (1/2*phi)) in *. set (b := sin (1/2*phi)) in *.
  set (c := cos (1/2*theta)) in *. set (d := sin (1/2*theta)) in *.
  set (e := cos (1/2*psi)) in *. set (f := sin (1/2*psi)) in *.
  clearbody a b c d e f.
  f_equal; ring [H1 H2 H3].
Qed.

Lemma axis_angle_rotmat : forall axis angle, unit_vec axis ->
  exists r, axis_angle_to_rotmat axis angle = Ok r /\ is_rotation r /\
            forall v, mvec r v = rotate_about axis angle v.
Proof.
  intros axis angle H. unfold axis_angle_to_rotmat.
  destruct (axis_unit_quat axis angle H) as [q [E U]]. rewrite E; simpl.
  exists (qmat q). rewrite quat_to_rotmat_unit by assumption.
  split; [reflexivity|]. split; [apply qmat_rotation; assumption|].
  unfold axis_angle_to_quat in E. rewrite unit_vec_ok in E by assumption. injection E as <-.
  intros [x y z]. destruct axis as [a b c]. unfold rotate_about, qmat; vunfold.
  cbn [q0 q1 q2 q3].
  rewrite (half_double_cos angle), (half_double_sin angle).
  pose proof (sc2 (1/2*angle)) as H1.
  unfold unit_vec in H. vunfold.
  assert (A : a * a = 1 - b * b - c * c) by lra.
  set (s := sin (1/2*angle)) in *. set (k := cos (1/2*angle)) in *. clearbody s k.
  f_equal; ring [H1 A].
Qed.

(** ** Cardan angles of a rotation matrix *)

Lemma asin_sin_cos : forall x, -1 < x < 1 -> 
  sin (asin x) = x /\ cos (asin x) = sqrt (1 - x * x) /\ 0 < cos (asin x).
Proof.
  intros x H. split; [apply sin_asin; lra|].
  assert (E : cos (asin x) = sqrt (1 - x * x)).
  { pose proof (asin_bound x) as B.
    assert (C : 0 <= cos (asin x)) by (apply cos_ge_0; lra).
    rewrite <- (sqrt_square (cos (asin x))) by assumption. f_equal.
    pose proof (sc2 (asin x)). rewrite sin_asin in H0 by lra. lra. }
  split; auto. rewrite E. apply sqrt_lt_R0. nra.
Qed.

Lemma rotmat_cardan_rotmat : forall r, is_rotation r ->
  forall phi theta psi, rotmat_to_cardan r = (phi, theta, psi) -> cardan_to_rotmat phi theta psi = r.
Proof.
  intros r HR phi theta psi E.
  pose proof (rotation_rel r HR) as RR.
  unfold rotmat_to_cardan in E.
  destruct (Rlt_dec (m20 r) 1) as [H1|H1]; [destruct (Rlt_dec (-1) (m20 r)) as [H2|H2]|].
  - injection E as <- <- <-.
    destruct (asin_sin_cos (- m20 r) ltac:(lra)) as [S [C Cp]].
    set (ct := cos (asin (- m20 r))) in *.
    assert (Hct : ct * ct = 1 - m20 r * m20 r).
    { rewrite C. rewrite sqrt_sqrt by nra. ring. }
    assert (N1 : m00 r * m00 r + m10 r * m10 r = ct * ct) by (pose proof (rr_c00 r RR); lra).
    assert (N2 : m22 r * m22 r + m21 r * m21 r = ct * ct) by (pose proof (rr_r22 r RR); lra).
    assert (Q1 : sqrt (m00 r * m00 r + m10 r * m10 r) = ct) by (rewrite N1; apply sqrt_square; lra).
    assert (Q2 : sqrt (m22 r * m22 r + m21 r * m21 r) = ct) by (rewrite N2; apply sqrt_square; lra).
    assert (D1 : m00 r <> 0 \/ m10 r <> 0).
    { destruct (Req_dec (m00 r) 0) as [E0|]; auto. right; intros E1. rewrite E0, E1 in N1. nra. }
    assert (D2 : m22 r <> 0 \/ m21 r <> 0).
    { destruct (Req_dec (m22 r) 0) as [E0|]; auto. right; intros E1. rewrite E0, E1 in N2. nra. }
    destruct (atan2_polar (m10 r) (m00 r) D1) as [A1 A2].
    destruct (atan2_polar (m21 r) (m22 r) D2) as [B1 B2].
    rewrite Q1 in A1, A2. rewrite Q2 in B1, B2.
    unfold cardan_to_rotmat. rewrite A1, A2, B1, B2, S. fold ct.
    assert (ct <> 0) by lra.
    assert (I : forall a b, a * (ct * ct) = b * (ct * ct) -> a = b).
    { intros a b Hab. apply Rmult_eq_reg_r with (ct * ct); auto. }
    pose proof (rr_a01 r RR) as Ha01; pose proof (rr_a02 r RR) as Ha02;
    pose proof (rr_a11 r RR) as Ha11; pose proof (rr_a12 r RR) as Ha12.
    assert (K01 : m01 r * (ct * ct) = m21 r * - m20 r * m00 r - m22 r * m10 r)
      by (rewrite Hct; pose proof (f_equal (Rmult (m20 r)) Ha12); lra).
    assert (K02 : m02 r * (ct * ct) = m22 r * - m20 r * m00 r + m21 r * m10 r)
      by (rewrite Hct; pose proof (f_equal (Rmult (m20 r)) Ha11); lra).
    assert (K11 : m11 r * (ct * ct) = m21 r * - m20 r * m10 r + m22 r * m00 r)
      by (rewrite Hct; pose proof (f_equal (Rmult (m20 r)) Ha02); lra).
    assert (K12 : m12 r * (ct * ct) = m22 r * - m20 r * m10 r - m21 r * m00 r)
      by (rewrite Hct; pose proof (f_equal (Rmult (m20 r)) Ha01); lra).
    apply mat_eq; cbn; try (field; assumption); try (apply I);
      [rewrite K01 | rewrite K02 | rewrite K11 | rewrite K12 ]; try (field; assumption).
  - injection E as <- <- <-.
    pose proof (rr_c00 r RR) as Hc00; pose proof (rr_r22 r RR) as Hr22.
    destruct RR.
    assert (E20 : m20 r = -1) by (clear - Hr22 H1 H2; nra).
    assert (E00 : m00 r = 0) by (clear - Hc00 E20; rewrite E20 in *; nra). assert (E10 : m10 r = 0) by (clear - Hc00 E20; rewrite E20 in *; nra).
    assert (E21 : m21 r = 0) by (clear - Hr22 E20; rewrite E20 in *; nra). assert (E22 : m22 r = 0) by (clear - Hr22 E20; rewrite E20 in *; nra).
    rewrite E00, E10, E20, E21, E22 in *.
    assert (N : m11 r * m11 r + (- m12 r) * (- m12 r) = 1) by lra.
    assert (D : m11 r <> 0 \/ - m12 r <> 0).
    { destruct (Req_dec (m11 r) 0) as [E0|]; auto. right; intros E1. rewrite E0, E1 in N. lra. }
    destruct (atan2_polar (- m12 r) (m11 r) D) as [A1 A2].
    rewrite N, sqrt_1 in A1, A2.
    unfold cardan_to_rotmat. rewrite cos_0, sin_0, cos_PI2, sin_PI2, cos_neg, sin_neg, A1, A2.
    apply mat_eq; cbn; lra.
  - injection E as <- <- <-.
    pose proof (rr_c00 r RR) as Hc00; pose proof (rr_r22 r RR) as Hr22.
    destruct RR.
    assert (E20 : m20 r = 1) by (clear - Hr22 H1; nra).
    assert (E00 : m00 r = 0) by (clear - Hc00 E20; rewrite E20 in *; nra). assert (E10 : m10 r = 0) by (clear - Hc00 E20; rewrite E20 in *; nra).
    assert (E21 : m21 r = 0) by (clear - Hr22 E20; rewrite E20 in *; nra). assert (E22 : m22 r = 0) by (clear - Hr22 E20; rewrite E20 in *; nra).
    rewrite E00, E10, E20, E21, E22 in *.
    assert (N : m11 r * m11 r + (- m12 r) * (- m12 r) = 1) by lra.
    assert (D : m11 r <> 0 \/ - m12 r <> 0).
    { destruct (Req_dec (m11 r) 0) as [E0|]; auto. right; intros E1. rewrite E0, E1 in N. lra. }
    destruct (atan2_polar (- m12 r) (m11 r) D) as [A1 A2].
    rewrite N, sqrt_1 in A1, A2.
    unfold cardan_to_rotmat. rewrite cos_0, sin_0, cos_neg, sin_neg, cos_PI2, sin_PI2, A1, A2.
    apply mat_eq; cbn; lra.
Qed.

Lemma cardan_rotmat_cardan : forall phi theta psi,
  - PI < phi <= PI -> - (PI / 2) < theta < PI / 2 -> - PI < psi <= PI ->
  rotmat_to_cardan (cardan_to_rotmat phi theta psi) = (phi, theta, psi).
Proof.
  intros phi theta psi Hp Ht Hs.
  assert (C : 0 < cos theta) by (apply cos_gt_0; lra).
  assert (S : -1 < sin theta < 1) by (pose proof (sc2 theta); split; nra).
  unfold rotmat_to_cardan, cardan_to_rotmat; cbn [m00 m10 m11 m12 m20 m21 m22].
  destruct (Rlt_dec (- sin theta) 1); [|lra].
  destruct (Rlt_dec (-1) (- sin theta)); [|lra].
  rewrite !atan2_unique by assumption.
  rewrite Ropp_involutive, asin_sin by lra. reflexivity.
Qed.

Lemma cardan_range : forall r phi theta psi, rotmat_to_cardan r = (phi, theta, psi) ->
  - (PI / 2) <= theta <= PI / 2 /\ - PI < phi <= PI /\ - PI <= psi <= PI.
Proof.
  intros r phi theta psi E. pose proof PI_RGT_0. unfold rotmat_to_cardan in E.
  destruct (Rlt_dec (m20 r) 1); [destruct (Rlt_dec (-1) (m20 r))|]; injection E as <- <- <-.
  - pose proof (asin_bound (- m20 r)). pose proof (atan2_bound (m21 r) (m22 r)).
    pose proof (atan2_bound (m10 r) (m00 r)). lra.
  - pose proof (atan2_bound (- m12 r) (m11 r)). lra.
  - pose proof (atan2_bound (- m12 r) (m11 r)). lra.
Qed.

(** ** Quaternion of a rotation matrix *)

Lemma rot_quat_products : forall r, rot_rel r ->
  let t := m00 r + m11 r + m22 r in
  (m21 r - m12 r) * (m21 r - m12 r) = (1 + t) * (1 + m00 r - m11 r - m22 r) /\
  (m02 r - m20 r) * (m02 r - m20 r) = (1 + t) * (1 - m00 r + m11 r - m22 r) /\
  (m10 r - m01 r) * (m10 r - m01 r) = (1 + t) * (1 - m00 r - m11 r + m22 r) /\
  (m01 r + m10 r) * (m01 r + m10 r) = (1 + m00 r - m11 r - m22 r) * (1 - m00 r + m11 r - m22 r) /\
  (m02 r + m20 r) * (m02 r + m20 r) = (1 + m00 r - m11 r - m22 r) * (1 - m00 r - m11 r + m22 r) /\
  (m12 r + m21 r) * (m12 r + m21 r) = (1 - m00 r + m11 r - m22 r) * (1 - m00 r - m11 r + m22 r).
Proof. intros r []; cbn. repeat split; lra. Qed.

Lemma rot_quat_products2 : forall r, rot_rel r ->
  let t := m00 r + m11 r + m22 r in
  let p := 1 + m00 r - m11 r - m22 r in
  let q := 1 - m00 r + m11 r - m22 r in
  let s := 1 - m00 r - m11 r + m22 r in
  (m21 r - m12 r) * (m02 r - m20 r) = (1 + t) * (m01 r + m10 r) /\
  (m21 r - m12 r) * (m10 r - m01 r) = (1 + t) * (m02 r + m20 r) /\
  (m02 r - m20 r) * (m10 r - m01 r) = (1 + t) * (m12 r + m21 r) /\
  (m01 r + m10 r) * (m02 r + m20 r) = p * (m12 r + m21 r) /\
  (m01 r + m10 r) * (m21 r - m12 r) = p * (m02 r - m20 r) /\
  (m02 r + m20 r) * (m21 r - m12 r) = p * (m10 r - m01 r) /\
  (m01 r + m10 r) * (m12 r + m21 r) = q * (m02 r + m20 r) /\
  (m01 r + m10 r) * (m02 r - m20 r) = q * (m21 r - m12 r) /\
  (m12 r + m21 r) * (m02 r - m20 r) = q * (m10 r - m01 r) /\
  (m02 r + m20 r) * (m12 r + m21 r) = s * (m01 r + m10 r) /\
  (m02 r + m20 r) * (m10 r - m01 r) = s * (m21 r - m12 r) /\
  (m12 r + m21 r) * (m10 r - m01 r) = s * (m02 r - m20 r).
Proof. intros r []; cbn. repeat split; lra. Qed.

Lemma py_sqrt_div : forall x, 0 < x ->
  exists s, py_sqrt x = Ok s /\ 0 < s /\ s * s = x /\ py_div (1 / 2) s = Ok (1 / 2 / s).
Proof.
  intros x H. exists (sqrt x). unfold py_sqrt, py_div.
  pose proof (sqrt_lt_R0 x H).
  rdec. repeat split; auto. apply sqrt_sqrt; lra.
Qed.

Lemma rotmat_quat_rotmat : forall r, is_rotation r ->
  exists q, rotmat_to_quat r = Ok q /\ unit_quat q /\ quat_to_rotmat q = Ok r.
Proof.
  intros r HR. pose proof (rotation_rel r HR) as RR.
  destruct (rot_quat_products r RR) as (P1 & P2 & P3 & P4 & P5 & P6).
  destruct (rot_quat_products2 r RR) as (S1 & S2 & S3 & S4 & S5 & S6 & S7 & S8 & S9 & S10 & S11 & S12).
  cut (exists q, rotmat_to_quat r = Ok q /\ unit_quat q /\ qmat q = r).
  { intros [q [A [B C]]]. exists q. rewrite quat_to_rotmat_unit, C by assumption. auto. }
  unfold rotmat_to_quat.
  set (t := m00 r + m11 r + m22 r) in *.
  assert (FIN : forall n s, n = s * s -> 0 < s ->
    forall x y, x * x = n * y -> x * (1/2/s) * (x * (1/2/s)) = y / 4).
  { intros n s En Hs x y Hxy. 
    replace (x * (1/2/s) * (x * (1/2/s))) with (x * x / (4 * (s * s))) by (field; lra).
    rewrite Hxy, En. field; lra. }
  assert (FIN2 : forall n s, n = s * s -> 0 < s ->
    forall x y z, x * y = n * z -> x * (1/2/s) * (y * (1/2/s)) = z / 4).
  { intros n s En Hs x y z Hxy. 
    replace (x * (1/2/s) * (y * (1/2/s))) with (x * y / (4 * (s * s))) by (field; lra).
    rewrite Hxy, En. field; lra. }
  assert (FIN3 : forall s x, 0 < s -> 1/2 * s * (x * (1/2/s)) = x / 4) by (intros; field; lra).
  assert (FIN3' : forall s x, 0 < s -> x * (1/2/s) * (1/2 * s) = x / 4) by (intros; field; lra).
  destruct (Rle_dec 0 t) as [Ht|Ht].
  - destruct (py_sqrt_div (t + 1) ltac:(lra)) as (s & Es & Hs & Hss & Ed).
    rewrite Es; cbn. rewrite Ed; cbn. eexists; split; [reflexivity|].
    assert (N : 1 + t = s * s) by lra.
    pose proof (FIN _ s N Hs _ _ P1) as F1.
    pose proof (FIN _ s N Hs _ _ P2) as F2.
    pose proof (FIN _ s N Hs _ _ P3) as F3.
    pose proof (FIN2 _ s N Hs _ _ _ S1) as G1.
    pose proof (FIN2 _ s N Hs _ _ _ S2) as G2.
    pose proof (FIN2 _ s N Hs _ _ _ S3) as G3.
    assert (F0 : 1/2 * s * (1/2 * s) = (t + 1) / 4) by (rewrite <- Hss; field).
    split; [unfold unit_quat; cbn; unfold t in *; lra|].
    unfold qmat; cbn [q0 q1 q2 q3]. rewrite ?FIN3 by assumption.
    unfold t in *. apply mat_eq; cbn [m00 m01 m02 m10 m11 m12 m20 m21 m22]; lra.
  - destruct (Rlt_dec (m00 r) (m11 r)) as [H1|H1]; [destruct (Rlt_dec (m11 r) (m22 r)) as [H2|H2]
                                                   |destruct (Rlt_dec (m00 r) (m22 r)) as [H2|H2]].
    1,3: assert (Pos : 0 < m22 r - m00 r - m11 r + 1) by (unfold t in *; lra);
      destruct (py_sqrt_div _ Pos) as (s & Es & Hs & Hss & Ed);
      rewrite Es; cbn; rewrite Ed; cbn; eexists; (split; [reflexivity|]);
      assert (N : 1 - m00 r - m11 r + m22 r = s * s) by lra;
      pose proof (FIN _ s N Hs (m10 r - m01 r) (1+t) ltac:(lra)) as F1;
      pose proof (FIN _ s N Hs (m20 r + m02 r) (1 + m00 r - m11 r - m22 r) ltac:(lra)) as F2;
      pose proof (FIN _ s N Hs (m12 r + m21 r) (1 - m00 r + m11 r - m22 r) ltac:(lra)) as F3;
      pose proof (FIN2 _ s N Hs _ _ _ S10) as G1;
      pose proof (FIN2 _ s N Hs _ _ _ S11) as G2;
      pose proof (FIN2 _ s N Hs _ _ _ S12) as G3;
      assert (F0 : 1/2 * s * (1/2 * s) = (m22 r - m00 r - m11 r + 1) / 4) by (rewrite <- Hss; field);
      (split; [unfold unit_quat; cbn; unfold t in *; lra|]);
      unfold qmat; cbn [q0 q1 q2 q3]; rewrite ?FIN3, ?FIN3' by assumption;
      unfold t in *; rewrite (Rplus_comm (m20 r) (m02 r)) in *;
      apply mat_eq; cbn [m00 m01 m02 m10 m11 m12 m20 m21 m22]; lra.
    + assert (Pos : 0 < m11 r - m22 r - m00 r + 1) by (unfold t in *; lra).
      destruct (py_sqrt_div _ Pos) as (s & Es & Hs & Hss & Ed).
      rewrite Es; cbn. rewrite Ed; cbn. eexists; split; [reflexivity|].
      assert (N : 1 - m00 r + m11 r - m22 r = s * s) by lra.
      pose proof (FIN _ s N Hs (m02 r - m20 r) (1+t) ltac:(lra)) as F1.
      pose proof (FIN _ s N Hs (m01 r + m10 r) (1 + m00 r - m11 r - m22 r) ltac:(lra)) as F2.
      pose proof (FIN _ s N Hs (m12 r + m21 r) _ ltac:(rewrite P6; reflexivity)) as F3.
      pose proof (FIN2 _ s N Hs _ _ _ S7) as G1.
      pose proof (FIN2 _ s N Hs _ _ _ S8) as G2.
      pose proof (FIN2 _ s N Hs _ _ _ S9) as G3.
      assert (F0 : 1/2 * s * (1/2 * s) = (m11 r - m22 r - m00 r + 1) / 4) by (rewrite <- Hss; field).
      split; [unfold unit_quat; cbn; unfold t in *; lra|].
      unfold qmat; cbn [q0 q1 q2 q3]. rewrite ?FIN3, ?FIN3' by assumption.
      unfold t in *. apply mat_eq; cbn [m00 m01 m02 m10 m11 m12 m20 m21 m22]; lra.
    + assert (Pos : 0 < m00 r - m11 r - m22 r + 1) by (unfold t in *; lra).
      destruct (py_sqrt_div _ Pos) as (s & Es & Hs & Hss & Ed).
      rewrite Es; cbn. rewrite Ed; cbn. eexists; split; [reflexivity|].
      assert (N : 1 + m00 r - m11 r - m22 r = s * s) by lra.
      rewrite (Rplus_comm (m20 r) (m02 r)) in *.
      pose proof (FIN _ s N Hs (m21 r - m12 r) (1+t) ltac:(lra)) as F1.
      pose proof (FIN _ s N Hs (m01 r + m10 r) _ ltac:(rewrite P4; reflexivity)) as F2.
      pose proof (FIN _ s N Hs (m02 r + m20 r) _ ltac:(rewrite P5; reflexivity)) as F3.
      pose proof (FIN2 _ s N Hs _ _ _ S4) as G1.
      pose proof (FIN2 _ s N Hs _ _ _ S5) as G2.
      pose proof (FIN2 _ s N Hs _ _ _ S6) as G3.
      assert (F0 : 1/2 * s * (1/2 * s) = (m00 r - m11 r - m22 r + 1) / 4) by (rewrite <- Hss; field).
      split; [unfold unit_quat; cbn; unfold t in *; lra|].
      unfold qmat; cbn [q0 q1 q2 q3]. rewrite ?FIN3, ?FIN3' by assumption.
      unfold t in *. apply mat_eq; cbn [m00 m01 m02 m10 m11 m12 m20 m21 m22]; lra.
Qed.

Lemma qmat_inj : forall p q, unit_quat p -> unit_quat q -> qmat p = qmat q -> p = q \/ p = qopp q.
Proof.
  intros [a b c d] [a' b' c' d'] Hp Hq H. unfold unit_quat in *; cbn in Hp, Hq.
  unfold qmat in H; cbn in H. injection H; clear H; intros.
  assert (A : a * a = a' * a') by lra.
  assert (B : b * b = b' * b') by lra.
  assert (C : c * c = c' * c') by lra.
  assert (D : d * d = d' * d') by lra.
  assert (AB : a * b = a' * b') by lra. assert (AC : a * c = a' * c') by lra.
  assert (AD : a * d = a' * d') by lra. assert (BC : b * c = b' * c') by lra.
  assert (BD : b * d = b' * d') by lra. assert (CD : c * d = c' * d') by lra.
  clear - A B C D AB AC AD BC BD CD Hq.
  assert (SQ : forall x y, x * x = y * y -> x = y \/ x = - y).
  { intros x y E. assert ((x - y) * (x + y) = 0) by lra.
    apply Rmult_integral in H as [|]; [left|right]; lra. }
  assert (CAN : forall x x' y y', x' <> 0 -> x = x' -> x * y = x' * y' -> y = y').
  { intros x x' y y' N E M. subst. apply Rmult_eq_reg_l in M; auto. }
  assert (CAN2 : forall x x' y y', x' <> 0 -> x = - x' -> x * y = x' * y' -> y = - y').
  { intros x x' y y' N E M. subst. assert (x' * - y = x' * y') by lra. apply Rmult_eq_reg_l in H; auto. lra. }
  unfold qopp; cbn.
  destruct (Req_dec a' 0) as [Za|Na].
  - assert (a = 0) by nra. subst a a'.
    destruct (Req_dec b' 0) as [Zb|Nb].
    + assert (b = 0) by nra. subst b b'.
      destruct (Req_dec c' 0) as [Zc|Nc].
      * assert (c = 0) by nra. subst c c'.
        destruct (SQ _ _ D) as [E|E]; [left|right]; f_equal; lra.
      * destruct (SQ _ _ C) as [E|E]; [left|right]; f_equal; try lra;
          eauto using (CAN c c' d d'), (CAN2 c c' d d').
    + destruct (SQ _ _ B) as [E|E]; [left|right]; f_equal; try lra;
        eauto using (CAN b b' c c'), (CAN2 b b' c c'), (CAN b b' d d'), (CAN2 b b' d d').
  - destruct (SQ _ _ A) as [E|E]; [left|right]; f_equal; try lra;
      eauto using (CAN a a' b b'), (CAN2 a a' b b'), (CAN a a' c c'), (CAN2 a a' c c'), (CAN a a' d d'), (CAN2 a a' d d').
Qed.

Lemma quat_rotmat_quat : forall q, unit_quat q ->
  exists r q', quat_to_rotmat q = Ok r /\ rotmat_to_quat r = Ok q' /\ (q' = q \/ q' = qopp q).
Proof.
  intros q H. exists (qmat q).
  destruct (rotmat_quat_rotmat (qmat q) (qmat_rotation q H)) as (q' & E & U & E').
  exists q'. rewrite quat_to_rotmat_unit by assumption. split; [reflexivity|]. split; [assumption|].
  rewrite quat_to_rotmat_unit in E' by assumption. assert (qmat q' = qmat q) by congruence.
  apply qmat_inj; assumption.
Qed.

(** ** Axis and angle *)

Lemma quat_axis_angle_quat : forall q, unit_quat q -> 1 / 100000000 < 1 - q0 q * q0 q ->
  exists axis angle, quat_to_axis_angle q = Ok (axis, angle) /\ unit_vec axis /\ 0 < angle < 2 * PI /\
                     axis_angle_to_quat axis angle = Ok q.
Proof.
  intros q U D. unfold unit_quat in U.
  assert (B : -1 < q0 q < 1) by (split; nra).
  assert (S : 0 < sqrt (1 - q0 q * q0 q)) by (apply sqrt_lt_R0; lra).
  assert (SS : sqrt (1 - q0 q * q0 q) * sqrt (1 - q0 q * q0 q) = 1 - q0 q * q0 q) by (apply sqrt_sqrt; lra).
  unfold quat_to_axis_angle. rewrite unit_quat_ok by exact U.
  destruct (isclose (1 - q0 q * q0 q) 0) eqn:E.
  { apply isclose_0 in E. rewrite Rabs_pos_eq in E; lra. }
  unfold py_acos, py_sqrt. rdec. cbn [bind].
  exists (V3 (q1 q / sqrt (1 - q0 q * q0 q)) (q2 q / sqrt (1 - q0 q * q0 q)) (q3 q / sqrt (1 - q0 q * q0 q))),
         (2 * acos (q0 q)).
  split; [reflexivity|].
  assert (UV : unit_vec (V3 (q1 q / sqrt (1 - q0 q * q0 q)) (q2 q / sqrt (1 - q0 q * q0 q)) (q3 q / sqrt (1 - q0 q * q0 q)))).
  { unfold unit_vec, dot; cbn.
    set (s := sqrt (1 - q0 q * q0 q)) in *.
    replace (q1 q / s * (q1 q / s) + q2 q / s * (q2 q / s) + q3 q / s * (q3 q / s))
      with ((q1 q * q1 q + q2 q * q2 q + q3 q * q3 q) / (s * s)) by (field; lra).
    rewrite SS. replace (q1 q * q1 q + q2 q * q2 q + q3 q * q3 q) with (1 - q0 q * q0 q) by lra.
    field; lra. }
  split; [assumption|].
  split.
  { pose proof (acos_bound (q0 q)).
    assert (acos (q0 q) <> 0) by (intros Z; pose proof (cos_acos (q0 q) ltac:(lra)) as C; rewrite Z, cos_0 in C; lra).
    assert (acos (q0 q) <> PI) by (intros Z; pose proof (cos_acos (q0 q) ltac:(lra)) as C; rewrite Z, cos_PI in C; lra).
    lra. }
  unfold axis_angle_to_quat. rewrite unit_vec_ok by exact UV. f_equal.
  replace (1 / 2 * (2 * acos (q0 q))) with (acos (q0 q)) by field.
  rewrite cos_acos by lra. rewrite sin_acos by lra. unfold Rsqr.
  apply quat_eq; cbn; try reflexivity; field; lra.
Qed.

Lemma quat_axis_angle_cutoff : forall q, unit_quat q -> 1 - q0 q * q0 q <= 1 / 100000000 ->
  quat_to_axis_angle q = Ok (ez, 0) /\ axis_angle_to_quat ez 0 = Ok (Q4 1 0 0 0).
Proof.
  intros q U D. split.
  - unfold quat_to_axis_angle. rewrite unit_quat_ok by exact U.
    destruct (isclose (1 - q0 q * q0 q) 0) eqn:E; [reflexivity|].
    exfalso. assert (isclose (1 - q0 q * q0 q) 0 = true); [|congruence].
    apply isclose_0. unfold unit_quat in U. rewrite Rabs_pos_eq; nra.
  - unfold axis_angle_to_quat. rewrite unit_vec_ok by (unfold unit_vec; vring).
    f_equal. replace (1 / 2 * 0) with 0 by field. rewrite cos_0, sin_0.
    apply quat_eq; cbn; ring.
Qed.

(** The other conversions are compositions; they all denote the same rotation. *)
Lemma quat_cardan_rotmat : forall q, unit_quat q ->
  exists phi theta psi, quat_to_cardan q = Ok (phi, theta, psi) /\
     quat_to_rotmat q = Ok (cardan_to_rotmat phi theta psi).
Proof.
  intros q U. unfold quat_to_cardan. rewrite quat_to_rotmat_unit by assumption. cbn.
  destruct (rotmat_to_cardan (qmat q)) as [[phi theta] psi] eqn:E.
  exists phi, theta, psi. split; [reflexivity|].
  rewrite (rotmat_cardan_rotmat _ (qmat_rotation q U) _ _ _ E). reflexivity.
Qed.

Lemma axis_cardan_rotmat : forall axis angle, unit_vec axis ->
  exists phi theta psi, axis_angle_to_cardan axis angle = Ok (phi, theta, psi) /\
     axis_angle_to_rotmat axis angle = Ok (cardan_to_rotmat phi theta psi).
Proof.
  intros axis angle H. unfold axis_angle_to_cardan, axis_angle_to_rotmat.
  destruct (axis_unit_quat axis angle H) as (q & E & U). rewrite E; cbn.
  apply quat_cardan_rotmat; assumption.
Qed.

Lemma qopp_unit : forall q, unit_quat q -> unit_quat (qopp q).
Proof. unfold unit_quat, qopp; cbn; intros; lra. Qed.

Lemma axis_angle_of_quat_rotmat : forall q axis angle, unit_quat q -> 1 / 100000000 < 1 - q0 q * q0 q ->
  quat_to_axis_angle q = Ok (axis, angle) -> axis_angle_to_rotmat axis angle = quat_to_rotmat q.
Proof.
  intros q axis angle U D E.
  destruct (quat_axis_angle_quat q U D) as (a & g & E' & _ & _ & E'').
  rewrite E in E'. injection E' as <- <-. unfold axis_angle_to_rotmat. rewrite E''. reflexivity.
Qed.

Lemma rotmat_axis_rotmat : forall r axis angle q, is_rotation r ->
  rotmat_to_quat r = Ok q -> 1 / 100000000 < 1 - q0 q * q0 q ->
  rotmat_to_axis_angle r = Ok (axis, angle) -> axis_angle_to_rotmat axis angle = Ok r.
Proof.
  intros r axis angle q HR Eq D E.
  destruct (rotmat_quat_rotmat r HR) as (q' & E1 & U & E2).
  rewrite E1 in Eq. injection Eq as ->.
  unfold rotmat_to_axis_angle in E. rewrite E1 in E. cbn in E.
  rewrite (axis_angle_of_quat_rotmat q axis angle U D E). assumption.
Qed.

Lemma cardan_axis_rotmat : forall phi theta psi axis angle,
  1 / 100000000 < 1 - q0 (cardan_to_quat phi theta psi) * q0 (cardan_to_quat phi theta psi) ->
  cardan_to_axis_angle phi theta psi = Ok (axis, angle) ->
  axis_angle_to_rotmat axis angle = Ok (cardan_to_rotmat phi theta psi).
Proof.
  intros phi theta psi axis angle D E. unfold cardan_to_axis_angle in E.
  rewrite (axis_angle_of_quat_rotmat _ _ _ (cardan_unit_quat phi theta psi) D E).
  apply cardan_quat_rotmat.
Qed.
