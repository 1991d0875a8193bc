(** Basic lemmas and tactics: vector algebra, decidable comparisons, atan2. *)
From Coq Require Import Reals Lra Lia Psatz List.
From Verif Require Import M_base.
Import ListNotations.
Open Scope R_scope.

Lemma vec_eq : forall a b, vx a = vx b -> vy a = vy b -> vz a = vz b -> a = b.
Proof. intros [] []; simpl; intros; subst; reflexivity. Qed.

Lemma mat_eq : forall a b,
  m00 a = m00 b -> m01 a = m01 b -> m02 a = m02 b ->
  m10 a = m10 b -> m11 a = m11 b -> m12 a = m12 b ->
  m20 a = m20 b -> m21 a = m21 b -> m22 a = m22 b -> a = b.
Proof. intros [] []; simpl; intros; subst; reflexivity. Qed.

Ltac vunfold :=
  unfold vadd, vsub, vscale, vopp, vzero, dot, cross, ex, ey, ez, mvec, mmul, madd, msub, mscale,
         mtrans, mid, mdet in *;
  cbn [vx vy vz m00 m01 m02 m10 m11 m12 m20 m21 m22] in *.
Ltac vring := intros; try apply vec_eq; try apply mat_eq; vunfold; try ring.
Ltac vfield := intros; try apply vec_eq; try apply mat_eq; vunfold; try field.

(** Resolve comparisons decided by [lra] / [nra]. *)
Ltac rdec :=
  repeat (match goal with
  | |- context [if Rlt_dec ?a ?b then _ else _] =>
      destruct (Rlt_dec a b); try (exfalso; lra)
  | |- context [if Rle_dec ?a ?b then _ else _] =>
      destruct (Rle_dec a b); try (exfalso; lra)
  | |- context [if Req_EM_T ?a ?b then _ else _] =>
      destruct (Req_EM_T a b); try (exfalso; lra)
  end).

Lemma Rltb_true : forall a b, Rltb a b = true <-> a < b.
Proof. intros; unfold Rltb; destruct (Rlt_dec a b); split; intros; try easy. Qed.
Lemma Rltb_false : forall a b, Rltb a b = false <-> b <= a.
Proof. intros; unfold Rltb; destruct (Rlt_dec a b); split; intros; try easy; lra. Qed.
Lemma Rleb_true : forall a b, Rleb a b = true <-> a <= b.
Proof. intros; unfold Rleb; destruct (Rle_dec a b); split; intros; try easy. Qed.
Lemma Rleb_false : forall a b, Rleb a b = false <-> b < a.
Proof. intros; unfold Rleb; destruct (Rle_dec a b); split; intros; try easy; lra. Qed.
Lemma Reqb_true : forall a b, Reqb a b = true <-> a = b.
Proof. intros; unfold Reqb; destruct (Req_EM_T a b); split; intros; try easy. Qed.
Lemma Reqb_false : forall a b, Reqb a b = false <-> a <> b.
Proof. intros; unfold Reqb; destruct (Req_EM_T a b); split; intros; try easy. Qed.

Lemma dot_comm : forall a b, dot a b = dot b a. Proof. vring. Qed.
Lemma dot_add_l : forall a b c, dot (vadd a b) c = dot a c + dot b c. Proof. vring. Qed.
Lemma dot_sub_l : forall a b c, dot (vsub a b) c = dot a c - dot b c. Proof. vring. Qed.
Lemma dot_scale_l : forall k a c, dot (vscale k a) c = k * dot a c. Proof. vring. Qed.
Lemma dot_add_r : forall a b c, dot c (vadd a b) = dot c a + dot c b. Proof. vring. Qed.
Lemma dot_sub_r : forall a b c, dot c (vsub a b) = dot c a - dot c b. Proof. vring. Qed.
Lemma dot_scale_r : forall k a c, dot c (vscale k a) = k * dot c a. Proof. vring. Qed.
Lemma dot_nonneg : forall a, 0 <= dot a a. Proof. intros; vunfold; nra. Qed.
Lemma dot_zero : forall a, dot a a = 0 -> a = vzero.
Proof. intros a H; vunfold; apply vec_eq; simpl; nra. Qed.

Lemma norm_dot : forall a, norm a = sqrt (dot a a). Proof. reflexivity. Qed.
Lemma norm_nonneg : forall a, 0 <= norm a. Proof. intros; apply sqrt_pos. Qed.
Lemma norm_sqr : forall a, norm a * norm a = dot a a.
Proof. intros; rewrite norm_dot; apply sqrt_sqrt, dot_nonneg. Qed.
Lemma norm_unit : forall a, dot a a = 1 -> norm a = 1.
Proof. intros a H; rewrite norm_dot, H; apply sqrt_1. Qed.
Lemma norm_unit_inv : forall a, norm a = 1 -> dot a a = 1.
Proof. intros a H; rewrite <- norm_sqr, H; ring. Qed.
Lemma norm_scale : forall k a, norm (vscale k a) = Rabs k * norm a.
Proof.
  intros; rewrite !norm_dot.
  replace (dot (vscale k a) (vscale k a)) with ((k * k) * dot a a) by vring.
  rewrite sqrt_mult by (try apply dot_nonneg; nra).
  f_equal. change (k * k) with (Rsqr k). apply sqrt_Rsqr_abs.
Qed.
Lemma norm_zero_iff : forall a, norm a = 0 <-> a = vzero.
Proof.
  split; intros H.
  - apply dot_zero. rewrite <- norm_sqr, H; ring.
  - subst. unfold norm, vzero; simpl. replace (0*0+0*0+0*0) with 0 by ring. apply sqrt_0.
Qed.
Lemma norm_pos : forall a, a <> vzero -> 0 < norm a.
Proof.
  intros a H. destruct (norm_nonneg a) as [L|E]; auto.
  exfalso; apply H, norm_zero_iff; auto.
Qed.
Lemma norm_opp : forall a, norm (vopp a) = norm a.
Proof. intros; unfold norm; f_equal; vunfold; ring. Qed.

Lemma vsub_opp : forall a b, vsub a b = vopp (vsub b a). Proof. vring. Qed.

(** ** atan2 *)

Lemma same_angle : forall a b,
  -PI < a <= PI -> -PI < b <= PI -> cos a = cos b -> sin a = sin b -> a = b.
Proof.
  intros a b Ha Hb Hc Hs.
  assert (C : cos (a - b) = 1).
  { rewrite cos_minus, Hc, Hs. pose proof (sin2_cos2 b). unfold Rsqr in *. lra. }
  replace (a - b) with (2 * ((a - b) / 2)) in C by field.
  rewrite cos_2a_sin in C.
  assert (S0 : sin ((a - b) / 2) = 0) by nra.
  destruct (sin_eq_0_0 _ S0) as [k Hk].
  pose proof PI_RGT_0 as P.
  assert (k = 0)%Z.
  { assert (-1 < IZR k < 1) by (split; nra).
    destruct H as [H1 H2]. apply lt_IZR in H1. apply lt_IZR in H2. lia. }
  subst. lra.
Qed.

Lemma sqrt_ratio_pos : forall x y, 0 < x -> sqrt (1 + (y / x) * (y / x)) = sqrt (x * x + y * y) / x.
Proof.
  intros. apply Rmult_eq_reg_r with x; [|lra].
  replace (sqrt (x * x + y * y) / x * x) with (sqrt (x * x + y * y)) by (field; lra).
  rewrite <- (sqrt_square x) at 3 by lra.
  rewrite <- sqrt_mult by (try (pose proof (Rle_0_sqr (y/x)); unfold Rsqr in *); nra).
  f_equal. field. lra.
Qed.

Lemma sqrt_ratio_neg : forall x y, x < 0 -> sqrt (1 + (y / x) * (y / x)) = - sqrt (x * x + y * y) / x.
Proof.
  intros. pose proof (sqrt_ratio_pos (-x) y ltac:(lra)) as E.
  replace (y / - x * (y / - x)) with (y / x * (y / x)) in E by (field; lra).
  rewrite E. replace (- x * - x) with (x * x) by ring. field. lra.
Qed.

Lemma hypot_pos : forall x y, x <> 0 \/ y <> 0 -> 0 < sqrt (x * x + y * y).
Proof.
  intros x y H. apply sqrt_lt_R0. destruct H.
  - assert (0 < x * x) by (destruct (Rtotal_order x 0) as [|[|]]; nra). nra.
  - assert (0 < y * y) by (destruct (Rtotal_order y 0) as [|[|]]; nra). nra.
Qed.

Lemma sq_neq : forall x, x < 0 \/ 0 < x -> x * x <> 0. Proof. intros; nra. Qed.

Lemma atan2_polar : forall y x, x <> 0 \/ y <> 0 ->
  cos (atan2 y x) = x / sqrt (x * x + y * y) /\ sin (atan2 y x) = y / sqrt (x * x + y * y).
Proof.
  intros y x H. pose proof (hypot_pos x y H) as Hp.
  unfold atan2.
  destruct (Rlt_dec 0 x) as [Hx|Hx].
  - rewrite cos_atan, sin_atan. unfold Rsqr. rewrite sqrt_ratio_pos by assumption.
    split; field; split; lra.
  - destruct (Rlt_dec x 0) as [Hx'|Hx'].
    + destruct (Rle_dec 0 y).
      * rewrite neg_cos, neg_sin, cos_atan, sin_atan. unfold Rsqr. rewrite sqrt_ratio_neg by assumption.
        split; field; split; lra.
      * unfold Rminus. rewrite cos_plus, sin_plus, cos_neg, sin_neg, cos_PI, sin_PI, cos_atan, sin_atan.
        unfold Rsqr. rewrite sqrt_ratio_neg by assumption.
        split; field; split; lra.
    + assert (x = 0) by lra. subst x.
      replace (0 * 0 + y * y) with (y * y) in * by ring.
      destruct (Rlt_dec 0 y).
      * rewrite cos_PI2, sin_PI2. rewrite sqrt_square by lra. split; field; lra.
      * destruct (Rlt_dec y 0).
        -- rewrite cos_neg, sin_neg, cos_PI2, sin_PI2.
           replace (y * y) with ((-y) * (-y)) by ring. rewrite sqrt_square by lra. split; field; lra.
        -- exfalso. destruct H; lra.
Qed.

Lemma atan2_bound : forall y x, - PI < atan2 y x <= PI.
Proof.
  intros. pose proof PI_RGT_0. pose proof (atan_bound (y / x)). unfold atan2.
  destruct (Rlt_dec 0 x); [lra|].
  destruct (Rlt_dec x 0).
  - destruct (Rle_dec 0 y); [|split].
    + split; [lra|]. assert (y / x <= 0).
      { unfold Rdiv. assert (/ x < 0) by (apply Rinv_lt_0_compat; lra). nra. }
      destruct (Req_dec (y / x) 0) as [->|].
      * rewrite atan_0. lra.
      * pose proof (atan_increasing (y / x) 0 ltac:(lra)). rewrite atan_0 in *. lra.
    + assert (0 < y / x).
      { unfold Rdiv. assert (/ x < 0) by (apply Rinv_lt_0_compat; lra). nra. }
      pose proof (atan_increasing 0 (y / x) ltac:(lra)). rewrite atan_0 in *. lra.
    + lra.
  - destruct (Rlt_dec 0 y); [lra|]. destruct (Rlt_dec y 0); lra.
Qed.

Lemma atan2_unique : forall r a, 0 < r -> - PI < a <= PI -> atan2 (r * sin a) (r * cos a) = a.
Proof.
  intros r a Hr Ha.
  assert (Hn : r * cos a <> 0 \/ r * sin a <> 0).
  { destruct (Req_dec (r * cos a) 0) as [E|]; auto. right. intros E'.
    pose proof (sin2_cos2 a) as P. unfold Rsqr in P.
    assert (cos a = 0) by nra. assert (sin a = 0) by nra. rewrite H, H0 in P. lra. }
  destruct (atan2_polar (r * sin a) (r * cos a) Hn) as [C S].
  assert (E : sqrt (r * cos a * (r * cos a) + r * sin a * (r * sin a)) = r).
  { replace (r * cos a * (r * cos a) + r * sin a * (r * sin a)) with (r * r).
    - apply sqrt_square; lra.
    - pose proof (sin2_cos2 a) as P. unfold Rsqr in P. 
      replace (r * cos a * (r * cos a) + r * sin a * (r * sin a)) with (r * r * (sin a * sin a + cos a * cos a)) by ring.
      rewrite P. ring. }
  rewrite E in C, S.
  apply same_angle; auto.
  - apply atan2_bound.
  - rewrite C. field. lra.
  - rewrite S. field. lra.
Qed.
