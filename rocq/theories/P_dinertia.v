(** Proofs about double precision: the surface integrals of degrees two and three. *)
From Coq Require Import Reals Lra Lia List Arith Bool ZArith Psatz.
From Flocq Require Import Core.
From Verif Require Import M_base M_merge M_plane M_mesh M_geometry S_merge S_mesh S_geometry P_base P_merge P_mesh P_geometry M_inertia M_double S_double P_double P_double2 P_double3 P_double4
  M_dgeom P_dgeom P_dgeom2 P_dgeom3 S_dgeom P_dgeom4 P_dgeom5 M_dinertia.
Import ListNotations.
Open Scope R_scope.

Section Size.
  Variable L : R.
  Hypothesis sized : powerRZ 2 (-200) <= L.
  Lemma pow_size : forall k, (k <= 5)%nat -> powerRZ 2 (-200 * Z.of_nat k) <= L ^ k.
  Proof.
    induction k as [|k IH]; intros K; [cbn; lra|]. cbn [pow]. replace (-200 * Z.of_nat (S k))%Z with (-200 + -200 * Z.of_nat k)%Z by lia.
    rewrite powerRZ_add by lra. apply Rmult_le_compat; auto using Rlt_le, low_pos. apply IH. lia.
  Qed.
  Lemma pow_large : forall k, (k <= 5)%nat -> smallest <= L ^ k.
  Proof. intros k K. apply Rle_trans with (2 := pow_size k K). unfold smallest. apply low_le. lia. Qed.

  Lemma add_app : forall k a A b B x X y Y, (k <= 5)%nat -> app (L ^ k) a A x X -> app (L ^ k) b B y Y -> sane (a + b) ->
    app (L ^ k) (a + b + (A + B) + 2) (A + B) (fadd x y) (X + Y).
  Proof. intros k a A b B x X y Y K HX HY S. apply (app_fl _ (pow_large k K)); auto. apply app_add; auto. Qed.
  Lemma sub_app : forall k a A b B x X y Y, (k <= 5)%nat -> app (L ^ k) a A x X -> app (L ^ k) b B y Y -> sane (a + b) ->
    app (L ^ k) (a + b + (A + B) + 2) (A + B) (fsub x y) (X - Y).
  Proof. intros k a A b B x X y Y K HX HY S. apply (app_fl _ (pow_large k K)); auto. apply app_sub; auto. Qed.
  Lemma mul_app : forall i j a A b B x X y Y, (i + j <= 5)%nat -> app (L ^ i) a A x X -> app (L ^ j) b B y Y -> sane a -> sane b -> sane (a * B + b * A + 1) ->
    app (L ^ (i + j)) (a * B + b * A + 1 + A * B + 2) (A * B) (fmul x y) (X * Y).
  Proof.
    intros i j a A b B x X y Y K HX HY SA SB S. apply (app_fl _ (pow_large _ K)); auto. rewrite pow_add. apply app_mul; auto; apply pow_large; lia.
  Qed.
  Lemma times_app : forall k c a A x X, (k <= 5)%nat -> 0 <= c -> app (L ^ k) a A x X -> sane (c * a) -> app (L ^ k) (c * a + c * A + 2) (c * A) (fmul c x) (c * X).
  Proof. intros k c a A x X K C HX S. apply (app_fl _ (pow_large k K)); auto. apply app_scale; auto. Qed.
  Lemma over_app : forall k c a A x X, (k <= 5)%nat -> 0 < c -> app (L ^ k) a A x X -> sane (/ c * a) -> app (L ^ k) (/ c * a + / c * A + 2) (/ c * A) (fdiv x c) (X / c).
  Proof.
    intros k c a A x X K C HX S. unfold fdiv. replace (x / c) with (/ c * x) by (unfold Rdiv; ring). replace (X / c) with (/ c * X) by (unfold Rdiv; ring).
    apply (app_fl _ (pow_large k K)); auto. apply app_scale; auto. apply Rlt_le, Rinv_0_lt_compat. auto.
  Qed.
  Lemma coord_app : forall x, Rabs x <= L -> app (L ^ 1) 0 1 x x.
  Proof. intros x H. apply app_exact. cbn. lra. Qed.
  Lemma size_pow : forall fsum a b c d, adds fsum -> bounded L a -> bounded L b -> bounded L c -> bounded L d ->
    app (L ^ 2) 210 16 (norm_double fsum (cross_double (vsub_double a b) (vsub_double c d))) (norm (cross (vsub a b) (vsub c d))).
  Proof. intros. replace (L ^ 2) with (L * L) by (cbn; ring). apply size_app; auto. Qed.

  Ltac step lem := eapply app_weaken; [apply pow_large; lia|eapply lem; try lia; eauto; try sane; try lra| |]; try lra.

  Section Coordinates.
    Variables x y z : R.
    Hypothesis X : Rabs x <= L. Hypothesis Y : Rabs y <= L. Hypothesis Z : Rabs z <= L.
    Let Hx := coord_app x X. Let Hy := coord_app y Y. Let Hz := coord_app z Z.
    Lemma t0_app : app (L ^ 1) 4 2 (fadd x y) (x + y).
    Proof. step add_app. Qed.
    Lemma f1_app : app (L ^ 1) 9 3 (fadd (fadd x y) z) (x + y + z).
    Proof. pose proof t0_app. step add_app. Qed.
    Lemma t1_app : app (L ^ 2) 4 1 (fmul x x) (x * x).
    Proof. step (mul_app 1 1). Qed.
    Lemma t2_app : app (L ^ 2) 18 3 (fadd (fmul x x) (fmul y (fadd x y))) (x * x + y * (x + y)).
    Proof.
      pose proof t0_app. pose proof t1_app. assert (app (L ^ 2) 9 2 (fmul y (fadd x y)) (y * (x + y))) by (step (mul_app 1 1)). step add_app.
    Qed.
    Notation F1 := (fadd (fadd x y) z).
    Notation F2 := (fadd (fadd (fmul x x) (fmul y (fadd x y))) (fmul z F1)).
    Notation E1 := (x + y + z).
    Notation E2 := (x * x + y * (x + y) + z * E1).
    Lemma f2_app : app (L ^ 2) 41 6 F2 E2.
    Proof. pose proof t2_app. pose proof f1_app. assert (app (L ^ 2) 15 3 (fmul z F1) (z * E1)) by (step (mul_app 1 1)). step add_app. Qed.
    Lemma f3_app : app (L ^ 3) 100 10 (fadd (fadd (fmul x (fmul x x)) (fmul y (fadd (fmul x x) (fmul y (fadd x y))))) (fmul z F2))
      (x * (x * x) + y * (x * x + y * (x + y)) + z * E2).
    Proof.
      pose proof t1_app. pose proof t2_app. pose proof f2_app.
      assert (A : app (L ^ 3) 8 1 (fmul x (fmul x x)) (x * (x * x))) by (step (mul_app 1 2)).
      assert (B : app (L ^ 3) 24 3 (fmul y (fadd (fmul x x) (fmul y (fadd x y)))) (y * (x * x + y * (x + y)))) by (step (mul_app 1 2)).
      assert (C : app (L ^ 3) 50 6 (fmul z F2) (z * E2)) by (step (mul_app 1 2)).
      assert (D : app (L ^ 3) 38 4 (fadd (fmul x (fmul x x)) (fmul y (fadd (fmul x x) (fmul y (fadd x y))))) (x * (x * x) + y * (x * x + y * (x + y)))) by (step add_app).
      step add_app.
    Qed.
    Lemma g_app : forall t, Rabs t <= L -> app (L ^ 2) 75 10 (fadd F2 (fmul t (fadd F1 t))) (E2 + t * (E1 + t)).
    Proof.
      intros t T. pose proof (coord_app t T) as Ht. pose proof f1_app. pose proof f2_app. assert (app (L ^ 1) 15 4 (fadd F1 t) (E1 + t)) by (step add_app).
      assert (app (L ^ 2) 22 4 (fmul t (fadd F1 t)) (t * (E1 + t))) by (step (mul_app 1 1)). step add_app.
    Qed.
  End Coordinates.
  Lemma weighted_app : forall a b c g0 g1 g2 G0 G1 G2, Rabs a <= L -> Rabs b <= L -> Rabs c <= L -> app (L ^ 2) 75 10 g0 G0 -> app (L ^ 2) 75 10 g1 G1 -> app (L ^ 2) 75 10 g2 G2 ->
    app (L ^ 3) 318 30 (weighted_double a b c g0 g1 g2) (a * G0 + b * G1 + c * G2).
  Proof.
    intros a b c g0 g1 g2 G0 G1 G2 A B C HG0 HG1 HG2. pose proof (coord_app a A) as Ha. pose proof (coord_app b B) as Hb. pose proof (coord_app c C) as Hc. unfold weighted_double.
    assert (app (L ^ 3) 88 10 (fmul a g0) (a * G0)) by (step (mul_app 1 2)).
    assert (app (L ^ 3) 88 10 (fmul b g1) (b * G1)) by (step (mul_app 1 2)).
    assert (app (L ^ 3) 88 10 (fmul c g2) (c * G2)) by (step (mul_app 1 2)).
    assert (app (L ^ 3) 198 20 (fadd (fmul a g0) (fmul b g1)) (a * G0 + b * G1)) by (step add_app). step add_app.
  Qed.
  Lemma mixed_app : forall a b c f F a' b' c' f' F', Rabs a <= L -> Rabs b <= L -> Rabs c <= L -> Rabs a' <= L -> Rabs b' <= L -> Rabs c' <= L ->
    app (L ^ 1) 9 3 f F -> app (L ^ 1) 9 3 f' F' ->
    app (L ^ 2) 142 18 (mixed_double a b c f a' b' c' f') (6 * a * a' + 3 * (b * b' + c * c') - a * F' - a' * F).
  Proof.
    intros a b c f F a' b' c' f' F' A B C A' B' C' HF HF'. pose proof (coord_app a A) as Ha. pose proof (coord_app b B) as Hb. pose proof (coord_app c C) as Hc.
    pose proof (coord_app a' A') as Ha'. pose proof (coord_app b' B') as Hb'. pose proof (coord_app c' C') as Hc'. unfold mixed_double.
    assert (H1 : app (L ^ 1) 8 6 (fmul 6 a) (6 * a)) by (step times_app).
    assert (H2 : app (L ^ 2) 17 6 (fmul (fmul 6 a) a') (6 * a * a')) by (step (mul_app 1 1)).
    assert (H3 : app (L ^ 2) 4 1 (fmul b b') (b * b')) by (step (mul_app 1 1)).
    assert (H4 : app (L ^ 2) 4 1 (fmul c c') (c * c')) by (step (mul_app 1 1)).
    assert (H5 : app (L ^ 2) 12 2 (fadd (fmul b b') (fmul c c')) (b * b' + c * c')) by (step add_app).
    assert (H6 : app (L ^ 2) 44 6 (fmul 3 (fadd (fmul b b') (fmul c c'))) (3 * (b * b' + c * c'))) by (step times_app).
    assert (H7 : app (L ^ 2) 75 12 (fadd (fmul (fmul 6 a) a') (fmul 3 (fadd (fmul b b') (fmul c c')))) (6 * a * a' + 3 * (b * b' + c * c'))) by (step add_app).
    assert (H8 : app (L ^ 2) 15 3 (fmul a f') (a * F')) by (step (mul_app 1 1)).
    assert (H9 : app (L ^ 2) 15 3 (fmul a' f) (a' * F)) by (step (mul_app 1 1)).
    assert (H10 : app (L ^ 2) 107 15 (fsub (fadd (fmul (fmul 6 a) a') (fmul 3 (fadd (fmul b b') (fmul c c')))) (fmul a f')) (6 * a * a' + 3 * (b * b' + c * c') - a * F')) by (step sub_app).
    step sub_app.
  Qed.

  (** The integrals of a triangle *)
  Section Triangle.
    Variables (fsum : list R -> R) (a b c : vec).
    Hypothesis sum_ok : adds fsum.
    Hypothesis A : bounded L a. Hypothesis B : bounded L b. Hypothesis C : bounded L c.
    Let D := size_pow fsum b a c a sum_ok B A C A.
    Lemma scaled_app : forall k n e s K x X, (2 + k <= 5)%nat -> app (L ^ 2) 210 16 n e -> app (L ^ k) s K x X -> forall d, 0 < d -> sane s -> 0 <= K -> sane (210 * K + s * 16 + 1 + 16 * K + 2) ->
      1 <= d -> app (L ^ (2 + k)) (/ d * (210 * K + s * 16 + 1 + 16 * K + 2) + / d * (16 * K) + 2) (/ d * (16 * K)) (fdiv (fmul n x) d) (e * X / d).
    Proof.
      intros k n e s K x X HK HN HX d D0 S K0 SS D1. assert (I : / d <= 1) by (rewrite <- Rinv_1; apply Rinv_le_contravar; lra). assert (I0 : 0 < / d) by (apply Rinv_0_lt_compat; lra).
      apply over_app; auto.
      - apply (mul_app 2 k); auto; [sane|]. destruct SS. destruct S. apply sane_intro; nra.
      - destruct SS as [S0 S1]. apply sane_intro; [apply Rmult_le_pos; lra|]. apply Rle_trans with (1 * (210 * K + s * 16 + 1 + 16 * K + 2)); [apply Rmult_le_compat_r; lra|lra].
    Qed.
    Ltac scaled k s K := eapply app_weaken; [apply pow_large; lia|apply (scaled_app k _ _ s K); [lia|exact D| |lra|sane|lra|sane|lra]| |]; [|lra|lra].
    Lemma i6_app : appv (L ^ 4) 178 8 (i6 (triangle_integrals_double fsum a b c)) (i6 (triangle_integrals a b c)).
    Proof.
      destruct A as (AX & AY & AZ), B as (BX & BY & BZ), C as (CX & CY & CZ).
      unfold appv, triangle_integrals_double, triangle_integrals, vdiv_double, vscale_double, vadd_double, vmul_double, vdiv, vscale, vadd, vmul. cbn [i6 vx vy vz].
      (split; [|split]); scaled 2%nat 41 6; apply f2_app; auto.
    Qed.
    Lemma i9_app : appv (L ^ 5) 204 8 (i9 (triangle_integrals_double fsum a b c)) (i9 (triangle_integrals a b c)).
    Proof.
      destruct A as (AX & AY & AZ), B as (BX & BY & BZ), C as (CX & CY & CZ).
      unfold appv, triangle_integrals_double, triangle_integrals, vdiv_double, vscale_double, vadd_double, vmul_double, vdiv, vscale, vadd, vmul. cbn [i9 vx vy vz].
      (split; [|split]); scaled 3%nat 100 10; apply f3_app; auto.
    Qed.
    Lemma i12_app : appv (L ^ 5) 208 8 (i12 (triangle_integrals_double fsum a b c)) (i12 (triangle_integrals a b c)).
    Proof.
      destruct A as (AX & AY & AZ), B as (BX & BY & BZ), C as (CX & CY & CZ).
      unfold appv, triangle_integrals_double, triangle_integrals, vdiv_double, vscale_double, vadd_double, vmul_double, vdiv, vscale, vadd, vmul. cbn [i12 vx vy vz].
      (split; [|split]); scaled 3%nat 318 30; apply weighted_app; auto; apply g_app; auto.
    Qed.
    Lemma i3_app : appv (L ^ 4) 555 24 (i3 (triangle_integrals_double fsum a b c)) (i3 (triangle_integrals a b c)).
    Proof.
      destruct A as (AX & AY & AZ), B as (BX & BY & BZ), C as (CX & CY & CZ).
      unfold appv, triangle_integrals_double, triangle_integrals, vdiv_double, vscale_double, vadd_double, vmul_double, vdiv, vscale, vadd, vmul. cbn [i3 vx vy vz].
      (split; [|split]); scaled 2%nat 142 18; apply mixed_app; auto; apply f1_app; auto.
    Qed.
    Lemma share_size : forall k X K d, 0 < d -> Rabs X <= K * L ^ k -> K <= d / 2 -> Rabs (norm (cross (vsub b a) (vsub c a)) * X / d) <= norm (cross (vsub b a) (vsub c a)) / 2 * L ^ k.
    Proof.
      intros k X K d D0 HX KD. pose proof (norm_pos (cross (vsub b a) (vsub c a))) as N. set (n := norm (cross (vsub b a) (vsub c a))) in *.
      replace (n * X / d) with (n / d * X) by (field; lra). rewrite Rabs_mult, (Rabs_pos_eq (n / d)) by (apply Rmult_le_pos; [lra|apply Rlt_le, Rinv_0_lt_compat; lra]).
      assert (P : 0 < L ^ k) by (apply pow_lt, (L_pos L sized)).
      apply Rle_trans with (n / d * (d / 2 * L ^ k)); [|right; field; lra]. apply Rmult_le_compat_l; [apply Rmult_le_pos; [lra|apply Rlt_le, Rinv_0_lt_compat; lra]|].
      apply Rle_trans with (1 := HX). apply Rmult_le_compat_r; lra.
    Qed.
    Lemma i6_size : bounded (norm (cross (vsub b a) (vsub c a)) / 2 * L ^ 2) (i6 (triangle_integrals a b c)).
    Proof.
      destruct A as (AX & AY & AZ), B as (BX & BY & BZ), C as (CX & CY & CZ). unfold bounded, triangle_integrals, vdiv, vscale, vadd, vmul. cbn [i6 vx vy vz].
      (split; [|split]); apply (share_size 2 _ 6); try lra; apply f2_app; auto.
    Qed.
    Lemma i9_size : bounded (norm (cross (vsub b a) (vsub c a)) / 2 * L ^ 3) (i9 (triangle_integrals a b c)).
    Proof.
      destruct A as (AX & AY & AZ), B as (BX & BY & BZ), C as (CX & CY & CZ). unfold bounded, triangle_integrals, vdiv, vscale, vadd, vmul. cbn [i9 vx vy vz].
      (split; [|split]); apply (share_size 3 _ 10); try lra; apply f3_app; auto.
    Qed.
    Lemma i12_size : bounded (norm (cross (vsub b a) (vsub c a)) / 2 * L ^ 3) (i12 (triangle_integrals a b c)).
    Proof.
      destruct A as (AX & AY & AZ), B as (BX & BY & BZ), C as (CX & CY & CZ). unfold bounded, triangle_integrals, vdiv, vscale, vadd, vmul. cbn [i12 vx vy vz].
      (split; [|split]); apply (share_size 3 _ 30); try lra; (eapply weighted_app; auto; apply g_app; auto).
    Qed.
    Lemma i3_size : bounded (3 * (norm (cross (vsub b a) (vsub c a)) / 2 * L ^ 2)) (i3 (triangle_integrals a b c)).
    Proof.
      destruct A as (AX & AY & AZ), B as (BX & BY & BZ), C as (CX & CY & CZ). unfold bounded, triangle_integrals, vdiv, vscale, vadd, vmul. cbn [i3 vx vy vz].
      assert (S : forall X, Rabs X <= 18 * L ^ 2 -> Rabs (norm (cross (vsub b a) (vsub c a)) * X / 12) <= 3 * (norm (cross (vsub b a) (vsub c a)) / 2 * L ^ 2)).
      { intros X H. pose proof (share_size 2 X 18 36 ltac:(lra) H ltac:(lra)) as K. replace (norm (cross (vsub b a) (vsub c a)) * X / 12) with (3 * (norm (cross (vsub b a) (vsub c a)) * X / 36)) by field.
        rewrite Rabs_mult, (Rabs_pos_eq 3) by lra. lra. }
      (split; [|split]); apply S; (eapply mixed_app; auto; apply f1_app; auto).
    Qed.
  End Triangle.
End Size.
