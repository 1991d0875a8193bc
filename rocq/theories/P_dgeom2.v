(** Proofs about double precision: areas, normals and centers. *)
From Coq Require Import Reals Lra Lia List Arith Bool ZArith Sorting.Permutation Psatz.
From Flocq Require Import Core.
From Verif Require Import M_base M_merge M_plane M_mesh M_geometry S_merge P_base P_merge P_mesh M_double S_double P_double P_double2 P_double3 P_double4
  M_dgeom P_dgeom.
Import ListNotations.
Open Scope R_scope.

Definition appv (Q k B : R) (v V : vec) : Prop := app Q k B (vx v) (vx V) /\ app Q k B (vy v) (vy V) /\ app Q k B (vz v) (vz V).

Section Faces.
  Variable L : R.
  Hypothesis sized : powerRZ 2 (-200) <= L.
  Notation L1 := (L_large L sized).
  Notation L2 := (L2_large L sized).
  Notation L3 := (L3_large L sized).
  Notation W := (u * (L * L)).
  Notation W3 := (u * (L * L * L)).
  Lemma W_pos : 0 < W. Proof. exact (uQ_pos _ L2). Qed.
  Lemma W3_pos : 0 < W3. Proof. exact (uQ_pos _ L3). Qed.

  Lemma diff_app : forall x y, Rabs x <= L -> Rabs y <= L -> app L 4 2 (fsub x y) (x - y).
  Proof.
    intros x y X Y. unfold fsub. eapply app_weaken; [exact L1|apply (app_fl L L1 (0 + 0) (1 + 1)); [sane|apply (app_sub L); apply app_exact; lra]| |]; lra.
  Qed.
  Lemma product_app : forall x X y Y, app L 4 2 x X -> app L 4 2 y Y -> app (L * L) 23 4 (fmul x y) (X * Y).
  Proof.
    intros x X y Y A B. unfold fmul. eapply app_weaken; [exact L2|apply (app_fl _ L2); [|apply (app_mul L L 4 2 4 2); [exact L1|exact L1|sane|sane|exact A|exact B]]| |]; try lra.
    sane.
  Qed.
  Lemma minor_app : forall x X y Y z Z t T, app L 4 2 x X -> app L 4 2 y Y -> app L 4 2 z Z -> app L 4 2 t T ->
    app (L * L) 56 8 (fsub (fmul x y) (fmul z t)) (X * Y - Z * T).
  Proof.
    intros x X y Y z Z t T A B C D. unfold fsub at 1.
    eapply app_weaken; [exact L2|apply (app_fl _ L2 (23 + 23) (4 + 4)); [sane|apply (app_sub (L * L)); apply product_app; auto]| |]; lra.
  Qed.
  Lemma cross_app : forall a b c d, bounded L a -> bounded L b -> bounded L c -> bounded L d ->
    appv (L * L) 56 8 (cross_double (vsub_double a b) (vsub_double c d)) (cross (vsub a b) (vsub c d)).
  Proof.
    intros a b c d (A1 & A2 & A3) (B1 & B2 & B3) (C1 & C2 & C3) (D1 & D2 & D3).
    unfold appv, cross_double, cross, vsub_double, vsub. cbn [vx vy vz].
    (split; [|split]); apply minor_app; apply diff_app; auto.
  Qed.

  Lemma root_W : root <= / 1000 * W.
  Proof.
    pose proof (L2_ge L sized) as G. pose proof ulp1_pos as U.
    apply Rle_trans with (/ 1000 * (u * powerRZ 2 (-400))).
    - assert (E : u = powerRZ 2 (-53)) by (unfold ulp1, powerRZ; f_equal).
      rewrite E, <- powerRZ_add by (apply IZR_neq; lia). apply Rle_trans with (powerRZ 2 (-10) * powerRZ 2 (-53 + -400)).
      + rewrite <- powerRZ_add by (apply IZR_neq; lia). apply low_le. lia.
      + apply Rmult_le_compat_r; [apply Rlt_le, low_pos|]. unfold powerRZ. change (Pos.to_nat 10) with 10%nat. cbn [pow]. lra.
    - apply Rmult_le_compat_l; [lra|]. apply Rmult_le_compat_l; lra.
  Qed.
  Lemma norm_app : forall fsum k B c C, adds fsum -> sane k -> 0 <= B -> appv (L * L) k B c C ->
    app (L * L) (2 * k + 12 * B + 2) (2 * B) (norm_double fsum c) (norm C).
  Proof.
    intros fsum k B c C A [K0 K1] B0 (X & Y & Z). pose proof W_pos as W0. pose proof root_W as RW. pose proof ulp1_small as U1. pose proof ulp1_pos as U0.
    assert (D : norm (vsub c C) <= 2 * (k * W)).
    { apply norm_bounded. destruct X as [X _], Y as [Y _], Z as [Z _]. repeat split; cbn; auto. }
    assert (N : norm C <= 2 * (B * (L * L))).
    { apply norm_bounded. destruct X as [_ X], Y as [_ Y], Z as [_ Z]. repeat split; auto. }
    pose proof (norm_diff c C) as ND. pose proof (norm_double_near fsum c A) as E. pose proof (norm_pos c) as P. pose proof (norm_pos C) as P'.
    assert (NC : norm c <= 2 * (B * (L * L)) + 2 * (k * W)) by (apply Rabs_le_inv in ND; lra).
    split; [|rewrite Rabs_pos_eq; lra].
    replace (norm_double fsum c - norm C) with ((norm_double fsum c - norm c) + (norm c - norm C)) by ring.
    apply Rle_trans with (1 := Rabs_triang _ _).
    assert (E1 : 6 * u * norm c <= 12 * B * W + 12 * (u * (k * W))).
    { apply Rle_trans with (6 * u * (2 * (B * (L * L)) + 2 * (k * W))); [apply Rmult_le_compat_l; lra|lra]. }
    assert (E2 : u * (k * W) <= / 1000000000000000 * (1000000 * W)).
    { apply Rmult_le_compat; try lra; [apply Rmult_le_pos; lra|apply Rmult_le_compat_r; lra]. }
    lra.
  Qed.
  Lemma size_app : forall fsum a b c d, adds fsum -> bounded L a -> bounded L b -> bounded L c -> bounded L d ->
    app (L * L) 210 16 (norm_double fsum (cross_double (vsub_double a b) (vsub_double c d))) (norm (cross (vsub a b) (vsub c d))).
  Proof.
    intros fsum a b c d A HA HB HC HD. eapply app_weaken; [exact L2|apply (norm_app fsum 56 8); auto; try sane; try lra; apply cross_app; auto| |]; lra.
  Qed.
  Lemma half_app : forall k B x X, sane k -> app (L * L) k B x X -> app (L * L) (/ 2 * k + / 2 * B + 2) (/ 2 * B) (fl (x / 2)) (X / 2).
  Proof.
    intros k B x X [K0 K1] A. replace (x / 2) with (/ 2 * x) by lra. replace (X / 2) with (/ 2 * X) by lra.
    apply (app_fl _ L2); [apply sane_intro; lra|]. apply (app_scale _ (/ 2)); [lra|exact A].
  Qed.

  (** Normals *)
  Lemma rounded_near : forall x X e, Rabs (x - X) <= e -> Rabs (fl x - X) <= e + u * (Rabs X + e) + tiny.
  Proof.
    intros x X e E. replace (fl x - X) with ((fl x - x) + (x - X)) by ring. apply Rle_trans with (1 := Rabs_triang _ _).
    pose proof (fl_error x). pose proof ulp1_pos.
    assert (Rabs x <= Rabs X + e) by (replace x with (X + (x - X)) by ring; apply Rle_trans with (1 := Rabs_triang _ _); lra).
    assert (u * Rabs x <= u * (Rabs X + e)) by (apply Rmult_le_compat_l; lra). lra.
  Qed.
  Lemma direction_near : forall c C d D, app (L * L) 56 8 c C -> app (L * L) 210 16 d D -> Rabs C <= D -> 1000 * W <= D ->
    Rabs (fdiv c d - C / D) <= 400 * (W / D).
  Proof.
    intros c C d D [E _] [F S] CD WD. pose proof W_pos as W0. pose proof ulp1_pos as U0. pose proof ulp1_small as U1.
    assert (D0 : 0 < D) by lra. assert (Rabs D = D) by (apply Rabs_pos_eq; lra). rewrite H in S. clear H.
    pose proof (quotient_near c C d D (56 * W) (210 * W) 1 E F D0 ltac:(lra) ltac:(lra)) as Q.
    replace (4 / 3 * ((56 * W + 1 * (210 * W)) / D)) with (1064 / 3 * (W / D)) in Q by (field; lra).
    assert (WD1 : W / D <= / 1000) by (apply Rmult_le_reg_r with D; auto; unfold Rdiv; rewrite Rmult_assoc, Rinv_l; lra).
    assert (UW : u <= 16 * (W / D)).
    { apply Rmult_le_reg_r with D; auto. replace (16 * (W / D) * D) with (16 * W) by (field; lra).
      replace (16 * W) with (u * (16 * (L * L))) by ring. apply Rmult_le_compat_l; lra. }
    assert (C1 : Rabs (C / D) <= 1).
    { unfold Rdiv. rewrite Rabs_mult, (Rabs_pos_eq (/ D)) by (apply Rlt_le, Rinv_0_lt_compat; auto).
      apply Rmult_le_reg_r with D; auto. rewrite Rmult_assoc, Rinv_l; lra. }
    apply Rle_trans with (1 := rounded_near _ _ _ Q).
    assert (u * (Rabs (C / D) + 1064 / 3 * (W / D)) <= u * 2) by (apply Rmult_le_compat_l; lra).
    assert (tiny <= / 10 * u).
    { rewrite tiny_smallest. rewrite Rmult_comm. apply Rmult_le_compat_r; [lra|]. pose proof smallest_small. lra. }
    lra.
  Qed.
  Lemma normal_near : forall fsum a b c d, adds fsum -> bounded L a -> bounded L b -> bounded L c -> bounded L d ->
    let n := cross_double (vsub_double a b) (vsub_double c d) in let N := cross (vsub a b) (vsub c d) in
    1000 * W <= norm N -> bounded (400 * (W / norm N)) (vsub (vdiv_double n (norm_double fsum n)) (vdiv N (norm N))).
  Proof.
    intros fsum a b c d A HA HB HC HD n N H. destruct (cross_app a b c d HA HB HC HD) as (X & Y & Z).
    pose proof (size_app fsum a b c d A HA HB HC HD) as S. destruct (norm_coord N) as (NX & NY & NZ).
    unfold bounded, vdiv_double, vdiv. cbn [vx vy vz vsub]. repeat split; apply direction_near; auto.
  Qed.

  (** Centers *)
  Lemma third_app : forall k B x X, sane k -> app L k B x X -> app L (/ 3 * k + / 3 * B + 2) (/ 3 * B) (fdiv x 3) (X / 3).
  Proof.
    intros k B x X [K0 K1] A. unfold fdiv. replace (x / 3) with (/ 3 * x) by lra. replace (X / 3) with (/ 3 * X) by lra.
    apply (app_fl _ L1); [apply sane_intro; lra|]. apply (app_scale _ (/ 3)); [lra|exact A].
  Qed.
  Lemma mean_app : forall fsum x y z, adds fsum -> Rabs x <= L -> Rabs y <= L -> Rabs z <= L ->
    app L 9 1 (fdiv (fsum [x; y; z]) 3) ((x + y + z) / 3).
  Proof.
    intros fsum x y z A X Y Z. eapply app_weaken; [exact L1|apply (third_app 17 3); [sane|]| |]; try lra.
    eapply app_weaken; [exact L1|apply (app_sum3 L 0 1 x y z x y z)| |]; try lra; try sane; try apply L1; try (apply app_exact; lra).
    apply A. discriminate.
  Qed.
  Lemma pow2_u : (1 + u) ^ 2 - 1 <= 3 * u.
  Proof. pose proof ulp1_pos. pose proof ulp1_small. cbn. nra. Qed.
  Lemma sum2_app : forall fsum x y, adds fsum -> Rabs x <= L -> Rabs y <= L -> app L 9 2 (fsum [x; y]) (x + y).
  Proof.
    intros fsum x y A X Y. pose proof (sums_error _ _ (A [x; y] ltac:(discriminate))) as E. cbn [length total total_abs] in E.
    pose proof pow2_u as P2. pose proof (pow_1 2) as P1. set (q := (1 + u) ^ 2) in *. replace (INR 2) with 2 in E by (cbn; lra).
    pose proof (uQ_pos L L1). pose proof (tiny_uQ L L1). pose proof tiny_pos. pose proof ulp1_small. pose proof ulp1_pos.
    pose proof (Rabs_pos x). pose proof (Rabs_pos y).
    assert ((q - 1) * (Rabs x + (Rabs y + 0)) <= 3 * u * (2 * L)) by (apply Rmult_le_compat; lra).
    assert (2 * q * tiny <= 3 * (u * L)) by (apply Rmult_le_compat; lra).
    replace (x + (y + 0)) with (x + y) in E by ring. split; [lra|]. apply Rle_trans with (1 := Rabs_triang _ _). lra.
  Qed.
  Lemma mean2_app : forall fsum x y z, adds fsum -> Rabs x <= L -> Rabs y <= L -> Rabs z <= L ->
    app L 9 1 (fdiv (fadd (fsum [x; y]) z) 3) ((x + y + z) / 3).
  Proof.
    intros fsum x y z A X Y Z. eapply app_weaken; [exact L1|apply (third_app 14 3); [sane|]| |]; try lra.
    unfold fadd. eapply app_weaken; [exact L1|apply (app_fl L L1 (9 + 0) (2 + 1)); [sane|apply (app_add L); [apply sum2_app; auto|apply app_exact; lra]]| |]; lra.
  Qed.

  (** The center of a quadrangle: the mean of two centers, with the areas as weights. *)
  Lemma weighted_near : forall a A b B x X y Y, app (L * L) 115 8 a A -> app (L * L) 115 8 b B -> 0 <= A -> 0 <= B ->
    app L 9 1 x X -> app L 9 1 y Y -> 1000 * W <= A + B ->
    Rabs (fdiv (fadd (fmul a x) (fmul b y)) (fadd a b) - (A * X + B * Y) / (A + B)) <= 1500 * (W3 / (A + B)).
  Proof.
    intros a A b B x X y Y HA HB A0 B0 HX HY S. pose proof W_pos as W0. pose proof W3_pos as W30. pose proof ulp1_pos as U0. pose proof ulp1_small as U1.
    pose proof (L_pos L sized) as LP.
    assert (P : forall c C z Z, app (L * L) 115 8 c C -> app L 9 1 z Z -> app (L * L * L) 198 8 (fmul c z) (C * Z)).
    { intros c C z Z HC HZ. unfold fmul. eapply app_weaken; [exact L3|apply (app_fl _ L3); [|apply (app_mul (L * L) L 115 8 9 1); [exact L2|exact L1|sane|sane|exact HC|exact HZ]]| |]; try lra. sane. }
    assert (N : app (L * L * L) 414 16 (fadd (fmul a x) (fmul b y)) (A * X + B * Y)).
    { unfold fadd. eapply app_weaken; [exact L3|apply (app_fl _ L3 (198 + 198) (8 + 8)); [sane|apply (app_add (L * L * L)); apply P; auto]| |]; lra. }
    assert (D : app (L * L) 248 16 (fadd a b) (A + B)).
    { unfold fadd. eapply app_weaken; [exact L2|apply (app_fl _ L2 (115 + 115) (8 + 8)); [sane|apply (app_add (L * L)); auto]| |]; lra. }
    destruct N as [N _], D as [D DS]. set (s := A + B) in *. assert (S0 : 0 < s) by lra. rewrite (Rabs_pos_eq s) in DS by lra.
    assert (XY : Rabs (A * X + B * Y) <= L * s).
    { destruct HX as [_ HX], HY as [_ HY]. apply Rle_trans with (1 := Rabs_triang _ _). rewrite !Rabs_mult, (Rabs_pos_eq A), (Rabs_pos_eq B) by auto.
      assert (A * Rabs X <= A * L) by (apply Rmult_le_compat_l; lra). assert (B * Rabs Y <= B * L) by (apply Rmult_le_compat_l; lra). unfold s. lra. }
    pose proof (quotient_near _ _ _ s (414 * W3) (248 * W) L N D S0 ltac:(lra) XY) as Q.
    replace (4 / 3 * ((414 * W3 + L * (248 * W)) / s)) with (2648 / 3 * (W3 / s)) in Q by (field; lra).
    set (z := fadd (fmul a x) (fmul b y) / fadd a b) in *. change (fdiv (fadd (fmul a x) (fmul b y)) (fadd a b)) with (fl z).
    apply Rle_trans with (1 := rounded_near _ _ _ Q).
    assert (WS : W3 / s <= / 1000 * L).
    { apply Rmult_le_reg_r with s; auto. replace (W3 / s * s) with W3 by (field; lra). replace W3 with (W * L) by ring. nra. }
    assert (UL : u * L <= 16 * (W3 / s)).
    { apply Rmult_le_reg_r with s; auto. replace (16 * (W3 / s) * s) with (16 * W3) by (field; lra).
      replace (16 * W3) with (u * L * (16 * (L * L))) by ring. apply Rmult_le_compat_l; [|lra]. apply Rmult_le_pos; lra. }
    assert (CS : Rabs ((A * X + B * Y) / s) <= L).
    { unfold Rdiv. rewrite Rabs_mult, (Rabs_pos_eq (/ s)) by (apply Rlt_le, Rinv_0_lt_compat; auto).
      apply Rmult_le_reg_r with s; auto. rewrite Rmult_assoc, Rinv_l; lra. }
    assert (u * (Rabs ((A * X + B * Y) / s) + 2648 / 3 * (W3 / s)) <= u * (2 * L)) by (apply Rmult_le_compat_l; lra).
    pose proof (tiny_uQ L L1).
    assert (0 <= W3 / s) by (apply Rle_mult_inv_pos; lra). lra.
  Qed.
End Faces.
