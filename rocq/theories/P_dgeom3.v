(** Proofs about double precision: surface integrals and volumes. *)
From Coq Require Import Reals Lra Lia List Arith Bool ZArith Sorting.Permutation Psatz.
From Flocq Require Import Core.
From Verif Require Import M_base M_merge M_plane M_mesh M_geometry S_merge S_mesh P_base P_merge P_mesh P_geometry M_double S_double P_double P_double2 P_double3 P_double4
  M_dgeom P_dgeom P_dgeom2.
Import ListNotations.
Open Scope R_scope.

Section Faces.
  Variable L : R.
  Hypothesis sized : powerRZ 2 (-200) <= L.
  Notation L1 := (L_large L sized).
  Notation L2 := (L2_large L sized).
  Notation L3 := (L3_large L sized).
  Notation W := (u * (L * L)).
  Notation W3 := (u * (L * L * L)).

  Lemma sum3_app : forall x y z, Rabs x <= L -> Rabs y <= L -> Rabs z <= L -> app L 9 3 (fadd (fadd x y) z) (x + y + z).
  Proof.
    intros x y z X Y Z. unfold fadd.
    assert (A : app L 4 2 (fl (x + y)) (x + y)).
    { eapply app_weaken; [exact L1|apply (app_fl L L1 (0 + 0) (1 + 1)); [sane|apply (app_add L); apply app_exact; lra]| |]; lra. }
    eapply app_weaken; [exact L1|apply (app_fl L L1 (4 + 0) (2 + 1)); [sane|apply (app_add L); [exact A|apply app_exact; lra]]| |]; lra.
  Qed.
  Lemma moment_app : forall d D x X, app (L * L) 210 16 d D -> app L 9 3 x X ->
    app (L * L * L) 148 8 (fdiv (fmul d x) 6) (D * X / 6).
  Proof.
    intros d D x X HD HX.
    assert (A : app (L * L * L) 825 48 (fmul d x) (D * X)).
    { unfold fmul. eapply app_weaken; [exact L3|apply (app_fl _ L3); [|apply (app_mul (L * L) L 210 16 9 3); [exact L2|exact L1|sane|sane|exact HD|exact HX]]| |]; try lra. sane. }
    unfold fdiv. replace (fmul d x / 6) with (/ 6 * fmul d x) by lra. replace (D * X / 6) with (/ 6 * (D * X)) by lra.
    eapply app_weaken; [exact L3|apply (app_fl _ L3); [|apply (app_scale _ (/ 6)); [lra|exact A]]| |]; try lra. sane.
  Qed.
  Lemma moments_app : forall fsum a b c, adds fsum -> bounded L a -> bounded L b -> bounded L c ->
    appv (L * L * L) 148 8 (moments_double fsum a b c) (i0 (triangle_integrals a b c)).
  Proof.
    intros fsum a b c A HA HB HC. pose proof (size_app L sized fsum b a c a A HB HA HC HA) as D.
    destruct HA as (AX & AY & AZ), HB as (BX & BY & BZ), HC as (CX & CY & CZ).
    unfold appv, moments_double, triangle_integrals, vdiv_double, vscale_double, vadd_double, vdiv, vscale, vadd. cbn [i0 vx vy vz].
    (split; [|split]); apply moment_app; auto; apply sum3_app; auto.
  Qed.
  Lemma moments_size : forall a b c, bounded L a -> bounded L b -> bounded L c ->
    bounded (norm (cross (vsub b a) (vsub c a)) / 2 * L) (i0 (triangle_integrals a b c)).
  Proof.
    intros a b c (AX & AY & AZ) (BX & BY & BZ) (CX & CY & CZ). pose proof (norm_pos (cross (vsub b a) (vsub c a))) as N.
    unfold triangle_integrals, vdiv, vscale, vadd. cbn [i0 vx vy vz]. set (D := norm (cross (vsub b a) (vsub c a))) in *.
    assert (E : forall x y z, Rabs x <= L -> Rabs y <= L -> Rabs z <= L -> Rabs (D * (x + y + z) / 6) <= D / 2 * L).
    { intros x y z X Y Z. replace (D * (x + y + z) / 6) with (D / 6 * (x + y + z)) by lra. rewrite Rabs_mult, (Rabs_pos_eq (D / 6)) by lra.
      replace (D / 2 * L) with (D / 6 * (3 * L)) by field. apply Rmult_le_compat_l; [lra|].
      pose proof (Rabs_triang (x + y) z). pose proof (Rabs_triang x y). lra. }
    repeat split; apply E; auto.
  Qed.

  (** One product of a normal and an integral. *)
  Lemma term_near : forall n N s T D, Rabs (n - N) <= 400 * (W / D) -> Rabs N <= 1 -> Rabs (s - T) <= 314 * W3 -> Rabs T <= D * L ->
    1000 * W <= D -> Rabs (n * s - N * T) <= 900 * W3.
  Proof.
    intros n N s T D EN N1 ES ET WD. pose proof (W_pos L sized) as W0. pose proof (W3_pos L sized) as W30. pose proof (L_pos L sized) as L0.
    assert (D0 : 0 < D) by lra.
    assert (Q0 : 0 <= W / D) by (apply Rle_mult_inv_pos; lra).
    assert (Q1 : W / D <= / 1000) by (apply Rmult_le_reg_r with D; auto; unfold Rdiv; rewrite Rmult_assoc, Rinv_l; lra).
    replace (n * s - N * T) with ((n - N) * T + (N * (s - T) + (n - N) * (s - T))) by ring.
    apply Rle_trans with (1 := Rabs_triang _ _). pose proof (Rabs_triang (N * (s - T)) ((n - N) * (s - T))) as TR.
    rewrite !Rabs_mult in *.
    assert (E1 : Rabs (n - N) * Rabs T <= 400 * W3).
    { replace (400 * W3) with (400 * (W / D) * (D * L)) by (field; lra). apply Rmult_le_compat; auto using Rabs_pos. }
    assert (E2 : Rabs N * Rabs (s - T) <= 1 * (314 * W3)) by (apply Rmult_le_compat; auto using Rabs_pos).
    assert (E3 : Rabs (n - N) * Rabs (s - T) <= 4 / 10 * (314 * W3)) by (apply Rmult_le_compat; auto using Rabs_pos; lra).
    lra.
  Qed.
  Lemma unit_coords : forall C, 0 < norm C -> let N := vdiv C (norm C) in
    Rabs (vx N) + Rabs (vy N) + Rabs (vz N) <= 2 /\ Rabs (vx N) <= 1 /\ Rabs (vy N) <= 1 /\ Rabs (vz N) <= 1.
  Proof.
    intros C C0 N. assert (NN : dot N N = 1).
    { unfold N, vdiv, dot. cbn [vx vy vz]. pose proof (norm_square C) as E. unfold dot in E. set (d := norm C) in *.
      replace (vx C / d * (vx C / d) + vy C / d * (vy C / d) + vz C / d * (vz C / d)) with
        ((vx C * vx C + vy C * vy C + vz C * vz C) / (d * d)) by (field; lra). rewrite <- E. field. lra. }
    assert (SQ : forall x, Rabs x * Rabs x = x * x) by (intros x; unfold Rabs; destruct Rcase_abs; ring).
    unfold dot in NN. rewrite <- (SQ (vx N)), <- (SQ (vy N)), <- (SQ (vz N)) in NN.
    pose proof (Rabs_pos (vx N)). pose proof (Rabs_pos (vy N)). pose proof (Rabs_pos (vz N)).
    set (x := Rabs (vx N)) in *. set (y := Rabs (vy N)) in *. set (z := Rabs (vz N)) in *. clearbody x y z.
    assert (x <= 1) by nra. assert (y <= 1) by nra. assert (z <= 1) by nra. split; [|auto].
    pose proof (Rle_0_sqr (x - y)). pose proof (Rle_0_sqr (x - z)). pose proof (Rle_0_sqr (y - z)). unfold Rsqr in *. nra.
  Qed.
End Faces.

(** ** Long sums *)
Lemma pow_linear : forall m, 2 * INR m * u <= 1 -> (1 + u) ^ m <= 1 + 2 * INR m * u.
Proof.
  pose proof ulp1_pos as U. induction m as [|m IH]; intros H; [cbn; lra|]. rewrite S_INR in *. cbn [pow]. pose proof (pos_INR m) as M.
  assert (IH' : (1 + u) ^ m <= 1 + 2 * INR m * u) by (apply IH; lra).
  apply Rle_trans with ((1 + u) * (1 + 2 * INR m * u)); [apply Rmult_le_compat_l; lra|].
  assert (2 * INR m * u * u <= 1 * u) by (apply Rmult_le_compat_r; lra). lra.
Qed.
(** Sums of terms that are known up to [e] each. *)
Lemma long_sum : forall l l' r e, sums l r -> Forall2 (fun x X => Rabs (x - X) <= e) l l' -> 4 * INR (length l) * u <= 1 ->
  Rabs (r - total l') <= INR (length l) * (2 * (u * total_abs l') + 3 / 2 * e + 3 / 2 * tiny).
Proof.
  intros l l' r e S F SM. pose proof ulp1_pos as U. pose proof tiny_pos as T. pose proof (pos_INR (length l)) as N0.
  pose proof (sums_error l r S) as E. pose proof (sums_some l r S) as SS.
  assert (P : (1 + u) ^ length l <= 1 + 2 * INR (length l) * u) by (apply pow_linear; lra). pose proof (pow_1 (length l)) as P1.
  set (q := (1 + u) ^ length l) in *.
  assert (TD : Rabs (total l - total l') <= INR (length l) * e /\ total_abs l <= total_abs l' + INR (length l) * e).
  { clear - F. induction F as [|x X l l' H F [IH1 IH2]]; [cbn; rewrite Rminus_0_r, Rabs_R0; lra|].
    cbn [total total_abs length]. rewrite S_INR. split.
    - replace (x + total l - (X + total l')) with ((x - X) + (total l - total l')) by ring. apply Rle_trans with (1 := Rabs_triang _ _). lra.
    - assert (Rabs x <= Rabs X + e) by (replace x with (X + (x - X)) by ring; apply Rle_trans with (1 := Rabs_triang _ _); lra). lra. }
  destruct TD as [TD TA]. set (n := INR (length l)) in *. pose proof (total_abs_pos l) as A0.
  assert (E0 : 0 <= e) by (destruct F as [|x X l l' H F]; [cbn in SS; lia|]; pose proof (Rabs_pos (x - X)); lra).
  assert (E1 : (q - 1) * total_abs l <= 2 * n * u * (total_abs l' + n * e)) by (apply Rmult_le_compat; lra).
  assert (NE : 0 <= n * e) by (apply Rmult_le_pos; auto).
  assert (E2 : 2 * n * u * (n * e) <= / 2 * (n * e)) by (apply Rmult_le_compat_r; lra).
  assert (NT : 0 <= n * tiny) by (apply Rmult_le_pos; lra).
  assert (E3 : n * q * tiny <= 3 / 2 * (n * tiny)).
  { replace (n * q * tiny) with (q * (n * tiny)) by ring. apply Rmult_le_compat_r; auto. lra. }
  replace (r - total l') with ((r - total l) + (total l - total l')) by ring.
  apply Rle_trans with (1 := Rabs_triang _ _). lra.
Qed.
