(** Proofs about double precision: properties of faces. *)
From Coq Require Import Reals Lra Lia List Arith Bool ZArith Sorting.Permutation Psatz.
From Flocq Require Import Core.
From Verif Require Import M_base M_merge M_plane M_mesh M_geometry S_merge P_base P_merge P_mesh M_double S_double P_double P_double2 P_double3 P_double4 M_dgeom.
Import ListNotations.
Open Scope R_scope.

(** ** Norms *)
Lemma squares_pos : forall a, 0 <= vx a * vx a + vy a * vy a + vz a * vz a.
Proof. intros a. pose proof (Rle_0_sqr (vx a)). pose proof (Rle_0_sqr (vy a)). pose proof (Rle_0_sqr (vz a)). unfold Rsqr in *. lra. Qed.
Lemma cauchy : forall a b, dot a b <= norm a * norm b.
Proof.
  intros a b. unfold norm. rewrite <- sqrt_mult by apply squares_pos. apply Rle_trans with (Rabs (dot a b)); [apply Rle_abs|].
  rewrite <- sqrt_Rsqr_abs. apply sqrt_le_1_alt. unfold Rsqr, dot.
  assert (0 <= (vy a * vz b - vz a * vy b) * (vy a * vz b - vz a * vy b) + (vz a * vx b - vx a * vz b) * (vz a * vx b - vx a * vz b)
    + (vx a * vy b - vy a * vx b) * (vx a * vy b - vy a * vx b)).
  { pose proof (Rle_0_sqr (vy a * vz b - vz a * vy b)). pose proof (Rle_0_sqr (vz a * vx b - vx a * vz b)). pose proof (Rle_0_sqr (vx a * vy b - vy a * vx b)).
    unfold Rsqr in *. lra. }
  lra.
Qed.
Lemma norm_square : forall a, norm a * norm a = dot a a.
Proof. intros a. unfold norm. apply sqrt_sqrt. apply squares_pos. Qed.
Lemma norm_pos : forall a, 0 <= norm a.
Proof. intros. apply sqrt_pos. Qed.
Lemma norm_diff : forall a b, Rabs (norm a - norm b) <= norm (vsub a b).
Proof.
  intros a b. pose proof (norm_pos a). pose proof (norm_pos b). pose proof (norm_pos (vsub a b)). pose proof (cauchy a b).
  pose proof (norm_square a) as A. pose proof (norm_square b) as B. pose proof (norm_square (vsub a b)) as D.
  assert (D' : dot (vsub a b) (vsub a b) = dot a a - 2 * dot a b + dot b b) by (unfold dot; cbn; ring).
  rewrite D' in D. assert ((norm a - norm b) * (norm a - norm b) <= norm (vsub a b) * norm (vsub a b)) by lra.
  apply Rabs_le. nra.
Qed.
Lemma norm_coord : forall a, Rabs (vx a) <= norm a /\ Rabs (vy a) <= norm a /\ Rabs (vz a) <= norm a.
Proof.
  assert (Q : forall x s, 0 <= s -> x * x <= s * s -> Rabs x <= s) by (intros x s S E; apply Rabs_le; nra).
  intros a. pose proof (norm_pos a). pose proof (norm_square a) as E. unfold dot in E.
  pose proof (Rle_0_sqr (vx a)). pose proof (Rle_0_sqr (vy a)). pose proof (Rle_0_sqr (vz a)). unfold Rsqr in *.
  repeat split; apply Q; lra.
Qed.
Lemma norm_bounded : forall K v, bounded K v -> norm v <= 2 * K.
Proof.
  intros K v (X & Y & Z). pose proof (Rabs_pos (vx v)).
  unfold norm. rewrite <- (sqrt_square (2 * K)) by lra. apply sqrt_le_1_alt.
  assert (SQ : forall x, Rabs x <= K -> x * x <= K * K) by (intros x E; apply Rabs_le_inv in E; nra).
  pose proof (SQ _ X). pose proof (SQ _ Y). pose proof (SQ _ Z). nra.
Qed.

(** ** Sizes *)
Lemma low_pos : forall k, 0 < powerRZ 2 k.
Proof. intros. apply powerRZ_lt. lra. Qed.
Lemma low_le : forall a b, (a <= b)%Z -> powerRZ 2 a <= powerRZ 2 b.
Proof. intros a b H. rewrite <- !(bpow_powerRZ radix2). apply bpow_le. auto. Qed.

Section Size.
  Variable L : R.
  Hypothesis sized : powerRZ 2 (-200) <= L.
  Lemma L_pos : 0 < L.
  Proof. pose proof (low_pos (-200)). lra. Qed.
  Lemma L2_ge : powerRZ 2 (-400) <= L * L.
  Proof.
    change (-400)%Z with (-200 + -200)%Z. rewrite powerRZ_add by lra. pose proof (low_pos (-200)). apply Rmult_le_compat; lra.
  Qed.
  Lemma L3_ge : powerRZ 2 (-600) <= L * L * L.
  Proof.
    change (-600)%Z with (-400 + -200)%Z. rewrite powerRZ_add by lra. pose proof (low_pos (-200)). pose proof (low_pos (-400)). pose proof L2_ge.
    apply Rmult_le_compat; lra.
  Qed.
  Lemma L_large : smallest <= L.
  Proof. apply Rle_trans with (2 := sized). apply low_le. lia. Qed.
  Lemma L2_large : smallest <= L * L.
  Proof. apply Rle_trans with (2 := L2_ge). apply low_le. lia. Qed.
  Lemma L3_large : smallest <= L * L * L.
  Proof. apply Rle_trans with (2 := L3_ge). apply low_le. lia. Qed.
  Definition root : R := powerRZ 2 (-536).
  Lemma root_pos : 0 < root.
  Proof. apply low_pos. Qed.
  Lemma root_tiny : 4 * tiny <= root * root.
  Proof.
    assert (A : root * root = powerRZ 2 (-1072)) by (unfold root; rewrite <- powerRZ_add by (apply IZR_neq; lia); reflexivity).
    assert (B : 4 * tiny = powerRZ 2 (-1073)).
    { change (-1073)%Z with (2 + -1075)%Z. rewrite powerRZ_add by (apply IZR_neq; lia). fold tiny. change (powerRZ 2 2) with (2 * (2 * 1)). ring. }
    rewrite A, B. apply low_le. lia.
  Qed.
End Size.

(** ** Computed norms *)
Lemma norm_double_near : forall fsum v, adds fsum -> Rabs (norm_double fsum v - norm v) <= 6 * u * norm v + 3 * root.
Proof.
  intros fsum v A. pose proof (sums_error _ _ (A [vx v * vx v; vy v * vy v; vz v * vz v] ltac:(discriminate))) as E.
  unfold norm_double, fsqrt. set (s := fsum [vx v * vx v; vy v * vy v; vz v * vz v]) in *.
  pose proof (norm_square v) as N2. pose proof (norm_pos v) as N0. set (N := norm v) in *.
  cbn [length total total_abs] in E. assert (SQ : forall x, Rabs (x * x) = x * x) by (intros; apply Rabs_pos_eq, Rle_0_sqr).
  rewrite !SQ in E. replace (vx v * vx v + (vy v * vy v + (vz v * vz v + 0))) with (N * N) in E by (rewrite N2; unfold dot; ring).
  pose proof pow3_u as P3. pose proof (pow_1 3) as P1. set (q := (1 + u) ^ 3) in *. replace (INR 3) with 3 in E by (cbn; lra).
  pose proof ulp1_pos as U0. pose proof ulp1_small as U1. pose proof tiny_pos as T0. pose proof root_tiny as RT. pose proof root_pos as R0.
  assert (NN : 0 <= N * N) by (apply Rmult_le_pos; auto).
  assert (E1 : (q - 1) * (N * N) <= 4 * u * (N * N)) by (apply Rmult_le_compat_r; lra).
  assert (E2 : 3 * q * tiny <= 4 * tiny) by (apply Rmult_le_compat_r; lra).
  apply Rabs_le_inv in E.
  assert (UN : 0 <= u * N) by (apply Rmult_le_pos; lra).
  assert (Hi : sqrt s <= (1 + 4 * u) * N + root).
  { rewrite <- (sqrt_square ((1 + 4 * u) * N + root)) by lra. apply sqrt_le_1_alt.
    assert (0 <= u * (N * N)) by (apply Rmult_le_pos; lra). assert (0 <= u * (u * (N * N))) by (apply Rmult_le_pos; lra).
    assert (0 <= N * root) by (apply Rmult_le_pos; lra). assert (0 <= u * N * root) by (apply Rmult_le_pos; lra).
    replace (((1 + 4 * u) * N + root) * ((1 + 4 * u) * N + root)) with
      (N * N + 8 * (u * (N * N)) + 16 * (u * (u * (N * N))) + 2 * (N * root) + 8 * (u * N * root) + root * root) by ring. lra. }
  assert (Lo : (1 - 4 * u) * N - root <= sqrt s).
  { destruct (Rle_lt_dec ((1 - 4 * u) * N - root) 0); [pose proof (sqrt_pos s); lra|].
    rewrite <- (sqrt_square ((1 - 4 * u) * N - root)) by lra. apply sqrt_le_1_alt.
    set (a := (1 - 4 * u) * N) in *. assert (AR : root * root <= a * root) by (apply Rmult_le_compat_r; lra).
    assert (AN : a * a <= (1 - 4 * u) * (N * N)).
    { unfold a. replace ((1 - 4 * u) * N * ((1 - 4 * u) * N)) with ((1 - 4 * u) * ((1 - 4 * u) * (N * N))) by ring.
      apply Rmult_le_compat_l; [lra|]. assert (0 <= u * (N * N)) by (apply Rmult_le_pos; lra). lra. }
    replace ((a - root) * (a - root)) with (a * a - 2 * (a * root) + root * root) by ring. lra. }
  assert (S1 : sqrt s <= 2 * N + root) by (assert (4 * (u * N) <= N) by nra; lra).
  pose proof (fl_error (sqrt s)) as F. rewrite (Rabs_pos_eq (sqrt s)) in F by apply sqrt_pos.
  assert (F1 : u * sqrt s <= 2 * (u * N) + u * root).
  { apply Rle_trans with (u * (2 * N + root)); [apply Rmult_le_compat_l; lra|lra]. }
  assert (F2 : u * root <= / 2 * root) by (apply Rmult_le_compat_r; lra).
  assert (R1 : root <= 1) by (unfold root; change 1 with (powerRZ 2 0); apply low_le; lia).
  assert (TR : tiny <= root) by (apply Rle_trans with (root * root); [lra|]; rewrite <- (Rmult_1_r root) at 3; apply Rmult_le_compat_l; lra).
  replace (fl (sqrt s) - N) with ((fl (sqrt s) - sqrt s) + (sqrt s - N)) by ring.
  apply Rle_trans with (1 := Rabs_triang _ _).
  assert (Rabs (sqrt s - N) <= 4 * (u * N) + root) by (apply Rabs_le; lra).
  assert (RQ : tiny <= / 2 * root).
  { apply Rle_trans with (root * root); [lra|]. assert (root <= / 2); [|nra].
    apply Rle_trans with (powerRZ 2 (-1)); [apply low_le; lia|]. change (powerRZ 2 (-1)) with (/ (2 * 1)). lra. }
  lra.
Qed.

(** A quotient of approximate values. *)
Lemma quotient_near : forall x X y Y e f r, Rabs (x - X) <= e -> Rabs (y - Y) <= f -> 0 < Y -> f <= / 4 * Y -> Rabs X <= r * Y ->
  Rabs (x / y - X / Y) <= 4 / 3 * ((e + r * f) / Y).
Proof.
  intros x X y Y e f r E F Y0 FY R. pose proof (Rabs_pos (x - X)). pose proof (Rabs_pos (y - Y)). apply Rabs_le_inv in F as F'.
  assert (Yy : 3 / 4 * Y <= y) by lra.
  assert (r0 : 0 <= r) by (pose proof (Rabs_pos X); destruct (Rle_lt_dec 0 r); auto; assert (r * Y < 0 * Y) by (apply Rmult_lt_compat_r; auto); lra).
  replace (x / y - X / Y) with (((x - X) * Y - X * (y - Y)) / (y * Y)) by (field; lra).
  unfold Rdiv. rewrite Rabs_mult, (Rabs_pos_eq (/ (y * Y))) by (apply Rlt_le, Rinv_0_lt_compat, Rmult_lt_0_compat; lra).
  assert (N : Rabs ((x - X) * Y - X * (y - Y)) <= (e + r * f) * Y).
  { unfold Rminus at 1. apply Rle_trans with (1 := Rabs_triang _ _). rewrite Rabs_Ropp, !Rabs_mult, (Rabs_pos_eq Y) by lra.
    assert (Rabs (x - X) * Y <= e * Y) by (apply Rmult_le_compat_r; lra).
    assert (Rabs X * Rabs (y - Y) <= r * Y * f) by (apply Rmult_le_compat; auto using Rabs_pos). lra. }
  apply Rle_trans with ((e + r * f) * Y * / (3 / 4 * Y * Y)).
  - apply Rmult_le_compat; auto using Rabs_pos.
    + apply Rlt_le, Rinv_0_lt_compat, Rmult_lt_0_compat; lra.
    + apply Rinv_le_contravar; [repeat apply Rmult_lt_0_compat; lra|]. apply Rmult_le_compat_r; lra.
  - right. field. lra.
Qed.
