(** Proofs about double precision: bounds on errors. *)
From Coq Require Import Reals Lra Lia List Arith Bool ZArith Sorting.Permutation Psatz.
From Flocq Require Import Core.
From Verif Require Import M_base M_rotations M_merge M_plane M_mesh S_merge P_base P_merge P_mesh M_double S_double P_double P_double2.
Import ListNotations.
Open Scope R_scope.

Notation u := ulp1.
(** [x], of size at most [B] times [Q], is known up to [k] roundings of numbers of size [Q]. *)
Definition app (Q k B x X : R) : Prop := Rabs (x - X) <= k * (u * Q) /\ Rabs X <= B * Q.
Definition sane (k : R) : Prop := 0 <= k <= 1000000.

Section Scale.
  Variable Q : R.
  Hypothesis Q_large : smallest <= Q.
  Lemma Q_pos : 0 < Q.
  Proof. pose proof smallest_pos. lra. Qed.
  Lemma uQ_pos : 0 < u * Q.
  Proof. apply Rmult_lt_0_compat; [apply ulp1_pos|apply Q_pos]. Qed.
  Lemma tiny_uQ : tiny <= u * Q.
  Proof. rewrite tiny_smallest. apply Rmult_le_compat_l; [apply Rlt_le, ulp1_pos|auto]. Qed.
  Lemma uu_small : u * (u * Q) <= / 1000000000000000 * (u * Q).
  Proof. apply Rmult_le_compat_r; [apply Rlt_le, uQ_pos|apply ulp1_small]. Qed.

  Lemma app_exact : forall X B, Rabs X <= B * Q -> app Q 0 B X X.
  Proof. intros X B H. split; auto. unfold Rminus. rewrite Rplus_opp_r, Rabs_R0. lra. Qed.
  Lemma app_weaken : forall k B k' B' x X, app Q k B x X -> k <= k' -> B <= B' -> app Q k' B' x X.
  Proof.
    intros k B k' B' x X [E S] K L. pose proof Q_pos. pose proof uQ_pos. split.
    - apply Rle_trans with (1 := E). apply Rmult_le_compat_r; lra.
    - apply Rle_trans with (1 := S). apply Rmult_le_compat_r; lra.
  Qed.
  Lemma app_add : forall k1 B1 k2 B2 x X y Y, app Q k1 B1 x X -> app Q k2 B2 y Y -> app Q (k1 + k2) (B1 + B2) (x + y) (X + Y).
  Proof.
    intros k1 B1 k2 B2 x X y Y [E1 S1] [E2 S2]. split.
    - replace (x + y - (X + Y)) with ((x - X) + (y - Y)) by ring.
      apply Rle_trans with (1 := Rabs_triang _ _). lra.
    - apply Rle_trans with (1 := Rabs_triang _ _). lra.
  Qed.
  Lemma app_opp : forall k B x X, app Q k B x X -> app Q k B (- x) (- X).
  Proof. intros k B x X [E S]. split; [replace (- x - - X) with (- (x - X)) by ring|]; rewrite Rabs_Ropp; auto. Qed.
  Lemma app_sub : forall k1 B1 k2 B2 x X y Y, app Q k1 B1 x X -> app Q k2 B2 y Y -> app Q (k1 + k2) (B1 + B2) (x - y) (X - Y).
  Proof. intros. apply app_add; auto. apply app_opp. auto. Qed.
  Lemma app_scale : forall c k B x X, 0 <= c -> app Q k B x X -> app Q (c * k) (c * B) (c * x) (c * X).
  Proof.
    intros c k B x X C [E S]. split.
    - replace (c * x - c * X) with (c * (x - X)) by ring. rewrite Rabs_mult, (Rabs_pos_eq c) by auto.
      replace (c * k * (u * Q)) with (c * (k * (u * Q))) by ring. apply Rmult_le_compat_l; auto.
    - rewrite Rabs_mult, (Rabs_pos_eq c) by auto. replace (c * B * Q) with (c * (B * Q)) by ring. apply Rmult_le_compat_l; auto.
  Qed.
  Lemma app_size : forall k B x X, sane k -> app Q k B x X -> Rabs x <= (B + / 1000000000) * Q.
  Proof.
    intros k B x X [K0 K1] [E S]. replace x with (X + (x - X)) by ring. apply Rle_trans with (1 := Rabs_triang _ _).
    pose proof Q_pos. pose proof uQ_pos. pose proof ulp1_small.
    assert (u * Q <= / 1000000000000000 * Q) by (apply Rmult_le_compat_r; lra).
    assert (k * (u * Q) <= 1000000 * (u * Q)) by (apply Rmult_le_compat_r; lra). lra.
  Qed.
  Lemma app_fl : forall k B x X, sane k -> app Q k B x X -> app Q (k + B + 2) B (fl x) X.
  Proof.
    intros k B x X K H. pose proof (app_size k B x X K H) as A. destruct H as [E S]. split; auto.
    replace (fl x - X) with ((fl x - x) + (x - X)) by ring. apply Rle_trans with (1 := Rabs_triang _ _).
    pose proof (fl_error x) as F. pose proof tiny_uQ. pose proof uQ_pos. pose proof ulp1_pos.
    assert (u * Rabs x <= u * ((B + / 1000000000) * Q)) by (apply Rmult_le_compat_l; lra).
    replace (u * ((B + / 1000000000) * Q)) with (B * (u * Q) + / 1000000000 * (u * Q)) in * by ring. lra.
  Qed.
  Lemma app_twice : forall k B x X, double x -> app Q k B x X -> app Q (2 * k) (2 * B) (fl (2 * x)) (2 * X).
  Proof. intros k B x X D H. rewrite (double_fl (2 * x)) by (apply double_twice; auto). apply app_scale; auto. lra. Qed.
End Scale.
Lemma app_mul : forall Q1 Q2 k1 B1 k2 B2 x X y Y, smallest <= Q1 -> smallest <= Q2 -> sane k1 -> sane k2 ->
  app Q1 k1 B1 x X -> app Q2 k2 B2 y Y -> app (Q1 * Q2) (k1 * B2 + k2 * B1 + 1) (B1 * B2) (x * y) (X * Y).
Proof.
  intros Q1 Q2 k1 B1 k2 B2 x X y Y H1 H2 [K1 L1] [K2 L2] [E1 S1] [E2 S2].
  assert (P1 := Q_pos Q1 H1). assert (P2 := Q_pos Q2 H2). pose proof ulp1_pos. pose proof ulp1_small.
  split.
  - replace (x * y - X * Y) with ((x - X) * Y + ((y - Y) * X + (x - X) * (y - Y))) by ring.
    apply Rle_trans with (1 := Rabs_triang _ _).
    replace ((k1 * B2 + k2 * B1 + 1) * (u * (Q1 * Q2))) with
      (k1 * (u * Q1) * (B2 * Q2) + (k2 * (u * Q2) * (B1 * Q1) + u * Q1 * Q2)) by ring.
    apply Rplus_le_compat; [rewrite Rabs_mult; apply Rmult_le_compat; auto using Rabs_pos|].
    apply Rle_trans with (1 := Rabs_triang _ _).
    apply Rplus_le_compat; [rewrite Rabs_mult; apply Rmult_le_compat; auto using Rabs_pos|].
    rewrite Rabs_mult. apply Rle_trans with (k1 * (u * Q1) * (k2 * (u * Q2))); [apply Rmult_le_compat; auto using Rabs_pos|].
    replace (k1 * (u * Q1) * (k2 * (u * Q2))) with (k1 * k2 * u * (u * Q1 * Q2)) by ring.
    rewrite <- (Rmult_1_l (u * Q1 * Q2)) at 2. apply Rmult_le_compat_r; [apply Rlt_le; repeat apply Rmult_lt_0_compat; auto|].
    assert (k1 * k2 <= 1000000 * 1000000) by (apply Rmult_le_compat; lra).
    assert (0 <= k1 * k2) by (apply Rmult_le_pos; lra).
    apply Rle_trans with (1000000 * 1000000 * / 1000000000000000); [apply Rmult_le_compat; lra|lra].
  - rewrite Rabs_mult. replace (B1 * B2 * (Q1 * Q2)) with (B1 * Q1 * (B2 * Q2)) by ring. apply Rmult_le_compat; auto using Rabs_pos.
Qed.

(** ** Sums *)
Fixpoint total (l : list R) : R := match l with [] => 0 | x :: l => x + total l end.
Fixpoint total_abs (l : list R) : R := match l with [] => 0 | x :: l => Rabs x + total_abs l end.
Lemma total_app : forall l l', total (l ++ l') = total l + total l'.
Proof. induction l; intros; cbn; [lra|rewrite IHl; lra]. Qed.
Lemma total_abs_app : forall l l', total_abs (l ++ l') = total_abs l + total_abs l'.
Proof. induction l; intros; cbn; [lra|rewrite IHl; lra]. Qed.
Lemma total_perm : forall l l', Permutation l l' -> total l = total l' /\ total_abs l = total_abs l'.
Proof. intros l l' P. induction P; cbn; intuition lra. Qed.
Lemma total_abs_pos : forall l, 0 <= total_abs l.
Proof. induction l; cbn; [lra|]. pose proof (Rabs_pos a). lra. Qed.
Lemma total_le : forall l, Rabs (total l) <= total_abs l.
Proof. induction l; cbn; [rewrite Rabs_R0; lra|]. apply Rle_trans with (1 := Rabs_triang _ _). lra. Qed.
Lemma sums_double : forall l r, sums l r -> double r.
Proof. intros l r S. induction S; auto using fl_double. Qed.
Lemma sums_some : forall l r, sums l r -> (1 <= length l)%nat.
Proof.
  intros l r S. induction S; cbn; try lia; [rewrite app_length; lia|]. rewrite <- (Permutation_length H). auto.
Qed.
Lemma pow_up : forall m n, (m <= n)%nat -> (1 + u) ^ m <= (1 + u) ^ n.
Proof. intros m n L. apply Rle_pow; auto. pose proof ulp1_pos. lra. Qed.
Lemma pow_1 : forall n, 1 <= (1 + u) ^ n.
Proof. intros n. apply pow_R1_Rle. pose proof ulp1_pos. lra. Qed.
(** The error of a sum of [n] terms, in any order. *)
Lemma sums_error : forall l r, sums l r ->
  Rabs (r - total l) <= ((1 + u) ^ length l - 1) * total_abs l + INR (length l) * (1 + u) ^ length l * tiny.
Proof.
  intros l r S. pose proof ulp1_pos as U. pose proof tiny_pos as T.
  induction S as [x|l r x S IH|l1 r1 l2 r2 S1 IH1 S2 IH2|l l' r P S IH].
  - cbn [length total total_abs INR pow]. replace (x + 0) with x by ring. rewrite !Rplus_0_r.
    apply Rle_trans with (1 := fl_error x). assert (0 < u * tiny) by (apply Rmult_lt_0_compat; auto). lra.
  - cbn [length total total_abs]. rewrite S_INR. cbn [pow]. set (n := length l) in *. pose proof (pow_1 n) as P1.
    set (q := (1 + u) ^ n) in *. pose proof (total_abs_pos l) as A. pose proof (total_le l) as B. pose proof (pos_INR n) as N.
    set (e := (q - 1) * total_abs l + INR n * q * tiny) in *.
    replace (fl (r + x) - (x + total l)) with ((fl (r + x) - (r + x)) + (r - total l)) by ring.
    apply Rle_trans with (1 := Rabs_triang _ _). pose proof (fl_error (r + x)) as F.
    assert (RX : Rabs (r + x) <= e + total_abs l + Rabs x).
    { replace (r + x) with ((r - total l) + (total l + x)) by ring. apply Rle_trans with (1 := Rabs_triang _ _).
      pose proof (Rabs_triang (total l) x). lra. }
    pose proof (Rabs_pos x) as X.
    assert (u * Rabs (r + x) <= u * (e + total_abs l + Rabs x)) by (apply Rmult_le_compat_l; lra).
    assert (UQ : 1 + u <= (1 + u) * q) by (rewrite <- (Rmult_1_r (1 + u)) at 1; apply Rmult_le_compat_l; lra).
    assert (u * Rabs x <= ((1 + u) * q - 1) * Rabs x) by (apply Rmult_le_compat_r; lra).
    assert (tiny <= (1 + u) * q * tiny) by (rewrite <- (Rmult_1_l tiny) at 1; apply Rmult_le_compat_r; lra).
    replace (((1 + u) * q - 1) * (Rabs x + total_abs l)) with (((1 + u) * q - 1) * Rabs x + (1 + u) * ((q - 1) * total_abs l) + u * total_abs l) by ring.
    replace ((INR n + 1) * ((1 + u) * q) * tiny) with ((1 + u) * (INR n * q * tiny) + (1 + u) * q * tiny) by ring.
    replace (u * (e + total_abs l + Rabs x)) with (u * e + u * total_abs l + u * Rabs x) in * by ring.
    unfold e in *. lra.
  - rewrite app_length, total_app, total_abs_app, plus_INR.
    pose proof (sums_some _ _ S1) as N1. pose proof (sums_some _ _ S2) as N2.
    set (n1 := length l1) in *. set (n2 := length l2) in *.
    pose proof (pow_1 n1). pose proof (pow_1 n2).
    assert (Q1 : (1 + u) * (1 + u) ^ n1 <= (1 + u) ^ (n1 + n2)) by (apply (pow_up (Datatypes.S n1)); lia).
    assert (Q2 : (1 + u) * (1 + u) ^ n2 <= (1 + u) ^ (n1 + n2)) by (apply (pow_up (Datatypes.S n2)); lia).
    set (q1 := (1 + u) ^ n1) in *. set (q2 := (1 + u) ^ n2) in *. set (q := (1 + u) ^ (n1 + n2)) in *.
    pose proof (total_abs_pos l1) as A1. pose proof (total_le l1) as B1. pose proof (pos_INR n1) as I1.
    pose proof (total_abs_pos l2) as A2. pose proof (total_le l2) as B2. pose proof (pos_INR n2) as I2.
    set (a1 := total_abs l1) in *. set (a2 := total_abs l2) in *.
    set (e1 := (q1 - 1) * a1 + INR n1 * q1 * tiny) in *. set (e2 := (q2 - 1) * a2 + INR n2 * q2 * tiny) in *.
    replace (fl (r1 + r2) - (total l1 + total l2)) with ((fl (r1 + r2) - (r1 + r2)) + ((r1 - total l1) + (r2 - total l2))) by ring.
    apply Rle_trans with (1 := Rabs_triang _ _).
    pose proof (fl_error_add r1 r2 (sums_double _ _ S1) (sums_double _ _ S2)) as F.
    pose proof (Rabs_triang (r1 - total l1) (r2 - total l2)) as G.
    assert (RX : Rabs (r1 + r2) <= e1 + e2 + a1 + a2).
    { replace (r1 + r2) with (((r1 - total l1) + (r2 - total l2)) + (total l1 + total l2)) by ring.
      apply Rle_trans with (1 := Rabs_triang _ _). pose proof (Rabs_triang (total l1) (total l2)). lra. }
    assert (M : u * Rabs (r1 + r2) <= u * (e1 + e2 + a1 + a2)) by (apply Rmult_le_compat_l; lra).
    replace (u * (e1 + e2 + a1 + a2)) with (u * e1 + u * e2 + u * a1 + u * a2) in M by ring.
    assert (X1 : (1 + u) * e1 + u * a1 <= (q - 1) * a1 + INR n1 * q * tiny).
    { unfold e1. replace ((1 + u) * ((q1 - 1) * a1 + INR n1 * q1 * tiny) + u * a1) with
        (((1 + u) * q1 - 1) * a1 + INR n1 * ((1 + u) * q1) * tiny) by ring.
      apply Rplus_le_compat; [apply Rmult_le_compat_r; lra|]. apply Rmult_le_compat_r; [lra|]. apply Rmult_le_compat_l; lra. }
    assert (X2 : (1 + u) * e2 + u * a2 <= (q - 1) * a2 + INR n2 * q * tiny).
    { unfold e2. replace ((1 + u) * ((q2 - 1) * a2 + INR n2 * q2 * tiny) + u * a2) with
        (((1 + u) * q2 - 1) * a2 + INR n2 * ((1 + u) * q2) * tiny) by ring.
      apply Rplus_le_compat; [apply Rmult_le_compat_r; lra|]. apply Rmult_le_compat_r; [lra|]. apply Rmult_le_compat_l; lra. }
    replace ((q - 1) * (a1 + a2) + (INR n1 + INR n2) * q * tiny) with
      (((q - 1) * a1 + INR n1 * q * tiny) + ((q - 1) * a2 + INR n2 * q * tiny)) by ring.
    lra.
  - destruct (total_perm _ _ P) as [<- <-]. rewrite <- (Permutation_length P). auto.
Qed.
