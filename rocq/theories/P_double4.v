(** Proofs about double precision: distances to planes, mirrors, intersections, translations. *)
From Coq Require Import Reals Lra Lia List Arith Bool ZArith Sorting.Permutation Psatz.
From Flocq Require Import Core.
From Verif Require Import M_base M_rotations M_merge M_plane M_mesh S_merge P_base P_merge P_mesh M_double S_double P_double P_double2 P_double3.
Import ListNotations.
Open Scope R_scope.

Lemma one_large : smallest <= 1.
Proof. pose proof smallest_small. lra. Qed.
Lemma sane_intro : forall k, 0 <= k -> k <= 1000000 -> sane k.
Proof. intros k A B. split; auto. Qed.
Ltac sane := apply sane_intro; lra.

(** Sums of three terms. *)
Lemma pow3_u : (1 + u) ^ 3 - 1 <= 4 * u.
Proof. pose proof ulp1_pos. pose proof ulp1_small. cbn. nra. Qed.
Lemma app_sum3 : forall Q k B x1 x2 x3 X1 X2 X3 r, smallest <= Q -> sane k -> 0 <= B ->
  app Q k B x1 X1 -> app Q k B x2 X2 -> app Q k B x3 X3 -> sums [x1; x2; x3] r ->
  app Q (3 * k + 12 * B + 5) (3 * B) r (X1 + X2 + X3).
Proof.
  intros Q k B x1 x2 x3 X1 X2 X3 r HQ K HB A1 A2 A3 S.
  pose proof (app_size Q HQ _ _ _ _ K A1) as S1. pose proof (app_size Q HQ _ _ _ _ K A2) as S2. pose proof (app_size Q HQ _ _ _ _ K A3) as S3.
  pose proof (sums_error _ _ S) as E. cbn [length total total_abs] in E.
  pose proof ulp1_pos. pose proof (uQ_pos Q HQ). pose proof (Q_pos Q HQ). pose proof tiny_pos. pose proof (tiny_uQ Q HQ). pose proof ulp1_small. pose proof pow3_u as P3. pose proof (pow_1 3) as P1.
  set (q := (1 + u) ^ 3) in *. replace (INR 3) with 3 in E by (cbn; lra).
  set (a := Rabs x1 + (Rabs x2 + (Rabs x3 + 0))) in *.
  assert (HA : 0 <= a <= 3 * (B + / 1000000000) * Q).
  { pose proof (Rabs_pos x1). pose proof (Rabs_pos x2). pose proof (Rabs_pos x3). unfold a. lra. }
  assert (E1 : (q - 1) * a <= 4 * u * (3 * (B + / 1000000000) * Q)) by (apply Rmult_le_compat; lra).
  assert (E2 : 3 * q * tiny <= 4 * (u * Q)) by (apply Rmult_le_compat; lra).
  replace (4 * u * (3 * (B + / 1000000000) * Q)) with (12 * B * (u * Q) + 12 * / 1000000000 * (u * Q)) in E1 by ring.
  destruct A1 as [A1 C1], A2 as [A2 C2], A3 as [A3 C3]. split.
  - replace (r - (X1 + X2 + X3)) with ((r - (x1 + (x2 + (x3 + 0)))) + ((x1 - X1) + ((x2 - X2) + (x3 - X3)))) by ring.
    pose proof (Rabs_triang (r - (x1 + (x2 + (x3 + 0)))) ((x1 - X1) + ((x2 - X2) + (x3 - X3)))).
    pose proof (Rabs_triang (x1 - X1) ((x2 - X2) + (x3 - X3))). pose proof (Rabs_triang (x2 - X2) (x3 - X3)). lra.
  - pose proof (Rabs_triang (X1 + X2) X3). pose proof (Rabs_triang X1 X2). lra.
Qed.

Lemma bounded_mul : forall L x n, Rabs x <= L -> Rabs n <= 1 -> Rabs (x * n) <= 1 * L.
Proof.
  intros L x n A B. rewrite Rabs_mult, Rmult_comm. apply Rmult_le_compat; auto using Rabs_pos.
Qed.

Section Plane.
  Variables (fdot : vec -> vec -> R) (L : R) (n : vec) (c : R).
  Hypothesis computes : computes_dot fdot.
  Hypothesis large : smallest <= L.
  Hypothesis n_bounded : bounded 1 n.
  Hypothesis c_bounded : Rabs c <= L.

  Lemma dot_app : forall a, bounded L a -> app L 17 3 (fdot a n) (dot a n).
  Proof.
    intros a (AX & AY & AZ). destruct n_bounded as (NX & NY & NZ).
    eapply app_weaken; [exact large|apply (app_sum3 L 0 1 (vx a * vx n) (vy a * vy n) (vz a * vz n))| |]; try lra; auto; try sane;
      try (apply app_exact, bounded_mul; auto).
  Qed.
  Lemma dist_app : forall a, bounded L a -> app L 23 4 (fl (fdot a n - c)) (dot a n - c).
  Proof.
    intros a A. eapply app_weaken; [exact large|apply (app_fl L large (17 + 0) (3 + 1)); [sane|apply (app_sub L)]| |]; try lra.
    - apply dot_app. auto.
    - apply app_exact. lra.
  Qed.
  Lemma app_times_n : forall k B x X m, sane k -> Rabs m <= 1 -> app L k B x X -> app L (k + 1) B (x * m) (X * m).
  Proof.
    intros k B x X m K M A. replace L with (L * 1) by ring.
    replace (k + 1) with (k * 1 + 0 * B + 1) by ring. replace B with (B * 1) at 2 by ring.
    apply app_mul; auto; try sane; [apply one_large|]. apply app_exact. lra.
  Qed.
  Lemma reflect_app : forall a x m, bounded L a -> Rabs x <= L -> Rabs m <= 1 ->
    app L 71 9 (fl (x - fl (2 * fl (fl (fdot a n - c) * m)))) (x - 2 * ((dot a n - c) * m)).
  Proof.
    intros a x m A X M. pose proof (dist_app a A) as D.
    assert (D1 : app L 24 4 (fl (fdot a n - c) * m) ((dot a n - c) * m)).
    { eapply app_weaken; [exact large|apply app_times_n; [|exact M|exact D]| |]; try lra. sane. }
    assert (D2 : app L 30 4 (fl (fl (fdot a n - c) * m)) ((dot a n - c) * m)).
    { eapply app_weaken; [exact large|apply (app_fl L large); [|exact D1]| |]; try lra. sane. }
    assert (D3 : app L 60 8 (fl (2 * fl (fl (fdot a n - c) * m))) (2 * ((dot a n - c) * m))).
    { eapply app_weaken; [exact large|apply (app_twice L); [apply fl_double|exact D2]| |]; lra. }
    eapply app_weaken; [exact large|apply (app_fl L large (0 + 60) (1 + 8)); [sane|apply (app_sub L); [|exact D3]]| |]; try lra.
    apply app_exact. lra.
  Qed.

  (** The parameter of the intersection. *)
  Lemma ratio_ok : forall p d, double p -> double d -> 0 <= p <= d -> 0 < d ->
    0 <= fl (p / d) <= 1.
  Proof.
    intros p d P D [P0 PD] D0. split.
    - apply fl_pos. apply Rle_mult_inv_pos; auto.
    - rewrite <- (double_fl 1 double_1). apply fl_le. apply Rmult_le_reg_r with d; auto.
      unfold Rdiv. rewrite Rmult_assoc, Rinv_l, Rmult_1_r, Rmult_1_l; lra.
  Qed.
  Lemma ratio_error : forall p d, 0 <= p <= d -> 0 < d -> Rabs (fl p - p) <= u * p -> Rabs (fl d - d) <= u * d ->
    Rabs (p - fl (fl p / fl d) * d) <= 4 * u * p + tiny * (2 * d).
  Proof.
    intros p d [P0 PD] D0 EP ED. pose proof ulp1_pos as U0. pose proof ulp1_small as U1. pose proof tiny_pos as T0.
    apply Rabs_le_inv in EP, ED.
    assert (FD : d * (1 - u) <= fl d) by lra.
    assert (FD0 : 0 < fl d) by nra.
    set (q := fl p / fl d).
    assert (FP0 : 0 <= fl p) by (apply fl_pos; auto).
    assert (Q0 : 0 <= q) by (apply Rle_mult_inv_pos; auto).
    pose proof (fl_error q) as E. rewrite (Rabs_pos_eq q) in E by auto.
    assert (QD : q * fl d = fl p) by (unfold q; field; lra).
    assert (QD' : q * d <= p * (1 + 3 * u)).
    { apply Rmult_le_reg_r with (1 - u); [lra|]. apply Rle_trans with (q * fl d); [|rewrite QD; nra].
      rewrite Rmult_assoc. apply Rmult_le_compat_l; auto. }
    assert (QE : Rabs (p - q * d) <= 5/2 * u * p).
    { replace (p - q * d) with ((p - fl p) + q * (fl d - d)) by (rewrite <- QD; ring).
      assert (QS : Rabs (q * (fl d - d)) <= q * (u * d)) by (rewrite Rabs_mult, (Rabs_pos_eq q) by auto; apply Rmult_le_compat_l; auto; apply Rabs_le; lra).
      assert (Rabs (p - fl p) <= u * p) by (apply Rabs_le; lra).
      apply Rle_trans with (1 := Rabs_triang _ _). assert (q * (u * d) <= u * (p * (1 + 3 * u))) by nra. nra. }
    replace (p - fl q * d) with ((p - q * d) - (fl q - q) * d) by ring.
    assert (RE : Rabs ((fl q - q) * d) <= (u * q + tiny) * d) by (rewrite Rabs_mult, (Rabs_pos_eq d) by lra; apply Rmult_le_compat_r; lra).
    assert (u * q * d <= u * (p * (1 + 3 * u))) by nra.
    assert (0 <= tiny * d) by nra.
    pose proof (Rabs_triang (p - q * d) (- ((fl q - q) * d))) as TR. rewrite Rabs_Ropp in TR. unfold Rminus at 1. nra.
  Qed.

  (** The mean of two coordinates. *)
  Lemma mix_app : forall t x y, 0 <= t <= 1 -> Rabs x <= L -> Rabs y <= L ->
    app L 14 2 (fl (fl (fl (1 - t) * x) + fl (t * y))) ((1 - t) * x + t * y).
  Proof.
    intros t x y T X Y.
    assert (S : app 1 3 1 (fl (1 - t)) (1 - t)).
    { eapply app_weaken; [exact one_large|apply (app_fl 1 one_large 0 1); [sane|apply app_exact]| |]; try lra.
      rewrite Rabs_pos_eq; lra. }
    assert (A : app L 4 1 (fl (1 - t) * x) ((1 - t) * x)).
    { replace L with (1 * L) by ring. eapply app_weaken; [rewrite Rmult_1_l; exact large|
        apply (app_mul 1 L 3 1 0 1); [exact one_large|exact large|sane|sane|exact S|apply app_exact; lra]| |]; lra. }
    assert (B : app L 3 1 (fl (t * y)) (t * y)).
    { eapply app_weaken; [exact large|apply (app_fl L large 0 1); [sane|apply app_exact]| |]; try lra.
      rewrite Rmult_comm. apply bounded_mul; auto. rewrite Rabs_pos_eq; lra. }
    eapply app_weaken; [exact large|apply (app_fl L large (7 + 3) (1 + 1)); [sane|apply (app_add L); [|exact B]]| |]; try lra.
    eapply app_weaken; [exact large|apply (app_fl L large); [|exact A]| |]; try lra. sane.
  Qed.

  (** The computed positions are on the sides of the exact ones. *)
  Definition meets (t : R) (a b x : vec) : Prop :=
    Rabs (vx x - ((1 - t) * vx a + t * vx b)) <= 14 * (u * L) /\
    Rabs (vy x - ((1 - t) * vy a + t * vy b)) <= 14 * (u * L) /\
    Rabs (vz x - ((1 - t) * vz a + t * vz b)) <= 14 * (u * L).
  Definition mixed (t : R) (a b : vec) : vec :=
    V3 (fl (fl (fl (1 - t) * vx a) + fl (t * vx b))) (fl (fl (fl (1 - t) * vy a) + fl (t * vy b)))
       (fl (fl (fl (1 - t) * vz a) + fl (t * vz b))).
  Lemma mixed_meets : forall t a b, 0 <= t <= 1 -> bounded L a -> bounded L b -> meets t a b (mixed t a b).
  Proof.
    intros t a b T (AX & AY & AZ) (BX & BY & BZ). unfold meets, mixed. cbn [vx vy vz].
    repeat split; apply mix_app; auto.
  Qed.
  Lemma meets_dist : forall t a b x p d, 0 <= t <= 1 -> bounded L a -> bounded L b -> meets t a b x ->
    p = fdot a n - c -> d = fdot a n - fdot b n -> Rabs (p - t * d) <= 4 * u * Rabs p + tiny * (2 * Rabs d) ->
    Rabs (dot x n - c) <= 90 * (u * L).
  Proof.
    intros t a b x p d T A B (MX & MY & MZ) -> -> E. pose proof (dot_app a A) as DA. pose proof (dot_app b B) as DB.
    destruct n_bounded as (NX & NY & NZ). pose proof (uQ_pos L large) as W. pose proof (Q_pos L large) as LP.
    assert (SA := app_size L large 17 3 _ _ ltac:(sane) DA). assert (SB := app_size L large 17 3 _ _ ltac:(sane) DB).
    destruct DA as [EA _], DB as [EB _].
    set (an := fdot a n) in *. set (bn := fdot b n) in *. set (w := u * L) in *.
    assert (PC : Rabs (an - c) <= 5 * L) by (pose proof (Rabs_triang an (- c)) as TR; rewrite Rabs_Ropp in TR; unfold Rminus; lra).
    assert (DC : Rabs (an - bn) <= 7 * L) by (pose proof (Rabs_triang an (- bn)) as TR; rewrite Rabs_Ropp in TR; unfold Rminus; lra).
    assert (T1 : tiny * (2 * Rabs (an - bn)) <= w).
    { pose proof tiny_pos. apply Rle_trans with (tiny * (14 * L)); [apply Rmult_le_compat_l; lra|]. unfold w.
      rewrite tiny_smallest. pose proof smallest_small. pose proof ulp1_pos.
      replace (u * smallest * (14 * L)) with (u * (smallest * 14 * L)) by ring. apply Rmult_le_compat_l; [lra|]. nra. }
    assert (T2 : 4 * u * Rabs (an - c) <= 20 * w) by (unfold w; pose proof ulp1_pos; nra).
    replace (dot x n - c) with
      (((an - c) - t * (an - bn)) - ((1 - t) * (an - dot a n) + t * (bn - dot b n))
       + ((vx x - ((1 - t) * vx a + t * vx b)) * vx n + (vy x - ((1 - t) * vy a + t * vy b)) * vy n
          + (vz x - ((1 - t) * vz a + t * vz b)) * vz n)) by (unfold dot; ring).
    assert (G1 : Rabs ((1 - t) * (an - dot a n) + t * (bn - dot b n)) <= 17 * w).
    { apply Rle_trans with (1 := Rabs_triang _ _). rewrite !Rabs_mult, (Rabs_pos_eq (1 - t)), (Rabs_pos_eq t) by lra.
      assert ((1 - t) * Rabs (an - dot a n) <= (1 - t) * (17 * w)) by (apply Rmult_le_compat_l; lra).
      assert (t * Rabs (bn - dot b n) <= t * (17 * w)) by (apply Rmult_le_compat_l; lra). lra. }
    pose proof (bounded_mul _ _ _ MX NX) as H1. pose proof (bounded_mul _ _ _ MY NY) as H2. pose proof (bounded_mul _ _ _ MZ NZ) as H3.
    match goal with |- Rabs (?P - ?G + (?X + ?Y + ?Z)) <= _ =>
      pose proof (Rabs_triang (P - G) (X + Y + Z)); pose proof (Rabs_triang (X + Y) Z); pose proof (Rabs_triang X Y);
      pose proof (Rabs_triang P (- G)) as TG; rewrite Rabs_Ropp in TG; unfold Rminus in TG end.
    unfold Rminus in *. lra.
  Qed.

  Lemma intersection_from_above : forall P a b, p_normal P = n -> p_scalar P = c -> double c -> bounded L a -> bounded L b ->
    fdot b n <= c <= fdot a n -> fdot b n < fdot a n ->
    exists t x, get_edge_intersection_double fdot P a b = Ok (Some x) /\
      0 <= t <= 1 /\ meets t a b x /\ Rabs (dot x n - c) <= 90 * (u * L).
  Proof.
    intros P a b EN EC DC A B C D. unfold get_edge_intersection_double, fsub, fdiv, fadd, fmul. rewrite EN, EC.
    set (an := fdot a n) in *. set (bn := fdot b n) in *.
    assert (DA : double an) by apply (sums_double _ _ (computes a n)).
    assert (DB : double bn) by apply (sums_double _ _ (computes b n)).
    destruct (Req_EM_T (fl (an - bn)) 0) as [Z|Z]; [exfalso; apply fl_sub_zero in Z; auto; lra|].
    assert (D0 : 0 < fl (an - bn)) by (pose proof (fl_pos (an - bn) ltac:(lra)); lra).
    assert (R : 0 <= fl (fl (an - c) / fl (an - bn)) <= 1).
    { apply ratio_ok; auto using fl_double. split; [apply fl_pos; lra|apply fl_le; lra]. }
    set (t := fl (fl (an - c) / fl (an - bn))) in *.
    destruct (Rlt_dec t 0); [lra|]. destruct (Rlt_dec 1 t); [lra|].
    exists t, (mixed t a b). split; [reflexivity|]. split; [exact R|]. split; [apply mixed_meets; auto|].
    apply (meets_dist t a b (mixed t a b) (an - c) (an - bn)); auto; [apply mixed_meets; auto|].
    rewrite (Rabs_pos_eq (an - c)), (Rabs_pos_eq (an - bn)) by lra.
    apply ratio_error; try lra.
    - rewrite <- (Rabs_pos_eq (an - c)) at 3 by lra. apply fl_error_sub; auto.
    - rewrite <- (Rabs_pos_eq (an - bn)) at 3 by lra. apply fl_error_sub; auto.
  Qed.
  Lemma intersection_from_below : forall P a b, p_normal P = n -> p_scalar P = c -> double c -> bounded L a -> bounded L b ->
    fdot a n <= c <= fdot b n -> fdot a n < fdot b n ->
    exists t x, get_edge_intersection_double fdot P a b = Ok (Some x) /\
      0 <= t <= 1 /\ meets t a b x /\ Rabs (dot x n - c) <= 90 * (u * L).
  Proof.
    intros P a b EN EC DC A B C D. unfold get_edge_intersection_double, fsub, fdiv, fadd, fmul. rewrite EN, EC.
    set (an := fdot a n) in *. set (bn := fdot b n) in *.
    assert (DA : double an) by apply (sums_double _ _ (computes a n)).
    assert (DB : double bn) by apply (sums_double _ _ (computes b n)).
    destruct (Req_EM_T (fl (an - bn)) 0) as [Z|Z]; [exfalso; apply fl_sub_zero in Z; auto; lra|].
    assert (N1 : fl (an - c) = - fl (c - an)) by (rewrite <- fl_opp; f_equal; ring).
    assert (N2 : fl (an - bn) = - fl (bn - an)) by (rewrite <- fl_opp; f_equal; ring).
    assert (D0 : 0 < fl (bn - an)) by (pose proof (fl_pos (bn - an) ltac:(lra)); lra).
    assert (ET : fl (an - c) / fl (an - bn) = fl (c - an) / fl (bn - an)) by (rewrite N1, N2; field; lra).
    rewrite ET.
    assert (R : 0 <= fl (fl (c - an) / fl (bn - an)) <= 1).
    { apply ratio_ok; auto using fl_double. split; [apply fl_pos; lra|apply fl_le; lra]. }
    set (t := fl (fl (c - an) / fl (bn - an))) in *.
    destruct (Rlt_dec t 0); [lra|]. destruct (Rlt_dec 1 t); [lra|].
    exists t, (mixed t a b). split; [reflexivity|]. split; [exact R|]. split; [apply mixed_meets; auto|].
    apply (meets_dist t a b (mixed t a b) (an - c) (an - bn)); auto; [apply mixed_meets; auto|].
    rewrite (Rabs_minus_sym an c), (Rabs_minus_sym an bn).
    replace (an - c - t * (an - bn)) with (- ((c - an) - t * (bn - an))) by ring. rewrite Rabs_Ropp.
    rewrite (Rabs_pos_eq (c - an)), (Rabs_pos_eq (bn - an)) by lra.
    apply ratio_error; try lra.
    - rewrite <- (Rabs_pos_eq (c - an)) at 3 by lra. apply fl_error_sub; auto.
    - rewrite <- (Rabs_pos_eq (bn - an)) at 3 by lra. apply fl_error_sub; auto.
  Qed.
End Plane.

(** ** Planes *)
Lemma plane_dist_error : forall fdot p L v, computes_dot fdot -> smallest <= L -> bounded 1 (p_normal p) -> Rabs (p_scalar p) <= L ->
  bounded L v -> Rabs (plane_dist_double fdot p v - plane_dist p v) <= 23 * (u * L).
Proof. intros fdot p L v C S N B V. apply (dist_app fdot L (p_normal p) (p_scalar p) C S N B v V). Qed.
Lemma reflect_error : forall fdot p L v, computes_dot fdot -> smallest <= L -> bounded 1 (p_normal p) -> Rabs (p_scalar p) <= L ->
  bounded L v -> bounded (71 * (u * L)) (vsub (reflect_double fdot p v) (reflect p v)).
Proof.
  intros fdot p L v C S N B V. pose proof V as (VX & VY & VZ). pose proof N as (NX & NY & NZ).
  unfold bounded, vsub, reflect_double, reflect, plane_dist_double, fsub, fmul. cbn [vx vy vz vsub vscale].
  repeat split; apply (reflect_app fdot L (p_normal p) (p_scalar p) C S N B); auto.
Qed.
Lemma intersection_ok : forall fdot p L a b, computes_dot fdot -> smallest <= L -> bounded 1 (p_normal p) -> Rabs (p_scalar p) <= L ->
  double (p_scalar p) -> bounded L a -> bounded L b ->
  (plane_dist p b < - (17 * (u * L)) /\ 17 * (u * L) < plane_dist p a \/
   plane_dist p a < - (17 * (u * L)) /\ 17 * (u * L) < plane_dist p b) ->
  exists t x, get_edge_intersection_double fdot p a b = Ok (Some x) /\ 0 <= t <= 1 /\
    bounded (14 * (u * L)) (vsub x (vadd (vscale (1 - t) a) (vscale t b))) /\ Rabs (plane_dist p x) <= 90 * (u * L).
Proof.
  intros fdot p L a b C S N B D HA HB H. unfold plane_dist in *. pose proof (uQ_pos L S).
  pose proof (dot_app fdot L (p_normal p) C S N a HA) as [EA _]. pose proof (dot_app fdot L (p_normal p) C S N b HB) as [EB _].
  apply Rabs_le_inv in EA, EB.
  destruct H as [[H1 H2]|[H1 H2]].
  - destruct (intersection_from_above fdot L (p_normal p) (p_scalar p) C S N B p a b) as (t & x & E & T & M & Q); auto; try lra.
    exists t, x. auto.
  - destruct (intersection_from_below fdot L (p_normal p) (p_scalar p) C S N B p a b) as (t & x & E & T & M & Q); auto; try lra.
    exists t, x. auto.
Qed.
