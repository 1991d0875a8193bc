(** Proofs about double precision: normals of planes, witnesses. *)
From Coq Require Import Reals Lra Lia List Arith Bool ZArith Sorting.Permutation Psatz.
From Flocq Require Import Core.
From Verif Require Import M_base M_rotations M_merge M_plane M_mesh S_merge P_base P_merge P_mesh M_double S_double P_double P_double2 P_double3 P_double4.
Import ListNotations.
Open Scope R_scope.

(** ** Computing one rounding *)
Lemma fl_eval : forall e n x, (-1021 <= e)%Z -> bpow radix2 (e - 1) <= Rabs x < bpow radix2 e ->
  Rabs (x * bpow radix2 (53 - e) - IZR n) < 1 / 2 -> fl x = IZR n * bpow radix2 (e - 53).
Proof.
  intros e n x E B N. unfold fl, round, scaled_mantissa, cexp, FLT_exp.
  assert (M : mag radix2 x = e :> Z) by (apply mag_unique; auto). rewrite M.
  replace (Z.max (e - 53) (-1074)) with (e - 53)%Z by lia. unfold F2R. cbn [Fnum Fexp].
  replace (- (e - 53))%Z with (53 - e)%Z by lia. rewrite (Znearest_imp _ _ n); auto. lra.
Qed.

(** ** Square roots of squares *)
Lemma sums_ge : forall l r, sums l r -> Forall (fun x => 0 <= x) l -> 0 <= r /\ Forall (fun x => fl x <= r) l.
Proof.
  intros l r S. induction S as [x|l r x S IH|l1 r1 l2 r2 S1 IH1 S2 IH2|l l' r P S IH]; intros F.
  - inversion F; subst. split; [apply fl_pos; auto|]. constructor; [lra|constructor].
  - inversion F; subst. destruct (IH H2) as [R0 RL]. split; [apply fl_pos; lra|]. constructor; [apply fl_le; lra|].
    eapply Forall_impl; [|exact RL]. intros y Y. apply Rle_trans with (1 := Y). rewrite <- (double_fl r (sums_double _ _ S)) at 1. apply fl_le. lra.
  - apply Forall_app in F. destruct F as [F1 F2]. destruct (IH1 F1) as [A1 B1]. destruct (IH2 F2) as [A2 B2].
    split; [apply fl_pos; lra|]. apply Forall_app. split.
    + eapply Forall_impl; [|exact B1]. intros y Y. apply Rle_trans with (1 := Y). rewrite <- (double_fl r1 (sums_double _ _ S1)) at 1. apply fl_le. lra.
    + eapply Forall_impl; [|exact B2]. intros y Y. apply Rle_trans with (1 := Y). rewrite <- (double_fl r2 (sums_double _ _ S2)) at 1. apply fl_le. lra.
  - assert (F' : Forall (fun x => 0 <= x) l) by (eapply Permutation_Forall; [apply Permutation_sym, P|auto]).
    destruct (IH F') as [A B]. split; auto. eapply Permutation_Forall; eauto.
Qed.

Lemma sqrt_square_ge : forall x, double x -> smallest <= x * x -> Rabs x <= fsqrt (fl (x * x)).
Proof.
  intros x0 D0 S0. unfold fsqrt.
  set (x := Rabs x0). assert (XX : x0 * x0 = x * x) by (unfold x, Rabs; destruct Rcase_abs; ring). rewrite XX in *.
  assert (D : double x) by (unfold x, Rabs; destruct Rcase_abs; auto using double_opp).
  pose proof smallest_pos as SP. assert (X0 : 0 < x) by (pose proof (Rabs_pos x0); fold x in H; destruct H; auto; subst; rewrite <- H in S0; lra).
  pose proof ulp1_pos as U0. pose proof ulp1_small as U1.
  pose proof (fl_error_large (x * x)) as E. rewrite (Rabs_pos_eq (x * x)) in E by nra. specialize (E S0). apply Rabs_le_inv in E.
  set (y := sqrt (fl (x * x))).
  assert (Y2 : y * y = fl (x * x)) by (apply sqrt_sqrt, fl_pos; nra).
  assert (Y0 : 0 <= y) by apply sqrt_pos.
  apply double_format in D.
  set (e := mag radix2 x : Z). set (P := bpow radix2 e).
  assert (B : bpow radix2 (e - 1) <= x < P).
  { rewrite <- (Rabs_pos_eq x) by lra. unfold P, e. destruct (mag radix2 x) as [k K]. cbn. apply K. lra. }
  assert (P0 : 0 < P) by apply bpow_gt_0.
  assert (HP : bpow radix2 (e - 1) = P / 2).
  { unfold P. replace e with (e - 1 + 1)%Z at 2 by lia. rewrite bpow_plus. change (bpow radix2 1) with 2. field. }
  rewrite HP in B.
  assert (E1 : (-1021 <= e)%Z).
  { destruct (Z_le_gt_dec (-1021) e) as [|G]; auto. exfalso.
    assert (P <= bpow radix2 (-1022)) by (apply bpow_le; lia). rewrite <- smallest_bpow in H.
    pose proof smallest_small. nra. }
  assert (FE : fexp e = (e - 53)%Z) by (unfold FLT_exp; lia).
  assert (G : ulp radix2 fexp x = u * P).
  { rewrite ulp_neq_0 by lra. unfold cexp. fold e. rewrite FE, ulp1_bpow. unfold P. rewrite <- bpow_plus. f_equal. lia. }
  destruct (Req_dec x (P / 2)) as [Q|Q].
  - assert (DX : double (x * x)).
    { apply double_format. rewrite Q, <- HP, <- bpow_plus. apply generic_format_bpow. unfold FLT_exp.
      assert (-1022 <= e - 1 + (e - 1))%Z; [|lia]. apply (le_bpow radix2). rewrite <- smallest_bpow, bpow_plus, HP, <- Q. auto. }
    assert (YX : y = x) by (unfold y; rewrite (double_fl _ DX); apply sqrt_square; lra).
    rewrite YX, double_fl; [lra|]. apply double_format. auto.
  - apply round_N_ge_midp; [apply FLT_exp_valid, prec53|auto|].
    assert (PR : pred radix2 fexp x = x - u * P).
    { rewrite pred_eq_pos by lra. unfold pred_pos. fold e. rewrite HP, Req_bool_false by auto. rewrite G. reflexivity. }
    rewrite PR. pose proof (id_p_ulp_le_bpow radix2 fexp x e X0 D (proj2 B)) as I. fold P in I. rewrite G in I.
    apply Rnot_le_lt. intros N.
    assert (Y1 : y <= x - u * P / 2) by lra.
    assert (Y3 : y * y <= (x - u * P / 2) * (x - u * P / 2)) by (apply Rmult_le_compat; lra).
    assert (Y4 : x * x * (1 - u) <= (x - u * P / 2) * (x - u * P / 2)) by lra.
    assert (XP : x * (P - x) - u * (P * P) / 4 <= 0) by nra.
    assert (x * (u * P) <= x * (P - x)) by (apply Rmult_le_compat_l; lra).
    assert (P / 2 * (u * P) <= x * (u * P)) by (apply Rmult_le_compat_r; nra).
    assert (0 < u * (P * P)) by (apply Rmult_lt_0_compat; nra). lra.
Qed.

(** ** Normals *)
Section Normal.
  Variables (fdot : vec -> vec -> R) (v : vec) (M : R).
  Hypothesis computes : computes_dot fdot.
  Hypothesis v_double : double_vec v.
  Hypothesis v_bounded : bounded M v.
  Hypothesis M_reached : M = Rabs (vx v) \/ M = Rabs (vy v) \/ M = Rabs (vz v).
  Hypothesis large : smallest <= M * M.
  Hypothesis M_pos : 0 <= M.
  Lemma M_pos' : 0 < M.
  Proof. pose proof smallest_pos. destruct M_pos; auto. subst. lra. Qed.
  Lemma M_dot : M * M <= dot v v.
  Proof.
    unfold dot. assert (forall x, Rabs x * Rabs x = x * x) by (intros; unfold Rabs; destruct Rcase_abs; ring).
    destruct M_reached as [E|[E|E]]; rewrite E, H; nra.
  Qed.
  Lemma M_large : smallest <= M.
  Proof.
    destruct (Rle_lt_dec 1 M); [pose proof one_large; lra|]. pose proof M_pos'. nra.
  Qed.
  Lemma square_app : app (M * M) 17 3 (fdot v v) (dot v v).
  Proof.
    destruct v_bounded as (BX & BY & BZ).
    assert (SQ : forall x, Rabs x <= M -> Rabs (x * x) <= 1 * (M * M)).
    { intros x X. rewrite Rabs_mult, Rmult_1_l. apply Rmult_le_compat; auto using Rabs_pos. }
    eapply app_weaken; [exact large|apply (app_sum3 (M * M) 0 1 (vx v * vx v) (vy v * vy v) (vz v * vz v))| |]; try lra; auto; try sane;
      try (apply app_exact; auto).
  Qed.
  Lemma norm_ge : M <= norm v.
  Proof.
    unfold norm. rewrite <- (sqrt_square M) by auto. apply sqrt_le_1_alt. apply M_dot.
  Qed.
  Lemma norm_le : norm v <= 2 * M.
  Proof.
    unfold norm. rewrite <- (sqrt_square (2 * M)) by lra. apply sqrt_le_1_alt. destruct v_bounded as (BX & BY & BZ).
    assert (SQ : forall x, Rabs x <= M -> x * x <= M * M) by (intros x X; apply Rabs_le_inv in X; nra).
    pose proof (SQ _ BX). pose proof (SQ _ BY). pose proof (SQ _ BZ). nra.
  Qed.
  Lemma sqrt_app : app M 17 2 (sqrt (fdot v v)) (norm v).
  Proof.
    destruct square_app as [E _]. pose proof M_pos' as M0. pose proof norm_ge as NG. pose proof norm_le as NL. pose proof M_dot as MD.
    split; [|rewrite Rabs_pos_eq; lra].
    change (norm v) with (sqrt (dot v v)) in *.
    assert (UM : u * (M * M) <= / 1000000000000000 * (M * M)) by (apply Rmult_le_compat_r; [nra|apply ulp1_small]).
    assert (F0 : 0 <= fdot v v) by (apply Rabs_le_inv in E; nra).
    set (a := sqrt (fdot v v)) in *. set (b := sqrt (dot v v)) in *.
    assert (A : a * a = fdot v v) by (apply sqrt_sqrt; auto). assert (B : b * b = dot v v) by (apply sqrt_sqrt; nra).
    assert (A0 : 0 <= a) by apply sqrt_pos.
    rewrite <- A, <- B in E. replace (a * a - b * b) with ((a - b) * (a + b)) in E by ring.
    rewrite Rabs_mult, (Rabs_pos_eq (a + b)) in E by lra.
    pose proof (Rabs_pos (a - b)). apply Rmult_le_reg_r with M; auto.
    apply Rle_trans with (Rabs (a - b) * (a + b)); [apply Rmult_le_compat_l; lra|]. lra.
  Qed.
  Lemma fsqrt_app : app M 21 2 (fsqrt (fdot v v)) (norm v).
  Proof.
    eapply app_weaken; [exact M_large|apply (app_fl M M_large); [|exact sqrt_app]| |]; try lra. sane.
  Qed.
  Lemma fsqrt_ge : M <= fsqrt (fdot v v).
  Proof.
    assert (F : Forall (fun x => fl x <= fdot v v) [vx v * vx v; vy v * vy v; vz v * vz v]).
    { apply (sums_ge _ _ (computes v v)). assert (Q : forall x, 0 <= x * x) by exact Rle_0_sqr. auto. }
    rewrite Forall_forall in F. destruct v_double as (DX & DY & DZ).
    assert (Rabs_sq : forall x, Rabs x * Rabs x = x * x) by (intros; unfold Rabs; destruct Rcase_abs; ring).
    assert (K : forall x, double x -> M = Rabs x -> In (x * x) [vx v * vx v; vy v * vy v; vz v * vz v] -> M <= fsqrt (fdot v v)).
    { intros x D E I. rewrite E. apply Rle_trans with (fsqrt (fl (x * x))).
      - apply sqrt_square_ge; auto. rewrite <- Rabs_sq, <- E. auto.
      - apply fl_le, sqrt_le_1_alt, F. auto. }
    destruct M_reached as [E|[E|E]]; [apply (K (vx v))|apply (K (vy v))|apply (K (vz v))]; auto; cbn; auto.
  Qed.
  Lemma quotient_app : forall x, Rabs x <= M -> Rabs (fl (x / fsqrt (fdot v v))) <= 1 /\
    Rabs (fl (x / fsqrt (fdot v v)) - x / norm v) <= 25 * u.
  Proof.
    intros x X. pose proof fsqrt_ge as G. pose proof norm_ge as NG. destruct fsqrt_app as [E _]. pose proof M_pos' as M0.
    set (N := fsqrt (fdot v v)) in *. pose proof ulp1_pos as U0.
    assert (Q : Rabs (x / N) <= 1).
    { unfold Rdiv. rewrite Rabs_mult, Rabs_inv, (Rabs_pos_eq N) by lra. apply Rmult_le_reg_r with N; [lra|].
      rewrite Rmult_assoc, Rinv_l, Rmult_1_r, Rmult_1_l; lra. }
    split.
    - rewrite fl_abs. rewrite <- (double_fl 1 double_1). apply fl_le. auto.
    - assert (D : Rabs (x / N - x / norm v) <= 21 * u).
      { replace (x / N - x / norm v) with ((x / N) * ((norm v - N) / norm v)) by (field; lra).
        rewrite Rabs_mult. rewrite <- (Rmult_1_l (21 * u)). apply Rmult_le_compat; auto using Rabs_pos.
        unfold Rdiv. rewrite Rabs_mult, Rabs_inv, (Rabs_pos_eq (norm v)), Rabs_minus_sym by lra.
        apply Rmult_le_reg_r with (norm v); [lra|]. rewrite Rmult_assoc, Rinv_l, Rmult_1_r by lra.
        apply Rle_trans with (1 := E). replace (21 * (u * M)) with (21 * u * M) by ring. apply Rmult_le_compat_l; lra. }
      pose proof (fl_error (x / N)) as F. pose proof (tiny_uQ 1 one_large) as T.
      replace (fl (x / N) - x / norm v) with ((fl (x / N) - x / N) + (x / N - x / norm v)) by ring.
      apply Rle_trans with (1 := Rabs_triang _ _). nra.
  Qed.
  Lemma normalize_app : bounded 1 (normalize_double fdot v) /\ bounded (25 * u) (vsub (normalize_double fdot v) (normalize v)) /\
    double_vec (normalize_double fdot v).
  Proof.
    destruct v_bounded as (BX & BY & BZ). unfold normalize_double, normalize, vsub, bounded, fdiv, double_vec. cbn [vx vy vz].
    repeat split; try apply quotient_app; auto; apply fl_double.
  Qed.
End Normal.
Lemma normalize_error : forall fdot v, computes_dot fdot -> double_vec v ->
  (exists x, (x = vx v \/ x = vy v \/ x = vz v) /\ powerRZ 2 (-511) <= Rabs x) ->
  bounded 1 (normalize_double fdot v) /\ bounded (25 * u) (vsub (normalize_double fdot v) (normalize v)).
Proof.
  intros fdot v C D (x & X & L).
  set (M := Rmax (Rabs (vx v)) (Rmax (Rabs (vy v)) (Rabs (vz v)))).
  assert (BX : Rabs (vx v) <= M) by apply Rmax_l.
  assert (BY : Rabs (vy v) <= M) by (apply Rle_trans with (2 := Rmax_r _ _); apply Rmax_l).
  assert (BZ : Rabs (vz v) <= M) by (apply Rle_trans with (2 := Rmax_r _ _); apply Rmax_r).
  assert (ML : powerRZ 2 (-511) <= M) by (destruct X as [->|[->| ->]]; lra).
  assert (P0 : 0 < powerRZ 2 (-511)) by (apply powerRZ_lt; lra).
  assert (R : M = Rabs (vx v) \/ M = Rabs (vy v) \/ M = Rabs (vz v)).
  { unfold M, Rmax. repeat destruct Rle_dec; auto. }
  assert (S : smallest <= M * M).
  { apply Rle_trans with (powerRZ 2 (-511) * powerRZ 2 (-511)); [|apply Rmult_le_compat; lra].
    rewrite <- powerRZ_add by lra. unfold smallest. apply Req_le. reflexivity. }
  destruct (normalize_app fdot v M C D (conj BX (conj BY BZ)) R S ltac:(lra)) as (A & B & _). auto.
Qed.
