(** Proofs about the changes of the point of reduction in double precision. *)
From Coq Require Import Reals Lra Lia List Arith Bool ZArith Psatz.
From Flocq Require Import Core.
From Verif Require Import M_base P_base M_merge M_plane M_mesh S_geometry M_geometry P_geometry M_inertia S_inertia M_double S_double P_double P_double2 P_double3 P_double4 M_dgeom P_dgeom P_dgeom2 P_dreport M_dbody.
Import ListNotations.
Open Scope R_scope.

Lemma fl_0 : fl 0 = 0.
Proof. apply double_fl, double_0. Qed.
Lemma sums_zero : forall l r, sums l r -> Forall (eq 0) l -> r = 0.
Proof.
  intros l r S. induction S as [x|l r x S IH|l1 r1 l2 r2 S1 IH1 S2 IH2|l l' r P S IH]; intros F.
  - inversion F; subst. apply fl_0.
  - inversion F; subst. rewrite IH by auto. replace (0 + 0) with 0 by ring. apply fl_0.
  - apply Forall_app in F as [F1 F2]. rewrite IH1, IH2 by auto. replace (0 + 0) with 0 by ring. apply fl_0.
  - apply IH. apply Forall_forall. intros x I. rewrite Forall_forall in F. apply F. eapply Permutation.Permutation_in; eauto.
Qed.

Section Body.
  Variables (L : R) (fdot : vec -> vec -> R).
  Hypothesis sized : powerRZ 2 (-200) <= L.
  Hypothesis dot_ok : computes_dot fdot.
  Let L1 := L_large L sized.
  Let L2 := L2_large L sized.
  Section Bracket.
    Variables (x y z X Y Z : R).
    Hypothesis AX : app L 4 2 x X.
    Hypothesis AY : app L 4 2 y Y.
    Hypothesis AZ : app L 4 2 z Z.
    Let n := fdot (V3 x y z) (V3 x y z).
    Lemma square_app : app (L * L) 104 12 n (X * X + Y * Y + Z * Z).
    Proof.
      pose proof (dot_ok (V3 x y z) (V3 x y z)) as S. cbn [vx vy vz] in S.
      assert (M : forall a A, app L 4 2 a A -> app (L * L) 17 4 (a * a) (A * A)).
      { intros a A H. eapply app_weaken; [exact L2|apply (app_mul L L 4 2 4 2); [exact L1|exact L1|split; lra|split; lra|exact H|exact H]| |]; lra. }
      eapply app_weaken; [exact L2|eapply (app_sum3 (L * L) 17 4); [exact L2|split; lra|lra|apply M, AX|apply M, AY|apply M, AZ|exact S]| |]; lra.
    Qed.
    Lemma diagonal_app : forall a A, app L 4 2 a A -> app (L * L) 159 16 (fsub (fmul n 1) (fmul a a)) (X * X + Y * Y + Z * Z - A * A).
    Proof.
      intros a A H. unfold fsub.
      eapply app_weaken; [exact L2|apply (app_fl _ L2 (118 + 23) (12 + 4)); [split; lra|apply (app_sub (L * L)); [|exact (product_app L sized _ _ _ _ H H)]]| |]; try lra.
      unfold fmul. rewrite Rmult_1_r. eapply app_weaken; [exact L2|apply (app_fl _ L2 104 12); [split; lra|apply square_app]| |]; lra.
    Qed.
    Lemma other_app : forall a A b B, app L 4 2 a A -> app L 4 2 b B -> app (L * L) 159 16 (fsub (fmul n 0) (fmul a b)) (- (A * B)).
    Proof.
      intros a A b B HA HB. unfold fsub. replace (fmul n 0) with 0 by (unfold fmul; rewrite Rmult_0_r; symmetry; apply fl_0). replace (- (A * B)) with (0 - A * B) by ring.
      eapply app_weaken; [exact L2|apply (app_fl _ L2 (0 + 23) (0 + 4)); [split; lra|apply (app_sub (L * L)); [|exact (product_app L sized _ _ _ _ HA HB)]]| |]; try lra.
      apply app_exact. rewrite Rabs_R0. lra.
    Qed.
  End Bracket.
  Lemma entry_near : forall m i t T, app (L * L) 159 16 t T -> Rabs (fadd i (fmul m t) - (i + m * T)) <= u * Rabs (i + m * T) + 177 * (Rabs m * (u * (L * L))) + 3 * tiny.
  Proof.
    intros m i t T [E S]. pose proof ulp1_pos as U. pose proof ulp1_small as US. pose proof tiny_pos as T0. pose proof (uQ_pos _ L2) as W.
    set (q := u * (L * L)) in *. pose proof (Rabs_pos m) as M.
    assert (P : Rabs (m * t - m * T) <= Rabs m * (159 * q)). { replace (m * t - m * T) with (m * (t - T)) by ring. rewrite Rabs_mult. apply Rmult_le_compat_l; auto. }
    pose proof (fl_near _ _ _ P) as F.
    assert (B : u * Rabs (m * T) <= 16 * (Rabs m * q)).
    { rewrite Rabs_mult. replace (16 * (Rabs m * q)) with (u * (Rabs m * (16 * (L * L)))) by (unfold q; ring). apply Rmult_le_compat_l; [lra|]. apply Rmult_le_compat_l; auto. }
    assert (MQ : 0 <= Rabs m * q) by (apply Rmult_le_pos; lra).
    assert (UQ : u * (Rabs m * q) <= / 1000000000000000 * (Rabs m * q)) by (apply Rmult_le_compat_r; auto).
    assert (G : Rabs (i + fmul m t - (i + m * T)) <= 1755 / 10 * (Rabs m * q) + tiny).
    { replace (i + fmul m t - (i + m * T)) with (fl (m * t) - m * T) by (unfold fmul; ring). eapply Rle_trans; [exact F|].
      replace ((1 + u) * (Rabs m * (159 * q))) with (159 * (Rabs m * q) + 159 * (u * (Rabs m * q))) by ring. lra. }
    pose proof (fl_near _ _ _ G) as R. unfold fadd. eapply Rle_trans; [exact R|].
    assert (UT : u * tiny <= 1 * tiny) by (apply Rmult_le_compat_r; lra).
    replace ((1 + u) * (1755 / 10 * (Rabs m * q) + tiny)) with (1755 / 10 * (Rabs m * q) + 1755 / 10 * (u * (Rabs m * q)) + tiny + u * tiny) by ring. lra.
  Qed.
End Body.
Lemma centered : forall fdot b, computes_dot fdot -> rb_point b = rb_cog b -> huygens_double fdot b = M3 0 0 0 0 0 0 0 0 0.
Proof.
  intros fdot b C E. unfold huygens_double. rewrite E. unfold vsub_double.
  assert (Z : forall x, fsub x x = 0) by (intros x; unfold fsub; replace (x - x) with 0 by ring; apply fl_0).
  rewrite !Z. cbn [vx vy vz]. assert (N : fdot (V3 0 0 0) (V3 0 0 0) = 0).
  { apply (sums_zero _ _ (C (V3 0 0 0) (V3 0 0 0))). cbn [vx vy vz]. repeat constructor; ring. }
  rewrite N. assert (M : forall x, fmul 0 x = 0) by (intros x; unfold fmul; rewrite Rmult_0_l; apply fl_0). rewrite !M, Z.
  assert (K : fmul (rb_mass b) 0 = 0) by (unfold fmul; rewrite Rmult_0_r; apply fl_0). rewrite K. reflexivity.
Qed.
