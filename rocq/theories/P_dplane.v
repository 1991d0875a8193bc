(** Proofs about the waterplane in double precision: terms and sums. *)
From Coq Require Import Reals Lra Lia List Arith Bool ZArith Psatz.
From Flocq Require Import Core.
From Verif Require Import M_base M_merge M_plane M_mesh M_geometry S_merge S_mesh S_geometry P_base P_merge P_mesh P_geometry M_inertia M_hydro M_double S_double P_double P_double2 P_double3 P_double4
  M_dgeom P_dgeom P_dgeom2 P_dgeom3 S_dgeom P_dgeom4 P_dgeom5 P_dinertia P_dvol M_dplane.
Import ListNotations.
Open Scope R_scope.

(** ** Exact terms *)
Definition plain0 (p q : R * R) : R := (snd q - snd p) * (fst p + fst q).
Definition plain1 (p q : R * R) : R := (snd q - snd p) * ((fst p + fst q) * (fst p + fst q) - fst p * fst q).
Definition plain3 (p q : R * R) : R :=
  (snd q - snd p) * ((snd p + snd q) * (fst p + fst q) * (fst p + fst q) + snd p * fst p * fst p + snd q * fst q * fst q).
Definition plain4 (p q : R * R) : R := (snd q - snd p) * (fst p * fst p + fst q * fst q) * (fst p + fst q).
Definition swap (p : R * R) : R * R := (snd p, fst p).

Definition inside (L : R) (p : R * R) : Prop := Rabs (fst p) <= L /\ Rabs (snd p) <= L.
Definition beside (d : R) (p p' : R * R) : Prop := Rabs (fst p' - fst p) <= d /\ Rabs (snd p' - snd p) <= d.

Section Rounded.
  Variable L : R.
  Hypothesis sized : powerRZ 2 (-200) <= L.
  Ltac step lem := eapply app_weaken; [apply (pow_large L sized); lia|eapply lem; try exact sized; try lia; eauto; try sane; try lra| |]; try lra.
  Variables p q : R * R.
  Hypothesis P : inside L p.
  Hypothesis Q : inside L q.
  Let x := fst p. Let y := snd p. Let x' := fst q. Let y' := snd q.
  Let X : app (L ^ 1) 0 1 x x. Proof. apply coord_app. apply P. Qed.
  Let Y : app (L ^ 1) 0 1 y y. Proof. apply coord_app. apply P. Qed.
  Let X' : app (L ^ 1) 0 1 x' x'. Proof. apply coord_app. apply Q. Qed.
  Let Y' : app (L ^ 1) 0 1 y' y'. Proof. apply coord_app. apply Q. Qed.
  Let DY : app (L ^ 1) 4 2 (fsub y' y) (y' - y). Proof. step sub_app. Qed.
  Let PX : app (L ^ 1) 4 2 (fadd x x') (x + x'). Proof. step add_app. Qed.
  Let PY : app (L ^ 1) 4 2 (fadd y y') (y + y'). Proof. step add_app. Qed.

  Lemma term0_app : app (L ^ 2) 23 4 (term0 p q) (plain0 p q).
  Proof. unfold term0, plain0. destruct p, q. cbn [fst snd] in *. step (mul_app L sized 1 1). Qed.
  Lemma term1_app : app (L ^ 3) 101 10 (term1 p q) (plain1 p q).
  Proof.
    assert (H1 : app (L ^ 2) 23 4 (fmul (fadd x x') (fadd x x')) ((x + x') * (x + x'))) by (step (mul_app L sized 1 1)).
    assert (H2 : app (L ^ 2) 4 1 (fmul x x') (x * x')) by (step (mul_app L sized 1 1)).
    assert (H3 : app (L ^ 2) 34 5 (fsub (fmul (fadd x x') (fadd x x')) (fmul x x')) ((x + x') * (x + x') - x * x')) by (step sub_app).
    unfold term1, plain1. destruct p, q. cbn [fst snd] in *. step (mul_app L sized 1 2).
  Qed.
  Lemma term4_app : app (L ^ 4) 105 8 (term4 p q) (plain4 p q).
  Proof.
    assert (H1 : app (L ^ 2) 4 1 (fmul x x) (x * x)) by (step (mul_app L sized 1 1)).
    assert (H2 : app (L ^ 2) 4 1 (fmul x' x') (x' * x')) by (step (mul_app L sized 1 1)).
    assert (H3 : app (L ^ 2) 12 2 (fadd (fmul x x) (fmul x' x')) (x * x + x' * x')) by (step add_app).
    assert (H4 : app (L ^ 3) 39 4 (fmul (fsub y' y) (fadd (fmul x x) (fmul x' x'))) ((y' - y) * (x * x + x' * x'))) by (step (mul_app L sized 1 2)).
    unfold term4, plain4. destruct p, q. cbn [fst snd] in *. step (mul_app L sized 3 1).
  Qed.
  Lemma term3_app : app (L ^ 4) 287 20 (term3 p q) (plain3 p q).
  Proof.
    assert (H1 : app (L ^ 2) 23 4 (fmul (fadd y y') (fadd x x')) ((y + y') * (x + x'))) by (step (mul_app L sized 1 1)).
    assert (H2 : app (L ^ 3) 73 8 (fmul (fmul (fadd y y') (fadd x x')) (fadd x x')) ((y + y') * (x + x') * (x + x'))) by (step (mul_app L sized 2 1)).
    assert (H3 : app (L ^ 2) 4 1 (fmul y x) (y * x)) by (step (mul_app L sized 1 1)).
    assert (H4 : app (L ^ 2) 4 1 (fmul y' x') (y' * x')) by (step (mul_app L sized 1 1)).
    assert (H5 : app (L ^ 3) 8 1 (fmul (fmul y x) x) (y * x * x)) by (step (mul_app L sized 2 1)).
    assert (H6 : app (L ^ 3) 8 1 (fmul (fmul y' x') x') (y' * x' * x')) by (step (mul_app L sized 2 1)).
    assert (H7 : app (L ^ 3) 92 9 (fadd (fmul (fmul (fadd y y') (fadd x x')) (fadd x x')) (fmul (fmul y x) x)) ((y + y') * (x + x') * (x + x') + y * x * x)) by (step add_app).
    assert (H8 : app (L ^ 3) 112 10 (fadd (fadd (fmul (fmul (fadd y y') (fadd x x')) (fadd x x')) (fmul (fmul y x) x)) (fmul (fmul y' x') x'))
      ((y + y') * (x + x') * (x + x') + y * x * x + y' * x' * x')) by (step add_app).
    unfold term3, plain3. destruct p, q. cbn [fst snd] in *. step (mul_app L sized 1 3).
  Qed.
End Rounded.
Lemma inside_swap : forall L p, inside L p -> inside L (swap p).
Proof. intros L p [A B]. split; auto. Qed.
Lemma term2_swap : forall p q, term2 p q = term1 (swap p) (swap q).
Proof. intros [] []. reflexivity. Qed.
Lemma term5_swap : forall p q, term5 p q = term4 (swap p) (swap q).
Proof. intros [] []. reflexivity. Qed.

(** ** Terms of points that moved *)
Section Moved.
  Variables L d : R.
  Hypothesis L0 : 0 < L.
  Hypothesis d0 : 0 <= d.
  Hypothesis Hd : 1000 * d <= L.
  (** [X] of size [B] in powers of [L], moved by [c] times the smaller power and [d]. *)
  Definition shifts (k : nat) (c B X X' : R) : Prop := Rabs (X' - X) <= c * (L ^ k * d) /\ Rabs X <= B * (L * L ^ k).
  Let pos : forall k, 0 <= L ^ k * d. Proof. intros. apply Rmult_le_pos; auto. apply pow_le. lra. Qed.
  Let posL : forall k, 0 < L * L ^ k. Proof. intros. apply Rmult_lt_0_compat; auto. apply pow_lt. lra. Qed.
  Lemma shifts_add : forall k c B X X' c' B' Y Y', shifts k c B X X' -> shifts k c' B' Y Y' -> shifts k (c + c') (B + B') (X + Y) (X' + Y').
  Proof.
    intros k c B X X' c' B' Y Y' [A1 A2] [C1 C2]. split.
    - replace (X' + Y' - (X + Y)) with ((X' - X) + (Y' - Y)) by ring. eapply Rle_trans; [apply Rabs_triang|]. lra.
    - eapply Rle_trans; [apply Rabs_triang|]. lra.
  Qed.
  Lemma shifts_sub : forall k c B X X' c' B' Y Y', shifts k c B X X' -> shifts k c' B' Y Y' -> shifts k (c + c') (B + B') (X - Y) (X' - Y').
  Proof.
    intros k c B X X' c' B' Y Y' H [C1 C2]. unfold Rminus. apply shifts_add; auto. split; [|rewrite Rabs_Ropp; auto].
    replace (- Y' - - Y) with (- (Y' - Y)) by ring. rewrite Rabs_Ropp. auto.
  Qed.
  Lemma shifts_mul : forall i j c B X X' c' B' Y Y', shifts i c B X X' -> shifts j c' B' Y Y' -> 0 <= c -> 0 <= c' -> 0 <= B -> 0 <= B' ->
    shifts (S (i + j)) ((B + c / 1000) * c' + B' * c) (B * B') (X * Y) (X' * Y').
  Proof.
    intros i j c B X X' c' B' Y Y' [A1 A2] [C1 C2] c0 c0' B0 B0'. pose proof (pos i) as PI. pose proof (pos j) as PJ. pose proof (posL i) as QI. pose proof (posL j) as QJ.
    assert (CI : c * (L ^ i * d) <= c / 1000 * (L * L ^ i)).
    { assert (L ^ i * d <= / 1000 * (L * L ^ i)).
      { pose proof (pow_le L i ltac:(lra)). assert (L ^ i * d <= L ^ i * (/ 1000 * L)) by (apply Rmult_le_compat_l; lra). lra. }
      assert (c * (L ^ i * d) <= c * (/ 1000 * (L * L ^ i))) by (apply Rmult_le_compat_l; auto). lra. }
    split.
    - eapply Rle_trans; [apply (product_moved _ _ _ _ _ _ _ _ A2 C2 A1 C1)|].
      assert (E1 : (B * (L * L ^ i) + c * (L ^ i * d)) * (c' * (L ^ j * d)) <= ((B + c / 1000) * (L * L ^ i)) * (c' * (L ^ j * d))).
      { apply Rmult_le_compat_r; [apply Rmult_le_pos; auto|]. lra. }
      cbn [pow]. rewrite pow_add. lra.
    - rewrite Rabs_mult. apply Rle_trans with ((B * (L * L ^ i)) * (B' * (L * L ^ j))); [apply Rmult_le_compat; auto using Rabs_pos|].
      cbn [pow]. rewrite pow_add. lra.
  Qed.
  Lemma shifts_weaken : forall k c B X X' c' B', shifts k c B X X' -> c <= c' -> B <= B' -> shifts k c' B' X X'.
  Proof.
    intros k c B X X' c' B' [A1 A2] C D. split.
    - eapply Rle_trans; [exact A1|]. apply Rmult_le_compat_r; auto.
    - eapply Rle_trans; [exact A2|]. apply Rmult_le_compat_r; auto using Rlt_le.
  Qed.

  Ltac step lem := eapply shifts_weaken; [eapply lem; [eassumption|eassumption|..]; lra| |]; lra.
  Variables p q p' q' : R * R.
  Hypothesis P : inside L p.
  Hypothesis Q : inside L q.
  Hypothesis P' : beside d p p'.
  Hypothesis Q' : beside d q q'.
  Let coord : forall x x', Rabs x <= L -> Rabs (x' - x) <= d -> shifts 0 1 1 x x'.
  Proof. intros x x' H H'. split; cbn; lra. Qed.
  Let X : shifts 0 1 1 (fst p) (fst p'). Proof. apply coord; [apply P|apply P']. Qed.
  Let Y : shifts 0 1 1 (snd p) (snd p'). Proof. apply coord; [apply P|apply P']. Qed.
  Let X2 : shifts 0 1 1 (fst q) (fst q'). Proof. apply coord; [apply Q|apply Q']. Qed.
  Let Y2 : shifts 0 1 1 (snd q) (snd q'). Proof. apply coord; [apply Q|apply Q']. Qed.
  Let DY : shifts 0 2 2 (snd q - snd p) (snd q' - snd p'). Proof. step shifts_sub. Qed.
  Let PX : shifts 0 2 2 (fst p + fst q) (fst p' + fst q'). Proof. step shifts_add. Qed.
  Let PY : shifts 0 2 2 (snd p + snd q) (snd p' + snd q'). Proof. step shifts_add. Qed.
  Lemma plain0_moved : shifts 1 9 4 (plain0 p q) (plain0 p' q').
  Proof. unfold plain0. step (shifts_mul 0 0). Qed.
  Lemma plain1_moved : shifts 2 31 10 (plain1 p q) (plain1 p' q').
  Proof.
    assert (shifts 1 (801 / 100) 4 ((fst p + fst q) * (fst p + fst q)) ((fst p' + fst q') * (fst p' + fst q'))) by (step (shifts_mul 0 0)).
    assert (shifts 1 (201 / 100) 1 (fst p * fst q) (fst p' * fst q')) by (step (shifts_mul 0 0)).
    assert (shifts 1 (1002 / 100) 5 ((fst p + fst q) * (fst p + fst q) - fst p * fst q) ((fst p' + fst q') * (fst p' + fst q') - fst p' * fst q')) by (step shifts_sub).
    unfold plain1. step (shifts_mul 0 1).
  Qed.
  Lemma plain4_moved : shifts 3 33 8 (plain4 p q) (plain4 p' q').
  Proof.
    assert (shifts 1 (201 / 100) 1 (fst p * fst p) (fst p' * fst p')) by (step (shifts_mul 0 0)).
    assert (shifts 1 (201 / 100) 1 (fst q * fst q) (fst q' * fst q')) by (step (shifts_mul 0 0)).
    assert (shifts 1 (402 / 100) 2 (fst p * fst p + fst q * fst q) (fst p' * fst p' + fst q' * fst q')) by (step shifts_add).
    assert (shifts 2 (1210 / 100) 4 ((snd q - snd p) * (fst p * fst p + fst q * fst q)) ((snd q' - snd p') * (fst p' * fst p' + fst q' * fst q'))) by (step (shifts_mul 0 1)).
    unfold plain4. step (shifts_mul 2 0).
  Qed.
  Lemma plain3_moved : shifts 3 81 20 (plain3 p q) (plain3 p' q').
  Proof.
    assert (shifts 1 (801 / 100) 4 ((snd p + snd q) * (fst p + fst q)) ((snd p' + snd q') * (fst p' + fst q'))) by (step (shifts_mul 0 0)).
    assert (shifts 2 (2405 / 100) 8 ((snd p + snd q) * (fst p + fst q) * (fst p + fst q)) ((snd p' + snd q') * (fst p' + fst q') * (fst p' + fst q'))) by (step (shifts_mul 1 0)).
    assert (shifts 1 (2005 / 1000) 1 (snd p * fst p) (snd p' * fst p')) by (step (shifts_mul 0 0)).
    assert (shifts 1 (2005 / 1000) 1 (snd q * fst q) (snd q' * fst q')) by (step (shifts_mul 0 0)).
    assert (shifts 2 (301 / 100) 1 (snd p * fst p * fst p) (snd p' * fst p' * fst p')) by (step (shifts_mul 1 0)).
    assert (shifts 2 (301 / 100) 1 (snd q * fst q * fst q) (snd q' * fst q' * fst q')) by (step (shifts_mul 1 0)).
    assert (shifts 2 (2706 / 100) 9 ((snd p + snd q) * (fst p + fst q) * (fst p + fst q) + snd p * fst p * fst p)
      ((snd p' + snd q') * (fst p' + fst q') * (fst p' + fst q') + snd p' * fst p' * fst p')) by (step shifts_add).
    assert (shifts 2 (3007 / 100) 10 ((snd p + snd q) * (fst p + fst q) * (fst p + fst q) + snd p * fst p * fst p + snd q * fst q * fst q)
      ((snd p' + snd q') * (fst p' + fst q') * (fst p' + fst q') + snd p' * fst p' * fst p' + snd q' * fst q' * fst q')) by (step shifts_add).
    unfold plain3. step (shifts_mul 0 2).
  Qed.
End Moved.
Lemma beside_swap : forall d p p', beside d p p' -> beside d (swap p) (swap p').
Proof. intros d p p' [A B]. split; auto. Qed.

(** ** Sums of terms *)
Lemma left_sum : forall l r, M_double.sums l r -> forall l', M_double.sums (l' ++ l) (fold_left fadd l' r).
Proof.
  intros l r S l'. revert l r S. induction l' as [|y l' IH]; intros l r S; [exact S|]. cbn [fold_left].
  eapply sums_order; [|apply (IH (y :: l) (fadd r y)); unfold fadd; apply sums_fused; exact S].
  change ((y :: l') ++ l) with (y :: (l' ++ l)). apply Permutation.Permutation_sym, Permutation.Permutation_middle.
Qed.
Lemma zero_sum : forall l, l <> [] -> M_double.sums l (fold_left fadd l 0).
Proof.
  intros [|x l] N; [congruence|]. cbn [fold_left]. unfold fadd at 2. rewrite Rplus_0_l.
  eapply sums_order; [|apply left_sum, sums_term]. apply Permutation.Permutation_sym, Permutation.Permutation_cons_append.
Qed.

Section Sum.
  Variables L d : R.
  Hypothesis HL : 1 / 1000 <= L.
  Hypothesis d0 : 0 <= d.
  Hypothesis Hd : 1000 * d <= L.
  Variables (k : nat) (K B c : R) (term plain : R * R -> R * R -> R).
  Hypothesis k3 : (k <= 3)%nat.
  Hypothesis K0 : 0 <= K.
  Hypothesis B0 : 0 <= B.
  Hypothesis c0 : 0 <= c.
  Hypothesis rounds : forall p q, inside (L + d) p -> inside (L + d) q -> app ((L + d) ^ S k) K B (term p q) (plain p q).
  Hypothesis moves : forall p q p' q', inside L p -> inside L q -> beside d p p' -> beside d q q' -> shifts L d k c B (plain p q) (plain p' q').
  Let E := u * (L * L ^ k).
  Let D := L ^ k * d.
  Let U := ulp1_pos.
  Let E0 : 0 < E. Proof. apply Rmult_lt_0_compat; [apply U|]. apply Rmult_lt_0_compat; [lra|]. apply pow_lt. lra. Qed.
  Let D0 : 0 <= D. Proof. apply Rmult_le_pos; auto. apply pow_le. lra. Qed.
  Let large : powerRZ 2 (-200) <= L.
  Proof. assert (powerRZ 2 (-200) <= u) by (rewrite ulp1_bpow, <- (bpow_powerRZ radix2); apply bpow_le; lia). pose proof ulp1_small. lra. Qed.
  Let tinyE : tiny <= E.
  Proof. rewrite tiny_smallest. apply Rmult_le_compat_l; [apply Rlt_le, U|]. exact (pow_large L large (S k) ltac:(lia)). Qed.
  Let wider : (L + d) ^ S k <= 1005 / 1000 * (L * L ^ k).
  Proof.
    assert (A : (L + d) ^ S k <= (1001 / 1000 * L) ^ S k) by (apply pow_incr; lra). rewrite Rpow_mult_distr in A.
    assert (C : (1001 / 1000) ^ S k <= 1005 / 1000) by (destruct k as [|[|[|[|]]]]; [cbn; lra..|lia]).
    change (L ^ S k) with (L * L ^ k) in A. assert (0 <= L * L ^ k) by (apply Rmult_le_pos; [lra|apply pow_le; lra]).
    assert ((1001 / 1000) ^ S k * (L * L ^ k) <= 1005 / 1000 * (L * L ^ k)) by (apply Rmult_le_compat_r; auto). lra.
  Qed.
  Definition near_side (s s' : (R * R) * (R * R)) : Prop :=
    inside L (fst s) /\ inside L (snd s) /\ beside d (fst s) (fst s') /\ beside d (snd s) (snd s').
  Lemma beside_inside : forall p p', inside L p -> beside d p p' -> inside (L + d) p'.
  Proof. intros p p' [A1 A2] [C1 C2]. unfold inside. unfold Rabs in *. repeat destruct Rcase_abs; lra. Qed.
  Lemma term_near : forall s s', near_side s s' ->
    Rabs (term (fst s') (snd s') - plain (fst s) (snd s)) <= 1005 / 1000 * K * E + c * D /\ Rabs (plain (fst s) (snd s)) <= B * (L * L ^ k).
  Proof.
    intros s s' (I1 & I2 & J1 & J2). destruct (moves _ _ _ _ I1 I2 J1 J2) as [M1 M2]. split; auto.
    destruct (rounds (fst s') (snd s')) as [R1 _]; [exact (beside_inside _ _ I1 J1)|exact (beside_inside _ _ I2 J2)|].
    replace (term (fst s') (snd s') - plain (fst s) (snd s)) with ((term (fst s') (snd s') - plain (fst s') (snd s')) + (plain (fst s') (snd s') - plain (fst s) (snd s))) by ring.
    eapply Rle_trans; [apply Rabs_triang|]. apply Rplus_le_compat; auto. eapply Rle_trans; [exact R1|].
    assert (K * (u * (L + d) ^ S k) <= K * (u * (1005 / 1000 * (L * L ^ k)))).
    { apply Rmult_le_compat_l; auto. apply Rmult_le_compat_l; [apply Rlt_le, U|auto]. }
    unfold E. lra.
  Qed.
  Lemma sum_near : forall l l' w a b e, Forall2 near_side l l' -> l <> [] -> INR (length l) <= 100000000000000 -> 2 <= Rabs w ->
    2001 / 1000 * B <= a * Rabs w -> (152 / 100 * K + 2) * (1001 / 1000) + B + Rabs w <= b * Rabs w -> 1502 / 1000 * c <= e * Rabs w ->
    let n := INR (length l) in
    Rabs (fdiv (fold_left fadd (map (fun s => term (fst s) (snd s)) l') 0) w - total (map (fun s => plain (fst s) (snd s)) l) / w) <= n * ((a * n + b) * E + e * D).
  Proof.
    intros l l' w a b e F N FEW W2 HA HB HE n. pose proof term_near as TN.
    assert (LN : length l' = length l) by (clear - F; induction F; cbn; congruence).
    assert (N1 : 1 <= n) by (unfold n; destruct l as [|x l0]; [congruence|]; cbn [length]; rewrite S_INR; pose proof (pos_INR (length l0)); lra).
    set (ts := map (fun s => term (fst s) (snd s)) l'). set (ps := map (fun s => plain (fst s) (snd s)) l).
    assert (LT : length ts = length l) by (unfold ts; rewrite map_length; auto).
    assert (NT : ts <> []) by (intros Z; rewrite Z in LT; destruct l; [congruence|discriminate]).
    assert (F2 : Forall2 (fun x X => Rabs (x - X) <= 1005 / 1000 * K * E + c * D) ts ps).
    { unfold ts, ps. clear - F TN. induction F; constructor; auto. apply TN. auto. }
    assert (TA : total_abs ps <= n * (B * (L * L ^ k))).
    { unfold ps, n. clear - F TN. induction F as [|s s' l l' H F IH]; [cbn; lra|]. cbn [map total_abs length]. rewrite S_INR.
      pose proof (proj2 (TN _ _ H)). lra. }
    assert (S4 : 4 * INR (length ts) * u <= 1).
    { rewrite LT. fold n. assert (n * u <= 100000000000000 * / 9000000000000000) by (apply Rmult_le_compat; [lra|apply Rlt_le, U|auto|apply ulp1_le_9]). lra. }
    pose proof (long_sum ts ps _ _ (zero_sum ts NT) F2 S4) as LS. rewrite LT in LS. fold n in LS.
    pose proof (total_le ps) as TL. set (r := fold_left fadd ts 0) in *. set (T := total ps) in *.
    set (err := n * ((2 * B * n + 152 / 100 * K + 2) * E + 3 / 2 * (c * D))).
    assert (UT : u * total_abs ps <= n * B * E).
    { apply Rle_trans with (u * (n * (B * (L * L ^ k)))); [apply Rmult_le_compat_l; [apply Rlt_le, U|auto]|]. unfold E. lra. }
    assert (KE : 0 <= K * E) by (apply Rmult_le_pos; lra). assert (BE : 0 <= B * E) by (apply Rmult_le_pos; lra). assert (CD : 0 <= c * D) by (apply Rmult_le_pos; lra).
    assert (NBE : 0 <= n * (B * E)) by (apply Rmult_le_pos; lra).
    assert (H1 : Rabs (r - T) <= err).
    { eapply Rle_trans; [exact LS|]. unfold err. apply Rmult_le_compat_l; [lra|]. lra. }
    assert (err0 : 0 <= err) by (pose proof (Rabs_pos (r - T)); lra).
    assert (w0 : w <> 0) by (intros Z; rewrite Z, Rabs_R0 in W2; lra).
    assert (iw : 0 < / Rabs w) by (apply Rinv_0_lt_compat; lra).
    assert (H2 : Rabs (r / w - T / w) <= err * / Rabs w).
    { replace (r / w - T / w) with ((r - T) * / w) by (field; auto). rewrite Rabs_mult, Rabs_inv. apply Rmult_le_compat_r; lra. }
    assert (H3 : u * Rabs (r / w) <= (n * B * E + / 1000000000000000 * err) * / Rabs w).
    { unfold Rdiv at 1. rewrite Rabs_mult, Rabs_inv, <- Rmult_assoc. apply Rmult_le_compat_r; [lra|].
      assert (Rabs r <= total_abs ps + err). { replace r with (T + (r - T)) by ring. eapply Rle_trans; [apply Rabs_triang|]. lra. }
      assert (u * Rabs r <= u * (total_abs ps + err)) by (apply Rmult_le_compat_l; [apply Rlt_le, U|auto]).
      assert (u * err <= / 1000000000000000 * err) by (apply Rmult_le_compat_r; [auto|apply ulp1_small]). lra. }
    pose proof (fl_error (r / w)) as FE. unfold fdiv. set (q := fl (r / w)) in *.
    assert (H4 : Rabs (q - T / w) <= (n * B * E + 1000001 / 1000000 * err + E * Rabs w) * / Rabs w).
    { replace (q - T / w) with ((q - r / w) + (r / w - T / w)) by ring. eapply Rle_trans; [apply Rabs_triang|].
      replace ((n * B * E + 1000001 / 1000000 * err + E * Rabs w) * / Rabs w) with ((n * B * E + 1000001 / 1000000 * err) * / Rabs w + E) by (field; lra).
      assert (0 <= err * / Rabs w) by (apply Rmult_le_pos; lra). lra. }
    eapply Rle_trans; [exact H4|]. apply Rmult_le_reg_r with (Rabs w); [lra|]. rewrite Rmult_assoc, Rinv_l, Rmult_1_r by lra.
    replace (n * ((a * n + b) * E + e * D) * Rabs w) with (n * ((a * Rabs w * n + b * Rabs w) * E + e * Rabs w * D)) by ring.
    apply Rle_trans with (n * ((2001 / 1000 * B * n + ((152 / 100 * K + 2) * (1001 / 1000) + B + Rabs w)) * E + 1502 / 1000 * c * D)).
    - assert (EN : E * Rabs w <= n * (E * Rabs w)) by (assert (0 <= E * Rabs w) by (apply Rmult_le_pos; lra); assert (1 * (E * Rabs w) <= n * (E * Rabs w)) by (apply Rmult_le_compat_r; auto); lra).
      apply Rle_trans with (n * (B * E + 1000001 / 1000000 * ((2 * B * n + 152 / 100 * K + 2) * E + 3 / 2 * (c * D)) + E * Rabs w)); [unfold err; lra|].
      apply Rmult_le_compat_l; [lra|]. lra.
    - apply Rmult_le_compat_l; [lra|]. apply Rplus_le_compat; [|apply Rmult_le_compat_r; auto].
      apply Rmult_le_compat_r; [lra|]. apply Rplus_le_compat; auto. apply Rmult_le_compat_r; lra.
  Qed.
End Sum.

Section Sums.
  Variables L d : R.
  Hypothesis HL : 1 / 1000 <= L.
  Hypothesis d0 : 0 <= d.
  Hypothesis Hd : 1000 * d <= L.
  Variables l l' : list ((R * R) * (R * R)).
  Hypothesis F : Forall2 (near_side L d) l l'.
  Hypothesis N : l <> [].
  Hypothesis FEW : INR (length l) <= 100000000000000.
  Let n := INR (length l).
  Let L0 : 0 < L. Proof. lra. Qed.
  Let large : powerRZ 2 (-200) <= L + d.
  Proof. assert (powerRZ 2 (-200) <= u) by (rewrite ulp1_bpow, <- (bpow_powerRZ radix2); apply bpow_le; lia). pose proof ulp1_small. lra. Qed.
  Let added (t : R * R -> R * R -> R) : R := fold_left fadd (map (fun s => t (fst s) (snd s)) l') 0.
  Let whole (t : R * R -> R * R -> R) : R := total (map (fun s => t (fst s) (snd s)) l).
  Ltac size := rewrite ?Rabs_Ropp, ?(Rabs_pos_eq _) by lra; lra.
  Lemma added0 : Rabs (fdiv (added term0) 2 - whole plain0 / 2) <= n * ((5 * n + 22) * (u * L ^ 2) + 7 * (L * d)).
  Proof.
    pose proof (sum_near L d HL d0 Hd 1 23 4 9 term0 plain0 ltac:(lia) ltac:(lra) ltac:(lra) ltac:(lra) (fun p q P Q => term0_app (L + d) large p q P Q)
      (fun p q p' q' P Q P' Q' => plain0_moved L d L0 d0 Hd p q p' q' P Q P' Q') l l' 2 5 22 7 F N FEW) as H. rewrite (Rabs_pos_eq 2) in H by lra.
    eapply Rle_trans; [apply H; lra|]. fold n. apply Req_le. ring.
  Qed.
  Lemma added1 : Rabs (fdiv (added term1) 6 - whole plain1 / 6) <= n * ((4 * n + 29) * (u * L ^ 3) + 8 * (L ^ 2 * d)).
  Proof.
    pose proof (sum_near L d HL d0 Hd 2 101 10 31 term1 plain1 ltac:(lia) ltac:(lra) ltac:(lra) ltac:(lra) (fun p q P Q => term1_app (L + d) large p q P Q)
      (fun p q p' q' P Q P' Q' => plain1_moved L d L0 d0 Hd p q p' q' P Q P' Q') l l' 6 4 29 8 F N FEW) as H. rewrite (Rabs_pos_eq 6) in H by lra.
    eapply Rle_trans; [apply H; lra|]. fold n. apply Req_le. ring.
  Qed.
  Lemma added2 : Rabs (fdiv (added term2) (-6) - whole (fun p q => plain1 (swap p) (swap q)) / -6) <= n * ((4 * n + 29) * (u * L ^ 3) + 8 * (L ^ 2 * d)).
  Proof.
    pose proof (sum_near L d HL d0 Hd 2 101 10 31 term2 (fun p q => plain1 (swap p) (swap q)) ltac:(lia) ltac:(lra) ltac:(lra) ltac:(lra)) as H.
    assert (A6 : Rabs (-6) = 6) by (rewrite Rabs_left; lra).
    eapply Rle_trans; [apply (H) with (a := 4) (b := 29) (e := 8); rewrite ?A6; auto; try lra|fold n; apply Req_le; ring].
    - intros p q P Q. rewrite term2_swap. apply term1_app; auto using inside_swap.
    - intros p q p' q' P Q P' Q'. apply plain1_moved; auto using inside_swap, beside_swap.
  Qed.
  Lemma added3 : Rabs (fdiv (added term3) 24 - whole plain3 / 24) <= n * ((2 * n + 21) * (u * L ^ 4) + 6 * (L ^ 3 * d)).
  Proof.
    pose proof (sum_near L d HL d0 Hd 3 287 20 81 term3 plain3 ltac:(lia) ltac:(lra) ltac:(lra) ltac:(lra) (fun p q P Q => term3_app (L + d) large p q P Q)
      (fun p q p' q' P Q P' Q' => plain3_moved L d L0 d0 Hd p q p' q' P Q P' Q') l l' 24 2 21 6 F N FEW) as H. rewrite (Rabs_pos_eq 24) in H by lra.
    eapply Rle_trans; [apply H; lra|]. fold n. apply Req_le. ring.
  Qed.
  Lemma added4 : Rabs (fdiv (added term4) 12 - whole plain4 / 12) <= n * ((2 * n + 16) * (u * L ^ 4) + 5 * (L ^ 3 * d)).
  Proof.
    pose proof (sum_near L d HL d0 Hd 3 105 8 33 term4 plain4 ltac:(lia) ltac:(lra) ltac:(lra) ltac:(lra) (fun p q P Q => term4_app (L + d) large p q P Q)
      (fun p q p' q' P Q P' Q' => plain4_moved L d L0 d0 Hd p q p' q' P Q P' Q') l l' 12 2 16 5 F N FEW) as H. rewrite (Rabs_pos_eq 12) in H by lra.
    eapply Rle_trans; [apply H; lra|]. fold n. apply Req_le. ring.
  Qed.
  Lemma added5 : Rabs (fdiv (added term5) (-12) - whole (fun p q => plain4 (swap p) (swap q)) / -12) <= n * ((2 * n + 16) * (u * L ^ 4) + 5 * (L ^ 3 * d)).
  Proof.
    pose proof (sum_near L d HL d0 Hd 3 105 8 33 term5 (fun p q => plain4 (swap p) (swap q)) ltac:(lia) ltac:(lra) ltac:(lra) ltac:(lra)) as H.
    assert (A6 : Rabs (-12) = 12) by (rewrite Rabs_left; lra).
    eapply Rle_trans; [apply (H) with (a := 2) (b := 16) (e := 5); rewrite ?A6; auto; try lra|fold n; apply Req_le; ring].
    - intros p q P Q. rewrite term5_swap. apply term4_app; auto using inside_swap.
    - intros p q p' q' P Q P' Q'. apply plain4_moved; auto using inside_swap, beside_swap.
  Qed.
End Sums.
