(** Proofs about the text of numbers. *)
From Coq Require Import Ascii String List Arith NArith ZArith QArith Qabs Qpower Bool Lia Lqa.
From Verif Require Import M_base M_merge M_mesh M_text M_mmio S_text.
Import ListNotations.
Local Open Scope N_scope.

(** ** Digits *)
Lemma digit_value : forall d, d < 10 -> N_of_ascii (digit d) - 48 = d /\ is_digit (digit d) = true /\ is_space (digit d) = false /\ Ascii.eqb (digit d) newline = false.
Proof.
  intros d H. assert (C : d = 0 \/ d = 1 \/ d = 2 \/ d = 3 \/ d = 4 \/ d = 5 \/ d = 6 \/ d = 7 \/ d = 8 \/ d = 9) by lia.
  repeat destruct C as [->|C]; try subst d; repeat split; reflexivity.
Qed.
Lemma value_fold : forall l acc, fold_left (fun acc c => 10 * acc + (N_of_ascii c - 48)) l acc = acc * 10 ^ N.of_nat (length l) + digits_value l.
Proof.
  induction l as [|c l IH]; intros acc; [unfold digits_value; cbn; lia|].
  cbn [length fold_left]. unfold digits_value. cbn [fold_left]. rewrite (IH (10 * acc + _)), (IH (10 * 0 + _)).
  rewrite Nnat.Nat2N.inj_succ, N.pow_succ_r'. lia.
Qed.
Lemma value_app : forall a b, digits_value (a ++ b) = digits_value a * 10 ^ N.of_nat (length b) + digits_value b.
Proof. intros. unfold digits_value at 1. rewrite fold_left_app. apply value_fold. Qed.

Lemma fixed_length : forall k n, length (fixed k n) = k.
Proof. induction k as [|k IH]; intros n; cbn; auto. rewrite app_length, IH. cbn. lia. Qed.
Lemma fixed_value : forall k n, digits_value (fixed k n) = n mod 10 ^ N.of_nat k.
Proof.
  induction k as [|k IH]; intros n; [cbn; rewrite N.mod_1_r; auto|].
  cbn [fixed]. rewrite value_app, IH. cbn [length]. unfold digits_value. cbn [fold_left].
  rewrite (proj1 (digit_value (n mod 10) (N.mod_lt n 10 ltac:(lia)))). change (10 ^ N.of_nat 1) with 10. rewrite Nnat.Nat2N.inj_succ, N.pow_succ_r'.
  rewrite N.mod_mul_r by (try apply N.pow_nonzero; lia). lia.
Qed.
Definition all_digits (t : text) : Prop := Forall (fun c => is_digit c = true) t.
Lemma fixed_digits_chars : forall k n, all_digits (fixed k n).
Proof.
  induction k as [|k IH]; intros n; cbn; [constructor|]. apply Forall_app. split; [apply IH|].
  constructor; [|constructor]. apply digit_value, N.mod_lt. lia.
Qed.

Lemma ndigits_spec : forall fuel n, (N.size_nat n <= fuel)%nat -> n < 10 ^ N.of_nat (ndigits_with fuel n) /\
  (n <> 0 -> 10 ^ N.of_nat (ndigits_with fuel n - 1) <= n) /\ (1 <= ndigits_with fuel n)%nat.
Proof.
  induction fuel as [|fuel IH]; intros n F.
  - destruct n; [|destruct p; cbn in F; lia]. cbn. repeat split; lia.
  - cbn [ndigits_with]. destruct (N.ltb_spec n 10) as [L|L].
    + split; [cbn; lia|]. split; [cbn; lia|lia].
    + assert (SZ : (N.size_nat (n / 10) <= fuel)%nat).
      { assert (n / 10 <= n / 2). { apply N.div_le_compat_l. lia. }
        assert (H1 : forall a b, a <= b -> (N.size_nat a <= N.size_nat b)%nat).
        { intros a b AB. destruct (N.eq_dec a 0) as [->|A0]; [cbn; lia|].
          rewrite <- (Nnat.Nat2N.id (N.size_nat a)), <- (Nnat.Nat2N.id (N.size_nat b)).
          assert (HS : forall x, N.of_nat (N.size_nat x) = N.size x). { destruct x as [|p]; auto. cbn. induction p; cbn [Pos.size_nat Pos.size]; try rewrite Nnat.Nat2N.inj_succ, IHp; auto; rewrite N.succ_pos_spec in *; auto. }
          rewrite !HS. rewrite N.size_log2 by auto. rewrite N.size_log2 by lia. assert (N.log2 a <= N.log2 b) by (apply N.log2_le_mono; auto). lia. }
        assert (H2 : (S (N.size_nat (n / 2)) <= N.size_nat n)%nat).
        { destruct n as [|p]; [lia|]. rewrite <- N.div2_div. destruct p as [p|p|]; cbn; lia. }
        specialize (H1 _ _ H). lia. }
      destruct (IH (n / 10) SZ) as (A & B & C). set (k := ndigits_with fuel (n / 10)) in *. split; [|split; [|lia]].
      * rewrite Nnat.Nat2N.inj_succ, N.pow_succ_r'. pose proof (N.div_mod n 10 ltac:(lia)). pose proof (N.mod_lt n 10 ltac:(lia)). nia.
      * intros _. assert (D0 : n / 10 <> 0) by (intros Z; apply N.div_small_iff in Z; lia). specialize (B D0).
        replace (S k - 1)%nat with (S (k - 1)) by lia. rewrite Nnat.Nat2N.inj_succ, N.pow_succ_r'.
        apply N.le_trans with (10 * (n / 10)); [apply N.mul_le_mono_l; auto|apply N.mul_div_le; lia].
Qed.
Lemma digits_value_digits : forall n, digits_value (digits n) = n.
Proof. intros n. unfold digits. rewrite fixed_value. apply N.mod_small. apply ndigits_spec. apply le_n. Qed.
Lemma digits_chars : forall n, all_digits (digits n). Proof. intros. apply fixed_digits_chars. Qed.
Lemma digits_nonempty : forall n, digits n <> [].
Proof. intros n H. pose proof (f_equal (@length ascii) H) as L. unfold digits in L. rewrite fixed_length in L. pose proof (ndigits_spec _ n (le_n _)). unfold ndigits in L. cbn in L. lia. Qed.
Lemma digits_length : forall n k, (1 <= k)%nat -> (length (digits n) <= k)%nat <-> n < 10 ^ N.of_nat k.
Proof.
  intros n k K. unfold digits. rewrite fixed_length. pose proof (ndigits_spec _ n (le_n _)) as (A & B & C). fold (ndigits n) in *. split; intros H.
  - eapply N.lt_le_trans; [exact A|]. apply N.pow_le_mono_r; lia.
  - destruct (N.eq_dec n 0) as [->|N0]; [cbn; lia|]. specialize (B N0).
    destruct (le_lt_dec (ndigits n) k) as [L|L]; auto. exfalso.
    assert (10 ^ N.of_nat k <= 10 ^ N.of_nat (ndigits n - 1)) by (apply N.pow_le_mono_r; lia). lia.
Qed.

Lemma span_all : forall d r, all_digits d -> (forall c r', r = c :: r' -> is_digit c = false) -> span_digits (d ++ r) = (d, r).
Proof.
  induction d as [|c d IH]; intros r A H; cbn.
  - destruct r as [|c r]; auto. cbn. rewrite (H c r eq_refl). auto.
  - inversion A as [|? ? A1 A2]; subst. rewrite A1, IH; auto.
Qed.
Lemma span_end : forall d, all_digits d -> span_digits d = (d, []).
Proof. intros d A. rewrite <- (app_nil_r d) at 1. apply span_all; auto. discriminate. Qed.

Lemma read_sign_digits : forall t, all_digits t -> read_sign t = (false, t).
Proof.
  intros t A. destruct t as [|c t]; auto. inversion A as [|? ? D _]; subst.
  unfold read_sign. destruct c as [[] [] [] [] [] [] [] []]; auto; vm_compute in D; discriminate.
Qed.
Lemma read_sign_sign : forall b t r, t <> [] -> all_digits t -> read_sign (sign b ++ t ++ r) = (b, t ++ r).
Proof.
  intros b t r N A. destruct b; [reflexivity|]. destruct t as [|c t]; [congruence|]. inversion A as [|? ? D _]; subst. cbn [sign app].
  unfold read_sign. destruct c as [[] [] [] [] [] [] [] []]; auto; vm_compute in D; discriminate.
Qed.
Lemma to_int_digits : forall n, to_int (digits n) = Ok (Z.of_N n).
Proof.
  intros n. unfold to_int. rewrite read_sign_digits by apply digits_chars. rewrite span_end by apply digits_chars.
  destruct (digits n) as [|c d] eqn:E; [destruct (digits_nonempty n E)|]. cbv zeta. rewrite <- (digits_value_digits n), E. reflexivity.
Qed.

(** ** Rounding *)
Lemma nearest_cases : forall a b q r, a = q * Npos b + r -> r < Npos b ->
  nearest a b = match 2 * r ?= Npos b with Lt => q | Gt => q + 1 | Eq => if N.even q then q else q + 1 end.
Proof.
  intros a b q r E L. unfold nearest.
  assert (D : a / N.pos b = q) by (symmetry; apply N.div_unique with r; lia). assert (M : a mod N.pos b = r) by (symmetry; apply N.mod_unique with q; lia).
  rewrite D, M. auto.
Qed.
(** The same, with integers only *)
Definition nearest_z (a b m : N) : Prop :=
  (2 * Z.abs (Z.of_N a - Z.of_N m * Z.of_N b) <= Z.of_N b)%Z /\ (2 * Z.abs (Z.of_N a - Z.of_N m * Z.of_N b) = Z.of_N b -> N.even m = true)%Z.
Lemma nearest_z_ok : forall a b, nearest_z a (Npos b) (nearest a b).
Proof.
  intros a b. pose proof (N.div_mod a (Npos b) ltac:(lia)) as E. pose proof (N.mod_lt a (Npos b) ltac:(lia)) as L.
  set (q := a / N.pos b) in *. set (r := a mod N.pos b) in *. clearbody q r. rewrite (nearest_cases a b q r) by lia. unfold nearest_z.
  rewrite E. destruct (N.compare_spec (2 * r) (Npos b)) as [C|C|C].
  - destruct (N.even q) eqn:Q.
    + split; [|auto]. nia.
    + split; [nia|]. intros _. rewrite N.add_1_r, N.even_succ, <- N.negb_even, Q. auto.
  - split; [nia|]. intros; exfalso; nia.
  - split; [nia|]. intros; exfalso; nia.
Qed.
Lemma nearest_z_unique : forall a b m m', 0 < b -> nearest_z a b m -> nearest_z a b m' -> m = m'.
Proof.
  assert (W : forall a b m m', 0 < b -> nearest_z a b m -> nearest_z a b m' -> ~ m < m').
  { intros a b m m' B (A1 & E1) (A2 & E2) L. assert (M : m' = m + 1) by nia. subst m'.
    assert (H1 : (2 * Z.abs (Z.of_N a - Z.of_N m * Z.of_N b) = Z.of_N b)%Z) by nia.
    assert (H2 : (2 * Z.abs (Z.of_N a - Z.of_N (m + 1) * Z.of_N b) = Z.of_N b)%Z) by nia.
    specialize (E1 H1). specialize (E2 H2). rewrite N.add_1_r, N.even_succ, <- N.negb_even, E1 in E2. discriminate. }
  intros a b m m' B H H'. destruct (N.lt_trichotomy m m') as [L|[E|L]]; auto; exfalso; [exact (W a b m m' B H H' L)|exact (W a b m' m B H' H L)].
Qed.
Lemma nearest_to_z : forall a b m q, q == (Z.of_N a # b)%Q -> (nearest_to q m <-> nearest_z a (Npos b) m).
Proof.
  intros a b m q E. unfold nearest_to, nearest_z.
  assert (X : (Qabs (q - of_N m) == Z.abs (Z.of_N a - Z.of_N m * Z.of_N (Npos b)) # b)%Q).
  { rewrite E. unfold of_N, inject_Z, Qminus, Qplus, Qopp, Qabs, Qeq. cbn [Qnum Qden]. rewrite Pos.mul_1_r. cbn. f_equal. lia. }
  split; intros [H1 H2]; split.
  - rewrite X in H1. unfold Qle in H1. cbn in H1. lia.
  - intros K. apply H2. rewrite X. unfold Qeq. cbn. lia.
  - rewrite X. unfold Qle. cbn. lia.
  - intros K. apply H2. rewrite X in K. unfold Qeq in K. cbn in K. lia.
Qed.
Lemma nearest_to_ok : forall a b q, q == (Z.of_N a # b)%Q -> nearest_to q (nearest a b).
Proof. intros a b q E. apply (nearest_to_z a b _ q E), nearest_z_ok. Qed.
Lemma nearest_to_unique : forall q m m', (0 <= q)%Q -> nearest_to q m -> nearest_to q m' -> m = m'.
Proof.
  intros q m m' P H H'. assert (E : (q == Z.of_N (Z.to_N (Qnum q)) # Qden q)%Q).
  { unfold Qle in P. cbn in P. rewrite Z2N.id by lia. destruct q; cbn. reflexivity. }
  apply (nearest_to_z _ _ _ _ E) in H. apply (nearest_to_z _ _ _ _ E) in H'. eapply nearest_z_unique; eauto. lia.
Qed.
Lemma magnitude_nonneg : forall x, (0 <= magnitude x)%Q.
Proof. intros x. unfold magnitude, Qle. cbn. lia. Qed.
Lemma ten_pow : forall k : nat, (10 ^ Z.of_nat k == of_N (10 ^ N.of_nat k))%Q.
Proof.
  intros k. unfold of_N. rewrite N2Z.inj_pow, nat_N_Z, Zpower_Qpower by lia. reflexivity.
Qed.
Lemma fixed_digits_ok : forall k x, fixed_digits k x (nearest (top x * 10 ^ N.of_nat k) (bot x)).
Proof.
  intros k x. apply nearest_to_ok. unfold magnitude. rewrite ten_pow. unfold of_N, inject_Z, Qmult, Qeq. cbn [Qnum Qden]. rewrite Pos.mul_1_r, N2Z.inj_mul. auto.
Qed.
Lemma fixed_digits_unique : forall k x m, fixed_digits k x m -> m = nearest (top x * 10 ^ N.of_nat k) (bot x).
Proof.
  intros k x m H. eapply nearest_to_unique; [|exact H|apply fixed_digits_ok].
  apply Qmult_le_0_compat; [apply magnitude_nonneg|]. apply Qpower_pos. discriminate.
Qed.

(** ** Powers of ten *)
Lemma ten_pos : forall e, (0 < 10 ^ e)%Q.
Proof. intros e. apply Qpower_0_lt. reflexivity. Qed.
Lemma ten_add : forall a b, (10 ^ (a + b) == 10 ^ a * 10 ^ b)%Q.
Proof. intros. apply Qpower_plus. discriminate. Qed.
Lemma ten_N : forall e, (0 <= e)%Z -> (10 ^ e == of_N (10 ^ Z.to_N e))%Q.
Proof. intros e H. rewrite <- (Z2Nat.id e H) at 1. rewrite ten_pow. unfold of_N. replace (N.of_nat (Z.to_nat e)) with (Z.to_N e); [reflexivity|]. rewrite <- Z_nat_N. auto. Qed.
Lemma ratio : forall a b, (Z.of_N a # b == of_N a / of_N (Npos b))%Q.
Proof. intros. unfold of_N. rewrite (Qmake_Qdiv (Z.of_N a) b). reflexivity. Qed.
Lemma of_N_pos : forall b, (0 < of_N (Npos b))%Q. Proof. intros. unfold of_N, inject_Z, Qlt. cbn. lia. Qed.
Lemma le_ratio : forall x a b, (x <= Z.of_N a # b <-> x * of_N (Npos b) <= of_N a)%Q.
Proof.
  intros x a b. rewrite ratio. pose proof (of_N_pos b) as P. split; intros H.
  - apply (Qmult_le_compat_r _ _ (of_N (Npos b))) in H; [|apply Qlt_le_weak; auto]. unfold Qdiv in H. rewrite <- Qmult_assoc, (Qmult_comm (/ _)), Qmult_inv_r, Qmult_1_r in H; auto. intros E. rewrite E in P. discriminate P.
  - apply Qle_shift_div_l; auto.
Qed.
Lemma lt_ratio : forall x a b, (Z.of_N a # b < x <-> of_N a < x * of_N (Npos b))%Q.
Proof.
  intros x a b. split; intros H.
  - apply Qnot_le_lt. intros K. apply le_ratio in K. apply (Qlt_not_le _ _ H K).
  - apply Qnot_le_lt. intros K. apply le_ratio in K. apply (Qlt_not_le _ _ H K).
Qed.
Lemma of_N_le : forall a b, (of_N a <= of_N b)%Q <-> a <= b. Proof. intros. unfold of_N. rewrite <- Zle_Qle. lia. Qed.
Lemma of_N_lt : forall a b, (of_N a < of_N b)%Q <-> a < b. Proof. intros. unfold of_N. rewrite <- Zlt_Qlt. lia. Qed.
Lemma of_N_mul : forall a b, (of_N (a * b) == of_N a * of_N b)%Q. Proof. intros. unfold of_N. rewrite N2Z.inj_mul, inject_Z_mult. reflexivity. Qed.
Lemma pow10_le_spec : forall e a b, pow10_le e a b = true <-> (10 ^ e <= Z.of_N a # b)%Q.
Proof.
  intros e a b. unfold pow10_le. destruct (Z.leb_spec 0 e) as [P|P]; rewrite N.leb_le.
  - rewrite le_ratio, ten_N by auto. rewrite <- of_N_mul, of_N_le. reflexivity.
  - rewrite le_ratio. rewrite <- of_N_le, of_N_mul, <- (ten_N (- e)) by lia. pose proof (ten_pos (- e)) as T.
    assert (I : (10 ^ e * 10 ^ (- e) == 1)%Q) by (rewrite <- ten_add, Z.add_opp_diag_r; reflexivity). split; intros H.
    + apply (Qmult_le_r _ _ _ T). rewrite (Qmult_comm (10 ^ e) (of_N (N.pos b))), <- Qmult_assoc, I, Qmult_1_r. auto.
    + apply (Qmult_le_r _ _ _ T) in H. rewrite (Qmult_comm (10 ^ e) (of_N (N.pos b))), <- Qmult_assoc, I, Qmult_1_r in H. auto.
Qed.
Lemma ndigits_bounds : forall n, n <> 0 -> (10 ^ (Z.of_nat (ndigits n) - 1) <= of_N n)%Q /\ (of_N n < 10 ^ Z.of_nat (ndigits n))%Q.
Proof.
  intros n N0. destruct (ndigits_spec _ n (le_n _)) as (A & B & C). fold (ndigits n) in *. specialize (B N0). split.
  - replace (Z.of_nat (ndigits n) - 1)%Z with (Z.of_nat (ndigits n - 1)) by lia. rewrite ten_pow. apply of_N_le; auto.
  - rewrite ten_pow. apply of_N_lt; auto.
Qed.
Lemma exponent_spec : forall a b, a <> 0 -> (10 ^ exponent a b <= Z.of_N a # b < 10 ^ (exponent a b + 1))%Q.
Proof.
  intros a b A0. unfold exponent. destruct (ndigits_bounds a A0) as [A1 A2]. destruct (ndigits_bounds (Npos b) ltac:(discriminate)) as [B1 B2].
  set (da := Z.of_nat (ndigits a)) in *. set (db := Z.of_nat (ndigits (N.pos b))) in *. cbv zeta.
  destruct (pow10_le (da - db) a b) eqn:E.
  - split; [apply pow10_le_spec; auto|]. apply lt_ratio. eapply Qlt_le_trans; [exact A2|].
    replace da with ((da - db + 1) + (db - 1))%Z at 1 by lia. rewrite ten_add, !(Qmult_comm (10 ^ (da - db + 1))). apply Qmult_le_compat_r; auto. apply Qlt_le_weak, ten_pos.
  - assert (E' : ~ (10 ^ (da - db) <= Z.of_N a # b)%Q) by (rewrite <- pow10_le_spec; congruence). apply Qnot_le_lt in E'.
    split; [|replace (da - db - 1 + 1)%Z with (da - db)%Z by lia; auto]. apply le_ratio. eapply Qle_trans; [|exact A1].
    replace (da - 1)%Z with ((da - db - 1) + db)%Z by lia. rewrite ten_add, !(Qmult_comm (10 ^ (da - db - 1))). apply Qmult_le_compat_r; [apply Qlt_le_weak; auto|]. apply Qlt_le_weak, ten_pos.
Qed.
Lemma ten_exponent_unique : forall q e e', (10 ^ e <= q < 10 ^ (e + 1))%Q -> (10 ^ e' <= q < 10 ^ (e' + 1))%Q -> e = e'.
Proof.
  assert (W : forall q e e', (10 ^ e <= q < 10 ^ (e + 1))%Q -> (10 ^ e' <= q < 10 ^ (e' + 1))%Q -> (~ e < e')%Z).
  { intros q e e' [_ A] [B _] L. assert (X : (10 ^ (e + 1) <= 10 ^ e')%Q) by (apply Qpower_le_compat_l; [lia|discriminate]).
    apply (Qlt_not_le _ _ A). eapply Qle_trans; eauto. }
  intros q e e' H H'. destruct (Z.lt_trichotomy e e') as [L|[E|L]]; auto; exfalso; [exact (W q e e' H H' L)|exact (W q e' e H' H L)].
Qed.
Lemma mantissa_spec : forall k e a b, nearest_to ((Z.of_N a # b) * 10 ^ (Z.of_nat k - e)) (mantissa k e a b).
Proof.
  intros k e a b. unfold mantissa. destruct (Z.leb_spec e (Z.of_nat k)) as [L|L].
  - apply nearest_to_ok. rewrite ten_N by lia. unfold of_N, inject_Z, Qmult, Qeq. cbn [Qnum Qden]. rewrite Pos.mul_1_r, N2Z.inj_mul. auto.
  - apply nearest_to_ok. set (p := Z.to_pos (e - Z.of_nat k)). replace (Z.of_nat k - e)%Z with (- Z.pos p)%Z by (unfold p; rewrite Z2Pos.id; lia).
    rewrite Qpower_opp. change (10 ^ Z.pos p)%Q with (Qpower_positive 10 p). rewrite (ratio a b), (ratio a (b * 10 ^ p)).
    assert (X : (Qpower_positive 10 p == of_N (Npos (10 ^ p)))%Q).
    { change (Qpower_positive 10 p) with (10 ^ Z.pos p)%Q. rewrite ten_N by lia. reflexivity. }
    change (N.pos (b * 10 ^ p)) with (N.pos b * N.pos (10 ^ p))%N. rewrite of_N_mul, X.
    pose proof (of_N_pos b) as P1. pose proof (of_N_pos (10 ^ p)) as P2. field. split; intros Z; [rewrite Z in P2; discriminate P2|rewrite Z in P1; discriminate P1].
Qed.

(** ** Reading numbers back *)
Section Read.
  Variable dbl : N -> Z -> N * positive.
  Lemma number_value : forall k m, digits_value (digits (m / 10 ^ N.of_nat k) ++ fixed k m) = m.
  Proof.
    intros k m. rewrite value_app, fixed_length, digits_value_digits, fixed_value. rewrite N.mul_comm. symmetry. apply N.div_mod. apply N.pow_nonzero. lia.
  Qed.
  Lemma to_float_shape : forall b k m r e, read_exponent r = Ok e -> (forall c r', r = c :: r' -> is_digit c = false) ->
    to_float dbl (sign b ++ digits (m / 10 ^ N.of_nat k) ++ "."%char :: fixed k m ++ r) = Ok (read_as dbl b m (e - Z.of_nat k)).
  Proof.
    intros b k m r e E H. unfold to_float. rewrite read_sign_sign; [|apply digits_nonempty|apply digits_chars].
    rewrite span_all; [|apply digits_chars|intros c r' X; injection X as <- _; reflexivity].
    rewrite span_all; [|apply fixed_digits_chars|auto].
    pose proof (number_value k m) as V. destruct (digits (m / 10 ^ N.of_nat k)) as [|c d] eqn:D; [destruct (digits_nonempty _ D)|].
    cbn [app]. cbn [app] in V. rewrite V, E, fixed_length. cbn [bind]. unfold read_as. destruct (dbl m (e - Z.of_nat k)). auto.
  Qed.
  Lemma to_float_fixed : forall k x, to_float dbl (fixed_point k x) = Ok (read_as dbl (neg x) (nearest (top x * 10 ^ N.of_nat k) (bot x)) (- Z.of_nat k)).
  Proof.
    intros k x. unfold fixed_point. cbv zeta. set (m := nearest _ _). replace (fixed k m) with (fixed k m ++ []) by apply app_nil_r.
    rewrite (to_float_shape (neg x) k m [] 0%Z); auto. discriminate.
  Qed.
  Definition sci_pair (k : nat) (x : num) : N * Z :=
    if top x =? 0 then (0, 0%Z) else
    let e := exponent (top x) (bot x) in
    let m := mantissa k e (top x) (bot x) in
    if m =? 10 ^ N.of_nat (S k) then (10 ^ N.of_nat k, (e + 1)%Z) else (m, e).
  Definition exponent_digits (a : N) : text := if a <? 10 then fixed 2 a else digits a.
  Lemma exponent_digits_ok : forall a, all_digits (exponent_digits a) /\ exponent_digits a <> [] /\ digits_value (exponent_digits a) = a.
  Proof.
    intros a. unfold exponent_digits. destruct (N.ltb_spec a 10) as [L|L].
    - split; [apply fixed_digits_chars|]. split; [discriminate|]. rewrite fixed_value. apply N.mod_small. cbn. lia.
    - split; [apply digits_chars|]. split; [apply digits_nonempty|apply digits_value_digits].
  Qed.
  Lemma to_float_scientific : forall c k x, c = "E"%char \/ c = "e"%char ->
    to_float dbl (scientific c k x) = Ok (read_as dbl (neg x) (fst (sci_pair k x)) (snd (sci_pair k x) - Z.of_nat k)).
  Proof.
    intros c k x C. unfold scientific. fold (sci_pair k x). destruct (sci_pair k x) as [m e]. cbn [fst snd]. cbv zeta.
    destruct (exponent_digits_ok (Z.abs_N e)) as (A1 & A2 & A3). unfold exponent_digits in A1, A2, A3.
    set (ed := if Z.abs_N e <? 10 then _ else _) in *. change (all_digits ed) in A1. change (ed <> []) in A2. change (digits_value ed = Z.abs_N e) in A3. clearbody ed.
    apply to_float_shape; [|intros c0 r' X; injection X as <- _; destruct C as [->| ->]; reflexivity].
    unfold read_exponent. replace ((c =? "e")%char || (c =? "E")%char)%bool with true by (destruct C as [->| ->]; reflexivity).
    unfold to_int. destruct (Z.ltb_spec e 0) as [L|L].
    - cbn [read_sign]. rewrite span_end by auto. destruct ed as [|c0 d]; [congruence|]. cbv zeta. rewrite A3. f_equal. lia.
    - cbn [read_sign]. rewrite span_end by auto. destruct ed as [|c0 d]; [congruence|]. cbv zeta. rewrite A3. f_equal. lia.
  Qed.
  Lemma sci_pair_ok : forall k x, sci_digits k x (fst (sci_pair k x)) (snd (sci_pair k x)).
  Proof.
    intros k x. unfold sci_pair. destruct (N.eqb_spec (top x) 0) as [Z|Z].
    - left. unfold magnitude. rewrite Z. split; [reflexivity|auto].
    - right. exists (exponent (top x) (bot x)), (mantissa k (exponent (top x) (bot x)) (top x) (bot x)).
      split; [apply exponent_spec; auto|]. split; [apply mantissa_spec|]. cbv zeta.
      destruct (N.eqb_spec (mantissa k (exponent (top x) (bot x)) (top x) (bot x)) (10 ^ N.of_nat (S k))) as [E|E]; cbn [fst snd]; auto.
  Qed.
  Lemma sci_digits_unique : forall k x m e, sci_digits k x m e -> m = fst (sci_pair k x) /\ e = snd (sci_pair k x).
  Proof.
    intros k x m e H. pose proof (sci_pair_ok k x) as K. destruct (sci_pair k x) as [m' e']. cbn [fst snd] in *.
    assert (P : forall j, (0 < 10 ^ j)%Q) by apply ten_pos.
    destruct H as [(H0 & -> & ->)|(e0 & m0 & [B1 B2] & N0 & H)], K as [(K0 & -> & ->)|(e1 & m1 & [C1 C2] & N1 & K)]; auto.
    - exfalso. specialize (P e1). rewrite H0 in C1. apply (Qlt_not_le _ _ P C1).
    - exfalso. specialize (P e0). rewrite K0 in B1. apply (Qlt_not_le _ _ P B1).
    - assert (E : e0 = e1) by (eapply ten_exponent_unique; split; eauto). subst e1.
      assert (E : m0 = m1). { eapply nearest_to_unique; [|exact N0|exact N1]. apply Qmult_le_0_compat; [apply magnitude_nonneg|]. apply Qlt_le_weak, P. }
      subst m1. destruct H as [(? & ? & ?)|(? & ? & ?)], K as [(? & ? & ?)|(? & ? & ?)]; subst; auto; contradiction.
  Qed.
End Read.

(** ** Words and lines *)
Definition spaces (t : text) : Prop := Forall (fun c => is_space c = true) t.
Definition word (t : text) : Prop := t <> [] /\ Forall (fun c => is_space c = false) t.
Definition nonl (t : text) : Prop := Forall (fun c => Ascii.eqb c newline = false) t.
Lemma digit_not_space : forall c, is_digit c = true -> is_space c = false.
Proof. intros c H. destruct c as [[] [] [] [] [] [] [] []]; vm_compute in *; congruence. Qed.
Lemma not_space_nonl : forall t, Forall (fun c => is_space c = false) t -> nonl t.
Proof.
  intros t H. eapply Forall_impl; [|exact H]. intros c C. cbv beta in *. destruct (Ascii.eqb_spec c newline) as [->|]; auto; vm_compute in C; congruence.
Qed.
Lemma digits_not_space : forall t, all_digits t -> Forall (fun c => is_space c = false) t.
Proof. intros t H. eapply Forall_impl; [|exact H]. intros. apply digit_not_space; auto. Qed.
Lemma digits_word : forall n, word (digits n).
Proof. intros n. split; [apply digits_nonempty|apply digits_not_space, digits_chars]. Qed.
Lemma fixed_word : forall k x, word (fixed_point k x).
Proof.
  intros k x. unfold fixed_point. cbv zeta. set (m := nearest _ _). split; [destruct (neg x); [discriminate|]; cbn; destruct (digits _) eqn:E; discriminate|].
  apply Forall_app. split; [destruct (neg x); repeat constructor|]. apply Forall_app. split; [apply digits_not_space, digits_chars|].
  constructor; [reflexivity|]. apply digits_not_space, fixed_digits_chars.
Qed.
Lemma sci_word : forall c k x, is_space c = false -> word (scientific c k x).
Proof.
  intros c k x C. unfold scientific. fold (sci_pair k x). destruct (sci_pair k x) as [m e]. cbv zeta.
  split; [destruct (neg x); [discriminate|]; cbn; destruct (digits _) eqn:E; discriminate|].
  apply Forall_app. split; [destruct (neg x); repeat constructor|]. apply Forall_app. split; [apply digits_not_space, digits_chars|].
  constructor; [reflexivity|]. apply Forall_app. split; [apply digits_not_space, fixed_digits_chars|]. constructor; auto.
  constructor; [destruct (e <? 0)%Z; reflexivity|]. apply digits_not_space, exponent_digits_ok.
Qed.

Lemma words_spaces : forall sp r, spaces sp -> words (sp ++ r) = words r.
Proof. induction sp as [|c sp IH]; intros r H; auto. inversion H as [|? ? C H']; subst. unfold words in *. cbn. rewrite C. auto. Qed.
Lemma words_from_word : forall t acc r, Forall (fun c => is_space c = false) t -> words_from acc (t ++ r) = words_from (rev t ++ acc) r.
Proof.
  induction t as [|c t IH]; intros acc r H; auto. inversion H as [|? ? C H']; subst. cbn. rewrite C, IH by auto. rewrite <- app_assoc. auto.
Qed.
Lemma words_word : forall t r, word t -> (r = [] \/ exists c r', r = c :: r' /\ is_space c = true) -> words (t ++ r) = t :: words r.
Proof.
  intros t r [N H] R. unfold words. rewrite words_from_word, app_nil_r by auto.
  assert (RN : rev t <> []) by (intros E; apply N; rewrite <- (rev_involutive t), E; auto).
  destruct (rev t) as [|a b] eqn:E; [congruence|]. destruct R as [->|(c & r' & -> & C)].
  - cbn [words_from]. rewrite <- E, rev_involutive. auto.
  - cbn [words_from]. rewrite C. f_equal. rewrite <- E, rev_involutive. auto.
Qed.
(** A line made of words, each after some spaces *)
Definition join (row : list (text * text)) : text := concat (map (fun p => fst p ++ snd p) row).
Definition apart (p : text * text) : Prop := spaces (fst p) /\ fst p <> [] /\ word (snd p).
Definition row_ok (row : list (text * text)) : Prop :=
  match row with
  | [] => True
  | p :: ps => spaces (fst p) /\ word (snd p) /\ Forall apart ps
  end.
Lemma words_apart : forall ps, Forall apart ps -> words (join ps) = map snd ps /\ (join ps = [] \/ exists c r', join ps = c :: r' /\ is_space c = true).
Proof.
  induction ps as [|[sp t] ps IH]; intros H; [split; auto|]. inversion H as [|? ? (A & B & C) H']; subst. cbn [fst snd] in *. destruct (IH H') as [E R]. split.
  - unfold join in *. cbn [map concat fst snd]. rewrite <- app_assoc, words_spaces by auto. rewrite words_word by auto. rewrite E. auto.
  - right. destruct sp as [|c sp]; [congruence|]. inversion A as [|? ? SC _]; subst. unfold join. cbn. eauto.
Qed.
Lemma words_join : forall row, row_ok row -> words (join row) = map snd row.
Proof.
  intros [|[sp t] ps] H; auto. destruct H as (A & B & C). cbn [fst snd] in *. destruct (words_apart ps C) as [E R].
  unfold join in *. cbn [map concat fst snd]. rewrite <- app_assoc, words_spaces, words_word, E by auto. auto.
Qed.
Lemma lines_from_app : forall l acc r, nonl l -> lines_from acc (l ++ r) = lines_from (rev l ++ acc) r.
Proof.
  induction l as [|c l IH]; intros acc r H; auto. inversion H as [|? ? C H']; subst. cbn. rewrite C, IH by auto. rewrite <- app_assoc. auto.
Qed.
Lemma lines_line : forall l r, nonl l -> lines (line l ++ r) = l :: lines r.
Proof.
  intros l r H. unfold lines, line. rewrite <- app_assoc, lines_from_app, app_nil_r by auto. cbn. rewrite rev_involutive. auto.
Qed.
Lemma lines_concat : forall ls r, Forall nonl ls -> lines (concat (map line ls) ++ r) = ls ++ lines r.
Proof. induction ls as [|l ls IH]; intros r H; auto. inversion H; subst. cbn [map concat]. rewrite <- app_assoc, lines_line by auto. rewrite IH by auto. auto. Qed.
