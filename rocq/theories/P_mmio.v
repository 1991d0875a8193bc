(** Reading back what was written. *)
From Coq Require Import Ascii String List Arith NArith ZArith QArith Qabs Qpower Bool Lia Lqa.
From Verif Require Import M_base M_merge M_mesh M_text M_mmio S_text P_text.
Import ListNotations.
Local Open Scope nat_scope.

(** ** Cells *)
Definition cell (w : nat) (t : text) : text * text := (repeat " "%char (w - length t), t).
Lemma spaces_repeat : forall n, spaces (repeat " "%char n). Proof. induction n; cbn; constructor; auto. Qed.
Lemma cell_apart : forall w t, word t -> length t < w -> apart (cell w t).
Proof. intros w t W L. split; [apply spaces_repeat|]. split; auto. cbn. destruct (w - length t) eqn:E; [lia|discriminate]. Qed.
Lemma cell_first : forall w t ps, word t -> Forall apart ps -> row_ok (cell w t :: ps).
Proof. intros. split; [apply spaces_repeat|]. split; auto. Qed.
Lemma nonl_app : forall a b, nonl a -> nonl b -> nonl (a ++ b). Proof. intros. apply Forall_app; auto. Qed.
Lemma blanks_nonl : forall n, nonl (repeat " "%char n). Proof. induction n; cbn; constructor; auto. Qed.
Lemma word_nonl : forall t, word t -> nonl t. Proof. intros t [_ H]. apply not_space_nonl; auto. Qed.
Lemma rjust_nonl : forall w t, word t -> nonl (rjust w t). Proof. intros. apply nonl_app; [apply blanks_nonl|apply word_nonl; auto]. Qed.
Lemma nonl_concat : forall ls, Forall nonl ls -> nonl (concat ls).
Proof. induction ls as [|l ls IH]; intros H; [constructor|]. inversion H; subst. cbn. apply nonl_app; auto. Qed.
Lemma int_nonl : forall w n, nonl (int_field w n). Proof. intros. apply rjust_nonl, digits_word. Qed.
Lemma fixed_nonl : forall w k x, nonl (fixed_field w k x). Proof. intros. apply rjust_nonl, fixed_word. Qed.
Lemma sci_nonl : forall c w k x, is_space c = false -> nonl (sci_field c w k x). Proof. intros. apply rjust_nonl, sci_word; auto. Qed.
Lemma fields3_nonl : forall f v, (forall x, nonl (f x)) -> nonl (fields3 f v).
Proof. intros f [[x y] z] H. cbn. repeat apply nonl_app; auto. Qed.

(** ** Reading rows *)
Lemma mapM_all : forall A B C (f : B -> res C) (g : A -> B) (h : A -> C) l, (forall x, In x l -> f (g x) = Ok (h x)) -> mapM f (map g l) = Ok (map h l).
Proof.
  induction l as [|a l IH]; intros H; auto. cbn [map mapM]. rewrite H by (cbn; auto). cbn [bind]. rewrite IH by (intros; apply H; cbn; auto). auto.
Qed.
Lemma read_rows_all : forall A B (conv : text -> res A) (ln : B -> text) (row : B -> list A) l rest,
  (forall x, In x l -> mapM conv (words (ln x)) = Ok (row x)) -> read_rows conv (length l) (map ln l ++ rest) = Ok (map row l, rest).
Proof.
  intros A B conv ln row. induction l as [|a l IH]; intros rest H; auto. cbn [length map app read_rows readline]. rewrite H by (cbn; auto). cbn [bind].
  rewrite IH by (intros; apply H; cbn; auto). auto.
Qed.
Lemma read_until_all : forall A B (conv : text -> res A) skip (ln : B -> text) (row : B -> list A) l z rest,
  (forall x, In x l -> exists w ws, words (ln x) = w :: ws /\ w <> s "0" /\ mapM conv (skipn skip (w :: ws)) = Ok (row x)) ->
  (exists ws, words z = s "0" :: ws) -> read_until conv skip (map ln l ++ z :: rest) = Ok (map row l, rest).
Proof.
  intros A B conv skip ln row. induction l as [|a l IH]; intros z rest H Z.
  - destruct Z as (ws & Z). cbn [map app read_until]. rewrite Z. destruct (list_eq_dec ascii_dec (s "0") (s "0")); [auto|congruence].
  - cbn [map app read_until]. destruct (H a) as (w & ws & E & N & M); [cbn; auto|]. rewrite E. destruct (list_eq_dec ascii_dec w (s "0")); [congruence|].
    rewrite M. cbn [bind]. rewrite IH; auto. intros; apply H; cbn; auto.
Qed.
Lemma np_array_rows : forall A B (row : B -> list A) k l, l <> [] -> (forall x, In x l -> length (row x) = k) -> np_array (map row l) = Ok (Arr2 (map row l)).
Proof.
  intros A B row k [|a l] N H; [congruence|]. cbn [map np_array]. rewrite (proj2 (forallb_forall _ _)); auto.
  intros r R. apply in_map_iff in R as (b & <- & R). rewrite !H by (cbn; auto). apply Nat.eqb_refl.
Qed.

(** ** Numbers *)
Lemma digits_zero : forall n, digits n = s "0" -> n = 0%N.
Proof. intros n H. rewrite <- (digits_value_digits n), H. reflexivity. Qed.
Lemma decimal_lt : forall m k q, (decimal m (- Z.of_nat k) < 10 ^ Z.of_nat q)%Q <-> (m < 10 ^ N.of_nat (q + k))%N.
Proof.
  intros m k q. unfold decimal. rewrite <- of_N_lt. rewrite <- ten_pow, Nat2Z.inj_add, ten_add.
  assert (E : (of_N m * 10 ^ (- Z.of_nat k) == of_N m / 10 ^ Z.of_nat k)%Q) by (rewrite Qpower_opp; reflexivity). rewrite E.
  pose proof (ten_pos (Z.of_nat k)) as P. split; intros H.
  - apply (Qmult_lt_compat_r _ _ (10 ^ Z.of_nat k)) in H; auto. unfold Qdiv in H. rewrite <- Qmult_assoc, (Qmult_comm (/ _)), Qmult_inv_r, Qmult_1_r in H; auto. intros X. rewrite X in P. discriminate P.
  - apply Qlt_shift_div_r; auto.
Qed.
Lemma fixed_point_length : forall k p x, 2 <= p -> (length (fixed_point k x) <= p + 1 + k <-> room k p x).
Proof.
  intros k p x P. set (q := p - (if neg x then 1 else 0)). assert (Q1 : 1 <= q) by (unfold q; destruct (neg x); lia).
  assert (L : length (fixed_point k x) <= p + 1 + k <-> (nearest (top x * 10 ^ N.of_nat k) (bot x) < 10 ^ N.of_nat (q + k))%N).
  { unfold fixed_point. cbv zeta. set (m := nearest _ _) in *. rewrite !app_length. cbn [length]. rewrite fixed_length.
    rewrite Nnat.Nat2N.inj_add, N.pow_add_r. transitivity (length (digits (m / 10 ^ N.of_nat k)) <= q).
    - unfold q. destruct (neg x); cbn [sign length]; lia.
    - rewrite digits_length by auto. assert (T : (10 ^ N.of_nat k <> 0)%N) by (apply N.pow_nonzero; lia). split; intros H.
      + rewrite (N.div_mod m (10 ^ N.of_nat k)) by auto. pose proof (N.mod_lt m _ T). nia.
      + apply N.div_lt_upper_bound; auto. rewrite N.mul_comm. auto. }
  rewrite L.
  unfold room. assert (E : (Z.of_nat p - (if neg x then 1 else 0))%Z = Z.of_nat q) by (unfold q; destruct (neg x); lia). rewrite E. split.
  - intros H m M. apply fixed_digits_unique in M. subst m. apply decimal_lt. auto.
  - intros H. apply decimal_lt, H, fixed_digits_ok.
Qed.
Lemma to_int_of_nat : forall n, to_int (digits (N.of_nat n)) = Ok (Z.of_nat n).
Proof. intros. rewrite to_int_digits, nat_N_Z. auto. Qed.

Lemma ints_words : forall w l, (forall n, In n l -> length (digits (N.of_nat n)) < w) -> words (concat (map (int_field w) l)) = map (fun n => digits (N.of_nat n)) l.
Proof.
  intros w l H. replace (concat (map (int_field w) l)) with (join (map (fun n => cell w (digits (N.of_nat n))) l)) by (unfold join; rewrite map_map; reflexivity).
  rewrite words_join; [rewrite map_map; reflexivity|]. destruct l as [|n l]; [exact I|]. cbn [map]. apply cell_first; [apply digits_word|].
  apply Forall_forall. intros p P. apply in_map_iff in P as (i & <- & P). apply cell_apart; [apply digits_word|]. apply H. cbn. auto.
Qed.

(** ** Scientific notation *)
Lemma nearest_bounds : forall q m a b, nearest_to q m -> (of_N a <= q)%Q -> (q < of_N b)%Q -> (a <= m <= b)%N.
Proof.
  intros q m a b [N _] A B. apply Qabs_Qle_condition in N. split.
  - destruct (N.le_gt_cases a m) as [|L]; auto. exfalso. assert (X : (of_N m + 1 <= of_N a)%Q) by (unfold of_N; change 1%Q with (inject_Z 1); rewrite <- inject_Z_plus, <- Zle_Qle; lia). lra.
  - destruct (N.le_gt_cases m b) as [|L]; auto. exfalso. assert (X : (of_N b + 1 <= of_N m)%Q) by (unfold of_N; change 1%Q with (inject_Z 1); rewrite <- inject_Z_plus, <- Zle_Qle; lia). lra.
Qed.
Lemma scaled : forall k e0 q, (10 ^ e0 <= q < 10 ^ (e0 + 1))%Q ->
  (of_N (10 ^ N.of_nat k) <= q * 10 ^ (Z.of_nat k - e0))%Q /\ (q * 10 ^ (Z.of_nat k - e0) < of_N (10 ^ N.of_nat (S k)))%Q.
Proof.
  intros k e0 q [A B]. pose proof (ten_pos (Z.of_nat k - e0)) as P. rewrite <- !ten_pow. split.
  - apply (Qmult_le_compat_r _ _ (10 ^ (Z.of_nat k - e0))) in A; [|apply Qlt_le_weak; auto]. rewrite <- ten_add in A. replace (e0 + (Z.of_nat k - e0))%Z with (Z.of_nat k) in A by lia. auto.
  - apply (Qmult_lt_compat_r _ _ (10 ^ (Z.of_nat k - e0))) in B; auto. rewrite <- ten_add in B. replace (e0 + 1 + (Z.of_nat k - e0))%Z with (Z.of_nat (S k)) in B by lia. auto.
Qed.
Lemma sci_digits_bounds : forall k x m e, sci_digits k x m e -> m = 0%N /\ e = 0%Z /\ (magnitude x == 0)%Q \/ (10 ^ N.of_nat k <= m < 10 ^ N.of_nat (S k))%N.
Proof.
  intros k x m e [(A & -> & ->)|(e0 & m0 & B & N & H)]; [left; auto|]. right. destruct (scaled k e0 _ B) as [S1 S2]. destruct (nearest_bounds _ _ _ _ N S1 S2) as [B1 B2].
  destruct H as [(H & -> & ->)|(H & -> & ->)]; [lia|]. split; [lia|]. apply N.pow_lt_mono_r; lia.
Qed.
Lemma scientific_length : forall c k p x, 2 <= p -> exponent_room k p x -> length (scientific c k x) <= 5 + k + p.
Proof.
  intros c k p x P R. unfold scientific. fold (sci_pair k x). pose proof (sci_pair_ok k x) as O. specialize (R _ _ O). apply sci_digits_bounds in O. destruct (sci_pair k x) as [m e]. cbn [fst snd] in *. cbv zeta.
  rewrite !app_length. cbn [length]. rewrite app_length, fixed_length. cbn [length].
  assert (D : length (digits (m / 10 ^ N.of_nat k)) <= 1).
  { apply digits_length; auto. apply N.div_lt_upper_bound; [apply N.pow_nonzero; lia|]. destruct O as [(-> & _)|[_ O]].
    - apply N.mul_pos_pos; [|reflexivity]. apply N.neq_0_lt_0, N.pow_nonzero. lia.
    - rewrite Nnat.Nat2N.inj_succ, N.pow_succ_r' in O. cbn. lia. }
  assert (E : length (if (Z.abs_N e <? 10)%N then fixed 2 (Z.abs_N e) else digits (Z.abs_N e)) <= p).
  { destruct (Z.abs_N e <? 10)%N; [rewrite fixed_length; auto|]. apply digits_length; [lia|]. apply N2Z.inj_lt. rewrite N2Z.inj_abs_N, N2Z.inj_pow, nat_N_Z. exact R. }
  destruct (neg x); cbn [sign length]; lia.
Qed.

(** ** Writing again what was read *)
Lemma read_neg : forall dbl n m e, neg (read_as dbl n m e) = n. Proof. intros. unfold read_as. destruct (dbl m e). auto. Qed.
Lemma read_magnitude : forall dbl n m e, magnitude (read_as dbl n m e) = magnitude (read_as dbl false m e). Proof. intros. unfold read_as. destruct (dbl m e). auto. Qed.
Lemma near_nearest : forall q m, (Qabs (q - of_N m) < 1 # 2)%Q -> nearest_to q m.
Proof. intros q m H. split; [apply Qlt_le_weak; auto|]. intros E. rewrite E in H. discriminate H. Qed.
Lemma ten_le : forall a b, (a <= b)%Z -> (10 ^ a <= 10 ^ b)%Q. Proof. intros. apply Qpower_le_compat_l; auto. discriminate. Qed.
Lemma ten_inv : forall e, (10 ^ e * 10 ^ (- e) == 1)%Q. Proof. intros. rewrite <- ten_add, Z.add_opp_diag_r. reflexivity. Qed.

Lemma of_N_big : (of_N (10 ^ 16) <= 10 ^ 16)%Q. Proof. discriminate. Qed.
(** [y] was read for [m] times the power [e] of ten *)
Lemma read_error : forall dbl n m e, doubles dbl -> (m < 2 ^ 52)%N -> (-300 <= e <= 280)%Z -> 
  (Qabs (magnitude (read_as dbl n m e) * 10 ^ (- e) - of_N m) <= of_N m * (1 # 2 ^ 53))%Q.
Proof.
  intros dbl n m e [Z D] M E. rewrite read_magnitude. pose proof (ten_pos e) as P. pose proof (ten_pos (- e)) as P'. pose proof (ten_inv e) as I.
  destruct (N.eq_dec m 0) as [->|M0].
  { specialize (Z e). unfold magnitude, read_as. destruct (dbl 0%N e) as [a b]. cbn in Z. subst a. cbn [top bot].
    assert (X : ((Z.of_N 0 # b) * 10 ^ (- e) - of_N 0 == 0)%Q). { change (of_N 0) with 0%Q. assert (Y : (Z.of_N 0 # b == 0)%Q) by reflexivity. rewrite Y. ring. }
    rewrite X. discriminate. }
  specialize (D m e). unfold decimal in D. assert (M1 : (1 <= of_N m)%Q) by (change 1%Q with (of_N 1); apply of_N_le; lia).
  assert (M2 : (of_N m <= 10 ^ 16)%Q) by (eapply Qle_trans; [|apply of_N_big]; apply of_N_le; assert (2 ^ 52 <= 10 ^ 16)%N by (vm_compute; discriminate); lia).
  assert (R : (10 ^ (-300) <= of_N m * 10 ^ e <= 10 ^ 300)%Q).
  { split.
    - eapply Qle_trans; [apply (ten_le (-300) e); lia|]. setoid_replace (10 ^ e)%Q with (1 * 10 ^ e)%Q at 1 by ring. apply Qmult_le_compat_r; auto. apply Qlt_le_weak; auto.
    - eapply Qle_trans; [apply Qmult_le_compat_r; [exact M2|apply Qlt_le_weak; auto]|]. rewrite <- ten_add. apply ten_le. lia. }
  specialize (D R). set (y := magnitude _) in *. clearbody y.
  assert (X : (y * 10 ^ (- e) - of_N m == (y - of_N m * 10 ^ e) * 10 ^ (- e))%Q).
  { setoid_replace (of_N m)%Q with (of_N m * (10 ^ e * 10 ^ (- e)))%Q at 1 by (rewrite I; ring). ring. }
  rewrite X, Qabs_Qmult. rewrite (Qabs_pos (10 ^ (- e))) by (apply Qlt_le_weak; auto).
  eapply Qle_trans; [apply Qmult_le_compat_r; [exact D|apply Qlt_le_weak; auto]|].
  setoid_replace (of_N m * 10 ^ e * (1 # 2 ^ 53) * 10 ^ (- e))%Q with (of_N m * (1 # 2 ^ 53) * (10 ^ e * 10 ^ (- e)))%Q by ring. rewrite I, Qmult_1_r. apply Qle_refl.
Qed.
Lemma tiny : forall m, (m < 2 ^ 52)%N -> (of_N m * (1 # 2 ^ 53) < 1 # 2)%Q.
Proof.
  intros m M. apply of_N_lt in M. assert (E : (of_N (2 ^ 52) * (1 # 2 ^ 53) == 1 # 2)%Q) by reflexivity. rewrite <- E. apply Qmult_lt_compat_r; auto. reflexivity.
Qed.
Lemma fixed_again : forall dbl k n m, doubles dbl -> (m < 2 ^ 52)%N -> k <= 300 -> fixed_digits k (read_as dbl n m (- Z.of_nat k)) m.
Proof.
  intros dbl k n m D M K. apply near_nearest. pose proof (read_error dbl n m (- Z.of_nat k) D M ltac:(lia)) as E. rewrite Z.opp_involutive in E.
  eapply Qle_lt_trans; [exact E|apply tiny; auto].
Qed.
Lemma fixed_point_digits : forall k x y, neg x = neg y -> (forall m, fixed_digits k x m -> fixed_digits k y m) -> fixed_point k y = fixed_point k x.
Proof. intros k x y N H. unfold fixed_point. rewrite <- (fixed_digits_unique k y _ (H _ (fixed_digits_ok k x))), N. auto. Qed.
Lemma scientific_digits : forall c k x y, neg x = neg y -> (forall m e, sci_digits k x m e -> sci_digits k y m e) -> scientific c k y = scientific c k x.
Proof.
  intros c k x y N H. unfold scientific. fold (sci_pair k x) (sci_pair k y).
  destruct (sci_digits_unique k y _ _ (H _ _ (sci_pair_ok k x))) as [E1 E2]. rewrite N. destruct (sci_pair k x), (sci_pair k y). cbn [fst snd] in *. subst. auto.
Qed.
Lemma sci_again : forall dbl k n x m e, doubles dbl -> k <= 14 -> (-280 <= e <= 280)%Z -> sci_digits k x m e -> sci_digits k (read_as dbl n m (e - Z.of_nat k)) m e.
Proof.
  intros dbl k n x m e D K E H. set (y := read_as dbl n m (e - Z.of_nat k)). destruct (sci_digits_bounds k x m e H) as [(-> & -> & _)|[B1 B2]].
  { left. split; [|auto]. destruct D as [Z _]. specialize (Z (0 - Z.of_nat k)%Z). unfold y, read_as. destruct (dbl 0%N _) as [a b]. cbn in Z. subst a. reflexivity. }
  assert (M : (10 ^ N.of_nat (S k) < 2 ^ 52)%N).
  { eapply N.le_lt_trans; [apply (N.pow_le_mono_r 10 _ 15); lia|]. reflexivity. }
  pose proof (read_error dbl n m (e - Z.of_nat k) D ltac:(lia) ltac:(lia)) as R. fold y in R. replace (- (e - Z.of_nat k))%Z with (Z.of_nat k - e)%Z in R by lia.
  pose proof (tiny m ltac:(lia)) as T. assert (R1 : (Qabs (magnitude y * 10 ^ (Z.of_nat k - e) - of_N m) < 1 # 2)%Q) by (eapply Qle_lt_trans; [exact R|exact T]).
  pose proof (near_nearest _ _ R1) as N. apply Qabs_Qlt_condition in R1. apply Qabs_Qle_condition in R.
  pose proof (ten_pos (Z.of_nat k - e)) as P.
  assert (L : forall a b, (a * 10 ^ (Z.of_nat k - e) < b * 10 ^ (Z.of_nat k - e))%Q -> (a < b)%Q) by (intros a b X; apply Qmult_lt_r in X; auto).
  assert (LE : forall a b, (a * 10 ^ (Z.of_nat k - e) <= b * 10 ^ (Z.of_nat k - e))%Q -> (a <= b)%Q) by (intros a b X; apply Qmult_le_r in X; auto).
  assert (S1 : (10 ^ e * 10 ^ (Z.of_nat k - e) == of_N (10 ^ N.of_nat k))%Q) by (rewrite <- ten_add, <- ten_pow; replace (e + (Z.of_nat k - e))%Z with (Z.of_nat k) by lia; reflexivity).
  assert (S2 : (10 ^ (e + 1) * 10 ^ (Z.of_nat k - e) == of_N (10 ^ N.of_nat (S k)))%Q) by (rewrite <- ten_add, <- ten_pow; replace (e + 1 + (Z.of_nat k - e))%Z with (Z.of_nat (S k)) by lia; reflexivity).
  assert (U : (magnitude y < 10 ^ (e + 1))%Q).
  { apply L. rewrite S2. assert (X : (of_N m + 1 <= of_N (10 ^ N.of_nat (S k)))%Q) by (unfold of_N; change 1%Q with (inject_Z 1); rewrite <- inject_Z_plus, <- Zle_Qle; lia). lra. }
  right. destruct (Qlt_le_dec (magnitude y) (10 ^ e)) as [C|C].
  - assert (M0 : m = (10 ^ N.of_nat k)%N).
    { destruct (N.le_gt_cases m (10 ^ N.of_nat k)) as [|G]; [lia|]. exfalso. apply (Qmult_lt_compat_r _ _ _ P) in C. rewrite S1 in C.
      assert (X : (of_N (10 ^ N.of_nat k) + 1 <= of_N m)%Q) by (unfold of_N; change 1%Q with (inject_Z 1); rewrite <- inject_Z_plus, <- Zle_Qle; lia). lra. }
    exists (e - 1)%Z, (10 ^ N.of_nat (S k))%N. split; [split|].
    + apply LE. rewrite <- ten_add. replace (e - 1 + (Z.of_nat k - e))%Z with (Z.of_nat k + -1)%Z by lia. rewrite ten_add, ten_pow, <- M0. change (10 ^ (-1))%Q with (1 # 10)%Q.
      assert (X : (1 <= of_N m)%Q) by (change 1%Q with (of_N 1); apply of_N_le; rewrite M0; pose proof (N.pow_nonzero 10 (N.of_nat k) ltac:(lia)); lia). lra.
    + replace (e - 1 + 1)%Z with e by lia. auto.
    + split; [|right; rewrite M0; repeat split; auto; lia]. apply near_nearest. replace (Z.of_nat k - (e - 1))%Z with (Z.of_nat k - e + 1)%Z by lia. rewrite ten_add. change (10 ^ 1)%Q with (inject_Z 10).
      assert (X : (of_N (10 ^ N.of_nat (S k)) == 10 * of_N m)%Q) by (rewrite M0, Nnat.Nat2N.inj_succ, N.pow_succ_r', of_N_mul; reflexivity). rewrite X. change (inject_Z 10) with 10%Q.
      assert (T2 : (10 * (of_N m * (1 # 2 ^ 53)) < 1 # 2)%Q). { setoid_replace (10 * (of_N m * (1 # 2 ^ 53)))%Q with (of_N (10 ^ N.of_nat (S k)) * (1 # 2 ^ 53))%Q by (rewrite X; ring). apply tiny; auto. }
      set (d := (of_N m * (1 # 2 ^ 53))%Q) in *. clearbody d. apply Qabs_Qlt_condition. split; lra.
  - exists e, m. split; [auto|]. split; auto. left. split; auto. lia.
Qed.

(** ** Vertices and faces *)
Lemma in_combine_seq : forall A (l : list A) i n v, In (i, v) (combine (seq n (length l)) l) -> In v l. Proof. intros. eapply in_combine_r; eauto. Qed.
Lemma map_snd_combine : forall A B (g : A -> B) (l : list A) n, map (fun iv => g (snd iv)) (combine (seq n (length l)) l) = map g l.
Proof. intros A B g. induction l as [|a l IH]; intros n; auto. cbn. rewrite IH. auto. Qed.
Lemma concat_lines : forall A (f : A -> text) l, concat (map (fun x => line (f x)) l) = concat (map line (map f l)). Proof. intros. rewrite map_map. auto. Qed.
Lemma join_lines_lines : forall ls, ls <> [] -> line (join_lines ls) = concat (map line ls).
Proof.
  induction ls as [|l ls IH]; intros H; [congruence|]. destruct ls as [|l' ls]; [cbn; rewrite app_nil_r; auto|].
  change (join_lines (l :: l' :: ls)) with (l ++ newline :: join_lines (l' :: ls)). unfold line at 1. rewrite <- app_assoc. cbn [app].
  change (join_lines (l' :: ls) ++ [newline]) with (line (join_lines (l' :: ls))). rewrite IH by discriminate. cbn [map concat]. unfold line at 3. rewrite <- app_assoc. auto.
Qed.
Lemma Forall_map_intro : forall A B (P : B -> Prop) (f : A -> B) l, (forall x, In x l -> P (f x)) -> Forall P (map f l).
Proof. intros. apply Forall_forall. intros y Y. apply in_map_iff in Y as (x & <- & X). auto. Qed.
Lemma pred_succ_row : forall fs, minus_one (Arr2 (map (fun f => map (fun n => Z.of_nat (S n)) (corners f)) fs)) = Arr2 (map face_row fs).
Proof.
  intros fs. unfold minus_one. f_equal. rewrite map_map. apply map_ext. intros f. unfold face_row. rewrite map_map. apply map_ext. intros n. lia.
Qed.
Lemma ints_read : forall l, mapM to_int (map (fun n => digits (N.of_nat n)) l) = Ok (map Z.of_nat l).
Proof. intros l. apply mapM_all. intros n _. apply to_int_of_nat. Qed.
Definition rd_fixed dbl k x := read_as dbl (neg x) (nearest (top x * 10 ^ N.of_nat k) (bot x)) (- Z.of_nat k).
Definition rd_sci dbl k x := read_as dbl (neg x) (fst (sci_pair k x)) (snd (sci_pair k x) - Z.of_nat k).
Lemma rd_fixed_saved : forall dbl k x, saved_fixed dbl k x (rd_fixed dbl k x). Proof. intros. eexists. split; [apply fixed_digits_ok|reflexivity]. Qed.
Lemma rd_sci_saved : forall dbl k x, saved_sci dbl k x (rd_sci dbl k x). Proof. intros. do 2 eexists. split; [apply sci_pair_ok|reflexivity]. Qed.
Lemma saved_fixed_unique : forall dbl k x y, saved_fixed dbl k x y -> y = rd_fixed dbl k x.
Proof. intros dbl k x y (m & M & ->). apply fixed_digits_unique in M. subst m. auto. Qed.
Lemma saved_sci_unique : forall dbl k x y, saved_sci dbl k x y -> y = rd_sci dbl k x.
Proof. intros dbl k x y (m & e & M & ->). apply sci_digits_unique in M as [-> ->]. auto. Qed.
Lemma saved_rows : forall (saved : num -> num -> Prop) rd, (forall x, saved x (rd x)) -> forall vs, Forall2 (saved_vertex saved) vs (map (fun v => map rd (coordinates v)) vs).
Proof. intros saved rd H. induction vs as [|[[x y] z] vs IH]; cbn; constructor; auto. cbn. repeat constructor; auto. Qed.
Lemma floats_fixed : forall dbl k v, mapM (to_float dbl) (map (fixed_point k) (coordinates v)) = Ok (map (rd_fixed dbl k) (coordinates v)).
Proof. intros. apply mapM_all. intros x _. apply to_float_fixed. Qed.
Lemma floats_sci : forall dbl c k v, c = "E"%char \/ c = "e"%char -> mapM (to_float dbl) (map (scientific c k) (coordinates v)) = Ok (map (rd_sci dbl k) (coordinates v)).
Proof. intros. apply mapM_all. intros x _. apply to_float_scientific; auto. Qed.
Lemma coordinates_length : forall A (g : num -> A) v, length (map g (coordinates v)) = 3. Proof. intros A g [[x y] z]. auto. Qed.

(** the identifiers of a face hold in [w] columns *)
Definition ids_ok (w : nat) (f : face) : Prop := Forall (fun n => (N.of_nat (S n) < 10 ^ N.of_nat (w - 1))%N) (corners f).
Lemma id_width : forall w n, 2 <= w -> (N.of_nat n < 10 ^ N.of_nat (w - 1))%N -> length (digits (N.of_nat n)) < w.
Proof. intros w n W H. apply digits_length in H; lia. Qed.
Lemma corners_plus : forall f, corners (plus_one f) = map S (corners f). Proof. reflexivity. Qed.
Lemma face_words : forall w f, 2 <= w -> ids_ok w f -> words (concat (map (int_field w) (corners (plus_one f)))) = map (fun n => digits (N.of_nat n)) (map S (corners f)).
Proof.
  intros w f W H. rewrite ints_words; [rewrite corners_plus; auto|]. rewrite corners_plus. intros n I. apply in_map_iff in I as (i & <- & I).
  apply id_width; auto. apply (proj1 (Forall_forall _ _) H i I).
Qed.
Lemma face_nonl : forall w f, nonl (concat (map (int_field w) (corners f))).
Proof. intros. apply nonl_concat, Forall_map_intro. intros. apply int_nonl. Qed.

(** A row with an index and three fields *)
Lemma index_words : forall wi w (fld : num -> text) i v, (forall x, word (fld x)) -> (forall x, In x (coordinates v) -> length (fld x) < w) ->
  words (int_field wi i ++ fields3 (fun x => rjust w (fld x)) v) = digits (N.of_nat i) :: map fld (coordinates v).
Proof.
  intros wi w fld i [[x y] z] W H.
  replace (int_field wi i ++ fields3 (fun x => rjust w (fld x)) (x, y, z)) with (join [cell wi (digits (N.of_nat i)); cell w (fld x); cell w (fld y); cell w (fld z)])
    by (unfold join; cbn [map concat fst snd cell fields3]; rewrite app_nil_r; reflexivity).
  rewrite words_join; [reflexivity|]. apply cell_first; [apply digits_word|]. repeat constructor; apply cell_apart; auto; apply H; cbn; auto.
Qed.
Lemma plain_words : forall w (fld : num -> text) v, (forall x, word (fld x)) -> (forall x, In x (coordinates v) -> length (fld x) < w) ->
  words (fields3 (fun x => rjust w (fld x)) v) = map fld (coordinates v).
Proof.
  intros w fld [[x y] z] W H.
  replace (fields3 (fun x => rjust w (fld x)) (x, y, z)) with (join [cell w (fld x); cell w (fld y); cell w (fld z)])
    by (unfold join; cbn [map concat fst snd cell fields3]; rewrite app_nil_r; reflexivity).
  rewrite words_join; [reflexivity|]. apply cell_first; auto. repeat constructor; apply cell_apart; auto; apply H; cbn; auto.
Qed.

(** ** MAR *)
Definition mar_vertex (iv : nat * vertex) : text := int_field 6 (S (fst iv)) ++ fields3 (fixed_field 16 6) (snd iv).
Definition mar_face (f : face) : text := concat (map (int_field 10) (corners (plus_one f))).
Definition mar_zeros : text := int_field 6 0 ++ int_field 6 0 ++ int_field 6 0 ++ int_field 6 0 ++ int_field 6 0.
Definition mar_end : text := int_field 6 0 ++ int_field 6 0 ++ int_field 6 0 ++ int_field 6 0.
Lemma mar_vertex_nonl : forall iv, nonl (mar_vertex iv). Proof. intros. apply nonl_app; [apply int_nonl|]. apply fields3_nonl. intros. apply fixed_nonl. Qed.
Lemma lines_MAR : forall vs fs, lines (write_MAR vs fs) =
  (int_field 6 2 ++ int_field 6 0) :: map mar_vertex (combine (seq 0 (length vs)) vs) ++ mar_zeros ::
  (match fs with [] => [[]] | _ => map mar_face fs end) ++ [mar_end; []].
Proof.
  intros vs fs. unfold write_MAR. rewrite lines_line by (apply nonl_app; apply int_nonl). f_equal.
  change (fun iv => line (int_field 6 (S (fst iv)) ++ fields3 (fixed_field 16 6) (snd iv))) with (fun iv => line (mar_vertex iv)). rewrite concat_lines.
  rewrite lines_concat by (apply Forall_map_intro; intros; apply mar_vertex_nonl). f_equal.
  rewrite lines_line by (repeat first [apply int_nonl | apply nonl_app]). f_equal.
  change (map (fun f => concat (map (int_field 10) (corners (plus_one f)))) fs) with (map mar_face fs). destruct fs as [|f fs].
  - cbn [map join_lines]. rewrite lines_line by constructor. cbn [app]. f_equal.
  - rewrite join_lines_lines by discriminate. rewrite lines_concat by (apply Forall_map_intro; intros; apply face_nonl). f_equal.
Qed.
Lemma mar_zeros_words : words mar_zeros = s "0" :: [s "0"; s "0"; s "0"; s "0"]. Proof. reflexivity. Qed.
Lemma mar_end_words : words mar_end = s "0" :: [s "0"; s "0"; s "0"]. Proof. reflexivity. Qed.
Lemma succ_not_zero : forall n, digits (N.of_nat (S n)) <> s "0". Proof. intros n E. apply digits_zero in E. lia. Qed.

Section MAR.
  Variable dbl : N -> Z -> N * positive.
  Lemma mar_vertices : forall vs rest, (forall v x, In v vs -> In x (coordinates v) -> room 6 8 x) ->
    read_until (to_float dbl) 1 (map mar_vertex (combine (seq 0 (length vs)) vs) ++ mar_zeros :: rest) = Ok (map (fun v => map (rd_fixed dbl 6) (coordinates v)) vs, rest).
  Proof.
    intros vs rest H.
    rewrite (read_until_all _ _ (to_float dbl) 1 mar_vertex (fun iv => map (rd_fixed dbl 6) (coordinates (snd iv)))).
    - f_equal. f_equal. apply (map_snd_combine _ _ (fun v => map (rd_fixed dbl 6) (coordinates v))).
    - intros [i v] I. apply in_combine_seq in I. unfold mar_vertex. cbn [fst snd].
      rewrite (index_words 6 16 (fixed_point 6)); [|apply fixed_word|intros x X; specialize (H v x I X); apply fixed_point_length in H; lia].
      do 2 eexists. split; [reflexivity|]. split; [apply succ_not_zero|]. cbn [skipn]. apply floats_fixed.
    - eexists. apply mar_zeros_words.
  Qed.
  Lemma mar_faces : forall fs rest, Forall (ids_ok 10) fs ->
    read_until to_int 0 (map mar_face fs ++ mar_end :: rest) = Ok (map (fun f => map (fun n => Z.of_nat (S n)) (corners f)) fs, rest).
  Proof.
    intros fs rest H. apply read_until_all.
    - intros f I. unfold mar_face. pose proof (proj1 (Forall_forall _ _) H f I) as O. rewrite face_words by (auto; lia). cbn [map corners].
      do 2 eexists. split; [reflexivity|]. split; [apply succ_not_zero|]. cbn [skipn].
      apply (ints_read [S (f0 f); S (f1 f); S (f2 f); S (f3 f)]).
    - eexists. apply mar_end_words.
  Qed.
  Lemma load_write_MAR : forall vs fs, vs <> [] -> fs <> [] -> (forall v x, In v vs -> In x (coordinates v) -> room 6 8 x) -> Forall (ids_ok 10) fs ->
    load_MAR dbl (write_MAR vs fs) = Ok (Arr2 (map (fun v => map (rd_fixed dbl 6) (coordinates v)) vs), Arr2 (map face_row fs)).
  Proof.
    intros vs fs V F R I. unfold load_MAR. rewrite lines_MAR. cbn [readline snd]. rewrite mar_vertices by auto. cbn [bind].
    rewrite (np_array_rows _ _ _ 3); [|auto|intros; apply coordinates_length]. cbn [bind].
    destruct fs as [|f fs]; [congruence|]. rewrite mar_faces by auto. cbn [bind].
    rewrite (np_array_rows _ _ _ 4); [|discriminate|reflexivity]. cbn [bind]. rewrite pred_succ_row. auto.
  Qed.
  (** No faces *)
  Lemma load_MAR_no_face : forall vs, (forall v x, In v vs -> In x (coordinates v) -> room 6 8 x) -> load_MAR dbl (write_MAR vs []) = Raise IndexError.
  Proof.
    intros vs R. unfold load_MAR. rewrite lines_MAR. cbn [readline snd]. rewrite mar_vertices by auto. cbn [bind app].
    assert (E : exists a, np_array (map (fun v : vertex => map (rd_fixed dbl 6) (coordinates v)) vs) = Ok a).
    { destruct vs as [|v vs]; [eexists; reflexivity|]. eexists. apply (np_array_rows _ _ _ 3); [discriminate|intros; apply coordinates_length]. }
    destruct E as [a ->]. reflexivity.
  Qed.
End MAR.
