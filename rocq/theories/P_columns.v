(** Columns that run together *)
From Coq Require Import Ascii String List Arith NArith ZArith QArith Qabs Qpower Bool Lia Lqa.
From Verif Require Import M_base M_merge M_mesh M_text M_mmio S_text P_text P_mmio.
Import ListNotations.
Local Open Scope nat_scope.

Definition field_ok (p : text * text) : Prop := spaces (fst p) /\ word (snd p).
Lemma word_app : forall a b, word a -> word b -> word (a ++ b). Proof. intros a b [A1 A2] [B1 B2]. split; [destruct a; [congruence|discriminate]|apply Forall_app; auto]. Qed.
Lemma words_count : forall n ps, length ps <= n -> Forall field_ok ps ->
  length (words (join ps)) <= length ps /\ (forall p r, ps = p :: r -> Exists (fun q => fst q = []) r -> length (words (join ps)) < length ps).
Proof.
  induction n as [|n IH]; intros ps L H.
  { destruct ps; [|cbn in L; lia]. split; [auto|discriminate]. }
  destruct ps as [|[sp t] r]; [split; [auto|discriminate]|]. inversion H as [|? ? [S T] H']; subst. cbn [fst snd] in *.
  destruct r as [|[sp' t'] r].
  { split; [|intros p r E X; injection E as <- <-; inversion X]. unfold join. cbn [map concat fst snd]. rewrite app_nil_r, words_spaces by auto.
    replace t with (t ++ []) by apply app_nil_r. rewrite words_word by auto. cbn. lia. }
  inversion H' as [|? ? [S' T'] H'']; subst. cbn [fst snd] in *. destruct sp' as [|c sp'].
  - match goal with |- context [words (join ?J)] => assert (E : join J = join ((sp, t ++ t') :: r)) by (unfold join; cbn [map concat fst snd app]; rewrite <- !app_assoc; auto) end.
    rewrite E. destruct (IH ((sp, t ++ t') :: r)) as [A _]; [cbn in *; lia|constructor; auto; split; auto; apply word_app; auto|]. cbn [length] in *. split; intros; lia.
  - match goal with |- context [words (join ?J)] => assert (E : words (join J) = t :: words (join ((c :: sp', t') :: r))) end.
    { unfold join. cbn [map concat fst snd]. rewrite <- app_assoc, words_spaces by auto. apply words_word; auto. right. inversion S'; subst. cbn [app]. eauto. }
    rewrite E. destruct (IH ((c :: sp', t') :: r)) as [A B]; [cbn in *; lia|auto|]. cbn [length] in *. split; [lia|]. intros p q P X. injection P as <- <-.
    inversion X as [? ? K|? ? K]; subst; [discriminate|]. specialize (B _ _ eq_refl K). cbn [length] in B. lia.
Qed.
Lemma wide_words : forall wi w (fld : num -> text) i v, (forall x, word (fld x)) -> (exists x, In x (coordinates v) /\ w <= length (fld x)) ->
  length (words (int_field wi i ++ fields3 (fun x => rjust w (fld x)) v)) <= 3.
Proof.
  intros wi w fld i [[x y] z] W (u & U & L).
  replace (int_field wi i ++ fields3 (fun x => rjust w (fld x)) (x, y, z)) with (join [cell wi (digits (N.of_nat i)); cell w (fld x); cell w (fld y); cell w (fld z)])
    by (unfold join; cbn [map concat fst snd cell fields3]; rewrite app_nil_r; reflexivity).
  assert (F : Forall field_ok [cell wi (digits (N.of_nat i)); cell w (fld x); cell w (fld y); cell w (fld z)]) by (repeat constructor; cbn; try apply spaces_repeat; try apply digits_word; apply W).
  destruct (words_count 4 _ (le_n (length [cell wi (digits (N.of_nat i)); cell w (fld x); cell w (fld y); cell w (fld z)])) F) as [_ B]. enough (length (words (join [cell wi (digits (N.of_nat i)); cell w (fld x); cell w (fld y); cell w (fld z)])) < 4) by lia.
  apply (B _ _ eq_refl). apply Exists_exists. exists (cell w (fld u)). split; [cbn in U; destruct U as [->|[->|[->|[]]]]; cbn; auto|]. cbn. replace (w - length (fld u)) with 0 by lia. auto.
Qed.
Lemma read_until_inv : forall A (conv : text -> res A) skip ls rows rest, read_until conv skip ls = Ok (rows, rest) ->
  exists ls1 z, ls = ls1 ++ z :: rest /\ (exists ws, words z = s "0" :: ws) /\ Forall2 (fun l r => mapM conv (skipn skip (words l)) = Ok r /\ forall ws, words l <> s "0" :: ws) ls1 rows.
Proof.
  induction ls as [|l ls IH]; intros rows rest H; [discriminate|]. cbn [read_until] in H. destruct (words l) as [|w ws] eqn:E; [discriminate|].
  destruct (list_eq_dec ascii_dec w (s "0")) as [->|N].
  - injection H as <- <-. exists [], l. split; auto. split; [eauto|constructor].
  - destruct (mapM conv (skipn skip (w :: ws))) as [row|] eqn:M; [|discriminate]. cbn [bind] in H. destruct (read_until conv skip ls) as [[rows' rest']|] eqn:R; [|discriminate].
    cbn [bind] in H. injection H as <- <-. destruct (IH _ _ eq_refl) as (ls1 & z & -> & Z & F). exists (l :: ls1), z. split; auto. split; auto. constructor; auto. rewrite E. split; auto. congruence.
Qed.
Lemma mapM_length : forall A B (f : A -> res B) l r, mapM f l = Ok r -> length r = length l.
Proof.
  induction l as [|a l IH]; intros r H; [injection H as <-; auto|]. cbn [mapM] in H. destruct (f a); [|discriminate]. cbn [bind] in H. destruct (mapM f l) eqn:E; [|discriminate]. injection H as <-. cbn. f_equal. auto.
Qed.
Lemma words_from_prefix : forall x acc, acc <> [] -> exists u r, words_from acc x = (rev acc ++ u) :: r.
Proof.
  induction x as [|c x IH]; intros acc A; cbn [words_from].
  - destruct acc; [congruence|]. exists [], []. rewrite app_nil_r. auto.
  - destruct (is_space c).
    + destruct acc as [|a acc]; [congruence|]. exists []. eexists. rewrite app_nil_r. reflexivity.
    + destruct (IH (c :: acc)) as (u & r & E); [discriminate|]. rewrite E. cbn [rev]. rewrite <- app_assoc. eauto.
Qed.
Lemma first_word : forall d x, word d -> exists u r, words (d ++ x) = (d ++ u) :: r.
Proof.
  intros d x [A B]. unfold words. rewrite words_from_word, app_nil_r by auto. destruct (words_from_prefix x (rev d)) as (u & r & E).
  - intros E. apply A. rewrite <- (rev_involutive d), E. auto.
  - rewrite rev_involutive in E. eauto.
Qed.
Lemma index_not_zero : forall wi i x, exists w r, words (int_field wi (S i) ++ x) = w :: r /\ w <> s "0".
Proof.
  intros wi i x. unfold int_field, rjust. rewrite <- app_assoc, words_spaces by apply spaces_repeat.
  destruct (first_word (digits (N.of_nat (S i))) x (digits_word _)) as (u & r & E). exists (digits (N.of_nat (S i)) ++ u), r. split; auto.
  intros X. pose proof (succ_not_zero i) as N. destruct (digits (N.of_nat (S i))) as [|c d] eqn:D; [destruct (digits_nonempty _ D)|].
  cbn in X. injection X as X1 X2. apply app_eq_nil in X2 as [-> ->]. subst c. apply N. auto.
Qed.
Lemma MAR_wide : forall dbl vs fs v x, In v vs -> In x (coordinates v) -> ~ room 6 8 x ->
  forall rows F, load_MAR dbl (write_MAR vs fs) = Ok (rows, F) -> exists rs k, rows = Arr2 rs /\ k <= 2 /\ Forall (fun r => length r = k) rs.
Proof.
  intros dbl vs fs v x V X R rows F H. unfold load_MAR in H. rewrite lines_MAR in H. cbn [readline snd] in H.
  destruct (read_until (to_float dbl) 1 _) as [[rs rest]|] eqn:U; [|discriminate]. cbn [bind] in H.
  destruct (np_array rs) as [a|] eqn:A; [|discriminate]. cbn [bind] in H.
  destruct (read_until to_int 0 rest) as [[fr rest']|]; [|discriminate]. cbn [bind] in H. destruct (np_array fr); [|discriminate]. cbn [bind] in H. injection H as <- <-.
  apply read_until_inv in U as (ls1 & z & E & (ws & Z) & F2).
  assert (L : exists t, ls1 = map mar_vertex (combine (seq 0 (length vs)) vs) ++ t).
  { clear - E Z. generalize dependent ls1. induction (combine (seq 0 (length vs)) vs) as [|iv l IH]; intros ls1 E; [exists ls1; auto|].
    cbn [map app] in *. destruct ls1 as [|a ls1].
    - cbn [app] in E. injection E as E _. exfalso. destruct (index_not_zero 6 (fst iv) (fields3 (fixed_field 16 6) (snd iv))) as (w & r & K & K'). unfold mar_vertex in E. rewrite E, Z in K. congruence.
    - cbn [app] in E. injection E as -> E. destruct (IH ls1 E) as [t ->]. exists t. auto. }
  destruct L as [t ->].
  assert (S : exists r, In r rs /\ length r <= 2).
  { apply In_nth_error in V as [i V]. assert (I : In (i, v) (combine (seq 0 (length vs)) vs)).
    { clear - V. assert (G : forall n, In (n + i, v) (combine (seq n (length vs)) vs)); [|apply (G 0)].
      revert i V. induction vs as [|u vs IH]; intros [|i] V n; [discriminate|discriminate| |].
      - injection V as ->. cbn. left. f_equal. lia.
      - cbn. right. replace (n + S i) with (S n + i) by lia. auto. }
    apply (in_map mar_vertex) in I. apply (fun H => in_or_app _ t _ (or_introl H)) in I.
    clear - F2 I X R. revert F2 I. generalize (map mar_vertex (combine (seq 0 (length vs)) vs) ++ t). intros l F2 I.
    induction F2 as [|l0 r0 l rs [M _] F2 IH]; [destruct I|]. destruct I as [->|I]; [|destruct (IH I) as (r & A & B); exists r; cbn; auto].
    exists r0. split; [cbn; auto|]. apply mapM_length in M. rewrite skipn_length in M. unfold mar_vertex in M. cbn [fst snd] in M.
    pose proof (wide_words 6 16 (fixed_point 6) (S i) v (fixed_word 6)) as W.
    assert (G : exists x, In x (coordinates v) /\ 16 <= length (fixed_point 6 x)).
    { exists x. split; auto. destruct (Nat.le_gt_cases 16 (length (fixed_point 6 x))) as [|K]; auto. exfalso. apply R. apply fixed_point_length; lia. }
    specialize (W G). change (fun x => rjust 16 (fixed_point 6 x)) with (fixed_field 16 6) in W. lia. }
  destruct S as (r & RI & RL). destruct rs as [|r0 rs]; [destruct RI|]. cbn [np_array] in A. destruct (forallb _ rs) eqn:FB; [|discriminate]. injection A as <-.
  rewrite forallb_forall in FB. assert (EQ : forall r', In r' (r0 :: rs) -> length r' = length r0).
  { intros r' [->|I]; auto. apply Nat.eqb_eq, FB; auto. }
  exists (r0 :: rs), (length r0). split; auto. split; [rewrite <- (EQ r RI); auto|]. apply Forall_forall. auto.
Qed.

Definition pnl_vertex (iv : nat * vertex) : text := int_field 5 (S (fst iv)) ++ fields3 (fixed_field 18 6) (snd iv).
Lemma genfromtxt_wide : forall dbl vs rest v x, In v vs -> In x (coordinates v) -> ~ room 6 10 x ->
  genfromtxt dbl (length vs) (map pnl_vertex (combine (seq 0 (length vs)) vs) ++ rest) = Raise ValueError.
Proof.
  intros dbl vs rest v x V X R. unfold genfromtxt. set (ivs := combine (seq 0 (length vs)) vs).
  assert (L : length ivs = length vs) by (unfold ivs; rewrite combine_length, seq_length; lia).
  assert (F : firstn (length vs) (map pnl_vertex ivs ++ rest) = map pnl_vertex ivs).
  { replace (length vs) with (length (map pnl_vertex ivs) + 0) by (rewrite map_length; lia). rewrite firstn_app_2, firstn_O, app_nil_r. auto. }
  rewrite F.
  assert (S : exists r, In r (map words (map pnl_vertex ivs)) /\ length r <= 3).
  { apply In_nth_error in V as [i V]. exists (words (pnl_vertex (i, v))). split.
    - do 2 apply in_map. unfold ivs. assert (G : forall n, In (n + i, v) (combine (seq n (length vs)) vs)); [|apply (G 0)].
      clear - V. revert i V. induction vs as [|u vs IH]; intros [|i] V n; [discriminate|discriminate| |].
      + injection V as ->. cbn. left. f_equal. lia.
      + cbn. right. replace (n + S i) with (S n + i) by lia. auto.
    - apply (wide_words 5 18 (fixed_point 6) (S i) v (fixed_word 6)). exists x. split; auto.
      destruct (Nat.le_gt_cases 18 (length (fixed_point 6 x))) as [|K]; auto. exfalso. apply R. apply fixed_point_length; lia. }
  destruct (map words (map pnl_vertex ivs)) as [|r rs]; [destruct S as (r & [] & _)|].
  destruct (forallb (fun r' => length r' =? length r) (r :: rs) && (4 <=? length r))%bool eqn:B; auto. exfalso.
  apply andb_prop in B as [B1 B2]. apply Nat.leb_le in B2. rewrite forallb_forall in B1. destruct S as (r' & I & K). apply B1, Nat.eqb_eq in I. lia.
Qed.
