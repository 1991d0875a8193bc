(** Proofs about the report of the older class. *)
From Coq Require Import Ascii String List Arith NArith ZArith QArith Bool Lia.
From Verif Require Import M_base M_merge M_mesh M_text M_mmio M_formats M_print M_oldreport S_text S_print S_oldreport P_text P_mmio P_columns P_formats P_print.
Import ListNotations.
Local Open Scope nat_scope.

Definition old_ok (label : string) : bool :=
  forallb (fun c => label_char c && negb (Ascii.eqb c newline)) (upper (s label)) && (List.length (upper (s label)) <? 40).
Lemma old_label_ok : forall label, old_ok label = true -> label_ok label = true.
Proof. intros label H. unfold old_ok, label_ok in *. apply andb_prop in H as [A B]. rewrite A. apply Nat.ltb_lt in B. apply Nat.ltb_lt. lia. Qed.
Lemma old_entry : forall label v, old_ok label = true -> entry (tab :: ljust "-" 40 (upper (s label)) ++ s ">  " ++ v) = [(upper (s label), words v)].
Proof.
  intros label v H. unfold entry. change (Ascii.eqb tab tab) with true. cbv iota. unfold ljust. rewrite <- app_assoc.
  change (fun c : ascii => negb (Ascii.eqb c "-") && negb (Ascii.eqb c ">")) with label_char.
  pose proof (label_chars label (old_label_ok label H)) as C. apply andb_prop in H as [_ L]. apply Nat.ltb_lt in L.
  rewrite span_app; auto.
  - rewrite span_app; [|apply forallb_repeat; auto|reflexivity].
    destruct (40 - List.length (upper (s label))) eqn:E; [lia|]. cbn [repeat app s list_ascii_of_string].
    change (" "%char :: " "%char :: v) with ([" "%char; " "%char] ++ v). rewrite words_spaces by (repeat constructor). auto.
  - destruct (40 - List.length (upper (s label))) eqn:E; [lia|]. reflexivity.
Qed.
Lemma old_scalar : forall label st x, old_ok label = true -> entry (old_line label st (Scalar x)) = [(upper (s label), [style_text st x])].
Proof. intros label st x H. unfold old_line. rewrite old_entry by auto. do 2 f_equal. rewrite <- (app_nil_r (show st x)), show_words; auto. Qed.
Lemma old_vector : forall label st xs, old_ok label = true -> Forall (fun x => List.length (show st x) < 10) xs ->
  entry (old_line label st (Vector xs)) = [(upper (s label), map (style_text st) xs)].
Proof. intros label st xs H F. unfold old_line. rewrite old_entry by auto. rewrite fields_words; auto. Qed.
Lemma old_nonl : forall label st d, old_ok label = true -> nonl (old_line label st d).
Proof.
  intros label st d H. unfold old_line. constructor; [reflexivity|]. apply nonl_app.
  - apply ljust_nonl; [reflexivity|]. apply andb_prop in H as [H _]. rewrite forallb_forall in H. apply Forall_forall. intros c I. specialize (H c I).
    apply andb_prop in H as [_ H]. apply negb_true_iff. auto.
  - apply nonl_app; [repeat constructor|]. destruct d as [x|xs]; [apply show_nonl|].
    induction xs as [|x xs IH]; [constructor|]. cbn. apply nonl_app; auto. apply ljust_nonl; [reflexivity|apply show_nonl].
Qed.

(** In scientific notation with three decimals a field of 10 characters is always full. *)
Lemma digits_one : forall n, 1 <= List.length (digits n).
Proof. intros n. pose proof (digits_nonempty n) as H. destruct (digits n); [congruence|cbn; lia]. Qed.
Lemma digits_two : forall n, (10 <= n)%N -> 2 <= List.length (digits n).
Proof.
  intros n H. destruct (le_lt_dec 2 (List.length (digits n))) as [|L]; auto. exfalso.
  assert (E : (n < 10 ^ N.of_nat 1)%N) by (apply digits_length; lia). cbn in E. lia.
Qed.
Lemma sci_full : forall x, 10 <= List.length (show (Sci 3) x).
Proof.
  intros x. unfold show, spaced, scientific. destruct (if (top x =? 0)%N then _ else _) as [m e]. cbv zeta.
  set (d := digits _). set (a := Z.abs_N e). pose proof (digits_one (m / 10 ^ N.of_nat 3)) as D. fold d in D.
  assert (E : 2 <= List.length (if (a <? 10)%N then fixed 2 a else digits a)).
  { destruct (N.ltb_spec a 10); [rewrite fixed_length; lia|apply digits_two; auto]. }
  destruct (neg x); cbn [sign app List.length]; rewrite ?app_length; cbn [List.length]; rewrite ?app_length, fixed_length; cbn [List.length]; lia.
Qed.
Lemma full_field : forall x, ljust " " 10 (show (Sci 3) x) = show (Sci 3) x.
Proof. intros x. unfold ljust. pose proof (sci_full x). replace (10 - List.length (show (Sci 3) x)) with 0 by lia. apply app_nil_r. Qed.
Lemma word_app : forall a b, word a -> word b -> word (a ++ b).
Proof. intros a b [N A] [_ B]. split; [destruct a; [congruence|discriminate]|apply Forall_app; auto]. Qed.
Lemma spaced_words : forall x t r, word t -> (r = [] \/ exists c r', r = c :: r' /\ is_space c = true) -> words (spaced x t ++ r) = t :: words r.
Proof.
  intros x t r W R. unfold spaced. destruct (neg x); [apply words_word; auto|].
  change (" "%char :: t) with ([" "%char] ++ t). rewrite <- app_assoc, words_spaces by (repeat constructor). apply words_word; auto.
Qed.
Lemma full_fields : forall x y z, let w := style_text (Sci 3) in
  words (concat (map (fun v => ljust " " 10 (show (Sci 3) v)) [x; y; z])) = joined (w x) (w y) (w z) (neg y) (neg z).
Proof.
  intros x y z w. cbn [map concat]. rewrite !full_field, !show_style. fold (w x) (w y) (w z).
  assert (W : forall v, word (w v)) by (intros; apply style_word).
  assert (J : forall v t r, spaced v t ++ r = spaced v (t ++ r)) by (intros v t r; unfold spaced; destruct (neg v); auto).
  assert (B : forall v t r, neg v = false -> exists c r', spaced v t ++ r = c :: r' /\ is_space c = true).
  { intros v t r N. unfold spaced. rewrite N. cbn. eauto. }
  assert (N : forall v t, neg v = true -> spaced v t = t) by (intros v t E; unfold spaced; rewrite E; auto).
  rewrite app_nil_r. unfold joined. destruct (neg y) eqn:Y, (neg z) eqn:Z.
  - rewrite (N y), (N z), J by auto. rewrite <- (app_nil_r (spaced _ _)), spaced_words; auto using word_app.
  - rewrite (N y) by auto. rewrite app_assoc, J. rewrite <- (app_nil_r (spaced z _)). rewrite spaced_words; auto using word_app.
    rewrite spaced_words; auto.
  - rewrite (N z) by auto. rewrite spaced_words; auto. rewrite J, <- (app_nil_r (spaced y _)), spaced_words; auto using word_app.
  - rewrite spaced_words; auto. rewrite spaced_words; auto.
    + rewrite <- (app_nil_r (spaced z _)), spaced_words; auto.
    + right. rewrite <- (app_nil_r (spaced z _)). auto.
Qed.
Lemma old_triple : forall label r, old_ok label = true -> entry (old_line label (Sci 3) (Vector (triple r))) =
  [(upper (s label), let '(x, y, z) := r in joined (style_text (Sci 3) x) (style_text (Sci 3) y) (style_text (Sci 3) z) (neg y) (neg z))].
Proof. intros label [[x y] z] H. unfold old_line. rewrite old_entry by auto. do 2 f_equal. apply full_fields. Qed.
