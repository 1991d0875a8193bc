(** Proofs about printed texts. *)
From Coq Require Import Ascii String List Arith NArith ZArith QArith Bool Lia.
From Verif Require Import M_base M_merge M_mesh M_text M_mmio M_formats M_print S_text S_print P_text P_mmio P_columns P_formats.
Import ListNotations.
Local Open Scope nat_scope.

Definition style_text (st : style) (x : num) : text := match st with Fix k => fixed_point k x | Sci k => scientific "E" k x end.
Lemma show_style : forall st x, show st x = spaced x (style_text st x). Proof. auto. Qed.
Lemma style_word : forall st x, word (style_text st x).
Proof. intros [k|k] x; [apply fixed_word|apply sci_word; reflexivity]. Qed.
Lemma style_shows : forall dbl st x, shows dbl st x (style_text st x).
Proof.
  intros dbl [k|k] x; eexists; (split; [|]).
  - apply to_float_fixed.
  - apply rd_fixed_saved.
  - apply to_float_scientific. auto.
  - apply rd_sci_saved.
Qed.
Lemma word_chars_nonl : forall t, word t -> nonl t. Proof. intros. apply word_nonl. auto. Qed.
Lemma show_nonl : forall st x, nonl (show st x).
Proof. intros st x. rewrite show_style. unfold spaced. pose proof (word_nonl _ (style_word st x)) as H. destruct (neg x); auto. constructor; auto. Qed.
Lemma show_words : forall st x r, (r = [] \/ exists c r', r = c :: r' /\ is_space c = true) -> words (show st x ++ r) = style_text st x :: words r.
Proof.
  intros st x r R. rewrite show_style. unfold spaced. destruct (neg x).
  - apply words_word; auto using style_word.
  - change (" "%char :: style_text st x) with ([" "%char] ++ style_text st x). rewrite <- app_assoc, words_spaces by (repeat constructor). apply words_word; auto using style_word.
Qed.
Lemma nonl_repeat : forall c n, Ascii.eqb c newline = false -> nonl (repeat c n).
Proof. intros c n H. apply Forall_forall. intros x I. apply repeat_spec in I. subst. auto. Qed.
Lemma ljust_nonl : forall c w t, Ascii.eqb c newline = false -> nonl t -> nonl (ljust c w t).
Proof. intros c w t C T. apply Forall_app. split; auto. apply nonl_repeat. auto. Qed.

(** A field with room left keeps words apart. *)
Lemma field_words : forall st x r, List.length (show st x) < 10 -> words (ljust " " 10 (show st x) ++ r) = style_text st x :: words r.
Proof.
  intros st x r L. unfold ljust. rewrite <- app_assoc. rewrite show_words.
  - f_equal. apply words_spaces, spaces_repeat.
  - right. destruct (10 - List.length (show st x)) eqn:E; [lia|]. cbn. eauto.
Qed.
Lemma fields_words : forall st xs, Forall (fun x => List.length (show st x) < 10) xs ->
  words (concat (map (fun x => ljust " " 10 (show st x)) xs)) = map (style_text st) xs.
Proof. intros st xs F. induction F as [|x xs L F IH]; auto. cbn [map concat]. rewrite field_words by auto. rewrite IH. auto. Qed.

Lemma small_length : forall x, small x -> List.length (show (Fix 3) x) < 10.
Proof.
  intros x S. specialize (S _ (fixed_digits_ok 3 x)). unfold show, spaced, fixed_point. cbv zeta. set (m := nearest _ _) in *.
  assert (D : List.length (digits (m / 10 ^ N.of_nat 3)) <= 4).
  { apply digits_length; [lia|]. apply N.div_lt_upper_bound; [discriminate|]. exact S. }
  destruct (neg x); unfold sign; cbn [app List.length]; rewrite app_length; cbn [List.length]; rewrite fixed_length; lia.
Qed.

(** ** Lines of values *)
Definition label_char (c : ascii) : bool := negb (Ascii.eqb c "-") && negb (Ascii.eqb c ">").
Definition label_ok (label : string) : bool :=
  forallb (fun c => label_char c && negb (Ascii.eqb c newline)) (upper (s label)) && (List.length (upper (s label)) <? 45).
Lemma span_app : forall p a b, forallb p a = true -> match b with c :: _ => p c = false | [] => True end -> span p (a ++ b) = (a, b).
Proof.
  intros p a b. induction a as [|c a IH]; cbn; intros A B.
  - destruct b as [|c b]; auto. cbn. rewrite B. auto.
  - apply andb_prop in A as [C A]. rewrite C, IH; auto.
Qed.
Lemma label_chars : forall label, label_ok label = true -> forallb label_char (upper (s label)) = true.
Proof.
  intros label H. apply andb_prop in H as [H _]. rewrite forallb_forall in *. intros c I. specialize (H c I). apply andb_prop in H as [H _]. auto.
Qed.
Lemma forallb_repeat : forall (p : ascii -> bool) c n, p c = true -> forallb p (repeat c n) = true.
Proof. intros p c n H. induction n; cbn; auto. rewrite H. auto. Qed.
Lemma entry_line : forall label v, label_ok label = true -> entry (tab :: ljust "-" 45 (upper (s label)) ++ s ">  " ++ v) = [(upper (s label), words v)].
Proof.
  intros label v H. unfold entry. change (Ascii.eqb tab tab) with true. cbv iota. unfold ljust. rewrite <- app_assoc.
  fold label_char. change (fun c : ascii => negb (Ascii.eqb c "-") && negb (Ascii.eqb c ">")) with label_char.
  pose proof (label_chars label H) as C. apply andb_prop in H as [_ L]. apply Nat.ltb_lt in L.
  rewrite span_app; auto.
  - rewrite span_app; [|apply forallb_repeat; auto|reflexivity].
    destruct (45 - List.length (upper (s label))) eqn:E; [lia|]. cbn [repeat app s list_ascii_of_string].
    change (" "%char :: " "%char :: v) with ([" "%char; " "%char] ++ v). rewrite words_spaces by (repeat constructor). auto.
  - destruct (45 - List.length (upper (s label))) eqn:E; [lia|]. reflexivity.
Qed.
Lemma entry_scalar : forall label st x, label_ok label = true -> entry (build_line label st (Scalar x)) = [(upper (s label), [style_text st x])].
Proof.
  intros label st x H. unfold build_line. rewrite entry_line by auto. do 2 f_equal. rewrite <- (app_nil_r (show st x)), show_words; auto.
Qed.
Lemma entry_vector : forall label st xs, label_ok label = true -> Forall (fun x => List.length (show st x) < 10) xs ->
  entry (build_line label st (Vector xs)) = [(upper (s label), map (style_text st) xs)].
Proof. intros label st xs H F. unfold build_line. rewrite entry_line by auto. rewrite fields_words; auto. Qed.
Lemma build_nonl : forall label st d, label_ok label = true -> nonl (build_line label st d).
Proof.
  intros label st d H. unfold build_line. constructor; [reflexivity|]. apply nonl_app.
  - apply ljust_nonl; [reflexivity|]. apply andb_prop in H as [H _]. rewrite forallb_forall in H. apply Forall_forall. intros c I. specialize (H c I).
    apply andb_prop in H as [_ H]. apply negb_true_iff. auto.
  - apply nonl_app; [repeat constructor|]. destruct d as [x|xs]; [apply show_nonl|].
    induction xs as [|x xs IH]; [constructor|]. cbn. apply nonl_app; auto. apply ljust_nonl; [reflexivity|apply show_nonl].
Qed.
Lemma nonl_text : forall t, forallb (fun c => negb (Ascii.eqb c newline)) t = true -> nonl t.
Proof. intros t H. rewrite forallb_forall in H. apply Forall_forall. intros c I. apply negb_true_iff. auto. Qed.

(** ** Inertias and summaries *)
Lemma field_words_w : forall w st x r, List.length (show st x) < w -> words (ljust " " w (show st x) ++ r) = style_text st x :: words r.
Proof.
  intros w st x r L. unfold ljust. rewrite <- app_assoc. rewrite show_words.
  - f_equal. apply words_spaces, spaces_repeat.
  - right. destruct (w - List.length (show st x)) eqn:E; [lia|]. cbn. eauto.
Qed.
Lemma show_sci_length : forall x, exponent_room 6 3 x -> List.length (show (Sci 6) x) < 15.
Proof.
  intros [n a b] R. assert (L : List.length (scientific "E" 6 (Num true a b)) <= 14).
  { apply (scientific_length "E" 6 3); [lia|]. intros m e D. apply (R m e). exact D. }
  unfold show, spaced. cbn [neg]. destruct n; [lia|].
  replace (List.length (scientific "E" 6 (Num true a b))) with (S (List.length (scientific "E" 6 (Num false a b)))) in L.
  - cbn [List.length]. lia.
  - unfold scientific. cbn [neg top bot]. destruct (if (a =? 0)%N then _ else _) as [m e]. reflexivity.
Qed.
Definition row_list (r : num * num * num) : list num := let '(x, y, z) := r in [x; y; z].
Lemma inertia_row_words : forall r, Forall (exponent_room 6 3) (row_list r) -> words (inertia_row r) = map (style_text (Sci 6)) (row_list r).
Proof.
  intros [[x y] z] F. cbn in F. inversion F as [|? ? X F1]; subst. inversion F1 as [|? ? Y F2]; subst. inversion F2 as [|? ? Z F3]; subst.
  unfold inertia_row, inertia_field. rewrite field_words_w by (apply show_sci_length; auto). rewrite field_words_w by (apply show_sci_length; auto).
  rewrite <- (app_nil_r (ljust _ _ _)), field_words_w by (apply show_sci_length; auto). reflexivity.
Qed.
Lemma inertia_field_nonl : forall x, nonl (inertia_field x).
Proof. intros x. apply ljust_nonl; [reflexivity|apply show_nonl]. Qed.
Lemma inertia_row_nonl : forall r, nonl (inertia_row r).
Proof. intros [[x y] z]. unfold inertia_row. apply nonl_app; [|apply nonl_app]; apply inertia_field_nonl. Qed.
Lemma field_words_15 : forall x r, exponent_room 6 3 x -> words (inertia_field x ++ r) = style_text (Sci 6) x :: words r.
Proof. intros x r R. apply field_words_w, show_sci_length. auto. Qed.
