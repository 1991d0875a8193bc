(** Reading back what write_DAT writes. *)
From Coq Require Import Ascii String List Arith NArith ZArith Bool Lia.
From Verif Require Import M_base M_merge M_mesh M_text M_mmio S_text P_text P_mmio P_formats M_regex M_files P_regex P_hst P_tec S_files P_layout.
Import ListNotations.
Local Open Scope nat_scope.

(** ** Words in texts *)
Definition contains (w t : text) : Prop := exists a b, t = a ++ w ++ b.
Lemma starts_split : forall w t, starts w t = true -> exists r, t = w ++ r.
Proof.
  induction w as [|a w IH]; intros t H; [exists t; auto|]. destruct t as [|c t]; [discriminate|]. cbn in H. apply andb_prop in H as [H1 H2]. apply Ascii.eqb_eq in H1. subst.
  destruct (IH _ H2) as (r & ->). exists r. auto.
Qed.
Lemma absent_line : forall w h t, nonl w -> ~ contains w h -> (w <> []) -> absent w (h ++ [newline]) t = true.
Proof.
  intros w h t NW NC NE. induction h as [|c h IH]; cbn [app absent].
  - destruct w as [|a w]; [congruence|]. cbn. inversion NW; subst. rewrite H1. auto.
  - rewrite IH; [|intros (a & b & E); apply NC; exists (c :: a), b; cbn; rewrite E; auto]. rewrite andb_true_r. apply negb_true_iff. destruct (starts w (c :: (h ++ [newline]) ++ t)) eqn:S; auto. exfalso.
    apply starts_split in S as (r & E). symmetry in E. change (c :: (h ++ [newline]) ++ t) with ((c :: h ++ [newline]) ++ t) in E.
    replace ((c :: h ++ [newline]) ++ t) with ((c :: h) ++ newline :: t) in E by (cbn; rewrite <- app_assoc; reflexivity).
    destruct (nonl_prefix w r (c :: h) t NW E) as (h' & E1 & _). apply NC. exists [], h'. rewrite E1. auto.
Qed.

(** ** Lines of nodes *)
Definition dat_line : re := seqs [ds; Times 3 (Seq sp (Plus nonspace_re)); sp].
Definition dat_node (iv : nat * vertex) : text := node_text 8 13 5 iv.
Definition pad (w n : nat) : text := repeat " "%char (w - length (digits (N.of_nat n))).
Lemma nonspace_holds : forall t, word t -> holds (fun c => negb (is_space c)) t.
Proof. intros t [_ H]. eapply Forall_impl; [|exact H]. intros c C. cbv beta in *. rewrite C. auto. Qed.
Lemma stops_nonspace : forall p t, p <> [] -> spaces p -> stops (fun c => negb (is_space c)) (p ++ t).
Proof. intros [|c p] t N S; [congruence|]. inversion S; subst. cbn. rewrite H1. auto. Qed.
Lemma eats_field : forall b p w t, p <> [] -> spaces p -> word w -> stops (fun c => negb (is_space c)) t -> eats b (Seq sp (Plus nonspace_re)) (p ++ w) t.
Proof.
  intros b p w t NP SP W S. apply eats_seq; [apply eats_plus_class; auto; apply stops_space_word; auto|]. apply eats_plus_class; [apply W|apply nonspace_holds; auto|auto].
Qed.
Lemma eats_dat_line : forall b i v p t, narrow 13 5 v -> p <> [] -> spaces p -> stops is_space t -> eats b dat_line (digits (N.of_nat i) ++ fields3 (sci_field "E" 13 5) v ++ p) t.
Proof.
  intros b i [[x y] z] p t N NP SP S. unfold dat_line, seqs. cbn [fold_right Times fields3].
  assert (Nx := N x ltac:(cbn; auto)). assert (Ny := N y ltac:(cbn; auto)). assert (Nz := N z ltac:(cbn; auto)).
  assert (PX : forall q, length (scientific "E" 5 q) < 13 -> repeat " "%char (13 - length (scientific "E" 5 q)) <> []) by (intros q L; destruct (13 - _) eqn:E; [lia|discriminate]).
  apply eats_seq; [apply eats_ds; [apply digits_nonempty|apply digits_chars|rewrite <- !app_assoc; apply field_starts; auto]|].
  apply eats_seq.
  - unfold sci_field, rjust. apply eats_seq; [apply eats_field; auto using spaces_repeat; [apply sci_word; auto|rewrite <- !app_assoc; apply stops_nonspace; auto using spaces_repeat]|].
    apply eats_seq; [apply eats_field; auto using spaces_repeat; [apply sci_word; auto|rewrite <- !app_assoc; apply stops_nonspace; auto using spaces_repeat]|].
    apply eats_field; auto using spaces_repeat; [apply sci_word; auto|apply stops_nonspace; auto].
  - apply eats_last. apply eats_plus_class; auto.
Qed.
(** Sections: the first number, then all up to the next one, and so on *)
Definition row_line (nr : nat * text) : text := int_field 8 (fst nr) ++ snd nr.
Fixpoint shifted (l : list (nat * text)) : list text :=
  match l with
  | [] => []
  | (n, r) :: l' => (digits (N.of_nat n) ++ r ++ newline :: match l' with [] => [] | (m, _) :: _ => pad 8 m end) :: shifted l'
  end.
Definition bare (l : list (nat * text)) : list text := match l with [] => [] | (n, r) :: l' => (digits (N.of_nat n) ++ r) :: map row_line l' end.
Definition lead (l : list (nat * text)) : text := match l with [] => [] | (n, _) :: _ => pad 8 n end.
Lemma shifted_text : forall l, concat (map line (map row_line l)) = lead l ++ concat (shifted l).
Proof.
  induction l as [|[n r] l IH]; auto. cbn [map concat shifted lead]. rewrite IH. unfold row_line at 1, line at 1. cbn [fst snd]. rewrite int_parts. fold (pad 8 n). destruct l as [|[m q] l]; cbn [lead]; rewrite <- !app_assoc; reflexivity.
Qed.
Lemma shifted_bare : forall l, concat (shifted l) = concat (map line (bare l)).
Proof.
  intros [|[n r] l]; auto. cbn [shifted bare map concat]. rewrite shifted_text. unfold line. destruct l as [|[m q] l]; cbn [lead]; rewrite <- !app_assoc; reflexivity.
Qed.
Lemma bare_words : forall l, map words (bare l) = map words (map row_line l).
Proof. intros [|[n r] l]; auto. cbn [bare map]. f_equal. unfold row_line. cbn [fst snd]. rewrite int_parts, <- app_assoc. symmetry. apply words_spaces, spaces_repeat. Qed.
Lemma shifted_filled : forall l, Forall (fun l => l <> []) (shifted l).
Proof. induction l as [|[n r] l IH]; cbn [shifted]; constructor; auto. intros E. apply app_eq_nil in E as [E _]. apply (digits_nonempty _ E). Qed.
Lemma shifted_eat : forall r l, (forall nr b p t, In nr l -> p <> [] -> spaces p -> stops is_space t -> eats b r (digits (N.of_nat (fst nr)) ++ snd nr ++ p) t) ->
  forall b x t, In x (shifted l) -> True -> stops is_space t -> eats b r x t /\ True /\ stops is_space (x ++ t).
Proof.
  intros r l. induction l as [|[n q] l IH]; intros H b x t I _ S; [destruct I|]. cbn [shifted] in I. destruct I as [<-|I].
  - split; [|split; [auto|rewrite <- app_assoc; apply stops_space_word, digits_word]]. apply (H (n, q)); [left; auto|discriminate| |auto].
    constructor; [reflexivity|]. destruct l as [|[m r'] l]; [constructor|apply spaces_repeat].
  - apply IH; auto. intros nr b' p t' J. apply H. right. auto.
Qed.
(** Lines of elements *)
Lemma eats_ints : forall l n b p t, fits 8 l -> p <> [] -> spaces p -> stops is_space t -> eats b (Times (S (length l)) (Seq ds sp)) (digits (N.of_nat n) ++ row_text 8 l ++ p) t.
Proof.
  induction l as [|m l IH]; intros n b p t F NP SP S.
  - cbn [length Times]. unfold row_text. cbn [map concat app]. apply eats_int_space; auto using digits_nonempty, digits_chars.
  - inversion F; subst. change (Times (Datatypes.S (length (m :: l))) (Seq ds sp)) with (Seq (Seq ds sp) (Times (Datatypes.S (length l)) (Seq ds sp))).
    eapply eats_eq; [apply eats_seq; [apply (eats_int_space _ (digits (N.of_nat n)) (pad 8 m))|apply (IH m _ p); auto]|].
    + apply digits_nonempty.
    + apply digits_chars.
    + apply blanks_nonempty; auto.
    + apply spaces_repeat.
    + rewrite <- app_assoc. apply stops_space_word, digits_word.
    + unfold row_text. change (concat (map (int_field 8) (m :: l))) with (int_field 8 m ++ concat (map (int_field 8) l)). change (int_field 8 m) with (pad 8 m ++ digits (N.of_nat m)). rewrite <- !app_assoc. auto.
Qed.

(** ** Lines without a word *)
Lemma scan_lines : forall r (no : text -> Prop), (forall l, no l -> nonl l) -> (forall b h u t c, no (u ++ h) -> fails r (St b (h ++ newline :: t) c)) ->
  forall ls b t, Forall no ls -> scan r b (concat (map line ls) ++ t) = scan r (fin b (concat (map line ls))) t.
Proof.
  intros r no NL F. induction ls as [|l ls IH]; intros b t H; auto. inversion H; subst. cbn [map concat]. rewrite <- app_assoc, scan_skip.
  - rewrite IH by auto. rewrite fin_app. auto.
  - intros u v E NV. unfold line in E. destruct (@exists_last _ v NV) as (v' & x & ->). rewrite app_assoc in E. apply app_inj_tail in E as [E <-].
    rewrite <- app_assoc. cbn [app]. apply (F _ _ u). rewrite <- E. auto.
Qed.
Definition free (w : text) (l : text) : Prop := nonl l /\ ~ contains w l.
Lemma contains_tail : forall w u h, contains w h -> contains w (u ++ h). Proof. intros w u h (a & b & ->). exists (u ++ a), b. rewrite <- app_assoc. auto. Qed.
Lemma word_free_fails : forall w r b h u t c, nonl w -> free w (u ++ h) -> fails (Seq (Word w) r) (St b (h ++ newline :: t) c).
Proof.
  intros w r b h u t c NW [_ NC]. apply fails_seq, fails_lang. intros p L. destruct (lang_word _ _ _ L) as (t' & E & _). cbn [snd pos_of prev rest] in E. symmetry in E.
  destruct (nonl_prefix w t' h t NW E) as (h' & -> & _). apply NC, contains_tail. exists [], h'. auto.
Qed.
Definition element_tail (n : nat) : re := seqs [Plus dot_re; ss; Group 1 (Plus (Times n (Seq ds sp))); lit "*RETURN"].
Lemma element_parts : forall type n, dat_element_section type n = Seq (Word (s "ELEMENT")) (Seq (Plus nonspace_re) (Seq (Word (s type)) (element_tail n))). Proof. reflexivity. Qed.
Lemma nonspace_nonl : forall u, holds (fun c => negb (is_space c)) u -> nonl u.
Proof. intros u H. eapply Forall_impl; [|exact H]. intros c C. cbv beta in C. destruct (Ascii.eqb_spec c newline); auto. subst. discriminate. Qed.
Lemma lang_plus_class : forall p x y, lang (Plus (Chr p)) x y -> exists u, snd x = u ++ snd y /\ fst y = fin (fst x) u /\ holds p u.
Proof.
  intros p x y L. destruct (lang_seq _ _ _ _ L) as (z & L1 & L2). inversion L1; subst. destruct (lang_star_class _ _ _ L2) as (u & E & B & H). cbn [fst snd] in *. exists (c :: u). split; [rewrite E; auto|]. split; [rewrite B; auto|constructor; auto].
Qed.
Lemma element_free_fails : forall type n b h u t c, nonl (s type) -> free (s type) (u ++ h) -> fails (dat_element_section type n) (St b (h ++ newline :: t) c).
Proof.
  intros type n b h u t c NW [_ NC]. apply fails_lang. intros p L. rewrite element_parts in L. destruct (lang_seq _ _ _ _ L) as (z1 & L1 & L'). clear L.
  destruct (lang_word _ _ _ L1) as (t1 & E1 & ->). cbn [snd fst pos_of prev rest] in E1. symmetry in E1. destruct (nonl_prefix (s "ELEMENT") t1 h _ ltac:(repeat constructor) E1) as (h1 & -> & ->). clear E1 L1.
  destruct (lang_seq _ _ _ _ L') as (y & L2 & L). clear L'. destruct (lang_plus_class _ _ _ L2) as (v & E & B & HU). cbn [snd] in E. symmetry in E.
  destruct (nonl_prefix v (snd y) h1 _ (nonspace_nonl _ HU) E) as (h2 & -> & E2). clear E L2. destruct y as [b2 y]. cbn [fst snd] in *. subst y.
  destruct (lang_seq _ _ _ _ L) as (z & L3 & _). destruct (lang_word _ _ _ L3) as (t3 & E3 & _). cbn [snd] in E3. symmetry in E3. destruct (nonl_prefix _ t3 h2 _ NW E3) as (h3 & -> & _).
  apply NC, contains_tail. exists (s "ELEMENT" ++ v), h3. rewrite <- app_assoc. auto.
Qed.

(** ** The file *)
Definition node_rows (vs : list vertex) : list (nat * text) := map (fun iv => (S (fst iv), fields3 (sci_field "E" 13 5) (snd iv))) (numbered vs).
Definition elem_rows (fs : list (nat * list nat)) : list (nat * text) := map (fun jf => (S (fst jf), row_text 8 (snd jf))) fs.
Definition dat_head (date root : text) : list text := [s "$"; s "$ Data for DIODORE input file : " ++ root; s "$ GENERATED BY MESHMAGICK ON " ++ date; s "$"].
Definition elem_head (type : string) (root : text) : text := s "$ ELEMENT,TYPE=" ++ s type ++ s ",ELSTRUCTURE=" ++ root.
Definition block_lines (type : string) (root : text) (fs : list (nat * list nat)) : list text :=
  match fs with [] => [] | _ => s "$" :: elem_head type root :: map row_line (elem_rows fs) ++ [s "*RETURN"] end.
Definition dat_quads (fs : list face) : list (nat * list nat) := map (fun jf => (fst jf, corners (plus_one (snd jf)))) (filter (fun jf => negb (dat_triangle jf)) (numbered fs)).
Definition dat_tris (fs : list face) : list (nat * list nat) := map (fun jf => (fst jf, firstn 3 (corners (plus_one (snd jf))))) (filter dat_triangle (numbered fs)).
Lemma newlines_lines : forall ls (t : text), concat (map (cons newline) ls) ++ newline :: t = newline :: concat (map line ls) ++ t.
Proof. induction ls as [|l ls IH]; intros t; auto. cbn [map concat app]. unfold line at 1. rewrite <- !app_assoc, IH. auto. Qed.
Lemma block_text : forall type root fs, element_block type root fs = concat (map line (block_lines type root fs)).
Proof.
  intros type root fs. unfold element_block, block_lines. destruct fs as [|f fs]; auto. cbn [map concat]. rewrite map_app, concat_app. f_equal.
  unfold elem_head, line at 2. rewrite <- !app_assoc. do 4 f_equal.
  transitivity (concat (map (cons newline) (map row_line (elem_rows (f :: fs)))) ++ newline :: line (s "*RETURN")).
  - f_equal. unfold element_lines, elem_rows. rewrite !map_map. auto.
  - rewrite newlines_lines. cbn [app map concat]. rewrite app_nil_r. reflexivity.
Qed.
Lemma dat_text : forall date root vs fs, vs <> [] -> write_DAT date root vs fs =
  concat (map line (dat_head date root)) ++ line (s "$ NODE") ++ concat (map line (map row_line (node_rows vs))) ++ line (s "*RETURN") ++
  concat (map line (block_lines "Q4C000" root (dat_quads fs) ++ block_lines "T3C000" root (dat_tris fs))).
Proof.
  intros date root vs fs V. unfold write_DAT. fold (dat_quads fs) (dat_tris fs). rewrite !block_text, map_app, concat_app. unfold dat_head. cbn [map concat]. rewrite app_nil_r, <- !app_assoc. do 5 f_equal.
  rewrite join_more by (apply map_nonempty, numbered_nonempty; auto). unfold node_rows. rewrite !map_map. auto.
Qed.

(** ** Words that are not there *)
Definition numeric (c : ascii) : bool := is_digit c || is_space c || existsb (Ascii.eqb c) (s ".E+-").
Lemma free_numeric : forall a w l, numeric a = false -> holds numeric l -> ~ contains (a :: w) l.
Proof.
  intros a w l A H (x & y & ->). apply Forall_app in H as [_ H]. inversion H; subst. congruence.
Qed.
Lemma holds_app : forall p a b, holds p a -> holds p b -> holds p (a ++ b). Proof. intros. apply Forall_app. auto. Qed.
Lemma numeric_digits : forall t, all_digits t -> holds numeric t. Proof. intros t H. eapply Forall_impl; [|exact H]. intros c C. cbv beta in *. unfold numeric. rewrite C. auto. Qed.
Lemma numeric_spaces : forall t, spaces t -> holds numeric t. Proof. intros t H. eapply Forall_impl; [|exact H]. intros c C. cbv beta in *. unfold numeric. rewrite C. apply orb_true_iff. left. apply orb_true_r. Qed.
Lemma numeric_int : forall w n, holds numeric (int_field w n).
Proof. intros. rewrite int_parts. apply holds_app; [apply numeric_spaces, spaces_repeat|apply numeric_digits, digits_chars]. Qed.
Lemma numeric_row : forall w l, holds numeric (row_text w l).
Proof. intros w l. unfold row_text. induction l as [|n l IH]; cbn [map concat]; [constructor|]. apply holds_app; auto using numeric_int. Qed.
Lemma numeric_sci : forall k x, holds numeric (scientific "E" k x).
Proof.
  intros k x. rewrite sci_parts. pose proof (exponent_digits_ok (Z.abs_N (snd (sci_pair k x)))) as (X2 & _).
  apply holds_app; [destruct (neg x); unfold holds; cbn [sign]; repeat constructor|]. apply holds_app; [apply holds_app; [apply numeric_digits, digits_chars|apply holds_app; [constructor; [reflexivity|constructor]|apply numeric_digits, fixed_digits_chars]]|].
  unfold sci_tail. constructor; [reflexivity|]. constructor; [destruct (_ <? 0)%Z; reflexivity|]. apply numeric_digits. auto.
Qed.
Lemma numeric_fields : forall w k v, holds numeric (fields3 (sci_field "E" w k) v).
Proof.
  intros w k [[x y] z]. unfold fields3, sci_field, rjust. repeat apply holds_app; first [apply numeric_spaces, spaces_repeat | apply numeric_sci].
Qed.
Lemma row_nonl : forall w l, nonl (row_text w l).
Proof. intros w l. unfold row_text. induction l as [|n l IH]; cbn [map concat]; [constructor|]. apply nonl_app; auto using int_nonl. Qed.
Lemma node_rows_free : forall a w vs, numeric a = false -> Forall (free (a :: w)) (map row_line (node_rows vs)).
Proof.
  intros a w vs A. unfold node_rows. rewrite map_map. apply Forall_map_intro. intros iv _. unfold row_line. cbn [fst snd]. split.
  - apply nonl_app; [apply int_nonl|apply nat_vertex_nonl; reflexivity].
  - apply free_numeric; auto. apply holds_app; [apply numeric_int|apply numeric_fields].
Qed.
Lemma elem_rows_free : forall a w fs, numeric a = false -> Forall (free (a :: w)) (map row_line (elem_rows fs)).
Proof.
  intros a w fs A. unfold elem_rows. rewrite map_map. apply Forall_map_intro. intros jf _. unfold row_line. cbn [fst snd]. split.
  - apply nonl_app; [apply int_nonl|apply row_nonl].
  - apply free_numeric; auto. apply holds_app; [apply numeric_int|apply numeric_row].
Qed.
Lemma absent_contains : forall w h r, w <> [] -> absent w h r = true -> ~ contains w r -> ~ contains w (h ++ r).
Proof.
  intros w h r NW. induction h as [|c h IH]; intros A N (x & y & E); [apply N; exists x, y; auto|]. cbn [absent] in A. apply andb_prop in A as [A1 A2].
  destruct x as [|d x].
  - cbn [app] in E. rewrite E, starts_app in A1. discriminate.
  - injection E as _ E. apply (IH A2 N). exists x, y. auto.
Qed.
Lemma contains_nil : forall w, w <> [] -> ~ contains w []. Proof. intros w N (x & y & E). symmetry in E. apply app_eq_nil in E as [_ E]. apply app_eq_nil in E as [E _]. auto. Qed.
Lemma free_closed : forall w l, w <> [] -> nonl l -> absent w l [] = true -> free w l.
Proof. intros w l NW NL A. split; auto. rewrite <- (app_nil_r l). apply absent_contains; auto. apply contains_nil; auto. Qed.
(** A word that is not made by the fixed parts of the headers *)
Definition unlike (w : text) : Prop := w <> [] /\ (forall r, absent w (s "$ Data for DIODORE input file : ") r = true) /\ (forall r, absent w (s "$ GENERATED BY MESHMAGICK ON ") r = true) /\
  free w (s "$") /\ free w (s "*RETURN").
Lemma head_free : forall w date root, unlike w -> free w root -> free w date -> Forall (free w) (dat_head date root).
Proof.
  intros w date root (NW & U1 & U2 & U3 & U4) [R1 R2] [D1 D2]. unfold dat_head. constructor; [exact U3|]. constructor; [split; [apply nonl_app; auto; repeat constructor|apply absent_contains; auto]|].
  constructor; [split; [apply nonl_app; auto; repeat constructor|apply absent_contains; auto]|]. constructor; [exact U3|constructor].
Qed.
Lemma block_free : forall a w type root fs, numeric a = false -> unlike (a :: w) -> free (a :: w) root -> nonl (s type) -> (forall r, absent (a :: w) (s "$ ELEMENT,TYPE=" ++ s type ++ s ",ELSTRUCTURE=") r = true) ->
  Forall (free (a :: w)) (block_lines type root fs).
Proof.
  intros a w type root fs NA (NW & U1 & U2 & U3 & U4) [R1 R2] NT H. unfold block_lines. destruct fs as [|f fs]; [constructor|]. constructor; [exact U3|]. constructor.
  - unfold elem_head. split; [repeat apply nonl_app; auto; repeat constructor|]. rewrite !app_assoc. apply absent_contains; auto.
  - apply Forall_app. split; [apply elem_rows_free; auto|]. constructor; [exact U4|constructor].
Qed.
Ltac closed_free := apply free_closed; [discriminate|repeat constructor|reflexivity].
Lemma unlike_node : unlike (s "NODE"). Proof. split; [discriminate|]. split; [intros; reflexivity|]. split; [intros; reflexivity|]. split; closed_free. Qed.
Lemma unlike_t3 : unlike (s "T3C000"). Proof. split; [discriminate|]. split; [intros; reflexivity|]. split; [intros; reflexivity|]. split; closed_free. Qed.
Lemma unlike_q4 : unlike (s "Q4C000"). Proof. split; [discriminate|]. split; [intros; reflexivity|]. split; [intros; reflexivity|]. split; closed_free. Qed.

(** ** What is found *)
Definition blocks (root : text) (fs : list face) : list text := block_lines "Q4C000" root (dat_quads fs) ++ block_lines "T3C000" root (dat_tris fs).
Lemma stops_star : stops is_space (s "*RETURN"). Proof. reflexivity. Qed.
Lemma section_eat : forall r l b t, l <> [] -> (forall nr b p t, In nr l -> p <> [] -> spaces p -> stops is_space t -> eats b r (digits (N.of_nat (fst nr)) ++ snd nr ++ p) t) ->
  (forall b t c, fails r (St b ("*"%char :: t) c)) -> eats b (Plus r) (concat (shifted l)) ("*"%char :: t).
Proof.
  intros r l b t NL E F. pose proof (shifted_filled l) as FI. pose proof (shifted_eat r l E) as EA. destruct (shifted l) as [|x xs] eqn:SH; [destruct l as [|[n q] l]; [congruence|discriminate]|].
  apply (eats_plus_list (stops is_space) (fun _ => True)); auto. reflexivity.
Qed.
Lemma lead_spaces : forall l, spaces (lead l). Proof. intros [|[n r] l]; [constructor|apply spaces_repeat]. Qed.
Lemma section_stops : forall l t, l <> [] -> stops is_space (concat (shifted l) ++ t).
Proof. intros [|[n r] l] t N; [congruence|]. cbn [shifted concat]. rewrite <- !app_assoc. apply stops_space_word, digits_word. Qed.
Lemma node_section : forall b l t, l <> [] -> (forall nr b p t, In nr l -> p <> [] -> spaces p -> stops is_space t -> eats b dat_line (digits (N.of_nat (fst nr)) ++ snd nr ++ p) t) ->
  gets b dat_node_section (s "NODE" ++ (newline :: lead l) ++ concat (shifted l) ++ s "*RETURN") t [(1, concat (shifted l))].
Proof.
  intros b l t NL E. unfold dat_node_section, seqs. cbn [fold_right]. fold dat_line.
  apply gets_then; [apply eats_word|]. apply gets_then; [apply eats_star_class; [constructor; [reflexivity|apply lead_spaces]|rewrite <- app_assoc; apply section_stops; auto]|].
  apply (gets_group_then _ 1 (Plus dat_line) _ _ _ _ []).
  - apply section_eat; auto. intros b0 t0 c. apply fails_seq, fails_seq, fails_chr. reflexivity.
  - apply gets_eats, eats_last, eats_word.
Qed.
Lemma node_rows_eat : forall vs, narrow_all 13 5 vs -> forall nr b p t, In nr (node_rows vs) -> p <> [] -> spaces p -> stops is_space t -> eats b dat_line (digits (N.of_nat (fst nr)) ++ snd nr ++ p) t.
Proof. intros vs N nr b p t I NP SP S. unfold node_rows in I. apply in_map_iff in I as ([i v] & <- & I). apply in_combine_seq in I. cbn [fst snd]. apply eats_dat_line; auto. Qed.
Lemma node_rows_nonempty : forall vs, vs <> [] -> node_rows vs <> []. Proof. intros. apply map_nonempty, numbered_nonempty. auto. Qed.
Lemma node_found : forall date root vs fs, vs <> [] -> narrow_all 13 5 vs -> free (s "NODE") root -> free (s "NODE") date ->
  findall1 dat_node_section (write_DAT date root vs fs) = [concat (shifted (node_rows vs))].
Proof.
  intros date root vs fs V N R D. unfold findall1, matches. rewrite dat_text by auto. rewrite shifted_text. fold (blocks root fs).
  match goal with |- map _ (matches_from (S (length ?t)) ?r None _) = _ => change (matches_from (S (length t)) r None t) with (all_matches r None t) end.
  set (sec := concat (shifted (node_rows vs))). set (body := concat (map line (blocks root fs))).
  set (pre := concat (map line (dat_head date root))).
  set (w := s "NODE" ++ (newline :: lead (node_rows vs)) ++ sec ++ s "*RETURN").
  replace (pre ++ line (s "$ NODE") ++ (lead (node_rows vs) ++ sec) ++ line (s "*RETURN") ++ body) with (pre ++ s "$ " ++ w ++ newline :: body)
    by (unfold w, line; rewrite <- !app_assoc; reflexivity).
  assert (SC : scan dat_node_section None (pre ++ s "$ " ++ w ++ newline :: body) = Some ((w, [(1, sec)]), St (fin (fin (fin None pre) (s "$ ")) w) (newline :: body) [(1, sec)])).
  { unfold pre. rewrite (scan_lines dat_node_section (free (s "NODE"))).
    - etransitivity; [apply (scan_absent (s "NODE") _ (s "$ ") _ (w ++ newline :: body)); reflexivity|]. apply scan_here. apply (node_section _ (node_rows vs)); [apply node_rows_nonempty; auto|]. apply node_rows_eat. auto.
    - intros l H. apply H.
    - intros b h u t c H. apply (word_free_fails (s "NODE") _ b h u t c); auto. repeat constructor.
    - apply head_free; auto. apply unlike_node. }
  rewrite (all_step _ _ _ _ _ _ _ _ SC).
  - cbn [map]. unfold group at 1. cbn [snd assoc_nat Nat.eqb]. f_equal. rewrite all_none; auto.
    change (newline :: body) with (concat (map line ([] :: blocks root fs))). rewrite <- (app_nil_r (concat _)). rewrite (scan_lines dat_node_section (free (s "NODE"))).
    + reflexivity.
    + intros l H. apply H.
    + intros b h u t c H. apply (word_free_fails (s "NODE") _ b h u t c); auto. repeat constructor.
    + constructor; [closed_free|]. apply Forall_app. split; (apply (block_free "N"%char (s "ODE")); [reflexivity|apply unlike_node|auto|repeat constructor|intros; reflexivity]).
  - discriminate.
  - rewrite !app_length. cbn [length]. unfold w. rewrite app_length. cbn [s length list_ascii_of_string]. lia.
Qed.

Lemma gets_assoc : forall b r1 r2 r3 u t cs, gets b (Seq r1 (Seq r2 r3)) u t cs -> gets b (Seq (Seq r1 r2) r3) u t cs. Proof. intros b r1 r2 r3 u t cs H c X k x E. apply (H c X k x E). Qed.
Lemma absent_app : forall w a b t, absent w (a ++ b) t = absent w a (b ++ t) && absent w b t.
Proof. intros w a. induction a as [|c a IH]; intros b t; auto. cbn [app absent]. rewrite IH, app_assoc, andb_assoc. auto. Qed.
Lemma absent_suffix : forall w u v t, absent w (u ++ v) t = true -> v <> [] -> starts w (v ++ t) = false.
Proof.
  intros w u v t A N. rewrite absent_app in A. apply andb_prop in A as [_ A]. destruct v as [|c v]; [congruence|]. cbn [absent] in A. apply andb_prop in A as [A _]. apply negb_true_iff in A. auto.
Qed.
Lemma split_word : forall root, exists r1 r2, root = r1 ++ r2 /\ holds (fun c => negb (is_space c)) r1 /\ forall t, stops (fun c => negb (is_space c)) (r2 ++ newline :: t).
Proof.
  induction root as [|c root (r1 & r2 & -> & H & S)]; [exists [], []; split; auto; split; [constructor|reflexivity]|].
  destruct (is_space c) eqn:C.
  - exists [], (c :: r1 ++ r2). split; auto. split; [constructor|]. intros t. cbn. rewrite C. auto.
  - exists (c :: r1), r2. split; auto. split; [constructor; auto; cbv beta; rewrite C; auto|auto].
Qed.
Lemma element_section : forall a ty n b l root t, holds (fun c => negb (is_space c)) (s (String a ty)) -> (forall r, absent (s (String a ty)) (s ty ++ s ",ELSTRUCTURE=") r = true) -> free (s (String a ty)) root ->
  l <> [] -> (forall nr b p t, In nr l -> p <> [] -> spaces p -> stops is_space t -> eats b (Times n (Seq ds sp)) (digits (N.of_nat (fst nr)) ++ snd nr ++ p) t) ->
  (forall b t c, fails (Times n (Seq ds sp)) (St b ("*"%char :: t) c)) ->
  gets b (dat_element_section (String a ty) n) (s "ELEMENT" ++ s "," ++ s "TYPE=" ++ s (String a ty) ++ (s ",ELSTRUCTURE=" ++ root) ++ (newline :: lead l) ++ concat (shifted l) ++ s "*RETURN") t [(1, concat (shifted l))].
Proof.
  intros a ty n b l root t HT AB [NR CR] NL E F. rewrite element_parts.
  apply gets_then; [apply eats_word|]. unfold Plus at 1. apply gets_assoc. apply gets_then; [apply eats_chr; reflexivity|].
  destruct (split_word root) as (r1 & r2 & ER & H1 & S2).
  set (sec := concat (shifted l)).
  apply (gets_back _ _ (s "TYPE=") _ _ (s (String a ty) ++ s ",ELSTRUCTURE=" ++ r1) (r2 ++ (newline :: lead l) ++ sec ++ s "*RETURN" ++ t)).
  - apply gets_then; [apply eats_word|]. unfold element_tail, seqs. cbn [fold_right].
    apply gets_then; [apply eats_plus_class; [discriminate| |reflexivity]|].
    { apply Forall_app. split; [repeat constructor|]. eapply Forall_impl; [|exact NR]. intros c C. cbv beta in *. rewrite C. auto. }
    apply gets_then; [apply eats_star_class; [constructor; [reflexivity|apply lead_spaces]|rewrite <- app_assoc; apply section_stops; auto]|].
    apply (gets_group_then _ 1 _ _ _ _ _ []); [apply section_eat; auto|]. apply gets_eats, eats_last, eats_word.
  - rewrite ER, <- !app_assoc. reflexivity.
  - apply Forall_app. split; [repeat constructor|]. apply Forall_app. split; [auto|]. apply Forall_app. split; [repeat constructor|auto].
  - apply S2.
  - intros v1 v2 c EV NV. apply fails_seq, fails_word. destruct v1 as [|x v1]; [congruence|]. change (s (String a ty)) with (a :: s ty) in EV. assert (EV' : s ty ++ s ",ELSTRUCTURE=" ++ r1 = v1 ++ v2) by (injection EV as _ EV; exact EV). clear EV.
    replace (v2 ++ r2 ++ (newline :: lead l) ++ sec ++ s "*RETURN" ++ t) with ((v2 ++ r2 ++ [newline]) ++ lead l ++ sec ++ s "*RETURN" ++ t) by (rewrite <- !app_assoc; reflexivity).
    apply (absent_suffix _ v1); [|intros Z; apply app_eq_nil in Z as [_ Z]; apply app_eq_nil in Z as [_ Z]; discriminate].
    replace (v1 ++ v2 ++ r2 ++ [newline]) with ((s ty ++ s ",ELSTRUCTURE=") ++ root ++ [newline]).
    2: { rewrite ER. transitivity ((s ty ++ s ",ELSTRUCTURE=" ++ r1) ++ r2 ++ [newline]); [rewrite <- !app_assoc; reflexivity|]. etransitivity; [apply (f_equal (fun z => z ++ r2 ++ [newline]) EV')|]. rewrite <- !app_assoc. auto. }
    rewrite absent_app, AB. apply absent_line; [apply nonspace_nonl; auto|auto|discriminate].
Qed.
Lemma elem_rows_eat : forall n fs, Forall (fun jf => length (snd jf) = n /\ fits 8 (snd jf)) fs ->
  forall nr b p t, In nr (elem_rows fs) -> p <> [] -> spaces p -> stops is_space t -> eats b (Times (S n) (Seq ds sp)) (digits (N.of_nat (fst nr)) ++ snd nr ++ p) t.
Proof.
  intros n fs H nr b p t I NP SP S. unfold elem_rows in I. apply in_map_iff in I as (jf & <- & I). apply (proj1 (Forall_forall _ _) H) in I as [L F]. cbn [fst snd]. rewrite <- L. apply eats_ints; auto.
Qed.
(** The first section of a type, after lines without this type *)
Lemma element_found : forall a ty n root fs pre post, holds (fun c => negb (is_space c)) (s (String a ty)) -> (forall r, absent (s (String a ty)) (s ty ++ s ",ELSTRUCTURE=") r = true) -> free (s (String a ty)) root ->
  fs <> [] -> Forall (fun jf => length (snd jf) = S n /\ fits 8 (snd jf)) fs -> Forall (free (s (String a ty))) pre -> free (s (String a ty)) (s "$") ->
  exists more, findall1 (dat_element_section (String a ty) (S (S n))) (concat (map line (pre ++ block_lines (String a ty) root fs ++ post))) = concat (shifted (elem_rows fs)) :: more.
Proof.
  intros a ty n root fs pre post HT AB R NF H P D. unfold findall1, matches. set (type := String a ty) in *.
  match goal with |- exists m, map _ (matches_from (S (length ?t)) ?r None _) = _ => change (matches_from (S (length t)) r None t) with (all_matches r None t) end.
  set (sec := concat (shifted (elem_rows fs))).
  set (w := s "ELEMENT" ++ s "," ++ s "TYPE=" ++ s type ++ (s ",ELSTRUCTURE=" ++ root) ++ (newline :: lead (elem_rows fs)) ++ sec ++ s "*RETURN").
  set (body := concat (map line post)).
  replace (concat (map line (pre ++ block_lines type root fs ++ post))) with (concat (map line (pre ++ [s "$"])) ++ s "$ " ++ w ++ newline :: body).
  2: { rewrite !map_app, !concat_app. unfold block_lines. destruct fs as [|f fs]; [congruence|]. cbn [map concat]. rewrite !map_app, !concat_app, shifted_text. fold sec body. cbn [map concat]. unfold w, elem_head, line. rewrite !app_nil_r, <- !app_assoc. reflexivity. }
  assert (NR : elem_rows fs <> []) by (apply map_nonempty; auto).
  assert (SC : exists b', scan (dat_element_section type (S (S n))) None (concat (map line (pre ++ [s "$"])) ++ s "$ " ++ w ++ newline :: body) = Some ((w, [(1, sec)]), St b' (newline :: body) [(1, sec)])).
  { rewrite (scan_lines _ (free (s type))).
    - eexists. etransitivity; [apply (scan_absent (s "ELEMENT") _ (s "$ ") _ (w ++ newline :: body)); reflexivity|]. apply scan_here. apply (element_section a ty (S (S n)) _ (elem_rows fs)); auto.
      + apply elem_rows_eat; auto.
      + intros b t c. apply fails_seq, fails_seq, fails_seq, fails_chr. reflexivity.
    - intros l L. apply L.
    - intros b h u t c L. apply (element_free_fails type _ b h u t c); auto. apply nonspace_nonl. auto.
    - apply Forall_app. split; auto. }
  destruct SC as (b' & SC). rewrite (all_step _ _ _ _ _ _ _ _ SC).
  - eexists. cbn [map]. unfold group at 1. cbn [snd assoc_nat Nat.eqb]. reflexivity.
  - discriminate.
  - rewrite !app_length. cbn [length]. unfold w. rewrite !app_length. cbn [s length list_ascii_of_string]. lia.
Qed.
Lemma word_chars : forall t, forallb (fun c => negb (is_space c)) t = true -> holds (fun c => negb (is_space c)) t.
Proof. intros t H. apply Forall_forall. intros c C. rewrite forallb_forall in H. auto. Qed.
Lemma element_none : forall type n ls, nonl (s type) -> Forall (free (s type)) ls -> findall1 (dat_element_section type n) (concat (map line ls)) = [].
Proof.
  intros type n ls NT H. unfold findall1, matches.
  match goal with |- map _ (matches_from (S (length ?t)) ?r None _) = _ => change (matches_from (S (length t)) r None t) with (all_matches r None t) end.
  rewrite all_none; auto. rewrite <- (app_nil_r (concat _)), (scan_lines _ (free (s type))).
  - apply scan_none. intros u v E. symmetry in E. apply app_eq_nil in E as [-> ->]. apply fails_seq, fails_seq, fails_chr. exact I.
  - intros l L. apply L.
  - intros b h u t c L. apply (element_free_fails type _ b h u t c); auto.
  - auto.
Qed.

(** ** Reading the sections *)
Definition nobreak (t : text) : Prop := Forall (fun c => is_break c = false) t.
Lemma splitlines_line : forall l acc t, nobreak l -> splitlines_from acc (l ++ newline :: t) = (rev acc ++ l) :: splitlines_from [] t.
Proof.
  induction l as [|c l IH]; intros acc t H; [cbn; rewrite app_nil_r; auto|]. inversion H; subst. cbn [app splitlines_from]. rewrite H2, IH by auto. cbn [rev]. rewrite <- app_assoc. auto.
Qed.
Lemma splitlines_lines : forall ls, Forall nobreak ls -> splitlines (concat (map line ls)) = ls.
Proof.
  unfold splitlines. induction ls as [|l ls IH]; intros H; auto. inversion H; subst. cbn [map concat]. unfold line at 1. rewrite <- app_assoc. cbn [app]. rewrite splitlines_line by auto. cbn [rev app]. rewrite IH; auto.
Qed.
Lemma word_nobreak : forall t, word t -> nobreak t.
Proof.
  intros t [_ H]. eapply Forall_impl; [|exact H]. intros c C. cbv beta in *. destruct (is_break c) eqn:B; auto. exfalso. unfold is_break, is_space in *. destruct c as [[] [] [] [] [] [] [] []]; vm_compute in B, C; discriminate.
Qed.
Lemma nobreak_app : forall a b, nobreak a -> nobreak b -> nobreak (a ++ b). Proof. intros. apply Forall_app; auto. Qed.
Lemma blank_nobreak : forall n, nobreak (repeat " "%char n). Proof. induction n; cbn; constructor; auto. Qed.
Lemma int_nobreak : forall w n, nobreak (int_field w n). Proof. intros. rewrite int_parts. apply nobreak_app; [apply blank_nobreak|apply word_nobreak, digits_word]. Qed.
Lemma row_nobreak : forall w l, nobreak (row_text w l).
Proof. intros w l. unfold row_text. induction l as [|n l IH]; cbn [map concat]; [constructor|]. apply nobreak_app; auto using int_nobreak. Qed.
Lemma fields_nobreak : forall w k v, nobreak (fields3 (sci_field "E" w k) v).
Proof. intros w k [[x y] z]. unfold fields3, sci_field, rjust. repeat apply nobreak_app; first [apply blank_nobreak | apply word_nobreak, sci_word; reflexivity]. Qed.
Lemma bare_nobreak : forall l, Forall (fun nr => nobreak (snd nr)) l -> Forall nobreak (bare l).
Proof.
  intros [|[n r] l] H; [constructor|]. inversion H; subst. cbn [bare]. constructor; [apply nobreak_app; [apply word_nobreak, digits_word|auto]|].
  apply Forall_map_intro. intros nr I. apply nobreak_app; [apply int_nobreak|]. apply (proj1 (Forall_forall _ _) H3 nr I).
Qed.
Lemma mapM_words : forall B (g : list text -> res B) l, Forall (fun nr => nobreak (snd nr)) l ->
  mapM (fun x => g (words x)) (splitlines (concat (shifted l))) = mapM g (map words (map row_line l)).
Proof.
  intros B g l H. rewrite shifted_bare, splitlines_lines by (apply bare_nobreak; auto). rewrite <- bare_words. generalize (bare l). intros ls. induction ls as [|x ls IH]; auto. cbn [mapM map]. rewrite IH. auto.
Qed.
Lemma row_words : forall w j l, fits w l -> words (int_field w j ++ row_text w l) = map (fun n => digits (N.of_nat n)) (j :: l).
Proof.
  intros w j l F. replace (int_field w j ++ row_text w l) with (join (map (fun n => cell w (digits (N.of_nat n))) (j :: l))) by (unfold join; rewrite map_map; reflexivity).
  rewrite words_join; [rewrite map_map; reflexivity|]. cbn [map]. apply cell_first; [apply digits_word|]. apply Forall_map_intro. intros n I. apply cell_apart; [apply digits_word|]. apply (proj1 (Forall_forall _ _) F n I).
Qed.
Lemma digits_inj : forall m n, digits (N.of_nat m) = digits (N.of_nat n) -> m = n.
Proof. intros m n E. pose proof (to_int_of_nat m) as A. rewrite E, to_int_of_nat in A. injection A as A. lia. Qed.
Lemma position_found : forall n i k, k < n -> position_of (digits (N.of_nat (S (i + k)))) (combine (map (fun j => digits (N.of_nat (S j))) (seq i n)) (seq i n)) = Ok (i + k).
Proof.
  induction n as [|n IH]; intros i k L; [lia|]. cbn [seq map combine position_of].
  destruct k as [|k].
  - rewrite Nat.add_0_r. assert (E : position_of (digits (N.of_nat (S i))) (combine (map (fun j => digits (N.of_nat (S j))) (seq (S i) n)) (seq (S i) n)) = Raise KeyError).
    { clear. assert (H : forall j, i < j -> position_of (digits (N.of_nat (S i))) (combine (map (fun j => digits (N.of_nat (S j))) (seq j n)) (seq j n)) = Raise KeyError).
      { induction n as [|n IH]; intros j L; auto. cbn [seq map combine position_of]. rewrite IH by lia. destruct list_eq_dec as [E|]; auto. apply digits_inj in E. lia. }
      apply H. lia. }
    rewrite E. destruct list_eq_dec; [auto|congruence].
  - replace (i + S k) with (S i + k) by lia. rewrite IH by lia. auto.
Qed.
Definition names_of (n : nat) : list (text * nat) := combine (map (fun j => digits (N.of_nat (S j))) (seq 0 n)) (seq 0 n).
Lemma name_found : forall n k, k < n -> position_of (digits (N.of_nat (S k))) (names_of n) = Ok k.
Proof. intros n k L. apply (position_found n 0 k L). Qed.

Section DAT.
  Variable dbl : N -> Z -> N * positive.
  Definition node_of (ws : list text) : res (text * list text) := match ws with w :: ws => Ok (w, ws) | [] => Raise IndexError end.
  Lemma nodes_read : forall vs, narrow_all 13 5 vs -> mapM (fun l => node_of (words l)) (splitlines (concat (shifted (node_rows vs)))) = Ok (map (fun iv => (digits (N.of_nat (S (fst iv))), map (scientific "E" 5) (coordinates (snd iv)))) (numbered vs)).
  Proof.
    intros vs N. rewrite mapM_words by (apply Forall_map_intro; intros; apply fields_nobreak). unfold node_rows. rewrite !map_map. apply mapM_all. intros [i v] I. apply in_combine_seq in I. unfold row_line. cbn [fst snd].
    rewrite (index_words 8 13 (scientific "E" 5)); [reflexivity|intros; apply sci_word; auto|apply N; auto].
  Qed.
  Lemma numbered_names : forall vs : list vertex, map (fun iv : nat * vertex => digits (N.of_nat (S (fst iv)))) (numbered vs) = map (fun j => digits (N.of_nat (S j))) (seq 0 (length vs)).
  Proof. intros vs. unfold numbered. generalize 0. induction vs as [|v vs IH]; intros i; auto. cbn [length seq combine map fst]. rewrite IH. auto. Qed.
  Definition face_at (names : list (text * nat)) (is : list nat) (ws : list text) : res (list Z) :=
    mapM (fun i => do w <- word_at i ws; do n <- position_of w names; Ok (Z.of_nat n)) is.
  Lemma faces_read : forall n is fs, Forall (fun jf => fits 8 (map S (snd jf)) /\ Forall (fun k => k < n) (snd jf) /\ Forall (fun i => 1 <= i <= length (snd jf)) is) fs ->
    mapM (dat_face (names_of n) is) (splitlines (concat (shifted (elem_rows (map (fun jf => (fst jf, map S (snd jf))) fs))))) = Ok (map (fun jf => map (fun i => Z.of_nat (nth (i - 1) (snd jf) 0)) is) fs).
  Proof.
    intros n is fs H. change (dat_face (names_of n) is) with (fun l => face_at (names_of n) is (words l)). rewrite mapM_words by (apply Forall_map_intro; intros; apply row_nobreak).
    unfold elem_rows. rewrite !map_map. apply mapM_all. intros [j f] I. apply (proj1 (Forall_forall _ _) H) in I as (F & L & B). cbn [fst snd] in *. unfold row_line. cbn [fst snd]. rewrite row_words by auto.
    unfold face_at. rewrite <- (map_id is) at 1. apply mapM_all. intros i II. apply (proj1 (Forall_forall _ _) B) in II. unfold word_at. destruct i as [|i]; [lia|]. cbn [map nth_error Nat.sub]. rewrite Nat.sub_0_r.
    rewrite map_map, nth_error_map, (nth_error_nth' f 0) by lia. cbn [option_map bind]. rewrite name_found by (apply (proj1 (Forall_forall _ _) L); apply nth_In; lia). auto.
  Qed.

  Definition in_range (n : nat) (f : face) : Prop := Forall (fun k => k < n) (corners f).
  Definition tri_ids (f : face) : list nat := [f0 f; f1 f; f2 f].
  Lemma tris_text : forall fs, dat_tris fs = map (fun jf => (fst jf, map S (snd jf))) (map (fun jf => (fst jf, tri_ids (snd jf))) (filter dat_triangle (numbered fs))).
  Proof. intros. unfold dat_tris. rewrite map_map. reflexivity. Qed.
  Lemma quads_text : forall fs, dat_quads fs = map (fun jf => (fst jf, map S (snd jf))) (map (fun jf => (fst jf, corners (snd jf))) (filter (fun jf => negb (dat_triangle jf)) (numbered fs))).
  Proof. intros. unfold dat_quads. rewrite map_map. reflexivity. Qed.
  Lemma filter_numbered : forall A (p : A -> bool) (l : list A), map snd (filter (fun ja => p (snd ja)) (numbered l)) = filter p l.
  Proof. intros A p l. unfold numbered. generalize 0. induction l as [|a l IH]; intros i; auto. cbn [length seq combine filter snd]. destruct (p a); cbn [map snd]; rewrite IH; auto. Qed.
  Lemma numbered_in : forall A (l : list A) ja, In ja (numbered l) -> In (snd ja) l.
  Proof. intros A l [j a] I. apply in_combine_r in I. auto. Qed.
  Lemma fits_of : forall f, ids_ok 8 f -> fits 8 (map S (corners f)).
  Proof. intros f H. apply Forall_map_intro. intros n I. apply id_width; [lia|]. apply (proj1 (Forall_forall _ _) H n I). Qed.
  Variables (date root : text) (vs : list vertex) (fs : list face).
  Hypotheses (NV : vs <> []) (NA : narrow_all 13 5 vs) (IDS : Forall (ids_ok 8) fs) (RA : Forall (in_range (length vs)) fs).
  Hypotheses (RN : free (s "NODE") root) (DN : free (s "NODE") date) (RT : free (s "T3C000") root) (DT : free (s "T3C000") date) (RQ : free (s "Q4C000") root) (DQ : free (s "Q4C000") date).
  Definition dat_lines : list text := dat_head date root ++ [s "$ NODE"] ++ map row_line (node_rows vs) ++ [s "*RETURN"] ++ blocks root fs.
  Lemma dat_lines_text : write_DAT date root vs fs = concat (map line dat_lines).
  Proof. rewrite dat_text by auto. fold (blocks root fs). unfold dat_lines. rewrite !map_app, !concat_app. cbn [map concat]. rewrite !app_nil_r. reflexivity. Qed.
  Lemma front_free : forall a w, numeric a = false -> unlike (a :: w) -> free (a :: w) root -> free (a :: w) date -> free (a :: w) (s "$ NODE") ->
    Forall (free (a :: w)) (dat_head date root ++ [s "$ NODE"] ++ map row_line (node_rows vs) ++ [s "*RETURN"]).
  Proof.
    intros a w A U R D N. apply Forall_app. split; [apply head_free; auto|]. apply Forall_app. split; [repeat constructor; apply N|]. apply Forall_app. split; [apply node_rows_free; auto|]. constructor; [apply U|constructor].
  Qed.
  Lemma tris_ok : Forall (fun jf => length (snd jf) = 3 /\ fits 8 (snd jf)) (dat_tris fs).
  Proof.
    rewrite tris_text, map_map. apply Forall_map_intro. intros jf I. apply filter_In in I as [I _]. apply numbered_in in I. cbn [fst snd]. split; auto.
    apply (proj1 (Forall_forall _ _) IDS) in I. apply fits_of in I. unfold fits, corners, tri_ids in *. cbn [map] in *. inversion I as [|? ? A I1]; subst. inversion I1 as [|? ? B I2]; subst. inversion I2 as [|? ? C I3]; subst. repeat (apply Forall_cons; [assumption|]). apply Forall_nil.
  Qed.
  Lemma quads_ok : Forall (fun jf => length (snd jf) = 4 /\ fits 8 (snd jf)) (dat_quads fs).
  Proof.
    rewrite quads_text, map_map. apply Forall_map_intro. intros jf I. apply filter_In in I as [I _]. apply numbered_in in I. cbn [fst snd]. split; auto.
    apply (proj1 (Forall_forall _ _) IDS) in I. apply fits_of in I. auto.
  Qed.
  Lemma tris_found : match dat_tris fs with [] => findall1 (dat_element_section "T3C000" 4) (write_DAT date root vs fs) = []
    | _ => exists more, findall1 (dat_element_section "T3C000" 4) (write_DAT date root vs fs) = concat (shifted (elem_rows (dat_tris fs))) :: more end.
  Proof.
    rewrite dat_lines_text. unfold dat_lines, blocks. pose proof tris_ok as OK.
    assert (QF : Forall (free (s "T3C000")) (block_lines "Q4C000" root (dat_quads fs))) by (apply (block_free "T"%char (s "3C000")); [reflexivity|apply unlike_t3|auto|repeat constructor|intros; reflexivity]).
    assert (FF : Forall (free (s "T3C000")) (dat_head date root ++ [s "$ NODE"] ++ map row_line (node_rows vs) ++ [s "*RETURN"])) by (apply front_free; auto; [apply unlike_t3|closed_free]).
    destruct (dat_tris fs) as [|f l] eqn:E.
    - apply element_none; [repeat constructor|]. cbn [block_lines]. rewrite app_nil_r, !app_assoc. apply Forall_app. split; auto.
    - rewrite <- E in *.
      replace (dat_head date root ++ [s "$ NODE"] ++ map row_line (node_rows vs) ++ [s "*RETURN"] ++ block_lines "Q4C000" root (dat_quads fs) ++ block_lines "T3C000" root (dat_tris fs))
        with (((dat_head date root ++ [s "$ NODE"] ++ map row_line (node_rows vs) ++ [s "*RETURN"]) ++ block_lines "Q4C000" root (dat_quads fs)) ++ block_lines "T3C000" root (dat_tris fs) ++ []) by (rewrite app_nil_r, <- !app_assoc; reflexivity).
      apply element_found; [apply word_chars; reflexivity|intros; reflexivity|exact RT|rewrite E; discriminate|exact OK|apply Forall_app; auto|closed_free].
  Qed.
  Lemma quads_found : match dat_quads fs with [] => findall1 (dat_element_section "Q4C000" 5) (write_DAT date root vs fs) = []
    | _ => exists more, findall1 (dat_element_section "Q4C000" 5) (write_DAT date root vs fs) = concat (shifted (elem_rows (dat_quads fs))) :: more end.
  Proof.
    rewrite dat_lines_text. unfold dat_lines, blocks. pose proof quads_ok as OK.
    assert (QF : Forall (free (s "Q4C000")) (block_lines "T3C000" root (dat_tris fs))) by (apply (block_free "Q"%char (s "4C000")); [reflexivity|apply unlike_q4|auto|repeat constructor|intros; reflexivity]).
    assert (FF : Forall (free (s "Q4C000")) (dat_head date root ++ [s "$ NODE"] ++ map row_line (node_rows vs) ++ [s "*RETURN"])) by (apply front_free; auto; [apply unlike_q4|closed_free]).
    destruct (dat_quads fs) as [|f l] eqn:E.
    - apply element_none; [repeat constructor|]. cbn [block_lines app]. change (s "*RETURN" :: block_lines "T3C000" root (dat_tris fs)) with ([s "*RETURN"] ++ block_lines "T3C000" root (dat_tris fs)).
      change (s "$ NODE" :: map row_line (node_rows vs) ++ [s "*RETURN"] ++ block_lines "T3C000" root (dat_tris fs)) with ([s "$ NODE"] ++ map row_line (node_rows vs) ++ [s "*RETURN"] ++ block_lines "T3C000" root (dat_tris fs)).
      rewrite !app_assoc. apply Forall_app. split; auto.
    - rewrite <- E in *.
      replace (dat_head date root ++ [s "$ NODE"] ++ map row_line (node_rows vs) ++ [s "*RETURN"] ++ block_lines "Q4C000" root (dat_quads fs) ++ block_lines "T3C000" root (dat_tris fs))
        with ((dat_head date root ++ [s "$ NODE"] ++ map row_line (node_rows vs) ++ [s "*RETURN"]) ++ block_lines "Q4C000" root (dat_quads fs) ++ block_lines "T3C000" root (dat_tris fs)) by (rewrite <- !app_assoc; reflexivity).
      apply element_found; [apply word_chars; reflexivity|intros; reflexivity|exact RQ|rewrite E; discriminate|exact OK|exact FF|closed_free].
  Qed.
  Definition triangle (f : face) : bool := f0 f =? f3 f.
  Lemma tris_read : mapM (dat_face (names_of (length vs)) [1; 2; 3; 1]) (splitlines (concat (shifted (elem_rows (dat_tris fs))))) = Ok (map face_row (filter triangle fs)).
  Proof.
    rewrite tris_text, faces_read.
    - f_equal. rewrite map_map. cbn [fst snd map]. rewrite <- (filter_numbered _ triangle fs), map_map. apply map_ext_in. intros jf I. apply filter_In in I as [_ I].
      unfold triangle in I. apply Nat.eqb_eq in I. unfold face_row, corners, tri_ids. cbn [map nth Nat.sub]. rewrite I. auto.
    - apply Forall_map_intro. intros jf I. apply filter_In in I as [I _]. apply numbered_in in I. cbn [fst snd]. pose proof (proj1 (Forall_forall _ _) RA _ I) as R. apply (proj1 (Forall_forall _ _) IDS), fits_of in I.
      unfold fits, in_range, corners, tri_ids in *. cbn [map] in *. inversion I as [|? ? A I1]; subst. inversion I1 as [|? ? B I2]; subst. inversion I2 as [|? ? C I3]; subst.
      inversion R as [|? ? A' R1]; subst. inversion R1 as [|? ? B' R2]; subst. inversion R2 as [|? ? C' R3]; subst. split; [repeat (apply Forall_cons; [assumption|]); apply Forall_nil|]. split; [repeat (apply Forall_cons; [assumption|]); apply Forall_nil|]. cbn [length]. repeat (apply Forall_cons; [lia|]). apply Forall_nil.
  Qed.
  Lemma quads_read : mapM (dat_face (names_of (length vs)) [1; 2; 3; 4]) (splitlines (concat (shifted (elem_rows (dat_quads fs))))) = Ok (map face_row (filter (fun f => negb (triangle f)) fs)).
  Proof.
    rewrite quads_text, faces_read.
    - f_equal. rewrite map_map. cbn [fst snd map]. rewrite <- (filter_numbered _ (fun f => negb (triangle f)) fs), map_map. reflexivity.
    - apply Forall_map_intro. intros jf I. apply filter_In in I as [I _]. apply numbered_in in I. cbn [fst snd]. split; [apply fits_of, (proj1 (Forall_forall _ _) IDS); auto|]. split; [apply (proj1 (Forall_forall _ _) RA); auto|]. cbn [length corners]. repeat (apply Forall_cons; [lia|]). apply Forall_nil.
  Qed.
  Lemma load_write_DAT : load_DAT dbl (write_DAT date root vs fs) =
    Ok (Arr2 (map (fun v => map (rd_sci dbl 5) (coordinates v)) vs), table (map face_row (filter triangle fs ++ filter (fun f => negb (triangle f)) fs))).
  Proof.
    unfold load_DAT. rewrite node_found by auto. change (fun l => match words l with [] => Raise IndexError | w :: ws => Ok (w, ws) end) with (fun l => node_of (words l)). rewrite nodes_read by auto. cbn [bind].
    rewrite map_length, !map_map. cbn [fst snd]. rewrite numbered_names. replace (length (numbered vs)) with (length vs) by (unfold numbered; rewrite combine_length, seq_length, Nat.min_id; auto).
    fold (names_of (length vs)).
    unfold numbered. rewrite (map_snd_combine _ _ (fun v => map (scientific "E" 5) (coordinates v))).
    rewrite (mapM_all _ _ _ _ _ (fun v => map (rd_sci dbl 5) (coordinates v))) by (intros v _; apply floats_sci; auto). cbn [bind].
    rewrite (np_array_rows _ _ _ 3); [|auto|intros; apply coordinates_length]. cbn [bind].
    assert (T : match findall1 (dat_element_section "T3C000" 4) (write_DAT date root vs fs) with [] => Ok [] | sec :: _ => mapM (dat_face (names_of (length vs)) [1; 2; 3; 1]) (splitlines sec) end = Ok (map face_row (filter triangle fs))).
    { pose proof tris_found as F. destruct (dat_tris fs) as [|f l] eqn:E; [|rewrite <- E in F; destruct F as (more & ->); apply tris_read].
      rewrite F. rewrite <- tris_read, E. reflexivity. }
    assert (Q : match findall1 (dat_element_section "Q4C000" 5) (write_DAT date root vs fs) with [] => Ok [] | sec :: _ => mapM (dat_face (names_of (length vs)) [1; 2; 3; 4]) (splitlines sec) end = Ok (map face_row (filter (fun f => negb (triangle f)) fs))).
    { pose proof quads_found as F. destruct (dat_quads fs) as [|f l] eqn:E; [|rewrite <- E in F; destruct F as (more & ->); apply quads_read].
      rewrite F. rewrite <- quads_read, E. reflexivity. }
    rewrite T. cbn [bind]. rewrite Q. cbn [bind]. rewrite <- map_app. rewrite (np_array_table _ _ _ 4) by reflexivity. reflexivity.
  Qed.
End DAT.
(** Without vertices there is no section of nodes. *)
Lemma load_DAT_no_vertex : forall dbl date root fs, free (s "NODE") root -> free (s "NODE") date -> load_DAT dbl (write_DAT date root [] fs) = Raise IndexError.
Proof.
  intros dbl date root fs R D. unfold load_DAT. enough (E : findall1 dat_node_section (write_DAT date root [] fs) = []) by (rewrite E; auto).
  unfold findall1, matches.
  match goal with |- map _ (matches_from (S (length ?t)) ?r None _) = _ => change (matches_from (S (length t)) r None t) with (all_matches r None t) end.
  rewrite all_none; auto. unfold write_DAT. cbn [numbered length seq combine map join_lines app]. fold (dat_quads fs) (dat_tris fs). rewrite !block_text.
  replace (line (s "$") ++ line (s "$ Data for DIODORE input file : " ++ root) ++ line (s "$ GENERATED BY MESHMAGICK ON " ++ date) ++ line (s "$") ++ line (s "$ NODE") ++
    newline :: line (s "*RETURN") ++ concat (map line (block_lines "Q4C000" root (dat_quads fs))) ++ concat (map line (block_lines "T3C000" root (dat_tris fs))))
    with (concat (map line (dat_head date root)) ++ s "$ NODE" ++ concat (map line ([] :: [] :: s "*RETURN" :: block_lines "Q4C000" root (dat_quads fs) ++ block_lines "T3C000" root (dat_tris fs))) ++ []).
  2: { unfold dat_head. cbn [map concat]. rewrite map_app, concat_app. unfold line. rewrite !app_nil_r, <- !app_assoc. reflexivity. }
  assert (W : forall b h u t c, free (s "NODE") (u ++ h) -> fails dat_node_section (St b (h ++ newline :: t) c)).
  { intros b h u t c H. apply (word_free_fails (s "NODE") _ b h u t c); auto. repeat constructor. }
  rewrite (scan_lines dat_node_section (free (s "NODE"))) by (try apply head_free; auto using unlike_node; intros l H; apply H).
  set (tl := concat (map line ([] :: [] :: s "*RETURN" :: block_lines "Q4C000" root (dat_quads fs) ++ block_lines "T3C000" root (dat_tris fs))) ++ []).
  assert (FN : forall b c, fails dat_node_section (St b (s "NODE" ++ tl) c)).
  { intros b c. apply fails_lang. intros p L. unfold dat_node_section, seqs in L. cbn [fold_right] in L. fold dat_line in L.
    destruct (lang_seq _ _ _ _ L) as (z1 & L1 & L'). clear L. destruct (lang_word _ _ _ L1) as (t1 & E1 & ->). cbn [snd fst pos_of prev rest] in *. apply app_inv_head in E1. subst t1.
    set (b' := fin b (s "NODE")) in *. revert L'. assert (F : fails (Seq ss (Seq (Group 1 (Plus dat_line)) (Seq (lit "*RETURN") Empty))) (St b' tl c)).
    - change tl with ([newline; newline] ++ s "*RETURN" ++ (newline :: concat (map line (block_lines "Q4C000" root (dat_quads fs) ++ block_lines "T3C000" root (dat_tris fs)))) ++ []).
      apply fails_star; [repeat constructor|reflexivity| |].
      + intros b0 a t0 A. apply fails_seq, fails_group, fails_seq, fails_seq, fails_seq, fails_chr. cbn. destruct (is_digit a) eqn:DA; auto. exfalso. destruct a as [[] [] [] [] [] [] [] []]; vm_compute in A, DA; discriminate.
      + apply fails_seq, fails_group, fails_seq, fails_seq, fails_seq, fails_chr. reflexivity.
    - intros L. revert F. intros F. apply (run_complete _ _ _ L unit (St b' tl c) (fun _ => Some tt) eq_refl); [discriminate|apply F]. }
  change (s "$ NODE" ++ tl) with (s "$ " ++ "N"%char :: s "ODE" ++ tl).
  etransitivity; [apply (scan_absent (s "NODE") _ (s "$ ") _ ("N"%char :: s "ODE" ++ tl)); reflexivity|].
  etransitivity; [apply (scan_skip dat_node_section ["N"%char] _ (s "ODE" ++ tl))|].
  { intros u v E NE. destruct u as [|x u]; [|destruct u; [injection E as _ <-; congruence|discriminate]]. cbn [app] in E. subst v. apply FN. }
  etransitivity; [apply (scan_absent (s "NODE") _ (s "ODE") _ tl); reflexivity|].
  unfold tl. rewrite (scan_lines dat_node_section (free (s "NODE"))); auto.
  - intros l H. apply H.
  - constructor; [closed_free|]. constructor; [closed_free|]. constructor; [closed_free|]. apply Forall_app. split; (apply (block_free "N"%char (s "ODE")); [reflexivity|apply unlike_node|auto|repeat constructor|intros; reflexivity]).
Qed.
