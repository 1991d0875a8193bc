(** Reading .inp files. *)
From Coq Require Import Ascii String List Arith NArith ZArith Bool Lia.
From Verif Require Import M_base M_merge M_mesh M_text M_mmio S_text S_files P_text P_mmio P_formats M_regex M_files P_regex P_hst P_tec P_layout P_dat P_msh M_formats M_inp S_inp P_inp.
Import ListNotations.
Local Open Scope nat_scope.

(** ** Texts *)
Lemma lstrip_white : forall a t, white a -> lstrip (a ++ t) = lstrip t.
Proof. induction a as [|c a IH]; intros t W; auto. inversion W; subst. cbn [app lstrip]. rewrite H1. auto. Qed.
Lemma strip_trimmed : forall a v b, white a -> white b -> trimmed v -> strip (a ++ v ++ b) = v.
Proof.
  intros a v b A B [T1 T2]. unfold strip. rewrite lstrip_white by auto. destruct v as [|c v].
  - cbn [app]. rewrite <- (app_nil_r b), lstrip_white by auto. reflexivity.
  - assert (E : lstrip ((c :: v) ++ b) = (c :: v) ++ b) by (cbn [app lstrip]; rewrite (T1 c v eq_refl); auto). rewrite E, rev_app_distr. rewrite lstrip_white by (apply Forall_rev; auto).
    destruct (@exists_last _ (c :: v)) as (v' & d & EV); [discriminate|]. rewrite EV, rev_app_distr. cbn [rev app lstrip]. rewrite (T2 v' d EV). rewrite <- rev_involutive with (l := v' ++ [d]). rewrite rev_app_distr. reflexivity.
Qed.
Lemma split_from_app : forall p a acc c t, Forall (fun x => p x = false) a -> p c = true -> split_from p acc (a ++ c :: t) = (rev acc ++ a) :: split_from p [] t.
Proof.
  intros p a. induction a as [|x a IH]; intros acc c t F C; cbn [app split_from]; [rewrite C, app_nil_r; auto|]. inversion F; subst. rewrite H1, IH by auto. cbn [rev]. rewrite <- app_assoc. reflexivity.
Qed.
Lemma split_from_last : forall p a acc, Forall (fun x => p x = false) a -> split_from p acc a = [rev acc ++ a].
Proof. intros p a. induction a as [|x a IH]; intros acc F; cbn [split_from]; [rewrite app_nil_r; auto|]. inversion F; subst. rewrite H1, IH by auto. cbn [rev]. rewrite <- app_assoc. reflexivity. Qed.
Lemma split_app : forall p a c t, Forall (fun x => p x = false) a -> p c = true -> split_at p (a ++ c :: t) = a :: split_at p t.
Proof. intros p a c t F C. unfold split_at. rewrite split_from_app by auto. reflexivity. Qed.
Lemma split_last : forall p a, Forall (fun x => p x = false) a -> split_at p a = [a]. Proof. intros p a F. unfold split_at. rewrite split_from_last by auto. reflexivity. Qed.
Lemma free_char : forall cs t c, free_of cs t -> In c cs -> Forall (fun x => Ascii.eqb c x = false) t.
Proof. intros cs t c F I. eapply Forall_impl; [|exact F]. intros x N. destruct (Ascii.eqb c x) eqn:E; auto. apply Ascii.eqb_eq in E. subst. contradiction. Qed.
Lemma white_char : forall t c, white t -> is_space c = false -> Forall (fun x => Ascii.eqb c x = false) t.
Proof. intros t c W S. eapply Forall_impl; [|exact W]. intros x X. cbv beta in X. destruct (Ascii.eqb c x) eqn:E; auto. apply Ascii.eqb_eq in E. subst. congruence. Qed.
Definition pair_of (o : opt) : text * text := (key o, val o).
Lemma opt_commas : forall o, opt_ok o -> Forall (fun x => Ascii.eqb "," x = false) (opt_text o).
Proof.
  intros o (K & V & _ & B & A & _). unfold opt_text. repeat (apply Forall_app; split); try (eapply free_char; [eassumption|left; reflexivity]); try (apply white_char; auto; reflexivity). repeat constructor.
Qed.
Lemma opt_pieces : forall opts, opts <> [] -> Forall opt_ok opts -> split_at (Ascii.eqb ",") (between_commas (map opt_text opts)) = map opt_text opts.
Proof.
  induction opts as [|o opts IH]; intros N F; [congruence|]. inversion F; subst. destruct opts as [|o' opts]; [apply split_last, opt_commas; auto|].
  change (between_commas (map opt_text (o :: o' :: opts))) with (opt_text o ++ ","%char :: between_commas (map opt_text (o' :: opts))). rewrite split_app; [|apply opt_commas; auto|reflexivity]. cbn [map]. f_equal. apply IH; [discriminate|auto].
Qed.
Lemma opt_read : forall o, opt_ok o -> split_at (Ascii.eqb "=") (opt_text o) = [key o; before o ++ val o ++ after o] /\ strip (before o ++ val o ++ after o) = val o.
Proof.
  intros o (K & V & T & B & A & _). split; [|apply strip_trimmed; auto]. unfold opt_text. change (s "=" ++ ?t) with ("="%char :: t).
  rewrite split_app; [|eapply free_char; [exact K|right; left; reflexivity]|reflexivity]. f_equal. apply split_last. repeat (apply Forall_app; split); try (apply white_char; auto; reflexivity). eapply free_char; [exact V|right; left; reflexivity].
Qed.
Lemma options_read : forall opts, opts <> [] -> Forall opt_ok opts -> options_of (between_commas (map opt_text opts)) = Ok (map pair_of opts).
Proof.
  intros opts N F. unfold options_of. rewrite opt_pieces by auto. clear N. induction F as [|o opts O F IH]; auto. cbn [map mapM]. destruct (opt_read o O) as [-> E]. rewrite E. cbn [bind]. rewrite IH. reflexivity.
Qed.

(** ** Patterns *)
Lemma not_starts : forall w l t, nonl w -> nonl l -> (~ exists r, l = w ++ r) -> starts w (l ++ newline :: t) = false.
Proof.
  intros w l t W L N. destruct (starts w (l ++ newline :: t)) eqn:E; auto. exfalso. apply starts_split in E as (r & E). symmetry in E. destruct (nonl_prefix w r l t W E) as (h & -> & _). apply N. eauto.
Qed.
Lemma nonl_in : forall t, ~ In newline t -> nonl t.
Proof. intros t N. apply Forall_forall. intros c I. destruct (Ascii.eqb c newline) eqn:E; auto. apply Ascii.eqb_eq in E. subst. contradiction. Qed.
Definition frame_tail : re := seqs [lit "*FRAME,NAME="; Group 1 (Plus dot_re); ends; Group 2 (Star dot_re)].
Definition field_tail : re := seqs [lit "*"; Group 1 (Alt (lit "NODE") (lit "ELEMENT")); lit ","; Group 2 (Star dot_re)].
Lemma tail_fails : forall r p t b c, (forall b a t, is_space a = true -> fails r (St b (a :: t) c)) -> white p -> stops is_space t -> (forall b, fails r (St b t c)) -> fails (Seq Bol (Seq ss r)) (St b (p ++ t) c).
Proof. intros r p t b c S P T F. apply fails_bol_then. apply fails_star; auto. Qed.
Lemma frame_space : forall b a t c, is_space a = true -> fails frame_tail (St b (a :: t) c).
Proof. intros b a t c S. apply fails_seq, fails_word. change (s "*FRAME,NAME=") with ("*"%char :: s "FRAME,NAME="). cbn [starts]. destruct (Ascii.eqb "*" a) eqn:E; auto. apply Ascii.eqb_eq in E. subst. discriminate. Qed.
Lemma field_space : forall b a t c, is_space a = true -> fails field_tail (St b (a :: t) c).
Proof. intros b a t c S. apply fails_seq, fails_word. change (s "*") with ["*"%char]. cbn [starts]. destruct (Ascii.eqb "*" a) eqn:E; auto. apply Ascii.eqb_eq in E. subst. discriminate. Qed.
Lemma field_lang : forall x y, lang field_tail x y -> exists r, snd x = s "*NODE," ++ r \/ snd x = s "*ELEMENT," ++ r.
Proof.
  intros x y L. unfold field_tail, seqs in L. cbn [fold_right] in L. apply lang_seq in L as (z1 & L1 & L). apply lang_word in L1 as (t1 & E1 & ->). apply lang_seq in L as (z2 & L2 & L). apply lang_group, lang_alt in L2.
  apply lang_seq in L as (z3 & L3 & _). apply lang_word in L3 as (t3 & E3 & _). destruct L2 as [L2|L2]; apply lang_word in L2 as (t2 & E2 & ->); cbn [snd] in *; exists t3; rewrite E1, E2, E3; [left|right]; reflexivity.
Qed.
Lemma frame_at_start : forall b t c, ~ at_line_start b -> fails inp_frame (St b t c). Proof. intros. apply fails_bol_seq. auto. Qed.
Lemma field_at_start : forall b t c, ~ at_line_start b -> fails inp_field (St b t c). Proof. intros. apply fails_bol_seq. auto. Qed.
(** Lines without a frame, lines without a field *)
Definition no_frame (l : text) : Prop := nonl l /\ l <> [] /\ forall b t c, fails inp_frame (St b (l ++ newline :: t) c).
Definition no_field (l : text) : Prop := nonl l /\ l <> [] /\ forall b t c, fails inp_field (St b (l ++ newline :: t) c).
Lemma other_nothing : forall l, item_ok (Other l) -> no_frame l /\ no_field l.
Proof.
  intros l [N (p & c & t & -> & P & C & K)]. apply nonl_in in N. assert (NE : p ++ c :: t <> []) by (destruct p; discriminate). assert (NT : nonl (c :: t)) by (apply Forall_app in N; apply N).
  unfold keywords in K. rewrite !Forall_cons_iff in K. destruct K as (K1 & K2 & K3 & _). split; (split; [auto|split; [auto|]]); intros b u k; rewrite <- app_assoc.
  - apply (tail_fails frame_tail); auto; [intros; apply frame_space; auto|]. intros b'. apply fails_seq, fails_word. apply not_starts; auto. repeat constructor.
  - apply (tail_fails field_tail); auto; [intros; apply field_space; auto|]. intros b'. apply fails_lang. intros y L. destruct (field_lang _ _ L) as (r & [E|E]); cbn [pos_of snd rest] in E; unfold pos_of in E; cbn [snd rest] in E; symmetry in E.
    + destruct (nonl_prefix (s "*NODE,") r (c :: t) u) as (h & E2 & _); auto; [repeat constructor|]. apply K2. eauto.
    + destruct (nonl_prefix (s "*ELEMENT,") r (c :: t) u) as (h & E2 & _); auto; [repeat constructor|]. apply K3. eauto.
Qed.
Definition field_line (pad : text) (node : bool) (opts : list opt) : text := pad ++ s "*" ++ s (if node then "NODE" else "ELEMENT") ++ s "," ++ between_commas (map opt_text opts).
Lemma commas_nonl : forall ls, Forall nonl ls -> nonl (between_commas ls).
Proof. induction ls as [|l ls IH]; intros F; [constructor|]. inversion F; subst. destruct ls as [|l' ls]; auto. change (nonl (l ++ s "," ++ between_commas (l' :: ls))). apply nonl_app; auto. apply nonl_app; [repeat constructor|auto]. Qed.
Lemma free_nonl : forall t, free_of [","; "="; newline]%char t -> nonl t.
Proof. intros t F. apply nonl_in. intros I. apply (proj1 (Forall_forall _ _) F) in I. apply I. right. right. left. auto. Qed.
Lemma opt_nonl : forall o, opt_ok o -> nonl (opt_text o).
Proof. intros o (K & V & _ & _ & _ & B & A & _). unfold opt_text. repeat apply nonl_app; auto using free_nonl, nonl_in. repeat constructor. Qed.
Lemma opts_nonl : forall opts, Forall opt_ok opts -> nonl (between_commas (map opt_text opts)).
Proof. intros opts F. apply commas_nonl. apply Forall_map_intro. intros o I. apply opt_nonl. apply (proj1 (Forall_forall _ _) F o I). Qed.
Lemma field_nonl : forall pad node opts, item_ok (Field pad node opts) -> nonl (field_line pad node opts).
Proof. intros pad node opts ([_ P] & _ & O). unfold field_line. repeat apply nonl_app; auto using opts_nonl, nonl_in; destruct node; repeat constructor. Qed.
Lemma field_no_frame : forall pad node opts, item_ok (Field pad node opts) -> no_frame (field_line pad node opts).
Proof.
  intros pad node opts H. split; [apply field_nonl; auto|]. unfold field_line. split; [destruct pad; discriminate|]. destruct H as ([P _] & _ & _). intros b t c. rewrite <- !app_assoc. apply (tail_fails frame_tail); auto; [intros; apply frame_space; auto|reflexivity|].
  intros b'. apply fails_seq, fails_word. destruct node; reflexivity.
Qed.
Definition frame_line (pad name more : text) : text := pad ++ s "*FRAME,NAME=" ++ name ++ more.
Definition vector_line (x : text) (c : ascii) (y : text) (c' : ascii) (z : text) : text := x ++ c :: y ++ c' :: z.
Lemma word_nonl : forall x, a_word x -> nonl x.
Proof. intros x [_ F]. eapply Forall_impl; [|exact F]. intros c E. cbv beta in E. destruct (Ascii.eqb c newline) eqn:Q; auto. apply Ascii.eqb_eq in Q. subst. discriminate. Qed.
Lemma vector_nonl : forall pad name more x c y c' z, item_ok (Frame pad name more x c y c' z) -> nonl (vector_line x c y c' z).
Proof.
  intros pad name more x c y c' z (_ & _ & _ & _ & _ & W & _ & _ & C & C'). rewrite !Forall_cons_iff in W. destruct W as (X & Y & Z & _). unfold vector_line.
  apply nonl_app; [apply word_nonl; auto|]. constructor; [destruct C as [->| ->]; reflexivity|]. apply nonl_app; [apply word_nonl; auto|]. constructor; [destruct C' as [->| ->]; reflexivity|apply word_nonl; auto].
Qed.
Lemma frame_nonl : forall pad name more x c y c' z, item_ok (Frame pad name more x c y c' z) -> nonl (frame_line pad name more).
Proof. intros pad name more x c y c' z ([_ P] & [_ M] & _ & _ & N & _). unfold frame_line. repeat apply nonl_app; auto using nonl_in. repeat constructor. Qed.
Lemma frame_no_field : forall pad name more x c y c' z, item_ok (Frame pad name more x c y c' z) -> no_field (frame_line pad name more) /\ no_field (vector_line x c y c' z).
Proof.
  intros pad name more x c y c' z H. pose proof (frame_nonl _ _ _ _ _ _ _ _ H) as N1. pose proof (vector_nonl _ _ _ _ _ _ _ _ H) as N2. destruct H as ([P _] & _ & _ & _ & _ & W & _ & HX & _).
  rewrite !Forall_cons_iff in W. destruct W as ((NX & X) & _). destruct x as [|a x]; [congruence|]. inversion X; subst.
  split; (split; [auto|split]).
  - unfold frame_line. destruct pad; discriminate.
  - intros b t k. unfold frame_line. rewrite <- !app_assoc. apply (tail_fails field_tail); auto; [intros; apply field_space; auto|reflexivity|]. intros b'. apply fails_lang. intros q L. destruct (field_lang _ _ L) as (r & [E|E]); discriminate.
  - discriminate.
  - intros b t k. unfold vector_line. cbn [app]. change (a :: (x ++ c :: y ++ c' :: z) ++ newline :: t) with ([] ++ a :: (x ++ c :: y ++ c' :: z) ++ newline :: t). apply (tail_fails field_tail); auto; [intros; apply field_space; auto|constructor|].
    intros b'. apply fails_seq, fails_word. change (s "*") with ["*"%char]. cbn [starts]. destruct (Ascii.eqb "*" a) eqn:E; auto. apply Ascii.eqb_eq in E. subst. exfalso. apply HX. reflexivity.
Qed.

(** ** What is found *)
Lemma dots : forall u, nonl u -> holds (fun c => negb (Ascii.eqb c newline)) u.
Proof. intros u N. eapply Forall_impl; [|exact N]. intros c E. cbv beta in E. rewrite E. auto. Qed.
Lemma frame_gets_gen : forall pad name more a v b t, white pad -> nonl (name ++ more) -> name <> [] -> nonl (a :: v) -> is_space a = false -> at_line_start b ->
  gets b inp_frame (frame_line pad name more ++ newline :: a :: v) (newline :: t) [(2, a :: v); (1, name ++ more)].
Proof.
  intros pad name more a v b t P N NE NV H1 B.
  assert (E : frame_line pad name more ++ newline :: a :: v = [] ++ pad ++ s "*FRAME,NAME=" ++ (name ++ more) ++ [newline] ++ a :: v) by (unfold frame_line; rewrite <- !app_assoc; reflexivity).
  rewrite E. unfold inp_frame, seqs. cbn [fold_right]. change (newline :: t) with ([newline] ++ t).
  apply gets_then; [apply eats_bol; auto|]. apply gets_then; [apply eats_star_class; auto; reflexivity|]. apply gets_then; [apply eats_word|].
  apply (gets_group_then _ 1 _ _ _ _ _ [(2, _)]).
  - apply eats_plus_class; [destruct name; [congruence|discriminate]|apply dots; auto|reflexivity].
  - apply gets_then; [apply eats_ends; cbn [app stops]; destruct (existsb (Ascii.eqb a) [return_char; newline]) eqn:Q; auto; apply existsb_exists in Q as (q & I & Q); apply Ascii.eqb_eq in Q; subst q; destruct (not_space_not_end a H1 I)|].
    rewrite <- (app_nil_r (a :: v)) at 1. apply (gets_group_then _ 2 _ _ _ _ _ []); [apply eats_star_class; [apply dots; auto|reflexivity]|apply gets_eats, eats_empty].
Qed.
Lemma frame_gets : forall pad name more x c y c' z b t, item_ok (Frame pad name more x c y c' z) -> at_line_start b ->
  gets b inp_frame (frame_line pad name more ++ newline :: vector_line x c y c' z) (newline :: t) [(2, vector_line x c y c' z); (1, name ++ more)].
Proof.
  intros pad name more x c y c' z b t H B. pose proof (vector_nonl _ _ _ _ _ _ _ _ H) as NV. destruct H as ([P _] & [_ M] & NE & _ & N & W & _).
  rewrite !Forall_cons_iff in W. destruct W as ((NX & X) & _). destruct x as [|a x]; [congruence|]. inversion X; subst.
  apply frame_gets_gen; auto. apply nonl_app; auto using nonl_in.
Qed.
Lemma field_gets : forall pad node opts b t, item_ok (Field pad node opts) -> at_line_start b ->
  gets b inp_field (field_line pad node opts) (newline :: t) [(2, between_commas (map opt_text opts)); (1, s (if node then "NODE" else "ELEMENT"))].
Proof.
  intros pad node opts b t ([P _] & _ & O) B. unfold field_line, inp_field, seqs. cbn [fold_right].
  change (pad ++ ?u) with ([] ++ pad ++ u). apply gets_then; [apply eats_bol; auto|]. apply gets_then; [apply eats_star_class; auto; reflexivity|]. apply gets_then; [apply eats_word|].
  apply (gets_group_then _ 1 _ _ _ _ _ [(2, _)]).
  - destruct node; [apply eats_left, eats_word|apply eats_right; [intros k; apply fails_word; reflexivity|apply eats_word]].
  - apply gets_then; [apply eats_word|]. rewrite <- (app_nil_r (between_commas (map opt_text opts))) at 1. apply (gets_group_then _ 2 _ _ _ _ _ []); [apply eats_star_class; [apply dots, opts_nonl; auto|reflexivity]|apply gets_eats, eats_empty].
Qed.
Lemma all_line : forall r l b t, (forall b t c, ~ at_line_start b -> fails r (St b t c)) -> nonl l -> (l = [] -> ~ at_line_start b) -> (forall c, fails r (St b (l ++ newline :: t) c)) ->
  all_matches r b (l ++ newline :: t) = all_matches r (Some newline) t.
Proof. intros r l b t A N NE F. apply all_scan; [apply scan_line; auto|rewrite app_length; cbn; lia]. Qed.
Lemma all_here : forall r u t b cs, (forall b t c, ~ at_line_start b -> fails r (St b t c)) -> u <> [] -> (forall w c, u = w ++ [c] -> c <> newline) -> gets b r u (newline :: t) cs ->
  all_matches r b (u ++ newline :: t) = (u, cs) :: all_matches r (Some newline) t.
Proof.
  intros r u t b cs A N L G. assert (S : scan r b (u ++ newline :: t) = Some ((u, cs), St (fin b u) (newline :: t) cs)).
  { apply scan_here. rewrite <- (app_nil_r cs). apply G. }
  assert (LT : length (newline :: t) < length (u ++ newline :: t)) by (rewrite app_length; destruct u; [congruence|cbn [length]; lia]).
  rewrite (all_step _ _ _ _ _ _ _ _ S N LT). f_equal.
  assert (NL : ~ at_line_start (fin b u)). { destruct (@exists_last _ u N) as (w & c & E). rewrite E, fin_app. cbn. intros [Q|Q]; [discriminate|]. injection Q as Q. apply (L w c E Q). }
  apply (all_line r [] (fin b u) t); try (constructor; fail); auto; intros k; apply A; auto.
Qed.
Lemma nonl_last : forall u, nonl u -> forall w c, u = w ++ [c] -> c <> newline.
Proof. intros u N w c -> Q. subst. apply Forall_app in N as [_ N]. inversion N; subst. discriminate. Qed.
Lemma inp_text_cons : forall i items, inp_text (i :: items) = concat (map line (item_lines i)) ++ inp_text items.
Proof. intros i items. unfold inp_text. cbn [flat_map]. rewrite map_app, concat_app. reflexivity. Qed.
Definition frame_found (i : inp_item) : list found :=
  match i with Frame pad name more x c y c' z => [(frame_line pad name more ++ newline :: vector_line x c y c' z, [(2, vector_line x c y c' z); (1, name ++ more)])] | _ => [] end.
Definition field_found (i : inp_item) : list found :=
  match i with Field pad node opts => [(field_line pad node opts, [(2, between_commas (map opt_text opts)); (1, s (if node then "NODE" else "ELEMENT"))])] | _ => [] end.
Lemma vector_last : forall x c y c' z, a_word z -> forall w d, vector_line x c y c' z = w ++ [d] -> is_space d = false.
Proof.
  intros x c y c' z [NZ Z] w d E. destruct (@exists_last _ z NZ) as (z' & e & ->). assert (Q : vector_line x c y c' (z' ++ [e]) = vector_line x c y c' z' ++ [e]) by (unfold vector_line; rewrite <- app_assoc; cbn [app]; rewrite <- app_assoc; reflexivity).
  rewrite Q in E. apply app_inj_tail in E as [_ <-]. apply Forall_app in Z as [_ Z]. inversion Z. auto.
Qed.
Lemma frames_found_then : forall t items b, Forall item_ok items -> at_line_start b ->
  exists b', at_line_start b' /\ all_matches inp_frame b (inp_text items ++ t) = flat_map frame_found items ++ all_matches inp_frame b' t.
Proof.
  intros tail items. induction items as [|i items IH]; intros b F B.
  - exists b. auto.
  - inversion F; subst. destruct (IH (Some newline) H2 (or_intror eq_refl)) as (b' & B' & E0). exists b'. split; [exact B'|]. rewrite inp_text_cons. destruct i as [l|pad name more x c y c' z|pad node opts]; cbn [item_lines map concat flat_map frame_found app]; rewrite app_nil_r; unfold line.
    + destruct (other_nothing l H1) as [(N & NE & K) _]. rewrite <- !app_assoc. cbn [app]. rewrite all_line; [exact E0|apply frame_at_start|auto|congruence|auto].
    + fold (frame_line pad name more). fold (vector_line x c y c' z).
      assert (E : (frame_line pad name more ++ [newline]) ++ vector_line x c y c' z ++ [newline] = (frame_line pad name more ++ newline :: vector_line x c y c' z) ++ [newline]) by (rewrite <- !app_assoc; reflexivity).
      rewrite E. rewrite <- (app_assoc (frame_line pad name more ++ newline :: vector_line x c y c' z)). change (([newline] ++ inp_text items)) with (newline :: inp_text items). rewrite <- (app_assoc (frame_line pad name more ++ newline :: vector_line x c y c' z)). cbn [app]. change ([newline] ++ inp_text items ++ tail) with (newline :: inp_text items ++ tail). rewrite (all_here inp_frame _ _ _ [(2, vector_line x c y c' z); (1, name ++ more)]).
      * cbn [app]. f_equal. exact E0.
      * apply frame_at_start.
      * unfold frame_line. destruct pad; discriminate.
      * intros w d Q. assert (S : is_space d = false). { assert (NV : vector_line x c y c' z <> []) by (unfold vector_line; destruct x; discriminate). destruct (@exists_last _ _ NV) as (v & e & V). rewrite V, app_comm_cons, app_assoc in Q. apply app_inj_tail in Q as [_ <-]. destruct H1 as (_ & _ & _ & _ & _ & W & _). rewrite !Forall_cons_iff in W. destruct W as (_ & _ & Z & _). apply (vector_last x c y c' z Z v e V). }
        intros ->. discriminate.
      * apply frame_gets; auto.
    + fold (field_line pad node opts). destruct (field_no_frame _ _ _ H1) as (N & NE & K). rewrite <- !app_assoc. cbn [app]. rewrite all_line; [exact E0|apply frame_at_start|auto|congruence|auto].
Qed.
Lemma frames_found : forall items b, Forall item_ok items -> at_line_start b -> all_matches inp_frame b (inp_text items) = flat_map frame_found items.
Proof.
  intros items b F B. destruct (frames_found_then [] items b F B) as (b' & B' & E). rewrite app_nil_r in E. rewrite E. rewrite <- app_nil_r. f_equal. apply all_none. destruct B' as [-> | ->]; vm_compute; reflexivity.
Qed.
Lemma fields_found : forall items b, Forall item_ok items -> at_line_start b -> all_matches inp_field b (inp_text items) = flat_map field_found items.
Proof.
  intros items. induction items as [|i items IH]; intros b F B.
  - apply all_none. change (inp_text []) with (@nil ascii). destruct B as [-> | ->]; vm_compute; reflexivity.
  - inversion F; subst. rewrite inp_text_cons. destruct i as [l|pad name more x c y c' z|pad node opts]; cbn [item_lines map concat flat_map field_found app]; rewrite app_nil_r; unfold line.
    + destruct (other_nothing l H1) as [_ (N & NE & K)]. rewrite <- app_assoc. cbn [app]. rewrite all_line; [apply IH; auto; right; auto|apply field_at_start|auto|congruence|auto].
    + fold (frame_line pad name more). fold (vector_line x c y c' z). destruct (frame_no_field _ _ _ _ _ _ _ _ H1) as [(N & NE & K) (N' & NE' & K')]. rewrite <- !app_assoc. cbn [app].
      rewrite all_line; [|apply field_at_start|auto|congruence|auto]. rewrite all_line; [apply IH; auto; right; auto|apply field_at_start|auto|congruence|auto].
    + fold (field_line pad node opts). rewrite <- app_assoc. cbn [app]. rewrite (all_here inp_field _ _ _ [(2, between_commas (map opt_text opts)); (1, s (if node then "NODE" else "ELEMENT"))]).
      * f_equal. apply IH; auto. right; auto.
      * apply field_at_start.
      * unfold field_line. destruct pad; discriminate.
      * apply nonl_last, field_nonl; auto.
      * apply field_gets; auto.
Qed.

(** ** What is read from it *)
Definition frame_pairs (vec : list text -> list num) (items : list inp_item) : list (text * list num) :=
  flat_map (fun i => match i with Frame _ name _ x _ y _ z => [(name, vec [x; y; z])] | _ => [] end) items.
Definition pick (dbl : N -> Z -> N * positive) (ws : list text) : list num := match mapM (to_float dbl) ws with Ok v => v | Raise _ => [] end.
Definition comma_blank (c : ascii) : bool := (Ascii.eqb c "," || Ascii.eqb c " ")%char.
Lemma word_no_blank : forall x, a_word x -> free_of (s ",") x -> Forall (fun c => comma_blank c = false) x.
Proof.
  intros x [_ X] F. apply Forall_forall. intros c I. unfold comma_blank. apply (proj1 (Forall_forall _ _) X) in I as I1. apply (proj1 (Forall_forall _ _) F) in I as I2.
  destruct (Ascii.eqb c ",") eqn:E; [apply Ascii.eqb_eq in E; subst; exfalso; apply I2; left; auto|]. destruct (Ascii.eqb c " ") eqn:E'; auto. apply Ascii.eqb_eq in E'. subst. discriminate.
Qed.
Lemma vector_split : forall pad name more x c y c' z, item_ok (Frame pad name more x c y c' z) -> split_at comma_blank (strip (vector_line x c y c' z)) = [x; y; z].
Proof.
  intros pad name more x c y c' z (_ & _ & _ & _ & _ & W & V & _ & C & C'). rewrite !Forall_cons_iff in W, V. destruct W as (X & Y & Z & _), V as (X' & Y' & Z' & _).
  assert (T : strip (vector_line x c y c' z) = vector_line x c y c' z).
  { rewrite <- (app_nil_r (vector_line x c y c' z)) at 1. apply (strip_trimmed []); try constructor.
    - intros a t E. destruct X as [NX X]. destruct x as [|a' x]; [congruence|]. inversion X; subst. injection E as -> _. auto.
    - intros t a E. apply (vector_last x c y c' z Z t a E). }
  rewrite T. unfold vector_line. rewrite split_app; [|apply word_no_blank; auto|destruct C as [->| ->]; auto]. rewrite split_app; [|apply word_no_blank; auto|destruct C' as [->| ->]; auto]. rewrite split_last; auto. apply word_no_blank; auto.
Qed.
Lemma frames_read : forall dbl items, Forall item_ok items -> frames_ok dbl items ->
  mapM (fun m => do v <- mapM (to_float dbl) (split_at comma_blank (strip (group 2 m))); Ok (strip (group 1 m), v)) (flat_map frame_found items) = Ok (frame_pairs (pick dbl) items).
Proof.
  intros dbl items F G. induction F as [|i items I F IH]; auto. inversion G; subst. specialize (IH H2). destruct i as [l|pad name more x c y c' z|pad node opts]; cbn [flat_map frame_found frame_pairs app]; auto.
  destruct H1 as (v & V). cbn [mapM]. unfold group. cbn [snd assoc_nat Nat.eqb]. rewrite (vector_split _ _ _ _ _ _ _ _ I), V. cbn [bind]. destruct I as (_ & [M _] & _ & T & _).
  assert (E : strip (name ++ more) = name) by (apply (strip_trimmed []); auto; constructor). rewrite E. unfold group in IH. rewrite IH. cbn [bind]. f_equal. f_equal. f_equal. unfold pick. rewrite V. auto.
Qed.
Lemma lookup_app : forall A k (a b : list (text * A)), lookup k (a ++ b) = match lookup k a with Some v => Some v | None => lookup k b end.
Proof. intros A k a b. induction a as [|[k' v] a IH]; auto. cbn [app lookup]. destruct (list_eq_dec ascii_dec k k'); auto. Qed.
Lemma lookup_none : forall A k (a : list (text * A)), Forall (fun p => fst p <> k) a -> lookup k a = None.
Proof. intros A k a F. induction F as [|[k' v] a N F IH]; auto. cbn [lookup fst] in *. destruct (list_eq_dec ascii_dec k k'); [congruence|auto]. Qed.
Lemma frame_known : forall dbl g v items, frame_is dbl g v items -> lookup g (rev (frame_pairs (pick dbl) items)) = Some v.
Proof.
  intros dbl g v items (a & pad & more & x & c & y & c' & z & b & -> & V & N). unfold frame_pairs. rewrite flat_map_app. cbn [flat_map]. rewrite !rev_app_distr, <- app_assoc, lookup_app.
  rewrite lookup_none.
  - cbn [rev app lookup]. destruct (list_eq_dec ascii_dec g g); [|congruence]. unfold pick. rewrite V. auto.
  - apply Forall_rev. clear V. induction N as [|i b I N IH]; [constructor|]. destruct i; cbn [flat_map app]; auto.
Qed.
Lemma frame_unknown : forall dbl g items, Forall (fun i => match i with Frame _ g' _ _ _ _ _ _ => g' <> g | _ => True end) items -> lookup g (rev (frame_pairs (pick dbl) items)) = None.
Proof. intros dbl g items N. apply lookup_none, Forall_rev. unfold frame_pairs. induction N as [|i b I N IH]; [constructor|]. destruct i; cbn [flat_map app]; auto. Qed.
Definition type_of (node : bool) : text := s (if node then "NODE" else "ELEMENT").
Definition defaults (node : bool) : dict := if node then [(s "INCREMENT", s "NO"); (s "type", s "NODE")] else [(s "type", s "ELEMENT")].
Definition dict_of (f : bool * list opt) : dict := rev (map pair_of (snd f)) ++ defaults (fst f).
Lemma given : forall k v node opts, gives k v opts -> item k (dict_of (node, opts)) = Ok v.
Proof.
  intros k v node opts (a & o & b & -> & K & V & N). unfold item, dict_of. cbn [snd fst]. rewrite map_app. cbn [map]. rewrite rev_app_distr. cbn [rev]. rewrite <- !app_assoc, lookup_app, lookup_none.
  - cbn [app lookup]. unfold pair_of. rewrite K, V. destruct (list_eq_dec ascii_dec (s k) (s k)); [auto|congruence].
  - apply Forall_rev, Forall_map_intro. intros o' I. cbn. apply (proj1 (Forall_forall _ _) N o' I).
Qed.
Lemma not_given : forall k node opts, Forall (fun o => key o <> s k) opts -> item k (dict_of (node, opts)) = item k (defaults node).
Proof.
  intros k node opts N. unfold item, dict_of. cbn [snd fst]. rewrite lookup_app, lookup_none; auto. apply Forall_rev, Forall_map_intro. intros o' I. cbn. apply (proj1 (Forall_forall _ _) N o' I).
Qed.
Lemma typed : forall node opts, Forall opt_ok opts -> item "type" (dict_of (node, opts)) = Ok (type_of node).
Proof. intros node opts F. rewrite not_given; [destruct node; reflexivity|]. eapply Forall_impl; [|exact F]. intros o O. apply O. Qed.
Lemma field_read : forall pad node opts f, item_ok (Field pad node opts) -> gives "INPUT" f opts ->
  field_of (field_line pad node opts, [(2, between_commas (map opt_text opts)); (1, s (if node then "NODE" else "ELEMENT"))]) = Ok (dict_of (node, opts)).
Proof.
  intros pad node opts f (_ & N & O) G. unfold field_of, group. cbn [snd assoc_nat Nat.eqb]. rewrite options_read by auto. cbn [bind]. pose proof (given _ _ node _ G) as I. pose proof (typed node _ O) as T. unfold dict_of, defaults in I, T. cbn [snd fst] in I, T. unfold dict_of, defaults. cbn [snd fst].
  destruct node.
  - destruct (list_eq_dec ascii_dec (s "NODE") (s "NODE")); [|congruence]. rewrite I. cbn [bind]. rewrite T. cbn [bind]. unfold type_of. destruct (list_eq_dec ascii_dec (s "NODE") (s "NODE")); [auto|congruence].
  - destruct (list_eq_dec ascii_dec (s "ELEMENT") (s "NODE")); [discriminate|]. rewrite I. cbn [bind]. rewrite T. cbn [bind]. unfold type_of. destruct (list_eq_dec ascii_dec (s "ELEMENT") (s "NODE")); [discriminate|]. destruct (list_eq_dec ascii_dec (s "ELEMENT") (s "ELEMENT")); [auto|congruence].
Qed.
Definition named (f : bool * list opt) : Prop := exists n, gives "INPUT" n (snd f).
Lemma layout_read : forall items, Forall item_ok items -> Forall named (fields items) -> mapM field_of (flat_map field_found items) = Ok (map dict_of (fields items)).
Proof.
  intros items F N. induction F as [|i items I F IH]; auto. destruct i as [l|pad name more x c y c' z|pad node opts]; cbn [flat_map field_found fields app] in *; auto.
  inversion N as [|? ? [n G] N']; subst. cbn [mapM snd] in *. rewrite (field_read _ _ _ n I G). cbn [bind]. rewrite (IH N'). reflexivity.
Qed.
Lemma fields_ok : forall items, Forall item_ok items -> Forall (fun f => Forall opt_ok (snd f)) (fields items).
Proof. intros items F. induction F as [|i items I F IH]; [constructor|]. destruct i; cbn [fields flat_map app]; auto. constructor; auto. apply I. Qed.
Lemma matches_all : forall r t, matches r t = all_matches r None t. Proof. reflexivity. Qed.
(** The names of the .DAT files, in order *)
Definition name_of (f : bool * list opt) : text := match item "INPUT" (dict_of f) with Ok n => n | Raise _ => [] end.
Lemma names_read : forall fs, Forall named fs -> mapM (item "INPUT") (map dict_of fs) = Ok (map name_of fs).
Proof.
  intros fs N. induction N as [|[node opts] fs [n G] N IH]; auto. cbn [map mapM snd] in *. pose proof (given _ _ node _ G) as I. rewrite I. cbn [bind]. rewrite IH. cbn [bind]. unfold name_of at 2. rewrite I. auto.
Qed.
Lemma in_once : forall l seen a, In a (once l seen) <-> In a l /\ ~ In a seen.
Proof.
  induction l as [|b l IH]; intros seen a; [cbn; tauto|]. cbn [once]. destruct (in_dec (list_eq_dec ascii_dec) b seen) as [I|I].
  - rewrite IH. cbn. split; [tauto|]. intros [[->|H] N]; [contradiction|auto].
  - cbn. rewrite IH. cbn. destruct (list_eq_dec ascii_dec b a); subst; tauto.
Qed.
Section Load.
  Variable dbl : N -> Z -> N * positive.
  Variable add : num -> num -> num.
  Variable open : text -> option text.
  Variable B : text -> body.
  Definition opens (f : text) : Prop := exists d, open f = Some d /\ read_body dbl d = Ok (B f).
  Lemma bodies_read : forall files, Forall opens files ->
    mapM (fun f => match open f with None => Raise IOError | Some d => do b <- read_body dbl d; Ok (f, b) end) files = Ok (map (fun f => (f, B f)) files).
  Proof. intros files F. induction F as [|f files (d & O & R) F IH]; auto. cbn [mapM map]. rewrite O, R. cbn [bind]. rewrite IH. reflexivity. Qed.
  Lemma body_known : forall f files, In f files -> lookup f (map (fun f => (f, B f)) files) = Some (B f).
  Proof. intros f files I. induction files as [|a files IH]; [destruct I|]. cbn [map lookup]. destruct (list_eq_dec ascii_dec f a); [subst; auto|]. destruct I as [->|I]; [congruence|auto]. Qed.
  Definition bodies_of (items : list inp_item) : list (text * body) := map (fun f => (f, B f)) (once (map name_of (fields items)) []).
  Lemma load_read : forall items, Forall item_ok items -> frames_ok dbl items -> Forall named (fields items) -> Forall opens (map name_of (fields items)) ->
    load_INP_with dbl add open (inp_text items) =
    do st <- assemble add (rev (frame_pairs (pick dbl) items)) (bodies_of items) (last (map (fun b => last_idx (snd b)) (bodies_of items)) 0) (map dict_of (fields items)) start;
    match a_vertices st, a_faces st with
    | Some vs, Some fs => Ok (Arr2 vs, Arr2 (map (map (fun z => (z - 1)%Z)) fs))
    | _, _ => Raise NameError
    end.
  Proof.
    intros items F G N O. unfold load_INP_with. rewrite !matches_all, frames_found, fields_found by (auto; left; auto). change (fun c : ascii => (Ascii.eqb c "," || Ascii.eqb c " ")%char) with comma_blank. rewrite frames_read by auto. cbn [bind]. rewrite layout_read by auto. cbn [bind]. rewrite names_read by auto. cbn [bind].
    rewrite bodies_read; [reflexivity|]. apply Forall_forall. intros f I. apply in_once in I as [I _]. apply (proj1 (Forall_forall _ _) O f I).
  Qed.
  Lemma bodies_have : forall items f, In f (fields items) -> lookup (name_of f) (bodies_of items) = Some (B (name_of f)).
  Proof. intros items f I. apply body_known. apply in_once. split; [apply in_map; auto|intros []]. Qed.
End Load.
