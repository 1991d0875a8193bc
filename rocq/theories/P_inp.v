(** Reading the nodes and the elements of .DAT files. *)
From Coq Require Import Ascii String List Arith NArith ZArith Bool Lia.
From Verif Require Import M_base M_merge M_mesh M_text M_mmio S_text S_files P_text P_mmio P_formats M_regex M_files P_regex P_hst P_tec P_layout P_dat P_msh M_formats M_inp S_inp.
Import ListNotations.
Local Open Scope nat_scope.

(** ** Decimal numbers *)
Definition ended (t : text) : Prop := t = [] \/ exists c t', t = c :: t' /\ is_space c = true.
Lemma ended_stops : forall t, ended t -> stops is_digit t.
Proof. intros t [->|(c & t' & -> & H)]; [exact I|]. cbn. destruct (is_digit c) eqn:D; auto. rewrite (digit_not_space c D) in H. discriminate. Qed.
Lemma ended_class : forall cs t b c, ended t -> Forall (fun d => is_space d = false) cs -> fails (class cs) (St b t c).
Proof.
  intros cs t b c [->|(d & t' & -> & H)] F; [apply fails_chr; exact I|]. apply fails_class. intros X. apply (proj1 (Forall_forall _ _) F) in X. congruence.
Qed.
Lemma sign_eats : forall sg b t, a_sign sg -> stops (fun c => existsb (Ascii.eqb c) (s "+-")) t -> eats b (Opt (class (s "+-"))) sg t.
Proof.
  intros sg b t [->|[->| ->]] S.
  - apply eats_opt_none. intros c. apply fails_chr. exact S.
  - apply eats_opt, eats_class. left. auto.
  - apply eats_opt, eats_class. right. left. auto.
Qed.
Lemma digit_no_sign : forall a t, only_digits a -> stops (fun c => existsb (Ascii.eqb c) (s "+-")) t -> stops (fun c => existsb (Ascii.eqb c) (s "+-")) (a ++ t).
Proof.
  intros [|c a] t H S; [exact S|]. cbn [app stops]. destruct (existsb (Ascii.eqb c) (s "+-")) eqn:E; auto. apply existsb_exists in E as (x & X & E). apply Ascii.eqb_eq in E. subst. inversion H; subst. destruct (digit_not_sign _ H2 X).
Qed.
Lemma number_no_sign : forall d t, number d -> stops (fun c => existsb (Ascii.eqb c) (s "+-")) (d ++ t).
Proof.
  intros [|c d] t [N H]; [congruence|]. cbn [app stops]. destruct (existsb (Ascii.eqb c) (s "+-")) eqn:E; auto. apply existsb_exists in E as (x & X & E). apply Ascii.eqb_eq in E. subst. inversion H; subst. destruct (digit_not_sign _ H2 X).
Qed.
Lemma eats_decimal : forall w b t, decimal w -> ended t -> eats b real_re w t.
Proof.
  intros w b t (sg & a & d & ex & -> & SG & A & D & ND & EX) T. unfold real_re, seqs. cbn [fold_right].
  assert (XD : stops is_digit (ex ++ t)).
  { destruct EX as [->|(e & sg' & n & -> & [->| ->] & _)]; [apply ended_stops; auto|reflexivity|reflexivity]. }
  replace (sg ++ a ++ s "." ++ d ++ ex) with (sg ++ (a ++ s "." ++ d) ++ ex) by (rewrite <- !app_assoc; reflexivity).
  apply eats_seq; [apply sign_eats; auto; rewrite <- !app_assoc; apply digit_no_sign; auto; reflexivity|]. apply eats_seq.
  - destruct a as [|c a].
    + apply eats_right.
      * intros k. apply fails_seq, fails_seq, fails_chr. reflexivity.
      * apply (eats_seq _ (Star digit_re) _ [] (s "." ++ d)); [apply (eats_star_class is_digit []); [constructor|reflexivity]|]. apply (eats_seq _ (Lit ".") _ (s ".") d); [apply eats_lit|]. apply eats_last. destruct ND as [ND|ND]; [congruence|]. apply eats_ds; auto.
    + apply eats_left. apply eats_seq; [apply eats_ds; auto; [discriminate|reflexivity]|]. apply eats_seq; [apply eats_lit|]. apply eats_last. apply eats_star_class; auto.
  - apply eats_last. destruct EX as [->|(e & sg' & n & -> & E & SG' & N & DN)].
    + apply eats_opt_none. intros k. apply fails_seq. apply ended_class; auto. repeat constructor.
    + apply eats_opt. change (e :: sg' ++ n) with ([e] ++ sg' ++ n). apply eats_seq; [apply eats_class; destruct E as [->| ->]; cbn; auto|].
      apply eats_seq; [apply sign_eats; auto; apply number_no_sign; split; auto|]. apply eats_last. apply eats_ds; auto. apply ended_stops. auto.
Qed.
Lemma lang_alt : forall a b x y, lang (Alt a b) x y -> lang a x y \/ lang b x y. Proof. intros a b x y L. inversion L; subst; auto. Qed.
Lemma lang_empty : forall x y, lang Empty x y -> y = x. Proof. intros x y L. inversion L; subst; auto. Qed.
Lemma lang_class : forall cs x y, lang (class cs) x y -> exists c, In c cs /\ snd x = c :: snd y.
Proof. intros cs x y L. apply lang_chr in L as (c & t & E & H & ->). exists c. split; auto. apply existsb_exists in H as (d & I & EQ). apply Ascii.eqb_eq in EQ. subst. auto. Qed.
Lemma lang_lit : forall c x y, lang (Lit c) x y -> snd x = c :: snd y. Proof. intros c x y L. apply lang_chr in L as (d & t & E & H & ->). apply Ascii.eqb_eq in H. subst. auto. Qed.
Lemma lang_ds : forall x y, lang ds x y -> exists d, snd x = d ++ snd y /\ number d.
Proof.
  intros x y L. unfold ds, Plus in L. apply lang_seq in L as (z & L1 & L2). apply lang_chr in L1 as (c & t & E1 & C & ->). apply lang_star_class in L2 as (u & E2 & _ & U). cbn [snd] in E2.
  exists (c :: u). rewrite E1, E2. split; [reflexivity|]. split; [discriminate|]. constructor; auto.
Qed.
Lemma lang_sign : forall x y, lang (Opt (class (s "+-"))) x y -> exists sg, snd x = sg ++ snd y /\ a_sign sg.
Proof.
  intros x y L. apply lang_alt in L as [L|L].
  - apply lang_class in L as (c & I & E). exists [c]. rewrite E. split; auto. destruct I as [<-|[<-|[]]]; [right; left|right; right]; reflexivity.
  - apply lang_empty in L. subst. exists []. split; auto. left. auto.
Qed.
Lemma lang_decimal : forall x y, lang real_re x y -> exists w, snd x = w ++ snd y /\ decimal w.
Proof.
  intros x y L. unfold real_re, seqs in L. cbn [fold_right] in L. apply lang_seq in L as (z1 & L1 & L). apply lang_sign in L1 as (sg & E1 & SG).
  apply lang_seq in L as (z2 & L2 & L). apply lang_seq in L as (z3 & L3 & L4). apply lang_empty in L4. subst z3.
  assert (X2 : exists a b, snd z1 = a ++ s "." ++ b ++ snd z2 /\ only_digits a /\ only_digits b /\ (a <> [] \/ b <> [])).
  { apply lang_alt in L2 as [L2|L2].
    - apply lang_seq in L2 as (y1 & M1 & L2). apply lang_seq in L2 as (y2 & M2 & L2). apply lang_seq in L2 as (y3 & M3 & M4). apply lang_empty in M4. subst y3.
      apply lang_ds in M1 as (a & EA & NA & A). apply lang_lit in M2. apply lang_star_class in M3 as (b & EB & _ & B). exists a, b. rewrite EA, M2, EB. repeat split; auto.
    - apply lang_seq in L2 as (y1 & M1 & L2). apply lang_seq in L2 as (y2 & M2 & L2). apply lang_seq in L2 as (y3 & M3 & M4). apply lang_empty in M4. subst y3.
      apply lang_star_class in M1 as (a & EA & _ & A). apply lang_lit in M2. apply lang_ds in M3 as (b & EB & NB & B). exists a, b. rewrite EA, M2, EB. repeat split; auto. }
  destruct X2 as (a & b & E2 & A & B & N).
  assert (X3 : exists ex, snd z2 = ex ++ snd y /\ (ex = [] \/ exists e sg' d, ex = e :: sg' ++ d /\ (e = "e" \/ e = "E")%char /\ a_sign sg' /\ number d)).
  { apply lang_alt in L3 as [L3|L3]; [|apply lang_empty in L3; subst; exists []; auto].
    apply lang_seq in L3 as (y1 & M1 & L3). apply lang_seq in L3 as (y2 & M2 & L3). apply lang_seq in L3 as (y3 & M3 & M4). apply lang_empty in M4. subst y3.
    apply lang_class in M1 as (e & I & EE). apply lang_sign in M2 as (sg' & ES & SG'). apply lang_ds in M3 as (d & ED & D).
    exists (e :: sg' ++ d). rewrite EE, ES, ED. split; [cbn [app]; rewrite <- app_assoc; reflexivity|]. right. exists e, sg', d. repeat split; auto; try apply D. destruct I as [<-|[<-|[]]]; auto. }
  destruct X3 as (ex & E3 & EX). exists (sg ++ a ++ s "." ++ b ++ ex). rewrite E1, E2, E3. split; [rewrite <- !app_assoc; reflexivity|]. exists sg, a, b, ex. auto 10.
Qed.

(** ** Texts where no node begins *)
Definition opens (t : text) : Prop := exists sp w b, t = sp ++ w ++ b /\ spaces sp /\ decimal w.
Lemma decimal_head : forall w, decimal w -> exists c r, w = c :: r /\ (is_digit c = true \/ In c (s "+-.")).
Proof.
  intros w (sg & a & d & ex & -> & SG & A & _). destruct SG as [->|[->| ->]].
  - destruct a as [|c a]; [exists "."%char; eexists; split; [reflexivity|right; cbn; auto]|]. exists c. eexists. split; [reflexivity|]. inversion A; auto.
  - exists "+"%char. eexists. split; [reflexivity|]. right. cbn. auto.
  - exists "-"%char. eexists. split; [reflexivity|]. right. cbn. auto.
Qed.
Lemma head_not_space : forall c, is_digit c = true \/ In c (s "+-.") -> is_space c = false.
Proof. intros c [D|I]; [apply digit_not_space; auto|]. destruct I as [<-|[<-|[<-|[]]]]; reflexivity. Qed.
Lemma sign_chars : forall sg, a_sign sg -> Forall (fun c => is_space c = false) sg.
Proof. intros sg [->|[->| ->]]; repeat constructor. Qed.
Lemma digits_chars_ : forall a, only_digits a -> Forall (fun c => is_space c = false) a.
Proof. intros a H. apply Forall_forall. intros c I. apply digit_not_space. apply (proj1 (Forall_forall _ _) H c I). Qed.
Lemma decimal_word : forall w, decimal w -> word w.
Proof.
  intros w D. split; [destruct (decimal_head w D) as (c & r & -> & _); discriminate|]. destruct D as (sg & a & b & ex & -> & SG & A & B & _ & EX).
  repeat (apply Forall_app; split); auto using sign_chars, digits_chars_; [repeat constructor|].
  destruct EX as [->|(e & sg' & d & -> & E & SG' & D)]; [constructor|]. constructor; [destruct E as [->| ->]; reflexivity|]. apply Forall_app. split; [apply sign_chars; auto|apply digits_chars_; apply D].
Qed.
Lemma decimal_nonl : forall w, decimal w -> nonl w.
Proof.
  intros w D. apply decimal_word in D as [_ F]. apply Forall_forall. intros c I. apply (proj1 (Forall_forall _ _) F) in I. destruct (Ascii.eqb c newline) eqn:E; auto. apply Ascii.eqb_eq in E. subst. discriminate.
Qed.
Lemma number_word : forall d, number d -> word d. Proof. intros d [N D]. split; auto. apply digits_chars_. auto. Qed.
Lemma digits_prefix : forall d a r t, only_digits d -> only_digits a -> stops is_digit r -> stops is_digit t -> d ++ r = a ++ t -> d = a /\ r = t.
Proof.
  induction d as [|c d IH]; intros a r t D A R T E.
  - destruct a as [|x a]; [auto|]. cbn in E. subst r. inversion A; subst. cbn in R. congruence.
  - destruct a as [|x a]; [cbn in E; subst t; inversion D; subst; cbn in T; congruence|]. injection E as -> E. inversion D; inversion A; subst. destruct (IH a r t) as [-> ->]; auto.
Qed.
Lemma number_not_decimal : forall d r w b, number d -> ended r -> decimal w -> d ++ r <> w ++ b.
Proof.
  intros d r w b [ND D] R (sg & a & f & ex & -> & SG & A & _ & _ & _) E. destruct SG as [->|[->| ->]].
  - cbn [app] in E. rewrite <- !app_assoc in E. destruct (digits_prefix d a r (s "." ++ f ++ ex ++ b)) as [_ ->]; auto; [apply ended_stops; auto|reflexivity|]. destruct R as [R|(c & t' & R & S)]; [discriminate|]. injection R as <- _. discriminate.
  - destruct d as [|c d]; [congruence|]. injection E as -> _. inversion D; subst. discriminate.
  - destruct d as [|c d]; [congruence|]. injection E as -> _. inversion D; subst. discriminate.
Qed.
Lemma spaces_prefix : forall p q u v, spaces p -> spaces q -> stops is_space u -> stops is_space v -> p ++ u = q ++ v -> p = q /\ u = v.
Proof.
  induction p as [|c p IH]; intros q u v P Q U V E.
  - destruct q as [|x q]; [auto|]. cbn in E. subst u. inversion Q; subst. cbn in U. congruence.
  - destruct q as [|x q]; [cbn in E; subst v; inversion P; subst; cbn in V; congruence|]. injection E as -> E. inversion P; inversion Q; subst. destruct (IH q u v) as [-> ->]; auto.
Qed.
Lemma number_not_open : forall p d r, spaces p -> number d -> ended r -> ~ opens (p ++ d ++ r).
Proof.
  intros p d r P D R (sp & w & b & E & SP & W). destruct (spaces_prefix p sp (d ++ r) (w ++ b)) as [_ E2]; auto; [apply stops_space_word, number_word; auto|apply stops_space_word, decimal_word; auto|].
  revert E2. apply number_not_decimal; auto.
Qed.
Lemma sign_not_open : forall c t, (c = "$" \/ c = "*")%char -> ~ opens (c :: t).
Proof.
  intros c t C (sp & w & b & E & SP & W). destruct sp as [|x sp].
  - destruct (decimal_head w W) as (y & r & -> & H). injection E as -> _. destruct C as [->| ->]; destruct H as [H|[H|[H|[H|[]]]]]; discriminate.
  - injection E as -> _. inversion SP; subst. destruct C as [->| ->]; discriminate.
Qed.
Lemma calm_suffix : forall u v, calm (u ++ v) -> calm v.
Proof. intros u v C (a & d & sp & x & b & -> & H). apply C. exists (u ++ a), d, sp, x, b. split; [rewrite <- app_assoc; reflexivity|auto]. Qed.
Lemma calm_prefix : forall u v, calm (u ++ v) -> calm u.
Proof. intros u v C (a & d & sp & x & b & -> & H). apply C. exists a, d, sp, x, (b ++ v). split; [repeat (rewrite <- ?app_assoc; cbn [app]); reflexivity|auto]. Qed.
Lemma calm_nil : calm []. Proof. intros (a & d & sp & x & b & E & _). destruct a; discriminate. Qed.
Lemma decimal_dot : forall w, decimal w -> In "."%char w.
Proof. intros w (sg & a & d & ex & -> & _). apply in_or_app. right. apply in_or_app. right. left. auto. Qed.
Lemma calm_no_dot : forall l, ~ In "."%char l -> calm l.
Proof. intros l N (a & d & sp & x & b & -> & _ & _ & _ & X). apply N. apply decimal_dot in X. apply in_or_app. right. right. apply in_or_app. right. apply in_or_app. auto. Qed.
(** A digit, white space and a decimal number around the end of a line *)
Lemma around : forall l t d sp x b a, l ++ newline :: t = a ++ d :: sp ++ x ++ b -> is_digit d = true -> spaces sp -> sp <> [] -> decimal x -> ~ opens t -> calm l ->
  exists a', a = l ++ newline :: a' /\ t = a' ++ d :: sp ++ x ++ b.
Proof.
  intros l t d sp x b a E D SP NS X NO C. assert (ND : d <> newline) by (intros EN; rewrite EN in D; discriminate). destruct (decimal_head x X) as (c & r & XE & H). apply head_not_space in H.
  apply app_eq_app in E as (m & [[E1 E2]|[E1 E2]]).
  - exfalso. destruct m as [|y m]; [injection E2 as E2 _; congruence|]. injection E2 as <- E2. apply app_eq_app in E2 as (q & [[E3 E4]|[E3 E4]]).
    + destruct q as [|z q].
      * cbn [app] in E4. rewrite XE in E4. injection E4 as E4 _. rewrite <- E4 in H. discriminate.
      * injection E4 as _ E4. apply NO. exists q, x, b. split; auto. split; auto. rewrite E3 in SP. apply Forall_app in SP as [_ SP]. inversion SP; auto.
    + destruct (nonl_prefix x b q t (decimal_nonl x X) E4) as (h' & -> & _). apply C. exists a, d, sp, x, h'. split; [rewrite E1, E3; reflexivity|auto].
  - destruct m as [|y m]; [injection E2 as E2 _; congruence|]. injection E2 as <- E2. exists m. split; auto.
Qed.
Lemma calm_join : forall l t, calm l -> calm t -> ~ opens t -> calm (l ++ newline :: t).
Proof.
  intros l t CL CT NO (a & d & sp & x & b & E & D & NS & SP & X). destruct (around l t d sp x b a E D SP NS X NO CL) as (a' & _ & ->). apply CT. exists a', d, sp, x, b. auto.
Qed.
Lemma lang_sp : forall x y, lang sp x y -> exists p, snd x = p ++ snd y /\ spaces p /\ p <> [].
Proof.
  intros x y L. unfold sp, Plus in L. apply lang_seq in L as (z & L1 & L2). apply lang_chr in L1 as (c & t & E1 & C & ->). apply lang_star_class in L2 as (u & E2 & _ & U). cbn [snd] in E2.
  exists (c :: u). rewrite E1, E2. split; [reflexivity|]. split; [constructor; auto|discriminate].
Qed.
Lemma lang_node : forall x y, lang hst_node_line x y -> exists p d q w r, snd x = p ++ d ++ q ++ w ++ r /\ spaces p /\ number d /\ spaces q /\ q <> [] /\ decimal w.
Proof.
  intros x y L. unfold hst_node_line, seqs in L. cbn [fold_right Times] in L. apply lang_seq in L as (z1 & L1 & L). apply lang_star_class in L1 as (p & E1 & _ & P).
  apply lang_seq in L as (z2 & L2 & L). apply lang_ds in L2 as (d & E2 & D). apply lang_seq in L as (z3 & L3 & _). apply lang_seq in L3 as (z4 & L4 & _). apply lang_seq in L4 as (z5 & L5 & L6).
  apply lang_sp in L5 as (q & E5 & Q & NQ). apply lang_decimal in L6 as (w & E6 & W). exists p, d, q, w, (snd z4). rewrite E1, E2, E5, E6. auto 10.
Qed.
Lemma number_last : forall d, number d -> exists d' c, d = d' ++ [c] /\ is_digit c = true.
Proof. intros d [N D]. destruct (@exists_last _ d N) as (d' & c & ->). exists d', c. split; auto. apply Forall_app in D as [_ D]. inversion D; auto. Qed.
Lemma calm_no_node : forall x y, calm (snd x) -> ~ lang hst_node_line x y.
Proof.
  intros x y C L. destruct (lang_node x y L) as (p & d & q & w & r & E & P & D & Q & NQ & W). destruct (number_last d D) as (d' & c & -> & H). apply C. exists (p ++ d'), c, q, w, r. split; [rewrite E, <- !app_assoc; reflexivity|auto].
Qed.
Lemma node_in_white : forall l t b y, calm l -> ~ opens t -> lang hst_node_line (b, l ++ newline :: t) y -> spaces l.
Proof.
  intros l t b y C NO L. destruct (lang_node _ y L) as (p & d & q & w & r & E & P & D & Q & NQ & W). destruct (number_last d D) as (d' & c & -> & H). cbn [snd] in E.
  replace (p ++ (d' ++ [c]) ++ q ++ w ++ r) with ((p ++ d') ++ c :: q ++ w ++ r) in E by (rewrite <- !app_assoc; reflexivity).
  destruct (around l t c q w r (p ++ d') E H Q NQ W NO C) as (a' & E2 & _). symmetry in E2. apply app_eq_app in E2 as (m & [[E3 E4]|[E3 E4]]).
  - exfalso. assert (I : In newline d') by (rewrite E4; apply in_or_app; right; left; auto). destruct D as [_ D]. apply Forall_app in D as [D _]. apply (proj1 (Forall_forall _ _) D) in I. discriminate.
  - rewrite E3 in P. apply Forall_app in P. apply P.
Qed.

(** ** The section of nodes *)
Definition quiet (l : text) : Prop := nonl l /\ calm l /\ forall t, ended t -> ~ opens (l ++ t).
Lemma not_open_nil : ~ opens [].
Proof. intros (sp & w & b & E & _ & W). destruct (decimal_head w W) as (c & r & -> & _). destruct sp; discriminate. Qed.
Lemma quiet_text : forall ls, Forall quiet ls -> calm (concat (map line ls)) /\ ~ opens (concat (map line ls)).
Proof.
  induction ls as [|l ls IH]; intros F; [split; [apply calm_nil|apply not_open_nil]|]. inversion F as [|? ? (N & C & O) F2]; subst. destruct (IH F2) as [C2 O2]. cbn [map concat]. unfold line. rewrite <- app_assoc. cbn [app]. split; [apply calm_join; auto|].
  apply O. right. eexists _, _. split; reflexivity.
Qed.
Lemma remark_quiet : forall l, remark l -> quiet l.
Proof.
  intros l (N & (c & t & -> & C) & K). split; [|split; auto; intros u _; apply sign_not_open; auto]. apply Forall_forall. intros x X. destruct (Ascii.eqb x newline) eqn:E; auto. apply Ascii.eqb_eq in E. subst. contradiction.
Qed.
Lemma trailing : forall t, exists h ws, t = h ++ ws /\ spaces ws /\ (h = [] \/ exists h' c, h = h' ++ [c] /\ is_space c = false).
Proof.
  intros t. induction t as [|c t IH] using rev_ind; [exists [], []; split; auto; split; [constructor|auto]|]. destruct (is_space c) eqn:S.
  - destruct IH as (h & ws & -> & W & H). exists h, (ws ++ [c]). rewrite app_assoc. split; auto. split; auto. apply Forall_app. split; auto. 
  - exists (t ++ [c]), []. rewrite app_nil_r. split; auto. split; [constructor|]. right. eauto.
Qed.
Lemma blanks_spaces : forall p, blanks p -> spaces p. Proof. intros p H. eapply Forall_impl; [|exact H]. intros c <-. reflexivity. Qed.
Lemma ended_spaces : forall p t, spaces p -> p <> [] -> ended (p ++ t). Proof. intros [|c p] t H N; [congruence|]. right. exists c, (p ++ t). inversion H; auto. Qed.
Lemma ended_line : forall t, ended (newline :: t). Proof. intros t. right. exists newline, t. auto. Qed.
Lemma eats_dat_node : forall dbl l n p b ws t, dat_node_line dbl l n p -> spaces ws -> ended t -> eats b hst_node_line (ws ++ l) t.
Proof.
  intros dbl l n p b ws t (p0 & d & p1 & x & p2 & y & p3 & z & -> & P0 & [N1 P1] & [N2 P2] & [N3 P3] & D & X & Y & Z & _) W T.
  apply blanks_spaces in P0, P1, P2, P3. unfold hst_node_line, seqs. cbn [fold_right Times].
  replace (ws ++ p0 ++ d ++ p1 ++ x ++ p2 ++ y ++ p3 ++ z) with ((ws ++ p0) ++ d ++ (p1 ++ x) ++ (p2 ++ y) ++ p3 ++ z) by (rewrite <- !app_assoc; reflexivity).
  apply eats_seq; [apply eats_star_class; [apply Forall_app; auto|rewrite <- app_assoc; apply stops_space_word, number_word; auto]|].
  apply eats_seq; [apply eats_ds; [apply D|apply D|rewrite <- !app_assoc; apply stops_digit_space; auto]|]. apply eats_last.
  apply eats_seq; [apply eats_seq; [apply eats_plus_class; auto; apply stops_space_word, decimal_word; auto|apply eats_decimal; auto; rewrite <- !app_assoc; apply ended_spaces; auto]|].
  apply eats_seq; [apply eats_seq; [apply eats_plus_class; auto; apply stops_space_word, decimal_word; auto|apply eats_decimal; auto; rewrite <- !app_assoc; apply ended_spaces; auto]|].
  apply eats_seq; [apply eats_plus_class; auto; apply stops_space_word, decimal_word; auto|apply eats_decimal; auto].
Qed.
Lemma node_not_open : forall dbl l n p t, dat_node_line dbl l n p -> ended t -> ~ opens (l ++ t).
Proof.
  intros dbl l n p t (p0 & d & p1 & x & p2 & y & p3 & z & -> & P0 & [N1 P1] & _ & _ & D & _) T. rewrite <- !app_assoc. apply number_not_open; auto using blanks_spaces. apply ended_spaces; auto using blanks_spaces.
Qed.
Lemma node_nonempty : forall dbl l n p, dat_node_line dbl l n p -> l <> [].
Proof. intros dbl l n p (p0 & d & p1 & x & p2 & y & p3 & z & -> & _ & _ & _ & _ & (ND & _) & _) E. apply app_eq_nil in E as [_ E]. apply app_eq_nil in E as [E _]. auto. Qed.
Definition node_pieces (ws : text) (ls : list text) : list text := match ls with [] => [] | l :: ls => (ws ++ l) :: map (cons newline) ls end.
Lemma pieces_text : forall ws ls t, ls <> [] -> ws ++ concat (map line ls) ++ t = concat (node_pieces ws ls) ++ newline :: t.
Proof.
  intros ws [|l ls] t N; [congruence|]. clear N. unfold node_pieces. cbn [map concat]. unfold line at 1. rewrite <- !app_assoc. do 2 f_equal. cbn [app]. revert t.
  induction ls as [|l' ls IH]; intros t; auto. cbn [map concat app]. unfold line at 1. rewrite <- !app_assoc. cbn [app]. rewrite IH. reflexivity.
Qed.
Lemma lines_end : forall ls, ls <> [] -> exists u, concat (map line ls) = u ++ [newline].
Proof. intros ls N. destruct (@exists_last _ ls N) as (ls' & l & ->). rewrite map_app, concat_app. cbn [map concat]. rewrite app_nil_r. unfold line at 2. exists (concat (map line ls') ++ l). rewrite <- app_assoc. auto. Qed.
Section Nodes.
  Variable dbl : N -> Z -> N * positive.
  Let is_node (l : text) (n : nat * list num) : Prop := dat_node_line dbl l (fst n) (snd n).
  Lemma piece_eats : forall ls ns, Forall2 is_node ls ns -> forall b l t, In l (map (cons newline) ls) -> True -> ended t -> eats b hst_node_line l t /\ True /\ ended (l ++ t).
  Proof.
    intros ls ns F b l t I _ T. apply in_map_iff in I as (l0 & <- & I). assert (X : exists n, is_node l0 n). { clear -F I. induction F as [|a n ls ns A F IH]; [contradiction|]. destruct I as [<-|I]; eauto. }
    destruct X as (n & X). split; [|split; auto; apply ended_line]. apply (eats_dat_node dbl l0 (fst n) (snd n) b [newline] t X); auto. repeat constructor.
  Qed.
  Lemma pieces_filled : forall ls, Forall (fun l => l <> []) (map (cons newline) ls). Proof. intros. apply Forall_map_intro. discriminate. Qed.
  Lemma eats_pieces : forall ls ns ws b t, Forall2 is_node ls ns -> ls <> [] -> spaces ws -> ended t -> (forall b c, fails hst_node_line (St b t c)) -> eats b (Plus hst_node_line) (concat (node_pieces ws ls)) t.
  Proof.
    intros ls ns ws b t F N W T NF. inversion F as [|l n ls' ns' A F' E1 E2]; subst; [congruence|]. cbn [node_pieces concat]. apply eats_seq.
    - apply (eats_dat_node dbl l (fst n) (snd n)); auto. destruct ls' as [|l' ls']; [exact T|apply ended_line].
    - apply (eats_star_list ended (fun _ => True)); auto. apply (piece_eats ls' ns'). auto. apply pieces_filled.
  Qed.
  Lemma calm_fails : forall b t c, calm t -> fails hst_node_line (St b t c).
  Proof. intros b t c C. apply fails_lang. intros y L. revert L. apply calm_no_node. exact C. Qed.
  Lemma section_fails : forall st, fails hst_node_line st -> fails hst_node_section st. Proof. intros st F. apply fails_group, fails_seq. auto. Qed.
  Lemma nodes_found : forall o ls ns more, Forall remark o -> ls <> [] -> Forall2 is_node ls ns -> Forall quiet more ->
    exists ws, spaces ws /\ findall1 hst_node_section (concat (map line o) ++ concat (map line ls) ++ concat (map line more)) = [concat (node_pieces ws ls)].
  Proof.
    intros o ls ns more O N F Q. destruct (quiet_text more Q) as [C NO]. set (M := concat (map line more)) in *. assert (CM : calm (newline :: M)) by (apply (calm_join [] M); auto; apply calm_nil).
    assert (K : forall b ws, spaces ws -> all_matches hst_node_section b (ws ++ concat (map line ls) ++ M) = [(concat (node_pieces ws ls), [(1, concat (node_pieces ws ls))])]).
    { intros b ws W. rewrite pieces_text by auto. assert (PN : concat (node_pieces ws ls) <> []).
      { inversion F as [|l n ls' ns' A F' E1 E2]; subst; [congruence|]. cbn [node_pieces concat]. intros E. apply app_eq_nil in E as [E _]. apply app_eq_nil in E as [_ E]. revert E. apply (node_nonempty dbl l (fst n) (snd n)). auto. }
      rewrite (all_step _ _ _ (concat (node_pieces ws ls)) [(1, concat (node_pieces ws ls))] (fin b (concat (node_pieces ws ls))) (newline :: M) [(1, concat (node_pieces ws ls))]); auto.
      - rewrite all_none; auto. apply scan_none. intros u v E. apply section_fails, calm_fails. rewrite E in CM. apply calm_suffix in CM. auto.
      - apply scan_here. apply takes_group; auto. apply (eats_pieces ls ns); auto; [apply ended_line|]. intros b' c. apply calm_fails. auto.
      - rewrite app_length. destruct (concat (node_pieces ws ls)); [congruence|]. cbn [length]. lia. }
    assert (NL : ~ opens (concat (map line ls) ++ M)).
    { inversion F as [|l n ls' ns' A F' E1 E2]; subst; [congruence|]. cbn [map concat]. unfold line at 1. rewrite <- !app_assoc. apply (node_not_open dbl l (fst n) (snd n)); auto. apply ended_line. }
    unfold findall1, matches. fold (all_matches hst_node_section None (concat (map line o) ++ concat (map line ls) ++ M)).
    assert (SN : spaces []) by apply Forall_nil. destruct o as [|o1 o]; [exists []; split; [exact SN|]; pose proof (K None [] SN) as K0; cbn [map concat app] in K0 |- *; rewrite K0; reflexivity|].
    destruct (trailing (concat (map line (o1 :: o)))) as (h & ws & E & W & H). exists ws. split; auto. rewrite E, <- app_assoc.
    rewrite (all_scan _ None _ (fin None h) (ws ++ concat (map line ls) ++ M)).
    - rewrite K by auto. reflexivity.
    - apply scan_skip. intros u v E2 NV. apply section_fails, fails_lang. intros y L. destruct H as [->|(h' & c & -> & SC)]; [destruct u, v; try discriminate; congruence|].
      destruct (lines_end (o1 :: o)) as (V & EV); [discriminate|].
      assert (CO : calm (concat (map line (o1 :: o)))). { apply quiet_text. apply Forall_forall. intros x X. apply remark_quiet. apply (proj1 (Forall_forall _ _) O x X). }
      destruct (@exists_last _ v NV) as (v' & c' & EQ). subst v. rewrite app_assoc in E2. apply app_inj_tail in E2 as [E2 <-].
      assert (X : exists V', (v' ++ [c]) ++ ws = V' ++ [newline]).
      { rewrite E in EV. rewrite E2 in EV. destruct ws as [|w ws] using rev_ind.
        - exists v'. rewrite app_nil_r in *. apply app_inj_tail in EV as [_ ->]. reflexivity.
        - exists ((v' ++ [c]) ++ ws). rewrite !app_assoc in *. apply app_inj_tail in EV as [_ ->]. reflexivity. }
      destruct X as (V' & EV').
      assert (CV : calm V'). { apply (calm_prefix V' [newline]). rewrite <- EV'. rewrite E, E2 in CO. rewrite <- !app_assoc in CO. apply calm_suffix in CO. rewrite <- app_assoc. auto. }
      cbn [pos_of prev rest] in L. rewrite app_assoc, EV', <- app_assoc in L. cbn [app] in L. unfold pos_of in L. cbn [prev rest] in L. pose proof (node_in_white V' _ _ _ CV NL L) as S.
      assert (S2 : spaces ((v' ++ [c]) ++ ws)) by (rewrite EV'; apply Forall_app; split; [auto|repeat constructor]). apply Forall_app in S2 as [S2 _]. apply Forall_app in S2 as [_ S2]. inversion S2; subst. congruence.
    - rewrite !app_length. lia.
  Qed.
  Lemma pieces_found : forall ls ns ws, ls <> [] -> Forall2 is_node ls ns -> spaces ws -> findall hst_node_line (concat (node_pieces ws ls)) = node_pieces ws ls.
  Proof.
    intros ls ns ws N F W. inversion F as [|l n ls' ns' A F' E1 E2]; subst; [congruence|]. cbn [node_pieces concat]. unfold findall, matches. fold (all_matches hst_node_line None ((ws ++ l) ++ concat (map (cons newline) ls'))).
    assert (NE : ws ++ l <> []). { intros E. apply app_eq_nil in E as [_ E]. revert E. apply (node_nonempty dbl l (fst n) (snd n)). auto. }
    rewrite (all_step _ _ _ (ws ++ l) [] (fin None (ws ++ l)) (concat (map (cons newline) ls')) []); auto.
    - rewrite (all_list ended (fun _ => True)); auto.
      + cbn [map fst]. rewrite map_map. f_equal. rewrite <- (map_id (map (cons newline) ls')) at 2. apply map_ext. auto.
      + apply (piece_eats ls' ns'). auto.
      + apply pieces_filled.
      + left. auto.
      + intros b _. apply calm_fails, calm_nil.
    - apply scan_here. apply (eats_dat_node dbl l (fst n) (snd n)); auto. destruct ls' as [|l' ls']; [left; auto|apply ended_line].
    - rewrite app_length. destruct (ws ++ l); [congruence|]. cbn [length]. lia.
  Qed.
  Lemma node_words : forall l n, is_node l n -> exists d x y z, words l = [d; x; y; z] /\ to_int d = Ok (Z.of_nat (fst n)) /\ mapM (to_float dbl) [x; y; z] = Ok (snd n).
  Proof.
    intros l n (p0 & d & p1 & x & p2 & y & p3 & z & -> & P0 & [N1 P1] & [N2 P2] & [N3 P3] & D & X & Y & Z & I & M). exists d, x, y, z. split; auto. apply blanks_spaces in P0, P1, P2, P3.
    assert (EN : forall p t, spaces p -> p <> [] -> p ++ t = [] \/ exists c r', p ++ t = c :: r' /\ is_space c = true) by (intros p t H H0; apply ended_spaces; auto).
    rewrite words_spaces by auto. rewrite words_word by (auto using number_word). rewrite words_spaces by auto. rewrite words_word by (auto using decimal_word). rewrite words_spaces by auto. rewrite words_word by (auto using decimal_word).
    rewrite words_spaces by auto. pose proof (words_word z [] (decimal_word z Z) (or_introl eq_refl)) as WZ. rewrite app_nil_r in WZ. rewrite WZ. reflexivity.
  Qed.
  Lemma piece_read : forall ws l n, spaces ws -> is_node l n -> dat_node dbl (ws ++ l) = Ok n.
  Proof.
    intros ws l [n p] W H. destruct (node_words l (n, p) H) as (d & x & y & z & E & I & M). unfold dat_node. rewrite words_spaces by auto. rewrite E, I. cbn [bind fst snd] in *. rewrite M. cbn [bind]. rewrite Nat2Z.id. reflexivity.
  Qed.
  Lemma pieces_read : forall ls ns ws, Forall2 is_node ls ns -> spaces ws -> mapM (dat_node dbl) (node_pieces ws ls) = Ok ns.
  Proof.
    intros ls ns ws F W. destruct F as [|l n ls ns A F]; auto. cbn [node_pieces mapM]. rewrite (piece_read ws l n) by auto. cbn [bind].
    assert (E : mapM (dat_node dbl) (map (cons newline) ls) = Ok ns). { clear -F. induction F as [|l n ls ns A F IH]; auto. cbn [map mapM]. change (newline :: l) with ([newline] ++ l). rewrite (piece_read [newline] l n) by (auto; repeat constructor). cbn [bind]. rewrite IH. reflexivity. }
    rewrite E. reflexivity.
  Qed.
End Nodes.

(** ** The sections of elements *)
Lemma eats_blanks : forall p b t, some_blanks p -> stops (Ascii.eqb " ") t -> eats b (Plus (Lit " ")) p t.
Proof. intros p b t [N P] S. apply eats_plus_class; auto. eapply Forall_impl; [|exact P]. intros c <-. reflexivity. Qed.
Lemma number_no_blank : forall d t, number d -> stops (Ascii.eqb " ") (d ++ t).
Proof. intros [|c d] t [N D]; [congruence|]. cbn [app stops]. inversion D; subst. destruct (Ascii.eqb " " c) eqn:E; auto. apply Ascii.eqb_eq in E. subst. discriminate. Qed.
Lemma blank_no_digit : forall p t, some_blanks p -> stops is_digit (p ++ t).
Proof. intros p t [N P]. apply stops_digit_space; auto using blanks_spaces. Qed.
Lemma eats_ids : forall p d b t, some_blanks p -> number d -> stops is_digit t -> eats b inp_ids (p ++ d) t.
Proof. intros p d b t P D T. apply eats_seq; [apply eats_blanks; auto; apply number_no_blank; auto|]. apply eats_ds; auto; apply D. Qed.
Definition cells_text (cells : list (text * text)) : text := concat (map (fun c => fst c ++ snd c) cells).
(** What follows a line of elements does not begin with the end of a line. *)
Definition new_line (t : text) : Prop := stops (fun c => existsb (Ascii.eqb c) [return_char; newline]) t.
Lemma eats_element : forall l cs b t, dat_element_line l cs -> at_line_start b -> new_line t -> eats b inp_elem_line (line l) t.
Proof.
  intros l cs b t (p0 & d & cells & -> & P0 & D & C & L & _) B T. fold (cells_text cells). unfold line. rewrite <- !app_assoc. unfold inp_elem_line, seqs. cbn [fold_right Times].
  change (eats b (Seq Bol (Seq (Plus (Lit " ")) (Seq ds (Seq (Seq inp_ids (Seq inp_ids inp_ids)) (Seq (Opt inp_ids) (Seq ends Empty)))))) ([] ++ p0 ++ d ++ cells_text cells ++ [newline]) t).
  apply eats_seq; [apply eats_bol; auto|]. apply eats_seq; [apply eats_blanks; auto; rewrite <- !app_assoc; apply number_no_blank; auto|].
  assert (S : forall cells, Forall (fun c => some_blanks (fst c) /\ number (snd c)) cells -> stops is_digit ((cells_text cells ++ [newline]) ++ t)).
  { intros [|c l] F; [reflexivity|]. inversion F as [|? ? [F1 _] _]; subst. cbn [cells_text map concat]. rewrite <- !app_assoc. apply blank_no_digit. auto. }
  apply eats_seq; [apply eats_ds; try apply D; apply S; auto|].
  destruct cells as [|[p1 d1] [|[p2 d2] [|[p3 d3] more]]]; try (cbn in L; lia). rewrite !Forall_cons_iff in C. cbn [fst snd] in C. destruct C as ([P1 D1] & [P2 D2] & [P3 D3] & C).
  replace (cells_text ((p1, d1) :: (p2, d2) :: (p3, d3) :: more) ++ [newline]) with (((p1 ++ d1) ++ (p2 ++ d2) ++ (p3 ++ d3)) ++ cells_text more ++ [newline]) by (unfold cells_text; cbn [map concat fst snd]; rewrite <- !app_assoc; reflexivity).
  apply eats_seq.
  - apply eats_seq; [apply eats_ids; auto; rewrite <- !app_assoc; apply blank_no_digit; auto|]. apply eats_seq; [apply eats_ids; auto; rewrite <- !app_assoc; apply blank_no_digit; auto|]. apply eats_ids; auto.
  - destruct more as [|[p4 d4] [|]]; try (cbn in L; lia).
    + apply (eats_seq _ (Opt inp_ids) _ []); [apply eats_opt_none; intros c; apply fails_seq, fails_seq, fails_chr; reflexivity|]. apply eats_last. apply eats_ends. auto.
    + rewrite Forall_cons_iff in C. destruct C as [[P4 D4] _]. replace (cells_text [(p4, d4)]) with (p4 ++ d4) by (unfold cells_text; cbn [map concat fst snd]; rewrite app_nil_r; reflexivity).
      apply eats_seq; [apply eats_opt, eats_ids; auto; reflexivity|]. apply eats_last. apply eats_ends. auto.
Qed.
Lemma element_nonl : forall l cs, dat_element_line l cs -> nonl l.
Proof.
  intros l cs (p0 & d & cells & -> & [_ P0] & [_ D] & C & _). assert (B : forall p, blanks p -> nonl p) by (intros p H; eapply Forall_impl; [|exact H]; intros c <-; reflexivity).
  assert (DN : forall p, only_digits p -> nonl p). { intros p H; eapply Forall_impl; [|exact H]. intros c E. destruct (Ascii.eqb c newline) eqn:Q; auto. apply Ascii.eqb_eq in Q. subst. discriminate. }
  apply nonl_app; auto. apply nonl_app; auto. clear -C B DN. induction C as [|c cells [[_ A] [_ A2]] C IH]; [constructor|]. cbn [map concat]. apply nonl_app; auto. apply nonl_app; auto.
Qed.
Lemma element_no_dot : forall l cs, dat_element_line l cs -> ~ In "."%char l.
Proof.
  intros l cs (p0 & d & cells & -> & [_ P0] & [_ D] & C & _). assert (B : forall p, blanks p -> ~ In "."%char p) by (intros p H I; apply (proj1 (Forall_forall _ _) H) in I; discriminate).
  assert (DN : forall p, only_digits p -> ~ In "."%char p) by (intros p H I; apply (proj1 (Forall_forall _ _) H) in I; discriminate).
  intros I. apply in_app_or in I as [I|I]; [eapply B; eauto|]. apply in_app_or in I as [I|I]; [eapply DN; eauto|]. apply in_concat in I as (x & X & I). apply in_map_iff in X as (c & <- & X).
  apply (proj1 (Forall_forall _ _) C) in X as [[_ X1] [_ X2]]. apply in_app_or in I as [I|I]; [eapply B; eauto|eapply DN; eauto].
Qed.
Lemma element_quiet : forall l cs, dat_element_line l cs -> quiet l.
Proof.
  intros l cs H. split; [apply (element_nonl l cs); auto|]. split; [apply calm_no_dot, (element_no_dot l cs); auto|]. intros t T. destruct H as (p0 & d & cells & -> & [_ P0] & D & C & L & _). rewrite <- !app_assoc.
  apply number_not_open; auto using blanks_spaces. destruct cells as [|c cells]; [cbn in L; lia|]. inversion C as [|? ? [[N P] _] _]; subst. cbn [map concat]. rewrite <- !app_assoc. apply ended_spaces; auto using blanks_spaces.
Qed.
Lemma elem_at_start : forall b t c, ~ at_line_start b -> fails inp_elem_section (St b t c).
Proof. intros b t c H. apply fails_group, fails_seq, fails_bol_seq. auto. Qed.
Lemma elem_fails : forall b t c, fails (seqs [Plus (Lit " "); ds; Times 3 inp_ids; Opt inp_ids; ends]) (St b t c) -> fails inp_elem_line (St b t c).
Proof. intros b t c F. apply fails_bol_then. exact F. Qed.
Lemma remark_not_elem : forall l b t c, remark l -> fails inp_elem_line (St b (l ++ t) c).
Proof. intros l b t c (_ & (x & r & -> & X) & _). apply elem_fails, fails_seq, fails_seq, fails_chr. cbn. destruct X as [->| ->]; reflexivity. Qed.
Lemma end_not_elem : forall b c, fails inp_elem_line (St b [] c). Proof. intros b c. apply elem_fails, fails_seq, fails_seq, fails_chr. exact I. Qed.
Lemma blank_holds : forall p, blanks p -> holds (Ascii.eqb " ") p. Proof. intros p P. eapply Forall_impl; [|exact P]. intros x <-. reflexivity. Qed.
Lemma digit_not_blank : forall r b a t c, is_digit a = true -> fails (Seq (Plus (Lit " ")) r) (St b (a :: t) c).
Proof. intros r b a t c H. apply fails_seq, fails_seq, fails_chr. cbn [stops]. destruct (Ascii.eqb " " a) eqn:E; auto. apply Ascii.eqb_eq in E. subst. discriminate. Qed.
Lemma node_not_element : forall dbl l n p b t c, dat_node_line dbl l n p -> fails inp_elem_line (St b (l ++ t) c).
Proof.
  intros dbl l n p b t c (p0 & d & p1 & x & p2 & y & p3 & z & -> & P0 & P1 & P2 & _ & D & X & _). apply elem_fails. unfold seqs. cbn [fold_right Times]. rewrite <- !app_assoc. set (R := Seq (Opt inp_ids) (Seq ends Empty)).
  destruct p0 as [|a0 p0]; [apply fails_seq, fails_seq, fails_chr; apply (number_no_blank d); auto|].
  assert (NB : forall r b a t c, Ascii.eqb " " a = true -> fails (Seq ds r) (St b (a :: t) c)). { intros r b0 a t0 c0 E. apply Ascii.eqb_eq in E. subst. apply fails_ds_space. reflexivity. }
  apply fails_plus; [discriminate|apply blank_holds; auto|apply number_no_blank; auto|intros; apply NB; auto|].
  apply fails_plus; [apply D|apply D|apply blank_no_digit; auto|intros; apply fails_seq, fails_seq, digit_not_blank; auto|].
  apply fails_assoc. unfold inp_ids at 1. apply fails_assoc. apply fails_plus; [apply P1|apply blank_holds, P1| |intros; apply NB; auto|].
  { destruct (decimal_head x X) as (a & r & -> & H). cbn [app stops]. apply head_not_space in H. destruct (Ascii.eqb " " a) eqn:E; auto. apply Ascii.eqb_eq in E. subst. discriminate. }
  destruct X as (sg & a & f & ex & -> & SG & A & F & _). rewrite <- !app_assoc. destruct SG as [->|[->| ->]]; try (apply fails_seq, fails_seq, fails_chr; reflexivity). cbn [app].
  destruct a as [|a1 a]; [apply fails_seq, fails_seq, fails_chr; reflexivity|].
  apply fails_plus; [discriminate|exact A|reflexivity|intros; apply fails_seq, fails_seq, digit_not_blank; auto|]. apply fails_seq, fails_seq, fails_seq, fails_seq, fails_chr. reflexivity.
Qed.
Definition mute (l : text) : Prop := nonl l /\ l <> [] /\ forall b t c, fails inp_elem_line (St b (l ++ t) c).
Lemma remark_mute : forall l, remark l -> mute l.
Proof. intros l R. split; [apply remark_quiet; auto|]. split; [destruct R as (_ & (c & t & -> & _) & _); discriminate|]. intros. apply remark_not_elem. auto. Qed.
Lemma node_nonl : forall dbl l n p, dat_node_line dbl l n p -> nonl l.
Proof.
  intros dbl l n p (p0 & d & p1 & x & p2 & y & p3 & z & -> & P0 & P1 & P2 & P3 & D & X & Y & Z & _). assert (B : forall p, blanks p -> nonl p) by (intros q H; eapply Forall_impl; [|exact H]; intros c <-; reflexivity).
  assert (DN : nonl d). { destruct D as [_ D]. eapply Forall_impl; [|exact D]. intros c E. destruct (Ascii.eqb c newline) eqn:Q; auto. apply Ascii.eqb_eq in Q. subst. discriminate. }
  repeat apply nonl_app; auto using decimal_nonl; try (apply B; auto; fail); apply B; [apply P1|apply P2|apply P3].
Qed.
Lemma node_mute : forall dbl l n p, dat_node_line dbl l n p -> mute l.
Proof. intros dbl l n p H. split; [apply (node_nonl dbl l n p); auto|]. split; [apply (node_nonempty dbl l n p); auto|]. intros. apply (node_not_element dbl l n p). auto. Qed.
Lemma mute_scan : forall ls b t, Forall mute ls -> at_line_start b -> exists b', at_line_start b' /\ scan inp_elem_section b (concat (map line ls) ++ t) = scan inp_elem_section b' t.
Proof.
  intros ls. induction ls as [|l ls IH]; intros b t F B; [exists b; auto|]. inversion F as [|? ? (N & NE & M) F2]; subst. destruct (IH (Some newline) t F2) as (b' & B' & E); [right; auto|]. exists b'. split; auto. rewrite <- E.
  cbn [map concat]. unfold line at 1. rewrite <- !app_assoc. cbn [app]. apply scan_line; [exact N|intros E0; destruct (NE E0)|apply fails_group, fails_seq, M|apply elem_at_start].
Qed.
Lemma mute_all : forall ls b t, Forall mute ls -> at_line_start b -> exists b', at_line_start b' /\ all_matches inp_elem_section b (concat (map line ls) ++ t) = all_matches inp_elem_section b' t.
Proof. intros ls b t F B. destruct (mute_scan ls b t F B) as (b' & B' & E). exists b'. split; auto. apply all_scan; auto. rewrite app_length. lia. Qed.
(** What comes after a section *)
Definition over (t : text) : Prop := new_line t /\ forall b c, fails inp_elem_line (St b t c).
Lemma over_nil : over []. Proof. split; [exact I|]. intros. apply end_not_elem. Qed.
Lemma over_remark : forall l t, remark l -> over (l ++ t).
Proof. intros l t R. split; [|intros; apply remark_not_elem; auto]. destruct R as (_ & (c & r & -> & [->| ->]) & _); reflexivity. Qed.
Lemma over_remarks : forall ls t, ls <> [] -> Forall remark ls -> over (concat (map line ls) ++ t).
Proof. intros [|l ls] t N F; [congruence|]. inversion F; subst. cbn [map concat]. unfold line at 1. rewrite <- !app_assoc. apply over_remark. auto. Qed.
Lemma element_lines_eat : forall ls es, Forall2 dat_element_line ls es -> forall b l t, In l (map line ls) -> at_line_start b -> new_line t -> eats b inp_elem_line l t /\ at_line_start (fin b l) /\ new_line (l ++ t).
Proof.
  intros ls es F b l t I B T. apply in_map_iff in I as (l0 & <- & I). assert (X : exists cs, dat_element_line l0 cs). { clear -F I. induction F as [|a n ls ns A F IH]; [contradiction|]. destruct I as [<-|I]; eauto. }
  destruct X as (cs & X). split; [apply (eats_element l0 cs); auto|]. split; [unfold line; rewrite fin_last; right; auto|]. destruct X as (p0 & d & cells & -> & [N P] & _). destruct p0 as [|c p0]; [congruence|]. inversion P; subst. reflexivity.
Qed.
Lemma lines_filled : forall ls, Forall (fun l => l <> []) (map line ls). Proof. intros. apply Forall_map_intro. intros l _ E. unfold line in E. apply app_eq_nil in E as [_ E]. discriminate. Qed.
Definition sec_text (ls : list text) : text := concat (map line ls).
Lemma section_found : forall ls es b t, ls <> [] -> Forall2 dat_element_line ls es -> at_line_start b -> over t ->
  exists b', at_line_start b' /\ all_matches inp_elem_section b (sec_text ls ++ t) = (sec_text ls, [(1, sec_text ls)]) :: all_matches inp_elem_section b' t.
Proof.
  intros ls es b t N F B [T O]. exists (fin b (sec_text ls)). assert (E : eats b (Plus inp_elem_line) (sec_text ls) t).
  { unfold sec_text. pose proof (element_lines_eat ls es F) as EL. pose proof (lines_filled ls) as LF. destruct (map line ls) as [|l ml] eqn:EM; [destruct ls; [congruence|discriminate]|].
    apply (eats_plus_list new_line at_line_start); auto. }
  assert (NE : sec_text ls <> []). { unfold sec_text. destruct ls as [|l ls]; [congruence|]. cbn [map concat]. intros X. apply app_eq_nil in X as [X _]. unfold line in X. apply app_eq_nil in X as [_ X]. discriminate. }
  split.
  - unfold sec_text. destruct (lines_end ls N) as (u & ->). rewrite fin_last. right. auto.
  - apply (all_step _ _ _ _ _ _ _ [(1, sec_text ls)]); auto.
    + apply scan_here. apply takes_group; [reflexivity|apply E].
    + rewrite app_length. destruct (sec_text ls); [congruence|]. cbn [length]. lia.
Qed.
Lemma sections_found : forall secs els o' b, Forall remark o' -> at_line_start b ->
  Forall2 (fun he es => fst he <> [] /\ Forall remark (fst he) /\ es <> [] /\ Forall2 dat_element_line (snd he) es) secs els ->
  map (group 1) (all_matches inp_elem_section b (concat (map line (concat (map (fun he => fst he ++ snd he) secs) ++ o')))) = map (fun he => sec_text (snd he)) secs.
Proof.
  intros secs els o' b O B F. revert b B. assert (RM : forall ls, Forall remark ls -> Forall mute ls) by (intros ls R; eapply Forall_impl; [|exact R]; intros; apply remark_mute; auto).
  induction F as [|he es secs els (N & R & NE & A) F IH]; intros b B.
  - cbn [map concat app]. rewrite <- (app_nil_r (concat (map line o'))). destruct (mute_all o' b []) as (b' & _ & ->); auto. rewrite all_none; auto. apply scan_none. intros u v E. destruct u, v; try discriminate. apply fails_group, fails_seq, end_not_elem.
  - cbn [map concat]. rewrite <- !app_assoc. rewrite !map_app, concat_app. destruct (mute_all (fst he) b (concat (map line (snd he) ++ map line (concat (map (fun he => fst he ++ snd he) secs)) ++ map line o'))) as (b1 & B1 & ->); auto.
    rewrite concat_app. fold (sec_text (snd he)). assert (NS : snd he <> []) by (intros X; rewrite X in A; inversion A; subst; congruence). rewrite <- map_app.
    destruct (section_found (snd he) es b1 (concat (map line (concat (map (fun he => fst he ++ snd he) secs) ++ o')))) as (b2 & B2 & ->); auto.
    + destruct F as [|he' es' secs' els' (N' & R' & _) F'].
      * cbn [map concat app]. destruct o' as [|o1 o']; [apply over_nil|]. rewrite <- (app_nil_r (concat _)). apply over_remarks; [discriminate|auto].
      * cbn [map concat]. rewrite <- !app_assoc. rewrite map_app, concat_app. apply over_remarks; auto.
    + cbn [map]. rewrite IH by auto. reflexivity.
Qed.
Lemma section_lines : forall ls es, Forall2 dat_element_line ls es -> findall inp_elem_line (sec_text ls) = map line ls.
Proof.
  intros ls es F. unfold findall, matches, sec_text. fold (all_matches inp_elem_line None (concat (map line ls))). rewrite (all_list new_line at_line_start); auto.
  - rewrite map_map. rewrite <- (map_id (map line ls)) at 2. apply map_ext. auto.
  - apply (element_lines_eat ls es). auto.
  - apply lines_filled.
  - left. auto.
  - exact I.
  - intros. apply end_not_elem.
Qed.

(** ** The file *)
Lemma span_all : forall d, only_digits d -> span_digits d = (d, []).
Proof. induction d as [|c d IH]; intros H; auto. inversion H; subst. cbn. rewrite H2, IH; auto. Qed.
Lemma no_sign_read : forall c t, is_digit c = true -> read_sign (c :: t) = (false, c :: t).
Proof.
  intros c t D. unfold read_sign. destruct c as [[] [] [] [] [] [] [] []]; try reflexivity; discriminate.
Qed.
Lemma number_int : forall d, number d -> exists n, to_int d = Ok (Z.of_nat n).
Proof.
  intros [|c d] [N D]; [congruence|]. unfold to_int. rewrite no_sign_read by (inversion D; auto). rewrite span_all by auto. exists (N.to_nat (digits_value (c :: d))). rewrite N_nat_Z. reflexivity.
Qed.
Lemma fold_last : forall k l r, (exists p, In p l /\ fst p = k) ->
  exists p, In p l /\ fst p = k /\ fold_left (fun (r : Z) (p : nat * nat) => if fst p =? k then Z.of_nat (S (snd p)) else r) l r = Z.of_nat (S (snd p)).
Proof.
  intros k l. induction l as [|a l IH]; intros r (p & I & E); [contradiction|]. cbn [fold_left].
  destruct (existsb (fun q => fst q =? k) l) eqn:X.
  - apply existsb_exists in X as (q & Q & QE). apply Nat.eqb_eq in QE. destruct (IH (if fst a =? k then Z.of_nat (S (snd a)) else r)) as (p2 & I2 & E2 & F2); [eauto|]. exists p2. split; [right; auto|auto].
  - assert (Y : forall r, fold_left (fun (r : Z) (p : nat * nat) => if fst p =? k then Z.of_nat (S (snd p)) else r) l r = r).
    { clear -X. induction l as [|b l IH]; intros r; auto. cbn [existsb fold_left] in *. apply orb_false_elim in X as [X1 X2]. rewrite X1. auto. }
    destruct I as [->|I]; [|exfalso; assert (T : existsb (fun q : nat * nat => fst q =? k) l = true) by (apply existsb_exists; exists p; split; auto; apply Nat.eqb_eq; auto); congruence].
    exists p. split; [left; auto|]. split; auto. rewrite Y. rewrite (proj2 (Nat.eqb_eq _ _) E). reflexivity.
Qed.
Lemma combine_seq_in : forall A (l : list A) n x i, In (x, i) (combine l (seq n (length l))) <-> n <= i /\ nth_error l (i - n) = Some x.
Proof.
  intros A l. induction l as [|a l IH]; intros n x i; cbn [length seq combine].
  - split; [intros []|]. intros [_ E]. destruct (i - n); discriminate.
  - split.
    + intros [E|I]; [injection E as -> ->; rewrite Nat.sub_diag; auto|]. apply IH in I as [L E]. split; [lia|]. replace (i - n) with (S (i - S n)) by lia. auto.
    + intros [L E]. destruct (i - n) as [|k] eqn:K; [left; injection E as ->; f_equal; lia|]. right. apply IH. split; [lia|]. replace (i - S n) with k by lia. auto.
Qed.
Lemma list_max_in : forall l n, In n l -> n <= list_max l.
Proof. intros l n I. pose proof (proj1 (list_max_le l (list_max l)) (le_n _)) as F. apply (proj1 (Forall_forall _ _) F n I). Qed.
Lemma id_found : forall ids n, In n ids -> exists i, nth_error ids i = Some n /\ id_new ids n = Ok (Z.of_nat (S i)).
Proof.
  intros ids n I. unfold id_new. assert (L : list_max ids <? n = false) by (apply Nat.ltb_ge, list_max_in; auto). rewrite L.
  destruct (fold_last n (combine ids (seq 0 (length ids))) (-1)%Z) as ([x i] & P1 & P2 & ->).
  - apply In_nth_error in I as (i & E). exists (n, i). split; auto. apply combine_seq_in. rewrite Nat.sub_0_r. split; [lia|auto].
  - cbn [fst snd] in *. subst x. apply combine_seq_in in P1 as [_ P1]. rewrite Nat.sub_0_r in P1. exists i. auto.
Qed.
Lemma element_words : forall l cs, dat_element_line l cs -> exists n, mapM to_int (words l) = Ok (Z.of_nat n :: map Z.of_nat cs) /\ (length cs = 3 \/ length cs = 4).
Proof.
  intros l cs (p0 & d & cells & -> & [N0 P0] & D & C & L & F). destruct (number_int d D) as (n & E). exists n. rewrite words_spaces by (apply blanks_spaces; auto).
  assert (W : words (concat (map (fun c => fst c ++ snd c) cells)) = map snd cells /\ ended (concat (map (fun c => fst c ++ snd c) cells))).
  { clear -C. induction C as [|c cells [[N P] D] C [IH1 IH2]]; [split; [reflexivity|left; auto]|]. cbn [map concat]. rewrite <- app_assoc. split; [|apply ended_spaces; auto using blanks_spaces].
    rewrite words_spaces by (apply blanks_spaces; auto). rewrite words_word; [rewrite IH1; reflexivity|apply number_word; auto|exact IH2]. }
  destruct W as [W1 W2]. rewrite words_word; [|apply number_word; auto|exact W2]. rewrite W1. cbn [mapM]. rewrite E. cbn [bind].
  assert (M : mapM to_int (map snd cells) = Ok (map Z.of_nat cs)). { clear -F. induction F as [|[q1 q2] k cells cs A F IH]; auto. cbn [map mapM snd] in *. rewrite A, IH. reflexivity. }
  rewrite M. split; [reflexivity|]. rewrite <- (Forall2_len _ _ _ _ _ F). auto.
Qed.
Definition back (row : list Z) : list Z := map (fun z => (z - 1)%Z) row.
Lemma element_read : forall ids l cs, dat_element_line l cs -> Forall (fun n => In n ids) cs -> exists row, dat_elem ids (line l) = Ok row /\ face_of ids cs (back row).
Proof.
  intros ids l cs H K. destruct (element_words l cs H) as (n & E & L). unfold dat_elem. rewrite words_line, E. cbn [bind skipn].
  assert (M : exists zs, mapM (fun z => id_new ids (Z.to_nat z)) (map Z.of_nat cs) = Ok zs /\ Forall2 (fun n i => (0 <= i)%Z /\ nth_error ids (Z.to_nat i) = Some n) cs (back zs)).
  { clear -K. induction K as [|k cs I K (zs & IH1 & IH2)]; [exists []; split; [auto|constructor]|]. destruct (id_found ids k I) as (i & E1 & E2). exists (Z.of_nat (S i) :: zs). cbn [map mapM]. rewrite Nat2Z.id, E2. cbn [bind]. rewrite IH1. split; [reflexivity|].
    cbn [back map]. constructor; auto. split; [lia|]. replace (Z.to_nat (Z.of_nat (S i) - 1)) with i by lia. auto. }
  destruct M as (zs & M1 & M2). rewrite M1. cbn [bind]. unfold face_of. pose proof (Forall2_len _ _ _ _ _ M2) as LZ. unfold back in LZ. rewrite map_length in LZ. destruct L as [L|L].
  - destruct cs as [|a [|b [|c [|]]]]; try discriminate. destruct zs as [|za [|zb [|zc [|]]]]; try discriminate. eexists. split; [reflexivity|]. cbn [length Nat.eqb firstn app back map] in *. inversion M2 as [|? ? ? ? A M3]; subst. inversion M3 as [|? ? ? ? B M4]; subst. inversion M4 as [|? ? ? ? C M5]; subst.
    repeat (apply Forall2_cons; [assumption|]). apply Forall2_nil.
  - destruct cs as [|a [|b [|c [|d [|]]]]]; try discriminate. destruct zs as [|za [|zb [|zc [|zd [|]]]]]; try discriminate. eexists. split; [reflexivity|]. exact M2.
Qed.
Lemma body_read : forall dbl t ns els, is_dat dbl t ns els -> numbers_known ns els ->
  exists secs, read_body dbl t = Ok (Body (map snd ns) secs (last (map fst ns) 0)) /\ Forall2 (Forall2 (fun cs row => face_of (map fst ns) cs (back row))) els secs.
Proof.
  intros dbl t ns els [(o & ls & secs & o' & -> & O & O' & N & S) NN] K. unfold read_body, dat_file.
  assert (NL : ls <> []) by (intros ->; inversion N; subst; congruence).
  rewrite !map_app, !concat_app. rewrite <- (concat_app (map line (concat _))), <- map_app.
  destruct (nodes_found dbl o ls ns (concat (map (fun he => fst he ++ snd he) secs) ++ o')) as (ws & W & ->); auto.
  { apply Forall_app. split; [|eapply Forall_impl; [|exact O']; intros; apply remark_quiet; auto]. clear -S. induction S as [|he es secs els (_ & R & _ & A) S IH]; [constructor|]. cbn [map concat]. apply Forall_app. split; auto. apply Forall_app. split; [eapply Forall_impl; [|exact R]; intros; apply remark_quiet; auto|].
    clear -A. induction A as [|l e ls es A1 A IH]; constructor; auto. apply (element_quiet l e). auto. }
  rewrite (pieces_found dbl ls ns ws) by auto. rewrite (pieces_read dbl ls ns ws) by auto. cbn [bind].
  unfold findall1, matches. match goal with |- context [matches_from (Datatypes.S (length ?t)) inp_elem_section None ?t] => fold (all_matches inp_elem_section None t) end.
  destruct (mute_all o None (concat (map line ls) ++ concat (map line (concat (map (fun he => fst he ++ snd he) secs) ++ o')))) as (b1 & B1 & ->); [eapply Forall_impl; [|exact O]; intros; apply remark_mute; auto|left; auto|].
  destruct (mute_all ls b1 (concat (map line (concat (map (fun he => fst he ++ snd he) secs) ++ o')))) as (b2 & B2 & ->); auto.
  { clear -N. induction N as [|l n ls ns A N IH]; constructor; auto. apply (node_mute dbl l (fst n) (snd n)). auto. }
  rewrite (sections_found secs els o' b2) by auto.
  assert (M : exists rows, mapM (fun es => mapM (dat_elem (map fst ns)) (findall inp_elem_line es)) (map (fun he => sec_text (snd he)) secs) = Ok rows /\ Forall2 (Forall2 (fun cs row => face_of (map fst ns) cs (back row))) els rows).
  { clear -S K. unfold numbers_known in K. induction S as [|he es secs els (_ & _ & _ & A) S IH]; [exists []; split; [auto|constructor]|]. inversion K as [|? ? K1 K2]; subst. destruct (IH K2) as (rows & R1 & R2).
    assert (X : exists r, mapM (dat_elem (map fst ns)) (map line (snd he)) = Ok r /\ Forall2 (fun cs row => face_of (map fst ns) cs (back row)) es r).
    { clear -A K1. induction A as [|l cs ls es A1 A IH]; [exists []; split; [auto|constructor]|]. inversion K1 as [|? ? X1 X2]; subst. destruct (IH X2) as (r & E & F). destruct (element_read (map fst ns) l cs A1 X1) as (row & E1 & F1). exists (row :: r). cbn [map mapM]. rewrite E1. cbn [bind]. rewrite E. split; auto. }
    destruct X as (r & X1 & X2). exists (r :: rows). cbn [map mapM]. rewrite (section_lines (snd he) es) by auto. rewrite X1. cbn [bind]. rewrite R1. split; auto. }
  destruct M as (rows & -> & F). cbn [bind]. exists rows. auto.
Qed.
