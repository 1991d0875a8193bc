(** Lemmas about the matcher of regular expressions. *)
From Coq Require Import Ascii String List Arith NArith Bool Lia.
From Verif Require Import M_base M_text M_regex.
Import ListNotations.
Local Open Scope nat_scope.

(** ** Positions *)
(** The character before the position reached after [u] *)
Definition fin (b : option ascii) (u : text) : option ascii := fold_left (fun _ c => Some c) u b.
Lemma fin_app : forall u v b, fin b (u ++ v) = fin (fin b u) v. Proof. intros. apply fold_left_app. Qed.
Lemma fin_last : forall u c b, fin b (u ++ [c]) = Some c. Proof. intros. rewrite fin_app. reflexivity. Qed.
Lemma between_app : forall (u t : text), between (u ++ t) t = u.
Proof. intros. unfold between. rewrite app_length, Nat.add_sub, firstn_app, firstn_all, Nat.sub_diag, firstn_O, app_nil_r. auto. Qed.

(** ** The language of a pattern *)
Definition pos := (option ascii * text)%type.
Definition at_line_start (b : option ascii) : Prop := b = None \/ b = Some newline.
Definition at_line_end (t : text) : Prop := t = [] \/ exists t', t = newline :: t'.
Inductive lang : re -> pos -> pos -> Prop :=
| LChr : forall p b c t, p c = true -> lang (Chr p) (b, c :: t) (Some c, t)
| LBol : forall b t, at_line_start b -> lang Bol (b, t) (b, t)
| LEol : forall b t, at_line_end t -> lang Eol (b, t) (b, t)
| LEmpty : forall x, lang Empty x x
| LSeq : forall a b x y z, lang a x y -> lang b y z -> lang (Seq a b) x z
| LAltL : forall a b x y, lang a x y -> lang (Alt a b) x y
| LAltR : forall a b x y, lang b x y -> lang (Alt a b) x y
| LStar0 : forall a x, lang (Star a) x x
| LStar1 : forall a x y z, lang a x y -> lang (Star a) y z -> lang (Star a) x z
| LLazy0 : forall a x, lang (Lazy a) x x
| LLazy1 : forall a x y z, lang a x y -> lang (Lazy a) y z -> lang (Lazy a) x z
| LGroup : forall n a x y, lang a x y -> lang (Group n a) x y.
Definition pos_of (st : state) : pos := (prev st, rest st).


Lemma run_sound : forall r X st (k : state -> option X) x, run r st k = Some x -> exists st', lang r (pos_of st) (pos_of st') /\ k st' = Some x.
Proof.
  induction r as [p| | | |a IHa b IHb|a IHa b IHb|a IHa|a IHa|n a IHa]; intros X st k x E; cbn [run] in E.
  - destruct st as [b [|c t] cs]; cbn in E; [discriminate|]. destruct (p c) eqn:P; [|discriminate]. eexists. split; [|exact E]. constructor. auto.
  - exists st. destruct st as [[c|] t cs]; cbn [prev rest] in E.
    + destruct (Ascii.eqb_spec c newline) as [->|]; [|discriminate]. split; [constructor; right; auto|auto].
    + split; [constructor; left; auto|auto].
  - exists st. destruct st as [b [|c t] cs]; cbn [prev rest] in E.
    + split; [constructor; left; auto|auto].
    + destruct (Ascii.eqb_spec c newline) as [->|]; [|discriminate]. split; [constructor; right; exists t; reflexivity|auto].
  - exists st. split; [constructor|auto].
  - destruct (IHa _ _ _ _ E) as (s1 & L1 & E1). destruct (IHb _ _ _ _ E1) as (s2 & L2 & E2). exists s2. split; [econstructor; eauto|auto].
  - destruct (run a st k) as [y|] eqn:E1.
    + injection E as ->. destruct (IHa _ _ _ _ E1) as (s1 & L1 & K). exists s1. split; [constructor; auto|auto].
    + destruct (IHb _ _ _ _ E) as (s1 & L1 & K). exists s1. split; [apply LAltR; auto|auto].
  - revert E. generalize (length (rest st)). intros n. revert st. induction n as [|n IH]; intros st E; cbn [greedy] in E; [exists st; split; [constructor|auto]|].
    destruct (run a st _) as [y|] eqn:E1 in E; [|exists st; split; [constructor|auto]]. injection E as ->.
    destruct (IHa _ _ _ _ E1) as (s1 & L1 & K). cbv beta in K. destruct (further st s1); [|discriminate]. destruct (IH _ K) as (s2 & L2 & K2). exists s2. split; [econstructor; eauto|auto].
  - revert E. generalize (length (rest st)). intros n. revert st. induction n as [|n IH]; intros st E; cbn [lazy] in E; [exists st; split; [constructor|auto]|].
    destruct (k st) as [y|] eqn:E1; [injection E as ->; exists st; split; [constructor|auto]|].
    destruct (IHa _ _ _ _ E) as (s1 & L1 & K). cbv beta in K. destruct (further st s1); [|discriminate]. destruct (IH _ K) as (s2 & L2 & K2). exists s2. split; [econstructor; eauto|auto].
  - destruct (IHa _ _ _ _ E) as (s1 & L1 & K). cbv beta in K. eexists. split; [|exact K]. constructor. exact L1.
Qed.

(** ** Failure *)
Definition fails (r : re) (st : state) : Prop := forall X (k : state -> option X), run r st k = None.
Lemma fails_lang : forall r st, (forall p, ~ lang r (pos_of st) p) -> fails r st.
Proof. intros r st H X k. destruct (run r st k) as [x|] eqn:E; auto. destruct (run_sound _ _ _ _ _ E) as (s1 & L & _). destruct (H _ L). Qed.

(** ** The path taken *)
(** Matching [r] at [st] first tries to go on from [st']. *)
Definition takes (r : re) (st st' : state) : Prop := forall X (k : state -> option X) x, k st' = Some x -> run r st k = Some x.
Lemma takes_empty : forall st, takes Empty st st. Proof. intros st X k x E. exact E. Qed.
Lemma takes_seq : forall a b st st1 st2, takes a st st1 -> takes b st1 st2 -> takes (Seq a b) st st2.
Proof. intros a b st st1 st2 A B X k x E. cbn [run]. apply A. apply B. auto. Qed.
Lemma takes_left : forall a b st st', takes a st st' -> takes (Alt a b) st st'.
Proof. intros a b st st' A X k x E. cbn [run]. rewrite (A X k x E). auto. Qed.
Lemma takes_right : forall a b st st', fails a st -> takes b st st' -> takes (Alt a b) st st'.
Proof. intros a b st st' F B X k x E. cbn [run]. rewrite F. apply B. auto. Qed.
Lemma takes_group : forall n a st u b' t' cs, rest st = u ++ t' -> takes a st (St b' t' cs) -> takes (Group n a) st (St b' t' ((n, u) :: cs)).
Proof. intros n a st u b' t' cs R A X k x E. cbn [run]. eapply A. cbn [prev rest caps]. rewrite R, between_app. exact E. Qed.

(** The number of repetitions allowed does not matter. *)
Lemma lang_shrinks : forall r x y, lang r x y -> length (snd y) <= length (snd x).
Proof. intros r x y L. induction L; cbn [snd length] in *; lia. Qed.
Lemma run_ext : forall r X st (k k' : state -> option X), (forall st', length (rest st') <= length (rest st) -> k st' = k' st') -> run r st k = run r st k'.
Proof.
  induction r as [p| | | |a IHa b IHb|a IHa b IHb|a IHa|a IHa|n a IHa]; intros X st k k' H; cbn [run].
  - destruct st as [b [|c t] cs]; cbn; auto. destruct (p c); auto. apply H. cbn. lia.
  - destruct st as [[c|] t cs]; cbn [prev]; [destruct (Ascii.eqb _ _)|]; auto.
  - destruct st as [b [|c t] cs]; cbn [rest]; [|destruct (Ascii.eqb _ _)]; auto.
  - auto.
  - apply IHa. intros st' L. apply IHb. intros st2 L2. apply H. lia.
  - rewrite (IHa X st k k' H), (IHb X st k k' H). auto.
  - generalize (length (rest st)). intros n. revert st H. induction n as [|n IH]; intros st H; cbn [greedy]; [apply H; lia|].
    rewrite (IHa X st _ (fun st' => if further st st' then greedy (run a) k' n st' else None)).
    + rewrite (H st) by lia. auto.
    + intros st' L. destruct (further st st'); auto. apply IH. intros st2 L2. apply H. lia.
  - generalize (length (rest st)). intros n. revert st H. induction n as [|n IH]; intros st H; cbn [lazy]; [apply H; lia|].
    rewrite (IHa X st _ (fun st' => if further st st' then lazy (run a) k' n st' else None)).
    + rewrite (H st) by lia. auto.
    + intros st' L. destruct (further st st'); auto. apply IH. intros st2 L2. apply H. lia.
  - apply IHa. intros st' L. apply H. auto.
Qed.
Lemma greedy_more : forall a X (k : state -> option X) n st, length (rest st) <= n -> greedy (run a) k n st = greedy (run a) k (length (rest st)) st.
Proof.
  intros a X k n. induction n as [n IH] using lt_wf_ind. intros st L. destruct n as [|n]; [replace (length (rest st)) with 0 by lia; auto|].
  destruct (length (rest st)) as [|m] eqn:EM; cbn [greedy].
  - rewrite (run_ext a X st _ (fun _ => None)).
    + destruct (run a st (fun _ => None)) as [x|] eqn:E; auto. destruct (run_sound _ _ _ _ _ E) as (? & _ & ?). discriminate.
    + intros st' L'. unfold further. rewrite EM. auto.
  - rewrite (run_ext a X st _ (fun st' => if further st st' then greedy (run a) k m st' else None)); auto.
    intros st' L'. unfold further. destruct (Nat.ltb_spec (length (rest st')) (length (rest st))); auto.
    rewrite (IH n) by lia. destruct (Nat.eq_dec m n) as [->|]; [rewrite (IH n) by lia; auto|]. rewrite (IH m) by lia. auto.
Qed.
Lemma star_unfold : forall a X st (k : state -> option X), run (Star a) st k = orelse (run a st (fun st' => if further st st' then run (Star a) st' k else None)) (k st).
Proof.
  intros a X st k. cbn [run]. destruct (length (rest st)) as [|n] eqn:EN.
  - cbn [greedy]. rewrite (run_ext a X st _ (fun _ => None)).
    + destruct (run a st (fun _ => None)) as [x|] eqn:E; auto. destruct (run_sound _ _ _ _ _ E) as (? & _ & ?). discriminate.
    + intros st' L'. unfold further. rewrite EN. auto.
  - cbn [greedy]. rewrite (run_ext a X st _ (fun st' => if further st st' then greedy (run a) k (length (rest st')) st' else None)); auto.
    intros st' L. unfold further. destruct (Nat.ltb_spec (length (rest st')) (length (rest st))); auto. apply greedy_more. lia.
Qed.
Lemma lazy_more : forall a X (k : state -> option X) n st, length (rest st) <= n -> lazy (run a) k n st = lazy (run a) k (length (rest st)) st.
Proof.
  intros a X k n. induction n as [n IH] using lt_wf_ind. intros st L. destruct n as [|n]; [replace (length (rest st)) with 0 by lia; auto|].
  destruct (length (rest st)) as [|m] eqn:EM; cbn [lazy].
  - rewrite (run_ext a X st _ (fun _ => None)).
    + destruct (run a st (fun _ => None)) as [x|] eqn:E; [destruct (run_sound _ _ _ _ _ E) as (? & _ & ?); discriminate|]. destruct (k st); auto.
    + intros st' L'. unfold further. rewrite EM. auto.
  - rewrite (run_ext a X st _ (fun st' => if further st st' then lazy (run a) k m st' else None)); auto.
    intros st' L'. unfold further. destruct (Nat.ltb_spec (length (rest st')) (length (rest st))); auto.
    rewrite (IH n) by lia. destruct (Nat.eq_dec m n) as [->|]; [rewrite (IH n) by lia; auto|]. rewrite (IH m) by lia. auto.
Qed.
Lemma lazy_unfold : forall a X st (k : state -> option X), run (Lazy a) st k = orelse (k st) (run a st (fun st' => if further st st' then run (Lazy a) st' k else None)).
Proof.
  intros a X st k. cbn [run]. destruct (length (rest st)) as [|n] eqn:EN.
  - cbn [lazy]. rewrite (run_ext a X st _ (fun _ => None)).
    + destruct (run a st (fun _ => None)) as [x|] eqn:E; [destruct (run_sound _ _ _ _ _ E) as (? & _ & ?); discriminate|]. destruct (k st); auto.
    + intros st' L'. unfold further. rewrite EN. auto.
  - cbn [lazy]. rewrite (run_ext a X st _ (fun st' => if further st st' then lazy (run a) k (length (rest st')) st' else None)); auto.
    intros st' L. unfold further. destruct (Nat.ltb_spec (length (rest st')) (length (rest st))); auto. apply lazy_more. lia.
Qed.
Lemma takes_star_more : forall a st st1 st2, takes a st st1 -> length (rest st1) < length (rest st) -> takes (Star a) st1 st2 -> takes (Star a) st st2.
Proof.
  intros a st st1 st2 A L S X k x E. rewrite star_unfold. rewrite (A X _ x); auto. cbv beta. unfold further. rewrite (proj2 (Nat.ltb_lt _ _) L). apply S. auto.
Qed.
Lemma takes_star_stop : forall a st, fails a st -> takes (Star a) st st.
Proof. intros a st F X k x E. rewrite star_unfold, F. auto. Qed.

Lemma lang_span : forall r x y, lang r x y -> exists u, snd x = u ++ snd y /\ fst y = fin (fst x) u.
Proof.
  intros r x y L. induction L; try (exists []; split; reflexivity); auto.
  - exists [c]. auto.
  - destruct IHL1 as (u & E1 & B1), IHL2 as (v & E2 & B2). exists (u ++ v). rewrite E1, E2, B2, B1, app_assoc, fin_app. auto.
  - destruct IHL1 as (u & E1 & B1), IHL2 as (v & E2 & B2). exists (u ++ v). rewrite E1, E2, B2, B1, app_assoc, fin_app. auto.
  - destruct IHL1 as (u & E1 & B1), IHL2 as (v & E2 & B2). exists (u ++ v). rewrite E1, E2, B2, B1, app_assoc, fin_app. auto.
Qed.
Lemma lang_still : forall r x y, lang r x y -> length (snd y) = length (snd x) -> y = x.
Proof.
  intros r x y L EQ. destruct (lang_span _ _ _ L) as (u & A & B). assert (u = []). { apply length_zero_iff_nil. rewrite A, app_length in EQ. lia. }
  subst u. destruct x, y. cbn in *. subst. auto.
Qed.
(** Completeness: what is in the language is found. *)
Lemma run_complete : forall r x y, lang r x y -> forall X st (k : state -> option X), pos_of st = x -> (forall st', pos_of st' = y -> k st' <> None) -> run r st k <> None.
Proof.
  intros r x y L. induction L as [p b c t P|b t B|b t T|x|a b x y z L1 IH1 L2 IH2|a b x y L IH|a b x y L IH|a x|a x y z L1 IH1 L2 IH2|a x|a x y z L1 IH1 L2 IH2|n a x y L IH]; intros X st k E K.
  - destruct st as [b0 t0 cs]. unfold pos_of in E. cbn in E. injection E as -> ->. cbn. rewrite P. apply K. reflexivity.
  - destruct st as [b0 t0 cs]. unfold pos_of in E. cbn in E. injection E as -> ->. destruct B as [->| ->]; cbn; apply K; reflexivity.
  - destruct st as [b0 t0 cs]. unfold pos_of in E. cbn in E. injection E as -> ->. destruct T as [->|(t' & ->)]; cbn; apply K; reflexivity.
  - apply K. auto.
  - cbn [run]. apply IH1; [exact E|]. intros st' E'. apply IH2; auto.
  - cbn [run]. destruct (run a st k) eqn:R; [discriminate|]. exfalso. revert R. apply IH; auto.
  - cbn [run]. destruct (run a st k) eqn:R; [discriminate|]. apply IH; auto.
  - rewrite star_unfold. destruct (run a st _); [discriminate|]. apply K. auto.
  - rewrite star_unfold. destruct (run a st _) eqn:R; [discriminate|]. destruct (Nat.eq_dec (length (snd y)) (length (snd x))) as [EQ|NE].
    + assert (y = x) by (apply (lang_still _ _ _ L1); auto).
      subst y. specialize (IH2 X st k E K). rewrite star_unfold, R in IH2. auto.
    + exfalso. revert R. apply IH1; [exact E|]. intros st' E'. pose proof (lang_shrinks _ _ _ L1). unfold further.
      assert (LT : length (rest st') < length (rest st)). { rewrite <- E in H, NE. rewrite <- E' in H, NE. cbn in H, NE. lia. }
      rewrite (proj2 (Nat.ltb_lt _ _) LT). apply IH2; auto.
  - rewrite lazy_unfold. destruct (k st) eqn:R; [discriminate|]. destruct (K st E R).
  - rewrite lazy_unfold. destruct (k st) eqn:R0; [discriminate|]. destruct (Nat.eq_dec (length (snd y)) (length (snd x))) as [EQ|NE].
    + assert (y = x) by (apply (lang_still _ _ _ L1); auto).
      subst y. specialize (IH2 X st k E K). rewrite lazy_unfold, R0 in IH2. auto.
    + apply IH1; [exact E|]. intros st' E'. pose proof (lang_shrinks _ _ _ L1). unfold further.
      assert (LT : length (rest st') < length (rest st)). { rewrite <- E in H, NE. rewrite <- E' in H, NE. cbn in H, NE. lia. }
      rewrite (proj2 (Nat.ltb_lt _ _) LT). apply IH2; auto.
  - cbn [run]. apply IH; auto.
Qed.

(** ** Consuming a text *)
(** From the character [b], [r] goes over [u] first when [t] follows. *)
Definition eats (b : option ascii) (r : re) (u t : text) : Prop := forall c, takes r (St b (u ++ t) c) (St (fin b u) t c).
Definition stops (p : ascii -> bool) (t : text) : Prop := match t with [] => True | c :: _ => p c = false end.
Definition holds (p : ascii -> bool) (u : text) : Prop := Forall (fun c => p c = true) u.

Lemma eats_eq : forall b r u u' t, eats b r u' t -> u = u' -> eats b r u t. Proof. intros. subst. auto. Qed.
Lemma eats_empty : forall b t, eats b Empty [] t. Proof. intros b t c. apply takes_empty. Qed.
Lemma eats_seq : forall b r1 r2 u v t, eats b r1 u (v ++ t) -> eats (fin b u) r2 v t -> eats b (Seq r1 r2) (u ++ v) t.
Proof. intros b r1 r2 u v t H1 H2 c. rewrite <- app_assoc, fin_app. eapply takes_seq; [apply H1|apply H2]. Qed.
Lemma eats_last : forall b r1 u t, eats b r1 u t -> eats b (Seq r1 Empty) u t.
Proof. intros b r1 u t H. eapply eats_eq; [apply eats_seq; [|apply eats_empty]|symmetry; apply app_nil_r]. auto. Qed.
Lemma eats_left : forall b r1 r2 u t, eats b r1 u t -> eats b (Alt r1 r2) u t.
Proof. intros b r1 r2 u t H c. apply takes_left, H. Qed.
Lemma eats_right : forall b r1 r2 u t, (forall c, fails r1 (St b (u ++ t) c)) -> eats b r2 u t -> eats b (Alt r1 r2) u t.
Proof. intros b r1 r2 u t F H c. apply takes_right; auto. Qed.
Lemma eats_chr : forall b p c t, p c = true -> eats b (Chr p) [c] t.
Proof. intros b p c t H cs X k x E. cbn. rewrite H. exact E. Qed.
Lemma eats_lit : forall b c t, eats b (Lit c) [c] t.
Proof. intros. apply eats_chr. apply Ascii.eqb_refl. Qed.
Lemma eats_word : forall w b t, eats b (Word w) w t.
Proof.
  induction w as [|c w IH]; intros b t; [apply eats_empty|]. destruct w as [|c' w']; [apply eats_lit|].
  change (c :: c' :: w') with ([c] ++ c' :: w'). change (Word ([c] ++ c' :: w')) with (Seq (Lit c) (Word (c' :: w'))). apply eats_seq; [apply eats_lit|apply IH].
Qed.
Lemma fails_chr : forall p b t c, stops p t -> fails (Chr p) (St b t c).
Proof. intros p b [|c t] cs H X k; cbn in *; auto. rewrite H. auto. Qed.
Lemma fails_seq : forall r1 r2 st, fails r1 st -> fails (Seq r1 r2) st. Proof. intros r1 r2 st F X k. cbn [run]. apply F. Qed.
Lemma fails_alt : forall r1 r2 st, fails r1 st -> fails r2 st -> fails (Alt r1 r2) st. Proof. intros r1 r2 st F G X k. cbn [run]. rewrite F. apply G. Qed.
Lemma fails_group : forall n r st, fails r st -> fails (Group n r) st. Proof. intros n r st F X k. cbn [run]. apply F. Qed.
Lemma eats_star_class : forall p u b t, holds p u -> stops p t -> eats b (Star (Chr p)) u t.
Proof.
  intros p u. induction u as [|c u IH]; intros b t H S cs.
  - apply takes_star_stop, fails_chr. auto.
  - inversion H; subst. eapply takes_star_more; [apply (eats_chr b p c (u ++ t)); auto| |apply IH; auto]. cbn. lia.
Qed.
Lemma eats_plus_class : forall p u b t, u <> [] -> holds p u -> stops p t -> eats b (Plus (Chr p)) u t.
Proof.
  intros p [|c u] b t N H S; [congruence|]. inversion H; subst. unfold Plus. change (c :: u) with ([c] ++ u). apply eats_seq; [apply eats_chr; auto|apply eats_star_class; auto].
Qed.
Lemma eats_opt : forall b r u t, eats b r u t -> eats b (Opt r) u t. Proof. intros. apply eats_left. auto. Qed.
Lemma eats_opt_none : forall b r t, (forall c, fails r (St b t c)) -> eats b (Opt r) [] t.
Proof. intros. apply eats_right; auto. apply eats_empty. Qed.
Lemma eats_bol : forall b t, at_line_start b -> eats b Bol [] t.
Proof. intros b t B c X k x E. cbn. destruct B as [-> | ->]; exact E. Qed.
Lemma fails_bol : forall b t c, ~ at_line_start b -> fails Bol (St b t c).
Proof. intros b t c B. apply fails_lang. intros p L. inversion L; subst. auto. Qed.

(** Greedy repetition that has to give back [v] *)
Lemma star_chr : forall p X b a t c (k : state -> option X), p a = true ->
  run (Star (Chr p)) (St b (a :: t) c) k = orelse (run (Star (Chr p)) (St (Some a) t c) k) (k (St b (a :: t) c)).
Proof.
  intros p X b a t c k H. rewrite star_unfold. cbn [run rest caps]. rewrite H. unfold further. cbn [rest length].
  rewrite (proj2 (Nat.ltb_lt _ _) (Nat.lt_succ_diag_r _)). auto.
Qed.
Lemma star_chr_stop : forall p X b t c (k : state -> option X), stops p t -> run (Star (Chr p)) (St b t c) k = k (St b t c).
Proof. intros p X b t c k S. rewrite star_unfold, (fails_chr p b t c S). auto. Qed.
Lemma run_seq : forall r1 r2 X st (k : state -> option X), run (Seq r1 r2) st k = run r1 st (fun st' => run r2 st' k). Proof. auto. Qed.
Lemma star_chr_none : forall p r v b t c X (k : state -> option X), holds p v -> stops p t ->
  (forall v1 v2, v = v1 ++ v2 -> fails r (St (fin b v1) (v2 ++ t) c)) -> run (Star (Chr p)) (St b (v ++ t) c) (fun st => run r st k) = None.
Proof.
  intros p r v. induction v as [|d v IH]; intros b t c X k H S F.
  - cbn [app]. rewrite star_chr_stop by auto. apply (F [] []). auto.
  - inversion H; subst. cbn [app]. rewrite star_chr by auto. rewrite IH; auto; [apply (F [] (d :: v)); auto|]. intros v1 v2 EV. apply (F (d :: v1) v2). cbn. subst. auto.
Qed.
Lemma takes_back : forall p r v u b t c st', holds p (u ++ v) -> stops p t ->
  (forall v1 v2, v = v1 ++ v2 -> v1 <> [] -> fails r (St (fin b (u ++ v1)) (v2 ++ t) c)) ->
  takes r (St (fin b u) (v ++ t) c) st' -> takes (Seq (Star (Chr p)) r) (St b (u ++ v ++ t) c) st'.
Proof.
  intros p r v u. induction u as [|a u IH]; intros b t c st' H S F T X k x E.
  - cbn [app fin fold_left] in *. specialize (T X k x E). rewrite run_seq. destruct v as [|a v].
    + cbn [app]. rewrite star_chr_stop; auto.
    + inversion H; subst. cbn [app]. rewrite star_chr by auto. rewrite star_chr_none; auto. intros v1 v2 EV. apply (F (a :: v1) v2); [cbn; subst; auto|discriminate].
  - cbn [app] in *. inversion H; subst. rewrite run_seq, star_chr by auto. specialize (IH (Some a) t c st' H3 S F T X k x E). rewrite run_seq in IH. rewrite IH. auto.
Qed.

(** Repetition over a list of texts *)
Lemma eats_star_list : forall (P : text -> Prop) (B : option ascii -> Prop) r ls b t,
  (forall b l t, In l ls -> B b -> P t -> eats b r l t /\ B (fin b l) /\ P (l ++ t)) -> Forall (fun l => l <> []) ls -> B b -> P t ->
  (forall b c, B b -> fails r (St b t c)) -> eats b (Star r) (concat ls) t.
Proof.
  intros P B r ls. induction ls as [|l ls IH]; intros b t H N HB HP F c.
  - cbn. apply takes_star_stop. auto.
  - cbn [concat]. rewrite <- app_assoc, fin_app. inversion N; subst.
    assert (PT : forall ls', incl ls' (l :: ls) -> P (concat ls' ++ t)).
    { clear -H HP HB. induction ls' as [|a ls' IH']; intros I; auto. cbn [concat]. rewrite <- app_assoc. apply (H b a); auto; [apply I; left; auto|]. apply IH'. intros z Z. apply I. right. auto. }
    destruct (H b l (concat ls ++ t)) as (E & B' & _); auto; [left; auto|apply PT; intros z Z; right; auto|].
    eapply takes_star_more; [apply E| |apply IH; auto; intros; apply H; auto; right; auto].
    cbn [rest]. rewrite (app_length l). destruct l; [congruence|]. cbn [length]. lia.
Qed.

(** ** Searching *)
Lemma scan_here : forall r b u t b' c, takes r (St b (u ++ t) []) (St b' t c) -> scan r b (u ++ t) = Some ((u, c), St b' t c).
Proof. intros r b u t b' c T. destruct (u ++ t) as [|a l] eqn:E; cbn [scan]; rewrite (T _ Some _ eq_refl); cbn [rest caps]; rewrite <- E, between_app; auto. Qed.
Lemma scan_skip : forall r h b t, (forall u v, h = u ++ v -> v <> [] -> fails r (St (fin b u) (v ++ t) [])) -> scan r b (h ++ t) = scan r (fin b h) t.
Proof.
  intros r h. induction h as [|a h IH]; intros b t F; auto. cbn [app scan].
  rewrite (F [] (a :: h)); auto; [|discriminate]. rewrite IH; auto. intros u v E N. apply (F (a :: u) v); [cbn; subst; auto|auto].
Qed.
Lemma scan_none : forall r t b, (forall u v, t = u ++ v -> fails r (St (fin b u) v [])) -> scan r b t = None.
Proof.
  intros r t b F. rewrite <- (app_nil_r t), scan_skip.
  - cbn [scan]. rewrite (F t []); auto. symmetry. apply app_nil_r.
  - intros u v E N. rewrite app_nil_r. auto.
Qed.
Lemma scan_sound : forall r t b m st, scan r b t = Some (m, st) -> length (rest st) <= length t.
Proof.
  intros r t. induction t as [|a t IH]; intros b m st E; cbn [scan] in E.
  - destruct (run r _ _) as [st'|] eqn:R; [|discriminate]. injection E as _ ->. destruct (run_sound _ _ _ _ _ R) as (s1 & L & K). injection K as ->. apply (lang_shrinks _ _ _ L).
  - destruct (run r _ _) as [st'|] eqn:R.
    + injection E as _ ->. destruct (run_sound _ _ _ _ _ R) as (s1 & L & K). injection K as ->. apply (lang_shrinks _ _ _ L).
    + apply IH in E. cbn. lia.
Qed.
Lemma scan_nonempty : forall r t b m st, scan r b t = Some (m, st) -> fst m <> [] -> length (rest st) < length t.
Proof.
  intros r t. induction t as [|c t IH]; intros b m st E N; cbn [scan] in E.
  - destruct (run r _ _) as [st'|]; [|discriminate]. injection E as <- <-. destruct N. reflexivity.
  - destruct (run r _ _) as [st'|].
    + injection E as <- <-. unfold between in N. cbn [fst] in N. destruct (Nat.lt_ge_cases (length (rest st')) (length (c :: t))); auto.
      exfalso. rewrite (proj2 (Nat.sub_0_le _ _) H) in N. apply N. reflexivity.
    + pose proof (scan_sound _ _ _ _ _ E). cbn. lia.
Qed.
Lemma matches_fuel : forall r n m b t, length t < n -> length t < m -> matches_from n r b t = matches_from m r b t.
Proof.
  intros r n. induction n as [|n IH]; intros m b t L M; [lia|]. destruct m as [|m]; [lia|]. cbn [matches_from].
  destruct (scan r b t) as [[f st]|] eqn:E; auto. f_equal. pose proof (scan_sound _ _ _ _ _ E) as S.
  destruct (fst f) as [|a f'] eqn:F.
  - destruct (rest st) as [|c t']; auto. cbn in S. apply IH; lia.
  - assert (length (rest st) < length t) by (eapply scan_nonempty; [exact E|rewrite F; discriminate]).
    apply IH; lia.
Qed.
Definition all_matches (r : re) (b : option ascii) (t : text) : list found := matches_from (S (length t)) r b t.
Lemma all_none : forall r b t, scan r b t = None -> all_matches r b t = []. Proof. intros r b t E. unfold all_matches. cbn [matches_from]. rewrite E. auto. Qed.
Lemma all_step : forall r b t u c b' t' c', scan r b t = Some ((u, c), St b' t' c') -> u <> [] -> length t' < length t -> all_matches r b t = (u, c) :: all_matches r b' t'.
Proof.
  intros r b t u c b' t' c' E N L. unfold all_matches. cbn [matches_from]. rewrite E. cbn [fst prev rest]. destruct u; [congruence|]. f_equal. apply (matches_fuel r (length t) (S (length t')) b' t'); lia.
Qed.
(** The matches one after the other *)
Lemma all_list : forall (P : text -> Prop) (B : option ascii -> Prop) r ls b,
  (forall b l t, In l ls -> B b -> P t -> eats b r l t /\ B (fin b l) /\ P (l ++ t)) -> Forall (fun l => l <> []) ls -> B b -> P [] ->
  (forall b, B b -> fails r (St b [] [])) -> all_matches r b (concat ls) = map (fun l => (l, [])) ls.
Proof.
  intros P B r ls. induction ls as [|l ls IH]; intros b H N HB HP F.
  - apply all_none. cbn. rewrite F; auto.
  - cbn [concat map]. inversion N; subst.
    assert (PT : forall ls', incl ls' (l :: ls) -> P (concat ls')).
    { clear -H HP HB. induction ls' as [|a ls' IH']; intros I; auto. cbn [concat]. apply (H b a); auto; [apply I; left; auto|]. apply IH'. intros z Z. apply I. right. auto. }
    destruct (H b l (concat ls)) as (E & B' & _); auto; [left; auto|apply PT; intros z Z; right; auto|].
    rewrite (all_step r b _ l [] (fin b l) (concat ls) []); auto.
    + f_equal. apply IH; auto. intros; apply H; auto; right; auto.
    + apply scan_here. apply E.
    + rewrite (app_length l). destruct l; [congruence|]. cbn [length]. lia.
Qed.
(** Computed failure *)
Lemma fails_run : forall r st, run r st (fun _ => Some tt) = None -> fails r st.
Proof. intros r st E. apply fails_lang. intros p L. revert E. apply (run_complete _ _ _ L); auto. discriminate. Qed.

(** ** Characters a pattern cannot match, and characters it must match *)
Fixpoint avoids (c : ascii) (r : re) : bool :=
  match r with
  | Chr p => negb (p c)
  | Bol | Eol | Empty => true
  | Seq a b | Alt a b => avoids c a && avoids c b
  | Star a | Lazy a | Group _ a => avoids c a
  end.
(** Such a character limits the text that matters. *)
Lemma lang_cut : forall c r, avoids c r = true -> forall x y, lang r x y -> forall b h t, x = (b, h ++ c :: t) ->
  exists v b', y = (b', v ++ c :: t) /\ lang r (b, h ++ [c]) (b', v ++ [c]).
Proof.
  intros c r A x y L. revert A. induction L as [p b0 c0 t0 P|b0 t0 B|b0 t0 T|x|a b x y z L1 IH1 L2 IH2|a b x y L IH|a b x y L IH|a x|a x y z L1 IH1 L2 IH2|a x|a x y z L1 IH1 L2 IH2|n a x y L IH]; intros A b' h t E; cbn [avoids] in A.
  - injection E as -> E. destruct h as [|d h]; cbn [app] in E; injection E as -> ->; [rewrite P in A; discriminate|]. do 2 eexists. split; [reflexivity|]. cbn [app]. constructor. auto.
  - injection E as -> ->. do 2 eexists. split; [reflexivity|]. constructor. auto.
  - injection E as -> ->. do 2 eexists. split; [reflexivity|]. constructor. destruct h as [|d h]; right.
    + destruct T as [T|(t' & T)]; [discriminate|]. injection T as -> _. eexists. reflexivity.
    + destruct T as [T|(t' & T)]; [discriminate|]. injection T as -> _. eexists. reflexivity.
  - subst. do 2 eexists. split; [reflexivity|]. constructor.
  - apply andb_prop in A as [A1 A2]. destruct (IH1 A1 _ _ _ E) as (v & b1 & -> & M1). destruct (IH2 A2 _ _ _ eq_refl) as (v2 & b2 & -> & M2). do 2 eexists. split; [reflexivity|]. econstructor; eauto.
  - apply andb_prop in A as [A1 A2]. destruct (IH A1 _ _ _ E) as (v & b1 & -> & M1). do 2 eexists. split; [reflexivity|]. constructor. auto.
  - apply andb_prop in A as [A1 A2]. destruct (IH A2 _ _ _ E) as (v & b1 & -> & M1). do 2 eexists. split; [reflexivity|]. apply LAltR. auto.
  - subst. do 2 eexists. split; [reflexivity|]. constructor.
  - destruct (IH1 A _ _ _ E) as (v & b1 & -> & M1). destruct (IH2 A _ _ _ eq_refl) as (v2 & b2 & -> & M2). do 2 eexists. split; [reflexivity|]. econstructor; eauto.
  - subst. do 2 eexists. split; [reflexivity|]. constructor.
  - destruct (IH1 A _ _ _ E) as (v & b1 & -> & M1). destruct (IH2 A _ _ _ eq_refl) as (v2 & b2 & -> & M2). do 2 eexists. split; [reflexivity|]. econstructor; eauto.
  - destruct (IH A _ _ _ E) as (v & b1 & -> & M1). do 2 eexists. split; [reflexivity|]. constructor. auto.
Qed.
Definition silent (r : re) (b : option ascii) (t : text) : bool := match run r (St b t []) (fun _ => Some tt) with None => true | _ => false end.
Lemma silent_fails : forall r b t cs, silent r b t = true -> fails r (St b t cs).
Proof.
  intros r b t cs H. apply fails_lang. intros p L. unfold silent in H. destruct (run r (St b t []) (fun _ => Some tt)) eqn:E; [discriminate|].
  revert E. apply (run_complete _ _ _ L); auto. discriminate.
Qed.
Lemma fails_cut : forall r c h b t cs, avoids c r = true -> silent r b (h ++ [c]) = true -> fails r (St b (h ++ c :: t) cs).
Proof.
  intros r c h b t cs A H. apply fails_lang. intros p L. destruct (lang_cut c r A _ _ L b h t eq_refl) as (v & b' & -> & M).
  unfold silent in H. destruct (run r (St b (h ++ [c]) []) (fun _ => Some tt)) eqn:E; [discriminate|].
  revert E. apply (run_complete _ _ _ M); auto. discriminate.
Qed.
(** [r] fails everywhere in [h ++ [c]] *)
Fixpoint all_silent (r : re) (b : option ascii) (h : text) (c : ascii) : bool :=
  silent r b (h ++ [c]) && match h with [] => true | d :: h' => all_silent r (Some d) h' c end.
Lemma scan_cut : forall r c h b t, avoids c r = true -> all_silent r b h c = true -> scan r b (h ++ c :: t) = scan r (Some c) t.
Proof.
  intros r c h. induction h as [|d h IH]; intros b t A H; cbn [all_silent] in H; apply andb_prop in H as [H1 H2].
  - cbn [app scan]. pose proof (fails_cut r c [] b t [] A H1) as F. cbn [app] in F. rewrite F. auto.
  - cbn [app scan]. pose proof (fails_cut r c (d :: h) b t [] A H1) as F. cbn [app] in F. rewrite F. apply IH; auto.
Qed.

Definition ascii_all : list ascii := map ascii_of_nat (seq 0 256).
Lemma ascii_all_in : forall c, In c ascii_all.
Proof. intros c. unfold ascii_all. apply in_map_iff. exists (nat_of_ascii c). split; [apply ascii_nat_embedding|]. apply in_seq. pose proof (nat_ascii_bounded c). lia. Qed.
Definition only (p : ascii -> bool) (c : ascii) : bool := forallb (fun x => implb (p x) (Ascii.eqb x c)) ascii_all.
Fixpoint requires (c : ascii) (r : re) : bool :=
  match r with
  | Chr p => only p c
  | Seq a b => requires c a || requires c b
  | Alt a b => requires c a && requires c b
  | Group _ a => requires c a
  | _ => false
  end.
Lemma lang_requires : forall c r x y, lang r x y -> requires c r = true -> exists u, snd x = u ++ snd y /\ fst y = fin (fst x) u /\ In c u.
Proof.
  intros c r x y L. induction L as [p b0 c0 t0 P|b0 t0 B|b0 t0 T|x|a b x y z L1 IH1 L2 IH2|a b x y L IH|a b x y L IH|a x|a x y z L1 IH1 L2 IH2|a x|a x y z L1 IH1 L2 IH2|n a x y L IH]; cbn [requires]; intros R; try discriminate.
  - unfold only in R. pose proof (proj1 (forallb_forall _ _) R c0 (ascii_all_in c0)) as E. cbv beta in E. rewrite P in E. apply Ascii.eqb_eq in E. subst. exists [c]. split; [auto|]. split; [auto|left; auto].
  - destruct (lang_span _ _ _ L1) as (u1 & E1 & B1). destruct (lang_span _ _ _ L2) as (u2 & E2 & B2). apply orb_prop in R as [R|R].
    + destruct (IH1 R) as (u & E & B & I). exists (u ++ u2). rewrite E, E2, B2, B, app_assoc, fin_app. split; [auto|]. split; [auto|]. apply in_or_app. auto.
    + destruct (IH2 R) as (u & E & B & I). exists (u1 ++ u). rewrite E1, E, B, B1, app_assoc, fin_app. split; [auto|]. split; [auto|]. apply in_or_app. auto.
  - apply andb_prop in R as [R1 R2]. auto.
  - apply andb_prop in R as [R1 R2]. auto.
  - auto.
Qed.
Lemma fails_requires : forall c r b t cs, requires c r = true -> ~ In c t -> fails r (St b t cs).
Proof. intros c r b t cs R N. apply fails_lang. intros p L. apply N. destruct (lang_requires c r _ _ L R) as (u & E & _ & I). cbn in E. rewrite E. apply in_or_app. auto. Qed.
Lemma scan_requires : forall c r b t, requires c r = true -> ~ In c t -> scan r b t = None.
Proof. intros c r b t R N. apply scan_none. intros u v E. apply (fails_requires c); auto. subst. intros I. apply N, in_or_app. auto. Qed.

(** Failure after a repetition *)
Lemma fails_star : forall p r v b t cs, holds p v -> stops p t -> (forall b a t, p a = true -> fails r (St b (a :: t) cs)) -> fails r (St (fin b v) t cs) ->
  fails (Seq (Star (Chr p)) r) (St b (v ++ t) cs).
Proof.
  intros p r v b t cs H S F G X k. rewrite run_seq. apply star_chr_none; auto. intros v1 v2 E. destruct v2 as [|a v2].
  - rewrite app_nil_r in E. subst v1. auto.
  - cbn [app]. apply F. subst. apply Forall_app in H as [_ H]. inversion H; auto.
Qed.
Lemma fails_assoc : forall a b c st, fails (Seq a (Seq b c)) st -> fails (Seq (Seq a b) c) st. Proof. intros a b c st F X k. apply F. Qed.
Lemma fails_plus : forall p r v b t cs, v <> [] -> holds p v -> stops p t -> (forall b a t, p a = true -> fails r (St b (a :: t) cs)) -> fails r (St (fin b v) t cs) ->
  fails (Seq (Plus (Chr p)) r) (St b (v ++ t) cs).
Proof.
  intros p r [|a v] b t cs N H S F G; [congruence|]. inversion H; subst. apply fails_assoc. intros X k. rewrite run_seq. cbn [run rest app caps]. rewrite H2.
  change (run (Seq (Star (Chr p)) r) (St (Some a) (v ++ t) cs) k = None). apply fails_star; auto.
Qed.
Lemma fails_bol_seq : forall r b t c, ~ at_line_start b -> fails (Seq Bol r) (St b t c). Proof. intros. apply fails_seq, fails_bol. auto. Qed.
(** The rest of a line cannot begin a match that begins a line. *)
Lemma fin_not_start : forall u b, u <> [] -> Forall (fun c => Ascii.eqb c newline = false) u -> ~ at_line_start (fin b u).
Proof.
  intros u b N H. destruct (@exists_last _ u N) as (u' & c & ->). rewrite fin_last. apply Forall_app in H as [_ H]. inversion H; subst.
  intros [E|E]; [discriminate|]. injection E as ->. discriminate.
Qed.
Lemma scan_line : forall r l b t, Forall (fun c => Ascii.eqb c newline = false) l -> (l = [] -> ~ at_line_start b) -> fails r (St b (l ++ newline :: t) []) ->
  (forall b t c, ~ at_line_start b -> fails r (St b t c)) -> scan r b (l ++ newline :: t) = scan r (Some newline) t.
Proof.
  intros r l b t H H0 F N. change (newline :: t) with ([newline] ++ t). rewrite app_assoc, scan_skip.
  - rewrite fin_last. auto.
  - intros u v E NV. destruct u as [|a u]; [cbn [fin fold_left]; cbn in E; subst v; rewrite <- app_assoc; exact F|].
    apply N. destruct l as [|a' l]; [destruct u; [injection E as _ <-; congruence|discriminate]|].
    apply fin_not_start; [discriminate|]. destruct (@exists_last _ v NV) as (v' & z & ->). rewrite app_assoc in E. apply app_inj_tail in E as [E _].
    rewrite E in H. apply Forall_app in H. tauto.
Qed.

(** ** Consuming a text, with groups *)
Definition gets (b : option ascii) (r : re) (u t : text) (cs : list (nat * text)) : Prop := forall c, takes r (St b (u ++ t) c) (St (fin b u) t (cs ++ c)).
Lemma gets_eats : forall b r u t, eats b r u t -> gets b r u t []. Proof. intros b r u t H c. apply H. Qed.
Lemma gets_seq : forall b r1 r2 u v t c1 c2, gets b r1 u (v ++ t) c1 -> gets (fin b u) r2 v t c2 -> gets b (Seq r1 r2) (u ++ v) t (c2 ++ c1).
Proof. intros b r1 r2 u v t c1 c2 H1 H2 c. rewrite <- app_assoc, fin_app, <- app_assoc. eapply takes_seq; [apply H1|apply H2]. Qed.
Lemma gets_then : forall b r1 r2 u v t cs, eats b r1 u (v ++ t) -> gets (fin b u) r2 v t cs -> gets b (Seq r1 r2) (u ++ v) t cs.
Proof. intros b r1 r2 u v t cs H1 H2. rewrite <- (app_nil_r cs). eapply gets_seq; [apply gets_eats; auto|auto]. Qed.
Lemma gets_group : forall b n r u t, eats b r u t -> gets b (Group n r) u t [(n, u)].
Proof. intros b n r u t H c. apply takes_group; [reflexivity|apply H]. Qed.
Lemma gets_group_then : forall b n r1 r2 u v t cs, eats b r1 u (v ++ t) -> gets (fin b u) r2 v t cs -> gets b (Seq (Group n r1) r2) (u ++ v) t (cs ++ [(n, u)]).
Proof. intros b n r1 r2 u v t cs H1 H2. eapply gets_seq; [apply gets_group; auto|auto]. Qed.
Lemma gets_back : forall p r u x t v t2 b cs, gets (fin b u) r x t cs -> x ++ t = v ++ t2 -> holds p (u ++ v) -> stops p t2 ->
  (forall v1 v2 c, v = v1 ++ v2 -> v1 <> [] -> fails r (St (fin b (u ++ v1)) (v2 ++ t2) c)) -> gets b (Seq (Star (Chr p)) r) (u ++ x) t cs.
Proof.
  intros p r u x t v t2 b cs G E H S F c. rewrite <- app_assoc, fin_app. rewrite E. apply takes_back; auto. rewrite <- E. apply G.
Qed.
(** ** Words at the beginning of a pattern *)
Fixpoint starts (w t : text) : bool := match w, t with [], _ => true | a :: w', c :: t' => Ascii.eqb a c && starts w' t' | _ :: _, [] => false end.
Lemma lang_word : forall w x y, lang (Word w) x y -> exists t, snd x = w ++ t /\ y = (fin (fst x) w, t).
Proof.
  induction w as [|c w IH]; intros x y L.
  - cbn in L. inversion L; subst. exists (snd y). destruct y. auto.
  - assert (K : exists z, lang (Lit c) x z /\ lang (Word w) z y).
    { destruct w as [|d w]; [exists y; split; [exact L|constructor]|]. change (Word (c :: d :: w)) with (Seq (Lit c) (Word (d :: w))) in L. inversion L; subst. eauto. }
    destruct K as (z & L1 & L2). inversion L1; subst. apply Ascii.eqb_eq in H0. subst c0. destruct (IH _ _ L2) as (t' & E & ->). cbn in E. subst t. exists t'. auto.
Qed.
Lemma starts_app : forall w t, starts w (w ++ t) = true. Proof. induction w as [|c w IH]; intros t; auto. cbn. rewrite Ascii.eqb_refl. apply IH. Qed.
Lemma fails_word : forall w b t c, starts w t = false -> fails (Word w) (St b t c).
Proof. intros w b t c H. apply fails_lang. intros p L. destruct (lang_word _ _ _ L) as (t' & E & _). cbn in E. subst. rewrite starts_app in H. discriminate. Qed.
Fixpoint absent (w h t : text) : bool := match h with [] => true | c :: h' => negb (starts w (c :: h' ++ t)) && absent w h' t end.
Lemma scan_absent : forall w r h b t, absent w h t = true -> scan (Seq (Word w) r) b (h ++ t) = scan (Seq (Word w) r) (fin b h) t.
Proof.
  intros w r h. induction h as [|c h IH]; intros b t A; auto. cbn [absent] in A. apply andb_prop in A as [A1 A2]. cbn [app scan].
  rewrite (fails_seq (Word w) r); [apply IH; auto|]. apply fails_word. apply negb_true_iff. auto.
Qed.
Lemma lang_star_class : forall p x y, lang (Star (Chr p)) x y -> exists u, snd x = u ++ snd y /\ fst y = fin (fst x) u /\ holds p u.
Proof.
  intros p x y L. remember (Star (Chr p)) as r eqn:R. induction L; try discriminate.
  - exists []. repeat split. constructor.
  - injection R as ->. destruct (IHL2 eq_refl) as (u & E & B & H). inversion L1; subst. cbn in *. subst. exists (c :: u). cbn. split; [auto|]. split; [auto|]. constructor; auto.
Qed.
