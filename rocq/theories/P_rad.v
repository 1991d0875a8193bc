(** Reading Radioss files. *)
From Coq Require Import Ascii String List Arith NArith ZArith Bool Lia.
From Verif Require Import M_base M_merge M_mesh M_text M_mmio S_text S_files P_text P_mmio P_formats M_regex M_files P_regex P_hst P_tec P_layout P_dat P_msh M_formats M_inp S_inp P_inp S_rad.
Import ListNotations.
Local Open Scope nat_scope.

(** ** The characters of a match *)
Fixpoint within (p : ascii -> bool) (r : re) : bool :=
  match r with
  | Chr q => forallb (fun c => implb (q c) (p c)) ascii_all
  | Bol | Eol | Empty => true
  | Seq a b | Alt a b => within p a && within p b
  | Star a | Lazy a | Group _ a => within p a
  end.
Lemma lang_within : forall p r x y, lang r x y -> within p r = true -> exists u, snd x = u ++ snd y /\ holds p u.
Proof.
  intros p r x y L. induction L as [q b c t Q|b t B|b t T|x|a b x y z L1 IH1 L2 IH2|a b x y L IH|a b x y L IH|a x|a x y z L1 IH1 L2 IH2|a x|a x y z L1 IH1 L2 IH2|n a x y L IH]; cbn [within]; intros W;
    try (exists []; split; [reflexivity|constructor]); auto.
  - exists [c]. split; auto. constructor; [|constructor]. pose proof (proj1 (forallb_forall _ _) W c (ascii_all_in c)) as E. cbv beta in E. rewrite Q in E. auto.
  - apply andb_prop in W as [W1 W2]. destruct (IH1 W1) as (u & E1 & H1), (IH2 W2) as (v & E2 & H2). exists (u ++ v). rewrite E1, E2, app_assoc. split; auto. apply Forall_app. auto.
  - apply andb_prop in W as [W1 W2]. auto.
  - apply andb_prop in W as [W1 W2]. auto.
  - destruct (IH1 W) as (u & E1 & H1), (IH2 W) as (v & E2 & H2). exists (u ++ v). rewrite E1, E2, app_assoc. split; auto. apply Forall_app. auto.
  - destruct (IH1 W) as (u & E1 & H1), (IH2 W) as (v & E2 & H2). exists (u ++ v). rewrite E1, E2, app_assoc. split; auto. apply Forall_app. auto.
Qed.

(** ** Repetitions with groups *)
Lemma gets_star_list : forall (P : text -> Prop) r (ls : list (text * list (nat * text))) b t,
  (forall b l t, In l ls -> P t -> gets b r (fst l) t (snd l) /\ P (fst l ++ t)) -> Forall (fun l => fst l <> []) ls -> P t ->
  (forall b c, fails r (St b t c)) -> exists cs, gets b (Star r) (concat (map fst ls)) t cs.
Proof.
  intros P r ls. induction ls as [|l ls IH]; intros b t H N HP F.
  - exists []. intros c. cbn. apply takes_star_stop. auto.
  - inversion N as [|? ? NL N']; subst. destruct (IH (fin b (fst l)) t) as (cs & G); auto; [intros; apply H; auto; right; auto|]. exists (cs ++ snd l). intros c. cbn [map concat]. rewrite <- app_assoc, fin_app.
    assert (PT : P (concat (map fst ls) ++ t)).
    { clear -H HP b. induction ls as [|a ls IH']; auto. cbn [map concat]. rewrite <- app_assoc. apply (H b a); [right; left; auto|]. apply IH'. intros b0 l0 t0 [I|I]; apply H; [left; auto|right; right; auto]. }
    destruct (H b l (concat (map fst ls) ++ t)) as (E & _); auto; [left; auto|]. rewrite <- (app_assoc cs).
    eapply takes_star_more; [apply E| |apply G]. cbn [rest]. rewrite (app_length (fst l)). destruct (fst l) as [|q l0] eqn:Q; [exfalso; apply NL; exact Q|]. cbn [length]. lia.
Qed.
Lemma all_gets_list : forall (P : text -> Prop) r (ls : list (text * list (nat * text))) b,
  (forall b l t, In l ls -> P t -> gets b r (fst l) t (snd l) /\ P (fst l ++ t)) -> Forall (fun l => fst l <> []) ls -> P [] ->
  (forall b, fails r (St b [] [])) -> all_matches r b (concat (map fst ls)) = ls.
Proof.
  intros P r ls. induction ls as [|l ls IH]; intros b H N HP F.
  - apply all_none. cbn. rewrite F; auto.
  - inversion N as [|? ? NL N']; subst. cbn [map concat].
    assert (PT : P (concat (map fst ls))).
    { clear -H HP b. induction ls as [|a ls IH']; auto. cbn [map concat]. apply (H b a); [right; left; auto|]. apply IH'. intros b0 l0 t0 [I|I]; apply H; [left; auto|right; right; auto]. }
    destruct (H b l (concat (map fst ls))) as (E & _); auto; [left; auto|].
    rewrite (all_step r b _ (fst l) (snd l) (fin b (fst l)) (concat (map fst ls)) (snd l)); auto.
    + rewrite IH; auto; [destruct l; auto|]. intros; apply H; auto; right; auto.
    + apply scan_here. pose proof (E []) as E'. rewrite app_nil_r in E'. exact E'.
    + rewrite (app_length (fst l)). destruct (fst l) as [|q l0] eqn:Q; [exfalso; apply NL; exact Q|]. cbn [length]. lia.
Qed.

Lemma mapM_forall2 : forall A B (f : A -> res B) ls ps, Forall2 (fun l p => f l = Ok p) ls ps -> mapM f ls = Ok ps.
Proof. intros A B f ls ps R. induction R as [|l p ls ps E R IH]; auto. cbn [mapM]. rewrite E. cbn [bind]. rewrite IH. reflexivity. Qed.
(** ** Lines of nodes *)
Definition rad_node (k : nat) : re := seqs [ss; ds; ss; Group k real_re; ss; Group (S k) real_re; ss; Group (S (S k)) real_re].
Fixpoint chain (d : bool) (u : text) : bool :=
  match u with [] => d | c :: u' => implb (is_space c) d && of_numbers c && chain (of_number c || is_space c) u' end.
Definition good (a : text) : Prop := forall b, chain true b = true -> chain true (a ++ b) = true.
Lemma good_app : forall a b, good a -> good b -> good (a ++ b). Proof. intros a b A B c H. rewrite <- app_assoc. auto. Qed.
Lemma good_chars : forall a, Forall (fun c => of_number c || is_space c = true) a -> good a.
Proof.
  intros a H b B. induction H as [|c a C H IH]; auto. cbn [app chain]. rewrite C, IH. unfold of_numbers. rewrite C. destruct (is_space c); reflexivity.
Qed.
Lemma good_digits : forall a, only_digits a -> good a. Proof. intros a H. apply good_chars. eapply Forall_impl; [|exact H]. intros c E. unfold of_number. rewrite E. auto. Qed.
Lemma good_spaces : forall a, spaces a -> good a. Proof. intros a H. apply good_chars. eapply Forall_impl; [|exact H]. intros c E. cbv beta in *. rewrite E. apply orb_true_r. Qed.
Lemma good_sign : forall a, a_sign a -> good a. Proof. intros a [->|[->| ->]]; apply good_chars; repeat constructor. Qed.
Lemma good_decimal : forall w, decimal w -> good w.
Proof.
  intros w (sg & a & b & ex & -> & SG & A & B & _ & EX). repeat apply good_app; auto using good_digits, good_sign; [apply good_chars; repeat constructor|].
  destruct EX as [->|(e & sg' & d & -> & E & SG' & [ND D])]; [intros t T; auto|]. intros t T.
  assert (X : chain false (sg' ++ d ++ t) = true).
  { destruct d as [|c d]; [congruence|]. inversion D as [|? ? C D']; subst. assert (T1 : chain true (d ++ t) = true) by (apply good_digits; auto).
    assert (T2 : forall q, chain q (c :: d ++ t) = true). { intros q. cbn [chain]. unfold of_numbers, of_number. rewrite C. cbn [orb]. rewrite T1. rewrite (digit_not_space c C). reflexivity. }
    destruct SG' as [->|[->| ->]]; [apply T2| |]; cbn [app s list_ascii_of_string]; cbn; apply (T2 true). }
  rewrite <- app_comm_cons, <- app_assoc. cbn [chain]. destruct E as [->| ->]; cbn; exact X.
Qed.
Lemma chain_all : forall u d, chain d u = true -> Forall (fun c => of_numbers c = true) u.
Proof. induction u as [|c u IH]; intros d H; constructor; cbn [chain] in H; apply andb_prop in H as [H H2]; apply andb_prop in H as [_ H1]; eauto. Qed.
Lemma chain_newline : forall u d z v, chain d (u ++ z :: newline :: v) = true -> of_number z || is_space z = true.
Proof. induction u as [|c u IH]; intros d z v H; cbn [app chain] in H; apply andb_prop in H as [_ H]; [|eauto]. cbn in H. apply andb_prop in H as [H _]. apply andb_prop in H as [H _]. auto. Qed.
Lemma dot_count : forall w, decimal w -> 1 <= count_occ ascii_dec w "."%char. Proof. intros w D. apply decimal_dot in D. apply (count_occ_In ascii_dec) in D. lia. Qed.
Lemma lang_rad : forall k x y, lang (rad_node k) x y -> exists u, snd x = u ++ snd y /\ chain true u = true /\ 3 <= count_occ ascii_dec u "."%char.
Proof.
  intros k x y L. unfold rad_node, seqs in L. cbn [fold_right] in L.
  apply lang_seq in L as (z1 & L1 & L). apply lang_star_class in L1 as (p0 & E1 & _ & P0). apply lang_seq in L as (z2 & L2 & L). apply lang_ds in L2 as (d & E2 & D).
  apply lang_seq in L as (z3 & L3 & L). apply lang_star_class in L3 as (p1 & E3 & _ & P1). apply lang_seq in L as (z4 & L4 & L). apply lang_group, lang_decimal in L4 as (w1 & E4 & W1).
  apply lang_seq in L as (z5 & L5 & L). apply lang_star_class in L5 as (p2 & E5 & _ & P2). apply lang_seq in L as (z6 & L6 & L). apply lang_group, lang_decimal in L6 as (w2 & E6 & W2).
  apply lang_seq in L as (z7 & L7 & L). apply lang_star_class in L7 as (p3 & E7 & _ & P3). apply lang_seq in L as (z8 & L8 & L). apply lang_group, lang_decimal in L8 as (w3 & E8 & W3).
  apply lang_empty in L. subst z8. exists (p0 ++ d ++ p1 ++ w1 ++ p2 ++ w2 ++ p3 ++ w3). split; [|split].
  - rewrite E1, E2, E3, E4, E5, E6, E7, E8, <- !app_assoc. reflexivity.
  - rewrite <- (app_nil_r (_ ++ _)). destruct D as [_ D]. assert (G : good (p0 ++ d ++ p1 ++ w1 ++ p2 ++ w2 ++ p3 ++ w3)) by (repeat apply good_app; auto using good_spaces, good_digits, good_decimal). apply G. reflexivity.
  - rewrite !count_occ_app. apply dot_count in W1, W2, W3. lia.
Qed.
Definition rad_caps (k : nat) (x y z : text) : list (nat * text) := [(S (S k), z); (S k, y); (k, x)].
Lemma rad_node_gets : forall k b p0 d p1 x p2 y p3 z t, spaces p0 -> number d -> spaces p1 -> p1 <> [] -> decimal x -> spaces p2 -> p2 <> [] -> decimal y -> spaces p3 -> p3 <> [] -> decimal z -> ended t ->
  gets b (rad_node k) (p0 ++ d ++ p1 ++ x ++ p2 ++ y ++ p3 ++ z) t (rad_caps k x y z).
Proof.
  intros k b p0 d p1 x p2 y p3 z t P0 D P1 N1 X P2 N2 Y P3 N3 Z T. unfold rad_node, seqs. cbn [fold_right].
  assert (SD : forall w r, decimal w -> stops is_space (w ++ r)) by (intros; apply stops_space_word, decimal_word; auto).
  replace (p0 ++ d ++ p1 ++ x ++ p2 ++ y ++ p3 ++ z) with (p0 ++ d ++ p1 ++ x ++ p2 ++ y ++ p3 ++ z ++ []) by (rewrite app_nil_r; reflexivity).
  apply gets_then; [apply eats_star_class; auto; rewrite <- !app_assoc; apply stops_space_word, number_word; auto|].
  apply gets_then; [apply eats_ds; [apply D|apply D|rewrite <- !app_assoc; apply stops_digit_space; auto]|].
  apply gets_then; [apply eats_star_class; auto; rewrite <- !app_assoc; apply SD; auto|].
  change (rad_caps k x y z) with ([(S (S k), z); (S k, y)] ++ [(k, x)]).
  apply gets_group_then; [apply eats_decimal; auto; rewrite <- !app_assoc; apply ended_spaces; auto|].
  apply gets_then; [apply eats_star_class; auto; rewrite <- !app_assoc; apply SD; auto|].
  change [(S (S k), z); (S k, y)] with ([(S (S k), z)] ++ [(S k, y)]).
  apply gets_group_then; [apply eats_decimal; auto; rewrite <- !app_assoc; apply ended_spaces; auto|].
  apply gets_then; [apply eats_star_class; auto; rewrite <- !app_assoc; apply SD; auto|].
  change [(S (S k), z)] with ([] ++ [(S (S k), z)]).
  apply gets_group_then; [apply eats_decimal; auto|]. apply gets_eats, eats_empty.
Qed.
Definition rad_line (dbl : N -> Z -> N * positive) (l : text) (p : list num) : Prop := exists n, dat_node_line dbl l n p.
Lemma titled_no_node : forall k b t c, titled t -> fails (rad_node k) (St b (newline :: t) c).
Proof.
  intros k b t c (p & a & r & -> & P & A1 & A2). change (newline :: p ++ a :: r) with ((newline :: p) ++ a :: r). unfold rad_node, seqs. cbn [fold_right]. apply fails_star; auto.
  - constructor; auto. apply blanks_spaces. auto.
  - intros b' a' t' S. apply fails_ds_space. auto.
  - apply fails_seq, fails_seq, fails_chr. auto.
Qed.
(** The pieces of the section and their groups *)
Lemma rad_pieces : forall dbl k ls ps, Forall2 (rad_line dbl) ls ps -> exists pieces, map fst pieces = map (cons newline) ls /\
  (forall b l t, In l pieces -> ended t -> gets b (rad_node k) (fst l) t (snd l) /\ ended (fst l ++ t)) /\ Forall (fun l => fst l <> []) pieces /\
  Forall2 (fun l p => mapM (fun i => to_float dbl (group i l)) [k; S k; S (S k)] = Ok p) pieces ps.
Proof.
  intros dbl k ls ps F. induction F as [|l p ls ps (n & H) F IH]; [exists []; repeat split; auto; intros; contradiction|]. destruct IH as (pieces & M & G & N & R).
  destruct H as (p0 & d & p1 & x & p2 & y & p3 & z & -> & P0 & [N1 P1] & [N2 P2] & [N3 P3] & D & X & Y & Z & _ & E). apply blanks_spaces in P0, P1, P2, P3.
  set (l := newline :: p0 ++ d ++ p1 ++ x ++ p2 ++ y ++ p3 ++ z). exists ((l, rad_caps k x y z) :: pieces). split; [cbn [map fst]; rewrite M; reflexivity|]. split; [|split].
  - intros b l' t [<-|I] T; [|apply G; auto]. cbn [fst snd]. split; [|apply ended_line]. apply (rad_node_gets k b (newline :: p0)); auto. constructor; auto.
  - constructor; auto. discriminate.
  - constructor; auto. rewrite <- E. unfold group, rad_caps. cbn [map mapM snd assoc_nat]. rewrite !Nat.eqb_refl.
    replace (k =? S (S k)) with false by (symmetry; apply Nat.eqb_neq; lia). replace (k =? S k) with false by (symmetry; apply Nat.eqb_neq; lia). replace (S k =? S (S k)) with false by (symmetry; apply Nat.eqb_neq; lia). reflexivity.
Qed.
Lemma rad_section : forall dbl ls ps b t, Forall2 (rad_line dbl) ls ps -> ls <> [] -> titled t ->
  exists cs, scan rad_node_section b (concat (map (cons newline) ls) ++ newline :: t) =
    Some ((concat (map (cons newline) ls), (1, concat (map (cons newline) ls)) :: cs), St (fin b (concat (map (cons newline) ls))) (newline :: t) ((1, concat (map (cons newline) ls)) :: cs)).
Proof.
  intros dbl ls ps b t F N T. destruct (rad_pieces dbl 2 ls ps F) as (pieces & M & G & NE & _). rewrite <- M. destruct pieces as [|p pieces]; [destruct ls; [congruence|discriminate]|].
  assert (P : ended (newline :: t)) by apply ended_line. inversion NE as [|? ? NP NE']; subst.
  destruct (gets_star_list ended (rad_node 2) pieces (fin b (fst p)) (newline :: t)) as (cs & C); auto.
  { intros. apply G; auto. right. auto. } { intros. apply titled_no_node. auto. }
  exists (cs ++ snd p). apply scan_here. unfold rad_node_section. apply takes_group; [reflexivity|]. cbn [map concat]. rewrite <- (app_nil_r (cs ++ snd p)).
  apply (gets_seq b (rad_node 2) (Star (rad_node 2)) (fst p) (concat (map fst pieces)) (newline :: t) (snd p) cs); auto.
  apply G; [left; auto|]. clear -G P b. assert (H : forall b l t, In l pieces -> ended t -> gets b (rad_node 2) (fst l) t (snd l) /\ ended (fst l ++ t)) by (intros; apply G; auto; right; auto).
  clear G. induction pieces as [|a ls IH']; auto. cbn [map concat]. rewrite <- app_assoc. apply (H b a); [left; auto|]. apply IH'. intros b0 l0 t0 I; apply H; right; auto.
Qed.
Lemma rad_vertices : forall dbl ls ps, Forall2 (rad_line dbl) ls ps ->
  mapM (fun m => mapM (fun i => to_float dbl (group i m)) [1; 2; 3]) (matches rad_node_line (concat (map (cons newline) ls))) = Ok ps.
Proof.
  intros dbl ls ps F. destruct (rad_pieces dbl 1 ls ps F) as (pieces & M & G & NE & R). rewrite <- M. unfold matches. fold (all_matches rad_node_line None (concat (map fst pieces))).
  rewrite (all_gets_list ended (rad_node 1)); auto; [|left; auto|intros; apply silent_fails; reflexivity].
  apply mapM_forall2. exact R.
Qed.
(** ** Before the nodes *)
Lemma heading_skipped : forall ls t, heading ls -> exists h, concat (map line ls) ++ t = h ++ newline :: t /\ forall b, scan rad_node_section b (h ++ newline :: t) = scan rad_node_section (fin b h) (newline :: t).
Proof.
  intros ls t (_ & C & ls' & l & z & -> & Z1 & Z2). set (h := concat (map line ls') ++ l). assert (EH : concat (map line (ls' ++ [l ++ [z]])) = (h ++ [z]) ++ [newline]).
  { unfold h. rewrite map_app, concat_app. cbn [map concat]. unfold line at 2. rewrite app_nil_r, <- !app_assoc. reflexivity. }
  rewrite EH in *. exists (h ++ [z]). split; [rewrite <- !app_assoc; reflexivity|].
  intros b. apply scan_skip. intros u v E NV. apply fails_group, fails_seq, fails_lang. intros y L. apply (lang_rad 2) in L as (w & EW & CH & CT). unfold pos_of in EW. cbn [snd rest] in EW.
  destruct (@exists_last _ v NV) as (v' & z' & ->). pose proof E as E0. rewrite app_assoc in E. apply app_inj_tail in E as [_ <-].
  apply app_eq_app in EW as (m & [[E1 E2]|[E1 E2]]).
  - specialize (C u w (m ++ [newline])). apply chain_all in CH. assert (X : count_occ ascii_dec w "."%char <= 2); [|lia]. apply C; auto. rewrite E0, E1, <- !app_assoc. reflexivity.
  - destruct m as [|c m].
    + rewrite app_nil_r in E1. subst w. specialize (C u (v' ++ [z]) [newline]). apply chain_all in CH. assert (X : count_occ ascii_dec (v' ++ [z]) "."%char <= 2); [|lia]. apply C; auto. rewrite E0, <- !app_assoc. reflexivity.
    + injection E2 as <- E2. subst w. rewrite <- app_assoc in CH. cbn [app] in CH. apply chain_newline in CH. rewrite Z1, Z2 in CH. discriminate.
Qed.

(** ** Elements *)
Definition digit_or_space (c : ascii) : bool := is_digit c || is_space c.
Definition is_end (c : ascii) : bool := existsb (Ascii.eqb c) [return_char; newline].
Definition ends_in (u : text) : nat := length (filter is_end u).
Lemma ends_app : forall u v, ends_in (u ++ v) = ends_in u + ends_in v. Proof. intros. unfold ends_in. rewrite filter_app, app_length. auto. Qed.
Lemma ends_line : forall l, one_line l -> ends_in l = 0.
Proof.
  intros l [N R]. unfold ends_in. destruct (filter is_end l) as [|c f] eqn:E; auto. exfalso. assert (I : In c (filter is_end l)) by (rewrite E; left; auto). apply filter_In in I as [I H].
  apply existsb_exists in H as (x & [<-|[<-|[]]] & Q); apply Ascii.eqb_eq in Q; subst; contradiction.
Qed.
Lemma lang_elem_ends : forall x y, lang rad_elem_line x y -> exists u, snd x = u ++ snd y /\ holds digit_or_space u /\ 1 <= ends_in u.
Proof.
  intros x y L. unfold rad_elem_line in L. change (seqs [Bol; ss; Times 6 (Seq ds sp); ds; ss; ends]) with (seqs ([Bol; ss; Times 6 (Seq ds sp); ds; ss] ++ [ends])) in L.
  apply lang_seqs_app in L as (z & L1 & L2). apply (lang_within digit_or_space) in L1 as (u & E1 & H1); [|vm_compute; reflexivity].
  unfold seqs in L2. cbn [fold_right] in L2. apply lang_seq in L2 as (z' & L2 & L3). apply lang_empty in L3. subst z'.
  apply (lang_within is_end) in L2 as L4; [|vm_compute; reflexivity]. destruct L4 as (v & E2 & H2). exists (u ++ v). rewrite E1, E2, app_assoc. split; auto. split.
  - apply Forall_app. split; auto. eapply Forall_impl; [|exact H2]. intros c E. apply existsb_exists in E as (d & [<-|[<-|[]]] & Q); apply Ascii.eqb_eq in Q; subst; reflexivity.
  - rewrite ends_app. destruct v as [|c v].
    + exfalso. unfold ends, Plus in L2. apply lang_seq in L2 as (w & L2 & L5). apply lang_class in L2 as (c & _ & E3). pose proof (lang_shrinks _ _ _ L5) as S. rewrite E2 in E3. cbn [app] in E3. rewrite E3 in S. cbn [length] in S. lia.
    + inversion H2; subst. unfold ends_in at 2. cbn [filter]. rewrite H3. cbn [length]. lia.
Qed.
Lemma lang_section_ends : forall x y, lang rad_elem_section x y -> exists u v, snd x = u ++ v /\ holds digit_or_space u /\ 3 <= ends_in u.
Proof.
  intros x y L. unfold rad_elem_section, AtLeast in L. apply lang_group in L. apply lang_seq in L as (z & L & _). cbn [Times] in L.
  apply lang_seq in L as (z1 & L1 & L). apply lang_seq in L as (z2 & L2 & L). apply lang_elem_ends in L1 as (u1 & E1 & H1 & C1), L2 as (u2 & E2 & H2 & C2), L as (u3 & E3 & H3 & C3).
  exists (u1 ++ u2 ++ u3), (snd z). rewrite E1, E2, E3, <- !app_assoc. split; auto. split; [repeat (apply Forall_app; split); auto|]. rewrite !ends_app. lia.
Qed.
(** A match does not go over a character that is neither a digit nor white space. *)
Lemma odd_stops : forall a c b u v, digit_or_space c = false -> a ++ c :: b = u ++ v -> holds digit_or_space u -> exists m, a = u ++ m.
Proof.
  intros a c b u v C E H. apply app_eq_app in E as (m & [[E1 E2]|[E1 E2]]); eauto. destruct m as [|d m]; [exists []; rewrite app_nil_r in *; auto|].
  injection E2 as <- _. subst. apply Forall_app in H as [_ H]. inversion H; subst. congruence.
Qed.
Lemma odd_char : forall c, is_digit c = false -> is_space c = false -> digit_or_space c = false. Proof. intros c A B. unfold digit_or_space. rewrite A, B. auto. Qed.
Lemma section_start : forall b t c, ~ at_line_start b -> fails rad_elem_section (St b t c).
Proof. intros b t c B. apply fails_group, fails_seq. cbn [Times]. apply fails_seq. apply fails_seq, fails_bol. auto. Qed.
Lemma one_line_nonl : forall l, one_line l -> nonl l.
Proof. intros l [N _]. apply Forall_forall. intros c I. destruct (Ascii.eqb c newline) eqn:E; auto. apply Ascii.eqb_eq in E. subst. contradiction. Qed.
Lemma one_line_part : forall a b, one_line (a ++ b) -> one_line a. Proof. intros a b [N R]. split; intros I; [apply N|apply R]; apply in_or_app; auto. Qed.
Lemma wordy_skipped : forall ls t, Forall wordy ls -> forall b, at_line_start b -> exists b', at_line_start b' /\ scan rad_elem_section b (concat (map line ls) ++ t) = scan rad_elem_section b' t.
Proof.
  intros ls t F. induction F as [|l ls (O & a & c & r & E & C1 & C2) F IH]; intros b B; [exists b; auto|]. cbn [map concat]. unfold line at 1. rewrite <- !app_assoc. cbn [app].
  destruct (IH (Some newline)) as (b' & B' & S); [right; auto|]. exists b'. split; auto. rewrite <- S. apply scan_line.
  - apply one_line_nonl. auto.
  - intros ->. destruct a; discriminate.
  - apply fails_lang. intros y L. apply lang_section_ends in L as (u & v & EU & H & K). unfold pos_of in EU. cbn [snd rest] in EU. rewrite E, <- app_assoc in EU. cbn [app] in EU.
    destruct (odd_stops _ _ _ _ _ (odd_char c C1 C2) EU H) as (m & ->). rewrite E in O. apply one_line_part, one_line_part, ends_line in O. lia.
  - intros. apply section_start. auto.
Qed.
Lemma node_wordy : forall dbl l p, rad_line dbl l p -> wordy l.
Proof.
  intros dbl l p (n & p0 & d & p1 & x & p2 & y & p3 & z & -> & P0 & [N1 P1] & [N2 P2] & [N3 P3] & D & X & Y & Z & _ & E). split.
  - assert (B : forall p, blanks p -> one_line p) by (intros q Q; split; intros I; apply (proj1 (Forall_forall _ _) Q) in I; discriminate).
    assert (W : forall w, word w -> one_line w) by (intros w [_ W]; split; intros I; apply (proj1 (Forall_forall _ _) W) in I; discriminate).
    assert (A : forall a b, one_line a -> one_line b -> one_line (a ++ b)) by (intros a b [A1 A2] [B1 B2]; split; intros I; apply in_app_or in I as [I|I]; contradiction).
    repeat apply A; auto using decimal_word, number_word.
  - apply decimal_dot in Z. apply in_split in Z as (a & b & ->). exists (p0 ++ d ++ p1 ++ x ++ p2 ++ y ++ p3 ++ a), "."%char, b. split; [rewrite <- !app_assoc; reflexivity|auto].
Qed.
Lemma elem_cells : forall l cs, rad_element l cs -> exists p0 d0 p1 d1 p2 d2 p3 d3 p4 d4 p5 d5 p6 d6,
  l = p0 ++ (d0 ++ p1) ++ (d1 ++ p2) ++ (d2 ++ p3) ++ (d3 ++ p4) ++ (d4 ++ p5) ++ (d5 ++ p6) ++ d6 /\ blanks p0 /\ Forall some_blanks [p1; p2; p3; p4; p5; p6] /\ Forall number [d0; d1; d2; d3; d4; d5; d6] /\
  Forall2 (fun d n => to_int d = Ok (Z.of_nat n)) [d3; d4; d5; d6] cs.
Proof.
  intros l cs (p0 & d & cells & -> & P0 & D & LC & F & C). destruct cells as [|[p1 d1] [|[p2 d2] [|[p3 d3] [|[p4 d4] [|[p5 d5] [|[p6 d6] [|]]]]]]]; try discriminate. cbn [map concat fst snd skipn] in *.
  rewrite !Forall_cons_iff in F. cbn [fst snd] in F. destruct F as ((P1 & D1) & (P2 & D2) & (P3 & D3) & (P4 & D4) & (P5 & D5) & (P6 & D6) & _).
  exists p0, d, p1, d1, p2, d2, p3, d3, p4, d4, p5, d5, p6, d6. split; [rewrite app_nil_r, <- !app_assoc; reflexivity|]. split; auto. split; [auto 10|]. split; [auto 10|].
  inversion C as [|? ? ? ? A1 C1]; subst. inversion C1 as [|? ? ? ? A2 C2]; subst. inversion C2 as [|? ? ? ? A3 C3]; subst. inversion C3 as [|? ? ? ? A4 C4]; subst. inversion C4; subst. repeat constructor; auto.
Qed.
Lemma elem_eats : forall b l cs t, rad_element l cs -> at_line_start b -> after_row t -> eats b rad_elem_line (line l) t.
Proof.
  intros b l cs t H B A. destruct (elem_cells l cs H) as (p0 & d0 & p1 & d1 & p2 & d2 & p3 & d3 & p4 & d4 & p5 & d5 & p6 & d6 & -> & P0 & P & D & _).
  rewrite !Forall_cons_iff in P. rewrite !Forall_cons_iff in D. destruct P as ([N1 P1] & [N2 P2] & [N3 P3] & [N4 P4] & [N5 P5] & [N6 P6] & _), D as (D0 & D1 & D2 & D3 & D4 & D5 & D6 & _). apply blanks_spaces in P0, P1, P2, P3, P4, P5, P6.
  assert (W : forall d r, number d -> stops is_space (d ++ r)) by (intros; apply stops_space_word, number_word; auto).
  unfold rad_elem_line, seqs, line. cbn [fold_right Times].
  match goal with |- eats _ _ ?x _ => replace x with ([] ++ p0 ++ ((d0 ++ p1) ++ (d1 ++ p2) ++ (d2 ++ p3) ++ (d3 ++ p4) ++ (d4 ++ p5) ++ (d5 ++ p6)) ++ d6 ++ [newline]) by (cbn [app]; rewrite <- !app_assoc; reflexivity) end.
  apply eats_seq; [apply eats_bol; auto|]. cbn [fin fold_left].
  apply eats_seq; [apply eats_star_class; auto; rewrite <- !app_assoc; apply W; auto|].
  apply eats_seq.
  { do 5 (apply eats_seq; [apply eats_int_space; auto; try apply D0; try apply D1; try apply D2; try apply D3; try apply D4; rewrite <- !app_assoc; apply W; auto|]).
    apply eats_int_space; auto; try apply D5; rewrite <- ?app_assoc; apply W; auto. }
  apply eats_seq; [apply eats_ds; [apply D6|apply D6|reflexivity]|].
  apply eats_assoc'. apply eats_last. apply eats_line_end. auto.
Qed.
Definition closed_by (t : text) : Prop := t = [] \/ titled t.
Lemma blanks_no_end : forall p, blanks p -> Forall (fun c => ~ In c [return_char; newline]) p.
Proof. intros p H. eapply Forall_impl; [|exact H]. intros c <- [E|[E|[]]]; discriminate. Qed.
Lemma elem_after : forall l cs t, rad_element l cs -> after_row (line l ++ t).
Proof.
  intros l cs t H. destruct (elem_cells l cs H) as (p0 & d0 & p1 & d1 & p2 & d2 & p3 & d3 & p4 & d4 & p5 & d5 & p6 & d6 & -> & P0 & P & D & _). unfold line. rewrite <- !app_assoc. do 2 eexists. split; [reflexivity|]. split; [apply blanks_spaces; auto|].
  split; [apply blanks_no_end; auto|]. inversion D; subst. apply stops_space_word, number_word. auto.
Qed.
Lemma closed_after : forall t, closed_by t -> after_row t.
Proof. intros t [->|(p & c & r & -> & P & C1 & C2)]; [exists [], []; repeat split; constructor|]. do 2 eexists. split; [reflexivity|]. split; [apply blanks_spaces; auto|]. split; [apply blanks_no_end; auto|auto]. Qed.
Lemma closed_fails : forall t b c, closed_by t -> fails rad_elem_line (St b t c).
Proof.
  intros t b c [->|(p & a & r & -> & P & A1 & A2)]; apply fails_bol_then; [apply silent_fails; reflexivity|]. apply fails_star; auto; [apply blanks_spaces; auto| |].
  - intros b' a' t' S. cbn [Times]. apply fails_seq, fails_seq, fails_ds_space. auto.
  - apply fails_seq, fails_seq, fails_seq, fails_seq, fails_chr. auto.
Qed.
Lemma elems_eat : forall ls css, Forall2 rad_element ls css -> forall b l t, In l (map line ls) -> at_line_start b -> after_row t -> eats b rad_elem_line l t /\ at_line_start (fin b l) /\ after_row (l ++ t).
Proof.
  intros ls css F b l t I B A. apply in_map_iff in I as (l0 & <- & I). assert (X : exists cs, rad_element l0 cs). { clear -F I. induction F; [contradiction|]. destruct I as [<-|I]; eauto. }
  destruct X as (cs & X). split; [eapply elem_eats; eauto|]. split; [right; apply fin_last|eapply elem_after; eauto].
Qed.
Lemma lines_filled : forall ls, Forall (fun l => l <> []) (map line ls). Proof. intros. apply Forall_map_intro. intros l _. unfold line. destruct l; discriminate. Qed.
Lemma elem_section : forall ls css t b, Forall2 rad_element ls css -> 3 <= length ls -> closed_by t -> at_line_start b ->
  exists st, scan rad_elem_section b (concat (map line ls) ++ t) = Some ((concat (map line ls), [(1, concat (map line ls))]), st).
Proof.
  intros ls css t b F L T B. pose proof (elems_eat ls css F) as H. destruct ls as [|l1 [|l2 [|l3 ls]]]; try (cbn in L; lia). eexists. apply scan_here. apply takes_group; [reflexivity|].
  assert (AF : forall ls', incl ls' (map line (l1 :: l2 :: l3 :: ls)) -> after_row (concat ls' ++ t)).
  { induction ls' as [|a ls' IH]; intros I; [apply closed_after; auto|]. cbn [concat]. rewrite <- app_assoc. apply (H b); auto; [apply I; left; auto|]. apply IH. intros x X. apply I. right. auto. }
  unfold AtLeast. cbn [Times map concat]. apply eats_assoc. 
  assert (X : forall b1 l u, In l (map line (l1 :: l2 :: l3 :: ls)) -> at_line_start b1 -> after_row u -> eats b1 rad_elem_line l u) by (intros; apply H; auto).
  assert (Y : forall b1 l, In l (map line (l1 :: l2 :: l3 :: ls)) -> at_line_start b1 -> at_line_start (fin b1 l)) by (intros b1 l I0 B0; apply (H b1 l t); auto; apply closed_after; auto).
  cbn [map] in *.
  apply eats_seq; [apply X; auto; [left; auto|]; apply (AF (line l2 :: line l3 :: map line ls)); intros x I0; right; auto|]. apply eats_assoc.
  apply eats_seq; [apply X; [right; left; auto|apply Y; auto; left; auto|]; apply (AF (line l3 :: map line ls)); intros x I0; right; right; auto|].
  apply eats_seq; [apply X; [right; right; left; auto|apply Y; [right; left; auto|]; apply Y; auto; left; auto|]; apply (AF (map line ls)); intros x I0; right; right; right; auto|].
  apply (eats_star_list after_row at_line_start).
  - intros b0 l t0 I0. apply H. right. right. right. auto.
  - apply lines_filled.
  - apply Y; [right; right; left; auto|]. apply Y; [right; left; auto|]. apply Y; auto. left. auto.
  - apply closed_after. auto.
  - intros. apply closed_fails. auto.
Qed.
Lemma elems_found : forall ls css, Forall2 rad_element ls css -> findall rad_elem_line (concat (map line ls)) = map line ls.
Proof.
  intros ls css F. unfold findall, matches. fold (all_matches rad_elem_line None (concat (map line ls))). rewrite (all_list after_row at_line_start); auto.
  - rewrite map_map. apply map_id.
  - apply (elems_eat ls css). auto.
  - apply lines_filled.
  - left. auto.
  - apply closed_after. left. auto.
  - intros. apply closed_fails. left. auto.
Qed.
Lemma ints_of : forall ds cs, Forall2 (fun d n => to_int d = Ok (Z.of_nat n)) ds cs -> mapM to_int ds = Ok (map Z.of_nat cs).
Proof. intros ds cs C. apply mapM_forall2. induction C; constructor; auto. Qed.
Lemma ints_length : forall A B (R : A -> B -> Prop) ds cs, Forall2 R ds cs -> length ds = length cs.
Proof. intros A B R ds cs C. induction C; cbn; auto. Qed.
Lemma elem_read : forall l cs, rad_element l cs -> mapM to_int (skipn 3 (words (line l))) = Ok (map Z.of_nat cs).
Proof.
  intros l cs H. rewrite words_line. destruct (elem_cells l cs H) as (p0 & d0 & p1 & d1 & p2 & d2 & p3 & d3 & p4 & d4 & p5 & d5 & p6 & d6 & -> & P0 & P & D & C).
  rewrite !Forall_cons_iff in P. rewrite !Forall_cons_iff in D. destruct P as ([N1 P1] & [N2 P2] & [N3 P3] & [N4 P4] & [N5 P5] & [N6 P6] & _), D as (D0 & D1 & D2 & D3 & D4 & D5 & D6 & _). apply blanks_spaces in P0, P1, P2, P3, P4, P5, P6.
  rewrite words_spaces by auto. rewrite <- !app_assoc.
  assert (W : forall d p r, number d -> spaces p -> p <> [] -> words (d ++ p ++ r) = d :: words r).
  { intros d p r D P N. rewrite words_word; [rewrite words_spaces by auto; auto|apply number_word; auto|apply ended_spaces; auto]. }
  rewrite !W by auto. assert (E : words d6 = [d6]). { rewrite <- (app_nil_r d6) at 1. rewrite words_word; auto. apply number_word. auto. } rewrite E. cbn [skipn].
  apply ints_of. exact C.
Qed.
Lemma elem_corners : forall l cs, rad_element l cs -> length cs = 4.
Proof. intros l cs H. destruct (elem_cells l cs H) as (p0 & d0 & p1 & d1 & p2 & d2 & p3 & d3 & p4 & d4 & p5 & d5 & p6 & d6 & _ & _ & _ & _ & C). apply ints_length in C. auto. Qed.
Lemma elem_line : forall l cs, rad_element l cs -> nonl l /\ l <> [] /\ ends_in l = 0.
Proof.
  intros l cs E. destruct (elem_cells l cs E) as (p0 & d0 & p1 & d1 & p2 & d2 & p3 & d3 & p4 & d4 & p5 & d5 & p6 & d6 & -> & P0 & P & D & _).
  rewrite !Forall_cons_iff in P. rewrite !Forall_cons_iff in D. destruct P as ([N1 P1] & [N2 P2] & [N3 P3] & [N4 P4] & [N5 P5] & [N6 P6] & _), D as (D0 & D1 & D2 & D3 & D4 & D5 & D6 & _).
  assert (Q : forall p, blanks p -> ends_in p = 0) by (intros q Q; apply ends_line; split; intros I; apply (proj1 (Forall_forall _ _) Q) in I; discriminate).
  assert (W : forall w, number w -> ends_in w = 0) by (intros w [_ W]; apply ends_line; split; intros I; apply (proj1 (Forall_forall _ _) W) in I; discriminate).
  assert (Q' : forall p, blanks p -> nonl p) by (intros q K; eapply Forall_impl; [|exact K]; intros c <-; reflexivity).
  assert (W' : forall w, number w -> nonl w) by (intros w K; apply word_nonl, number_word; auto).
  split; [repeat apply nonl_app; auto|]. split; [|rewrite !ends_app; repeat first [rewrite Q by assumption|rewrite W by assumption]; reflexivity].
  intros K. apply app_eq_nil in K as [_ K]. apply app_eq_nil in K as [K _]. apply app_eq_nil in K as [K _]. exact (proj1 D0 K).
Qed.
Lemma elems_ends : forall ls css, Forall2 rad_element ls css -> ends_in (concat (map line ls)) = length ls.
Proof. intros ls css F. induction F as [|l cs ls css E F IH]; auto. cbn [map concat length]. destruct (elem_line l cs E) as (_ & _ & Z). unfold line at 1. rewrite !ends_app, Z, IH. reflexivity. Qed.
(** No match begins before fewer than three elements. *)
Lemma few_fails : forall ls css t b c, Forall2 rad_element ls css -> length ls < 3 -> Forall wordy t -> fails rad_elem_section (St b (concat (map line ls) ++ concat (map line t)) c).
Proof.
  intros ls css t b c F L T. apply fails_lang. intros y K. apply lang_section_ends in K as (u & v & EU & H & K). unfold pos_of in EU. cbn [snd rest] in EU.
  pose proof (elems_ends ls css F) as EE. destruct T as [|l t (O & a & d & r & -> & D1 & D2) T].
  - cbn [map concat] in EU. rewrite app_nil_r in EU. rewrite EU, ends_app in EE. lia.
  - cbn [map concat] in EU. unfold line at 2 in EU. rewrite <- !app_assoc in EU. rewrite app_assoc in EU. cbn [app] in EU. destruct (odd_stops _ _ _ _ _ (odd_char d D1 D2) EU H) as (m & E).
    apply one_line_part, ends_line in O. assert (X : ends_in (concat (map line ls) ++ a) = ends_in (u ++ m)) by (rewrite E; auto). rewrite !ends_app in X. lia.
Qed.
Lemma few_elems : forall ls css t b, Forall2 rad_element ls css -> length ls < 3 -> Forall wordy t -> at_line_start b -> scan rad_elem_section b (concat (map line ls) ++ concat (map line t)) = None.
Proof.
  intros ls css t b F. revert b. induction F as [|l cs ls css E F IH]; intros b L T B.
  - cbn [map concat app]. rewrite <- (app_nil_r (concat (map line t))). destruct (wordy_skipped t [] T b B) as (b' & _ & ->). pose proof (few_fails [] [] [] b' [] (Forall2_nil _)) as X. cbn [map concat app] in X. cbn [scan]. rewrite X; auto.
  - pose proof (few_fails (l :: ls) (cs :: css) t b [] (Forall2_cons _ _ E F) L T) as X. cbn [map concat] in *. unfold line at 1 in X. unfold line at 1. rewrite <- !app_assoc in *. cbn [app] in *.
    destruct (elem_line l cs E) as (N1 & N2 & N3). rewrite scan_line; auto.
    + apply IH; auto; [cbn in L; lia|right; auto].
    + intros. apply section_start. auto.
Qed.
