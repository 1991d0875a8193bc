(** Gmsh files: what the patterns find in them. *)
From Coq Require Import Ascii String List Arith NArith ZArith Bool Lia.
From Verif Require Import M_base M_merge M_mesh M_text M_mmio S_text S_files P_text P_mmio P_formats M_regex M_files P_regex P_hst P_tec P_layout P_dat.
Import ListNotations.
Local Open Scope nat_scope.

(** ** Words that begin with a character found nowhere else *)
Lemma starts_in : forall w a t x, starts w (a ++ t) = true -> length a < length w -> hd_error t = Some x -> In x (skipn (length a) w).
Proof.
  induction w as [|c w IH]; intros a t x H L E; [cbn in L; lia|]. destruct a as [|d a].
  - destruct t as [|y t]; [discriminate|]. injection E as ->. cbn in H |- *. apply andb_prop in H as [H _]. apply Ascii.eqb_eq in H. auto.
  - cbn [app starts length skipn] in *. apply andb_prop in H as [_ H]. apply (IH a t); auto. lia.
Qed.
Lemma starts_prefix : forall w a t, starts w (a ++ t) = true -> length w <= length a -> exists r, a = w ++ r.
Proof.
  induction w as [|c w IH]; intros a t H L; [exists a; auto|]. destruct a as [|d a]; [cbn in L; lia|]. cbn [app starts length] in *. apply andb_prop in H as [E H]. apply Ascii.eqb_eq in E. subst d.
  destruct (IH a t H) as [r ->]; [lia|]. exists r. auto.
Qed.
Lemma in_skipn : forall A n (l : list A) x, In x (skipn n l) -> In x l. Proof. intros A n l x H. rewrite <- (firstn_skipn n l). apply in_or_app. auto. Qed.
(** Before a text that is empty or begins with this character *)
Definition fresh (d : ascii) (t : text) : Prop := t = [] \/ exists t', t = d :: t'.
Lemma starts_fresh : forall d w h t, ~ In d w -> h <> [] -> ~ contains (d :: w) h -> fresh d t -> starts (d :: w) (h ++ t) = false.
Proof.
  intros d w h t N H C F. destruct (starts (d :: w) (h ++ t)) eqn:S; auto. exfalso. destruct (le_lt_dec (length (d :: w)) (length h)) as [L|L].
  - destruct (starts_prefix _ _ _ S L) as [r ->]. apply C. exists [], r. auto.
  - destruct F as [->|[t' ->]].
    + rewrite app_nil_r in S. apply starts_split in S as [r ->]. rewrite app_length in L. lia.
    + apply (starts_in _ _ _ d) in S; auto. destruct h as [|x h]; [congruence|]. cbn [length skipn] in S. apply N. apply in_skipn in S. auto.
Qed.
Lemma absent_fresh : forall d w h t, ~ In d w -> ~ contains (d :: w) h -> fresh d t -> absent (d :: w) h t = true.
Proof.
  intros d w h t N. induction h as [|c h IH]; intros C F; auto. cbn [absent]. change (c :: h ++ t) with ((c :: h) ++ t). rewrite (starts_fresh d w (c :: h) t); auto; [|discriminate]. cbn [negb andb]. apply IH; auto.
  intros K. apply C. apply (contains_tail _ [c]). auto.
Qed.
Lemma absent_char : forall d w h t, ~ In d h -> absent (d :: w) h t = true.
Proof.
  intros d w h t. induction h as [|c h IH]; intros N; auto. cbn [absent starts]. rewrite (proj2 (Ascii.eqb_neq d c)); [|intros ->; apply N; left; auto].
  cbn [andb negb]. apply IH. intros K. apply N. right. auto.
Qed.
Lemma absent_nil : forall w h, w <> [] -> absent w h [] = true -> forall b r, scan (Seq (Word w) r) b h = None.
Proof.
  intros w h N A b r. rewrite <- (app_nil_r h), scan_absent by auto. cbn [scan]. rewrite (fails_seq (Word w) r); auto. apply fails_word. destruct w; [congruence|reflexivity].
Qed.

(** ** The last place where what follows succeeds *)
Lemma star_none : forall p v b t c X (k : state -> option X), holds p v -> stops p t -> (forall v1 v2, v = v1 ++ v2 -> k (St (fin b v1) (v2 ++ t) c) = None) -> run (Star (Chr p)) (St b (v ++ t) c) k = None.
Proof.
  intros p v. induction v as [|d v IH]; intros b t c X k H S F.
  - cbn [app]. rewrite star_chr_stop by auto. apply (F [] []). auto.
  - inversion H; subst. cbn [app]. rewrite star_chr by auto. rewrite IH; auto; [apply (F [] (d :: v)); auto|]. intros v1 v2 EV. apply (F (d :: v1) v2). cbn. subst. auto.
Qed.
Lemma star_last : forall p v u b t c X (k : state -> option X) x, holds p (u ++ v) -> stops p t -> (forall v1 v2, v = v1 ++ v2 -> v1 <> [] -> k (St (fin b (u ++ v1)) (v2 ++ t) c) = None) ->
  k (St (fin b u) (v ++ t) c) = Some x -> run (Star (Chr p)) (St b (u ++ v ++ t) c) k = Some x.
Proof.
  intros p v u. induction u as [|a u IH]; intros b t c X k x H S F E.
  - cbn [app fin fold_left] in *. destruct v as [|a v].
    + cbn [app]. rewrite star_chr_stop; auto.
    + inversion H; subst. cbn [app]. rewrite star_chr by auto. rewrite star_none; auto. intros v1 v2 EV. apply (F (a :: v1) v2); [cbn; subst; auto|discriminate].
  - cbn [app] in *. inversion H; subst. rewrite star_chr by auto. rewrite (IH (Some a) t c X k x); auto.
Qed.
Lemma holds_any : forall u, holds (fun _ => true) u. Proof. induction u; constructor; auto. Qed.

Lemma lang_chr : forall p x y, lang (Chr p) x y -> exists c t, snd x = c :: t /\ p c = true /\ y = (Some c, t). Proof. intros p x y L. inversion L; subst. cbn. eauto. Qed.

(** ** Sections *)
Definition block_tail (name : string) : re := seqs [Group 1 ds; Lit newline; Group 2 (Plus any_re); Word (s "$End" ++ s name)].
Lemma block_parts : forall name, msh_block name = Seq (Word (s "$" ++ s name ++ [newline])) (block_tail name). Proof. reflexivity. Qed.
Lemma after_end : forall name tl u v, ~ In "$"%char (s name) -> ~ contains (s "$End" ++ s name) tl -> (s "$End" ++ s name) ++ tl = u ++ v -> u <> [] -> starts (s "$End" ++ s name) v = false.
Proof.
  intros name tl u v N C E U. destruct u as [|d u]; [congruence|]. change (s "$End" ++ s name) with ("$"%char :: (s "End" ++ s name)) in *. set (w := s "End" ++ s name) in *.
  assert (W : ~ In "$"%char w) by (unfold w; intros K; apply in_app_or in K as [K|K]; [cbn in K; intuition discriminate|auto]).
  injection E as _ E. change (w ++ tl = u ++ v) in E. destruct (starts ("$"%char :: w) v) eqn:S; auto. exfalso. apply starts_split in S as [r ->].
  destruct (le_lt_dec (length w) (length u)) as [L|L].
  - apply C. exists (skipn (length w) u), r. assert (Q : skipn (length w) (w ++ tl) = skipn (length w) (u ++ ("$"%char :: w) ++ r)) by (rewrite E; auto).
    rewrite skipn_app, skipn_all, Nat.sub_diag in Q. cbn [skipn app] in Q. rewrite Q, skipn_app. rewrite (proj2 (Nat.sub_0_le _ _) L). reflexivity.
  - apply W. assert (Q : nth_error (w ++ tl) (length u) = Some "$"%char) by (rewrite E, nth_error_app2, Nat.sub_diag by lia; auto). rewrite nth_error_app1 in Q by lia. apply nth_error_In in Q. auto.
Qed.
Lemma block_here : forall name b cnt nd tl, cnt <> [] -> all_digits cnt -> nd <> [] -> ~ In "$"%char (s name) -> ~ contains (s "$End" ++ s name) tl ->
  takes (msh_block name) (St b ((s "$" ++ s name ++ [newline]) ++ cnt ++ [newline] ++ nd ++ (s "$End" ++ s name) ++ tl) [])
    (St (fin None (s "$End" ++ s name)) tl [(2, nd); (1, cnt)]).
Proof.
  intros name b cnt nd tl C D ND N T. rewrite block_parts. eapply takes_seq; [apply eats_word|]. unfold block_tail. cbn [seqs fold_right].
  eapply takes_seq; [apply takes_group; [reflexivity|]; apply eats_ds; auto; reflexivity|].
  eapply takes_seq; [apply (eats_lit _ newline)|]. intros X k x E. destruct nd as [|a nd]; [congruence|]. set (w := s "$End" ++ s name) in *.
  change (run (Star any_re) (St (Some a) (nd ++ w ++ tl) [(1, cnt)]) (fun st' => run (Word w) (St (prev st') (rest st') ((2, between (a :: nd ++ w ++ tl) (rest st')) :: caps st')) k) = Some x).
  pose proof (star_last (fun _ => true) (w ++ tl) nd (Some a) [] [(1, cnt)] X) as Q. rewrite app_nil_r in Q. apply Q; clear Q; [apply holds_any|exact I| |].
  - intros v1 v2 EV NV. cbn [rest prev caps]. apply fails_word. rewrite app_nil_r. apply (after_end name tl v1); auto.
  - cbn [rest prev caps]. change (a :: nd ++ w ++ tl) with ((a :: nd) ++ w ++ tl). rewrite (between_app (a :: nd) (w ++ tl)). apply (eats_word w _ tl).
    assert (F : fin (fin (Some a) nd) w = fin None w) by (apply fin_some; discriminate). rewrite F. exact E.
Qed.
Lemma block_found : forall name h cnt nd tl, cnt <> [] -> all_digits cnt -> nd <> [] -> ~ In "$"%char (s name) -> ~ contains (s "$End" ++ s name) tl ->
  absent (s "$" ++ s name ++ [newline]) h ((s "$" ++ s name ++ [newline]) ++ cnt ++ [newline] ++ nd ++ (s "$End" ++ s name) ++ tl) = true ->
  exists m, search (msh_block name) (h ++ (s "$" ++ s name ++ [newline]) ++ cnt ++ [newline] ++ nd ++ (s "$End" ++ s name) ++ tl) = Some m /\ group 2 m = nd.
Proof.
  intros name h cnt nd tl C D ND N T A. unfold search. rewrite block_parts. rewrite scan_absent by auto. rewrite <- block_parts.
  pose proof (block_here name (fin None h) cnt nd tl C D ND N T) as H.
  assert (R : exists u, (s "$" ++ s name ++ [newline]) ++ cnt ++ [newline] ++ nd ++ (s "$End" ++ s name) ++ tl = u ++ tl) by (eexists; rewrite !app_assoc; reflexivity).
  destruct R as [u R]. rewrite R in *. rewrite (scan_here _ _ _ _ _ _ H). cbn [option_map fst]. eexists. split; reflexivity.
Qed.
Lemma block_empty : forall name h cnt tl, cnt <> [] -> all_digits cnt -> ~ In "$"%char (s name) -> ~ contains (s "$End" ++ s name) tl ->
  absent (s "$" ++ s name ++ [newline]) h ((s "$" ++ s name ++ [newline]) ++ cnt ++ [newline] ++ (s "$End" ++ s name) ++ tl) = true ->
  absent (s "$" ++ s name ++ [newline]) tl [] = true -> (forall t, starts (s "$" ++ s name ++ [newline]) (s "$End" ++ t) = false) ->
  search (msh_block name) (h ++ (s "$" ++ s name ++ [newline]) ++ cnt ++ [newline] ++ (s "$End" ++ s name) ++ tl) = None.
Proof.
  intros name h cnt tl C D N T A A2 NE. unfold search. rewrite block_parts. rewrite scan_absent by auto.
  assert (F : forall c, fails (Seq (Word (s "$" ++ s name ++ [newline])) (block_tail name)) (St (fin None h) ((s "$" ++ s name ++ [newline]) ++ cnt ++ [newline] ++ (s "$End" ++ s name) ++ tl) c)).
  { intros c. apply fails_lang. intros p L. apply lang_seq in L as (z & L1 & L). apply lang_word in L1 as (t1 & E1 & ->). cbn [pos_of rest snd fst] in E1. apply app_inv_head in E1. subst t1.
    unfold block_tail in L. cbn [seqs fold_right] in L. apply lang_seq in L as (z & L1 & L). apply lang_group, lang_plus_class in L1 as (d & E1 & _ & HD). cbn [snd] in E1.
    apply lang_seq in L as (z2 & L1 & L). unfold Lit in L1. apply lang_chr in L1 as (c0 & t0 & E2 & Q & ->). apply Ascii.eqb_eq in Q. subst c0. rewrite E2 in E1.
    assert (d = cnt /\ t0 = (s "$End" ++ s name) ++ tl) as [-> ->].
    { clear -E1 HD D. revert cnt D E1. induction d as [|x d IH]; intros cnt D E1.
      - destruct cnt as [|y cnt]; cbn in E1; [injection E1 as <-; auto|]. injection E1 as -> _. inversion D; subst. discriminate.
      - inversion HD; subst. destruct cnt as [|y cnt]; cbn in E1; [injection E1 as <- _; discriminate|]. injection E1 as -> E1. inversion D; subst. destruct (IH H2 cnt H4 E1) as [-> ->]. auto. }
    apply lang_seq in L as (z3 & L2 & L). apply lang_group in L2. unfold Plus in L2. apply lang_seq in L2 as (z4 & L2 & L3). unfold any_re in L2. apply lang_chr in L2 as (c0 & t2 & Q2 & _ & ->). cbn [snd] in Q2. apply lang_star_class in L3 as (u & EU & _ & _). cbn [snd] in EU.
    apply lang_seq in L as (z5 & L & _). apply lang_word in L as (t5 & E5 & _). rewrite E5 in EU.
    assert (S : starts (s "$End" ++ s name) ((s "$End" ++ s name) ++ t5) = false) by (apply (after_end name tl (c0 :: u)); auto; [rewrite Q2, EU; auto|discriminate]). rewrite starts_app in S. discriminate. }
  set (W := s "$" ++ s name ++ [newline]) in *. set (w := s "$End" ++ s name) in *. set (r := Seq (Word W) (block_tail name)) in *.
  assert (WS : exists W', W = "$"%char :: W') by (eexists; reflexivity). destruct WS as [W' WS].
  rewrite WS at 1. cbn [app scan]. change ("$"%char :: W' ++ cnt ++ newline :: w ++ tl) with (("$"%char :: W') ++ cnt ++ [newline] ++ w ++ tl). rewrite <- WS. rewrite F.
  assert (SK : forall b, scan r b (W' ++ cnt ++ [newline] ++ w ++ tl) = None); [|apply (f_equal (option_map fst) (SK (Some "$"%char)))].
  intros b. replace (W' ++ cnt ++ [newline] ++ w ++ tl) with ((W' ++ cnt ++ [newline] ++ w) ++ tl) by (rewrite <- !app_assoc; auto).
  unfold r. apply absent_nil; [rewrite WS; discriminate|]. rewrite absent_app, A2, andb_true_r, app_nil_r.
  assert (NW : ~ In "$"%char W') by (injection WS as <-; intros K; apply in_app_or in K as [K|[K|[]]]; [auto|discriminate]).
  rewrite !absent_app, WS. rewrite absent_char by auto. cbn [andb].
  rewrite absent_char by (intros K; apply (proj1 (Forall_forall _ _) D) in K; discriminate). cbn [andb]. rewrite absent_char by (cbn; intuition discriminate). cbn [andb].
  unfold w. rewrite absent_app. rewrite (absent_char "$"%char W' (s name)) by auto. rewrite andb_true_r. change (s "$End") with ("$"%char :: s "End"). cbn [absent]. rewrite absent_char by (cbn; intuition discriminate).
  rewrite andb_true_r, negb_true_iff. rewrite <- WS. apply (NE (s name ++ tl)).
Qed.

(** ** The version *)
Lemma version_here : forall b d1 c d2 more tl, is_digit d1 = true -> is_digit d2 = true -> ~ contains (s "$EndMeshFormat") tl ->
  takes msh_version (St b (s "$MeshFormat" ++ [newline] ++ [d1; c; d2] ++ more ++ [newline] ++ s "$EndMeshFormat" ++ tl) [])
    (St (fin None (s "$EndMeshFormat")) tl [(1, [d1; c; d2])]).
Proof.
  intros b d1 c d2 more tl D1 D2 T. unfold msh_version. cbn [seqs fold_right]. eapply takes_seq; [apply eats_word|]. eapply takes_seq; [apply (eats_lit _ newline)|].
  eapply takes_seq; [apply takes_group; [reflexivity|]; eapply takes_seq; [apply (eats_chr _ is_digit d1); auto|]; eapply takes_seq; [apply (eats_chr _ (fun _ => true) c); auto|]; eapply takes_seq; [apply (eats_chr _ is_digit d2); auto|apply takes_empty]|].
  intros X k x E. set (w := s "$EndMeshFormat") in *.
  change (run (Star any_re) (St (Some d2) (more ++ (newline :: w) ++ tl) [(1, [d1; c; d2])]) (fun st' => run (Seq (Lit newline) (Word w)) st' k) = Some x).
  pose proof (star_last (fun _ => true) ((newline :: w) ++ tl) more (Some d2) [] [(1, [d1; c; d2])] X) as Q. rewrite app_nil_r in Q. apply Q; clear Q; [apply holds_any|exact I| |].
  - intros v1 v2 EV NV. rewrite app_nil_r. destruct v1 as [|a v1]; [congruence|]. destruct v2 as [|a2 v2]; [reflexivity|]. cbn [run Lit rest prev caps]. destruct (Ascii.eqb newline a2) eqn:EN; auto.
    apply fails_word. injection EV as _ EV. apply (after_end "MeshFormat" tl (v1 ++ [a2])); auto; [cbn; intuition discriminate|rewrite <- (app_assoc v1); exact EV|destruct v1; discriminate].
  - rewrite run_seq. apply (eats_lit _ newline (w ++ tl)). cbn [fin fold_left]. apply (eats_word w _ tl). exact E.
Qed.
Lemma version_found : forall h d1 c d2 more tl, is_digit d1 = true -> is_digit d2 = true -> ~ contains (s "$EndMeshFormat") tl ->
  absent (s "$MeshFormat") h (s "$MeshFormat" ++ [newline] ++ [d1; c; d2] ++ more ++ [newline] ++ s "$EndMeshFormat" ++ tl) = true ->
  exists m, search msh_version (h ++ s "$MeshFormat" ++ [newline] ++ [d1; c; d2] ++ more ++ [newline] ++ s "$EndMeshFormat" ++ tl) = Some m /\ group 1 m = [d1; c; d2].
Proof.
  intros h d1 c d2 more tl D1 D2 T A. unfold search. pose proof (version_here (fin None h) d1 c d2 more tl D1 D2 T) as H.
  assert (R : exists u, s "$MeshFormat" ++ [newline] ++ [d1; c; d2] ++ more ++ [newline] ++ s "$EndMeshFormat" ++ tl = u ++ tl) by (eexists; rewrite !app_assoc; reflexivity).
  assert (S : scan msh_version None (h ++ s "$MeshFormat" ++ [newline] ++ [d1; c; d2] ++ more ++ [newline] ++ s "$EndMeshFormat" ++ tl) =
    scan msh_version (fin None h) (s "$MeshFormat" ++ [newline] ++ [d1; c; d2] ++ more ++ [newline] ++ s "$EndMeshFormat" ++ tl)) by (apply (scan_absent (s "$MeshFormat")); auto).
  rewrite S. destruct R as [u R]. rewrite R in *. rewrite (scan_here _ _ _ _ _ _ H). cbn [option_map fst]. eexists. split; reflexivity.
Qed.

(** ** Elements *)
Definition spaced (l : list nat) : text := concat (map (fun m => " "%char :: digits (N.of_nat m)) l).
Lemma spaced_stops : forall l t, stops is_digit (spaced l ++ newline :: t). Proof. intros [|m l] t; reflexivity. Qed.
Lemma spaced_word : forall b m l t, eats b (Seq space_re ds) (" "%char :: digits (N.of_nat m)) (spaced l ++ newline :: t).
Proof.
  intros b m l t. apply (eats_seq b space_re ds [" "%char] (digits (N.of_nat m))); [apply (eats_chr _ is_space); reflexivity|]. apply eats_ds; [apply digits_nonempty|apply digits_chars|apply spaced_stops].
Qed.
Lemma lazy_words : forall l b t c X (k : state -> option X) x, k (St (fin b (spaced l)) (newline :: t) c) = Some x ->
  run (Lazy (Seq space_re ds)) (St b (spaced l ++ newline :: t) c) (fun st => run (Seq Eol Empty) st k) = Some x.
Proof.
  induction l as [|m l IH]; intros b t c X k x E; rewrite lazy_unfold.
  - cbn [spaced map concat app run rest]. rewrite (Ascii.eqb_refl newline). cbn in E. rewrite E. auto.
  - assert (Q : run (Seq Eol Empty) (St b (spaced (m :: l) ++ newline :: t) c) k = None) by reflexivity. rewrite Q. clear Q.
    assert (R : spaced (m :: l) ++ newline :: t = (" "%char :: digits (N.of_nat m)) ++ spaced l ++ newline :: t) by (unfold spaced; cbn [map concat]; rewrite <- app_assoc; auto). rewrite R.
    apply (spaced_word b m l t c X). unfold further. cbn [rest]. rewrite (proj2 (Nat.ltb_lt _ _)) by (rewrite (app_length (_ :: _)); cbn [length]; lia). apply IH.
    unfold spaced in E. cbn [map concat] in E. rewrite fin_app in E. exact E.
Qed.
Lemma element_here : forall ty ch b n m l t, digits (N.of_nat ty) = [ch] -> at_line_start b ->
  takes (msh_element ch) (St b (numbers_line n (ty :: m :: l) ++ newline :: t) []) (St (fin b (numbers_line n (ty :: m :: l))) (newline :: t) [(1, numbers_line n (ty :: m :: l))]).
Proof.
  intros ty ch b n m l t C B. unfold msh_element. apply takes_group; [reflexivity|]. cbn [seqs fold_right].
  assert (R : numbers_line n (ty :: m :: l) = digits (N.of_nat n) ++ [" "%char] ++ [ch] ++ (" "%char :: digits (N.of_nat m)) ++ spaced l) by (unfold numbers_line, spaced; cbn [map concat]; rewrite C; reflexivity).
  rewrite R. rewrite !fin_app, <- !app_assoc. eapply takes_seq; [apply (eats_bol b _ B)|]. cbn [fin fold_left app].
  eapply takes_seq; [apply eats_ds; [apply digits_nonempty|apply digits_chars|reflexivity]|].
  eapply takes_seq; [apply (eats_chr _ is_space " "%char); reflexivity|]. eapply takes_seq; [apply (eats_lit _ ch)|].
  intros X k x E. rewrite !run_seq. cbn [fin fold_left app]. apply (spaced_word (Some ch) m l t). apply lazy_words. exact E.
Qed.
Lemma element_needs_start : forall ch b t c, ~ at_line_start b -> fails (msh_element ch) (St b t c). Proof. intros ch b t c N. apply fails_group, fails_bol_seq. auto. Qed.
Lemma element_not : forall ty ch b n k l t c, digits (N.of_nat ty) = [ch] -> k <> ty -> fails (msh_element ch) (St b (numbers_line n (k :: l) ++ newline :: t) c).
Proof.
  intros ty ch b n k l t c C N. apply fails_group. cbn [seqs fold_right]. apply fails_bol_then. unfold numbers_line. cbn [map concat]. rewrite <- app_assoc.
  apply fails_plus; [apply digits_nonempty|apply digits_chars|reflexivity| |].
  - intros b' a t' D. apply fails_seq, fails_chr. cbn. apply digit_not_space. auto.
  - assert (Q : forall X (q : state -> option X), run (Seq (Lit ch) (Seq (Seq (Seq space_re ds) (Lazy (Seq space_re ds))) (Seq Eol Empty)))
      (St (Some " "%char) ((digits (N.of_nat k) ++ concat (map (fun m => " "%char :: digits (N.of_nat m)) l)) ++ newline :: t) c) q = None); [|intros X q; cbn [app]; apply Q].
    intros X q. rewrite <- app_assoc. pose proof (digits_chars (N.of_nat k)) as D. destruct (digits (N.of_nat k)) as [|a [|a2 r]] eqn:E.
    + destruct (digits_nonempty _ E).
    + cbn [app run rest Lit]. destruct (Ascii.eqb ch a) eqn:EA; auto. apply Ascii.eqb_eq in EA. subst a. rewrite <- C in E. apply digits_inj in E. contradiction.
    + cbn [app run rest Lit]. destruct (Ascii.eqb ch a) eqn:EA; auto. cbn [run space_re rest caps]. inversion D; subst. inversion H2; subst. rewrite digit_not_space; auto.
Qed.
Lemma numbers_nonl : forall n l, nonl (numbers_line n l).
Proof.
  intros n l. unfold numbers_line. apply nonl_app; [apply digits_nonl|]. induction l as [|m l IH]; [constructor|]. cbn [map concat]. apply (nonl_app (" "%char :: digits _)); auto. constructor; [reflexivity|apply digits_nonl].
Qed.
Lemma numbers_filled : forall n l, numbers_line n l <> []. Proof. intros n l E. unfold numbers_line in E. apply app_eq_nil in E as [E _]. apply (digits_nonempty _ E). Qed.
Lemma elements_found : forall ty ch els b, digits (N.of_nat ty) = [ch] -> at_line_start b ->
  map (group 1) (all_matches (msh_element ch) b (concat (map line (map element_line els)))) = map element_line (filter (fun e => el_type e =? ty) els).
Proof.
  intros ty ch els. induction els as [|e els IH]; intros b C B.
  - rewrite all_none; auto. apply scan_none. intros u v E. symmetry in E. apply app_eq_nil in E as [-> ->]. apply fails_group. cbn [seqs fold_right fin fold_left]. apply fails_bol_then, fails_seq, fails_seq, fails_chr. exact I.
  - cbn [map concat filter]. change (line (element_line e)) with (element_line e ++ [newline]). rewrite <- app_assoc. cbn [app]. set (T := concat (map line (map element_line els))).
    destruct (el_type e =? ty) eqn:K.
    + apply Nat.eqb_eq in K. assert (R : element_line e = numbers_line (el_number e) (ty :: length (el_tags e) :: el_tags e ++ el_nodes e)) by (unfold element_line; rewrite K; reflexivity).
      rewrite R. erewrite all_step; [|apply scan_here; apply element_here; auto|apply numbers_filled|rewrite app_length; pose proof (numbers_filled (el_number e) (ty :: length (el_tags e) :: el_tags e ++ el_nodes e)); destruct (numbers_line _ _); [congruence|cbn [length]; lia]].
      cbn [map]. f_equal; [symmetry; exact R|]. rewrite <- (IH (Some newline)); auto; [|right; auto]. fold T. f_equal. apply all_scan; [|cbn; lia].
      cbn [scan]. rewrite element_needs_start; auto. apply fin_not_start; [apply numbers_filled|apply numbers_nonl].
    + apply Nat.eqb_neq in K. rewrite <- (IH (Some newline)); auto; [|right; auto]. f_equal. apply all_scan; [|rewrite app_length; cbn [length]; fold T; lia]. fold T.
      apply scan_line; [apply numbers_nonl|intros Q; destruct (numbers_filled _ _ Q)|apply (element_not ty); auto|intros; apply element_needs_start; auto].
Qed.

(** ** Whole files *)
Definition opening (name : string) : text := s "$" ++ s name ++ [newline].
Definition closing (name : string) : text := s "$End" ++ s name.
Definition count_text {A} (l : list A) : text := digits (N.of_nat (length l)).
Definition body (ls : list text) : text := concat (map line ls).
Lemma file_pieces : forall o0 format o1 nodes o2 els o3, msh_file o0 format o1 nodes o2 els o3 =
  o0 ++ s "$MeshFormat" ++ [newline] ++ format ++ [newline] ++ s "$EndMeshFormat" ++ o1 ++ opening "Nodes" ++ count_text nodes ++ [newline] ++ body nodes ++ closing "Nodes" ++ o2 ++
  opening "Elements" ++ count_text els ++ [newline] ++ body (map element_line els) ++ closing "Elements" ++ o3.
Proof.
  intros. unfold msh_file, msh_section, opening, closing, count_text, body. rewrite map_length. repeat (progress cbn [app] || rewrite <- !app_assoc). reflexivity.
Qed.
Definition plain (t : text) : Prop := ~ In "$"%char t.
Lemma plain_digits : forall n, plain (digits n). Proof. intros n K. apply (proj1 (Forall_forall _ _) (digits_chars n)) in K. discriminate. Qed.
Lemma plain_app : forall a b, plain a -> plain b -> plain (a ++ b). Proof. intros a b A B K. apply in_app_or in K as [K|K]; auto. Qed.
Lemma plain_body : forall ls, Forall plain ls -> plain (body ls).
Proof. intros ls H. induction H as [|l ls A _ IH]; [intros []|]. unfold body. cbn [map concat]. apply plain_app; auto. apply plain_app; auto. cbn. intros [K|[]]. discriminate. Qed.
Lemma plain_numbers : forall n l, plain (numbers_line n l).
Proof. intros n l. apply plain_app; [apply plain_digits|]. induction l as [|m l IH]; [intros []|]. cbn [map concat]. apply (plain_app (" "%char :: digits _)); auto. intros [K|K]; [discriminate|apply (plain_digits _ K)]. Qed.
Lemma plain_elements : forall els, plain (body (map element_line els)). Proof. intros els. apply plain_body. apply Forall_map_intro. intros e _. apply plain_numbers. Qed.
Lemma other_not : forall o w, other_text o -> In w msh_words -> ~ contains w o. Proof. intros o w H I. apply (proj1 (Forall_forall _ _) H w I). Qed.
Lemma body_filled : forall l ls, body (l :: ls) <> []. Proof. intros l ls E. unfold body in E. cbn [map concat] in E. apply app_eq_nil in E as [E _]. apply app_eq_nil in E as [_ E]. discriminate. Qed.
Lemma absent_plain : forall d w h t, d = "$"%char -> plain h -> absent (d :: w) h t = true. Proof. intros d w h t -> P. apply absent_char. auto. Qed.
Lemma fresh_cons : forall d t, fresh d (d :: t). Proof. right. eauto. Qed.
Ltac leaf :=
  match goal with
  | |- absent _ ?h _ = true =>
      first [ reflexivity
            | apply absent_plain; [reflexivity|]; first [assumption|apply plain_digits|apply plain_elements|apply plain_body; assumption]
            | apply absent_fresh; [cbn; intuition discriminate|apply other_not; [assumption|cbn; tauto]|first [left; reflexivity|apply fresh_cons]] ]
  end.
Ltac pieces := repeat (rewrite absent_app; apply andb_true_intro; split); leaf.
Ltac not_in := repeat (apply absent_contains; [discriminate|leaf|]); apply other_not; [assumption|cbn; tauto].
Section Whole.
  Variables o0 format o1 o2 o3 : text.
  Variable nodes : list text.
  Variable els : list element.
  Hypothesis H0 : other_text o0.
  Hypothesis H1 : other_text o1.
  Hypothesis H2 : other_text o2.
  Hypothesis H3 : other_text o3.
  Hypothesis HF : plain format.
  Hypothesis HN : Forall plain nodes.
  Let file := msh_file o0 format o1 nodes o2 els o3.
  Lemma nodes_block : nodes <> [] -> exists m, search (msh_block "Nodes") file = Some m /\ group 2 m = body nodes.
  Proof.
    intros N. unfold file. rewrite file_pieces.
    assert (R : forall t, o0 ++ s "$MeshFormat" ++ [newline] ++ format ++ [newline] ++ s "$EndMeshFormat" ++ o1 ++ t = (o0 ++ s "$MeshFormat" ++ [newline] ++ format ++ [newline] ++ s "$EndMeshFormat" ++ o1) ++ t) by (intros; rewrite <- !app_assoc; auto).
    rewrite R. apply (block_found "Nodes"); [apply digits_nonempty|apply digits_chars|destruct nodes; [congruence|apply body_filled]|cbn; intuition discriminate|not_in|pieces].
  Qed.
  Definition before_nodes : text := o0 ++ s "$MeshFormat" ++ [newline] ++ format ++ [newline] ++ s "$EndMeshFormat" ++ o1.
  Definition before_elements : text := before_nodes ++ opening "Nodes" ++ count_text nodes ++ [newline] ++ body nodes ++ closing "Nodes" ++ o2.
  Lemma elements_pieces : file = before_elements ++ opening "Elements" ++ count_text els ++ [newline] ++ body (map element_line els) ++ closing "Elements" ++ o3.
  Proof. unfold file. rewrite file_pieces. unfold before_elements, before_nodes. rewrite <- !app_assoc. auto. Qed.
  Lemma nodes_pieces : file = before_nodes ++ opening "Nodes" ++ count_text nodes ++ [newline] ++ body nodes ++ closing "Nodes" ++ o2 ++ opening "Elements" ++ count_text els ++ [newline] ++ body (map element_line els) ++ closing "Elements" ++ o3.
  Proof. unfold file. rewrite file_pieces. unfold before_nodes. rewrite <- !app_assoc. auto. Qed.
  Lemma elements_block : els <> [] -> exists m, search (msh_block "Elements") file = Some m /\ group 2 m = body (map element_line els).
  Proof.
    intros N. rewrite elements_pieces. apply (block_found "Elements"); [apply digits_nonempty|apply digits_chars|destruct els; [congruence|apply body_filled]|cbn; intuition discriminate|not_in|].
    unfold before_elements, before_nodes. pieces.
  Qed.
  Lemma no_nodes_block : nodes = [] -> search (msh_block "Nodes") file = None.
  Proof.
    intros N. rewrite nodes_pieces. replace (body nodes) with (@nil ascii) by (rewrite N; auto). rewrite app_nil_l.
    apply (block_empty "Nodes"); [apply digits_nonempty|apply digits_chars|cbn; intuition discriminate|not_in|unfold before_nodes; pieces|pieces|reflexivity].
  Qed.
  Lemma no_elements_block : els = [] -> search (msh_block "Elements") file = None.
  Proof.
    intros N. rewrite elements_pieces. replace (body (map element_line els)) with (@nil ascii) by (rewrite N; auto). rewrite app_nil_l.
    apply (block_empty "Elements"); [apply digits_nonempty|apply digits_chars|cbn; intuition discriminate|not_in|unfold before_elements, before_nodes; pieces|pieces|reflexivity].
  Qed.
  Lemma version_block : forall d1 c d2 more, format = [d1; c; d2] ++ more -> is_digit d1 = true -> is_digit d2 = true -> exists m, search msh_version file = Some m /\ group 1 m = [d1; c; d2].
  Proof.
    intros d1 c d2 more E D1 D2. unfold file. rewrite file_pieces. rewrite E. rewrite <- (app_assoc [d1; c; d2]).
    apply version_found; auto; [not_in|pieces].
  Qed.
End Whole.

(** ** Reading *)
Lemma words_cut : forall l t, words (l ++ newline :: t) = words l ++ words t.
Proof.
  intros l t. assert (G : forall acc, words_from acc (l ++ newline :: t) = words_from acc l ++ words_from [] t); [|apply G]. induction l as [|c l IH]; intros acc.
  - cbn [app words_from]. change (is_space newline) with true. cbn iota. destruct acc; reflexivity.
  - cbn [app words_from]. destruct (is_space c); [|apply IH]. destruct acc; cbn [app]; rewrite IH; auto.
Qed.
Lemma words_body : forall ls, words (body ls) = concat (map words ls).
Proof. induction ls as [|l ls IH]; [reflexivity|]. unfold body. cbn [map concat]. unfold line at 1. rewrite <- app_assoc. cbn [app]. rewrite words_cut. f_equal. apply IH. Qed.
Lemma numbers_words : forall n l, words (numbers_line n l) = map (fun m => digits (N.of_nat m)) (n :: l).
Proof.
  intros n l. cbn [map]. unfold numbers_line.
  assert (A : Forall apart (map (fun m => ([" "%char], digits (N.of_nat m))) l)). { apply Forall_map_intro. intros m _. repeat split; first [discriminate|apply digits_word|repeat constructor]. }
  assert (J : concat (map (fun m => " "%char :: digits (N.of_nat m)) l) = join (map (fun m => ([" "%char], digits (N.of_nat m))) l)) by (unfold join; rewrite map_map; reflexivity).
  rewrite J. destruct (words_apart _ A) as [W S]. rewrite words_word; [|apply digits_word|exact S]. rewrite W, map_map. reflexivity.
Qed.
Lemma numbers_read : forall n l, mapM to_int (words (numbers_line n l)) = Ok (map Z.of_nat (n :: l)).
Proof. intros n l. rewrite numbers_words. apply mapM_all. intros m _. apply to_int_of_nat. Qed.
Lemma final_app : forall A k (a b : list A), length b = k -> final k (a ++ b) = b.
Proof. intros A k a b L. unfold final. rewrite app_length, L. replace (length a + k - k) with (length a) by lia. rewrite skipn_app, skipn_all, Nat.sub_diag. reflexivity. Qed.
Definition numbered_face (e : element) : list Z := map Z.of_nat (match el_nodes e with [a; b; c] => [a; b; c; a] | l => l end).
Section Load.
  Variable dbl : N -> Z -> N * positive.
  Lemma nodes_rows : forall nodes ps, Forall2 (node_line dbl) nodes ps -> exists rows, mapM (mapM (to_float dbl)) (map words nodes) = Ok rows /\ Forall (fun r => length r = 4) rows /\ map (skipn 1) rows = ps.
  Proof.
    intros nodes ps H. induction H as [|l p nodes ps A H IH]; [exists []; repeat split; auto|]. destruct IH as (rows & R & L & S). destruct A as (_ & n & i & ws & W & I & LW & P).
    exists ((i :: p) :: rows). cbn [map mapM]. rewrite W. cbn [mapM]. rewrite I. cbn [bind]. rewrite P. cbn [bind]. rewrite R. cbn [bind]. split; [reflexivity|]. split; [|change (p :: map (skipn 1) rows = p :: ps); rewrite S; reflexivity].
    constructor; auto. cbn [length]. f_equal. rewrite <- LW. clear -P. revert p P. induction ws as [|w ws IH]; intros p P; cbn [mapM] in P; [injection P as <-; auto|]. destruct (to_float dbl w); [|discriminate]. cbn [bind] in P. destruct (mapM (to_float dbl) ws); [|discriminate]. injection P as <-. cbn [length]. f_equal. apply IH. auto.
  Qed.
  Lemma element_read : forall e, mapM to_int (words (element_line e)) = Ok (map Z.of_nat ([el_number e; el_type e; length (el_tags e)] ++ el_tags e) ++ map Z.of_nat (el_nodes e)).
  Proof. intros e. unfold element_line. rewrite numbers_read. rewrite <- map_app. reflexivity. Qed.
  Lemma load_msh22 : forall o0 format o1 nodes o2 els o3 ps, other_text o0 -> other_text o1 -> other_text o2 -> other_text o3 -> plain format ->
    Forall2 (node_line dbl) nodes ps -> nodes <> [] -> els <> [] -> Forall element_ok els ->
    load_MSH22 dbl (msh_file o0 format o1 nodes o2 els o3) = Ok (Arr2 ps, table (map element_face (surface els))).
  Proof.
    intros o0 format o1 nodes o2 els o3 ps H0 H1 H2 H3 HF HN NN NE HE.
    assert (P : Forall plain nodes) by (clear -HN; induction HN as [|l p ls ps A _ IH]; constructor; auto; apply A).
    destruct (nodes_block o0 format o1 o2 o3 nodes els H0 H1 H2 H3 HF P NN) as (ns & E1 & G1). destruct (elements_block o0 format o1 o2 o3 nodes els H0 H1 H2 H3 HF P NE) as (es & E2 & G2).
    unfold load_MSH22. rewrite E1, E2, G1, G2. rewrite words_body. destruct (nodes_rows nodes ps HN) as (rows & R & L & S). rewrite (mapM_concat _ _ (to_float dbl) _ rows R). cbn [bind].
    destruct (rows_of_concat _ 4 rows) as [R1 R2]; [intros l I; apply (proj1 (Forall_forall _ _) L l I)|]. unfold reshape_k, reshape. rewrite R2, Nat.div_mul by lia. rewrite Nat.eqb_refl. cbn [bind]. rewrite R1.
    assert (F : forall ty ch, digits (N.of_nat ty) = [ch] -> findall1 (msh_element ch) (body (map element_line els)) = map element_line (filter (fun e => el_type e =? ty) els)).
    { intros ty ch C. apply elements_found; [auto|left; auto]. }
    rewrite (F 2 "2"%char), (F 3 "3"%char) by reflexivity.
    rewrite (mapM_all _ _ _ _ element_line numbered_face).
    2: { intros e I. apply filter_In in I as [I K]. apply Nat.eqb_eq in K. apply (proj1 (Forall_forall _ _) HE) in I. destruct I as [I _]. specialize (I K). rewrite element_read. cbn [bind]. rewrite final_app by (rewrite map_length; auto).
         unfold numbered_face. destruct (el_nodes e) as [|a [|b [|c [|]]]]; try discriminate. reflexivity. }
    cbn [bind]. rewrite (mapM_all _ _ _ _ element_line numbered_face).
    2: { intros e I. apply filter_In in I as [I K]. apply Nat.eqb_eq in K. apply (proj1 (Forall_forall _ _) HE) in I. destruct I as [_ I]. specialize (I K). rewrite element_read. cbn [bind]. rewrite final_app by (rewrite map_length; auto).
         unfold numbered_face. destruct (el_nodes e) as [|a [|b [|c [|d [|]]]]]; try discriminate. reflexivity. }
    cbn [bind]. rewrite <- map_app. fold (surface els). rewrite (np_array_table _ _ numbered_face 4).
    2: { intros e I. apply in_app_or in I as [I|I]; apply filter_In in I as [I K]; apply Nat.eqb_eq in K; apply (proj1 (Forall_forall _ _) HE) in I; destruct I as [I2 I3]; unfold numbered_face;
         [specialize (I2 K)|specialize (I3 K)]; destruct (el_nodes e) as [|a [|b [|c [|d [|]]]]]; try discriminate; reflexivity. }
    cbn [bind]. rewrite S. do 2 f_equal. unfold table. destruct (surface els) as [|e l]; [reflexivity|]. cbn [map minus_one]. f_equal.
    change (map (map (fun i : Z => (i - 1)%Z)) (map numbered_face (e :: l)) = map element_face (e :: l)). rewrite map_map. apply map_ext. intros x. unfold numbered_face, element_face. rewrite map_map. reflexivity.
  Qed.
  Lemma load_msh_version : forall load41 o0 format o1 nodes o2 els o3 d1 c d2 more x, other_text o0 -> other_text o1 -> other_text o2 -> other_text o3 -> Forall plain nodes ->
    format = [d1; c; d2] ++ more -> is_digit d1 = true -> is_digit d2 = true -> to_float dbl [d1; c; d2] = Ok x ->
    load_MSH dbl load41 (msh_file o0 format o1 nodes o2 els o3) =
      (if negb (below x 2) && below x 3 then load_MSH22 dbl (msh_file o0 format o1 nodes o2 els o3)
       else if negb (below x 4) && below x 5 then load41 (msh_file o0 format o1 nodes o2 els o3) else Raise RuntimeError).
  Proof.
    intros load41 o0 format o1 nodes o2 els o3 d1 c d2 more x H0 H1 H2 H3 P F D1 D2 X.
    destruct (version_block o0 format o1 o2 o3 nodes els H0 H1 H2 H3 P d1 c d2 more F D1 D2) as (m & E & G). unfold load_MSH. rewrite E, G, X. reflexivity.
  Qed.
End Load.
