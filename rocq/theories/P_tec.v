(** Reading back what write_TEC writes. *)
From Coq Require Import Ascii String List Arith NArith ZArith Bool Lia.
From Verif Require Import M_base M_merge M_mesh M_text M_mmio S_text P_text P_mmio M_regex M_files P_regex P_hst.
Import ListNotations.
Local Open Scope nat_scope.

(** ** The pattern *)
Definition tec_middle : list re :=
  [ss; lit "N"; ss; lit "="; ss; Group 1 ds; ss; lit ","; ss; lit "E="; ss; Group 2 ds; ss; lit ","; ss;
   lit "F"; ss; lit "="; ss; lit "FEPOINT"; ss; lit ","; ss; lit "ET"; ss; lit "="; ss; lit "QUADRILATERAL"; sp].
Definition tec_points : re := seqs [Bol; AtLeast 3 (Seq ss real_re)].
Definition tec_cells : re := seqs [Bol; Star (Seq ss ds)].
Definition tec_back : list re := [Group 3 tec_points; sp; Group 4 tec_cells].
Lemma tec_parts : tec_data = Seq (lit "ZONE") (Seq (Star dot_re) (seqs (tec_middle ++ tec_back))). Proof. reflexivity. Qed.
Lemma lang_seqs_app : forall l1 l2 x y, lang (seqs (l1 ++ l2)) x y -> exists z, lang (seqs l1) x z /\ lang (seqs l2) z y.
Proof.
  induction l1 as [|r l1 IH]; intros l2 x y L; [exists x; split; [constructor|auto]|]. change (seqs ((r :: l1) ++ l2)) with (Seq r (seqs (l1 ++ l2))) in L.
  inversion L; subst. destruct (IH _ _ _ H4) as (z & L1 & L2). exists z. split; auto. econstructor; eauto.
Qed.

Lemma lang_seq : forall a b x y, lang (Seq a b) x y -> exists z, lang a x z /\ lang b z y. Proof. intros a b x y L. inversion L; subst. eauto. Qed.
Lemma lang_group : forall n a x y, lang (Group n a) x y -> lang a x y. Proof. intros n a x y L. inversion L; subst. auto. Qed.
Lemma lang_bol : forall x y, lang Bol x y -> y = x /\ at_line_start (fst x). Proof. intros x y L. inversion L; subst. auto. Qed.

(** ** A title cannot begin the data *)
Lemma nonl_prefix : forall u v h t, nonl u -> u ++ v = h ++ newline :: t -> exists h', h = u ++ h' /\ v = h' ++ newline :: t.
Proof.
  induction u as [|c u IH]; intros v h t N E; [exists h; auto|]. inversion N; subst. destruct h as [|d h]; cbn [app] in E.
  - injection E as -> E. discriminate.
  - injection E as -> E. destruct (IH _ _ _ H2 E) as (h' & -> & ->). exists h'. auto.
Qed.
Lemma ends_newline : forall u v h t, nonl h -> u <> [] -> fin None u = Some newline -> u ++ v = h ++ newline :: t -> (exists w, u = h ++ newline :: w /\ t = w ++ v).
Proof.
  intros u v h. revert u v. induction h as [|d h IH]; intros u v t N NU L E.
  - destruct u as [|c u]; [congruence|]. cbn [app] in E. injection E as -> E. exists u. auto.
  - destruct u as [|c u]; [congruence|]. cbn [app] in E. injection E as -> E. inversion N; subst. destruct u as [|c u].
    + cbn in L. injection L as ->. discriminate.
    + destruct (IH (c :: u) v t H2) as (w & E1 & E2); [discriminate|exact L|exact E|]. exists w. rewrite E1. auto.
Qed.
Lemma fin_some : forall u b, u <> [] -> fin b u = fin None u. Proof. intros [|c u] b N; [congruence|reflexivity]. Qed.
Lemma title_fails : forall h b t c, nonl h -> fails tec_data (St b (h ++ newline :: "V"%char :: t) c).
Proof.
  intros h b t c NH. apply fails_lang. intros p L. rewrite tec_parts in L. destruct (lang_seq _ _ _ _ L) as (z1 & L1 & L'). clear L.
  destruct (lang_word _ _ _ L1) as (t1 & E1 & ->). cbn [snd fst pos_of prev rest] in E1. symmetry in E1.
  destruct (nonl_prefix (s "ZONE") t1 h _ ltac:(repeat constructor) E1) as (h1 & -> & ->). clear E1 L1.
  apply Forall_app in NH as [_ NH]. destruct (lang_seq _ _ _ _ L') as (y & L2 & L). clear L'.
  destruct (lang_star_class _ _ _ L2) as (u & E & B & HU). cbn [snd] in E. symmetry in E.
  assert (NU : nonl u). { eapply Forall_impl; [|exact HU]. intros a A. apply negb_true_iff. auto. }
  destruct (nonl_prefix u (snd y) h1 _ NU E) as (h2 & -> & E2). clear E L2. destruct y as [b2 y]. cbn [fst snd] in *. subst y.
  apply Forall_app in NH as [_ NH]. destruct (lang_seqs_app _ _ _ _ L) as (z & L1 & L2). clear L.
  assert (A : avoids "V" (seqs tec_middle) = true) by (vm_compute; reflexivity).
  destruct (lang_requires "N"%char _ _ _ L1 ltac:(vm_compute; reflexivity)) as (u2 & E & BZ & I).
  destruct (lang_cut "V"%char _ A _ _ L1 b2 (h2 ++ [newline]) t) as (v & b' & -> & _); [rewrite <- app_assoc; reflexivity|]. cbn [fst snd] in *.
  assert (NE : u2 <> []) by (intros ->; destruct I).
  change (seqs tec_back) with (Seq (Group 3 (Seq Bol (seqs [AtLeast 3 (Seq ss real_re)]))) (seqs (tl tec_back))) in L2.
  destruct (lang_seq _ _ _ _ L2) as (z2 & L3 & _). apply lang_group in L3. destruct (lang_seq _ _ _ _ L3) as (z3 & L4 & L5). clear L3 L2.
  apply lang_bol in L4 as [-> Z]. cbn [fst] in Z. subst b'.
  destruct Z as [Z|Z]; [destruct (@exists_last _ u2 NE) as (? & ? & ->); rewrite fin_last in Z; discriminate|].
  rewrite fin_some in Z by auto. symmetry in E. destruct (ends_newline u2 _ h2 _ NH NE Z E) as (w & -> & E3).
  assert (K : w = [] /\ v = []). { apply (f_equal (@length ascii)) in E3. rewrite !app_length in E3. cbn [length] in E3. split; [destruct w|destruct v]; auto; cbn in E3; lia. }
  destruct K as [-> ->]. cbn [app] in *.
  assert (AR : avoids "V" (seqs [AtLeast 3 (Seq ss real_re)]) = true) by (vm_compute; reflexivity).
  destruct (lang_requires "."%char _ _ _ L5 ltac:(vm_compute; reflexivity)) as (u3 & EU & _ & I2).
  destruct (lang_cut "V"%char _ AR _ _ L5 _ [] t eq_refl) as (v & b3 & -> & _). cbn [snd] in EU.
  apply (f_equal (@length ascii)) in EU. rewrite !app_length in EU. cbn [length] in EU. destruct u3; [destruct I2|cbn in EU; lia].
Qed.

(** ** Tables of cells *)
Definition later (rows : list (list (text * text))) : list (text * text) :=
  flat_map (fun row => match row with [] => [([newline], [])] | (p, w) :: r => (newline :: p, w) :: r end) rows.
Lemma later_cons : forall row rows, later (row :: rows) = (match row with [] => [([newline], [])] | (p, w) :: r => (newline :: p, w) :: r end) ++ later rows. Proof. reflexivity. Qed.
Lemma join_app : forall a b, join (a ++ b) = join a ++ join b. Proof. intros. unfold join. rewrite map_app, concat_app. auto. Qed.
Lemma later_join : forall rows, concat (map (cons newline) (map join rows)) = join (later rows).
Proof.
  induction rows as [|row rows IH]; auto. cbn [map concat later flat_map]. fold (later rows). rewrite join_app, IH. f_equal. destruct row as [|[p w] r]; reflexivity.
Qed.
Lemma rows_join : forall row rows, join_lines (map join (row :: rows)) = join (row ++ later rows).
Proof.
  intros row rows. assert (E : newline :: join_lines (map join (row :: rows)) = newline :: join (row ++ later rows)).
  { rewrite join_lines_newline by discriminate. cbn [map concat]. rewrite join_app, later_join. reflexivity. }
  injection E. auto.
Qed.
Lemma later_words : forall rows, Forall (fun row => row <> []) rows -> map snd (later rows) = concat (map (map snd) rows).
Proof.
  induction rows as [|row rows IH]; intros H; auto. inversion H; subst. rewrite later_cons. cbn [map concat]. etransitivity; [apply map_app|]. f_equal; [|apply IH; auto]. destruct row as [|[p w] r]; [congruence|reflexivity].
Qed.
Lemma later_apart : forall rows, Forall (fun row => row <> []) rows -> Forall (Forall apart) rows -> Forall apart (later rows).
Proof.
  induction rows as [|row rows IH]; intros N H; [constructor|]. inversion H as [|? ? HA HB]; inversion N as [|? ? NA NB]; subst. rewrite later_cons. apply Forall_app. split; auto.
  destruct row as [|[p w] r]; [congruence|]. inversion HA as [|? ? HC HD]; subst. constructor; auto. destruct HC as (S & _ & W). split; [constructor; [reflexivity|auto]|]. split; [discriminate|auto].
Qed.
Definition cell_text (c : text * text) : text := fst c ++ snd c.
Lemma join_texts : forall cells, join cells = concat (map cell_text cells). Proof. reflexivity. Qed.
Lemma cell_filled : forall cells, Forall apart cells -> Forall (fun l => l <> []) (map cell_text cells).
Proof. intros cells H. apply Forall_map_intro. intros c I. apply (proj1 (Forall_forall _ _) H) in I as (_ & N & _). unfold cell_text. destruct (fst c); [congruence|discriminate]. Qed.
Lemma cell_stops : forall c t, apart c -> stops is_digit (cell_text c ++ t).
Proof. intros c t (S & N & _). unfold cell_text. rewrite <- app_assoc. apply stops_digit_space; auto. Qed.

(** ** White space before a line *)
Lemma gets_sp : forall r x t v t2 b cs, (forall b t c, ~ at_line_start b -> fails r (St b t c)) -> gets (Some newline) r x t cs -> x ++ t = v ++ t2 ->
  spaces v -> nonl v -> stops is_space t2 -> gets b (Seq sp r) (newline :: x) t cs.
Proof.
  intros r x t v t2 b cs F G E S NV S2. assert (G2 : gets b (Seq space_re (Seq ss r)) ([newline] ++ x) t cs).
  { apply gets_then; [apply eats_chr; reflexivity|]. apply (gets_back is_space r [] x t v t2); auto. intros v1 v2 c EV N1. apply F. cbn [app]. apply fin_not_start; auto. subst v. apply Forall_app in NV. tauto. }
  exact G2.
Qed.
Lemma points_need_start : forall r b t c, ~ at_line_start b -> fails (Seq (Group 3 tec_points) r) (St b t c).
Proof. intros. apply fails_seq, fails_group, fails_bol_seq. auto. Qed.
Lemma cells_need_start : forall r b t c, ~ at_line_start b -> fails (Seq (Group 4 tec_cells) r) (St b t c).
Proof. intros. apply fails_seq, fails_group, fails_bol_seq. auto. Qed.

(** ** Points *)
Definition point_row (v : vertex) : list (text * text) := map (sci_cell 16 6) (coordinates v).
Lemma point_text : forall v, fields3 (sci_field "E" 16 6) v = join (point_row v).
Proof. intros [[x y] z]. cbn [fields3 point_row coordinates map]. unfold join. cbn [map concat fst snd sci_cell cell]. rewrite app_nil_r. reflexivity. Qed.
Definition real_cell (c : text * text) : Prop := apart c /\ exists k x, snd c = scientific "E" k x.
Lemma point_cells : forall v, narrow 16 6 v -> Forall real_cell (point_row v).
Proof.
  intros v N. apply Forall_map_intro. intros x I. split; [apply cell_apart; [apply sci_word; auto|apply N; auto]|]. do 2 eexists. reflexivity.
Qed.
Lemma later_cells : forall rows, Forall (fun row => row <> []) rows -> Forall (Forall real_cell) rows -> Forall real_cell (later rows).
Proof.
  induction rows as [|row rows IH]; intros N H; [constructor|]. inversion H as [|? ? HA HB]; inversion N as [|? ? NA NB]; subst. rewrite later_cons. apply Forall_app. split; auto.
  destruct row as [|[p w] r]; [congruence|]. inversion HA as [|? ? HC HD]; subst. constructor; auto. destruct HC as ((S & _ & W) & E). split; auto. split; [constructor; [reflexivity|auto]|]. split; [discriminate|auto].
Qed.
Lemma eats_cell : forall b c t, real_cell c -> stops is_digit t -> eats b (Seq ss real_re) (cell_text c) t.
Proof.
  intros b [p w] t ((S & N & W) & k & x & E) ST. cbn [fst snd] in *. subst w. unfold cell_text. cbn [fst snd]. apply eats_seq; [|apply eats_real; auto].
  apply eats_star_class; auto. apply stops_space_word. auto.
Qed.
Lemma eats_points : forall b c1 c2 c3 cells t, at_line_start b -> Forall real_cell (c1 :: c2 :: c3 :: cells) -> stops is_digit t -> ~ In "."%char t ->
  eats b tec_points (join (c1 :: c2 :: c3 :: cells)) t.
Proof.
  intros b c1 c2 c3 cells t B H S ND. rewrite !Forall_cons_iff in H. destruct H as (H1 & H2 & H3 & H).
  assert (AP : Forall apart cells) by (eapply Forall_impl; [|exact H]; intros a A; apply A).
  assert (ST : forall c t, real_cell c -> stops is_digit (cell_text c ++ t)) by (intros c t' R; apply cell_stops, R).
  assert (SJ : forall cs, Forall real_cell cs -> stops is_digit (join cs ++ t)).
  { intros [|c cs] F; auto. inversion F; subst. unfold join. cbn [map concat]. fold (cell_text c). rewrite <- app_assoc. apply ST. auto. }
  unfold tec_points, seqs. cbn [fold_right]. change (join (c1 :: c2 :: c3 :: cells)) with ([] ++ join (c1 :: c2 :: c3 :: cells)).
  apply eats_seq; [apply eats_bol; auto|]. apply eats_last. unfold AtLeast.
  assert (E : join (c1 :: c2 :: c3 :: cells) = (cell_text c1 ++ cell_text c2 ++ cell_text c3) ++ join cells).
  { unfold join, cell_text. cbn [map concat]. rewrite <- !app_assoc. reflexivity. }
  rewrite E. apply eats_seq.
  - cbn [Times]. apply eats_seq; [apply eats_cell; auto; rewrite <- app_assoc; auto|]. apply eats_seq; apply eats_cell; auto.
  - rewrite join_texts. apply (eats_star_list (stops is_digit) (fun _ => True)); auto.
    + intros b0 l t0 I _ S0. apply in_map_iff in I as (c & <- & I). apply (proj1 (Forall_forall _ _) H) in I. split; [apply eats_cell; auto|]. split; auto.
    + apply cell_filled; auto.
    + intros b0 c _. apply (fails_requires "."%char); auto.
Qed.

(** ** Cells *)
Definition int_cell (w n : nat) : text * text := cell w (digits (N.of_nat n)).
Definition face_cells (f : face) : list (text * text) := map (int_cell 10) (corners (plus_one f)).
Lemma face_text : forall f, concat (map (int_field 10) (corners (plus_one f))) = join (face_cells f).
Proof. intros f. unfold join, face_cells. rewrite map_map. reflexivity. Qed.
Definition digit_cell (c : text * text) : Prop := apart c /\ all_digits (snd c).
Lemma face_cells_ok : forall f, ids_ok 10 f -> Forall digit_cell (face_cells f).
Proof.
  intros f H. pose proof (ids_fit f H) as F. apply Forall_map_intro. intros n I. split; [|apply digits_chars]. apply cell_apart; [apply digits_word|]. apply (proj1 (Forall_forall _ _) F n I).
Qed.
Lemma later_digit_cells : forall rows, Forall (fun row => row <> []) rows -> Forall (Forall digit_cell) rows -> Forall digit_cell (later rows).
Proof.
  induction rows as [|row rows IH]; intros N H; [constructor|]. inversion H as [|? ? HA HB]; inversion N as [|? ? NA NB]; subst. rewrite later_cons. apply Forall_app. split; auto.
  destruct row as [|[p w] r]; [congruence|]. inversion HA as [|? ? HC HD]; subst. constructor; auto. destruct HC as ((S & _ & W) & E). split; auto. split; [constructor; [reflexivity|auto]|]. split; [discriminate|auto].
Qed.
Lemma eats_digit_cell : forall b c t, digit_cell c -> stops is_digit t -> eats b (Seq ss ds) (cell_text c) t.
Proof.
  intros b [p w] t ((S & N & W) & D) ST. cbn [fst snd] in *. unfold cell_text. cbn [fst snd]. apply eats_seq; [|apply eats_ds; auto; apply W].
  apply eats_star_class; auto. apply stops_space_word. auto.
Qed.
Lemma eats_cells : forall b cells, at_line_start b -> Forall digit_cell cells -> eats b tec_cells (join cells) [newline].
Proof.
  intros b cells B H. assert (AP : Forall apart cells) by (eapply Forall_impl; [|exact H]; intros a A; apply A).
  unfold tec_cells, seqs. cbn [fold_right]. change (join cells) with ([] ++ join cells). apply eats_seq; [apply eats_bol; auto|]. apply eats_last.
  rewrite join_texts. apply (eats_star_list (stops is_digit) (fun _ => True)); auto.
  - intros b0 l t0 I _ S0. apply in_map_iff in I as (c & <- & I). apply (proj1 (Forall_forall _ _) H) in I. split; [apply eats_digit_cell; auto|]. split; auto. apply cell_stops, I.
  - apply cell_filled; auto.
  - reflexivity.
  - intros b0 c _. apply silent_fails. reflexivity.
Qed.

(** ** The data *)
Definition tec_tail : re := seqs (sp :: tec_back).
Lemma no_dot_cells : forall cells, Forall digit_cell cells -> ~ In "."%char (join cells).
Proof.
  intros cells H I. rewrite join_texts in I. apply in_concat in I as (l & L & I). apply in_map_iff in L as (c & <- & L). apply (proj1 (Forall_forall _ _) H) in L as ((S & _) & D).
  unfold cell_text in I. apply in_app_or in I as [I|I]; [apply (no_dot_spaces _ S I)|apply (no_dot_digits _ D I)].
Qed.
Lemma cell_split : forall c cells t, join (c :: cells) ++ t = fst c ++ snd c ++ join cells ++ t. Proof. intros. unfold join. cbn [map concat]. rewrite <- !app_assoc. auto. Qed.
Lemma gets_tail : forall b c1 c2 c3 pts d cells, Forall real_cell (c1 :: c2 :: c3 :: pts) -> nonl (fst c1) -> Forall digit_cell (d :: cells) -> nonl (fst d) ->
  gets b tec_tail (newline :: join (c1 :: c2 :: c3 :: pts) ++ newline :: join (d :: cells)) [newline] [(4, join (d :: cells)); (3, join (c1 :: c2 :: c3 :: pts))].
Proof.
  intros b c1 c2 c3 pts d cells HP N1 HC N2. unfold tec_tail, tec_back, seqs. cbn [fold_right].
  assert (R1 : apart c1) by (inversion HP; subst; apply H1). assert (R2 : apart d) by (inversion HC; subst; apply H1).
  set (P := join (c1 :: c2 :: c3 :: pts)). set (C := join (d :: cells)).
  assert (ND : ~ In "."%char ((newline :: C) ++ [newline])).
  { cbn [app]. intros [E|I]; [discriminate|]. apply in_app_or in I as [I|[I|[]]]; [|discriminate]. apply (no_dot_cells _ HC I). }
  eapply (gets_sp _ (P ++ newline :: C) [newline] (fst c1) (snd c1 ++ join (c2 :: c3 :: pts) ++ newline :: C ++ [newline])).
  - apply points_need_start.
  - change [(4, C); (3, P)] with ([(4, C)] ++ [(3, P)]). apply gets_group_then.
    + apply eats_points; [right; auto|auto|reflexivity|auto].
    + eapply (gets_sp _ C [newline] (fst d) (snd d ++ join cells ++ [newline])).
      * apply cells_need_start.
      * change [(4, C)] with ([] ++ [(4, C)]). rewrite <- (app_nil_r C) at 1. apply gets_group_then; [apply eats_cells; [right; auto|auto]|apply gets_eats, eats_empty].
      * unfold C. rewrite cell_split. reflexivity.
      * apply R2.
      * auto.
      * apply stops_space_word, R2.
  - unfold P. rewrite <- app_assoc, cell_split. reflexivity.
  - apply R1.
  - auto.
  - apply stops_space_word, R1.
Qed.
Lemma gets_tail_none : forall b c1 c2 c3 pts, Forall real_cell (c1 :: c2 :: c3 :: pts) -> nonl (fst c1) ->
  gets b tec_tail (newline :: join (c1 :: c2 :: c3 :: pts) ++ [newline; newline]) [] [(4, []); (3, join (c1 :: c2 :: c3 :: pts))].
Proof.
  intros b c1 c2 c3 pts HP N1. unfold tec_tail, tec_back, seqs. cbn [fold_right].
  assert (R1 : apart c1) by (inversion HP; subst; apply H1). set (P := join (c1 :: c2 :: c3 :: pts)).
  eapply (gets_sp _ (P ++ [newline; newline]) [] (fst c1) (snd c1 ++ join (c2 :: c3 :: pts) ++ [newline; newline])).
  - apply points_need_start.
  - change [(4, []); (3, P)] with ([(4, @nil ascii)] ++ [(3, P)]). apply gets_group_then.
    + apply eats_points; [right; auto|auto|reflexivity|]. intros [E|[E|[]]]; discriminate.
    + change [newline; newline] with ([newline; newline] ++ []). apply gets_then; [apply eats_plus_class; [discriminate|repeat constructor|exact I]|].
      change [(4, @nil ascii)] with ([] ++ [(4, @nil ascii)]). change (@nil ascii) with (@nil ascii ++ []) at 2. apply gets_group_then; [|apply gets_eats, eats_empty].
      unfold tec_cells, seqs. cbn [fold_right]. change (@nil ascii) with (@nil ascii ++ []) at 1. apply eats_seq; [apply eats_bol; right; auto|]. apply eats_last.
      apply eats_star_list with (P := fun _ => True) (B := fun _ => True) (ls := []); auto; [intros ? ? ? []|]. intros b0 c _. apply silent_fails. reflexivity.
  - unfold P. rewrite <- app_assoc, cell_split, app_nil_r. reflexivity.
  - apply R1.
  - auto.
  - apply stops_space_word, R1.
Qed.

Definition zone_title : text := s " T=" ++ quote :: s "MESH" ++ quote :: s " ".
Definition tec_front (nv nf : nat) : text :=
  s "ZONE" ++ zone_title ++ [newline] ++ s "N" ++ [] ++ s "=" ++ repeat " "%char (10 - length (digits (N.of_nat nv))) ++ digits (N.of_nat nv) ++ s " " ++ s "," ++ [] ++ s "E=" ++
  repeat " "%char (10 - length (digits (N.of_nat nf))) ++ digits (N.of_nat nf) ++ s " " ++ s "," ++ s " " ++ s "F" ++ [] ++ s "=" ++ [] ++ s "FEPOINT" ++ [] ++ s "," ++ s " " ++ s "ET" ++ [] ++ s "=" ++ [] ++ s "QUADRILATERAL".
Lemma gets_front : forall b nv nf u t cs, (forall b, gets b tec_tail u t cs) ->
  gets b tec_data (tec_front nv nf ++ u) t (cs ++ [(2, digits (N.of_nat nf)); (1, digits (N.of_nat nv))]).
Proof.
  intros b nv nf u t cs G. unfold tec_front. rewrite <- !app_assoc.
  change tec_data with (Seq (lit "ZONE") (Seq (Star dot_re) (Seq ss (Seq (lit "N") (Seq ss (Seq (lit "=") (Seq ss (Seq (Group 1 ds) (Seq ss (Seq (lit ",") (Seq ss (Seq (lit "E=") (Seq ss (Seq (Group 2 ds) (Seq ss (Seq (lit ",") (Seq ss
    (Seq (lit "F") (Seq ss (Seq (lit "=") (Seq ss (Seq (lit "FEPOINT") (Seq ss (Seq (lit ",") (Seq ss (Seq (lit "ET") (Seq ss (Seq (lit "=") (Seq ss (Seq (lit "QUADRILATERAL") tec_tail)))))))))))))))))))))))))))))).
  change [(2, digits (N.of_nat nf)); (1, digits (N.of_nat nv))] with ([(2, digits (N.of_nat nf))] ++ [(1, digits (N.of_nat nv))]).
  assert (W : forall n r, stops is_space (digits n ++ r)) by (intros; apply stops_space_word, digits_word).
  apply gets_then; [apply eats_word|]. apply gets_then; [apply eats_star_class; [repeat constructor|reflexivity]|]. apply gets_then; [apply eats_star_class; [repeat constructor|reflexivity]|].
  apply gets_then; [apply eats_word|]. apply gets_then; [apply eats_star_class; [repeat constructor|reflexivity]|]. apply gets_then; [apply eats_word|].
  apply gets_then; [apply eats_star_class; [apply spaces_repeat|rewrite <- !app_assoc; apply W]|].
  rewrite (app_assoc cs). apply gets_group_then; [apply eats_ds; [apply digits_nonempty|apply digits_chars|reflexivity]|].
  apply gets_then; [apply eats_star_class; [repeat constructor|reflexivity]|]. apply gets_then; [apply eats_word|]. apply gets_then; [apply eats_star_class; [repeat constructor|reflexivity]|]. apply gets_then; [apply eats_word|].
  apply gets_then; [apply eats_star_class; [apply spaces_repeat|rewrite <- !app_assoc; apply W]|].
  apply gets_group_then; [apply eats_ds; [apply digits_nonempty|apply digits_chars|reflexivity]|].
  repeat (apply gets_then; [first [apply eats_word | apply eats_star_class; [repeat constructor|reflexivity]]|]). apply G.
Qed.

(** ** The file *)
Definition tec_title (name : text) : text := s "TITLE = " ++ quote :: s " THIS FILE WAS GENERATED BY MESHMAGICK - FICHIER : " ++ name ++ s " " ++ quote :: s " ".
Definition tec_variables : text := s "VARIABLES = " ++ quote :: s "X" ++ quote :: s "," ++ quote :: s "Y" ++ quote :: s "," ++ quote :: s "Z" ++ quote :: s " ".
Definition tec_rest (vs : list vertex) (fs : list face) : text :=
  newline :: join_lines (map join (map point_row vs)) ++ newline :: join_lines (map join (map face_cells fs)) ++ [newline].
Lemma tec_text : forall name vs fs, write_TEC name vs fs =
  (tec_title name ++ [newline]) ++ (tec_variables ++ [newline]) ++ tec_front (length vs) (length fs) ++ tec_rest vs fs.
Proof.
  intros name vs fs. unfold write_TEC, tec_rest. rewrite !map_map.
  rewrite (map_ext _ _ point_text vs). rewrite (map_ext (fun x => join (face_cells x)) (fun f => concat (map (int_field 10) (corners (plus_one f))))) by (intros; symmetry; apply face_text).
  set (P := join_lines _). set (C := join_lines _). unfold tec_title, tec_variables, tec_front, zone_title, line. rewrite !int_parts. rewrite <- !app_assoc. cbn [app s list_ascii_of_string]. rewrite <- !app_assoc. cbn [app].
  rewrite <- ?app_assoc. reflexivity.
Qed.
Lemma title_nonl : forall name, nonl name -> nonl (tec_title name).
Proof. intros name N. unfold tec_title. apply nonl_app; [repeat constructor|]. constructor; [reflexivity|]. apply nonl_app; [repeat constructor|]. apply nonl_app; auto. repeat constructor. Qed.
Lemma scan_to_zone : forall name t, nonl name -> scan tec_data None ((tec_title name ++ [newline]) ++ (tec_variables ++ [newline]) ++ t) = scan tec_data (Some newline) t.
Proof.
  intros name t N. rewrite scan_skip.
  - rewrite fin_last. rewrite tec_parts. change (lit "ZONE") with (Word (s "ZONE")). rewrite scan_absent; [rewrite fin_last; auto|]. vm_compute. reflexivity.
  - intros u v E NV. destruct (@exists_last _ v NV) as (v' & z & ->). rewrite app_assoc in E. apply app_inj_tail in E as [E <-].
    assert (NT : nonl v'). { pose proof (title_nonl name N) as NT. rewrite E in NT. apply Forall_app in NT. tauto. }
    rewrite <- app_assoc. apply (title_fails v' _ (tl tec_variables ++ [newline] ++ t)). auto.
Qed.
Lemma rows_nonempty : forall A (f : A -> list (text * text)) l, (forall x, f x <> []) -> Forall (fun row => row <> []) (map f l).
Proof. intros. apply Forall_map_intro. auto. Qed.
Lemma point_row_nonempty : forall v, point_row v <> []. Proof. intros [[x y] z]. discriminate. Qed.
Lemma face_cells_nonempty : forall f, face_cells f <> []. Proof. discriminate. Qed.
Definition all_cells (rows : list (list (text * text))) : list (text * text) := match rows with [] => [] | row :: rows' => row ++ later rows' end.
Lemma rows_join_all : forall rows, join_lines (map join rows) = join (all_cells rows).
Proof. intros [|row rows]; [reflexivity|apply rows_join]. Qed.
Lemma all_cells_words : forall rows, Forall (fun row => row <> []) rows -> map snd (all_cells rows) = concat (map (map snd) rows).
Proof. intros [|row rows] N; auto. inversion N; subst. cbn [all_cells map concat]. rewrite map_app, later_words by auto. auto. Qed.
Lemma blank_pad : forall w t, nonl (fst (cell w t)). Proof. intros. apply blanks_nonl. Qed.
Lemma search_tec : forall name vs fs, nonl name -> vs <> [] -> narrow_all 16 6 vs -> Forall (ids_ok 10) fs ->
  exists u, search tec_data (write_TEC name vs fs) = Some (u, [(4, join (all_cells (map face_cells fs))); (3, join (all_cells (map point_row vs))); (2, digits (N.of_nat (length fs))); (1, digits (N.of_nat (length vs)))]).
Proof.
  intros name vs fs NN NV N H. unfold search. rewrite tec_text, scan_to_zone by auto. unfold tec_rest. rewrite !rows_join_all.
  destruct vs as [|[[x y] z] vs]; [congruence|].
  assert (RC : Forall real_cell (all_cells (map point_row ((x, y, z) :: vs)))).
  { cbn [map all_cells]. apply Forall_app. split; [apply point_cells, N; left; auto|]. apply later_cells; [apply rows_nonempty, point_row_nonempty|]. apply Forall_map_intro. intros v I. apply point_cells, N. right. auto. }
  assert (DC : Forall digit_cell (all_cells (map face_cells fs))).
  { destruct fs as [|f fs]; [constructor|]. inversion H; subst. cbn [map all_cells]. apply Forall_app. split; [apply face_cells_ok; auto|]. apply later_digit_cells; [apply rows_nonempty, face_cells_nonempty|]. apply Forall_map_intro. intros g I. apply face_cells_ok. apply (proj1 (Forall_forall _ _) H3 g I). }
  set (pc := all_cells (map point_row ((x, y, z) :: vs))) in *.
  assert (EP : pc = sci_cell 16 6 x :: sci_cell 16 6 y :: sci_cell 16 6 z :: later (map point_row vs)) by reflexivity.
  destruct fs as [|f fs].
  - eexists. assert (G : gets (Some newline) tec_data (tec_front (length ((x, y, z) :: vs)) 0 ++ newline :: join pc ++ [newline; newline]) [] ([(4, []); (3, join pc)] ++ [(2, digits 0); (1, digits (N.of_nat (length ((x, y, z) :: vs))))])).
    { apply (gets_front _ _ 0). intros b. rewrite EP. apply gets_tail_none; [rewrite <- EP; auto|apply blank_pad]. }
    specialize (G []). pose proof (scan_here _ _ _ _ _ _ G) as E. rewrite app_nil_r in E. etransitivity; [apply (f_equal (option_map fst)); exact E|reflexivity].
  - set (fc := all_cells (map face_cells (f :: fs))) in *.
    assert (EF : exists d cells, fc = d :: cells /\ nonl (fst d)). { do 2 eexists. split; [reflexivity|]. apply blank_pad. }
    destruct EF as (d & cells & EF & ND).
    assert (G : gets (Some newline) tec_data (tec_front (length ((x, y, z) :: vs)) (length (f :: fs)) ++ newline :: join pc ++ newline :: join fc) [newline] ([(4, join fc); (3, join pc)] ++ [(2, digits (N.of_nat (length (f :: fs)))); (1, digits (N.of_nat (length ((x, y, z) :: vs))))])).
    { apply gets_front. intros b. rewrite EF. rewrite EP. apply gets_tail; [rewrite <- EP; auto|apply blank_pad|rewrite <- EF; auto|auto]. }
    specialize (G []). pose proof (scan_here _ _ _ _ _ _ G) as E.
    assert (EQ : tec_front (length ((x, y, z) :: vs)) (length (f :: fs)) ++ newline :: join pc ++ newline :: join fc ++ [newline]
      = (tec_front (length ((x, y, z) :: vs)) (length (f :: fs)) ++ newline :: join pc ++ newline :: join fc) ++ [newline]) by (rewrite <- !app_assoc; cbn [app]; rewrite <- !app_assoc; reflexivity).
    eexists. etransitivity; [apply (f_equal (fun t => option_map fst (scan tec_data (Some newline) t))); exact EQ|].
    etransitivity; [apply (f_equal (option_map fst)); exact E|]. reflexivity.
Qed.
Section TEC.
  Variable dbl : N -> Z -> N * positive.
  Lemma mapM_concat : forall A B (f : A -> res B) ls ms, mapM (mapM f) ls = Ok ms -> mapM f (concat ls) = Ok (concat ms).
  Proof.
    intros A B f ls. induction ls as [|l ls IH]; intros ms E; cbn [mapM concat] in *; [injection E as <-; reflexivity|].
    destruct (mapM f l) as [m|] eqn:E1; [|discriminate]. cbn [bind] in E. destruct (mapM (mapM f) ls) as [ms'|] eqn:E2; [|discriminate]. injection E as <-. specialize (IH _ eq_refl).
    cbn [concat]. clear -E1 IH. revert m E1. induction l as [|a l IHl]; intros m E1; cbn [mapM app] in *; [injection E1 as <-; auto|].
    destruct (f a); [|discriminate]. cbn [bind] in *. destruct (mapM f l) as [m'|]; [|discriminate]. injection E1 as <-. rewrite (IHl _ eq_refl). reflexivity.
  Qed.
  Lemma rows_of_concat : forall A k (ls : list (list A)), (forall l, In l ls -> length l = k) -> rows_of (length ls) k (concat ls) = ls /\ length (concat ls) = length ls * k.
  Proof.
    intros A k ls. induction ls as [|l ls IH]; intros H; [split; reflexivity|]. destruct IH as [I1 I2]; [intros; apply H; right; auto|].
    assert (L : length l = k) by (apply H; left; auto). cbn [length rows_of concat]. subst k. rewrite firstn_app, firstn_all, Nat.sub_diag, firstn_O, app_nil_r, skipn_app, skipn_all, Nat.sub_diag, skipn_O. cbn [app].
    rewrite I1. split; [reflexivity|]. rewrite app_length, I2. lia.
  Qed.
  Lemma firstn_rows : forall A k (ls : list (list A)), (forall l, In l ls -> length l = k) -> map (firstn k) ls = ls.
  Proof. intros A k ls H. rewrite <- (map_id ls) at 2. apply map_ext_in. intros l I. rewrite <- (H l I). apply firstn_all. Qed.
  Lemma load_write_TEC : forall name vs fs, nonl name -> vs <> [] -> narrow_all 16 6 vs -> Forall (ids_ok 10) fs ->
    load_TEC dbl (write_TEC name vs fs) = Ok (Arr2 (map (fun v => map (rd_sci dbl 6) (coordinates v)) vs), Arr2 (map face_row fs)).
  Proof.
    intros name vs fs NN NV N H. unfold load_TEC. destruct (search_tec name vs fs NN NV N H) as (u & ->). unfold group. cbn [snd assoc_nat Nat.eqb].
    rewrite !to_int_of_nat. cbn [bind]. rewrite !Nat2Z.id.
    assert (AP : Forall apart (all_cells (map point_row vs))).
    { destruct vs as [|v vs]; [congruence|]. cbn [map all_cells]. apply Forall_app. split; [|apply later_apart; [apply rows_nonempty, point_row_nonempty|apply Forall_map_intro; intros v' I]]; (eapply Forall_impl; [|apply point_cells, N]); try (intros a A; apply A); [left; auto|right; auto]. }
    assert (AF : Forall apart (all_cells (map face_cells fs))).
    { destruct fs as [|f fs]; [constructor|]. cbn [map all_cells]. apply Forall_app. rewrite Forall_forall in H. split; [|apply later_apart; [apply rows_nonempty, face_cells_nonempty|apply Forall_map_intro; intros v' I]]; (eapply Forall_impl; [|apply face_cells_ok, H]); try (intros a A; apply A); [left; auto|right; auto]. }
    rewrite (proj1 (words_apart _ AP)), (proj1 (words_apart _ AF)).
    rewrite !all_cells_words by (apply rows_nonempty; [apply face_cells_nonempty] || apply rows_nonempty; apply point_row_nonempty).
    rewrite (mapM_concat _ _ (to_float dbl) _ (map (fun v => map (rd_sci dbl 6) (coordinates v)) vs)).
    2: { rewrite map_map. apply mapM_all. intros v _. unfold point_row. rewrite map_map. apply floats_sci. auto. }
    cbn [bind]. destruct (rows_of_concat _ 3 (map (fun v => map (rd_sci dbl 6) (coordinates v)) vs)) as [R1 R2]; [intros l I; apply in_map_iff in I as (v & <- & _); apply coordinates_length|].
    rewrite map_length in R1, R2. unfold reshape_n. destruct (Nat.eqb_spec (length vs) 0) as [Z|Z]; [destruct vs; [congruence|discriminate]|].
    unfold reshape. rewrite R2. rewrite (Nat.mul_comm (length vs) 3), Nat.div_mul by auto. rewrite Nat.mul_comm, Nat.eqb_refl. cbn [bind]. rewrite R1.
    rewrite (mapM_concat _ _ to_int _ (map (fun f => map (fun n => Z.of_nat (S n)) (corners f)) fs)).
    2: { rewrite map_map. apply mapM_all. intros f _. unfold face_cells. rewrite map_map. apply (ints_read (map S (corners f))). }
    cbn [bind]. destruct (rows_of_concat _ 4 (map (fun f => map (fun n => Z.of_nat (S n)) (corners f)) fs)) as [F1 F2]; [intros l I; apply in_map_iff in I as (v & <- & _); reflexivity|].
    rewrite map_length in F1, F2. rewrite F2, Nat.eqb_refl. cbn [bind]. rewrite F1, pred_succ_row. rewrite firstn_rows; auto. intros l I. apply in_map_iff in I as (v & <- & _). apply coordinates_length.
  Qed.
  Lemma load_TEC_no_vertex : forall name fs, nonl name -> load_TEC dbl (write_TEC name [] fs) = Raise AttributeError.
  Proof.
    intros name fs N. unfold load_TEC, search. rewrite tec_text, scan_to_zone by auto. rewrite (scan_requires "."%char); [reflexivity|vm_compute; reflexivity|].
    unfold tec_rest. cbn [map join_lines length]. intros I. apply in_app_or in I as [I|I].
    - unfold tec_front in I. repeat (apply in_app_or in I as [I|I]; [first [vm_compute in I; intuition discriminate | apply (no_dot_spaces _ (spaces_repeat _) I) | apply (no_dot_digits _ (digits_chars _) I)]|]). vm_compute in I. intuition discriminate.
    - cbn [app] in I. destruct I as [I|[I|I]]; try discriminate. apply in_app_or in I as [I|[I|[]]]; [|discriminate].
      assert (D : forall ls, (forall l, In l ls -> ~ In "."%char l) -> ~ In "."%char (join_lines ls)).
      { clear. intros ls. induction ls as [|l ls IH]; intros D J; [destruct J|]. destruct ls as [|l' ls]; [apply (D l); [left; auto|exact J]|].
        change (join_lines (l :: l' :: ls)) with (l ++ newline :: join_lines (l' :: ls)) in J. apply in_app_or in J as [J|[J|J]]; [apply (D l); [left; auto|auto]|discriminate|]. apply IH; auto. intros; apply D; right; auto. }
      apply (D _) in I; auto. intros l L. rewrite map_map in L. apply in_map_iff in L as (f & <- & _). rewrite <- face_text. apply no_dot_row.
  Qed.
End TEC.
