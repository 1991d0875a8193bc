(** Reading back what write_HST writes. *)
From Coq Require Import Ascii String List Arith NArith ZArith Bool Lia.
From Verif Require Import M_base M_merge M_mesh M_text M_mmio S_text P_text P_mmio M_regex M_files P_regex.
Import ListNotations.
Local Open Scope nat_scope.

(** ** Numbers *)
Lemma digits_hold : forall t, all_digits t -> holds is_digit t. Proof. auto. Qed.
Lemma spaces_hold : forall t, spaces t -> holds is_space t. Proof. auto. Qed.
Lemma stops_digit_space : forall t, spaces t -> t <> [] -> forall r, stops is_digit (t ++ r).
Proof.
  intros [|c t] H N r; [congruence|]. cbn. inversion H; subst. destruct (is_digit c) eqn:D; auto. rewrite (digit_not_space c D) in H2. discriminate.
Qed.
Lemma stops_space_word : forall t r, word t -> stops is_space (t ++ r).
Proof. intros [|c t] r [N H]; [congruence|]. inversion H; auto. Qed.

Definition sci_tail (k : nat) (x : num) : text :=
  "E"%char :: (if (snd (sci_pair k x) <? 0)%Z then "-"%char else "+"%char) :: exponent_digits (Z.abs_N (snd (sci_pair k x))).
Lemma sci_parts : forall k x, scientific "E" k x =
  sign (neg x) ++ (digits (fst (sci_pair k x) / 10 ^ N.of_nat k) ++ ["."%char] ++ fixed k (fst (sci_pair k x))) ++ sci_tail k x.
Proof.
  intros k x. unfold scientific. fold (sci_pair k x). unfold sci_tail, exponent_digits. destruct (sci_pair k x) as [m e]. cbn [fst snd]. cbv zeta.
  rewrite <- !app_assoc. reflexivity.
Qed.
Lemma eats_ds : forall b d t, d <> [] -> all_digits d -> stops is_digit t -> eats b ds d t. Proof. intros. apply eats_plus_class; auto. Qed.
Lemma eats_class : forall b cs c t, In c cs -> eats b (class cs) [c] t.
Proof. intros b cs c t I. apply eats_chr. apply existsb_exists. exists c. split; auto. apply Ascii.eqb_refl. Qed.
Lemma fails_class : forall b cs c t k, ~ In c cs -> fails (class cs) (St b (c :: t) k).
Proof.
  intros b cs c t k N. apply fails_chr. cbn. destruct (existsb (Ascii.eqb c) cs) eqn:E; auto. apply existsb_exists in E as (x & I & E). apply Ascii.eqb_eq in E. subst. contradiction.
Qed.
Lemma digit_not_sign : forall c, is_digit c = true -> ~ In c (s "+-").
Proof. intros c H [E|[E|[]]]; subst; discriminate. Qed.
Lemma eats_real : forall b k x t, stops is_digit t -> eats b real_re (scientific "E" k x) t.
Proof.
  intros b k x t S. rewrite sci_parts. unfold real_re, seqs. cbn [fold_right].
  set (D := digits (fst (sci_pair k x) / 10 ^ N.of_nat k)). assert (ND : D <> []) by apply digits_nonempty. assert (AD : all_digits D) by apply digits_chars. clearbody D.
  pose proof (exponent_digits_ok (Z.abs_N (snd (sci_pair k x)))) as (X1 & X2 & _).
  apply eats_seq; [|apply eats_seq; [|apply eats_last]].
  - destruct (neg x); cbn [sign].
    + apply eats_opt, eats_class. right. left. auto.
    + apply eats_opt_none. intros c. destruct D as [|d D]; [congruence|]. cbn [app]. apply fails_class, digit_not_sign. inversion AD; auto.
  - apply eats_left. unfold seqs. cbn [fold_right]. apply eats_seq; [apply eats_ds; auto; reflexivity|]. apply eats_seq; [apply eats_lit|]. apply eats_last.
    apply eats_star_class; [apply fixed_digits_chars|reflexivity].
  - apply eats_opt. unfold seqs. cbn [fold_right]. unfold sci_tail.
    match goal with |- eats _ _ (?a :: ?b :: ?l) _ => change (a :: b :: l) with ([a] ++ [b] ++ l) end.
    apply eats_seq; [apply eats_class; left; auto|]. apply eats_seq.
    + apply eats_opt, eats_class. destruct (_ <? 0)%Z; [right; left|left]; auto.
    + apply eats_last, eats_ds; auto.
Qed.

(** ** A line of the nodes *)
Definition sci_cell (w k : nat) (x : num) : text * text := cell w (scientific "E" k x).
Definition node_text (wi w k : nat) (iv : nat * vertex) : text := int_field wi (S (fst iv)) ++ fields3 (sci_field "E" w k) (snd iv).
Lemma eats_real_field : forall b w k x t, length (scientific "E" k x) < w -> stops is_digit t -> eats b (Seq sp real_re) (sci_field "E" w k x) t.
Proof.
  intros b w k x t L S. unfold sci_field, rjust. apply eats_seq; [|apply eats_real; auto].
  apply eats_plus_class; [|apply spaces_repeat|].
  - destruct (w - length (scientific "E" k x)) eqn:E; [lia|discriminate].
  - apply stops_space_word, sci_word. auto.
Qed.
Lemma field_starts : forall w k x t, length (scientific "E" k x) < w -> stops is_digit (sci_field "E" w k x ++ t).
Proof.
  intros w k x t L. unfold sci_field, rjust. rewrite <- app_assoc. apply stops_digit_space; [apply spaces_repeat|].
  destruct (w - length (scientific "E" k x)) eqn:E; [lia|discriminate].
Qed.
Definition narrow (w k : nat) (v : vertex) : Prop := forall x, In x (coordinates v) -> length (scientific "E" k x) < w.
Lemma eats_node_line : forall b sp0 wi w k iv t, spaces sp0 -> narrow w k (snd iv) -> stops is_digit t -> eats b hst_node_line (sp0 ++ node_text wi w k iv) t.
Proof.
  intros b sp0 wi w k [i [[x y] z]] t SP N S. unfold node_text, hst_node_line, seqs. cbn [fold_right fst snd fields3 Times].
  assert (Nx : length (scientific "E" k x) < w) by (apply N; cbn; auto). assert (Ny : length (scientific "E" k y) < w) by (apply N; cbn; auto). assert (Nz : length (scientific "E" k z) < w) by (apply N; cbn; auto).
  unfold int_field, rjust. rewrite !app_assoc. rewrite <- (app_assoc _ (digits _)), <- !app_assoc. rewrite (app_assoc sp0).
  apply eats_seq; [apply eats_star_class; [apply Forall_app; split; [auto|apply spaces_repeat]|rewrite <- app_assoc; apply stops_space_word, digits_word]|].
  apply eats_seq; [apply eats_ds; [apply digits_nonempty|apply digits_chars|rewrite <- app_assoc; apply field_starts; auto]|].
  apply eats_last. apply eats_seq; [apply eats_real_field; auto; rewrite <- app_assoc; apply field_starts; auto|].
  apply eats_seq; [apply eats_real_field; auto; apply field_starts; auto|]. apply eats_real_field; auto.
Qed.

(** ** A line of the faces *)
Definition row_text (w : nat) (l : list nat) : text := concat (map (int_field w) l).
Lemma int_parts : forall w n, int_field w n = repeat " "%char (w - length (digits (N.of_nat n))) ++ digits (N.of_nat n). Proof. reflexivity. Qed.
Definition fits (w : nat) (l : list nat) : Prop := Forall (fun n => length (digits (N.of_nat n)) < w) l.
Lemma stops_row : forall w n l t, length (digits (N.of_nat n)) < w -> stops is_digit (int_field w n ++ l ++ t).
Proof.
  intros w n l t L. rewrite int_parts, <- app_assoc. apply stops_digit_space; [apply spaces_repeat|]. destruct (w - _) eqn:E; [lia|discriminate].
Qed.
(** What follows the end of a line of faces *)
Definition after_row (t : text) : Prop := exists sp0 t', t = sp0 ++ t' /\ spaces sp0 /\ Forall (fun c => ~ In c [return_char; newline]) sp0 /\ stops is_space t'.
Lemma eats_ends : forall t, stops (fun c => existsb (Ascii.eqb c) [return_char; newline]) t -> forall b, eats b ends [newline] t.
Proof. intros t S b. apply eats_plus_class; [discriminate|repeat constructor|auto]. Qed.
Lemma takes_eats : forall b r u t, (forall c, takes r (St b (u ++ t) c) (St (fin b u) t c)) -> eats b r u t. Proof. auto. Qed.
Lemma not_space_not_end : forall c, is_space c = false -> ~ In c [return_char; newline].
Proof. intros c H [E|[E|[]]]; subst; discriminate. Qed.
Lemma eats_line_end : forall b t, after_row t -> eats b (Seq ss ends) [newline] t.
Proof.
  intros b t (sp0 & t' & -> & SP & NE & S) c. change (takes (Seq (Star (Chr is_space)) ends) (St b ([] ++ ((newline :: sp0) ++ t')) c) (St (fin b [newline]) (sp0 ++ t') c)).
  apply takes_back; auto.
  - constructor; auto.
  - intros v1 v2 E N. destruct v1 as [|a v1]; [congruence|]. injection E as E0 E; clear E0. apply fails_seq, fails_chr. destruct v2 as [|a2 v2].
    + cbn [app]. destruct t' as [|a3 t']; [exact I|]. cbn in S. unfold stops. destruct (existsb _ _) eqn:X; auto. apply existsb_exists in X as (x & X1 & X2). apply Ascii.eqb_eq in X2. subst. destruct (not_space_not_end _ S X1).
    + cbn [app stops]. destruct (existsb _ _) eqn:X; auto. apply existsb_exists in X as (x & X1 & X2). apply Ascii.eqb_eq in X2. subst. apply Forall_app in NE as [_ NE]. inversion NE; subst. contradiction.
  - apply (eats_ends (sp0 ++ t')). destruct sp0 as [|a sp0].
    + cbn [app]. destruct t' as [|a t']; [exact I|]. cbn in S. unfold stops. destruct (existsb _ _) eqn:X; auto. apply existsb_exists in X as (x & X1 & X2). apply Ascii.eqb_eq in X2. subst. destruct (not_space_not_end _ S X1).
    + cbn [app stops]. destruct (existsb _ _) eqn:X; auto. apply existsb_exists in X as (x & X1 & X2). apply Ascii.eqb_eq in X2. subst. inversion NE; subst. contradiction.
Qed.
Lemma eats_assoc : forall b r1 r2 r3 u t, eats b (Seq r1 (Seq r2 r3)) u t -> eats b (Seq (Seq r1 r2) r3) u t. Proof. intros b r1 r2 r3 u t H c X k x E. apply (H c X k x E). Qed.
Lemma eats_assoc' : forall b r1 r2 r3 u t, eats b (Seq (Seq r1 r2) r3) u t -> eats b (Seq r1 (Seq r2 r3)) u t. Proof. intros b r1 r2 r3 u t H c X k x E. apply (H c X k x E). Qed.
Lemma eats_int_space : forall b d p t, d <> [] -> all_digits d -> p <> [] -> spaces p -> stops is_space t -> eats b (Seq ds sp) (d ++ p) t.
Proof.
  intros b d p t ND AD NP SP S. apply eats_seq; [apply eats_ds; auto; apply stops_digit_space; auto|]. apply eats_plus_class; auto.
Qed.
Lemma blanks_nonempty : forall w n, length (digits (N.of_nat n)) < w -> repeat " "%char (w - length (digits (N.of_nat n))) <> [].
Proof. intros w n L. destruct (w - _) eqn:E; [lia|discriminate]. Qed.
Lemma eats_elem_line : forall b w n1 n2 n3 n4 t, at_line_start b -> fits w [n1; n2; n3; n4] -> after_row t -> eats b hst_elem_line (row_text w [n1; n2; n3; n4] ++ [newline]) t.
Proof.
  intros b w n1 n2 n3 n4 t B F A. unfold fits in F. rewrite !Forall_cons_iff in F. destruct F as (F1 & F2 & F3 & F4 & _).
  unfold row_text, hst_elem_line, seqs. cbn [map concat fold_right Times]. rewrite !int_parts.
  set (p1 := repeat _ (w - length (digits (N.of_nat n1)))). set (p2 := repeat _ (w - length (digits (N.of_nat n2)))). set (p3 := repeat _ (w - length (digits (N.of_nat n3)))). set (p4 := repeat _ (w - length (digits (N.of_nat n4)))).
  assert (E : (((p1 ++ digits (N.of_nat n1)) ++ (p2 ++ digits (N.of_nat n2)) ++ (p3 ++ digits (N.of_nat n3)) ++ (p4 ++ digits (N.of_nat n4)) ++ []) ++ [newline] =
    [] ++ p1 ++ ((digits (N.of_nat n1) ++ p2) ++ (digits (N.of_nat n2) ++ p3) ++ (digits (N.of_nat n3) ++ p4)) ++ digits (N.of_nat n4) ++ [newline])).
  { rewrite app_nil_r. cbn [app]. rewrite <- !app_assoc. reflexivity. }
  rewrite E. clear E.
  apply eats_seq; [apply eats_bol; auto|]. cbn [fin fold_left].
  apply eats_seq; [apply eats_star_class; [apply spaces_repeat|rewrite <- !app_assoc; apply stops_space_word, digits_word]|].
  assert (W : forall n r, stops is_space (digits n ++ r)) by (intros; apply stops_space_word, digits_word).
  apply eats_seq.
  { apply eats_seq; [apply eats_int_space; [apply digits_nonempty|apply digits_chars|apply blanks_nonempty; auto|apply spaces_repeat|rewrite <- !app_assoc; apply W]|].
    apply eats_seq; apply eats_int_space; try apply digits_nonempty; try apply digits_chars; try (apply blanks_nonempty; auto); try apply spaces_repeat; rewrite <- ?app_assoc; apply W. }
  apply eats_seq; [apply eats_ds; [apply digits_nonempty|apply digits_chars|reflexivity]|].
  apply eats_assoc'. apply eats_last. apply eats_line_end. auto.
Qed.

(** ** The parts of the file *)
Definition hst_head : text :=
  line (s "PROJECT:") ++ line (s "USERS:   meshmagick") ++ line [] ++ line (s "NBODY   1") ++ line (s "RHO   1025.0") ++ line (s "GRAVITY   9.81") ++ line [] ++ s "COORDINATE".
Definition hst_mid : text := s "ENDCOORDINATES" ++ newline :: newline :: s "PANEL TYP".
Definition hst_end : text := s "ENDPANEL" ++ newline :: newline :: s "ENDFILE" ++ [newline].
Definition hst_faces (fs : list face) : text :=
  match fs with [] => newline :: hst_end | _ => concat (map line (map (fun f => row_text 10 (corners (plus_one f))) fs)) ++ hst_end end.
Definition hst_nodes (vs : list vertex) : text := concat (map (cons newline) (map (node_text 10 16 6) (numbered vs))).
Lemma join_lines_newline : forall ls, ls <> [] -> newline :: join_lines ls = concat (map (cons newline) ls).
Proof.
  induction ls as [|l ls IH]; intros N; [congruence|]. destruct ls as [|l' ls]; [cbn; rewrite app_nil_r; auto|].
  change (join_lines (l :: l' :: ls)) with (l ++ newline :: join_lines (l' :: ls)). rewrite IH by discriminate. reflexivity.
Qed.
Lemma numbered_nonempty : forall A (l : list A), l <> [] -> numbered l <> []. Proof. intros A [|a l] N; [congruence|discriminate]. Qed.
Lemma map_nonempty : forall A B (f : A -> B) l, l <> [] -> map f l <> []. Proof. intros A B f [|a l] N; [congruence|discriminate]. Qed.
Lemma hst_text : forall vs fs, write_HST vs fs =
  hst_head ++ "S"%char :: (match vs with [] => [newline] | _ => hst_nodes vs end) ++ newline :: hst_mid ++ "E"%char :: s " 0" ++ newline :: hst_faces fs.
Proof.
  intros vs fs. unfold write_HST, hst_head.
  assert (F : join_lines (map (fun f => concat (map (int_field 10) (corners (plus_one f)))) fs) ++ newline :: line (s "ENDPANEL") ++ line [] ++ line (s "ENDFILE") = hst_faces fs).
  { unfold hst_faces. destruct fs as [|f fs]; [reflexivity|]. fold (row_text 10 (corners (plus_one f))).
    change (fun f => concat (map (int_field 10) (corners (plus_one f)))) with (fun f => row_text 10 (corners (plus_one f))).
    rewrite <- join_lines_lines by discriminate. set (j := join_lines _). unfold line. rewrite <- !app_assoc. reflexivity. }
  rewrite F.
  assert (V : newline :: join_lines (map (fun iv => int_field 10 (S (fst iv)) ++ fields3 (sci_field "E" 16 6) (snd iv)) (numbered vs)) = match vs with [] => [newline] | _ => hst_nodes vs end).
  { destruct vs as [|v vs]; [reflexivity|]. unfold hst_nodes. rewrite <- join_lines_newline by discriminate. reflexivity. }
  rewrite <- V. unfold line. cbn [s list_ascii_of_string app]. rewrite <- ?app_assoc. cbn [app]. reflexivity.
Qed.

(** ** The section of nodes *)
Definition node_sec : re := hst_node_section.
Lemma node_requires : requires "."%char node_sec = true. Proof. vm_compute. reflexivity. Qed.
Lemma no_dot_digits : forall t, all_digits t -> ~ In "."%char t.
Proof. intros t H I. apply (proj1 (Forall_forall _ _) H) in I. discriminate. Qed.
Lemma no_dot_spaces : forall t, spaces t -> ~ In "."%char t.
Proof. intros t H I. apply (proj1 (Forall_forall _ _) H) in I. discriminate. Qed.
Lemma no_dot_row : forall w l, ~ In "."%char (row_text w l).
Proof.
  intros w l I. unfold row_text in I. apply in_concat in I as (x & X & I). apply in_map_iff in X as (n & <- & _). rewrite int_parts in I.
  apply in_app_or in I as [I|I]; [eapply no_dot_spaces; [apply spaces_repeat|exact I]|eapply no_dot_digits; [apply digits_chars|exact I]].
Qed.
Lemma no_dot_faces : forall fs, ~ In "."%char (hst_faces fs).
Proof.
  intros fs. assert (E : ~ In "."%char hst_end) by (vm_compute; intuition discriminate).
  unfold hst_faces. destruct fs as [|f fs]; [intros [I|I]; [discriminate|auto]|]. generalize (f :: fs). clear f fs. intros fs I.
  apply in_app_or in I as [I|I]; auto. apply in_concat in I as (x & X & I). rewrite map_map in X. apply in_map_iff in X as (f & <- & _).
  unfold line in I. apply in_app_or in I as [I|[I|[]]]; [eapply no_dot_row; exact I|discriminate].
Qed.
Lemma no_dot_rest : forall fs, ~ In "."%char (newline :: hst_mid ++ "E"%char :: s " 0" ++ newline :: hst_faces fs).
Proof.
  intros fs I. assert (E : ~ In "."%char (newline :: hst_mid ++ "E"%char :: s " 0" ++ [newline])) by (vm_compute; intuition discriminate).
  assert (G : newline :: hst_mid ++ "E"%char :: s " 0" ++ newline :: hst_faces fs = (newline :: hst_mid ++ "E"%char :: s " 0" ++ [newline]) ++ hst_faces fs).
  { cbn [app s list_ascii_of_string]. reflexivity. }
  rewrite G in I. apply in_app_or in I as [I|I]; [auto|apply (no_dot_faces fs); auto].
Qed.
Lemma eats_plus_list : forall (P : text -> Prop) (B : option ascii -> Prop) r l ls b t,
  (forall b l' t, In l' (l :: ls) -> B b -> P t -> eats b r l' t /\ B (fin b l') /\ P (l' ++ t)) -> Forall (fun l => l <> []) (l :: ls) -> B b -> P t ->
  (forall b c, B b -> fails r (St b t c)) -> eats b (Plus r) (concat (l :: ls)) t.
Proof.
  intros P B r l ls b t H N HB HP F. cbn [concat]. inversion N; subst.
  assert (PT : forall ls', incl ls' ls -> P (concat ls' ++ t)).
  { clear -H HP HB. induction ls' as [|a ls' IH']; intros I; auto. cbn [concat]. rewrite <- app_assoc. apply (H b a); auto; [right; apply I; left; auto|]. apply IH'. intros z Z. apply I. right. auto. }
  destruct (H b l (concat ls ++ t)) as (E1 & E2 & E3); auto; [left; auto|apply PT; intros z Z; auto|].
  apply eats_seq; auto. apply (eats_star_list P B); auto. intros b0 l0 t0 I. apply H. right. auto.
Qed.
Definition narrow_all (w k : nat) (vs : list vertex) : Prop := forall v, In v vs -> narrow w k v.
Definition node_texts (w wi k : nat) (vs : list vertex) : list text := map (cons newline) (map (node_text wi w k) (numbered vs)).
Lemma node_texts_eat : forall vs, narrow_all 16 6 vs -> forall b l t, In l (node_texts 16 10 6 vs) -> True -> stops is_digit t ->
  eats b hst_node_line l t /\ True /\ stops is_digit (l ++ t).
Proof.
  intros vs N b l t I _ S. unfold node_texts in I. apply in_map_iff in I as (l0 & <- & I). apply in_map_iff in I as (iv & <- & I).
  split; [|split; [auto|reflexivity]]. apply (eats_node_line b [newline] 10 16 6 iv t); auto; [repeat constructor|].
  apply N. destruct iv as [i v]. apply in_combine_seq in I. auto.
Qed.
Lemma node_texts_filled : forall w wi k vs, Forall (fun l => l <> []) (node_texts w wi k vs).
Proof. intros. unfold node_texts. apply Forall_map_intro. discriminate. Qed.
Lemma scan_head : forall r t, avoids "S" r = true -> all_silent r None hst_head "S" = true -> scan r None (hst_head ++ "S"%char :: t) = scan r (Some "S"%char) t.
Proof. intros. apply scan_cut; auto. Qed.
Lemma all_scan : forall r b t b' t', scan r b t = scan r b' t' -> length t' <= length t -> all_matches r b t = all_matches r b' t'.
Proof.
  intros r b t b' t' E L. unfold all_matches at 1. cbn [matches_from]. rewrite E. unfold all_matches. cbn [matches_from].
  destruct (scan r b' t') as [[f st]|] eqn:E2; auto. f_equal. pose proof (scan_sound _ _ _ _ _ E2) as S.
  destruct (fst f) as [|a f'] eqn:F.
  - destruct (rest st) as [|c t2]; auto. cbn [length] in S. apply matches_fuel; lia.
  - assert (length (rest st) < length t'). { eapply scan_nonempty; [exact E2|rewrite F; discriminate]. } apply matches_fuel; lia.
Qed.
Lemma node_matches : forall vs fs, narrow_all 16 6 vs ->
  findall1 hst_node_section (write_HST vs fs) = match vs with [] => [] | _ => [concat (node_texts 16 10 6 vs)] end.
Proof.
  intros vs fs N. unfold findall1, matches. fold (all_matches hst_node_section None (write_HST vs fs)). rewrite hst_text.
  rewrite (all_scan _ None _ (Some "S"%char) ((match vs with [] => [newline] | _ => hst_nodes vs end) ++ newline :: hst_mid ++ "E"%char :: s " 0" ++ newline :: hst_faces fs)).
  - destruct vs as [|v vs].
    + rewrite all_none; [reflexivity|]. apply (scan_requires "."%char); [apply node_requires|]. intros [I|I]; [discriminate|]. apply (no_dot_rest fs I).
    + unfold hst_nodes. fold (node_texts 16 10 6 (v :: vs)). set (t := newline :: hst_mid ++ _).
      assert (E : eats (Some "S"%char) (Plus hst_node_line) (concat (node_texts 16 10 6 (v :: vs))) t).
      { change (node_texts 16 10 6 (v :: vs)) with ((newline :: node_text 10 16 6 (0, v)) :: tl (node_texts 16 10 6 (v :: vs))).
        apply (eats_plus_list (stops is_digit) (fun _ => True)); auto; [exact (node_texts_eat (v :: vs) N)|apply (node_texts_filled 16 10 6 (v :: vs))|reflexivity|].
        intros b c _. apply (fails_requires "."%char); [vm_compute; reflexivity|apply no_dot_rest]. }
      rewrite (all_step _ _ _ (concat (node_texts 16 10 6 (v :: vs))) [(1, concat (node_texts 16 10 6 (v :: vs)))] (fin (Some "S"%char) (concat (node_texts 16 10 6 (v :: vs)))) t [(1, concat (node_texts 16 10 6 (v :: vs)))]).
      * rewrite all_none; [reflexivity|]. apply (scan_requires "."%char); [apply node_requires|apply no_dot_rest].
      * apply scan_here. apply takes_group; [reflexivity|]. apply E.
      * discriminate.
      * rewrite app_length. cbn [node_texts numbered combine seq map concat app length]. lia.
  - apply scan_head; vm_compute; reflexivity.
  - rewrite (app_length hst_head). cbn [length]. lia.
Qed.

(** ** The section of faces *)
Lemma elem_needs_start : forall b t c, ~ at_line_start b -> fails hst_elem_section (St b t c).
Proof. intros. apply fails_group, fails_seq, fails_bol_seq. auto. Qed.
Lemma fails_bol_then : forall r b t c, fails r (St b t c) -> fails (Seq Bol r) (St b t c).
Proof. intros r b t c F X k. rewrite run_seq. cbn [run prev]. destruct b as [a|]; [destruct (Ascii.eqb a newline)|]; auto. Qed.
Lemma fails_ds_space : forall r b a t c, is_space a = true -> fails (Seq ds r) (St b (a :: t) c).
Proof.
  intros r b a t c H. apply fails_seq, fails_seq, fails_chr. cbn. destruct (is_digit a) eqn:D; auto. rewrite (digit_not_space a D) in H. discriminate.
Qed.
Lemma fails_sp_digit : forall r b a t c, is_digit a = true -> fails (Seq sp r) (St b (a :: t) c).
Proof. intros r b a t c H. apply fails_seq, fails_seq, fails_chr. cbn. apply digit_not_space. auto. Qed.
(** A line with a number, a blank and a real is not a line of integers. *)
Lemma fails_two_ints : forall r b p1 d p2 k x t c, spaces p1 -> d <> [] -> all_digits d -> spaces p2 -> p2 <> [] ->
  fails (Seq ss (Seq ds (Seq sp (Seq ds (Seq sp r))))) (St b (p1 ++ d ++ p2 ++ scientific "E" k x ++ t) c).
Proof.
  intros r b p1 d p2 k x t c S1 ND AD S2 N2. apply fails_star; auto; [apply stops_space_word; split; [auto|apply digits_not_space; auto]|intros; apply fails_ds_space; auto|].
  apply fails_plus; auto; [apply stops_digit_space; auto|intros; apply fails_sp_digit; auto|].
  apply fails_plus; auto; [apply stops_space_word, sci_word; auto|intros; apply fails_ds_space; auto|].
  rewrite sci_parts. destruct (neg x); cbn [sign app].
  - apply fails_seq, fails_seq, fails_chr. reflexivity.
  - rewrite <- !app_assoc. apply fails_plus; [apply digits_nonempty|apply digits_chars|reflexivity|intros; apply fails_sp_digit; auto|]. apply fails_seq, fails_seq, fails_chr. reflexivity.
Qed.
Lemma node_not_elem : forall b w k iv t c, narrow w k (snd iv) -> fails hst_elem_section (St b (node_text 10 w k iv ++ t) c).
Proof.
  intros b w k [i [[x y] z]] t c N. apply fails_group, fails_seq. unfold hst_elem_line, seqs. cbn [fold_right Times]. apply fails_bol_then.
  unfold node_text. cbn [fst snd fields3]. rewrite int_parts. unfold sci_field at 1. unfold rjust. rewrite <- !app_assoc.
  match goal with |- fails _ (St _ (?p1 ++ ?d ++ ?p2 ++ _ ++ ?t') _) => apply (fails_two_ints (Seq (Seq ds sp) (Seq ds (Seq ss (Seq ends Empty)))) b p1 d p2 k x t' c) end.
  - apply spaces_repeat.
  - apply digits_nonempty.
  - apply digits_chars.
  - apply spaces_repeat.
  - assert (length (scientific "E" k x) < w) by (apply N; cbn; auto). destruct (w - _) eqn:E; [lia|discriminate].
Qed.
Lemma node_text_nonl : forall wi w k iv, nonl (node_text wi w k iv).
Proof. intros. apply nonl_app; [apply int_nonl|]. apply fields3_nonl. intros. apply sci_nonl. auto. Qed.
Lemma scan_nodes : forall vs, narrow_all 16 6 vs -> forall n t, scan hst_elem_section (Some newline) (concat (map line (map (node_text 10 16 6) (combine (seq n (length vs)) vs))) ++ t) = scan hst_elem_section (Some newline) t.
Proof.
  intros vs. induction vs as [|v vs IH]; intros N n t; auto. cbn [length seq combine map concat]. unfold line at 1. rewrite <- !app_assoc. cbn [app].
  rewrite scan_line; [|apply node_text_nonl| |apply node_not_elem; apply N; left; auto|apply elem_needs_start].
  - apply IH. intros v' I. apply N. right. auto.
  - intros E. exfalso. unfold node_text in E. apply app_eq_nil in E as [E _]. rewrite int_parts in E. apply app_eq_nil in E as [_ E]. apply (digits_nonempty _ E).
Qed.
Lemma nodes_lines : forall vs t, vs <> [] -> hst_nodes vs ++ newline :: t = newline :: concat (map line (map (node_text 10 16 6) (numbered vs))) ++ t.
Proof.
  intros vs t N. unfold hst_nodes. rewrite <- join_lines_newline by (apply map_nonempty, numbered_nonempty; auto).
  rewrite <- join_lines_lines by (apply map_nonempty, numbered_nonempty; auto). unfold line. rewrite <- !app_assoc. reflexivity.
Qed.
Lemma scan_to_faces : forall vs fs, narrow_all 16 6 vs -> scan hst_elem_section None (write_HST vs fs) = scan hst_elem_section (Some newline) (hst_faces fs).
Proof.
  intros vs fs N. rewrite hst_text. rewrite scan_head by (vm_compute; reflexivity).
  assert (S : ~ at_line_start (Some "S"%char)) by (intros [E|E]; discriminate).
  transitivity (scan hst_elem_section (Some newline) (hst_mid ++ "E"%char :: s " 0" ++ newline :: hst_faces fs)).
  - destruct vs as [|v vs].
    + cbn [app]. change (newline :: newline :: hst_mid ++ "E"%char :: s " 0" ++ newline :: hst_faces fs) with ([newline; newline] ++ hst_mid ++ "E"%char :: s " 0" ++ newline :: hst_faces fs).
      apply scan_skip. intros u v E NV. destruct u as [|a u]; [apply elem_needs_start; auto|].
      injection E as <- E. destruct u as [|a u]; [|injection E as _ E; destruct u; [cbn in E; congruence|discriminate]]. cbn in E. subst v.
      apply (fails_cut hst_elem_section "E"%char [newline] (Some newline) (s "NDCOORDINATES" ++ newline :: newline :: s "PANEL TYP" ++ "E"%char :: s " 0" ++ newline :: hst_faces fs)); vm_compute; reflexivity.
    + rewrite nodes_lines by discriminate. change (newline :: concat (map line (map (node_text 10 16 6) (numbered (v :: vs)))) ++ ?t) with ([] ++ newline :: concat (map line (map (node_text 10 16 6) (numbered (v :: vs)))) ++ t).
      rewrite scan_line; [|constructor|auto|apply elem_needs_start; auto|apply elem_needs_start]. unfold numbered. apply scan_nodes. auto.
  - rewrite scan_cut by (vm_compute; reflexivity).
    apply scan_line; [repeat constructor|discriminate|apply elem_needs_start; intros [E|E]; discriminate|apply elem_needs_start].
Qed.
Definition face_texts (fs : list face) : list text := map line (map (fun f => row_text 10 (corners (plus_one f))) fs).
Lemma ids_fit : forall f, ids_ok 10 f -> fits 10 (corners (plus_one f)).
Proof.
  intros f H. unfold fits. rewrite corners_plus. apply Forall_map_intro. intros n I. apply id_width; [lia|]. apply (proj1 (Forall_forall _ _) H n I).
Qed.
Lemma row_after : forall w n l t, after_row (row_text w (n :: l) ++ t).
Proof.
  intros w n l t. unfold row_text. cbn [map concat]. rewrite int_parts. rewrite <- !app_assoc. do 2 eexists. split; [reflexivity|]. split; [apply spaces_repeat|].
  split; [|apply stops_space_word, digits_word]. apply Forall_forall. intros c I. apply repeat_spec in I. subst. intros [E|[E|[]]]; discriminate.
Qed.
Lemma face_texts_eat : forall fs, Forall (ids_ok 10) fs -> forall b l t, In l (face_texts fs) -> at_line_start b -> after_row t ->
  eats b hst_elem_line l t /\ at_line_start (fin b l) /\ after_row (l ++ t).
Proof.
  intros fs H b l t I B A. unfold face_texts in I. rewrite map_map in I. apply in_map_iff in I as (f & <- & I). pose proof (ids_fit f (proj1 (Forall_forall _ _) H f I)) as F.
  unfold line. split; [apply eats_elem_line; auto|]. split; [rewrite fin_last; right; auto|]. rewrite <- app_assoc. apply row_after.
Qed.
Lemma face_texts_filled : forall fs, Forall (fun l => l <> []) (face_texts fs).
Proof. intros. unfold face_texts. rewrite map_map. apply Forall_map_intro. intros f _ E. unfold line in E. apply app_eq_nil in E as [_ E]. discriminate. Qed.
Lemma elem_matches : forall vs fs, narrow_all 16 6 vs -> Forall (ids_ok 10) fs ->
  findall1 hst_elem_section (write_HST vs fs) = match fs with [] => [] | _ => [concat (face_texts fs)] end.
Proof.
  intros vs fs N H. unfold findall1, matches. fold (all_matches hst_elem_section None (write_HST vs fs)).
  rewrite (all_scan _ None _ (Some newline) (hst_faces fs)).
  - destruct fs as [|f fs]; [vm_compute; reflexivity|]. unfold hst_faces. fold (face_texts (f :: fs)).
    assert (E : eats (Some newline) (Plus hst_elem_line) (concat (face_texts (f :: fs))) hst_end).
    { change (face_texts (f :: fs)) with (line (row_text 10 (corners (plus_one f))) :: tl (face_texts (f :: fs))).
      apply (eats_plus_list after_row at_line_start).
      - exact (face_texts_eat (f :: fs) H).
      - apply (face_texts_filled (f :: fs)).
      - right. auto.
      - exists [], hst_end. repeat split; constructor.
      - intros b c _. apply fails_bol_then. apply silent_fails. reflexivity. }
    assert (FE : forall b c, fails hst_elem_section (St b ("E"%char :: tl hst_end) c)).
    { intros b c. apply fails_group, fails_seq, fails_bol_then. apply silent_fails. reflexivity. }
    set (sec := concat (face_texts (f :: fs))) in *.
    assert (NS : sec <> []). { unfold sec. cbn. unfold line. intros Z. apply app_eq_nil in Z as [Z _]. apply app_eq_nil in Z as [_ Z]. discriminate. }
    rewrite (all_step _ _ _ sec [(1, sec)] (fin (Some newline) sec) hst_end [(1, sec)]).
    + rewrite all_none; [reflexivity|]. change hst_end with ([] ++ "E"%char :: tl hst_end).
      cbn [app scan]. rewrite (FE (fin (Some newline) sec) []). vm_compute. reflexivity.
    + apply scan_here. apply takes_group; [reflexivity|]. apply E.
    + auto.
    + rewrite app_length. destruct sec; [congruence|]. cbn [length]. lia.
  - apply scan_to_faces. auto.
  - rewrite hst_text, app_length. cbn [length]. rewrite app_length. cbn [length]. rewrite app_length. cbn [length]. rewrite app_length. cbn [length]. lia.
Qed.

(** ** Reading *)
Lemma words_end : forall t acc c, is_space c = true -> words_from acc (t ++ [c]) = words_from acc t.
Proof.
  induction t as [|a t IH]; intros acc c S; cbn [app words_from].
  - rewrite S. destruct acc; auto.
  - destruct (is_space a); [destruct acc; rewrite IH|rewrite IH]; auto.
Qed.
Lemma words_line : forall l, words (line l) = words l. Proof. intros. apply words_end. reflexivity. Qed.
Lemma findall_nodes : forall vs, narrow_all 16 6 vs -> findall hst_node_line (concat (node_texts 16 10 6 vs)) = node_texts 16 10 6 vs.
Proof.
  intros vs N. unfold findall, matches. fold (all_matches hst_node_line None (concat (node_texts 16 10 6 vs))).
  rewrite (all_list (stops is_digit) (fun _ => True)); auto.
  - rewrite map_map. apply map_id.
  - apply node_texts_eat. auto.
  - apply node_texts_filled.
  - exact I.
  - intros b _. apply silent_fails. reflexivity.
Qed.
Lemma findall_faces : forall fs, Forall (ids_ok 10) fs -> findall hst_elem_line (concat (face_texts fs)) = face_texts fs.
Proof.
  intros fs H. unfold findall, matches. fold (all_matches hst_elem_line None (concat (face_texts fs))).
  rewrite (all_list after_row at_line_start); auto.
  - rewrite map_map. apply map_id.
  - apply face_texts_eat. auto.
  - apply face_texts_filled.
  - left. auto.
  - exists [], []. repeat split; constructor.
  - intros b _. apply fails_bol_then. apply silent_fails. reflexivity.
Qed.
Section HST.
  Variable dbl : N -> Z -> N * positive.
  Lemma read_nodes : forall vs, narrow_all 16 6 vs ->
    mapM (fun l => mapM (to_float dbl) (skipn 1 (words l))) (node_texts 16 10 6 vs) = Ok (map (fun v => map (rd_sci dbl 6) (coordinates v)) vs).
  Proof.
    intros vs N. unfold node_texts. rewrite map_map.
    rewrite (mapM_all _ _ _ _ _ (fun iv => map (rd_sci dbl 6) (coordinates (snd iv)))).
    - f_equal. apply (map_snd_combine _ _ (fun v => map (rd_sci dbl 6) (coordinates v))).
    - intros [i v] I. apply in_combine_seq in I. change (newline :: node_text 10 16 6 (i, v)) with ([newline] ++ node_text 10 16 6 (i, v)). rewrite words_spaces by (repeat constructor).
      unfold node_text. cbn [fst snd]. rewrite (index_words 10 16 (scientific "E" 6)); [|intros; apply sci_word; auto|apply N; auto]. cbn [skipn]. apply floats_sci. auto.
  Qed.
  Lemma read_faces : forall fs, Forall (ids_ok 10) fs ->
    mapM (fun l => mapM to_int (words l)) (face_texts fs) = Ok (map (fun f => map (fun n => Z.of_nat (S n)) (corners f)) fs).
  Proof.
    intros fs H. unfold face_texts. rewrite map_map. apply mapM_all. intros f I. rewrite words_line. unfold row_text.
    rewrite face_words; [|lia|apply (proj1 (Forall_forall _ _) H f I)]. rewrite (ints_read (map S (corners f))). rewrite map_map. reflexivity.
  Qed.
  Lemma load_write_HST : forall vs fs, fs <> [] -> narrow_all 16 6 vs -> Forall (ids_ok 10) fs ->
    load_HST dbl (write_HST vs fs) = Ok (table (map (fun v => map (rd_sci dbl 6) (coordinates v)) vs), Arr2 (map face_row fs)).
  Proof.
    intros vs fs NF N H. unfold load_HST. rewrite node_matches, elem_matches by auto. destruct fs as [|f fs]; [congruence|].
    rewrite findall_faces, read_faces by auto. cbn [bind]. rewrite (np_array_rows _ _ _ 4); [|discriminate|reflexivity]. cbn [bind].
    destruct vs as [|v vs].
    - cbn [bind]. rewrite pred_succ_row. reflexivity.
    - rewrite findall_nodes, read_nodes by auto. cbn [bind]. rewrite (np_array_rows _ _ _ 3); [|discriminate|intros; apply coordinates_length]. cbn [bind]. rewrite pred_succ_row. reflexivity.
  Qed.
  Lemma load_HST_no_face : forall vs, narrow_all 16 6 vs -> load_HST dbl (write_HST vs []) = Raise TypeError.
  Proof.
    intros vs N. unfold load_HST. rewrite node_matches, elem_matches by auto. destruct vs as [|v vs]; [reflexivity|].
    rewrite findall_nodes, read_nodes by auto. cbn [bind]. rewrite (np_array_rows _ _ _ 3); [|discriminate|intros; apply coordinates_length]. reflexivity.
  Qed.
End HST.
