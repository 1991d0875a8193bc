(** Files written by write_DAT are .DAT files as in S_inp. *)
From Coq Require Import Ascii String List Arith NArith ZArith Bool Lia.
From Verif Require Import M_base M_merge M_mesh M_text M_mmio S_text S_files P_text P_mmio P_formats M_regex M_files P_regex P_hst P_tec P_layout P_dat P_msh M_formats M_inp S_inp P_inp.
Import ListNotations.
Local Open Scope nat_scope.

Fixpoint steady (p : text) : bool := match p with [] => true | c :: p' => match p' with [] => negb (is_digit c) | c' :: _ => negb (is_digit c && is_space c') && steady p' end end.
Lemma steady_no : forall a d p', steady (a ++ d :: p') = true -> is_digit d = true -> exists c q, p' = c :: q /\ is_space c = false.
Proof.
  induction a as [|x a IH]; intros d p' S D.
  - cbn [app steady] in S. destruct p' as [|c q]; [rewrite D in S; discriminate|]. exists c, q. split; auto. apply andb_prop in S as [S _]. rewrite D in S. cbn in S. destruct (is_space c); [discriminate|auto].
  - assert (S' : steady (a ++ d :: p') = true). { change ((x :: a) ++ d :: p') with (x :: (a ++ d :: p')) in S. destruct (a ++ d :: p') as [|y l] eqn:E; [destruct a; discriminate|]. cbn [steady] in S. apply andb_prop in S as [_ S]. auto. }
    apply (IH d p' S' D).
Qed.
Lemma calm_after : forall p t, steady p = true -> calm t -> calm (p ++ t).
Proof.
  intros p t S C (a & d & w & x & b & E & D & NW & W & X). apply C. revert a p S E. 
  induction a as [|y a IH]; intros p S E.
  - destruct p as [|c p]; [exists [], d, w, x, b; auto|]. cbn [app] in E. injection E as -> E. destruct (steady_no [] d p S D) as (c' & q & -> & SC). destruct w as [|w0 w]; [congruence|]. cbn [app] in E. injection E as -> _. inversion W; subst. congruence.
  - destruct p as [|c p]; [exists (y :: a), d, w, x, b; auto|]. cbn [app] in E. injection E as -> E. apply (IH p); auto. cbn [steady] in S. destruct p as [|c' p]; auto. apply andb_prop in S as [_ S]. auto.
Qed.
Lemma calm_none : calm [].
Proof. intros (a & d & w & x & b & E & _). destruct a; discriminate. Qed.
Lemma remark_head : forall c p t, c = "$"%char \/ c = "*"%char -> ~ In newline (c :: p) -> steady (c :: p) = true -> ~ In newline t -> calm t -> remark ((c :: p) ++ t).
Proof.
  intros c p t C N S NT T. split; [intros I; apply in_app_or in I as [I|I]; auto|]. split; [exists c, (p ++ t); auto|]. apply calm_after; auto.
Qed.
Lemma no_newline : forall t, forallb (fun c => negb (Ascii.eqb c newline)) t = true -> ~ In newline t.
Proof. intros t F I. rewrite forallb_forall in F. specialize (F _ I). rewrite Ascii.eqb_refl in F. discriminate. Qed.
Lemma remark_word : forall c p, c = "$"%char \/ c = "*"%char -> forallb (fun c => negb (Ascii.eqb c newline)) (c :: p) = true -> steady (c :: p) = true -> remark (c :: p).
Proof. intros c p C N S. rewrite <- (app_nil_r (c :: p)). apply remark_head; auto using no_newline, calm_none. Qed.

Lemma number_digits : forall n, number (digits (N.of_nat n)). Proof. intros n. split; [apply digits_nonempty|apply digits_chars]. Qed.
Lemma decimal_sci : forall k x, decimal (scientific "E" k x).
Proof.
  intros k x. rewrite sci_parts. pose proof (exponent_digits_ok (Z.abs_N (snd (sci_pair k x)))) as (X1 & X2 & _).
  exists (sign (neg x)), (digits (fst (sci_pair k x) / 10 ^ N.of_nat k)), (fixed k (fst (sci_pair k x))), (sci_tail k x). split; [rewrite <- !app_assoc; reflexivity|].
  split; [unfold a_sign, sign; destruct (neg x); auto|]. split; [apply digits_chars|]. split; [apply fixed_digits_chars|]. split; [left; apply digits_nonempty|]. right. unfold sci_tail.
  exists "E"%char, [if (snd (sci_pair k x) <? 0)%Z then "-"%char else "+"%char], (exponent_digits (Z.abs_N (snd (sci_pair k x)))). split; [reflexivity|]. split; [auto|]. split; [unfold a_sign; destruct (snd (sci_pair k x) <? 0)%Z; auto|]. split; auto.
Qed.
Lemma blanks_repeat : forall n, blanks (repeat " "%char n). Proof. intros n. apply Forall_forall. intros c I. apply repeat_spec in I. auto. Qed.
Lemma some_blanks_repeat : forall n, 0 < n -> some_blanks (repeat " "%char n). Proof. intros [|n] L; [lia|]. split; [discriminate|apply blanks_repeat]. Qed.
Lemma node_line_written : forall dbl iv, narrow 13 5 (snd iv) -> dat_node_line dbl (row_line (S (fst iv), fields3 (sci_field "E" 13 5) (snd iv))) (S (fst iv)) (map (rd_sci dbl 5) (coordinates (snd iv))).
Proof.
  intros dbl [i [[x y] z]] N. cbn [fst snd] in *. assert (Nx : length (scientific "E" 5 x) < 13) by (apply N; cbn; auto). assert (Ny : length (scientific "E" 5 y) < 13) by (apply N; cbn; auto). assert (Nz : length (scientific "E" 5 z) < 13) by (apply N; cbn; auto).
  unfold row_line, fields3, int_field, sci_field, rjust. cbn [fst snd]. 
  exists (repeat " "%char (8 - length (digits (N.of_nat (S i))))), (digits (N.of_nat (S i))), (repeat " "%char (13 - length (scientific "E" 5 x))), (scientific "E" 5 x), (repeat " "%char (13 - length (scientific "E" 5 y))), (scientific "E" 5 y), (repeat " "%char (13 - length (scientific "E" 5 z))), (scientific "E" 5 z).
  split; [rewrite <- !app_assoc; reflexivity|].
  split; [apply blanks_repeat|]. do 3 (split; [apply some_blanks_repeat; lia|]). split; [apply number_digits|]. do 3 (split; [apply decimal_sci|]). split; [apply to_int_of_nat|]. apply (floats_sci dbl "E" 5 (x, y, z)). auto.
Qed.
Lemma element_line_written : forall j cs, length (digits (N.of_nat (S j))) < 8 -> fits 8 cs -> length cs = 3 \/ length cs = 4 -> dat_element_line (row_line (S j, row_text 8 cs)) cs.
Proof.
  intros j cs J F L. exists (repeat " "%char (8 - length (digits (N.of_nat (S j))))), (digits (N.of_nat (S j))), (map (fun n => (repeat " "%char (8 - length (digits (N.of_nat n))), digits (N.of_nat n))) cs).
  split; [|split; [|split; [|split; [|split]]]].
  - unfold row_line, int_field, rjust. cbn [fst snd]. rewrite <- app_assoc. do 2 f_equal. unfold row_text. rewrite map_map. reflexivity.
  - apply some_blanks_repeat. lia.
  - apply number_digits.
  - apply Forall_map_intro. intros n I. cbn [fst snd]. split; [apply some_blanks_repeat; pose proof (proj1 (Forall_forall _ _) F n I); cbv beta in *; lia|apply number_digits].
  - rewrite map_length. auto.
  - clear. induction cs; constructor; auto. apply to_int_of_nat.
Qed.
(** The nodes and the sections of the file *)
Definition written_nodes (dbl : N -> Z -> N * positive) (vs : list vertex) : list (nat * list num) := map (fun iv => (S (fst iv), map (rd_sci dbl 5) (coordinates (snd iv)))) (numbered vs).
Definition present {A} (l : list A) : list (list A) := match l with [] => [] | _ => [l] end.
Definition quad_corners (fs : list face) : list (list nat) := map (fun f => map S (corners f)) (filter (fun f => negb (f0 f =? f3 f)) fs).
Definition tri_corners (fs : list face) : list (list nat) := map (fun f => map S [f0 f; f1 f; f2 f]) (filter (fun f => f0 f =? f3 f) fs).
Lemma numbered_index : forall A (l : list A) ja, In ja (numbered l) -> fst ja < length l.
Proof. intros A l [j a] I. apply in_combine_l in I. apply in_seq in I. cbn. lia. Qed.
Section Blocks.
  Variable root : text.
  Hypothesis R : ~ In newline root.
  Hypothesis C : calm root.
  Lemma head_remark : forall type, forallb (fun c => negb (Ascii.eqb c newline)) (s "$ ELEMENT,TYPE=" ++ s type ++ s ",ELSTRUCTURE=") = true -> steady (s "$ ELEMENT,TYPE=" ++ s type ++ s ",ELSTRUCTURE=") = true -> remark (elem_head type root).
  Proof.
    intros type N S. unfold elem_head. replace (s "$ ELEMENT,TYPE=" ++ s type ++ s ",ELSTRUCTURE=" ++ root) with ((s "$ ELEMENT,TYPE=" ++ s type ++ s ",ELSTRUCTURE=") ++ root) by (rewrite <- !app_assoc; reflexivity).
    change (s "$ ELEMENT,TYPE=" ++ s type ++ s ",ELSTRUCTURE=") with ("$"%char :: s " ELEMENT,TYPE=" ++ s type ++ s ",ELSTRUCTURE=") in *. apply remark_head; auto using no_newline.
  Qed.
  Lemma section_written : forall els, Forall (fun jf => length (digits (N.of_nat (S (fst jf)))) < 8 /\ fits 8 (snd jf) /\ (length (snd jf) = 3 \/ length (snd jf) = 4)) els ->
    Forall2 dat_element_line (map row_line (elem_rows els)) (map snd els).
  Proof.
    intros els F. induction F as [|[j cs] els (J & FI & L) F IH]; constructor; auto. apply element_line_written; auto.
  Qed.
  (** Blocks of lines, each of which begins with a line *RETURN *)
  Definition block_section (type : string) (els : list (nat * list nat)) : list (list text * list text) :=
    match els with [] => [] | _ => [([s "*RETURN"; s "$"; elem_head type root], map row_line (elem_rows els))] end.
  Lemma block_moved : forall type els, [s "*RETURN"] ++ block_lines type root els = concat (map (fun he => fst he ++ snd he) (block_section type els)) ++ [s "*RETURN"].
  Proof. intros type [|e els]; [reflexivity|]. unfold block_lines, block_section. cbn [map concat fst snd app]. rewrite app_nil_r. reflexivity. Qed.
  Lemma block_is : forall type els, remark (elem_head type root) -> Forall (fun jf => length (digits (N.of_nat (S (fst jf)))) < 8 /\ fits 8 (snd jf) /\ (length (snd jf) = 3 \/ length (snd jf) = 4)) els ->
    Forall2 (fun he es => fst he <> [] /\ Forall remark (fst he) /\ es <> [] /\ Forall2 dat_element_line (snd he) es) (block_section type els) (present (map snd els)).
  Proof.
    intros type els RH F. destruct els as [|e els]; [constructor|]. unfold block_section, present. constructor; [|constructor]. cbn [fst snd]. split; [discriminate|].
    split; [constructor; [apply remark_word; auto; reflexivity|constructor; [apply remark_word; auto; reflexivity|constructor; [auto|constructor]]]|]. split; [discriminate|]. apply section_written. auto.
  Qed.
End Blocks.
Lemma narrow_numbers : forall fs jf, (N.of_nat (length fs) < 10 ^ 7)%N -> In jf (numbered (A := face) fs) -> length (digits (N.of_nat (S (fst jf)))) < 8.
Proof. intros fs jf L I. apply numbered_index in I. apply (id_width 8); [lia|]. change (N.of_nat (8 - 1)) with 7%N. lia. Qed.
Lemma written_is_dat : forall dbl date root vs fs, vs <> [] -> narrow_all 13 5 vs -> ids_within 7 fs -> (N.of_nat (length fs) < 10 ^ 7)%N -> ~ In newline root -> ~ In newline date -> calm root -> calm date ->
  is_dat dbl (write_DAT date root vs fs) (written_nodes dbl vs) (present (quad_corners fs) ++ present (tri_corners fs)).
Proof.
  intros dbl date root vs fs NV NA ID L R D CR CD. apply (ids_of 8) in ID. split; [|unfold written_nodes; destruct vs; [congruence|discriminate]].
  exists (dat_head date root ++ [s "$ NODE"]), (map row_line (node_rows vs)), (block_section root "Q4C000" (dat_quads fs) ++ block_section root "T3C000" (dat_tris fs)), [s "*RETURN"].
  split; [|split; [|split; [|split]]].
  - rewrite dat_lines_text by auto. unfold dat_file, dat_lines, blocks. do 2 f_equal. rewrite <- (app_assoc (dat_head date root)). do 3 f_equal. rewrite map_app, concat_app, app_assoc, block_moved, <- !app_assoc. rewrite block_moved. reflexivity.
  - apply Forall_app. split; [|constructor; [apply remark_word; auto; reflexivity|constructor]]. unfold dat_head. repeat (apply Forall_cons; [|]); try (apply remark_word; auto; reflexivity); try apply Forall_nil.
    + apply (remark_head "$" (s " Data for DIODORE input file : ")); auto; apply no_newline; reflexivity.
    + apply (remark_head "$" (s " GENERATED BY MESHMAGICK ON ")); auto; apply no_newline; reflexivity.
  - constructor; [apply remark_word; auto; reflexivity|constructor].
  - unfold node_rows, written_nodes. rewrite map_map. assert (N : forall iv, In iv (numbered vs) -> narrow 13 5 (snd iv)) by (intros iv I; apply NA, numbered_in; auto). induction (numbered vs) as [|iv l IH]; cbn [map]; constructor; [apply node_line_written; apply N; left; auto|apply IH; intros; apply N; right; auto].
  - apply Forall2_app.
    + replace (quad_corners fs) with (map snd (dat_quads fs)).
      * apply block_is; [apply head_remark; auto; reflexivity|]. unfold dat_quads. apply Forall_map_intro. intros jf I. apply filter_In in I as [I _]. cbn [fst snd]. split; [apply (narrow_numbers fs); auto|]. split; [|right; reflexivity]. apply fits_of. apply numbered_in in I. apply (proj1 (Forall_forall _ _) ID _ I).
      * unfold dat_quads, quad_corners. rewrite map_map. cbn [snd]. rewrite <- (filter_numbered _ (fun f => negb (f0 f =? f3 f))), map_map. reflexivity.
    + replace (tri_corners fs) with (map snd (dat_tris fs)).
      * apply block_is; [apply head_remark; auto; reflexivity|]. unfold dat_tris. apply Forall_map_intro. intros jf I. apply filter_In in I as [I _]. cbn [fst snd]. split; [apply (narrow_numbers fs); auto|]. split; [|left; reflexivity]. apply numbered_in in I. pose proof (fits_of _ (proj1 (Forall_forall _ _) ID _ I)) as FI. unfold fits in *. rewrite Forall_forall in FI. apply Forall_forall. intros n IN. apply FI. cbn in *. tauto.
      * unfold dat_tris, tri_corners. rewrite map_map. cbn [snd]. rewrite <- (filter_numbered _ (fun f => f0 f =? f3 f)), map_map. reflexivity.
Qed.
