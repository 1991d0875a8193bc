(** C95: Diodore .dat files. [root] is the name of the file without extension in capitals, [date] the date. *)
From Coq Require Import Ascii String List Arith NArith ZArith QArith Bool Lia.
From Verif Require Import M_base M_merge M_mesh M_text M_mmio S_text S_files P_text P_mmio P_formats M_regex M_files P_regex P_hst P_tec P_layout P_dat T_mmio T_files.
Import ListNotations.
Local Open Scope nat_scope.

Lemma without_free : forall ws t w, without ws t -> In w ws -> free w t.
Proof. intros ws t w [N F] I. split; [apply not_in_nonl; auto|]. apply (proj1 (Forall_forall _ _) F w I). Qed.
Lemma within_range : forall n fs, corners_within n fs -> Forall (in_range n) fs. Proof. auto. Qed.
Lemma dat_load : forall dbl date root vs fs, vs <> [] -> narrow_all 13 5 vs -> ids_within 7 fs -> corners_within (length vs) fs -> without dat_words root -> without dat_words date ->
  load_DAT dbl (write_DAT date root vs fs) = Ok (Arr2 (map (fun v => map (rd_sci dbl 5) (coordinates v)) vs), table (map face_row (filter triangle fs ++ filter (fun f => negb (triangle f)) fs))).
Proof.
  intros dbl date root vs fs V N I C R D. apply load_write_DAT; auto; try (apply (without_free dat_words); cbn; auto). apply (ids_of 8). auto.
Qed.
(** The triangles come first, then the other faces, each in the order of the mesh. *)
Definition triangles_first (fs : list face) : list face := filter (fun f => f0 f =? f3 f) fs ++ filter (fun f => negb (f0 f =? f3 f)) fs.
Theorem C95_round_trip : forall dbl date root vs fs, vs <> [] -> exponents_within 5 2 vs -> ids_within 7 fs -> corners_within (length vs) fs -> without dat_words root -> without dat_words date ->
  exists rows, load_DAT dbl (write_DAT date root vs fs) = Ok (Arr2 rows, table (map face_row (triangles_first fs))) /\ Forall2 (saved_vertex (saved_sci dbl 5)) vs rows.
Proof.
  intros dbl date root vs fs V E I C R D. eexists. split; [apply dat_load; auto; apply (narrow_of 13 5 2); auto; lia|]. apply saved_rows. apply rd_sci_saved.
Qed.
(** The file, line by line. Elements have the numbers of the faces in the mesh; quadrangles come first. *)
Lemma elements_written : forall type root (els : list (nat * list nat)), Forall (fun jf => fits 8 (map S (snd jf))) els ->
  writes_elements type root els (block_lines type root (map (fun jf => (fst jf, map S (snd jf))) els)).
Proof.
  intros type root els F. destruct els as [|e els]; [reflexivity|]. unfold writes_elements, block_lines. cbn [map]. eexists. split; [|cbn [app]; do 2 f_equal; reflexivity].
  change ((fst e, map S (snd e)) :: map (fun jf : nat * list nat => (fst jf, map S (snd jf))) els) with (map (fun jf : nat * list nat => (fst jf, map S (snd jf))) (e :: els)).
  unfold elem_rows. rewrite !map_map. apply Forall2_map_r. intros [j cs] X. apply (proj1 (Forall_forall _ _) F) in X. cbn [fst snd] in *.
  unfold row_line, writes_element. cbn [fst snd]. rewrite row_words by auto. apply Forall2_map_r. intros. apply writes_digits.
Qed.
Theorem C95_layout : forall date root vs fs, ~ In newline root -> ~ In newline date -> vs <> [] -> exponents_within 5 2 vs -> ids_within 7 fs ->
  exists nodes quads tris, Forall2 (fun iv l => writes_node (writes_sci 5) iv (words l)) (with_index vs) nodes /\
    writes_elements "Q4C000" root (map (fun jf => (fst jf, corners (snd jf))) (filter (fun jf => negb (f0 (snd jf) =? f3 (snd jf))) (with_index fs))) quads /\
    writes_elements "T3C000" root (map (fun jf => (fst jf, [f0 (snd jf); f1 (snd jf); f2 (snd jf)])) (filter (fun jf => f0 (snd jf) =? f3 (snd jf)) (with_index fs))) tris /\
    lines (write_DAT date root vs fs) =
      [s "$"; s "$ Data for DIODORE input file : " ++ root; s "$ GENERATED BY MESHMAGICK ON " ++ date; s "$"; s "$ NODE"] ++ nodes ++ [s "*RETURN"] ++ quads ++ tris ++ [[]].
Proof.
  intros date root vs fs R D V E I. apply not_in_nonl in R, D. assert (N : narrow_all 13 5 vs) by (apply (narrow_of 13 5 2); auto; lia). apply (ids_of 8) in I.
  exists (map row_line (node_rows vs)), (block_lines "Q4C000" root (dat_quads fs)), (block_lines "T3C000" root (dat_tris fs)). split; [|split; [|split]].
  - unfold node_rows. rewrite map_map. apply Forall2_map_r. intros [i v] X. apply in_combine_seq in X. unfold row_line. cbn [fst snd]. apply (node_written 8 13 5 (i, v)). apply N. auto.
  - rewrite quads_text. apply elements_written. apply Forall_map_intro. intros jf X. apply filter_In in X as [X _]. apply numbered_in in X. apply (proj1 (Forall_forall _ _) I) in X. cbn [snd]. apply fits_of. auto.
  - rewrite tris_text. apply elements_written. apply Forall_map_intro. intros jf X. apply filter_In in X as [X _]. apply numbered_in in X. apply (proj1 (Forall_forall _ _) I), fits_of in X. cbn [snd].
    unfold fits, corners, tri_ids in *. cbn [map] in *. inversion X as [|? ? A X1]; subst. inversion X1 as [|? ? B X2]; subst. inversion X2 as [|? ? C X3]; subst. repeat (apply Forall_cons; [assumption|]). apply Forall_nil.
  - rewrite dat_lines_text by auto. rewrite <- (app_nil_r (concat _)). rewrite lines_concat.
    + unfold dat_lines, dat_head, blocks. rewrite <- !app_assoc. reflexivity.
    + assert (B : forall type l, nonl (s type) -> Forall nonl (block_lines type root l)).
      { intros type [|e l] NT; [constructor|]. unfold block_lines. constructor; [repeat constructor|]. constructor; [unfold elem_head; repeat apply nonl_app; auto; repeat constructor|].
        apply Forall_app. split; [unfold elem_rows; rewrite map_map; apply Forall_map_intro; intros; apply nonl_app; [apply int_nonl|apply row_nonl]|repeat constructor]. }
      unfold dat_lines, dat_head, blocks. apply Forall_app. split; [repeat (apply Forall_cons; [first [apply nonl_app; auto; fail|repeat constructor; fail|apply nonl_app; [repeat constructor|auto]]|]); apply Forall_nil|].
      apply Forall_app. split; [repeat constructor|]. apply Forall_app. split; [|apply Forall_app; split; [repeat constructor|apply Forall_app; split; apply B; repeat constructor]].
      unfold node_rows. rewrite map_map. apply Forall_map_intro. intros iv _. apply (node_text_nonl 8 13 5 iv).
Qed.
(** What is read is not changed by saving and reading it again. *)
Lemma filter_again : forall A (p : A -> bool) l, filter p (filter p l) = filter p l.
Proof. intros A p l. induction l as [|a l IH]; auto. cbn. destruct (p a) eqn:E; auto. cbn. rewrite E, IH. auto. Qed.
Lemma filter_other : forall A (p : A -> bool) l, filter p (filter (fun a => negb (p a)) l) = [].
Proof. intros A p l. induction l as [|a l IH]; auto. cbn. destruct (p a) eqn:E; auto. cbn. rewrite E. auto. Qed.
Lemma other_filter : forall A (p : A -> bool) l, filter (fun a => negb (p a)) (filter p l) = [].
Proof. intros A p l. induction l as [|a l IH]; auto. cbn. destruct (p a) eqn:E; auto. cbn. rewrite E. auto. Qed.
Lemma triangles_first_again : forall fs, triangles_first (triangles_first fs) = triangles_first fs.
Proof. intros fs. unfold triangles_first. rewrite !filter_app, filter_again, filter_other, other_filter, (filter_again _ (fun f => negb (f0 f =? f3 f))). rewrite app_nil_r. reflexivity. Qed.
Theorem C95_again : forall dbl date date' root vs fs vs' fs', doubles dbl -> vs <> [] -> exponents_within 5 2 vs -> ids_within 7 fs -> corners_within (length vs) fs -> without dat_words root -> without dat_words date -> without dat_words date' ->
  load_DAT dbl (write_DAT date root vs fs) = Ok (Arr2 (map coordinates vs'), table (map face_row fs')) ->
  load_DAT dbl (write_DAT date' root vs' fs') = Ok (Arr2 (map coordinates vs'), table (map face_row fs')).
Proof.
  intros dbl date date' root vs fs vs' fs' D V E I C R DT DT' H. assert (N : narrow_all 13 5 vs) by (apply (narrow_of 13 5 2); auto; lia). rewrite dat_load in H by auto.
  injection H as H1 H2. apply table_inj, face_row_inj in H2.
  assert (T : forall v x, In v vs -> In x (coordinates v) -> scientific "E" 5 (rd_sci dbl 5 x) = scientific "E" 5 x).
  { intros v x X Y. apply sci_twice; [auto|lia|]. intros m e M. pose proof (E v x X Y m e M) as L. change (10 ^ Z.of_nat 2)%Z with 100%Z in L. lia. }
  pose proof (rows_same (scientific "E" 5) (rd_sci dbl 5) vs vs' T H1) as S.
  assert (V' : vs' <> []) by (intros ->; inversion S; subst; contradiction).
  assert (RF : forall x y, scientific "E" 5 x = scientific "E" 5 y -> rd_sci dbl 5 x = rd_sci dbl 5 y).
  { intros x y Q. pose proof (to_float_scientific dbl "E" 5 x) as A. pose proof (to_float_scientific dbl "E" 5 y) as B. rewrite Q in A. specialize (A (or_introl eq_refl)). specialize (B (or_introl eq_refl)). unfold rd_sci. rewrite A in B. injection B as B. exact B. }
  assert (P : map (fun v => map (rd_sci dbl 5) (coordinates v)) vs' = map coordinates vs').
  { clear -H1 S RF. rewrite <- H1. clear H1. induction S as [|v v' vs vs' A S IH]; auto. cbn [map]. rewrite IH. f_equal.
    unfold same_text in A. revert A. generalize (coordinates v) (coordinates v'). induction l as [|x l IHl]; intros [|x' l'] A; try discriminate; auto. cbn [map] in *. injection A as A1 A2. rewrite (IHl _ A2), (RF x x'); auto. }
  assert (N' : narrow_all 13 5 vs').
  { clear -S N. induction S as [|v v' vs vs' A S IH]; intros u U; [contradiction|]. destruct U as [<-|U]; [|apply IH; auto; intros w W; apply N; right; auto].
    specialize (N v (or_introl eq_refl)). unfold same_text in A. unfold narrow in *. intros x X. apply in_map with (f := scientific "E" 5) in X. rewrite <- A in X. apply in_map_iff in X as (x0 & <- & X0). apply N. auto. }
  assert (SUB : forall f, In f fs' -> In f fs). { intros f F. rewrite <- H2 in F. apply in_app_or in F as [F|F]; apply filter_In in F; tauto. }
  rewrite dat_load; auto.
  - rewrite P. do 2 f_equal. do 2 f_equal. change (triangles_first fs' = fs'). rewrite <- H2. apply triangles_first_again.
  - apply Forall_forall. intros f F. apply (proj1 (Forall_forall _ _) I). auto.
  - rewrite <- (Forall2_len _ _ _ _ _ S). apply Forall_forall. intros f F. apply (proj1 (Forall_forall _ _) C). auto.
Qed.
Theorem C95_no_vertex : forall dbl date root fs, without [s "NODE"] root -> without [s "NODE"] date -> load_DAT dbl (write_DAT date root [] fs) = Raise IndexError.
Proof. intros dbl date root fs R D. apply load_DAT_no_vertex; eapply without_free; eauto; cbn; auto. Qed.

(** ** Examples *)
Example box_DAT_ok : exponents_within 5 2 box_vs /\ ids_within 7 box_fs /\ corners_within (length box_vs) box_fs.
Proof.
  split; [|split; repeat constructor].
  intros v x V X. unfold exponent_room. intros m e M. apply sci_digits_unique in M as [_ ->]. cbn in V. repeat (destruct V as [<-|V]; [cbn in X; repeat (destruct X as [<-|X]; [vm_compute; reflexivity|]); contradiction|]). contradiction.
Qed.
Definition a_date : text := s "Mon Nov 16 18:46:32 2026".
Lemma no_dat_words : forall t, forallb (fun c => negb (Ascii.eqb c newline)) t = true -> forallb (fun w => absent w t []) dat_words = true -> without dat_words t.
Proof.
  intros t N F. split.
  - intros I. rewrite forallb_forall in N. specialize (N _ I). rewrite Ascii.eqb_refl in N. discriminate.
  - apply Forall_forall. intros w W. rewrite forallb_forall in F. specialize (F w W). assert (NW : w <> []) by (intros ->; cbn in W; intuition discriminate).
    rewrite <- (app_nil_r t). apply absent_contains; auto. apply contains_nil. auto.
Qed.
Example box_DAT_names : without dat_words (s "HULLS/BOX") /\ without dat_words a_date.
Proof. split; apply no_dat_words; reflexivity. Qed.
Example box_DAT : exists rows, load_DAT exact_dbl (write_DAT a_date (s "HULLS/BOX") box_vs box_fs) = Ok (Arr2 rows, Arr2 (map face_row (triangles_first box_fs))) /\ nth 7 rows [] = [Num true 125000 100000; Num false 333333 1000000; Num false 142857 1].
Proof. eexists. split; vm_compute; reflexivity. Qed.
(** The condition on the name matters: when it contains the name of an element type, quadrangles are read a second time as triangles. *)
Definition strip_vs : list vertex := map (fun n => (Num false n 1, Num false (n * n) 1, Num false 0 1)) [0%N; 1%N; 2%N; 3%N; 4%N; 5%N; 6%N; 7%N; 8%N; 9%N].
Definition strip_fs : list face := map (fun i => F4 (2 * i) (2 * i + 1) (2 * i + 3) (2 * i + 2)) [0; 1; 2; 3].
Theorem C95_name_refuted : exists root vs fs rows more, more <> [] /\ ~ In newline root /\ Forall (fun f => f0 f <> f3 f) fs /\
  load_DAT exact_dbl (write_DAT a_date root vs fs) = Ok (Arr2 rows, Arr2 (map face_row (more ++ fs))).
Proof.
  exists (s "T3C000_STRIP"), strip_vs, strip_fs. eexists. exists (map (fun f => F4 (f0 f) (f1 f) (f2 f) (f0 f)) strip_fs). split; [discriminate|]. split; [cbn; intuition discriminate|].
  split; [repeat constructor; discriminate|vm_compute; reflexivity].
Qed.
Print Assumptions C95_round_trip. Print Assumptions C95_layout. Print Assumptions C95_again. Print Assumptions C95_no_vertex. Print Assumptions C95_name_refuted.
