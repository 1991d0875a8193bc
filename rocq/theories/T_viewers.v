(** C97 and C98: the files for viewers, in the formats of the VTK library and of Wavefront. Lines are lists of words. *)
From Coq Require Import Ascii String List Arith NArith ZArith QArith Bool Lia.
From Verif Require Import M_base M_merge M_mesh M_text M_mmio S_text S_files P_text P_mmio P_formats M_regex M_files P_regex P_hst P_tec P_layout P_dat P_msh T_mmio T_files.
Import ListNotations.
Local Open Scope nat_scope.

Lemma word_then : forall w c r, word w -> is_space c = true -> words (w ++ c :: r) = w :: words r.
Proof. intros w c r W C. rewrite words_word; auto; [|right; eauto]. f_equal. apply (words_spaces [c]). constructor; auto. Qed.
Lemma word_only : forall w, word w -> words w = [w].
Proof. intros w W. transitivity (words (w ++ [])); [rewrite app_nil_r; auto|]. rewrite words_word; auto. Qed.
Lemma literal_word : forall t, forallb (fun c => negb (is_space c)) t = true -> t <> [] -> word t.
Proof. intros t F N. split; auto. apply Forall_forall. intros c C. rewrite forallb_forall in F. apply negb_true_iff. auto. Qed.
Lemma numbers_tail : forall c l, word c -> words (c ++ concat (map (fun n => " "%char :: digits (N.of_nat n)) l)) = c :: map (fun n => digits (N.of_nat n)) l.
Proof.
  intros c l C. assert (A : Forall apart (map (fun m => ([" "%char], digits (N.of_nat m))) l)) by (apply Forall_map_intro; intros m _; repeat split; first [discriminate|apply digits_word|repeat constructor]).
  assert (J : concat (map (fun m => " "%char :: digits (N.of_nat m)) l) = join (map (fun m => ([" "%char], digits (N.of_nat m))) l)) by (unfold join; rewrite map_map; reflexivity).
  rewrite J. destruct (words_apart _ A) as [W S]. rewrite words_word; [|auto|exact S]. rewrite W, map_map. reflexivity.
Qed.
Lemma vtk_words : forall f, words (vtk_face f) = digits (N.of_nat (length (polygon f))) :: map (fun n => digits (N.of_nat n)) (polygon f).
Proof. intros f. unfold vtk_face, polygon. destruct (f0 f =? f3 f); apply numbers_tail; apply literal_word; try reflexivity; discriminate. Qed.

Definition vtk_point (v : vertex) : text := let '(x, y, z) := v in fixed_point 6 x ++ s " " ++ fixed_point 6 y ++ s " " ++ fixed_point 6 z.
Lemma point_words : forall v, words (vtk_point v) = map (fixed_point 6) (coordinates v).
Proof.
  intros [[x y] z]. unfold vtk_point. cbn [coordinates map app]. change (s " ") with [" "%char]. cbn [app]. rewrite !word_then by (reflexivity || apply fixed_word).
  f_equal. f_equal. apply word_only, fixed_word.
Qed.
Definition vtk_size (fs : list face) : nat := 4 * length (filter (fun f => f0 f =? f3 f) fs) + 5 * length (filter (fun f => negb (f0 f =? f3 f)) fs).
Lemma literal_nonl : forall t, forallb (fun c => negb (Ascii.eqb c newline)) t = true -> nonl t.
Proof. intros t F. apply Forall_forall. intros c C. rewrite forallb_forall in F. apply negb_true_iff. auto. Qed.
Ltac nonls := repeat first [ assumption | apply digits_nonl | apply int_nonl | apply fixed_nonl | (apply literal_nonl; reflexivity) | apply nonl_app ].
Lemma vtk_lines : forall date vs fs, nonl date -> lines (write_VTK date vs fs) =
  [s "# vtk DataFile Version 4.0"; s "vtk file generated by meshmagick on " ++ date; s "ASCII"; s "DATASET POLYDATA"; s "POINTS " ++ digits (N.of_nat (length vs)) ++ s " float"] ++
  map vtk_point vs ++ [s "POLYGONS " ++ digits (N.of_nat (length fs)) ++ s " " ++ digits (N.of_nat (vtk_size fs))] ++ map vtk_face fs ++ [[]].
Proof.
  intros date vs fs D. unfold write_VTK. do 5 (rewrite lines_line by nonls). cbn [app]. do 5 f_equal.
  rewrite (map_ext _ (fun v => line (vtk_point v))) by (intros [[x y] z]; reflexivity). rewrite <- (map_map vtk_point line).
  assert (FW : forall x, nonl (fixed_point 6 x)) by (intros; apply word_nonl, fixed_word).
  rewrite lines_concat by (apply Forall_map_intro; intros [[x y] z] _; unfold vtk_point; repeat first [apply FW|apply nonl_app|apply literal_nonl; reflexivity]). f_equal.
  rewrite lines_line by nonls. f_equal. rewrite <- (map_map vtk_face line), <- (app_nil_r (concat _)), lines_concat; [reflexivity|].
  apply Forall_map_intro. intros f _. unfold vtk_face.
  assert (G : forall l, nonl (concat (map (fun n => " "%char :: digits (N.of_nat n)) l))) by (induction l as [|n l IH]; [constructor|]; cbn [map concat]; apply (nonl_app (" "%char :: digits _)); auto; constructor; [reflexivity|apply digits_nonl]).
  destruct (f0 f =? f3 f); apply nonl_app; auto; apply literal_nonl; reflexivity.
Qed.
Lemma polygons_size : forall fs, length (concat (map (fun f => words (vtk_face f)) fs)) = vtk_size fs.
Proof.
  induction fs as [|f fs IH]; [reflexivity|]. cbn [map concat]. rewrite app_length, IH, vtk_words. cbn [length]. rewrite map_length. unfold vtk_size, polygon. cbn [filter].
  destruct (f0 f =? f3 f); cbn [negb length corners]; lia.
Qed.
Lemma polygons_read : forall fs, vtk_polygons (length fs) (concat (map (fun f => words (vtk_face f)) fs)) = Some (map (fun f => map (fun n => digits (N.of_nat n)) (polygon f)) fs).
Proof.
  induction fs as [|f fs IH]; [reflexivity|]. cbn [length map concat]. rewrite vtk_words. cbn [app vtk_polygons]. rewrite to_int_of_nat, Nat2Z.id.
  set (P := map (fun n => digits (N.of_nat n)) (polygon f)). assert (L : length (polygon f) = length P) by (unfold P; rewrite map_length; auto). rewrite L.
  rewrite (proj2 (Nat.ltb_ge _ _)) by (rewrite app_length; lia). rewrite firstn_app, firstn_all, Nat.sub_diag, firstn_O, app_nil_r, skipn_app, skipn_all, Nat.sub_diag, skipn_O. cbn [app]. rewrite IH. reflexivity.
Qed.
Lemma concat_length3 : forall vs, length (concat (map (fun v => words (vtk_point v)) vs)) = 3 * length vs.
Proof. induction vs as [|v vs IH]; [reflexivity|]. cbn [map concat]. rewrite app_length, IH, point_words, map_length. destruct v as [[x y] z]. cbn [coordinates length]. lia. Qed.
Lemma Forall2_concat : forall A B C (R : A -> B -> Prop) (g : C -> list A) (h : C -> list B) l, (forall x, In x l -> Forall2 R (g x) (h x)) -> Forall2 R (flat_map g l) (concat (map h l)).
Proof. intros A B C R g h. induction l as [|x l IH]; intros H; [constructor|]. cbn [flat_map map concat]. apply Forall2_app; [apply H; left; auto|apply IH; intros; apply H; right; auto]. Qed.

(** Any mesh is read back by a reader that follows the format: coordinates to six decimals, polygons without repeated corner. *)
Theorem C97_read : forall date vs fs, ~ In newline date ->
  exists xs ps, vtk_read (write_VTK date vs fs) = Some (xs, ps) /\ Forall2 (writes_fixed 6) (flat_map coordinates vs) xs /\ Forall2 (Forall2 writes_nat) (map polygon fs) ps.
Proof.
  intros date vs fs D. apply not_in_nonl in D. exists (concat (map (fun v => words (vtk_point v)) vs)), (map (fun f => map (fun n => digits (N.of_nat n)) (polygon f)) fs).
  split; [|split].
  - unfold vtk_read. rewrite vtk_lines by auto. cbn [app skipn map concat]. rewrite !map_app, !concat_app, !map_map.
    assert (W1 : words (s "POINTS " ++ digits (N.of_nat (length vs)) ++ s " float") = [s "POINTS"; digits (N.of_nat (length vs)); s "float"]).
    { change (words (s "POINTS" ++ " "%char :: digits (N.of_nat (length vs)) ++ " "%char :: s "float") = [s "POINTS"; digits (N.of_nat (length vs)); s "float"]).
      rewrite !word_then by (reflexivity || apply digits_word || (apply literal_word; [reflexivity|discriminate])). reflexivity. }
    assert (W2 : words (s "POLYGONS " ++ digits (N.of_nat (length fs)) ++ s " " ++ digits (N.of_nat (vtk_size fs))) = [s "POLYGONS"; digits (N.of_nat (length fs)); digits (N.of_nat (vtk_size fs))]).
    { change (words (s "POLYGONS" ++ " "%char :: digits (N.of_nat (length fs)) ++ " "%char :: digits (N.of_nat (vtk_size fs))) = [s "POLYGONS"; digits (N.of_nat (length fs)); digits (N.of_nat (vtk_size fs))]).
      rewrite !word_then by (reflexivity || apply digits_word || (apply literal_word; [reflexivity|discriminate])). rewrite digits_line. reflexivity. }
    rewrite W1. cbn [map concat]. rewrite W2. cbn [app]. rewrite to_int_of_nat, Nat2Z.id.
    set (PT := concat (map (fun v => words (vtk_point v)) vs)). assert (LP : length PT = 3 * length vs) by apply concat_length3.
    change (words []) with (@nil text). cbn [concat]. rewrite ?app_nil_r. rewrite <- LP. rewrite skipn_app, skipn_all, Nat.sub_diag, skipn_O. cbn [app].
    assert (EQ : concat (map words (map vtk_face fs ++ [[]])) = concat (map (fun f => words (vtk_face f)) fs)) by (rewrite map_app, concat_app, map_map; apply app_nil_r). rewrite EQ.
    rewrite !to_int_of_nat. rewrite polygons_size, Z.eqb_refl, Nat2Z.id, polygons_read.
    rewrite firstn_app, firstn_all, Nat.sub_diag, firstn_O, app_nil_r. reflexivity.
  - apply Forall2_concat. intros v _. rewrite point_words. apply Forall2_map_r. intros x _. apply fixed_written.
  - rewrite <- (map_map polygon). apply Forall2_map_r. intros l _. apply Forall2_map_r. intros n _. apply writes_digits.
Qed.
Theorem C97_header : forall date vs fs, ~ In newline date ->
  firstn 4 (lines (write_VTK date vs fs)) = [s "# vtk DataFile Version 4.0"; s "vtk file generated by meshmagick on " ++ date; s "ASCII"; s "DATASET POLYDATA"].
Proof. intros date vs fs D. apply not_in_nonl in D. rewrite vtk_lines by auto. reflexivity. Qed.

(** ** Wavefront *)
Definition obj_vertex (v : vertex) : text := let '(x, y, z) := v in s "v  " ++ fixed_field 15 6 x ++ tab :: fixed_field 15 6 y ++ tab :: fixed_field 15 6 z.
Lemma field_then : forall w k x c r, is_space c = true -> words (fixed_field w k x ++ c :: r) = fixed_point k x :: words r.
Proof.
  intros w k x c r C. unfold fixed_field, rjust. rewrite <- app_assoc. rewrite words_spaces by apply spaces_repeat. apply word_then; auto. apply fixed_word.
Qed.
Lemma field_last : forall w k x, words (fixed_field w k x) = [fixed_point k x].
Proof. intros w k x. unfold fixed_field, rjust. rewrite words_spaces by apply spaces_repeat. apply word_only, fixed_word. Qed.
Lemma int_then : forall w n c r, is_space c = true -> words (int_field w n ++ c :: r) = digits (N.of_nat n) :: words r.
Proof. intros w n c r C. rewrite int_parts, <- app_assoc. rewrite words_spaces by apply spaces_repeat. apply word_then; auto. apply digits_word. Qed.
Lemma int_last : forall w n, words (int_field w n) = [digits (N.of_nat n)].
Proof. intros w n. rewrite int_parts, words_spaces by apply spaces_repeat. apply digits_line. Qed.
Lemma blank_words : forall r, words (" "%char :: r) = words r. Proof. intros r. apply (words_spaces [" "%char]). repeat constructor. Qed.
Lemma obj_vertex_words : forall v, words (obj_vertex v) = s "v" :: map (fixed_point 6) (coordinates v).
Proof.
  intros [[x y] z]. unfold obj_vertex. change (words (s "v" ++ " "%char :: " "%char :: fixed_field 15 6 x ++ tab :: fixed_field 15 6 y ++ tab :: fixed_field 15 6 z) = s "v" :: map (fixed_point 6) (coordinates (x, y, z))).
  rewrite word_then by (reflexivity || (apply literal_word; [reflexivity|discriminate])). rewrite blank_words. rewrite !field_then by reflexivity. rewrite field_last. reflexivity.
Qed.
Lemma obj_face_words : forall f, words (obj_face f) = s "f" :: map (fun n => digits (N.of_nat (S n))) (polygon f).
Proof.
  intros f. unfold obj_face, polygon. destruct (f0 f =? f3 f).
  - change (words (s "f" ++ " "%char :: " "%char :: int_field 10 (S (f0 f)) ++ " "%char :: " "%char :: int_field 10 (S (f1 f)) ++ " "%char :: " "%char :: int_field 10 (S (f2 f)) ++ []) = s "f" :: map (fun n => digits (N.of_nat (S n))) [f0 f; f1 f; f2 f]).
    rewrite word_then by (reflexivity || (apply literal_word; [reflexivity|discriminate])). rewrite blank_words, int_then, blank_words, int_then, blank_words, app_nil_r, int_last by reflexivity. reflexivity.
  - change (words (s "f" ++ " "%char :: " "%char :: int_field 10 (S (f0 f)) ++ " "%char :: " "%char :: int_field 10 (S (f1 f)) ++ " "%char :: " "%char :: int_field 10 (S (f2 f)) ++ " "%char :: " "%char :: int_field 10 (S (f3 f))) = s "f" :: map (fun n => digits (N.of_nat (S n))) (corners f)).
    rewrite word_then by (reflexivity || (apply literal_word; [reflexivity|discriminate])). rewrite blank_words, int_then, blank_words, int_then, blank_words, int_then, blank_words, int_last by reflexivity. reflexivity.
Qed.
Definition obj_head (date : text) (n : nat) : list text :=
  [s "# Wavefront OBJ file exported by Meshmagick (Copyright Ecole Centrale de Nantes)"; s "# File Created: " ++ date; []; []; s "# Vertices: " ++ digits (N.of_nat n); []].
Definition obj_mid (n : nat) : list text := [[]; []; []; s "# Faces: " ++ digits (N.of_nat n); []].
Lemma obj_lines : forall date vs fs, nonl date -> lines (write_OBJ date vs fs) = obj_head date (length vs) ++ map obj_vertex vs ++ obj_mid (length fs) ++ map obj_face fs ++ [[]].
Proof.
  intros date vs fs D. unfold write_OBJ, obj_head, obj_mid. do 6 (rewrite lines_line by nonls). cbn [app]. do 6 f_equal.
  rewrite (map_ext _ (fun v => line (obj_vertex v))) by (intros [[x y] z]; reflexivity). rewrite <- (map_map obj_vertex line).
  rewrite lines_concat by (apply Forall_map_intro; intros [[x y] z] _; unfold obj_vertex; apply nonl_app; [apply literal_nonl; reflexivity|]; apply nonl_app; [apply fixed_nonl|]; apply Forall_cons; [reflexivity|]; apply nonl_app; [apply fixed_nonl|]; apply Forall_cons; [reflexivity|apply fixed_nonl]).
  f_equal. do 5 (rewrite lines_line by nonls). do 5 f_equal. rewrite <- (map_map obj_face line), <- (app_nil_r (concat _)), lines_concat; [reflexivity|].
  apply Forall_map_intro. intros f _. unfold obj_face. destruct (f0 f =? f3 f); nonls.
Qed.
Definition entry (letter : string) (l : text) : list (list text) := match words l with w :: r => if is_word letter w then [r] else [] | [] => [] end.
Lemma comment_words : forall t, exists w r, words (s "# " ++ t) = ("#"%char :: w) :: r.
Proof. intros t. exists [], (words t). change (words (s "#" ++ " "%char :: t) = s "#" :: words t). apply word_then; [apply literal_word; [reflexivity|discriminate]|reflexivity]. Qed.
Lemma entry_comment : forall letter t, is_word letter (s "#") = false -> entry letter (s "# " ++ t) = [].
Proof. intros letter t H. unfold entry. change (s "# " ++ t) with (s "#" ++ " "%char :: t). rewrite word_then by (reflexivity || (apply literal_word; [reflexivity|discriminate])). rewrite H. auto. Qed.
Lemma flat_single : forall A (g : A -> list text) (f : A -> text) letter l, (forall x, entry letter (f x) = [g x]) -> flat_map (entry letter) (map f l) = map g l.
Proof. intros A g f letter l H. induction l as [|x l IH]; auto. cbn [map flat_map]. rewrite H, IH. auto. Qed.
Lemma flat_none : forall A (f : A -> text) letter l, (forall x, entry letter (f x) = []) -> flat_map (entry letter) (map f l) = [].
Proof. intros A f letter l H. induction l as [|x l IH]; auto. cbn [map flat_map]. rewrite H, IH. auto. Qed.
Lemma head_entries : forall letter date n, is_word letter (s "#") = false -> flat_map (entry letter) (obj_head date n) = [].
Proof.
  intros letter date n H. unfold obj_head. cbn [flat_map].
  change (s "# File Created: " ++ date) with (s "# " ++ s "File Created: " ++ date). change (s "# Vertices: " ++ digits (N.of_nat n)) with (s "# " ++ s "Vertices: " ++ digits (N.of_nat n)).
  change (s "# Wavefront OBJ file exported by Meshmagick (Copyright Ecole Centrale de Nantes)") with (s "# " ++ s "Wavefront OBJ file exported by Meshmagick (Copyright Ecole Centrale de Nantes)").
  rewrite !entry_comment by auto. reflexivity.
Qed.
Lemma mid_entries : forall letter n, is_word letter (s "#") = false -> flat_map (entry letter) (obj_mid n) = [].
Proof. intros letter n H. unfold obj_mid. cbn [flat_map]. change (s "# Faces: " ++ digits (N.of_nat n)) with (s "# " ++ s "Faces: " ++ digits (N.of_nat n)). rewrite entry_comment by auto. reflexivity. Qed.
Theorem C98_read : forall date vs fs, ~ In newline date ->
  Forall2 (fun v => Forall2 (writes_fixed 6) (coordinates v)) vs (obj_entries "v" (write_OBJ date vs fs)) /\
  Forall2 (fun f => Forall2 writes_nat (map S (polygon f))) fs (obj_entries "f" (write_OBJ date vs fs)) /\
  Forall obj_line (lines (write_OBJ date vs fs)).
Proof.
  intros date vs fs D. apply not_in_nonl in D. unfold obj_entries. rewrite obj_lines by auto. fold (entry "v") (entry "f").
  change (Forall2 (fun v => Forall2 (writes_fixed 6) (coordinates v)) vs (flat_map (entry "v") (obj_head date (length vs) ++ map obj_vertex vs ++ obj_mid (length fs) ++ map obj_face fs ++ [[]])) /\
    Forall2 (fun f => Forall2 writes_nat (map S (polygon f))) fs (flat_map (entry "f") (obj_head date (length vs) ++ map obj_vertex vs ++ obj_mid (length fs) ++ map obj_face fs ++ [[]])) /\
    Forall obj_line (obj_head date (length vs) ++ map obj_vertex vs ++ obj_mid (length fs) ++ map obj_face fs ++ [[]])).
  rewrite !flat_map_app, !head_entries, !mid_entries by reflexivity. cbn [app flat_map]. split; [|split].
  - rewrite (flat_single _ (fun v => map (fixed_point 6) (coordinates v))) by (intros v; unfold entry; rewrite obj_vertex_words; reflexivity).
    rewrite flat_none by (intros f; unfold entry; rewrite obj_face_words; reflexivity). rewrite app_nil_r. apply Forall2_map_r. intros v _. apply Forall2_map_r. intros x _. apply fixed_written.
  - rewrite (flat_none _ obj_vertex) by (intros v; unfold entry; rewrite obj_vertex_words; reflexivity).
    rewrite (flat_single _ (fun f => map (fun n => digits (N.of_nat n)) (map S (polygon f)))) by (intros f; unfold entry; rewrite obj_face_words, map_map; reflexivity).
    cbn [app]. rewrite app_nil_r. apply Forall2_map_r. intros f _. apply Forall2_map_r. intros n _. apply writes_digits.
  - assert (CM : forall t, obj_line (s "# " ++ t)) by (intros t; right; destruct (comment_words t) as (w & r & E); do 2 eexists; split; [exact E|]; right; right; eauto).
    assert (BL : obj_line []) by (left; reflexivity).
    repeat (apply Forall_app; split).
    + unfold obj_head. change (s "# File Created: " ++ date) with (s "# " ++ s "File Created: " ++ date). change (s "# Vertices: " ++ digits (N.of_nat (length vs))) with (s "# " ++ s "Vertices: " ++ digits (N.of_nat (length vs))).
      change (s "# Wavefront OBJ file exported by Meshmagick (Copyright Ecole Centrale de Nantes)") with (s "# " ++ s "Wavefront OBJ file exported by Meshmagick (Copyright Ecole Centrale de Nantes)").
      apply Forall_cons; [apply CM|]. apply Forall_cons; [apply CM|]. do 2 (apply Forall_cons; [exact BL|]). apply Forall_cons; [apply CM|]. apply Forall_cons; [exact BL|apply Forall_nil].
    + apply Forall_map_intro. intros v _. right. rewrite obj_vertex_words. eauto.
    + unfold obj_mid. change (s "# Faces: " ++ digits (N.of_nat (length fs))) with (s "# " ++ s "Faces: " ++ digits (N.of_nat (length fs))).
      do 3 (apply Forall_cons; [exact BL|]). apply Forall_cons; [apply CM|]. apply Forall_cons; [exact BL|apply Forall_nil].
    + apply Forall_map_intro. intros f _. right. rewrite obj_face_words. eauto 6.
    + apply Forall_cons; [exact BL|apply Forall_nil].
Qed.

(** ** Examples *)
Definition viewed_on : text := s "Mon Nov 16 18:46:32 2026".
Example box_VTK : exists xs, vtk_read (write_VTK viewed_on box_vs box_fs) = Some (xs, map (fun f => map (fun n => digits (N.of_nat n)) (polygon f)) box_fs) /\ firstn 3 xs = [s "-1.250000"; s "-0.000000"; s "-2.500000"] /\ length xs = 24.
Proof. eexists. split; [vm_compute; reflexivity|]. split; reflexivity. Qed.
Example box_OBJ : nth 5 (obj_entries "f" (write_OBJ viewed_on box_vs box_fs)) [] = map (fun n => digits (N.of_nat (S n))) (polygon (nth 5 box_fs (F4 0 0 0 0))) /\ length (obj_entries "v" (write_OBJ viewed_on box_vs box_fs)) = 8.
Proof. split; vm_compute; reflexivity. Qed.
Print Assumptions C97_read. Print Assumptions C97_header. Print Assumptions C98_read.
