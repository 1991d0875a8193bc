(** The lines of the files in HST and TEC formats. *)
From Coq Require Import Ascii String List Arith NArith ZArith Bool Lia.
From Verif Require Import M_base M_merge M_mesh M_text M_mmio S_text S_files P_text P_mmio P_formats M_regex M_files P_regex P_hst P_tec.
Import ListNotations.
Local Open Scope nat_scope.

Lemma narrow_of : forall w k p vs, 2 <= p -> 5 + k + p < w -> exponents_within k p vs -> narrow_all w k vs.
Proof. intros w k p vs P L H v V x X. pose proof (scientific_length "E" k p x P (H v x V X)). lia. Qed.
Lemma ids_of : forall w fs, ids_within (w - 1) fs -> Forall (ids_ok w) fs.
Proof. intros w fs H. eapply Forall_impl; [|exact H]. intros f F. eapply Forall_impl; [|exact F]. intros n N. cbv beta in *. replace (N.of_nat (S n)) with (N.of_nat n + 1)%N by lia. exact N. Qed.
Lemma writes_digits : forall n, writes_nat n (digits (N.of_nat n)). Proof. intros. apply to_int_of_nat. Qed.
Lemma sci_written : forall k x, writes_sci k x (scientific "E" k x).
Proof. intros k x dbl. eexists. split; [apply to_float_scientific; auto|apply rd_sci_saved]. Qed.
Lemma fixed_written : forall k x, writes_fixed k x (fixed_point k x).
Proof. intros k x dbl. eexists. split; [apply to_float_fixed|apply rd_fixed_saved]. Qed.
Lemma Forall2_map_r : forall A B (R : A -> B -> Prop) g l, (forall x, In x l -> R x (g x)) -> Forall2 R l (map g l).
Proof. intros A B R g. induction l as [|a l IH]; intros H; constructor; [apply H; cbn; auto|apply IH; intros; apply H; cbn; auto]. Qed.
Lemma node_written : forall wi w k iv, narrow w k (snd iv) -> writes_node (writes_sci k) iv (words (node_text wi w k iv)).
Proof.
  intros wi w k iv N. unfold node_text. rewrite (index_words wi w (scientific "E" k)); [|intros; apply sci_word; auto|apply N].
  do 2 eexists. split; [reflexivity|]. split; [apply writes_digits|]. apply Forall2_map_r. intros. apply sci_written.
Qed.
Lemma face_written : forall w f, 2 <= w -> ids_ok w f -> writes_face f (words (concat (map (int_field w) (corners (plus_one f))))).
Proof. intros w f W H. rewrite face_words by auto. apply Forall2_map_r. intros. apply writes_digits. Qed.
Lemma join_more : forall ls t, ls <> [] -> join_lines ls ++ newline :: t = concat (map line ls) ++ t.
Proof. intros ls t N. rewrite <- join_lines_lines by auto. unfold line. rewrite <- app_assoc. reflexivity. Qed.
Lemma HST_lines : forall vs fs, vs <> [] -> fs <> [] ->
  lines (write_HST vs fs) = [s "PROJECT:"; s "USERS:   meshmagick"; []; s "NBODY   1"; s "RHO   1025.0"; s "GRAVITY   9.81"; []; s "COORDINATES"] ++
    map (node_text 10 16 6) (with_index vs) ++ [s "ENDCOORDINATES"; []; s "PANEL TYPE 0"] ++
    map (fun f => concat (map (int_field 10) (corners (plus_one f)))) fs ++ [s "ENDPANEL"; []; s "ENDFILE"; []].
Proof.
  intros vs fs V F. unfold write_HST. do 8 (rewrite lines_line by (repeat constructor)). cbn [app]. do 8 f_equal.
  change (fun iv => int_field 10 (S (fst iv)) ++ fields3 (sci_field "E" 16 6) (snd iv)) with (node_text 10 16 6).
  rewrite join_more by (apply map_nonempty, numbered_nonempty; auto). rewrite lines_concat by (apply Forall_map_intro; intros; apply node_text_nonl).
  unfold with_index, numbered. f_equal. do 3 (rewrite lines_line by (repeat constructor)). cbn [app]. do 3 f_equal.
  rewrite join_more by (apply map_nonempty; auto). rewrite lines_concat by (apply Forall_map_intro; intros; apply face_nonl). f_equal.
Qed.
Lemma HST_layout : forall vs fs, vs <> [] -> fs <> [] -> narrow_all 16 6 vs -> Forall (ids_ok 10) fs ->
  exists nodes panels, Forall2 (writes_node (writes_sci 6)) (with_index vs) nodes /\ Forall2 writes_face fs panels /\
    map words (lines (write_HST vs fs)) = [[s "PROJECT:"]; [s "USERS:"; s "meshmagick"]; []; [s "NBODY"; s "1"]; [s "RHO"; s "1025.0"]; [s "GRAVITY"; s "9.81"]; []; [s "COORDINATES"]] ++
      nodes ++ [[s "ENDCOORDINATES"]; []; [s "PANEL"; s "TYPE"; s "0"]] ++ panels ++ [[s "ENDPANEL"]; []; [s "ENDFILE"]; []].
Proof.
  intros vs fs V F N I. rewrite HST_lines by auto. rewrite !map_app, !map_map.
  do 2 eexists. split; [apply Forall2_map_r|split; [apply Forall2_map_r|reflexivity]].
  - intros [i v] H. apply in_combine_seq in H. apply node_written. apply N. auto.
  - intros f H. apply face_written; [lia|]. apply (proj1 (Forall_forall _ _) I f H).
Qed.
Definition zone_line (vs : list vertex) (fs : list face) : text := s "N=" ++ int_field 10 (length vs) ++ s " ,E=" ++ int_field 10 (length fs) ++ s " , F=FEPOINT, ET=QUADRILATERAL".
Lemma TEC_lines : forall name vs fs, nonl name -> vs <> [] -> fs <> [] ->
  lines (write_TEC name vs fs) = (s "TITLE = " ++ quote :: s " THIS FILE WAS GENERATED BY MESHMAGICK - FICHIER : " ++ name ++ s " " ++ quote :: s " ") ::
    (s "VARIABLES = " ++ quote :: s "X" ++ quote :: s "," ++ quote :: s "Y" ++ quote :: s "," ++ quote :: s "Z" ++ quote :: s " ") ::
    (s "ZONE T=" ++ quote :: s "MESH" ++ quote :: s " ") :: zone_line vs fs ::
    map (fields3 (sci_field "E" 16 6)) vs ++ map (fun f => concat (map (int_field 10) (corners (plus_one f)))) fs ++ [[]].
Proof.
  intros name vs fs NN V F. unfold write_TEC.
  rewrite lines_line; [|repeat first [constructor; [reflexivity|] | apply nonl_app; [auto|] | constructor]]. f_equal.
  do 2 (rewrite lines_line by (repeat constructor); f_equal).
  rewrite lines_line by (repeat first [apply int_nonl | apply nonl_app]; repeat constructor). unfold zone_line. f_equal.
  rewrite join_lines_lines by (apply map_nonempty; auto). rewrite lines_concat by (apply Forall_map_intro; intros; apply nat_vertex_nonl; reflexivity). f_equal.
  rewrite join_lines_lines by (apply map_nonempty; auto). rewrite <- (app_nil_r (concat _)). rewrite lines_concat by (apply Forall_map_intro; intros; apply face_nonl). reflexivity.
Qed.
Lemma zone_words : forall vs fs, length (digits (N.of_nat (length vs))) < 10 -> length (digits (N.of_nat (length fs))) < 10 ->
  words (zone_line vs fs) = [s "N="; digits (N.of_nat (length vs)); s ",E="; digits (N.of_nat (length fs)); s ","; s "F=FEPOINT,"; s "ET=QUADRILATERAL"].
Proof.
  intros vs fs A B.
  replace (zone_line vs fs) with (join [([], s "N="); cell 10 (digits (N.of_nat (length vs))); (s " ", s ",E="); cell 10 (digits (N.of_nat (length fs))); (s " ", s ","); (s " ", s "F=FEPOINT,"); (s " ", s "ET=QUADRILATERAL")]).
  2: { unfold join, zone_line, int_field, rjust. cbn [map concat fst snd cell]. rewrite !app_nil_r, <- !app_assoc. reflexivity. }
  assert (W : forall t, t <> [] -> forallb (fun c => negb (is_space c)) t = true -> word t).
  { intros t NE H. split; auto. apply Forall_forall. intros c C. rewrite forallb_forall in H. apply negb_true_iff, H, C. }
  rewrite words_join; [reflexivity|]. split; [constructor|]. split; [apply W; [discriminate|reflexivity]|].
  repeat first [apply Forall_cons; [first [apply cell_apart; [apply digits_word|auto; fail] | split; [repeat constructor|split; [discriminate|apply W; [discriminate|reflexivity]]]]|] | apply Forall_nil].
Qed.
Lemma vertex_written : forall w k v, narrow w k v -> writes_vertex (writes_sci k) v (words (fields3 (sci_field "E" w k) v)).
Proof.
  intros w k v N. rewrite (plain_words w (scientific "E" k)); [|intros; apply sci_word; reflexivity|apply N]. apply Forall2_map_r. intros. apply sci_written.
Qed.
Lemma TEC_layout : forall name vs fs, nonl name -> vs <> [] -> fs <> [] -> narrow_all 16 6 vs -> Forall (ids_ok 10) fs -> (N.of_nat (length vs) < 10 ^ 9)%N -> (N.of_nat (length fs) < 10 ^ 9)%N ->
  exists nv nf points panels, writes_nat (length vs) nv /\ writes_nat (length fs) nf /\
    Forall2 (writes_vertex (writes_sci 6)) vs points /\ Forall2 writes_face fs panels /\
    map words (lines (write_TEC name vs fs)) =
      words (s "TITLE = " ++ quote :: s " THIS FILE WAS GENERATED BY MESHMAGICK - FICHIER : " ++ name ++ s " " ++ [quote]) ::
      [s "VARIABLES"; s "="; quote :: s "X" ++ quote :: s "," ++ quote :: s "Y" ++ quote :: s "," ++ quote :: s "Z" ++ [quote]] ::
      [s "ZONE"; s "T=" ++ quote :: s "MESH" ++ [quote]] ::
      [s "N="; nv; s ",E="; nf; s ","; s "F=FEPOINT,"; s "ET=QUADRILATERAL"] :: points ++ panels ++ [[]].
Proof.
  intros name vs fs NN V F N I LV LF. rewrite TEC_lines by auto. cbn [map]. rewrite zone_words by (apply Nat.lt_succ_r, (proj2 (digits_length _ 9 ltac:(lia))); assumption).
  rewrite !map_app, !map_map.
  exists (digits (N.of_nat (length vs))), (digits (N.of_nat (length fs))), (map (fun v => words (fields3 (sci_field "E" 16 6) v)) vs),
    (map (fun f => words (concat (map (int_field 10) (corners (plus_one f))))) fs).
  split; [apply writes_digits|]. split; [apply writes_digits|]. split; [apply Forall2_map_r|split; [apply Forall2_map_r|]].
  - intros v H. apply vertex_written. apply N. auto.
  - intros f H. apply face_written; [lia|]. apply (proj1 (Forall_forall _ _) I f H).
  - assert (T : forall t, words (t ++ s " ") = words t) by (intros t; apply words_end; reflexivity).
    apply f_equal2; [|apply f_equal2; [reflexivity|apply f_equal2; [reflexivity|reflexivity]]].
    symmetry. etransitivity; [symmetry; apply T|]. apply f_equal. rewrite <- !app_assoc. cbn [app]. do 2 apply f_equal. rewrite <- !app_assoc. reflexivity.
Qed.
