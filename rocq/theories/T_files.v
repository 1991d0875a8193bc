(** Mesh files read with regular expressions: C93 (Hydrostar .hst) and C94 (Tecplot .tec). *)
From Coq Require Import Ascii String List Arith NArith ZArith QArith Bool Lia.
From Verif Require Import M_base M_merge M_mesh M_text M_mmio S_text S_files P_text P_mmio P_formats M_regex M_files P_regex P_hst P_tec P_layout T_mmio.
Import ListNotations.
Local Open Scope nat_scope.

Lemma usual_narrow : forall vs, usual_exponents vs -> narrow_all 16 6 vs.
Proof. intros vs H. apply (narrow_of 16 6 3); [lia|lia|exact H]. Qed.
Lemma not_in_nonl : forall t, ~ In newline t -> nonl t.
Proof. intros t N. apply Forall_forall. intros c I. destruct (Ascii.eqb_spec c newline); auto. subst. contradiction. Qed.
Lemma same_text_rows : forall g (vs vs' : list vertex) fld, (forall x x', g x = g x' -> fld x = fld x' :> text) -> Forall2 (same_text g) vs vs' ->
  Forall2 (fun v v' => fields3 fld v = fields3 fld v') vs vs'.
Proof.
  intros g vs vs' fld H F. induction F as [|[[x y] z] [[x' y'] z'] vs vs' S F IH]; constructor; auto. unfold same_text in S. cbn in S. injection S as A B C. cbn. rewrite (H _ _ A), (H _ _ B), (H _ _ C). auto.
Qed.
Lemma map_rows : forall A B (R : A -> A -> Prop) (f : A -> B), (forall x y, R x y -> f x = f y) -> forall l l', Forall2 R l l' -> map f l = map f l'.
Proof. intros A B R f H l l' F. induction F; cbn; f_equal; auto. Qed.
Lemma number_rows : forall A B (R : A -> A -> Prop) (f : nat * A -> B), (forall i x y, R x y -> f (i, x) = f (i, y)) -> forall l l', Forall2 R l l' -> map f (numbered l) = map f (numbered l').
Proof.
  intros A B R f H l l' F. unfold numbered. generalize 0. induction F as [|x y l l' S F IH]; intros i; auto. cbn [length seq combine map]. f_equal; auto.
Qed.
Lemma same_length : forall A (R : A -> A -> Prop) l l', Forall2 R l l' -> length l = length l'.
Proof. intros A R l l' F. induction F; cbn; auto. Qed.

(** ** C93: HST *)
Theorem C93_round_trip : forall dbl vs fs, fs <> [] -> usual_exponents vs -> readable_ids fs ->
  exists rows, load_HST dbl (write_HST vs fs) = Ok (table rows, Arr2 (map face_row fs)) /\ Forall2 (saved_vertex (saved_sci dbl 6)) vs rows.
Proof.
  intros dbl vs fs F C I. eexists. split; [apply load_write_HST; auto; [apply usual_narrow; auto|apply ids_all; auto]|]. apply saved_rows. apply rd_sci_saved.
Qed.
(** The file, line by line *)
Theorem C93_layout : forall vs fs, vs <> [] -> fs <> [] -> usual_exponents vs -> readable_ids fs ->
  exists nodes panels, Forall2 (writes_node (writes_sci 6)) (with_index vs) nodes /\ Forall2 writes_face fs panels /\
    map words (lines (write_HST vs fs)) = [[s "PROJECT:"]; [s "USERS:"; s "meshmagick"]; []; [s "NBODY"; s "1"]; [s "RHO"; s "1025.0"]; [s "GRAVITY"; s "9.81"]; []; [s "COORDINATES"]] ++
      nodes ++ [[s "ENDCOORDINATES"]; []; [s "PANEL"; s "TYPE"; s "0"]] ++ panels ++ [[s "ENDPANEL"]; []; [s "ENDFILE"]; []].
Proof. intros vs fs V F C I. apply HST_layout; auto; [apply usual_narrow; auto|apply ids_all; auto]. Qed.
Theorem C93_same_text : forall dbl vs fs vs' fs', doubles dbl -> fs <> [] -> readable_ids fs ->
  (forall v x m e, In v vs -> In x (coordinates v) -> sci_digits 6 x m e -> (-280 <= e <= 280)%Z) ->
  load_HST dbl (write_HST vs fs) = Ok (table (map coordinates vs'), Arr2 (map face_row fs')) -> write_HST vs' fs' = write_HST vs fs.
Proof.
  intros dbl vs fs vs' fs' D F I C H. rewrite load_write_HST in H; auto; [|apply usual_narrow; intros v x X Y m e M; specialize (C v x m e X Y M); change (10 ^ Z.of_nat 3)%Z with 1000%Z; lia|apply ids_all; auto].
  injection H as H1 H2. apply table_inj in H1. apply face_row_inj in H2. subst fs'.
  assert (S : Forall2 (same_text (scientific "E" 6)) vs vs') by (apply (rows_same _ (rd_sci dbl 6)); auto; intros v x X Y; apply sci_twice; auto; [lia|]; intros m e; apply (C v x m e X Y)).
  apply (same_text_rows _ _ _ (sci_field "E" 16 6)) in S; [|intros x x' E; unfold sci_field; rewrite E; auto].
  unfold write_HST. do 8 f_equal. apply (f_equal2 (@app _)); [|reflexivity]. f_equal. symmetry. eapply number_rows; [|exact S]. intros i x y E. cbn [fst snd]. apply f_equal. exact E.
Qed.
(** A mesh without faces is saved but cannot be read. *)
Theorem C93_no_face : forall dbl vs, usual_exponents vs -> load_HST dbl (write_HST vs []) = Raise TypeError.
Proof. intros dbl vs C. apply load_HST_no_face. apply usual_narrow. auto. Qed.

(** ** C94: TEC *)
Theorem C94_round_trip : forall dbl name vs fs, ~ In newline name -> vs <> [] -> usual_exponents vs -> readable_ids fs ->
  exists rows, load_TEC dbl (write_TEC name vs fs) = Ok (Arr2 rows, Arr2 (map face_row fs)) /\ Forall2 (saved_vertex (saved_sci dbl 6)) vs rows.
Proof.
  intros dbl name vs fs NL V C I. eexists. split; [apply load_write_TEC; auto; [apply not_in_nonl; auto|apply usual_narrow; auto|apply ids_all; auto]|]. apply saved_rows. apply rd_sci_saved.
Qed.
Theorem C94_layout : forall name vs fs, ~ In newline name -> vs <> [] -> fs <> [] -> usual_exponents vs -> readable_ids fs -> (N.of_nat (length vs) < 10 ^ 9)%N -> (N.of_nat (length fs) < 10 ^ 9)%N ->
  exists nv nf points panels, writes_nat (length vs) nv /\ writes_nat (length fs) nf /\
    Forall2 (writes_vertex (writes_sci 6)) vs points /\ Forall2 writes_face fs panels /\
    map words (lines (write_TEC name vs fs)) =
      words (s "TITLE = " ++ quote :: s " THIS FILE WAS GENERATED BY MESHMAGICK - FICHIER : " ++ name ++ s " " ++ [quote]) ::
      [s "VARIABLES"; s "="; quote :: s "X" ++ quote :: s "," ++ quote :: s "Y" ++ quote :: s "," ++ quote :: s "Z" ++ [quote]] ::
      [s "ZONE"; s "T=" ++ quote :: s "MESH" ++ [quote]] ::
      [s "N="; nv; s ",E="; nf; s ","; s "F=FEPOINT,"; s "ET=QUADRILATERAL"] :: points ++ panels ++ [[]].
Proof. intros name vs fs NL V F C I LV LF. apply TEC_layout; auto; [apply not_in_nonl; auto|apply usual_narrow; auto|apply ids_all; auto]. Qed.
Theorem C94_same_text : forall dbl name vs fs vs' fs', doubles dbl -> ~ In newline name -> vs <> [] -> readable_ids fs ->
  (forall v x m e, In v vs -> In x (coordinates v) -> sci_digits 6 x m e -> (-280 <= e <= 280)%Z) ->
  load_TEC dbl (write_TEC name vs fs) = Ok (Arr2 (map coordinates vs'), Arr2 (map face_row fs')) -> write_TEC name vs' fs' = write_TEC name vs fs.
Proof.
  intros dbl name vs fs vs' fs' D NL V I C H. rewrite load_write_TEC in H; auto; [|apply not_in_nonl; auto|apply usual_narrow; intros v x X Y m e M; specialize (C v x m e X Y M); change (10 ^ Z.of_nat 3)%Z with 1000%Z; lia|apply ids_all; auto].
  injection H as H1 H2. apply face_row_inj in H2. subst fs'.
  assert (S : Forall2 (same_text (scientific "E" 6)) vs vs') by (apply (rows_same _ (rd_sci dbl 6)); auto; intros v x X Y; apply sci_twice; auto; [lia|]; intros m e; apply (C v x m e X Y)).
  apply (same_text_rows _ _ _ (sci_field "E" 16 6)) in S; [|intros x x' E; unfold sci_field; rewrite E; auto].
  unfold write_TEC. rewrite (same_length _ _ _ _ S). do 4 f_equal. apply (f_equal2 (@app _)); [|reflexivity]. do 2 f_equal. symmetry. eapply map_rows; [|exact S]. intros x y E. exact E.
Qed.
Theorem C94_no_vertex : forall dbl name fs, ~ In newline name -> load_TEC dbl (write_TEC name [] fs) = Raise AttributeError.
Proof. intros dbl name fs NL. apply load_TEC_no_vertex. apply not_in_nonl. auto. Qed.

(** ** Examples *)
Example box_HST : exists rows, load_HST exact_dbl (write_HST box_vs box_fs) = Ok (Arr2 rows, Arr2 (map face_row box_fs)) /\ nth 7 rows [] = [Num true 1250000 1000000; Num false 3333333 10000000; Num false 1428571 10].
Proof. eexists. split; vm_compute; reflexivity. Qed.
(** Two sections of nodes and panels in a file: the reader is written as a loop through all sections, but it fails in the second. *)
Theorem C93_two_bodies_refuted : exists vs fs, load_HST exact_dbl (write_HST vs fs ++ write_HST vs fs) = Raise AttributeError.
Proof. exists box_vs, box_fs. vm_compute. reflexivity. Qed.
Example box_TEC : exists rows, load_TEC exact_dbl (write_TEC (s "ZONE N = 12 hull.tec") box_vs box_fs) = Ok (Arr2 rows, Arr2 (map face_row box_fs)) /\ nth 7 rows [] = [Num true 1250000 1000000; Num false 3333333 10000000; Num false 1428571 10].
Proof. eexists. split; vm_compute; reflexivity. Qed.

Print Assumptions C93_round_trip. Print Assumptions C93_layout. Print Assumptions C93_same_text. Print Assumptions C93_no_face. Print Assumptions C93_two_bodies_refuted.
Print Assumptions C94_round_trip. Print Assumptions C94_layout. Print Assumptions C94_same_text. Print Assumptions C94_no_vertex.
