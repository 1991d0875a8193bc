(** NEM, NAT, GDF and PNL files *)
From Coq Require Import Ascii String List Arith NArith ZArith QArith Qabs Qpower Bool Lia Lqa.
From Verif Require Import M_base M_merge M_mesh M_text M_mmio S_text P_text P_mmio P_columns.
Import ListNotations.
Local Open Scope nat_scope.

Lemma np_array_table : forall A B (row : B -> list A) k l, (forall x, In x l -> length (row x) = k) -> np_array (map row l) = Ok (table (map row l)).
Proof. intros A B row k [|a l] H; auto. rewrite (np_array_rows _ _ _ k); auto. discriminate. Qed.
Lemma pred_succ_table : forall fs, minus_one (table (map (fun f => map (fun n => Z.of_nat (S n)) (corners f)) fs)) = table (map face_row fs).
Proof. intros [|f fs]; auto. apply pred_succ_row. Qed.
Lemma face_ints : forall f, mapM to_int (map (fun n => digits (N.of_nat n)) (map S (corners f))) = Ok (map (fun n => Z.of_nat (S n)) (corners f)).
Proof. intros f. rewrite ints_read, map_map. auto. Qed.
Lemma digits_nonl : forall n, nonl (digits n). Proof. intros. apply word_nonl, digits_word. Qed.

Lemma lines_last : forall A (f : A -> text) l, (forall x, nonl (f x)) -> lines (concat (map (fun x => line (f x)) l)) = map f l ++ [[]].
Proof.
  intros A f l H. rewrite <- (app_nil_r (concat _)). rewrite concat_lines, lines_concat by (apply Forall_map_intro; auto). auto.
Qed.

(** ** NEM *)
Definition nem_vertex (v : vertex) : text := let '(x, y, z) := v in fixed_field 15 6 x ++ tab :: fixed_field 15 6 y ++ tab :: fixed_field 15 6 z.
Definition nem_face (f : face) : text := let g := plus_one f in int_field 10 (f0 g) ++ tab :: int_field 10 (f1 g) ++ tab :: int_field 10 (f2 g) ++ tab :: int_field 10 (f3 g).
Definition tabbed (w : nat) (t : text) : text * text := (tab :: repeat " "%char (w - length t), t).
Lemma tabbed_apart : forall w t, word t -> apart (tabbed w t).
Proof. intros w t W. split; [constructor; [reflexivity|apply spaces_repeat]|]. split; [discriminate|auto]. Qed.
Lemma nem_vertex_words : forall v, words (nem_vertex v) = map (fixed_point 6) (coordinates v).
Proof.
  intros [[x y] z].
  replace (nem_vertex (x, y, z)) with (join [cell 15 (fixed_point 6 x); tabbed 15 (fixed_point 6 y); tabbed 15 (fixed_point 6 z)])
    by (unfold join; cbn [map concat fst snd cell tabbed nem_vertex]; rewrite app_nil_r; reflexivity).
  rewrite words_join; [reflexivity|]. apply cell_first; [apply fixed_word|]. repeat constructor; try apply spaces_repeat; try discriminate; apply fixed_word.
Qed.
Lemma nem_face_words : forall f, words (nem_face f) = map (fun n => digits (N.of_nat n)) (map S (corners f)).
Proof.
  intros f. set (d := fun n => digits (N.of_nat n)).
  replace (nem_face f) with (join [cell 10 (d (S (f0 f))); tabbed 10 (d (S (f1 f))); tabbed 10 (d (S (f2 f))); tabbed 10 (d (S (f3 f)))])
    by (unfold join; cbn [map concat fst snd cell tabbed]; rewrite app_nil_r; reflexivity).
  rewrite words_join; [reflexivity|]. apply cell_first; [apply digits_word|]. repeat constructor; try apply spaces_repeat; try discriminate; apply digits_word.
Qed.
Lemma nonl_tab : forall t, nonl t -> nonl (tab :: t). Proof. intros. constructor; auto. Qed.
Lemma nem_vertex_nonl : forall v, nonl (nem_vertex v).
Proof. intros [[x y] z]. unfold nem_vertex. repeat first [apply fixed_nonl | apply nonl_tab | apply nonl_app]. Qed.
Lemma nem_face_nonl : forall f, nonl (nem_face f).
Proof. intros f. unfold nem_face. cbv zeta. repeat first [apply int_nonl | apply nonl_tab | apply nonl_app]. Qed.
Lemma lines_NEM : forall vs fs, lines (write_NEM vs fs) = digits (N.of_nat (length vs)) :: digits (N.of_nat (length fs)) :: map nem_vertex vs ++ map nem_face fs ++ [[]].
Proof.
  intros vs fs. unfold write_NEM. rewrite lines_line by apply digits_nonl. f_equal. rewrite lines_line by apply digits_nonl. f_equal.
  rewrite (map_ext _ (fun v => line (nem_vertex v))) by (intros [[x y] z]; reflexivity). rewrite concat_lines.
  rewrite lines_concat by (apply Forall_map_intro; intros; apply nem_vertex_nonl). f_equal.
  change (fun f : face => let g := plus_one f in line (int_field 10 (f0 g) ++ tab :: int_field 10 (f1 g) ++ tab :: int_field 10 (f2 g) ++ tab :: int_field 10 (f3 g)))
    with (fun f => line (nem_face f)).
  rewrite lines_last by apply nem_face_nonl. auto.
Qed.
Lemma digits_line : forall n, words (digits n) = [digits n].
Proof. intros n. replace (digits n) with (digits n ++ []) at 1 by apply app_nil_r. rewrite words_word; auto. apply digits_word. Qed.
Lemma read_int_digits : forall n ls, read_int (digits (N.of_nat n) :: ls) = Ok (Z.of_nat n, ls).
Proof. intros n ls. unfold read_int. cbn [readline]. rewrite digits_line, to_int_of_nat. auto. Qed.
Lemma load_write_NEM : forall dbl vs fs, load_NEM dbl (write_NEM vs fs) = Ok (table (map (fun v => map (rd_fixed dbl 6) (coordinates v)) vs), table (map face_row fs)).
Proof.
  intros dbl vs fs. unfold load_NEM. rewrite lines_NEM, read_int_digits. cbn [bind]. rewrite read_int_digits. cbn [bind]. rewrite !Nat2Z.id.
  rewrite (read_rows_all _ _ (to_float dbl) nem_vertex (fun v => map (rd_fixed dbl 6) (coordinates v))) by (intros v _; rewrite nem_vertex_words; apply floats_fixed). cbn [bind].
  rewrite (np_array_table _ _ _ 3) by (intros; apply coordinates_length). cbn [bind].
  rewrite (read_rows_all _ _ to_int nem_face (fun f => map (fun n => Z.of_nat (S n)) (corners f))) by (intros f _; rewrite nem_face_words; apply face_ints). cbn [bind].
  rewrite (np_array_table _ _ _ 4) by reflexivity. cbn [bind]. rewrite pred_succ_table. auto.
Qed.

(** ** NAT *)
Definition nat_vertex (v : vertex) : text := fields3 (sci_field "E" 15 6) v.
Lemma nat_vertex_nonl : forall c w k v, is_space c = false -> nonl (fields3 (sci_field c w k) v).
Proof. intros. apply fields3_nonl. intros. apply sci_nonl. auto. Qed.
Definition nat_head (vs : list vertex) (fs : list face) : text := int_field 6 (max_shape (length vs) 3) ++ int_field 6 (max_shape (length fs) 4).
Lemma lines_NAT : forall vs fs, lines (write_NAT vs fs) = (int_field 6 0 ++ int_field 6 0) :: nat_head vs fs :: map nat_vertex vs ++ map mar_face fs ++ [[]].
Proof.
  intros vs fs. unfold write_NAT. rewrite lines_line by (apply nonl_app; apply int_nonl). f_equal.
  rewrite lines_line by (apply nonl_app; apply int_nonl). unfold nat_head. f_equal.
  change (fun v : vertex => line (fields3 (sci_field "E" 15 6) v)) with (fun v => line (nat_vertex v)). rewrite concat_lines.
  rewrite lines_concat by (apply Forall_map_intro; intros; apply nat_vertex_nonl; reflexivity). f_equal.
  change (fun f : face => line (concat (map (int_field 10) (corners (plus_one f))))) with (fun f => line (mar_face f)).
  rewrite lines_last by (intros; apply face_nonl). auto.
Qed.
Lemma head_words : forall w a b, length (digits (N.of_nat b)) < w -> words (int_field w a ++ int_field w b) = map (fun n => digits (N.of_nat n)) [a; b].
Proof.
  intros w a b H. replace (int_field w a ++ int_field w b) with (join [cell w (digits (N.of_nat a)); cell w (digits (N.of_nat b))])
    by (unfold join; cbn [map concat fst snd cell]; rewrite app_nil_r; reflexivity).
  rewrite words_join; [reflexivity|]. apply cell_first; [apply digits_word|]. repeat constructor; try apply spaces_repeat; try apply digits_word.
  cbn. destruct (w - length (digits (N.of_nat b))) eqn:E; [lia|discriminate].
Qed.
Lemma head_wide : forall w a b, w <= length (digits (N.of_nat b)) -> words (int_field w a ++ int_field w b) = [digits (N.of_nat a) ++ digits (N.of_nat b)].
Proof.
  intros w a b H. unfold int_field at 2, rjust. replace (w - length (digits (N.of_nat b))) with 0 by lia. cbn [repeat app]. unfold int_field, rjust. rewrite <- app_assoc, words_spaces by apply spaces_repeat.
  replace (digits (N.of_nat a) ++ digits (N.of_nat b)) with ((digits (N.of_nat a) ++ digits (N.of_nat b)) ++ []) at 1 by apply app_nil_r.
  rewrite words_word; auto. apply word_app; apply digits_word.
Qed.
Lemma nat_vertex_read : forall dbl v, (forall x, In x (coordinates v) -> exponent_room 6 3 x) -> mapM (to_float dbl) (words (nat_vertex v)) = Ok (map (rd_sci dbl 6) (coordinates v)).
Proof.
  intros dbl v H. unfold nat_vertex. rewrite (plain_words 15 (scientific "E" 6)); [apply floats_sci; auto|intros; apply sci_word; reflexivity|].
  intros x X. pose proof (scientific_length "E" 6 3 x ltac:(lia) (H x X)). lia.
Qed.
Lemma mar_face_read : forall f, ids_ok 10 f -> mapM to_int (words (mar_face f)) = Ok (map (fun n => Z.of_nat (S n)) (corners f)).
Proof. intros f H. unfold mar_face. rewrite face_words by (auto; lia). apply face_ints. Qed.
Section NAT.
  Variable dbl : N -> Z -> N * positive.
  Variable vs : list vertex. Variable fs : list face.
  Hypothesis (R : forall v x, In v vs -> In x (coordinates v) -> exponent_room 6 3 x) (I : Forall (ids_ok 10) fs).
  Lemma load_write_NAT : 3 <= length vs -> 4 <= length fs -> length (digits (N.of_nat (length fs))) < 6 ->
    load_NAT dbl (write_NAT vs fs) = Ok (Arr2 (map (fun v => map (rd_sci dbl 6) (coordinates v)) vs), Arr2 (map face_row fs)).
  Proof.
    intros V F L. unfold load_NAT. rewrite lines_NAT. cbn [readline snd]. unfold nat_head, max_shape. rewrite !Nat.max_l by auto.
    rewrite head_words by auto. rewrite ints_read. cbn [bind map]. rewrite !Nat2Z.id.
    rewrite (read_rows_all _ _ (to_float dbl) nat_vertex (fun v => map (rd_sci dbl 6) (coordinates v))) by (intros v X; apply nat_vertex_read; intros x; apply (R v x X)). cbn [bind].
    rewrite (np_array_rows _ _ _ 3); [|intros ->; cbn in V; lia|intros; apply coordinates_length]. cbn [bind].
    rewrite (read_rows_all _ _ to_int mar_face (fun f => map (fun n => Z.of_nat (S n)) (corners f))) by (intros f X; apply mar_face_read; apply (proj1 (Forall_forall _ _) I f X)). cbn [bind].
    rewrite (np_array_rows _ _ _ 4); [|intros ->; cbn in F; lia|reflexivity]. cbn [bind]. rewrite pred_succ_row. auto.
  Qed.
  Lemma read_rows_short : forall A B (conv : text -> res A) (ln : B -> text) (row : B -> list A) l n,
    (forall x, In x l -> mapM conv (words (ln x)) = Ok (row x)) -> length l < n -> exists rest, read_rows conv n (map ln l ++ [[]]) = Ok (map row l ++ repeat [] (n - length l), rest).
  Proof.
    intros A B conv ln row. induction l as [|a l IH]; intros n H L.
    - clear H. cbn [map app length] in *. replace (n - 0) with n by lia. destruct n; [lia|]. cbn [read_rows readline]. change (words []) with (@nil text). cbn [mapM bind repeat].
      assert (E : forall n, read_rows conv n [] = Ok (repeat [] n, [])). { clear. induction n as [|n IH]; auto. cbn [read_rows readline mapM bind]. rewrite IH. auto. }
      rewrite E. eexists. reflexivity.
    - cbn [length] in *. destruct n as [|n]; [lia|]. cbn [map app read_rows readline]. rewrite H by (cbn; auto). cbn [bind]. destruct (IH n) as [rest E]; [intros; apply H; cbn; auto|lia|].
      rewrite E. cbn [bind]. exists rest. reflexivity.
  Qed.
  Lemma NAT_few_faces : 3 <= length vs -> length fs < 4 ->
    load_NAT dbl (write_NAT vs fs) = match fs with [] => Ok (Arr2 (map (fun v => map (rd_sci dbl 6) (coordinates v)) vs), Arr2 [[]; []; []; []]) | _ => Raise ValueError end.
  Proof.
    intros V F. unfold load_NAT. rewrite lines_NAT. cbn [readline snd]. unfold nat_head, max_shape. rewrite Nat.max_l, Nat.max_r by lia.
    rewrite head_words by (vm_compute; lia). rewrite ints_read. cbn [bind map]. rewrite !Nat2Z.id.
    rewrite (read_rows_all _ _ (to_float dbl) nat_vertex (fun v => map (rd_sci dbl 6) (coordinates v))) by (intros v X; apply nat_vertex_read; intros x; apply (R v x X)). cbn [bind].
    rewrite (np_array_rows _ _ _ 3); [|intros ->; cbn in V; lia|intros; apply coordinates_length]. cbn [bind].
    destruct (read_rows_short _ _ to_int mar_face (fun f => map (fun n => Z.of_nat (S n)) (corners f)) fs 4) as [rest E]; [intros f X; apply mar_face_read; apply (proj1 (Forall_forall _ _) I f X)|auto|].
    rewrite E. cbn [bind]. destruct fs as [|f1 [|f2 [|f3 [|? ?]]]]; try reflexivity. cbn in F. lia.
  Qed.
  Lemma NAT_many_faces : 4 <= length fs -> 6 <= length (digits (N.of_nat (length fs))) -> load_NAT dbl (write_NAT vs fs) = Raise ValueError.
  Proof.
    clear R I. intros F L. unfold load_NAT. rewrite lines_NAT. cbn [readline snd]. unfold nat_head. rewrite head_wide by (unfold max_shape; rewrite (Nat.max_l (length fs)); auto). cbn [mapM].
    destruct (to_int _) as [n|e] eqn:E; cbn [bind]; auto.
    assert (X : exists m, digits (N.of_nat (max_shape (length vs) 3)) ++ digits (N.of_nat (max_shape (length fs) 4)) = m /\ all_digits m /\ m <> []).
    { eexists. split; [reflexivity|]. split; [apply Forall_app; split; apply digits_chars|]. intros K. apply app_eq_nil in K as [K _]. apply (digits_nonempty _ K). }
    destruct X as (m & M & A & N). rewrite M in E. unfold to_int in E. rewrite read_sign_digits, span_end in E by auto. destruct m; [congruence|discriminate].
  Qed.
End NAT.

(** ** GDF *)
Definition gdf_vertex (v : vertex) : text := fields3 (sci_field "E" 16 6) v.
Lemma mapM_Forall2 : forall A B (f : A -> res B) (P : A -> B -> Prop) l, (forall a b, f a = Ok b <-> P a b) -> forall r, mapM f l = Ok r <-> Forall2 P l r.
Proof.
  intros A B f P l H. induction l as [|a l IH]; intros r; cbn [mapM].
  - split; intros X; [injection X as <-; constructor|inversion X; auto].
  - split; intros X.
    + destruct (f a) as [b|] eqn:E; [|discriminate]. cbn [bind] in X. destruct (mapM f l) as [bs|]; [|discriminate]. injection X as <-. constructor; [apply H; auto|apply IH; auto].
    + inversion X as [|? b ? bs Y Z]; subst. apply H in Y. rewrite Y. cbn [bind]. apply IH in Z. rewrite Z. auto.
Qed.
Lemma get_nth_error : forall A (l : list A) i v, get l i = Ok v <-> nth_error l i = Some v.
Proof. intros A l i v. unfold get. destruct (nth_error l i); split; congruence. Qed.
Definition facet_ok (vs : list vertex) (f : face) (cs : list vertex) : Prop := Forall2 (fun i v => nth_error vs i = Some v) (corners f) cs.
Lemma facets_Forall2 : forall vs fs facets, mapM (fun f => mapM (get vs) (corners f)) fs = Ok facets <-> Forall2 (facet_ok vs) fs facets.
Proof. intros. apply mapM_Forall2. intros f cs. apply mapM_Forall2. intros. apply get_nth_error. Qed.
Lemma at_corners_split : forall vs fs cs, at_corners vs fs cs <-> exists facets, Forall2 (facet_ok vs) fs facets /\ cs = concat facets.
Proof.
  intros vs fs. unfold at_corners. induction fs as [|f fs IH]; intros cs.
  - split; [intros H; inversion H; subst; exists []; split; auto; constructor|intros (fa & F & ->); inversion F; constructor].
  - cbn [flat_map]. split.
    + intros H. apply Forall2_app_inv_l in H as (c1 & c2 & H1 & H2 & ->). apply IH in H2 as (fa & F & ->). exists (c1 :: fa). split; [constructor; auto|auto].
    + intros (fa & F & ->). inversion F as [|? c1 ? fa' F1 F2]; subst. cbn [concat]. apply Forall2_app; auto. apply IH. eauto.
Qed.
Lemma facet_four : forall vs f cs, facet_ok vs f cs -> exists a b c d, cs = [a; b; c; d].
Proof. intros vs f cs H. unfold facet_ok, corners in H. do 4 (inversion H as [|? ? ? ? _ H']; clear H; rename H' into H; subst). inversion H. eauto. Qed.
Lemma gdf_vertex_read : forall dbl v, (forall x, In x (coordinates v) -> exponent_room 6 3 x) -> mapM (to_float dbl) (words (gdf_vertex v)) = Ok (map (rd_sci dbl 6) (coordinates v)).
Proof.
  intros dbl v H. unfold gdf_vertex. rewrite (plain_words 16 (scientific "E" 6)); [apply floats_sci; auto|intros; apply sci_word; reflexivity|].
  intros x X. pose proof (scientific_length "E" 6 3 x ltac:(lia) (H x X)). lia.
Qed.
Definition gdf_head : text := fixed_field 16 6 (Num false 100 1) ++ fixed_field 16 6 (Num false 981 100).
Definition gdf_sym : text := int_field 12 0 ++ int_field 12 1.
Lemma lines_GDF : forall date vs fs cs, nonl date -> at_corners vs fs cs -> exists t, write_GDF date vs fs = Ok t /\
  lines t = (s "GDF file generated by meshmagick on " ++ date) :: gdf_head :: gdf_sym :: int_field 12 (max_shape (length fs) 4) :: map gdf_vertex cs ++ [[]].
Proof.
  intros date vs fs cs D C. apply at_corners_split in C as (facets & F & ->). apply facets_Forall2 in F. unfold write_GDF. rewrite F. cbn [bind]. eexists. split; [reflexivity|].
  rewrite lines_line by (apply nonl_app; auto; repeat constructor). f_equal. rewrite lines_line by (apply nonl_app; apply fixed_nonl). f_equal.
  rewrite lines_line by (apply nonl_app; apply int_nonl). f_equal. rewrite lines_line by apply int_nonl. f_equal.
  change (fun v : vertex => line (fields3 (sci_field "E" 16 6) v)) with (fun v => line (gdf_vertex v)). apply lines_last. intros. apply nat_vertex_nonl. reflexivity.
Qed.
Section GDF.
  Variable dbl : N -> Z -> N * positive.
  Let rd := rd_sci dbl 6.
  Definition row12 (cs : list vertex) : list num := concat (map (fun v => map (rd_sci dbl 6) (coordinates v)) cs).
  Lemma read_12_facet : forall a b c d rest, (forall v x, In v [a; b; c; d] -> In x (coordinates v) -> exponent_room 6 3 x) ->
    read_12 dbl [] (map gdf_vertex [a; b; c; d] ++ rest) = Ok (row12 [a; b; c; d], rest).
  Proof.
    intros a b c d rest H. cbn [map app read_12]. do 4 (rewrite gdf_vertex_read; [|intros x X; eapply H; [|exact X]; cbn; auto 6]; cbn [bind]).
    destruct a as [[a1 a2] a3], b as [[b1 b2] b3], c as [[c1 c2] c3], d as [[d1 d2] d3]. reflexivity.
  Qed.
  Lemma read_facets_all : forall vs fs facets rest, Forall2 (facet_ok vs) fs facets -> (forall v x, In v (concat facets) -> In x (coordinates v) -> exponent_room 6 3 x) ->
    read_facets dbl (length fs) (map gdf_vertex (concat facets) ++ rest) = Ok (map row12 facets).
  Proof.
    intros vs fs facets rest F. revert rest. induction F as [|f cs fs facets C F IH]; intros rest H; auto.
    destruct (facet_four _ _ _ C) as (a & b & c & d & ->). cbn [length concat read_facets]. rewrite map_app, <- app_assoc, read_12_facet.
    - cbn [bind]. rewrite IH; [auto|]. intros v x V. apply H. cbn [concat]. apply in_or_app. auto.
    - intros v x V. apply H. cbn [concat]. apply in_or_app. auto.
  Qed.
  Lemma read_facets_short : forall vs fs facets n, Forall2 (facet_ok vs) fs facets -> (forall v x, In v (concat facets) -> In x (coordinates v) -> exponent_room 6 3 x) -> length fs < n ->
    read_facets dbl n (map gdf_vertex (concat facets) ++ [[]]) = Raise OutOfFuel.
  Proof.
    intros vs fs facets n F. revert n. induction F as [|f cs fs facets C F IH]; intros n H L.
    - destruct n; [cbn in L; lia|]. reflexivity.
    - destruct n as [|n]; [cbn in L; lia|]. destruct (facet_four _ _ _ C) as (a & b & c & d & ->). cbn [length concat read_facets] in *. rewrite map_app, <- app_assoc, read_12_facet.
      + cbn [bind]. rewrite IH; [auto| |lia]. intros v x V. apply H. apply in_or_app. auto.
      + intros v x V. apply H. apply in_or_app. auto.
  Qed.
  Lemma in_four_row12 : forall vs f cs, facet_ok vs f cs -> in_four (row12 cs) = map (fun v => map rd (coordinates v)) cs.
  Proof.
    intros vs f cs C. destruct (facet_four _ _ _ C) as (a & b & c & d & ->). destruct a as [[a1 a2] a3], b as [[b1 b2] b3], c as [[c1 c2] c3], d as [[d1 d2] d3]. reflexivity.
  Qed.
  Lemma flat_in_four : forall vs fs facets, Forall2 (facet_ok vs) fs facets -> flat_map in_four (map row12 facets) = map (fun v => map rd (coordinates v)) (concat facets).
  Proof. intros vs fs facets F. induction F as [|f cs fs facets C F IH]; auto. cbn [map flat_map concat]. rewrite map_app, IH, (in_four_row12 vs f cs C). auto. Qed.
  Lemma int_line : forall w n, words (int_field w n) = [digits (N.of_nat n)].
  Proof. intros. unfold int_field, rjust. rewrite words_spaces by apply spaces_repeat. apply digits_line. Qed.
  Lemma load_write_GDF : forall date vs fs cs, nonl date -> at_corners vs fs cs -> (forall v x, In v cs -> In x (coordinates v) -> exponent_room 6 3 x) ->
    exists t, write_GDF date vs fs = Ok t /\
    load_GDF dbl t = if length fs <? 4 then Raise OutOfFuel else
      Ok (Arr2 (map (fun v => map rd (coordinates v)) cs), Arr2 (map (fun i => map Z.of_nat (seq (4 * i) 4)) (seq 0 (length fs)))).
  Proof.
    intros date vs fs cs D C H. destruct (lines_GDF date vs fs cs D C) as (t & T & L). exists t. split; auto. unfold load_GDF. rewrite L. cbn [readline snd].
    change (words gdf_head) with [s "100.000000"; s "9.810000"]. change (words gdf_sym) with [s "0"; s "1"]. cbv iota. rewrite int_line, to_int_of_nat. cbn [bind].
    replace (Z.of_nat (max_shape (length fs) 4) <? 0)%Z with false by (symmetry; apply Z.ltb_ge; lia). rewrite Nat2Z.id.
    apply at_corners_split in C as (facets & F & ->). unfold max_shape. destruct (Nat.ltb_spec (length fs) 4) as [K|K].
    - rewrite Nat.max_r by lia. rewrite (read_facets_short vs fs facets 4); auto.
    - rewrite Nat.max_l by lia. rewrite (read_facets_all vs fs facets); auto. cbn [bind]. rewrite (flat_in_four vs fs facets F). auto.
  Qed.
End GDF.

(** ** PNL *)
Definition pnl_face (jf : nat * face) : text :=
  let g := plus_one (snd jf) in
  if f2 g =? f3 g then int_field 5 (S (fst jf)) ++ int_field 5 3 ++ concat (map (int_field 10) [f0 g; f1 g; f2 g])
  else int_field 5 (S (fst jf)) ++ int_field 5 4 ++ concat (map (int_field 10) (corners g)).
Definition pnl_head (nf nv : nat) : text := s "         " ++ digits (N.of_nat nf) ++ s "         " ++ digits (N.of_nat nv) ++ s "         0         0".
Lemma pnl_vertex_nonl : forall iv, nonl (pnl_vertex iv). Proof. intros. apply nonl_app; [apply int_nonl|]. apply fields3_nonl. intros. apply fixed_nonl. Qed.
Lemma pnl_face_nonl : forall jf, nonl (pnl_face jf).
Proof. intros [j f]. unfold pnl_face. cbv zeta. destruct (_ =? _); (apply nonl_app; [apply int_nonl|]; apply nonl_app; [apply int_nonl|]; apply nonl_concat, Forall_map_intro; intros; apply int_nonl). Qed.
Lemma lines_PNL : forall vs fs, exists a b c d, lines (write_PNL vs fs) =
  a :: [] :: b :: pnl_head (length fs) (length vs) :: [] :: c :: map pnl_vertex (combine (seq 0 (length vs)) vs) ++ d :: [] ::
  s "   #Start Definition of Node Relations   ! panel_number  number_of_vertices   Vertex1_ID   Vertex2_ID   Vertex3_ID   (Vertex4_ID)" ::
  map pnl_face (combine (seq 0 (length fs)) fs) ++ lines (line (s "   #End Definition of Node Relations") ++ line [] ++ line (s "    --------------End Hull Mesh File---------------")).
Proof.
  intros vs fs. do 4 eexists. unfold write_PNL.
  rewrite lines_line by (repeat constructor). f_equal. rewrite lines_line by constructor. f_equal. rewrite lines_line by (repeat constructor). f_equal.
  rewrite lines_line by (repeat first [apply digits_nonl | apply nonl_app]; repeat constructor). unfold pnl_head. f_equal.
  rewrite lines_line by constructor. f_equal. rewrite lines_line by (repeat constructor). f_equal.
  change (fun iv => line (int_field 5 (S (fst iv)) ++ fields3 (fixed_field 18 6) (snd iv))) with (fun iv => line (pnl_vertex iv)). rewrite concat_lines.
  rewrite lines_concat by (apply Forall_map_intro; intros; apply pnl_vertex_nonl). f_equal.
  rewrite lines_line by (repeat constructor). f_equal. rewrite lines_line by constructor. f_equal. rewrite lines_line by (repeat constructor). f_equal.
  match goal with |- context [map ?g (combine (seq 0 (length fs)) fs)] => change g with (fun jf => line (pnl_face jf)) end. rewrite concat_lines.
  rewrite lines_concat by (apply Forall_map_intro; intros; apply pnl_face_nonl). auto.
Qed.
Lemma pnl_head_words : forall nf nv, words (pnl_head nf nv) = [digits (N.of_nat nf); digits (N.of_nat nv); s "0"; s "0"].
Proof.
  intros nf nv. replace (pnl_head nf nv) with (join [(s "         ", digits (N.of_nat nf)); (s "         ", digits (N.of_nat nv)); (s "         ", s "0"); (s "         ", s "0")])
    by (unfold join, pnl_head; cbn [map concat fst snd]; rewrite <- !app_assoc; reflexivity).
  rewrite words_join; [reflexivity|]. repeat constructor; try discriminate; apply digits_word.
Qed.
Section PNL.
  Variable dbl : N -> Z -> N * positive.
  Let rd := rd_fixed dbl 6.
  Lemma pnl_vertex_words : forall i v, (forall x, In x (coordinates v) -> room 6 10 x) -> words (pnl_vertex (i, v)) = digits (N.of_nat (S i)) :: map (fixed_point 6) (coordinates v).
  Proof.
    intros i v H. unfold pnl_vertex. cbn [fst snd]. rewrite (index_words 5 18 (fixed_point 6)); auto; [apply fixed_word|]. intros x X. specialize (H x X). apply fixed_point_length in H; lia.
  Qed.
  Lemma genfromtxt_all : forall vs rest, (forall v x, In v vs -> In x (coordinates v) -> room 6 10 x) ->
    genfromtxt dbl (length vs) (map pnl_vertex (combine (seq 0 (length vs)) vs) ++ rest) =
    Ok (match vs with [] => Arr1 [] | [v] => Arr1 (map rd (coordinates v)) | _ => Arr2 (map (fun v => map rd (coordinates v)) vs) end, rest).
  Proof.
    intros vs rest H. unfold genfromtxt. set (ivs := combine (seq 0 (length vs)) vs).
    assert (L : length ivs = length vs) by (unfold ivs; rewrite combine_length, seq_length; lia).
    assert (F : firstn (length vs) (map pnl_vertex ivs ++ rest) = map pnl_vertex ivs).
    { replace (length vs) with (length (map pnl_vertex ivs) + 0) by (rewrite map_length; lia). rewrite firstn_app_2, firstn_O, app_nil_r. auto. }
    assert (K : skipn (length vs) (map pnl_vertex ivs ++ rest) = rest).
    { replace (length vs) with (length (map pnl_vertex ivs)) by (rewrite map_length; lia). rewrite skipn_app, skipn_all, Nat.sub_diag. auto. }
    rewrite F, K. rewrite map_map.
    assert (W : map (fun x => words (pnl_vertex x)) ivs = map (fun iv => digits (N.of_nat (S (fst iv))) :: map (fixed_point 6) (coordinates (snd iv))) ivs).
    { apply map_ext_in. intros [i v] I. apply pnl_vertex_words. apply in_combine_seq in I. intros x. apply H; auto. }
    rewrite W.
    assert (R : mapM (fun ws => mapM (fun w => match to_float dbl w with Ok x => Ok x | Raise _ => Raise NotANumber end) (firstn 3 (skipn 1 ws)))
      (map (fun iv : nat * vertex => digits (N.of_nat (S (fst iv))) :: map (fixed_point 6) (coordinates (snd iv))) ivs) = Ok (map (fun v => map rd (coordinates v)) vs)).
    { rewrite (mapM_all _ _ _ _ _ (fun iv => map rd (coordinates (snd iv)))); [unfold ivs; rewrite (map_snd_combine _ _ (fun v => map rd (coordinates v))); auto|].
      intros [i [[x y] z]] _. cbn [fst snd skipn coordinates map firstn mapM]. rewrite !to_float_fixed. reflexivity. }
    destruct ivs as [|[i v] ivs'] eqn:E.
    - destruct vs; [auto|discriminate L].
    - cbn [map fst snd] in *. set (r0 := digits (N.of_nat (S i)) :: map (fixed_point 6) (coordinates v)) in *.
      set (g := fun iv : nat * vertex => digits (N.of_nat (S (fst iv))) :: map (fixed_point 6) (coordinates (snd iv))) in *.
      assert (R0 : length r0 = 4) by (unfold r0; cbn [length]; rewrite coordinates_length; auto).
      assert (B : forallb (fun r' => length r' =? length r0) (r0 :: map g ivs') = true).
      { apply forallb_forall. intros r' [<-|I]; [apply Nat.eqb_refl|]. apply in_map_iff in I as ([j u] & <- & _). rewrite R0. unfold g. cbn [fst snd length]. rewrite coordinates_length. auto. }
      rewrite B, R0. cbn [andb Nat.leb]. rewrite R. cbn [bind]. destruct vs as [|v1 [|v2 vs]]; [discriminate L|auto|auto].
  Qed.
  Lemma panel_words : forall a b l, Forall (fun n => (N.of_nat n < 10 ^ 9)%N) l -> b < 10 ->
    words (int_field 5 a ++ int_field 5 b ++ concat (map (int_field 10) l)) = map (fun n => digits (N.of_nat n)) (a :: b :: l).
  Proof.
    intros a b l H B. set (d := fun n => digits (N.of_nat n)).
    replace (int_field 5 a ++ int_field 5 b ++ concat (map (int_field 10) l)) with (join (cell 5 (d a) :: cell 5 (d b) :: map (fun n => cell 10 (d n)) l))
      by (unfold join; cbn [map concat fst snd cell]; rewrite map_map; reflexivity).
    rewrite words_join; [cbn [map snd cell]; rewrite map_map; reflexivity|]. apply cell_first; [apply digits_word|]. constructor.
    - apply cell_apart; [apply digits_word|]. unfold d. enough (length (digits (N.of_nat b)) <= 1) by lia. apply digits_length; auto. cbn. lia.
    - apply Forall_map_intro. intros n I. apply cell_apart; [apply digits_word|]. apply id_width; [lia|]. apply (proj1 (Forall_forall _ _) H n I).
  Qed.
  Lemma read_panels_all : forall fs i rest, Forall (ids_ok 10) fs ->
    read_panels i (length fs) (map pnl_face (combine (seq i (length fs)) fs) ++ rest) = Ok (map (fun f => map (fun n => Z.of_nat (S n)) (corners f)) fs).
  Proof.
    induction fs as [|f fs IH]; intros i rest H; auto. inversion H as [|? ? O H']; subst. cbn [length seq combine map app read_panels readline].
    unfold ids_ok, corners in O. rewrite !Forall_cons_iff in O. destruct O as (O0 & O1 & O2 & O3 & _). change (N.of_nat (10 - 1)) with 9%N in *.
    unfold pnl_face. cbn [fst snd]. cbv zeta. cbn [plus_one f0 f1 f2 f3]. destruct (Nat.eqb_spec (S (f2 f)) (S (f3 f))) as [E|E].
    - rewrite panel_words by (repeat constructor; auto). rewrite ints_read. cbn [bind map]. rewrite Z.eqb_refl. change (Z.of_nat 3 =? 3)%Z with true. cbv iota. cbn [bind]. rewrite IH by auto. cbn [bind corners map]. rewrite <- E. auto.
    - rewrite panel_words by (repeat constructor; auto). rewrite ints_read. cbn [bind map corners f0 f1 f2 f3]. rewrite Z.eqb_refl. change (Z.of_nat 4 =? 3)%Z with false. change (Z.of_nat 4 =? 4)%Z with true. cbv iota. cbn [bind]. rewrite IH by auto. auto.
  Qed.
  Lemma load_write_PNL : forall vs fs, (forall v x, In v vs -> In x (coordinates v) -> room 6 10 x) -> Forall (ids_ok 10) fs ->
    load_PNL dbl (write_PNL vs fs) =
    Ok (match vs with [] => Arr1 [] | [v] => Arr1 (map rd (coordinates v)) | _ => Arr2 (map (fun v => map rd (coordinates v)) vs) end, Arr2 (map face_row fs)).
  Proof.
    intros vs fs R I. unfold load_PNL. destruct (lines_PNL vs fs) as (a & b & c & d & L). rewrite L. cbn [skipn readline]. rewrite pnl_head_words.
    change [digits (N.of_nat (length fs)); digits (N.of_nat (length vs)); s "0"; s "0"] with (map (fun n => digits (N.of_nat n)) [length fs; length vs; 0; 0]). rewrite ints_read. cbn [bind map].
    change (negb (Z.of_nat 0 =? 0)%Z || negb (Z.of_nat 0 =? 0)%Z)%bool with false. cbv iota. rewrite Nat2Z.id.
    rewrite genfromtxt_all by auto. cbn [bind]. replace (Z.of_nat (length fs) <? 0)%Z with false by (symmetry; apply Z.ltb_ge; lia). rewrite Nat2Z.id. cbn [skipn].
    rewrite read_panels_all by auto. cbn [bind]. rewrite pred_succ_row. auto.
  Qed.
End PNL.

Lemma PNL_wide : forall dbl vs fs v x, In v vs -> In x (coordinates v) -> ~ room 6 10 x -> load_PNL dbl (write_PNL vs fs) = Raise ValueError.
Proof.
  intros dbl vs fs v x V X R. unfold load_PNL. destruct (lines_PNL vs fs) as (a & b & c & d & L). rewrite L. cbn [skipn readline]. rewrite pnl_head_words.
  change [digits (N.of_nat (length fs)); digits (N.of_nat (length vs)); s "0"; s "0"] with (map (fun n => digits (N.of_nat n)) [length fs; length vs; 0; 0]). rewrite ints_read. cbn [bind map].
  change (negb (Z.of_nat 0 =? 0)%Z || negb (Z.of_nat 0 =? 0)%Z)%bool with false. cbv iota. rewrite Nat2Z.id.
  rewrite (genfromtxt_wide dbl vs _ v x) by auto. auto.
Qed.

(** ** Saving again *)
Lemma face_row_inj : forall fs fs', map face_row fs = map face_row fs' -> fs = fs'.
Proof.
  induction fs as [|f fs IH]; intros [|f' fs'] H; try discriminate; auto. injection H as H0 H1 H2 H3 H. f_equal; auto.
  destruct f, f'. cbn in *. apply Nat2Z.inj in H0, H1, H2, H3. congruence.
Qed.
Lemma table_inj : forall A (r r' : list (list A)), table r = table r' -> r = r'. Proof. intros A [|a r] [|b r']; cbn; congruence. Qed.
Definition fixed_stable (k : nat) (x : num) : Prop := forall m, fixed_digits k x m -> (m < 2 ^ 52)%N.
Lemma fixed_twice : forall dbl k x, doubles dbl -> k <= 300 -> fixed_stable k x -> fixed_point k (rd_fixed dbl k x) = fixed_point k x.
Proof.
  intros dbl k x D K H. apply fixed_point_digits; [unfold rd_fixed; rewrite read_neg; auto|]. intros m M. specialize (H m M). apply fixed_digits_unique in M. subst m. apply fixed_again; auto.
Qed.
Lemma sci_twice : forall dbl c k x, doubles dbl -> k <= 14 -> (forall m e, sci_digits k x m e -> (-280 <= e <= 280)%Z) -> scientific c k (rd_sci dbl k x) = scientific c k x.
Proof.
  intros dbl c k x D K H. apply scientific_digits; [unfold rd_sci; rewrite read_neg; auto|]. intros m e M. pose proof (H m e M) as E. pose proof (sci_again dbl k (neg x) x m e D K E M) as A.
  apply sci_digits_unique in M as [-> ->]. exact A.
Qed.
Lemma room_stable : forall k p x, p + k <= 15 -> room k p x -> fixed_stable k x.
Proof.
  intros k p x L R m M. specialize (R m M). 
  assert (H : (decimal m (- Z.of_nat k) < 10 ^ Z.of_nat p)%Q). { eapply Qlt_le_trans; [exact R|]. apply ten_le. destruct (neg x); lia. }
  apply decimal_lt in H. eapply N.lt_le_trans; [exact H|]. transitivity (10 ^ 15)%N; [apply N.pow_le_mono_r; lia|]. vm_compute. discriminate.
Qed.
(** coordinates with the same text *)
Definition same_text (g : num -> text) (v v' : vertex) : Prop := map g (coordinates v) = map g (coordinates v').
Lemma same_fields3 : forall w g v v', same_text g v v' -> fields3 (fun x => rjust w (g x)) v = fields3 (fun x => rjust w (g x)) v'.
Proof. intros w g [[x y] z] [[x' y'] z'] H. injection H as H1 H2 H3. cbn. rewrite H1, H2, H3. auto. Qed.
Lemma rows_same : forall g rd vs vs', (forall v x, In v vs -> In x (coordinates v) -> g (rd x) = g x) ->
  map (fun v => map rd (coordinates v)) vs = map coordinates vs' -> Forall2 (same_text g) vs vs'.
Proof.
  intros g rd. induction vs as [|v vs IH]; intros [|v' vs'] H E; try discriminate; constructor; injection E as E1 E2.
  - unfold same_text. rewrite <- E1, map_map. apply map_ext_in. intros x X. symmetry. apply (H v x); [cbn; auto|auto].
  - apply IH; auto. intros u x U. apply H. cbn. auto.
Qed.
Lemma combine_same : forall A (R : A -> A -> Prop) (f : nat * A -> text) l l', (forall i v v', R v v' -> f (i, v) = f (i, v')) -> Forall2 R l l' ->
  forall n, map f (combine (seq n (length l)) l) = map f (combine (seq n (length l')) l').
Proof. intros A R f l l' H F. induction F as [|v v' l l' V F IH]; intros n; auto. cbn [length seq combine map]. rewrite (H n v v' V), IH. auto. Qed.
Lemma map_same : forall A (R : A -> A -> Prop) (f : A -> text) l l', (forall v v', R v v' -> f v = f v') -> Forall2 R l l' -> map f l = map f l'.
Proof. intros A R f l l' H F. induction F as [|v v' l l' V F IH]; auto. cbn [map]. rewrite (H v v' V), IH. auto. Qed.
Lemma Forall2_len : forall A B (R : A -> B -> Prop) l l', Forall2 R l l' -> length l = length l'. Proof. intros A B R l l' F. induction F; cbn; auto. Qed.
Lemma write_MAR_same : forall vs vs' fs, Forall2 (same_text (fixed_point 6)) vs vs' -> write_MAR vs fs = write_MAR vs' fs.
Proof.
  intros vs vs' fs F. unfold write_MAR. do 2 f_equal. f_equal. apply combine_same with (R := same_text (fixed_point 6)); auto.
  intros i v v' V. cbn [fst snd]. f_equal. f_equal. apply (same_fields3 16); auto.
Qed.
Lemma write_NEM_same : forall vs vs' fs, Forall2 (same_text (fixed_point 6)) vs vs' -> write_NEM vs fs = write_NEM vs' fs.
Proof.
  intros vs vs' fs F. unfold write_NEM. rewrite (Forall2_len _ _ _ _ _ F). do 3 f_equal. f_equal. apply map_same with (R := same_text (fixed_point 6)); auto.
  intros [[x y] z] [[x' y'] z'] V. injection V as V1 V2 V3. unfold fixed_field. rewrite V1, V2, V3. auto.
Qed.
Lemma write_PNL_same : forall vs vs' fs, Forall2 (same_text (fixed_point 6)) vs vs' -> write_PNL vs fs = write_PNL vs' fs.
Proof.
  intros vs vs' fs F. unfold write_PNL. assert (E : map (fun iv : nat * vertex => line (int_field 5 (S (fst iv)) ++ fields3 (fixed_field 18 6) (snd iv))) (combine (seq 0 (length vs)) vs) =
    map (fun iv : nat * vertex => line (int_field 5 (S (fst iv)) ++ fields3 (fixed_field 18 6) (snd iv))) (combine (seq 0 (length vs')) vs')).
  { apply combine_same with (R := same_text (fixed_point 6)); auto. intros i v v' V. cbn [fst snd]. f_equal. f_equal. apply (same_fields3 18); auto. }
  rewrite E, (Forall2_len _ _ _ _ _ F). auto.
Qed.
Lemma write_NAT_same : forall vs vs' fs, Forall2 (same_text (scientific "E" 6)) vs vs' -> write_NAT vs fs = write_NAT vs' fs.
Proof.
  intros vs vs' fs F. unfold write_NAT. rewrite (Forall2_len _ _ _ _ _ F). do 3 f_equal. f_equal. apply map_same with (R := same_text (scientific "E" 6)); auto.
  intros v v' V. f_equal. apply (same_fields3 15); auto.
Qed.
