(** Mesh files in text formats: C68-C74. *)
From Coq Require Import Ascii String List Arith NArith ZArith QArith Qabs Qpower Bool Lia Lqa.
From Verif Require Import M_base M_merge M_mesh M_text M_mmio S_text P_text P_mmio P_columns P_formats P_stl.
Import ListNotations.
Local Open Scope nat_scope.

Lemma ids_all : forall fs, readable_ids fs -> Forall (ids_ok 10) fs.
Proof.
  intros fs H. eapply Forall_impl; [|exact H]. intros f F. eapply Forall_impl; [|exact F]. intros n N. cbv beta in N. change (N.of_nat (10 - 1)) with 9%N.
  replace (N.of_nat (S n)) with (N.of_nat n + 1)%N by lia. exact N.
Qed.

(** ** C73: rounding *)
(** The text of [x] with [k] decimals is read as the double for [x] rounded to [k] decimals, with the sign of [x]. *)
Theorem C73_read : forall dbl k x y, to_float dbl (fixed_point k x) = Ok y <-> saved_fixed dbl k x y.
Proof.
  intros dbl k x y. rewrite to_float_fixed. fold (rd_fixed dbl k x). split; intros H; [injection H as <-; apply rd_fixed_saved|]. apply saved_fixed_unique in H. congruence.
Qed.
Theorem C73_read_scientific : forall dbl c k x y, c = "E"%char \/ c = "e"%char -> (to_float dbl (scientific c k x) = Ok y <-> saved_sci dbl k x y).
Proof.
  intros dbl c k x y C. rewrite to_float_scientific by auto. fold (rd_sci dbl k x). split; intros H; [injection H as <-; apply rd_sci_saved|]. apply saved_sci_unique in H. congruence.
Qed.
(** It differs from [x] by half a unit of the last decimal, and the error of a double. *)
Theorem C73_bounded : forall dbl k x y m, doubles dbl -> k <= 300 -> saved_fixed dbl k x y -> fixed_digits k x m -> (m < 2 ^ 52)%N ->
  (Qabs (value y - value x) <= (1 # 2) * 10 ^ (- Z.of_nat k) + decimal m (- Z.of_nat k) * (1 # 2 ^ 53))%Q.
Proof.
  intros dbl k x y m D K (m' & M' & ->) M L. rewrite (fixed_digits_unique _ _ _ M') in *. rewrite <- (fixed_digits_unique _ _ _ M) in *.
  rewrite value_diff by apply read_neg. eapply Qle_trans; [apply (triangle _ (decimal m (- Z.of_nat k)))|]. rewrite Qplus_comm. apply Qplus_le_compat; [apply fixed_near; auto|]. apply decimal_near; auto. lia.
Qed.
Theorem C73_bounded_scientific : forall dbl k x y m e, doubles dbl -> k <= 14 -> (-280 <= e <= 280)%Z -> saved_sci dbl k x y -> sci_digits k x m e ->
  (Qabs (value y - value x) <= (1 # 2) * 10 ^ (- Z.of_nat k) * magnitude x + decimal m (e - Z.of_nat k) * (1 # 2 ^ 53))%Q.
Proof.
  intros dbl k x y m e D K E (m' & e' & M' & ->) M. destruct (sci_digits_unique _ _ _ _ M') as [-> ->]. destruct (sci_digits_unique _ _ _ _ M) as [-> ->].
  rewrite value_diff by apply read_neg. eapply Qle_trans; [apply (triangle _ (decimal (fst (sci_pair k x)) (snd (sci_pair k x) - Z.of_nat k)))|]. rewrite Qplus_comm. apply Qplus_le_compat; [apply sci_near; auto|].
  apply decimal_near; auto; [|lia]. destruct (sci_digits_bounds _ _ _ _ M) as [(-> & _)|[_ B]]; [reflexivity|]. eapply N.lt_le_trans; [exact B|].
  transitivity (10 ^ 15)%N; [apply N.pow_le_mono_r; lia|vm_compute; discriminate].
Qed.
(** Saving again what was read gives the same text. *)
Theorem C73_idempotent : forall dbl k x y, doubles dbl -> k <= 300 -> (forall m, fixed_digits k x m -> (m < 2 ^ 52)%N) ->
  to_float dbl (fixed_point k x) = Ok y -> fixed_point k y = fixed_point k x.
Proof. intros dbl k x y D K M H. apply C73_read, saved_fixed_unique in H. subst y. apply fixed_twice; auto. Qed.
Theorem C73_idempotent_scientific : forall dbl c k x y, doubles dbl -> k <= 14 -> (forall m e, sci_digits k x m e -> (-280 <= e <= 280)%Z) -> c = "E"%char \/ c = "e"%char ->
  to_float dbl (scientific c k x) = Ok y -> scientific c k y = scientific c k x.
Proof. intros dbl c k x y D K M C H. apply C73_read_scientific, saved_sci_unique in H; auto. subst y. apply sci_twice; auto. Qed.
(** Any number has one rounding. *)
Theorem C73_one_text : forall k x, (exists m, fixed_digits k x m /\ forall m', fixed_digits k x m' -> m' = m) /\
  (exists m e, sci_digits k x m e /\ forall m' e', sci_digits k x m' e' -> m' = m /\ e' = e).
Proof.
  intros k x. split.
  - eexists. split; [apply fixed_digits_ok|]. apply fixed_digits_unique.
  - do 2 eexists. split; [apply sci_pair_ok|]. apply sci_digits_unique.
Qed.

(** ** C68: MAR *)
Theorem C68_round_trip : forall dbl vs fs, vs <> [] -> fs <> [] -> in_columns 8 vs -> readable_ids fs ->
  exists rows, load_MAR dbl (write_MAR vs fs) = Ok (Arr2 rows, Arr2 (map face_row fs)) /\ Forall2 (saved_vertex (saved_fixed dbl 6)) vs rows.
Proof.
  intros dbl vs fs V F C I. eexists. split; [apply load_write_MAR; auto; apply ids_all; auto|]. apply saved_rows. apply rd_fixed_saved.
Qed.
(** The condition on the coordinates, in terms of their values *)
Theorem C68_range : forall vs, (forall v x, In v vs -> In x (coordinates v) -> (-9999999 <= value x <= 99999999)%Q) -> in_columns 8 vs.
Proof. intros vs H v x V X. destruct (H v x V X) as [L U]. apply room_range; [lia| |]; [change (10 ^ Z.of_nat (8 - 1))%Q with (10000000 # 1)%Q|change (10 ^ Z.of_nat 8)%Q with (100000000 # 1)%Q]; lra. Qed.
Theorem C68_same_text : forall dbl vs fs vs' fs', doubles dbl -> vs <> [] -> fs <> [] -> in_columns 8 vs -> readable_ids fs ->
  load_MAR dbl (write_MAR vs fs) = Ok (Arr2 (map coordinates vs'), Arr2 (map face_row fs')) -> write_MAR vs' fs' = write_MAR vs fs.
Proof.
  intros dbl vs fs vs' fs' D V F C I H. rewrite load_write_MAR in H by (auto; apply ids_all; auto). injection H as H1 H2. apply face_row_inj in H2. subst fs'.
  symmetry. apply write_MAR_same. apply (rows_same _ (rd_fixed dbl 6)); auto. intros v x X Y. apply fixed_twice; auto; [lia|]. apply (room_stable 6 8); [lia|]. apply (C v); auto.
Qed.
(** With a coordinate that is too large the columns run together: reading fails or loses columns. *)
Theorem C68_too_large : forall dbl vs fs v x, In v vs -> In x (coordinates v) -> ~ room 6 8 x ->
  forall rows F, load_MAR dbl (write_MAR vs fs) = Ok (rows, F) -> exists rs k, rows = Arr2 rs /\ k <= 2 /\ Forall (fun r => length r = k) rs.
Proof. intros dbl vs fs v x V X R rows F L. apply (MAR_wide dbl vs fs v x V X R rows F L). Qed.
Theorem C68_no_face : forall dbl vs, in_columns 8 vs -> load_MAR dbl (write_MAR vs []) = Raise IndexError.
Proof. intros. apply load_MAR_no_face. auto. Qed.

(** ** C69: NEM *)
Theorem C69_round_trip : forall dbl vs fs,
  exists rows, load_NEM dbl (write_NEM vs fs) = Ok (table rows, table (map face_row fs)) /\ Forall2 (saved_vertex (saved_fixed dbl 6)) vs rows.
Proof. intros dbl vs fs. eexists. split; [apply load_write_NEM|]. apply saved_rows. apply rd_fixed_saved. Qed.
Theorem C69_same_text : forall dbl vs fs vs' fs', doubles dbl -> (forall v x m, In v vs -> In x (coordinates v) -> fixed_digits 6 x m -> (m < 2 ^ 52)%N) ->
  load_NEM dbl (write_NEM vs fs) = Ok (table (map coordinates vs'), table (map face_row fs')) -> write_NEM vs' fs' = write_NEM vs fs.
Proof.
  intros dbl vs fs vs' fs' D M H. rewrite load_write_NEM in H. injection H as H1 H2. apply table_inj in H1, H2. apply face_row_inj in H2. subst fs'.
  symmetry. apply write_NEM_same. apply (rows_same _ (rd_fixed dbl 6)); auto. intros v x X Y. apply fixed_twice; auto; [lia|]. intros m. apply (M v x m X Y).
Qed.

(** ** C70: NAT *)
Theorem C70_round_trip : forall dbl vs fs, 3 <= length vs -> 4 <= length fs -> (N.of_nat (length fs) < 100000)%N -> usual_exponents vs -> readable_ids fs ->
  exists rows, load_NAT dbl (write_NAT vs fs) = Ok (Arr2 rows, Arr2 (map face_row fs)) /\ Forall2 (saved_vertex (saved_sci dbl 6)) vs rows.
Proof.
  intros dbl vs fs V F L C I. eexists. split; [apply load_write_NAT; auto; [apply ids_all; auto|]|].
  - enough (length (digits (N.of_nat (length fs))) <= 5) by lia. apply digits_length; [lia|exact L].
  - apply saved_rows. apply rd_sci_saved.
Qed.
Theorem C70_same_text : forall dbl vs fs vs' fs', doubles dbl -> 3 <= length vs -> 4 <= length fs -> (N.of_nat (length fs) < 100000)%N -> readable_ids fs ->
  (forall v x m e, In v vs -> In x (coordinates v) -> sci_digits 6 x m e -> (-280 <= e <= 280)%Z) ->
  load_NAT dbl (write_NAT vs fs) = Ok (Arr2 (map coordinates vs'), Arr2 (map face_row fs')) -> write_NAT vs' fs' = write_NAT vs fs.
Proof.
  intros dbl vs fs vs' fs' D V F L I C H. rewrite load_write_NAT in H; auto; [|intros v x X Y m e M; specialize (C v x m e X Y M); change (10 ^ Z.of_nat 3)%Z with 1000%Z; lia|apply ids_all; auto|].
  - injection H as H1 H2. apply face_row_inj in H2. subst fs'.
    symmetry. apply write_NAT_same. apply (rows_same _ (rd_sci dbl 6)); auto. intros v x X Y. apply sci_twice; auto; [lia|]. intros m e. apply (C v x m e X Y).
  - enough (length (digits (N.of_nat (length fs))) <= 5) by lia. apply digits_length; [lia|exact L].
Qed.
Theorem C70_many_faces : forall dbl vs fs, (100000 <= N.of_nat (length fs))%N -> load_NAT dbl (write_NAT vs fs) = Raise ValueError.
Proof.
  intros dbl vs fs L. apply NAT_many_faces; [lia|]. destruct (Nat.le_gt_cases 6 (length (digits (N.of_nat (length fs))))) as [|K]; auto. exfalso.
  assert (H : length (digits (N.of_nat (length fs))) <= 5) by lia. apply digits_length in H; [|lia]. change (10 ^ N.of_nat 5)%N with 100000%N in H. lia.
Qed.
Theorem C70_few_faces : forall dbl vs fs, 3 <= length vs -> 1 <= length fs < 4 -> usual_exponents vs -> readable_ids fs -> load_NAT dbl (write_NAT vs fs) = Raise ValueError.
Proof. intros dbl vs fs V F C I. rewrite NAT_few_faces; auto; [|apply ids_all; auto|lia]. destruct fs; [cbn in F; lia|auto]. Qed.
(** A mesh without faces comes back with four faces without corners. *)
Theorem C70_no_face : forall dbl vs, 3 <= length vs -> usual_exponents vs ->
  exists rows, load_NAT dbl (write_NAT vs []) = Ok (Arr2 rows, Arr2 [[]; []; []; []]) /\ Forall2 (saved_vertex (saved_sci dbl 6)) vs rows.
Proof. intros dbl vs V C. eexists. split; [refine (NAT_few_faces dbl vs [] _ _ V _); [exact C|constructor|cbn; lia]|]. apply saved_rows. apply rd_sci_saved. Qed.

(** ** C71: GDF *)
Theorem C71_round_trip : forall dbl date vs fs cs, ~ In newline date -> at_corners vs fs cs -> usual_exponents cs -> 4 <= length fs ->
  exists t rows, write_GDF date vs fs = Ok t /\ Forall2 (saved_vertex (saved_sci dbl 6)) cs rows /\
    load_GDF dbl t = Ok (Arr2 rows, Arr2 (map (fun i => map Z.of_nat [4 * i; 4 * i + 1; 4 * i + 2; 4 * i + 3]) (seq 0 (length fs)))).
Proof.
  intros dbl date vs fs cs D C R F. destruct (load_write_GDF dbl date vs fs cs) as (t & T & L); auto.
  { apply Forall_forall. intros c I. destruct (Ascii.eqb_spec c newline); auto. subst. contradiction. }
  exists t. eexists. split; [exact T|]. split; [apply (saved_rows _ (rd_sci dbl 6)); apply rd_sci_saved|]. rewrite L. destruct (Nat.ltb_spec (length fs) 4) as [K|K]; [lia|]. do 3 f_equal.
  apply map_ext. intros i. cbn [seq]. rewrite !Nat.add_1_r. replace (4 * i + 2) with (S (S (4 * i))) by lia. replace (4 * i + 3) with (S (S (S (4 * i)))) by lia. auto.
Qed.
(** With fewer than four faces reading never ends. *)
Theorem C71_few_faces : forall dbl date vs fs cs, ~ In newline date -> at_corners vs fs cs -> usual_exponents cs -> length fs < 4 ->
  exists t, write_GDF date vs fs = Ok t /\ load_GDF dbl t = Raise OutOfFuel.
Proof.
  intros dbl date vs fs cs D C R F. destruct (load_write_GDF dbl date vs fs cs) as (t & T & L); auto.
  { apply Forall_forall. intros c I. destruct (Ascii.eqb_spec c newline); auto. subst. contradiction. }
  exists t. split; auto. rewrite L. destruct (Nat.ltb_spec (length fs) 4) as [K|K]; [auto|lia].
Qed.

(** ** C72: PNL *)
Theorem C72_round_trip : forall dbl vs fs, 2 <= length vs -> in_columns 10 vs -> readable_ids fs ->
  exists rows, load_PNL dbl (write_PNL vs fs) = Ok (Arr2 rows, Arr2 (map face_row fs)) /\ Forall2 (saved_vertex (saved_fixed dbl 6)) vs rows.
Proof.
  intros dbl vs fs V C I. eexists. split; [rewrite load_write_PNL; auto; [|apply ids_all; auto]; destruct vs as [|v1 [|v2 vs]]; cbn in V; try lia; reflexivity|].
  apply saved_rows. apply rd_fixed_saved.
Qed.
Theorem C72_same_text : forall dbl vs fs vs' fs', doubles dbl -> 2 <= length vs -> in_columns 9 vs -> readable_ids fs ->
  load_PNL dbl (write_PNL vs fs) = Ok (Arr2 (map coordinates vs'), Arr2 (map face_row fs')) -> write_PNL vs' fs' = write_PNL vs fs.
Proof.
  intros dbl vs fs vs' fs' D V C I H. rewrite load_write_PNL in H; auto; [|intros v x X Y; specialize (C v x X Y); apply fixed_point_length in C; [|lia]; apply fixed_point_length; lia|apply ids_all; auto].
  destruct vs as [|v1 [|v2 vs]]; [cbn in V; lia|cbn in V; lia|]. injection H as H1 H2. apply face_row_inj in H2. subst fs'.
  symmetry. apply write_PNL_same. apply (rows_same _ (rd_fixed dbl 6)); auto. intros v x X Y. apply fixed_twice; auto; [lia|]. apply (room_stable 6 9); [lia|]. apply (C v); auto.
Qed.
(** A single vertex comes back as an array of one dimension. *)
Theorem C72_one_vertex : forall dbl v fs, in_columns 10 [v] -> readable_ids fs ->
  exists r, load_PNL dbl (write_PNL [v] fs) = Ok (Arr1 r, Arr2 (map face_row fs)) /\ saved_vertex (saved_fixed dbl 6) v r.
Proof.
  intros dbl v fs C I. eexists. split; [rewrite load_write_PNL; auto; apply ids_all; auto|]. destruct v as [[x y] z]. cbn. repeat constructor; apply rd_fixed_saved.
Qed.
Theorem C72_too_large : forall dbl vs fs v x, In v vs -> In x (coordinates v) -> ~ room 6 10 x -> load_PNL dbl (write_PNL vs fs) = Raise ValueError.
Proof. intros. eapply PNL_wide; eauto. Qed.
(** A file for a part of a symmetric mesh, with a flag of symmetry that is not 0, is refused. *)
Theorem C72_symmetric : forall dbl t a b c l rest w1 w2 w3 w4 nf nv xs ys, lines t = a :: b :: c :: l :: rest -> words l = [w1; w2; w3; w4] ->
  to_int w1 = Ok nf -> to_int w2 = Ok nv -> to_int w3 = Ok xs -> to_int w4 = Ok ys -> xs <> 0%Z \/ ys <> 0%Z -> load_PNL dbl t = Raise NotImplementedError.
Proof.
  intros dbl t a b c l rest w1 w2 w3 w4 nf nv xs ys L W A B C D H. unfold load_PNL. rewrite L. cbn [skipn readline]. rewrite W. cbn [mapM bind]. rewrite A, B, C, D. cbn [bind].
  destruct (Z.eqb_spec xs 0), (Z.eqb_spec ys 0); cbn [negb orb]; auto. destruct H; contradiction.
Qed.
Example half_hull : let t := line (s "hull") ++ line [] ++ line [] ++ line (s " 1 4 0 1") in
  lines t = [s "hull"; []; []; s " 1 4 0 1"; []] /\ words (s " 1 4 0 1") = [s "1"; s "4"; s "0"; s "1"] /\ to_int (s "0") = Ok 0%Z /\ to_int (s "1") = Ok 1%Z.
Proof. repeat split. Qed.

(** ** C74: STL *)
(** The file has the triangles of the mesh, quadrangles being cut in two. *)
Theorem C74_file : forall normal_text vs fs cs, (forall a b c, ~ In newline (normal_text a b c)) -> usual_exponents vs ->
  Forall2 (fun t c => let '(i, j, k) := t in Forall2 (fun i v => nth_error vs i = Some v) [i; j; k] c) (stl_triangles fs) cs ->
  exists t, fst (write_STL normal_text vs fs) = Ok t /\ forall dbl, exists rows, mapM (mapM (to_float dbl)) (stl_vertices t) = Ok rows /\ Forall2 (saved_vertex (saved_sci dbl 6)) (concat cs) rows.
Proof.
  intros nt vs fs cs NL R C. destruct (write_STL_vertices nt) with (vs := vs) (fs := fs) (cs := cs) as (t & T & S); auto.
  { intros a b c. apply Forall_forall. intros x I. destruct (Ascii.eqb_spec x newline); auto. subst. destruct (NL a b c I). }
  exists t. split; auto. intros dbl. eexists. split; [rewrite S; apply mapM_all; intros v _; apply floats_sci; auto|]. apply saved_rows. apply rd_sci_saved.
Qed.
(** Line by line: seven lines for each triangle, between the two lines of the solid. *)
Definition saved_word (x : num) (w : text) : Prop := forall dbl, exists y, to_float dbl w = Ok y /\ saved_sci dbl 6 x y.
Definition stl_facet (normal_text : vertex -> vertex -> vertex -> text) (c : list vertex) (ls : list (list text)) : Prop :=
  exists v1 v2 v3 r1 r2 r3, c = [v1; v2; v3] /\ Forall2 (fun v r => Forall2 saved_word (coordinates v) r) c [r1; r2; r3] /\
    ls = [s "facet" :: s "normal" :: words (normal_text v1 v2 v3); [s "outer"; s "loop"]; s "vertex" :: r1; s "vertex" :: r2; s "vertex" :: r3; [s "endloop"]; [s "endfacet"]].
Theorem C74_layout : forall normal_text vs fs cs, (forall a b c, ~ In newline (normal_text a b c)) -> usual_exponents vs ->
  Forall2 (fun t c => let '(i, j, k) := t in Forall2 (fun i v => nth_error vs i = Some v) [i; j; k] c) (stl_triangles fs) cs ->
  exists t facets, fst (write_STL normal_text vs fs) = Ok t /\ Forall2 (stl_facet normal_text) cs facets /\
    map words (lines t) = [s "solid"; s "meshmagick"] :: concat facets ++ [[s "endsolid"; s "meshmagick"]; []].
Proof.
  intros nt vs fs cs NL R C. destruct (write_STL_layout nt) with (vs := vs) (fs := fs) (cs := cs) as (t & ws & T & W & L); auto.
  { intros a b c. apply Forall_forall. intros x I. destruct (Ascii.eqb_spec x newline); auto. subst. destruct (NL a b c I). }
  exists t, ws. split; auto. split; auto. clear -W. induction W as [|c w cs ws (a & b & d & -> & ->) W IH]; constructor; auto. clear IH W. exists a, b, d, (row_e a), (row_e b), (row_e d). split; auto. split; auto.
  assert (H : forall v, Forall2 saved_word (coordinates v) (row_e v)).
  { intros [[x y] z]. repeat constructor; intros dbl; eexists; (split; [apply to_float_scientific; auto|apply rd_sci_saved]). }
  repeat constructor; auto.
Qed.
(** Saving a mesh changes its quadrangles in memory: the triangle of their three first corners is lost. *)
Theorem C74_alters_quads : forall normal_text vs fs, snd (write_STL normal_text vs fs) = map (fun f => if f0 f =? f3 f then f else F4 (f0 f) (f2 f) (f3 f) (f0 f)) fs.
Proof. intros nt vs fs. unfold write_STL. cbn [snd]. apply map_ext. intros f. unfold stl_kept, stl_quad. destruct (f0 f =? f3 f); auto. Qed.
Theorem C74_triangles_unchanged : forall normal_text vs fs, snd (write_STL normal_text vs fs) = fs <-> Forall (fun f => f0 f = f3 f) fs.
Proof.
  intros nt vs fs. rewrite C74_alters_quads. induction fs as [|f fs IH]; [split; auto; constructor|]. cbn [map]. split.
  - intros H. injection H as H1 H2. constructor; [|apply IH; auto]. destruct (Nat.eqb_spec (f0 f) (f3 f)) as [E|E]; auto. exfalso. destruct f as [a b c d]. cbn in *. injection H1 as _ _ H. congruence.
  - intros H. inversion H as [|? ? E F]; subst. rewrite E, Nat.eqb_refl. f_equal. apply IH; auto.
Qed.
Theorem C74_invalid : forall normal_text vs fs f n, In f fs -> In n (corners f) -> length vs <= n -> fst (write_STL normal_text vs fs) = Raise IndexError.
Proof. intros. eapply write_STL_invalid; eauto. Qed.

(** ** Examples *)
(** Reading without any rounding *)
Definition exact_dbl (m : N) (e : Z) : N * positive :=
  if (0 <=? e)%Z then ((m * 10 ^ Z.to_N e)%N, 1%positive) else (m, Pos.pow 10 (Z.to_pos (- e))).
Lemma exact_doubles : doubles exact_dbl.
Proof.
  assert (H : forall m e, (magnitude (read_as exact_dbl false m e) == decimal m e)%Q).
  { intros m e. unfold read_as, exact_dbl, decimal. destruct (Z.leb_spec 0 e) as [E|E]; unfold magnitude; cbn [top bot].
    - rewrite (ten_N e) by auto. unfold of_N. rewrite <- inject_Z_mult, N2Z.inj_mul. reflexivity.
    - rewrite Qmake_Qdiv. replace (10 ^ e)%Q with (10 ^ (- - e))%Q by (rewrite Z.opp_involutive; auto). rewrite Qpower_opp, (ten_N (- e)) by lia.
      unfold Qdiv, of_N, inject_Z. replace (Z.of_N (10 ^ Z.to_N (- e))) with (Z.pos (10 ^ Z.to_pos (- e))); [reflexivity|]. destruct e as [|q|q]; try lia. reflexivity. }
  split.
  - intros e. unfold exact_dbl. destruct (0 <=? e)%Z; auto.
  - intros m e R. rewrite H. setoid_replace (decimal m e - decimal m e)%Q with 0%Q by ring. rewrite Qabs_pos by lra. apply Qmult_le_0_compat; [|discriminate]. destruct R as [R _]. eapply Qle_trans; [|exact R]. discriminate.
Qed.

(** A box: -5/4 <= x <= 2, -0 <= y <= 1/3, -5/2 <= z <= 1000000/7 *)
Definition bx (i : nat) : num := if Nat.eqb i 0 then Num true 5 4 else Num false 2 1.
Definition by_ (i : nat) : num := if Nat.eqb i 0 then Num true 0 1 else Num false 1 3.
Definition bz (i : nat) : num := if Nat.eqb i 0 then Num true 5 2 else Num false 1000000 7.
Definition box_vs : list vertex := [(bx 0, by_ 0, bz 0); (bx 1, by_ 0, bz 0); (bx 1, by_ 1, bz 0); (bx 0, by_ 1, bz 0); (bx 0, by_ 0, bz 1); (bx 1, by_ 0, bz 1); (bx 1, by_ 1, bz 1); (bx 0, by_ 1, bz 1)].
Definition box_fs : list face := [F4 3 2 1 0; F4 4 5 6 7; F4 0 1 5 4; F4 1 2 6 5; F4 2 3 7 6; F4 3 0 4 4].
Ltac each V X := cbn in V; repeat (destruct V as [<-|V]; [cbn in X; repeat (destruct X as [<-|X]; [vm_compute; try lia|]); contradiction|]); contradiction.
Example box_columns : in_columns 8 box_vs.
Proof. intros v x V X. apply fixed_point_length; [lia|]. each V X. Qed.
Example box_columns_9 : in_columns 9 box_vs.
Proof. intros v x V X. apply fixed_point_length; [lia|]. each V X. Qed.
Example box_columns_10 : in_columns 10 box_vs.
Proof. intros v x V X. apply fixed_point_length; [lia|]. each V X. Qed.
Lemma box_exponents : forall v x m e, In v box_vs -> In x (coordinates v) -> sci_digits 6 x m e -> (-280 <= e <= 280)%Z.
Proof. intros v x m e V X M. apply sci_digits_unique in M as [_ ->]. assert (H : ((-280 <=? snd (sci_pair 6 x)) && (snd (sci_pair 6 x) <=? 280) = true)%Z) by each V X. lia. Qed.
Example box_usual : usual_exponents box_vs.
Proof. intros v x V X m e M. pose proof (box_exponents v x m e V X M). change (10 ^ Z.of_nat 3)%Z with 1000%Z. lia. Qed.
Example box_ids : readable_ids box_fs. Proof. repeat constructor. Qed.

Definition box_corners : list vertex := map (fun i => nth i box_vs (bx 0, bx 0, bx 0)) (flat_map corners box_fs).
Example box_at_corners : at_corners box_vs box_fs box_corners.
Proof. repeat constructor. Qed.
Definition box_triangles : list (list vertex) := map (fun t => let '(i, j, k) := t in map (fun i => nth i box_vs (bx 0, bx 0, bx 0)) [i; j; k]) (stl_triangles box_fs).
Example box_stl : Forall2 (fun t c => let '(i, j, k) := t in Forall2 (fun i v => nth_error box_vs i = Some v) [i; j; k] c) (stl_triangles box_fs) box_triangles.
Proof. repeat constructor. Qed.
Definition back (a : array Z) : list (list Z) := match a with Arr2 rows => rows | Arr1 _ => [] end.
Definition rows_of (a : array num) : list (list num) := match a with Arr2 rows => rows | Arr1 _ => [] end.

(** The third corner of the box saved in fixed point and in scientific notation *)
Example box_texts : (fixed_point 6 (by_ 1), fixed_point 6 (bz 1), fixed_point 6 (by_ 0), scientific "E" 6 (bz 1), scientific "e" 6 (bx 0)) =
  (s "0.333333", s "142857.142857", s "-0.000000", s "1.428571E+05", s "-1.250000e+00").
Proof. reflexivity. Qed.
Example box_MAR : exists rows, load_MAR exact_dbl (write_MAR box_vs box_fs) = Ok (Arr2 rows, Arr2 (map face_row box_fs)) /\ nth 7 rows [] = [Num true 1250000 1000000; Num false 333333 1000000; Num false 142857142857 1000000].
Proof. eexists. split; vm_compute; reflexivity. Qed.
(** Three coordinates of 8 digits with a minus sign: the number of the vertex and the coordinates are one word, and the vertex
    comes back without coordinates. With one large positive coordinate, that coordinate is lost. *)
Example wide_MAR : load_MAR exact_dbl (write_MAR [(Num true 12345678 1, Num true 23456789 1, Num true 34567890 1)] [F4 0 0 0 0]) = Ok (Arr2 [[]], Arr2 [[0; 0; 0; 0]%Z]).
Proof. vm_compute. reflexivity. Qed.
Example wide_MAR_positive : load_MAR exact_dbl (write_MAR [(Num false 123456789 1, Num false 1 1, Num false 1 1)] [F4 0 0 0 0]) = Ok (Arr2 [[Num false 1000000 1000000; Num false 1000000 1000000]], Arr2 [[0; 0; 0; 0]%Z]).
Proof. vm_compute. reflexivity. Qed.
Example wide_not_room : ~ room 6 8 (Num false 123456789 1).
Proof. intros H. apply fixed_point_length in H; [|lia]. vm_compute in H. lia. Qed.
Example box_NAT : exists rows, load_NAT exact_dbl (write_NAT box_vs box_fs) = Ok (Arr2 rows, Arr2 (map face_row box_fs)) /\ nth 7 rows [] = [Num true 1250000 1000000; Num false 3333333 10000000; Num false 1428571 10].
Proof. eexists. split; vm_compute; reflexivity. Qed.
Example box_STL : snd (write_STL (fun _ _ _ => []) box_vs box_fs) = [F4 3 1 0 3; F4 4 6 7 4; F4 0 5 4 0; F4 1 6 5 1; F4 2 7 6 2; F4 3 4 4 3].
Proof. reflexivity. Qed.

Print Assumptions C68_round_trip. Print Assumptions C68_range. Print Assumptions C68_same_text. Print Assumptions C68_too_large. Print Assumptions C68_no_face.
Print Assumptions C69_round_trip. Print Assumptions C69_same_text.
Print Assumptions C70_round_trip. Print Assumptions C70_same_text. Print Assumptions C70_many_faces. Print Assumptions C70_few_faces. Print Assumptions C70_no_face.
Print Assumptions C71_round_trip. Print Assumptions C71_few_faces.
Print Assumptions C72_round_trip. Print Assumptions C72_same_text. Print Assumptions C72_one_vertex. Print Assumptions C72_too_large. Print Assumptions C72_symmetric.
Print Assumptions C73_read. Print Assumptions C73_read_scientific. Print Assumptions C73_bounded. Print Assumptions C73_bounded_scientific. Print Assumptions C73_idempotent. Print Assumptions C73_idempotent_scientific. Print Assumptions C73_one_text.
Print Assumptions C74_file. Print Assumptions C74_layout. Print Assumptions C74_alters_quads. Print Assumptions C74_triangles_unchanged. Print Assumptions C74_invalid.
