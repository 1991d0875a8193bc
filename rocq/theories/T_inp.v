(** C99: Diodore .inp files, which place the meshes of .DAT files. *)
From Coq Require Import Ascii String List Arith NArith ZArith QArith Bool Lia.
From Verif Require Import M_base M_merge M_mesh M_text M_mmio S_text S_files P_text P_mmio P_formats M_regex M_files P_regex P_hst P_tec P_layout P_dat P_msh M_formats M_inp S_inp T_mmio T_files T_dat P_inp P_inp2 P_inp3 P_inp4 P_dispatch.
Import ListNotations.
Local Open Scope nat_scope.

(** The file [f] has nodes [ns] and sections of elements [els], and all nodes of elements. *)
Definition has_mesh (dbl : N -> Z -> N * positive) (open : text -> option text) (f : text) (ns : list (nat * list num)) (els : list (list (list nat))) : Prop :=
  els <> [] /\ numbers_known ns els /\ exists t, open f = Some t /\ is_dat dbl t ns els.

Definition B_of (dbl : N -> Z -> N * positive) (open : text -> option text) (f : text) : body :=
  match open f with Some d => match read_body dbl d with Ok b => b | Raise _ => Body [] [] 0 end | None => Body [] [] 0 end.
Lemma mesh_body : forall dbl open f ns els, has_mesh dbl open f ns els ->
  opens dbl open (B_of dbl open) f /\ nodes (B_of dbl open f) = map snd ns /\ Forall2 (Forall2 (fun cs row => face_of (map fst ns) cs (back row))) els (sections (B_of dbl open f)).
Proof.
  intros dbl open f ns els (_ & K & t & O & D). destruct (body_read _ _ _ _ D K) as (secs & R & F). assert (E : B_of dbl open f = Body (map snd ns) secs (last (map fst ns) 0)) by (unfold B_of; rewrite O, R; auto).
  split; [exists t; split; [auto|rewrite E; auto]|]. rewrite E. auto.
Qed.
Lemma frame_three : forall dbl g v items, frame_is dbl g v items -> knows_frame (rev (frame_pairs (pick dbl) items)) g v.
Proof.
  intros dbl g v items F. split; [|apply frame_known; auto]. destruct F as (a & pad & more & x & c & y & c' & z & b & _ & M & _). cbn [mapM] in M. destruct (to_float dbl x); [|discriminate]. cbn [bind] in M. destruct (to_float dbl y); [|discriminate]. cbn [bind] in M. destruct (to_float dbl z); [|discriminate]. cbn [bind] in M. injection M as <-. auto.
Qed.
Lemma name_given : forall node opts f, gives "INPUT" f opts -> name_of (node, opts) = f.
Proof. intros node opts f G. unfold name_of. rewrite (given _ _ node _ G). auto. Qed.
Lemma forall2_nth : forall A B (P : A -> B -> Prop) l l' d d' n, Forall2 P l l' -> n < length l -> P (nth n l d) (nth n l' d').
Proof. intros A B P l l' d d' n F. revert n. induction F as [|a b l l' H F IH]; intros [|n] L; cbn in *; try lia; auto. apply IH. lia. Qed.

(** One body: the vertices are the nodes, moved by the vector of the frame. The faces are those of as many sections as there are lines *ELEMENT; when they are all used, the first comes again. *)
Theorem C99_one_body : forall dbl add open items f g v ns els n0 es,
  Forall item_ok items -> frames_ok dbl items -> fields items = (true, n0) :: map (pair false) es -> es <> [] ->
  gives "INPUT" f n0 -> gives "FRAME" g n0 -> frame_is dbl g v items -> Forall (gives "INPUT" f) es -> has_mesh dbl open f ns els ->
  exists fss, load_INP_with dbl add open (inp_text items) = Ok (Arr2 (map (moved add v) (map snd ns)), Arr2 (concat fss)) /\
    length fss = length es /\ forall k, k < length es -> Forall2 (face_of (map fst ns)) (nth (k mod length els) els []) (nth k fss []).
Proof.
  intros dbl add open items f g v ns els n0 es I FO L NE F G FR ES HM. pose proof (mesh_body _ _ _ _ _ HM) as (O & NB & SB). pose proof (fields_ok _ I) as OK. rewrite L in OK. inversion OK as [|? ? O0 OE]; subst. cbn [snd] in O0.
  assert (NA : Forall named (fields items)). { rewrite L. constructor; [exists f; auto|]. apply Forall_map_intro. intros e E. exists f. apply (proj1 (Forall_forall _ _) ES e E). }
  assert (NM : Forall (fun n => n = f) (map name_of (fields items))). { rewrite L. constructor; [apply name_given; auto|]. change (Forall (fun n => n = f) (map name_of (map (pair false) es))). rewrite map_map. apply Forall_map_intro. intros e E. apply name_given. apply (proj1 (Forall_forall _ _) ES e E). }
  rewrite (load_read dbl add open (B_of dbl open)); auto; [|eapply Forall_impl; [|exact NM]; intros n ->; auto].
  assert (BK : lookup f (bodies_of (B_of dbl open) items) = Some (B_of dbl open f)). { rewrite <- (name_given true n0 f F). apply bodies_have. rewrite L. left. auto. }
  set (bs := bodies_of _ _) in *. set (idx := last _ _). rewrite L. cbn [map assemble]. rewrite (node_step add _ bs idx f g v (B_of dbl open f) n0 start); auto; [|split; auto|apply frame_three; auto]. cbn [bind start a_vertices a_faces used].
  assert (LS : length (sections (B_of dbl open f)) = length els) by (symmetry; eapply Forall2_len; eauto).
  assert (LP : 0 < length els) by (destruct HM as [NEL _]; destruct els; [congruence|cbn; lia]).
  set (st := Asm _ _ _ _). destruct (elems_steps add (rev (frame_pairs (pick dbl) items)) bs idx f (B_of dbl open f) false es st []) as (us & E); auto.
  - apply Forall_forall. intros e Q. split; [|apply (proj1 (Forall_forall _ _) ES e Q)]. assert (X : In (false, e) (map (pair false) es)) by (apply in_map; auto). apply (proj1 (Forall_forall _ _) OE _ X).
  - unfold counter, st. cbn [used lookup]. lia.
  - rewrite app_nil_r in E. rewrite E. cbn [assemble bind a_vertices a_faces]. destruct es as [|e es]; [congruence|]. set (fs := e :: es) in *.
    exists (map (fun k => map back (nth (k mod length els) (sections (B_of dbl open f)) [])) (seq 0 (length fs))). split; [|split; [rewrite map_length, seq_length; auto|]].
    + unfold more_faces, st, shifted, counter. cbn [a_faces a_vertices used lookup app plus]. rewrite NB, LS. do 3 f_equal. rewrite concat_map. f_equal. rewrite map_map. reflexivity.
    + intros k K. rewrite (nth_indep _ [] (map back (nth (k mod length els) (sections (B_of dbl open f)) []))) by (rewrite map_length, seq_length; auto).
      change (map back (nth (k mod length els) (sections (B_of dbl open f)) [])) with ((fun k => map back (nth (k mod length els) (sections (B_of dbl open f)) [])) k). rewrite map_nth, seq_nth by auto. cbn [plus].
      assert (M : k mod length els < length els) by (apply Nat.mod_upper_bound; lia). pose proof (forall2_nth _ _ _ _ _ [] [] _ SB M) as FN. clear -FN. induction FN; cbn; constructor; auto.
Qed.

(** ** Several bodies *)
Definition known (dbl : N -> Z -> N * positive) (open : text -> option text) (opts : list opt) : Prop := exists f ns els, gives "INPUT" f opts /\ has_mesh dbl open f ns els.
Lemma known_named : forall dbl open fs, Forall (fun f => known dbl open (snd f)) fs -> Forall named fs /\ Forall (opens dbl open (B_of dbl open)) (map name_of fs).
Proof.
  intros dbl open fs K. split.
  - eapply Forall_impl; [|exact K]. intros [b o] (f & ns & els & G & _). exists f. auto.
  - induction K as [|[b o] fs (f & ns & els & G & H) K IH]; constructor; auto. cbn [snd] in G. rewrite (name_given b o f G). apply (mesh_body _ _ _ _ _ H).
Qed.
Lemma positive_rows : forall dbl open f ns els, has_mesh dbl open f ns els -> Forall (fun sec => sec <> [] /\ Forall (Forall (fun z => (1 <= z)%Z)) sec) (sections (B_of dbl open f)).
Proof.
  intros dbl open f ns els H. destruct (mesh_body _ _ _ _ _ H) as (_ & _ & F). destruct H as (_ & _ & t & _ & D). destruct (dat_parts _ _ _ _ D) as (o & nodes & secs & o' & _ & _ & _ & _ & S).
  assert (NE : Forall (fun es => es <> []) els) by (clear -S; induction S as [|? ? ? ? (_ & _ & N & _)]; constructor; auto). clear S D. induction F as [|es sec els secs' R F IH]; [constructor|]. inversion NE; subst. constructor; auto. split; [intros ->; inversion R; subst; congruence|].
  clear -R. induction R as [|cs row es sec C R IH]; constructor; auto. unfold face_of in C. apply Forall_forall. intros z Z. assert (I : In (z - 1)%Z (back row)) by (apply in_map_iff; eauto).
  clear -C I. induction C as [|n i ? ? [P _] C IH]; [destruct I|]. destruct I as [E|I]; [lia|auto].
Qed.
Section Two.
  Variable dbl : N -> Z -> N * positive.
  Variable add : num -> num -> num.
  Variable open : text -> option text.
  Variable items : list inp_item.
  Hypothesis I : Forall item_ok items.
  Hypothesis FO : frames_ok dbl items.
  Hypothesis K : Forall (fun f => known dbl open (snd f)) (fields items).
  Let bs := bodies_of (B_of dbl open) items.
  Let idx := last (map (fun b => last_idx (snd b)) bs) 0.
  Lemma known_body : forall node opts f, In (node, opts) (fields items) -> gives "INPUT" f opts -> lookup f bs = Some (B_of dbl open f).
  Proof. intros node opts f X G. rewrite <- (name_given node opts f G). apply bodies_have. auto. Qed.
  Lemma known_opts : forall node opts, In (node, opts) (fields items) -> Forall opt_ok opts.
  Proof. intros node opts X. apply (proj1 (Forall_forall _ _) (fields_ok _ I) (node, opts) X). Qed.
  Lemma body_in : forall f b, lookup f bs = Some b -> exists ns els, has_mesh dbl open f ns els /\ b = B_of dbl open f.
  Proof.
    intros f b E. assert (X : In f (map name_of (fields items)) /\ b = B_of dbl open f).
    { unfold bs, bodies_of in E. assert (Y : In f (once (map name_of (fields items)) []) /\ b = B_of dbl open f).
      { revert E. generalize (once (map name_of (fields items)) []). induction l as [|a l IH]; [discriminate|]. cbn [map lookup]. destruct (list_eq_dec ascii_dec f a) as [->|N]; [intros [= <-]; split; [left|]; auto|]. intros E. destruct (IH E). split; [right|]; auto. }
      destruct Y as [Y ->]. apply in_once in Y as [Y _]. auto. }
    destruct X as [X ->]. apply in_map_iff in X as ([node opts] & <- & X). destruct (proj1 (Forall_forall _ _) K _ X) as (f & ns & els & G & H). cbn [snd] in G. rewrite (name_given node opts f G). eauto.
  Qed.
  Lemma counters_start : forall vs i, counters_ok bs (Asm vs None i []).
  Proof.
    intros vs i f b E. unfold counter. cbn [used lookup]. destruct (body_in f b E) as (ns & els & H & ->). destruct (mesh_body _ _ _ _ _ H) as (_ & _ & F). rewrite <- (Forall2_len _ _ _ _ _ F). destruct H as [N _]. destruct els; [congruence|cbn; lia].
  Qed.
  Lemma elems_known : forall es, incl (map (pair false) es) (fields items) -> Forall (fun e => exists f b, elem_field f e /\ lookup f bs = Some b) es.
  Proof.
    intros es S. apply Forall_forall. intros e E. assert (X : In (false, e) (fields items)) by (apply S, in_map; auto). destruct (proj1 (Forall_forall _ _) K _ X) as (f & ns & els & G & H). cbn [snd] in G. exists f, (B_of dbl open f). split; [split; [apply (known_opts _ _ X)|auto]|apply (known_body _ _ _ X G)].
  Qed.
  (** The first body *)
  Lemma first_body : forall n0 e0 rest f g v ns els, fields items = (true, n0) :: map (pair false) e0 ++ rest -> gives "INPUT" f n0 -> gives "FRAME" g n0 -> frame_is dbl g v items -> has_mesh dbl open f ns els ->
    exists fs us, counters_ok bs (Asm None None None us) /\
      assemble add (rev (frame_pairs (pick dbl) items)) bs idx (map dict_of (fields items)) start =
      assemble add (rev (frame_pairs (pick dbl) items)) bs idx (map dict_of rest) (Asm (Some (map (moved add v) (map snd ns))) fs (Some false) us).
  Proof.
    intros n0 e0 rest f g v ns els L F G FR H. destruct (mesh_body _ _ _ _ _ H) as (_ & NB & _). assert (X0 : In (true, n0) (fields items)) by (rewrite L; left; auto). rewrite L. cbn [map assemble].
    rewrite (node_step add _ bs idx f g v (B_of dbl open f) n0 start); [|split; [apply (known_opts _ _ X0)|auto]|apply frame_three; auto|apply (known_body _ _ _ X0 F)]. cbn [bind start a_vertices a_faces used]. rewrite NB, map_app.
    set (st := Asm _ _ _ _). destruct (any_elems_steps add (rev (frame_pairs (pick dbl) items)) bs idx e0 false st (map dict_of rest)) as (us & new & C & _ & _ & E); [apply elems_known; rewrite L; intros x X; right; apply in_or_app; auto|reflexivity|apply counters_start|].
    eexists. exists us. split; [exact C|]. rewrite E. reflexivity.
  Qed.
End Two.
(** A second body with its own nodes: the indices of its faces are all out of range, because the nodes of the second body are counted twice. *)
Theorem C99_second_body : forall dbl add open items n0 e0 n1 e1 f g v ns els f' g' v' ns' els' inc,
  Forall item_ok items -> frames_ok dbl items -> Forall (fun fl => known dbl open (snd fl)) (fields items) ->
  fields items = (true, n0) :: map (pair false) e0 ++ (true, n1) :: map (pair false) e1 -> e1 <> [] ->
  gives "INPUT" f n0 -> gives "FRAME" g n0 -> frame_is dbl g v items -> has_mesh dbl open f ns els ->
  gives "INPUT" f' n1 -> gives "FRAME" g' n1 -> frame_is dbl g' v' items -> has_mesh dbl open f' ns' els' -> gives "INCREMENT" inc n1 -> inc <> s "NO" ->
  exists vs fs fs', vs = map (moved add v) (map snd ns) ++ map (moved add v') (map snd ns') /\ load_INP_with dbl add open (inp_text items) = Ok (Arr2 vs, Arr2 (fs ++ fs')) /\
    fs' <> [] /\ Forall (Forall (fun i => (Z.of_nat (length vs) <= i)%Z)) fs'.
Proof.
  intros dbl add open items n0 e0 n1 e1 f g v ns els f' g' v' ns' els' inc I FO K L NE F G FR HM F' G' FR' HM' IN IV. destruct (known_named _ _ _ K) as [NA OP].
  rewrite (load_read dbl add open (B_of dbl open)); auto. destruct (first_body dbl add open items I K n0 e0 _ f g v ns els L F G FR HM) as (fs & us & CU & E). rewrite E. clear E. cbn [map assemble].
  assert (X1 : In (true, n1) (fields items)) by (rewrite L; right; apply in_or_app; right; left; auto). set (bs := bodies_of _ _) in *. set (idx := last _ _).
  destruct (mesh_body _ _ _ _ _ HM') as (_ & NB & _).
  rewrite (node_step add _ bs idx f' g' v' (B_of dbl open f') n1 _); [|split; [apply (known_opts items I _ _ X1)|auto]|apply frame_three; auto|apply (known_body dbl open items _ _ _ X1 F')]. cbn zeta. cbn [a_vertices a_faces used].
  assert (NS : ns <> []) by (destruct HM as (_ & _ & t & _ & D); apply (dat_nodes _ _ _ _ D)). destruct ns as [|p ns]; [congruence|]. rewrite (given _ _ true _ IN). set (vs0 := map (moved add v) (map snd (p :: ns))). assert (V0 : vs0 <> []) by discriminate. clearbody vs0. destruct vs0 as [|r rs]; [congruence|]. cbn [bind]. destruct (list_eq_dec ascii_dec inc (s "NO")); [congruence|]. rewrite NB. cbn [bind]. remember (r :: rs) as vs0 eqn:EV. clear r rs EV V0.
  set (vs1 := map (moved add v') (map snd ns')). set (st := Asm _ _ _ _).
  destruct (any_elems_steps add (rev (frame_pairs (pick dbl) items)) bs idx e1 true st []) as (us' & new & _ & LN & NW & E).
  - apply elems_known; auto. rewrite L. intros x X. right. apply in_or_app. right. right. auto.
  - reflexivity.
  - intros h b B. apply (CU h b B).
  - rewrite app_nil_r in E. rewrite E. destruct e1 as [|e e1]; [congruence|]. cbn [assemble bind a_vertices a_faces]. unfold st. cbn [a_vertices a_faces more_faces count].
    exists (vs0 ++ vs1), (map (map (fun z => (z - 1)%Z)) (match fs with Some l => l | None => [] end)), (map (map (fun z => (z - 1)%Z)) (shifted true (length (vs0 ++ vs1)) (concat new))). split; [reflexivity|]. split; [rewrite map_app; reflexivity|].
    assert (P : Forall (fun sec => sec <> [] /\ Forall (Forall (fun z => (1 <= z)%Z)) sec) new).
    { eapply Forall_impl; [|exact NW]. intros sec (h & b & B & S). destruct (body_in dbl open items K h b B) as (hs & hl & HH & ->). apply (proj1 (Forall_forall _ _) (positive_rows _ _ _ _ _ HH) sec S). }
    split.
    + destruct new as [|sec new]; [discriminate|]. inversion P as [|? ? [N _] _]; subst. destruct sec; [congruence|discriminate].
    + unfold shifted. rewrite map_map. apply Forall_map_intro. intros row R. apply in_concat in R as (sec & S & R). rewrite map_map. apply Forall_map_intro. intros z Z. apply (proj1 (Forall_forall _ _) P) in S as [_ S]. apply (proj1 (Forall_forall _ _) S) in R. apply (proj1 (Forall_forall _ _) R) in Z. cbv beta in Z. lia.
Qed.
(** A second line *NODE without INCREMENT, or with INCREMENT=NO, is an error, unless it is for a single node. *)
Theorem C99_redefined : forall dbl add open items n0 e0 n1 rest f g v ns els f' g' v' ns' els',
  Forall item_ok items -> frames_ok dbl items -> Forall (fun fl => known dbl open (snd fl)) (fields items) ->
  fields items = (true, n0) :: map (pair false) e0 ++ (true, n1) :: rest ->
  gives "INPUT" f n0 -> gives "FRAME" g n0 -> frame_is dbl g v items -> has_mesh dbl open f ns els ->
  gives "INPUT" f' n1 -> gives "FRAME" g' n1 -> frame_is dbl g' v' items -> has_mesh dbl open f' ns' els' -> length ns' <> 1 ->
  gives "INCREMENT" (s "NO") n1 \/ Forall (fun o => key o <> s "INCREMENT") n1 ->
  load_INP_with dbl add open (inp_text items) = Raise IndexError \/ load_INP_with dbl add open (inp_text items) = Raise ValueError.
Proof.
  intros dbl add open items n0 e0 n1 rest f g v ns els f' g' v' ns' els' I FO K L F G FR HM F' G' FR' HM' L1 IN. destruct (known_named _ _ _ K) as [NA OP].
  rewrite (load_read dbl add open (B_of dbl open)); auto. destruct (first_body dbl add open items I K n0 e0 _ f g v ns els L F G FR HM) as (fs & us & CU & E). rewrite E. clear E. cbn [map assemble].
  assert (X1 : In (true, n1) (fields items)) by (rewrite L; right; apply in_or_app; right; left; auto). set (bs := bodies_of _ _) in *. set (idx := last _ _).
  destruct (mesh_body _ _ _ _ _ HM') as (_ & NB & _).
  rewrite (node_step add _ bs idx f' g' v' (B_of dbl open f') n1 _); [|split; [apply (known_opts items I _ _ X1)|auto]|apply frame_three; auto|apply (known_body dbl open items _ _ _ X1 F')]. cbn zeta. cbn [a_vertices a_faces used].
  assert (NS : ns <> []) by (destruct HM as (_ & _ & t & _ & D); apply (dat_nodes _ _ _ _ D)). destruct ns as [|p ns]; [congruence|]. cbn [map].
  assert (IV : item "INCREMENT" (dict_of (true, n1)) = Ok (s "NO")) by (destruct IN as [IN|IN]; [apply (given _ _ true _ IN)|rewrite not_given by auto; reflexivity]). rewrite IV. cbn [bind]. destruct (list_eq_dec ascii_dec (s "NO") (s "NO")); [|congruence].
  unfold assign_row. destruct (_ <=? idx); [left; reflexivity|]. rewrite NB. destruct ns' as [|q [|q' ns']]; [right; reflexivity|destruct (L1 eq_refl)|right; reflexivity].
Qed.
(** A line *NODE without FRAME is an error. *)
Theorem C99_no_frame : forall dbl add open items n0 rest, Forall item_ok items -> frames_ok dbl items -> Forall (fun fl => known dbl open (snd fl)) (fields items) ->
  fields items = (true, n0) :: rest -> Forall (fun o => key o <> s "FRAME") n0 -> load_INP_with dbl add open (inp_text items) = Raise KeyError.
Proof.
  intros dbl add open items n0 rest I FO K L N. destruct (known_named _ _ _ K) as [NA OP]. rewrite (load_read dbl add open (B_of dbl open)); auto. set (bs := bodies_of _ _). set (idx := last _ _).
  assert (X0 : In (true, n0) (fields items)) by (rewrite L; left; auto). destruct (proj1 (Forall_forall _ _) K _ X0) as (f & ns & els & G & H). cbn [snd] in G.
  rewrite L. cbn [map assemble]. unfold step. rewrite (given _ _ true _ G), (typed true _ (known_opts items I _ _ X0)). cbn [bind type_of]. fold bs. unfold bs. rewrite (known_body dbl open items _ _ _ X0 G). cbn [bind]. destruct (list_eq_dec ascii_dec (s "NODE") (s "NODE")); [|congruence]. rewrite not_given by auto. reflexivity.
Qed.
Lemma mapM_late : forall A B (h : A -> res B) l1 l2 r1 e, mapM h l1 = Ok r1 -> mapM h l2 = Raise e -> mapM h (l1 ++ l2) = Raise e.
Proof. intros A B h l1. induction l1 as [|a l1 IH]; intros l2 r1 e E1 E2; auto. cbn [app mapM] in *. destruct (h a); [|discriminate]. cbn [bind] in *. destruct (mapM h l1) eqn:Q; [|discriminate]. rewrite (IH _ _ _ eq_refl E2). auto. Qed.
(** A blank after the commas in the vector of a frame is an error. *)
Theorem C99_frame_blank : forall dbl add open items pad name more x y z rest, Forall item_ok items -> frames_ok dbl items ->
  white_in_line pad -> white_in_line more -> name <> [] -> ~ In newline name -> a_word x -> a_word y -> a_word z -> free_of (s ",") x -> (exists q, to_float dbl x = Ok q) ->
  load_INP_with dbl add open (inp_text items ++ line (pad ++ s "*FRAME,NAME=" ++ name ++ more) ++ line (x ++ s ", " ++ y ++ s ", " ++ z) ++ rest) = Raise ValueError.
Proof.
  intros dbl add open items pad name more x y z rest I FO [P _] [_ M] NE N WX WY WZ FX (q & Q). unfold load_INP_with. rewrite matches_all. set (t := line (pad ++ _) ++ _).
  assert (NV : nonl (x ++ s ", " ++ y ++ s ", " ++ z)) by (repeat apply nonl_app; auto using word_nonl; repeat constructor).
  destruct (frames_found_then t items None I (or_introl eq_refl)) as (b' & B' & E). rewrite E. clear E. change (fun c : ascii => (Ascii.eqb c "," || Ascii.eqb c " ")%char) with comma_blank.
  assert (T : all_matches inp_frame b' t = (frame_line pad name more ++ newline :: x ++ s ", " ++ y ++ s ", " ++ z, [(2, x ++ s ", " ++ y ++ s ", " ++ z); (1, name ++ more)]) :: all_matches inp_frame (Some newline) rest).
  { assert (E : t = (frame_line pad name more ++ newline :: x ++ s ", " ++ y ++ s ", " ++ z) ++ newline :: rest) by (unfold t, line, frame_line; rewrite <- !app_assoc; cbn [app]; rewrite <- !app_assoc; reflexivity).
    rewrite E. apply all_here.
    - apply frame_at_start.
    - unfold frame_line. destruct pad; discriminate.
    - intros w c EQ C. subst c. destruct WZ as [NZ Z]. destruct (@exists_last _ z NZ) as (z' & d & ->). rewrite app_comm_cons, !app_assoc in EQ. apply app_inj_tail in EQ as [_ ->]. apply Forall_app in Z as [_ Z]. inversion Z; subst. discriminate.
    - destruct WX as [NX X]. destruct x as [|a x]; [congruence|]. inversion X; subst. cbn [app]. apply frame_gets_gen; auto. apply nonl_app; auto using nonl_in. }
  rewrite T. clear T. rewrite (mapM_late _ _ _ _ _ _ ValueError (frames_read dbl items I FO)); [reflexivity|]. cbn [mapM]. unfold group. cbn [snd assoc_nat Nat.eqb].
  assert (S : strip (x ++ s ", " ++ y ++ s ", " ++ z) = x ++ s ", " ++ y ++ s ", " ++ z).
  { rewrite <- (app_nil_r (x ++ _)) at 1. apply (strip_trimmed []); try constructor.
    - intros a u EQ. destruct WX as [NX X]. destruct x as [|a' x]; [congruence|]. inversion X; subst. injection EQ as -> _. auto.
    - intros u a EQ. destruct WZ as [NZ Z]. destruct (@exists_last _ z NZ) as (z' & d & ->). rewrite !app_assoc in EQ. apply app_inj_tail in EQ as [_ ->]. apply Forall_app in Z as [_ Z]. inversion Z; subst. auto. }
  rewrite S. change (x ++ s ", " ++ y ++ s ", " ++ z) with (x ++ ","%char :: " "%char :: y ++ s ", " ++ z). rewrite split_app; [|apply word_no_blank; auto|reflexivity]. cbn [mapM]. rewrite Q. cbn [bind]. change (" "%char :: y ++ s ", " ++ z) with ([] ++ " "%char :: y ++ s ", " ++ z). rewrite split_app; [|constructor|reflexivity]. reflexivity.
Qed.

(** ** Meshes saved as .DAT files *)
Definition quads (fs : list face) : list face := filter (fun f => negb (f0 f =? f3 f)) fs.
Definition tris (fs : list face) : list face := filter (fun f => f0 f =? f3 f) fs.
(** One section for quadrangles and one for triangles, if there are any *)
Definition sections_written (fs : list face) : nat := (if quads fs then 0 else 1) + (if tris fs then 0 else 1).
Lemma node_numbers : forall dbl vs, map fst (written_nodes dbl vs) = seq 1 (length vs).
Proof.
  intros dbl vs. unfold written_nodes. rewrite map_map. cbn [fst]. unfold numbered. rewrite <- seq_shift. assert (G : forall n, map (fun iv => S (fst iv)) (combine (seq n (length vs)) vs) = map S (seq n (length vs))); [|apply (G 0)].
  induction vs as [|v vs IH]; intros n; auto. cbn. rewrite IH. auto.
Qed.
Lemma node_places : forall dbl vs, map snd (written_nodes dbl vs) = map (fun v => map (rd_sci dbl 5) (coordinates v)) vs.
Proof. intros dbl vs. unfold written_nodes. rewrite map_map. apply (map_snd_combine _ _ (fun v => map (rd_sci dbl 5) (coordinates v)) vs 0). Qed.
Lemma corner_back : forall n k i, (0 <= i)%Z -> nth_error (seq 1 n) (Z.to_nat i) = Some (S k) -> i = Z.of_nat k.
Proof.
  intros n k i P E. assert (L : Z.to_nat i < n) by (rewrite <- (seq_length n 1); apply nth_error_Some; congruence). rewrite (nth_error_nth' _ 0) in E by (rewrite seq_length; auto). rewrite seq_nth in E by auto. injection E as E. lia.
Qed.
Lemma quad_row : forall n f row, face_of (seq 1 n) (map S (corners f)) row -> row = face_row f.
Proof.
  intros n f row H. unfold face_of in H. cbn in H. repeat match goal with H : Forall2 _ (_ :: _) _ |- _ => let P := fresh in let E := fresh in inversion H as [|? ? ? ? [P E] ?]; subst; clear H; apply corner_back in E; [|exact P] end. match goal with H : Forall2 _ [] _ |- _ => inversion H; clear H end. subst. unfold face_row. cbn. congruence.
Qed.
Lemma tri_row : forall n f row, f0 f = f3 f -> face_of (seq 1 n) (map S [f0 f; f1 f; f2 f]) row -> row = face_row f.
Proof.
  intros n f row T H. unfold face_of in H. cbn in H. repeat match goal with H : Forall2 _ (_ :: _) _ |- _ => let P := fresh in let E := fresh in inversion H as [|? ? ? ? [P E] ?]; subst; clear H; apply corner_back in E; [|exact P] end. match goal with H : Forall2 _ [] _ |- _ => inversion H; clear H end. subst. unfold face_row. cbn. congruence.
Qed.
Lemma quad_rows : forall n fs rows, Forall2 (face_of (seq 1 n)) (quad_corners fs) rows -> rows = map face_row (quads fs).
Proof.
  intros n fs rows. unfold quad_corners. fold (quads fs). generalize (quads fs). intros l. revert rows. induction l as [|f l IH]; intros rows H; inversion H; subst; auto. cbn [map]. f_equal; [eapply quad_row; eauto|auto].
Qed.
Lemma tri_rows : forall n fs rows, Forall2 (face_of (seq 1 n)) (tri_corners fs) rows -> rows = map face_row (tris fs).
Proof.
  intros n fs rows. unfold tri_corners. fold (tris fs). assert (T : forall f, In f (tris fs) -> f0 f = f3 f) by (intros f I; apply filter_In in I as [_ I]; apply Nat.eqb_eq; auto). revert T rows. generalize (tris fs). intros l. induction l as [|f l IH]; intros T rows H; inversion H; subst; auto. cbn [map]. f_equal; [eapply tri_row; eauto; apply T; left; auto|apply IH; auto; intros; apply T; right; auto].
Qed.
Lemma written_numbers : forall dbl vs fs, corners_within (length vs) fs -> numbers_known (written_nodes dbl vs) (present (quad_corners fs) ++ present (tri_corners fs)).
Proof.
  intros dbl vs fs C. unfold numbers_known. rewrite node_numbers.
  assert (P : forall l, Forall (Forall (fun n => In n (seq 1 (length vs)))) l -> Forall (Forall (Forall (fun n => In n (seq 1 (length vs))))) (present l)) by (intros [|a l] H; constructor; auto).
  apply Forall_app. split; apply P; apply Forall_map_intro; intros f I; apply filter_In in I as [I _]; apply (proj1 (Forall_forall _ _) C) in I; apply Forall_map_intro; intros n N; apply in_seq; rewrite Forall_forall in I; assert (n < length vs) by (apply I; cbn in *; tauto); lia.
Qed.
(** One line *ELEMENT for each section of the file: the mesh is moved, and quadrangles come first. *)
Theorem C99_written : forall dbl add open items f g v n0 es date root vs fs,
  Forall item_ok items -> frames_ok dbl items -> fields items = (true, n0) :: map (pair false) es ->
  gives "INPUT" f n0 -> gives "FRAME" g n0 -> frame_is dbl g v items -> Forall (gives "INPUT" f) es ->
  open f = Some (write_DAT date root vs fs) -> vs <> [] -> fs <> [] -> length es = sections_written fs ->
  exponents_within 5 2 vs -> ids_within 7 fs -> (N.of_nat (length fs) < 10 ^ 7)%N -> corners_within (length vs) fs -> ~ In newline root -> ~ In newline date -> calm root -> calm date ->
  exists rows, load_INP_with dbl add open (inp_text items) = Ok (Arr2 (map (moved add v) rows), Arr2 (map face_row (quads fs ++ tris fs))) /\ Forall2 (saved_vertex (saved_sci dbl 5)) vs rows.
Proof.
  intros dbl add open items f g v n0 es date root vs fs I FO L F G FR ES O NV NF LE EW ID LN CW NR ND CR CD.
  assert (NA : narrow_all 13 5 vs) by (apply (narrow_of 13 5 2); auto; lia).
  assert (SL : length (present (quad_corners fs) ++ present (tri_corners fs)) = sections_written fs).
  { unfold sections_written, quad_corners, tri_corners. fold (quads fs) (tris fs). destruct (quads fs), (tris fs); reflexivity. }
  assert (SP : sections_written fs <> 0).
  { unfold sections_written. destruct fs as [|f' fs]; [congruence|]. unfold quads, tris. cbn [filter]. destruct (f0 f' =? f3 f'); cbn [negb]; destruct (filter _ fs); lia. }
  assert (NE : es <> []) by (intros ->; cbn in LE; lia).
  assert (H : has_mesh dbl open f (written_nodes dbl vs) (present (quad_corners fs) ++ present (tri_corners fs))).
  { split; [intros E; rewrite E in SL; cbn in SL; lia|]. split; [apply written_numbers; auto|]. exists (write_DAT date root vs fs). split; auto. apply written_is_dat; auto. }
  destruct (C99_one_body dbl add open items f g v _ _ n0 es I FO L NE F G FR ES H) as (fss & E & LF & K). exists (map (fun v => map (rd_sci dbl 5) (coordinates v)) vs). rewrite E, node_places. split; [|apply saved_rows; apply rd_sci_saved].
  do 3 f_equal. rewrite node_numbers, SL in K. rewrite LE in K, LF. revert K LF. unfold sections_written, quad_corners, tri_corners. fold (quads fs) (tris fs).
  pose proof (quad_rows (length vs) fs) as QR. pose proof (tri_rows (length vs) fs) as TR. unfold quad_corners, tri_corners in QR, TR. fold (quads fs) in QR. fold (tris fs) in TR. revert SP. unfold sections_written. 
  destruct (quads fs) as [|q qs], (tris fs) as [|t ts]; cbn [map present app plus]; intros SP K LF.
  - congruence.
  - destruct fss as [|r [|? ?]]; try discriminate. cbn [concat]. rewrite app_nil_r. apply TR. apply (K 0). lia.
  - destruct fss as [|r [|? ?]]; try discriminate. cbn [concat]. rewrite !app_nil_r. apply QR. apply (K 0). lia.
  - destruct fss as [|r [|r' [|? ?]]]; try discriminate. assert (A : r = map face_row (q :: qs)) by (apply QR; apply (K 0); lia). assert (B : r' = map face_row (t :: ts)) by (apply TR; apply (K 1); lia). rewrite A, B. cbn [concat]. rewrite app_nil_r, <- map_app. reflexivity.
Qed.

(** ** Where the files are *)
Lemma mapM_ext : forall A B (h h' : A -> res B) l, (forall a, h a = h' a) -> mapM h l = mapM h' l.
Proof. intros A B h h' l E. induction l as [|a l IH]; auto. cbn [mapM]. rewrite E, IH. auto. Qed.
Lemma load_open : forall dbl add open open' t, (forall f, open f = open' f) -> load_INP_with dbl add open t = load_INP_with dbl add open' t.
Proof.
  intros dbl add open open' t E. unfold load_INP_with. destruct (mapM _ (matches inp_frame t)); auto. cbn [bind]. destruct (mapM field_of _); auto. cbn [bind]. destruct (mapM (item "INPUT") _); auto. cbn [bind].
  rewrite (mapM_ext _ _ _ (fun f => match open' f with None => Raise IOError | Some d => do b <- read_body dbl d; Ok (f, b) end)); auto. intros f. rewrite E. auto.
Qed.
(** The .DAT files are looked for in the directory of the .inp file, unless their names are absolute. *)
Definition absolute (f : text) : bool := match f with c :: _ => Ascii.eqb c "/" | [] => false end.
Lemma join_here : forall f, path_join [] f = f.
Proof. intros [|c f]; [reflexivity|]. unfold path_join. cbn [rev]. destruct c as [[] [] [] [] [] [] [] []]; reflexivity. Qed.
Lemma not_slash : forall (c : ascii) (x y : text), c <> "/"%char -> match c with "/"%char => x | _ => y end = y.
Proof. intros c x y N. destruct c as [[] [] [] [] [] [] [] []]; auto; congruence. Qed.
Lemma join_dir : forall u c f, c <> "/"%char -> path_join (u ++ [c]) f = if absolute f then f else (u ++ [c]) ++ s "/" ++ f.
Proof.
  intros u c f N. unfold path_join. rewrite rev_app_distr. cbn [rev app]. rewrite not_slash by auto. destruct f as [|a f]; [reflexivity|].
  unfold absolute. destruct (Ascii.eqb_spec a "/") as [->|NA]; auto. apply not_slash. auto.
Qed.
Theorem C99_directory : forall dbl add d u c base t, ~ In "/"%char base -> c <> "/"%char ->
  (d base = Some t -> load_INP dbl add d base = load_INP_with dbl add (fun f => d (f ++ s ".DAT")) t) /\
  (d (u ++ [c] ++ s "/" ++ base) = Some t -> load_INP dbl add d (u ++ [c] ++ s "/" ++ base) = load_INP_with dbl add (fun f => if absolute (f ++ s ".DAT") then d (f ++ s ".DAT") else d (u ++ [c] ++ s "/" ++ f ++ s ".DAT")) t).
Proof.
  intros dbl add d u c base t B NC. split; intros E; unfold load_INP; rewrite E; apply load_open; intros f.
  - unfold dirname. rewrite (proj2 (rfind_none "/" base) B), join_here. auto.
  - assert (DN : dirname (u ++ [c] ++ s "/" ++ base) = u ++ [c]).
    { assert (RF : rfind "/" (u ++ [c] ++ s "/" ++ base) = Some (length (u ++ [c]))) by (apply rfind_some; exists (u ++ [c]), base; rewrite <- app_assoc; auto).
      unfold dirname. rewrite RF. replace (firstn (S (length (u ++ [c]))) (u ++ [c] ++ s "/" ++ base)) with ((u ++ [c]) ++ s "/").
      2:{ replace (S (length (u ++ [c]))) with (length ((u ++ [c]) ++ s "/")) by (rewrite (app_length (u ++ [c])); change (length (s "/")) with 1; lia). replace (u ++ [c] ++ s "/" ++ base) with (((u ++ [c]) ++ s "/") ++ base) by (rewrite <- !app_assoc; reflexivity). rewrite firstn_app, Nat.sub_diag, firstn_all. cbn [firstn]. rewrite app_nil_r. auto. }
      assert (FA : forallb (Ascii.eqb "/") ((u ++ [c]) ++ s "/") = false).
      { rewrite !forallb_app. cbn [forallb]. destruct (Ascii.eqb "/" c) eqn:Q; [apply Ascii.eqb_eq in Q; congruence|]. rewrite !andb_false_r. auto. }
      rewrite FA, rev_app_distr, rev_app_distr. change (rev (s "/")) with ["/"%char]. cbn [app rev]. rewrite Ascii.eqb_refl. destruct (Ascii.eqb c "/") eqn:Q; [apply Ascii.eqb_eq in Q; congruence|]. cbn [rev]. rewrite rev_involutive. auto. }
    rewrite DN, join_dir by auto. rewrite <- app_assoc. destruct (absolute _); auto.
Qed.

(** ** Examples *)
Definition trim_check (v : text) : bool := match v with [] => true | c :: _ => negb (is_space c) && negb (is_space (last v c)) end.
Lemma trimmed_of : forall v, trim_check v = true -> trimmed v.
Proof.
  intros v H. split; [intros c t ->; apply andb_prop in H as [H _]; destruct (is_space c); auto|]. intros t c E. destruct v as [|a v]; [destruct t; discriminate|]. apply andb_prop in H as [_ H]. rewrite E, last_last in H. destruct (is_space c); auto.
Qed.
Lemma free_of_check : forall cs t, forallb (fun c => negb (existsb (Ascii.eqb c) cs)) t = true -> free_of cs t.
Proof. intros cs t H. apply Forall_forall. intros c I J. rewrite forallb_forall in H. specialize (H c I). assert (E : existsb (Ascii.eqb c) cs = true) by (apply existsb_exists; exists c; split; auto; apply Ascii.eqb_refl). rewrite E in H. discriminate. Qed.
Definition option_ (k v : string) : opt := Opt_ (s k) [] (s v) [].
Lemma option_ok : forall k v, forallb (fun c => negb (existsb (Ascii.eqb c) [","; "="; newline]%char)) (s k) = true -> forallb (fun c => negb (existsb (Ascii.eqb c) [","; "="; newline]%char)) (s v) = true -> trim_check (s v) = true -> s k <> s "type" -> opt_ok (option_ k v).
Proof. intros k v K V T N. unfold opt_ok, option_. cbn [key val before after]. repeat split; auto using free_of_check; try (apply trimmed_of; auto); constructor. Qed.
Definition hull_frame : inp_item := Frame (s "  ") (s "HULL") (s " ") (s "1.5") " " (s "0.0") "," (s "-2.0").
Definition hull_file (increments : list opt) (n : nat) : list inp_item :=
  [Other (s "* A hull and a copy of it"); hull_frame; Field [] true [option_ "INPUT" "BOX"; option_ "FRAME" "HULL"]] ++ repeat (Field [] false [option_ "INPUT" "BOX"]) n ++
  Other (s "* End") :: (if increments then [] else [Field [] true ([option_ "INPUT" "BOX"; option_ "FRAME" "HULL"] ++ increments); Field [] false [option_ "INPUT" "BOX"]]).
(** Five quadrangles and a triangle *)
Definition hull_fs : list face := [F4 3 0 4 3; F4 3 2 1 0; F4 4 5 6 7; F4 0 1 5 4; F4 1 2 6 5; F4 2 3 7 6].
Definition box_dat : text := write_DAT a_date (s "HULLS/BOX") box_vs hull_fs.
Definition box_open (f : text) : option text := if list_eq_dec ascii_dec f (s "BOX") then Some box_dat else None.
Definition exact_add (x y : num) : num :=
  let z (n : num) (m : positive) := ((if neg n then -1 else 1) * Z.of_N (top n) * Z.pos m)%Z in
  let r := (z x (bot y) + z y (bot x))%Z in Num (r <? 0)%Z (Z.abs_N r) (bot x * bot y).
Lemma items_ok : forall l, (l = [] \/ l = [option_ "INCREMENT" "YES"] \/ l = [option_ "INCREMENT" "NO"]) -> forall n, Forall item_ok (hull_file l n).
Proof.
  assert (O : forall l, ~ In newline l -> (exists c t, l = c :: t /\ is_space c = false /\ Forall (fun w => ~ exists r, c :: t = w ++ r) keywords) -> item_ok (Other l)).
  { intros l N (c & t & -> & C & K). split; auto. exists [], c, t. repeat split; auto. constructor. }
  assert (F : forall b opts, opts <> [] -> Forall opt_ok opts -> item_ok (Field [] b opts)) by (intros; repeat split; auto; constructor).
  assert (OI : opt_ok (option_ "INPUT" "BOX")) by (apply option_ok; try reflexivity; discriminate). assert (OF : opt_ok (option_ "FRAME" "HULL")) by (apply option_ok; try reflexivity; discriminate).
  intros l L n. unfold hull_file. apply Forall_app. split; [|apply Forall_app; split; [apply Forall_forall; intros i I; apply repeat_spec in I; subst; apply F; [discriminate|constructor; [apply OI|apply Forall_nil]]|]].
  - constructor; [|constructor; [|constructor; [|constructor]]].
    + apply O; [apply no_newline; reflexivity|]. do 2 eexists. split; [reflexivity|]. split; [reflexivity|]. repeat (constructor; [intros (r & E); discriminate|]). constructor.
    + unfold hull_frame, item_ok. split; [split; [repeat constructor|apply no_newline; reflexivity]|]. split; [split; [repeat constructor|apply no_newline; reflexivity]|]. split; [discriminate|]. split; [apply trimmed_of; reflexivity|]. split; [apply no_newline; reflexivity|].
      split; [repeat (constructor; [split; [discriminate|repeat constructor]|]); constructor|]. split; [repeat (constructor; [apply free_of_check; reflexivity|]); constructor|]. split; [discriminate|auto].
    + apply F; [discriminate|]. constructor; [apply OI|constructor; [apply OF|apply Forall_nil]].
  - constructor; [apply O; [apply no_newline; reflexivity|]; do 2 eexists; split; [reflexivity|]; split; [reflexivity|]; repeat (constructor; [intros (r & E); discriminate|]); constructor|].
    destruct L as [->|[->| ->]]; [constructor| |]; (constructor; [apply F; [discriminate|cbn [app]; constructor; [apply OI|constructor; [apply OF|constructor; [apply option_ok; try reflexivity; discriminate|constructor]]]]|constructor; [apply F; [discriminate|constructor; [apply OI|constructor]]|constructor]]).
Qed.
Lemma hull_frames : forall l, (l = [] \/ l = [option_ "INCREMENT" "YES"] \/ l = [option_ "INCREMENT" "NO"]) -> forall n, frames_ok exact_dbl (hull_file l n) /\ frame_is exact_dbl (s "HULL") [Num false 15 10; Num false 0 10; Num true 20 10] (hull_file l n).
Proof.
  intros l L n. split.
  - unfold frames_ok, hull_file. apply Forall_app. split; [constructor; [exact Logic.I|constructor; [eexists; vm_compute; reflexivity|repeat constructor]]|]. apply Forall_app. split; [apply Forall_forall; intros i I; apply repeat_spec in I; subst; exact Logic.I|]. constructor; [exact Logic.I|]. destruct L as [->|[->| ->]]; repeat constructor.
  - exists [Other (s "* A hull and a copy of it")]. do 8 eexists. split; [reflexivity|]. split; [vm_compute; reflexivity|]. constructor; [exact Logic.I|]. apply Forall_app. split; [apply Forall_forall; intros i I; apply repeat_spec in I; subst; exact Logic.I|]. constructor; [exact Logic.I|]. destruct L as [->|[->| ->]]; repeat constructor.
Qed.
Lemma hull_fields : forall n, fields (hull_file [] n) = (true, [option_ "INPUT" "BOX"; option_ "FRAME" "HULL"]) :: map (pair false) (repeat [option_ "INPUT" "BOX"] n).
Proof. intros n. unfold hull_file, fields. rewrite !flat_map_app. cbn [flat_map app]. rewrite <- app_assoc. cbn [app hull_frame]. f_equal. rewrite app_nil_r. induction n as [|n IH]; auto. cbn [repeat flat_map app map]. rewrite IH. auto. Qed.
Lemma gives_here : forall k v o b, key o = s k -> val o = v -> Forall (fun o' => key o' <> s k) b -> gives k v (o :: b). Proof. intros k v o b K V N. exists [], o, b. auto. Qed.
Lemma gives_later : forall k v o b, gives k v b -> gives k v (o :: b). Proof. intros k v o b (x & y & z & -> & H). exists (o :: x), y, z. auto. Qed.
Lemma hull_calm : forall t, forallb (fun c => negb (Ascii.eqb c ".")) t = true -> calm t.
Proof.
  intros t N (a & d & w & x & b & -> & _ & _ & _ & (sg & i & fr & ex & -> & _)). rewrite forallb_forall in N. assert (X : In "."%char (a ++ d :: w ++ (sg ++ i ++ s "." ++ fr ++ ex) ++ b)) by (apply in_or_app; right; right; apply in_or_app; right; apply in_or_app; left; apply in_or_app; right; apply in_or_app; right; left; auto).
  specialize (N _ X). discriminate.
Qed.
Lemma box_mesh : has_mesh exact_dbl box_open (s "BOX") (written_nodes exact_dbl box_vs) (present (quad_corners hull_fs) ++ present (tri_corners hull_fs)).
Proof.
  split; [discriminate|]. split; [apply written_numbers; repeat constructor|]. exists box_dat. split; [reflexivity|]. apply written_is_dat; try discriminate; try (apply no_newline; reflexivity); try (apply hull_calm; reflexivity); try reflexivity.
  - apply (narrow_of 13 5 2); try apply box_DAT_ok; lia.
  - repeat constructor.
Qed.
(** The conditions of C99_written are met: a hull with five quadrangles and a triangle, in two sections. *)
Example hull_alone : exists rows, load_INP_with exact_dbl exact_add box_open (inp_text (hull_file [] 2)) = Ok (Arr2 (map (moved exact_add [Num false 15 10; Num false 0 10; Num true 20 10]) rows), Arr2 (map face_row (quads hull_fs ++ tris hull_fs))) /\ Forall2 (saved_vertex (saved_sci exact_dbl 5)) box_vs rows.
Proof.
  apply (C99_written exact_dbl exact_add box_open (hull_file [] 2) (s "BOX") (s "HULL") _ [option_ "INPUT" "BOX"; option_ "FRAME" "HULL"] (repeat [option_ "INPUT" "BOX"] 2) a_date (s "HULLS/BOX")); try (apply (hull_fields 2)); try discriminate; try (apply no_newline; reflexivity); try (apply hull_calm; reflexivity); try reflexivity; try (apply items_ok; auto); try (apply hull_frames; auto); try (apply box_DAT_ok); try (repeat constructor; fail).
  - apply gives_here; auto. repeat constructor. discriminate.
  - apply gives_later, gives_here; auto.
  - repeat (constructor; [apply gives_here; auto|]). constructor.
Qed.
Example hull_numbers : load_INP_with exact_dbl exact_add box_open (inp_text (hull_file [] 3)) = Ok (Arr2 (map (fun v => moved exact_add [Num false 15 10; Num false 0 10; Num true 20 10] (map (rd_sci exact_dbl 5) (coordinates v))) box_vs), Arr2 (map face_row (quads hull_fs ++ tris hull_fs ++ quads hull_fs))).
Proof. vm_compute. reflexivity. Qed.
Lemma hull_known : forall l n, (l = [] \/ l = [option_ "INCREMENT" "YES"] \/ l = [option_ "INCREMENT" "NO"]) -> Forall (fun fl => known exact_dbl box_open (snd fl)) (fields (hull_file l n)).
Proof.
  assert (K : forall opts, gives "INPUT" (s "BOX") opts -> known exact_dbl box_open opts) by (intros opts G; exists (s "BOX"); do 2 eexists; split; [exact G|apply box_mesh]).
  intros l n L. unfold hull_file, fields. rewrite !flat_map_app. cbn [flat_map app]. constructor; [apply K, gives_here; auto; repeat constructor; discriminate|]. apply Forall_app. split.
  - induction n as [|n IH]; cbn [repeat flat_map app]; [constructor|]. constructor; [apply K, gives_here; auto|exact IH].
  - destruct L as [->|[->| ->]]; cbn [flat_map app]; [constructor| |]; (constructor; [apply K, gives_here; auto; repeat constructor; discriminate|constructor; [apply K, gives_here; auto|constructor]]).
Qed.
(** The conditions of C99_second_body and C99_redefined are met. *)
Example hull_twice : exists vs fs fs', length vs = 16 /\ load_INP_with exact_dbl exact_add box_open (inp_text (hull_file [option_ "INCREMENT" "YES"] 2)) = Ok (Arr2 vs, Arr2 (fs ++ fs')) /\ fs' <> [] /\ Forall (Forall (fun i => (Z.of_nat (length vs) <= i)%Z)) fs'.
Proof.
  assert (L : [option_ "INCREMENT" "YES"] = [] \/ [option_ "INCREMENT" "YES"] = [option_ "INCREMENT" "YES"] \/ [option_ "INCREMENT" "YES"] = [option_ "INCREMENT" "NO"]) by (right; left; reflexivity). destruct (hull_frames _ L 2) as [FO FI].
  set (n0 := [option_ "INPUT" "BOX"; option_ "FRAME" "HULL"]). set (n1 := [option_ "INPUT" "BOX"; option_ "FRAME" "HULL"; option_ "INCREMENT" "YES"]).
  assert (G0 : gives "INPUT" (s "BOX") n0) by (apply gives_here; [reflexivity|reflexivity|repeat constructor; discriminate]). assert (G1 : gives "FRAME" (s "HULL") n0) by (apply gives_later, gives_here; [reflexivity|reflexivity|constructor]).
  assert (H0 : gives "INPUT" (s "BOX") n1) by (apply gives_here; [reflexivity|reflexivity|repeat constructor; discriminate]). assert (H1 : gives "FRAME" (s "HULL") n1) by (apply gives_later, gives_here; [reflexivity|reflexivity|repeat constructor; discriminate]). assert (H2 : gives "INCREMENT" (s "YES") n1) by (apply gives_later, gives_later, gives_here; [reflexivity|reflexivity|constructor]).
  assert (E1 : [[option_ "INPUT" "BOX"]] <> []) by discriminate. assert (Y : s "YES" <> s "NO") by discriminate.
  destruct (C99_second_body exact_dbl exact_add box_open (hull_file [option_ "INCREMENT" "YES"] 2) n0 (repeat [option_ "INPUT" "BOX"] 2) n1 [[option_ "INPUT" "BOX"]] (s "BOX") (s "HULL") _ _ _ (s "BOX") (s "HULL") _ _ _ (s "YES")
    (items_ok _ L 2) FO (hull_known _ 2 L) eq_refl E1 G0 G1 FI box_mesh H0 H1 FI box_mesh H2 Y) as (vs & fs & fs' & V & E & R).
  exists vs, fs, fs'. split; [|split; [exact E|exact R]]. rewrite V, app_length, !map_length. unfold written_nodes. rewrite map_length. reflexivity.
Qed.
Example hull_again : load_INP_with exact_dbl exact_add box_open (inp_text (hull_file [option_ "INCREMENT" "NO"] 2)) = Raise IndexError.
Proof. vm_compute. reflexivity. Qed.
(** Nodes that are not in the file get the index -2. *)
Theorem C99_unknown_node_refuted : exists items vs fs row, load_INP_with exact_dbl exact_add (fun f => Some (concat (map line [s "   1 0. 0. 0."; s "   2 1. 0. 0."; s "   4 1. 1. 0."; s "*RETURN"; s "   1   1   2   3"]))) (inp_text items) = Ok (Arr2 vs, Arr2 fs) /\
  length vs = 3 /\ In row fs /\ In (-2)%Z row.
Proof. exists (hull_file [] 1). do 2 eexists. exists [0; 1; -2; 0]%Z. split; [vm_compute; reflexivity|]. split; [reflexivity|]. split; [left; reflexivity|right; right; left; reflexivity]. Qed.
Print Assumptions C99_one_body. Print Assumptions C99_written. Print Assumptions C99_second_body. Print Assumptions C99_redefined. Print Assumptions C99_no_frame. Print Assumptions C99_frame_blank. Print Assumptions C99_directory. Print Assumptions C99_unknown_node_refuted.
