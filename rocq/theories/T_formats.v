(** C75: choice of a reader or a writer; C76: densities; first part of C78: file names.

    In the statements [dbl], [other_load], [other_write], [date], [normal_text] and [unfinished] are any functions. *)
From Coq Require Import Ascii String List Arith NArith ZArith QArith Bool Lia.
From Verif Require Import M_base M_merge M_mesh M_text M_mmio M_regex M_files M_formats S_text S_files S_formats P_dispatch T_mmio T_files T_dat.
Import ListNotations.
Local Open Scope nat_scope.

(** ** C75 *)
Theorem C75_known : forall k, know_extension k = true <-> exists f, In k (keywords f).
Proof. exact known. Qed.
(** A keyword has one format. *)
Theorem C75_one_format : forall k f g, In k (keywords f) -> In k (keywords g) -> f = g.
Proof. intros k f g F G. apply dict_keyword in F, G. congruence. Qed.
(** The reader of each format *)
Theorem C75_loads : forall dbl other_load d name t k f, d name = Some t -> In k (keywords f) ->
  load_mesh dbl other_load d name k =
    match f with
    | MAR => load_MAR dbl t | NEM => load_NEM dbl t | NAT => load_NAT dbl t | GDF => load_GDF dbl t | PNL => load_PNL dbl t
    | HST => load_HST dbl t | TEC => load_TEC dbl t | DAT => load_DAT dbl t | RAD => load_RAD dbl t | MSH => load_MSH dbl (other_load MSH) t
    | f => other_load f t
    end.
Proof. intros dbl ol d name t k f D K. unfold load_mesh. rewrite D, (dict_keyword k f K). destruct f; reflexivity. Qed.
Theorem C75_no_file : forall dbl other_load d name k, d name = None -> load_mesh dbl other_load d name k = Raise IOError.
Proof. intros dbl ol d name k D. unfold load_mesh. rewrite D. auto. Qed.
Theorem C75_unknown : forall k, (forall f, ~ In k (keywords f)) ->
  (forall dbl other_load d name, load_mesh dbl other_load d name k = Raise IOError) /\
  (forall other_write date normal_text unfinished name vs fs d,
     write_mesh other_write date normal_text unfinished name vs fs k d = (Raise IOError, d)).
Proof.
  intros k H. apply dict_unknown in H. split; intros.
  - unfold load_mesh. destruct (d name); auto. rewrite H. auto.
  - unfold write_mesh. rewrite H. auto.
Qed.
(** Keywords are not recognised in capitals. *)
Theorem C75_capitals : forall k c, In c k -> In c capitals -> forall f, ~ In k (keywords f).
Proof.
  intros k c I C f H. assert (N : forallb (fun k => forallb (fun c => negb (existsb (Ascii.eqb c) capitals)) k) (keywords f) = true) by (destruct f; reflexivity).
  rewrite forallb_forall in N. apply N in H. rewrite forallb_forall in H. apply H in I. apply negb_true_iff in I.
  enough (existsb (Ascii.eqb c) capitals = true) by congruence. apply existsb_exists. exists c. split; auto. apply Ascii.eqb_refl.
Qed.
(** The extension of a format is one of its keywords, but for Diodore's .dat files. *)
Theorem C75_extension : forall f, In (file_extension f) (keywords f) <-> f <> DAT.
Proof. intros f. destruct f; split; intros H; cbn; try tauto; try discriminate; exfalso; destruct H as [H|H]; [discriminate|contradiction]. Qed.
Theorem C75_dat_unknown : forall f, ~ In (s "dat") (keywords f).
Proof. intros f. assert (H : existsb (same (s "dat")) (keywords f) = false) by (destruct f; reflexivity). intros I. enough (existsb (same (s "dat")) (keywords f) = true) by congruence. apply existsb_exists. exists (s "dat"). split; auto. Qed.
(** Formats that are only read: nothing is written. *)
Theorem C75_read_only : forall other_write date normal_text unfinished name vs fs k d f, In k (keywords f) -> read_only f ->
  write_mesh other_write date normal_text unfinished name vs fs k d = (Raise NotImplementedError, d).
Proof.
  intros ow dt nt un name vs fs k d f K R. unfold write_mesh. rewrite (dict_keyword k f K). repeat (destruct R as [<-|R]; [reflexivity|]). contradiction.
Qed.
(** The others put the text of the format, and nothing else is changed. *)
Theorem C75_writes : forall other_write date normal_text unfinished name vs fs k d f, In k (keywords f) -> ~ read_only f ->
  exists place r d' t, write_mesh other_write date normal_text unfinished name vs fs k d = (r, d') /\
    written_at f name place /\ (forall n, n <> place -> d' n = d n) /\ d' place <> None /\
    file_text other_write date normal_text f name vs fs t /\
    match t with Ok t => r = Ok tt /\ d' place = Some t | Raise e => r = Raise e end.
Proof.
  intros ow dt nt un name vs fs k d f K R. exists (target f name). unfold write_mesh. rewrite (dict_keyword k f K).
  assert (N : not_written f = false). { destruct f; auto; exfalso; apply R; cbn; tauto. } rewrite N.
  assert (P : forall t, (forall n, n <> target f name -> put (target f name) t d n = d n) /\ put (target f name) t d (target f name) = Some t).
  { intros t. unfold put. split; [intros n D|]; destruct (list_eq_dec ascii_dec _ (target f name)); congruence. }
  destruct (writer ow dt nt f name vs fs) as [t|e] eqn:W; do 3 eexists; (split; [reflexivity|]); (split; [apply target_ok; auto|]).
  - destruct (P t) as [P1 P2]. split; auto. split; [congruence|]. split; [apply writer_ok; symmetry; exact W|]. split; auto.
  - destruct (P (un f vs fs)) as [P1 P2]. split; auto. split; [congruence|]. split; [apply writer_ok; symmetry; exact W|]. reflexivity.
Qed.
(** The place and the text are determined by the name, the format and the mesh. *)
Theorem C75_one_file : forall other_write date normal_text f name vs fs p p' t t', written_at f name p -> written_at f name p' ->
  file_text other_write date normal_text f name vs fs t -> file_text other_write date normal_text f name vs fs t' -> p = p' /\ t = t'.
Proof. intros ow dt nt f name vs fs p p' t t' P P' T T'. apply target_ok in P, P'. apply writer_ok in T, T'. split; congruence. Qed.

(** A mesh that is written with a keyword and loaded with a keyword of the same format *)
Section Back.
  Variable dbl : N -> Z -> N * positive.
  Variable other_load : fmt -> text -> res (array num * array Z).
  Variable other_write : fmt -> list vertex -> list face -> res text.
  Variable date : text.
  Variable normal_text : vertex -> vertex -> vertex -> text.
  Variable unfinished : fmt -> list vertex -> list face -> text.
  Definition back (f : fmt) (vs : list vertex) (fs : list face) (rows : array num) (ids : array Z) : Prop :=
    forall name k k' d, In k (keywords f) -> In k' (keywords f) ->
      exists d', write_mesh other_write date normal_text unfinished name vs fs k d = (Ok tt, d') /\
        (forall n, n <> name -> d' n = d n) /\ load_mesh dbl other_load d' name k' = Ok (rows, ids).
  Lemma back_file : forall f name vs fs rows ids t k k' d place, ~ read_only f -> In k (keywords f) -> In k' (keywords f) -> file_text other_write date normal_text f name vs fs (Ok t) -> written_at f name place ->
    reader dbl other_load f t = Ok (rows, ids) -> exists d', write_mesh other_write date normal_text unfinished name vs fs k d = (Ok tt, d') /\
        (forall n, n <> place -> d' n = d n) /\ load_mesh dbl other_load d' place k' = Ok (rows, ids).
  Proof.
    intros f name vs fs rows ids t k k' d place R K K' W A L. destruct (C75_writes other_write date normal_text unfinished name vs fs k d f K R) as (place' & r & d' & t' & E & A' & N & _ & W' & H).
    destruct (C75_one_file _ _ _ _ _ _ _ _ _ _ _ A A' W W') as [<- <-]. destruct H as [-> H]. exists d'. split; auto. split; auto. unfold load_mesh. rewrite H, (dict_keyword k' f K'). auto.
  Qed.
  Lemma back_ok : forall f vs fs rows ids t, ~ read_only f -> f <> DAT -> f <> TEC ->
    writer other_write date normal_text f [] vs fs = Ok t -> reader dbl other_load f t = Ok (rows, ids) -> back f vs fs rows ids.
  Proof.
    intros f vs fs rows ids t R ND NT W L name k k' d K K'. eapply back_file; eauto; [apply writer_ok|apply target_ok]; destruct f; try contradiction; cbn in *; auto.
  Qed.
  Ltac roundtrip L := eapply back_ok; [intros R; cbn in R; intuition discriminate|discriminate|discriminate|first [reflexivity|eassumption]|exact L].

  Theorem C75_round_trip_MAR : forall vs fs, vs <> [] -> fs <> [] -> in_columns 8 vs -> readable_ids fs ->
    exists rows, back MAR vs fs (Arr2 rows) (Arr2 (map face_row fs)) /\ Forall2 (saved_vertex (saved_fixed dbl 6)) vs rows.
  Proof.
    intros vs fs V F C I. destruct (C68_round_trip dbl vs fs V F C I) as (rows & L & S). exists rows. split; auto. roundtrip L.
  Qed.
  Theorem C75_round_trip_NEM : forall vs fs,
    exists rows, back NEM vs fs (table rows) (table (map face_row fs)) /\ Forall2 (saved_vertex (saved_fixed dbl 6)) vs rows.
  Proof.
    intros vs fs. destruct (C69_round_trip dbl vs fs) as (rows & L & S). exists rows. split; auto. roundtrip L.
  Qed.
  Theorem C75_round_trip_NAT : forall vs fs, 3 <= length vs -> 4 <= length fs -> (N.of_nat (length fs) < 100000)%N -> usual_exponents vs -> readable_ids fs ->
    exists rows, back NAT vs fs (Arr2 rows) (Arr2 (map face_row fs)) /\ Forall2 (saved_vertex (saved_sci dbl 6)) vs rows.
  Proof.
    intros vs fs V F L C I. destruct (C70_round_trip dbl vs fs V F L C I) as (rows & E & S). exists rows. split; auto. roundtrip E.
  Qed.
  Theorem C75_round_trip_GDF : forall vs fs cs, ~ In newline date -> at_corners vs fs cs -> usual_exponents cs -> 4 <= length fs ->
    exists rows, back GDF vs fs (Arr2 rows) (Arr2 (map (fun i => map Z.of_nat [4 * i; 4 * i + 1; 4 * i + 2; 4 * i + 3]) (seq 0 (length fs)))) /\
      Forall2 (saved_vertex (saved_sci dbl 6)) cs rows.
  Proof.
    intros vs fs cs D C U F. destruct (C71_round_trip dbl date vs fs cs D C U F) as (t & rows & W & S & L). exists rows. split; auto. roundtrip L.
  Qed.
  Theorem C75_round_trip_PNL : forall vs fs, 2 <= length vs -> in_columns 10 vs -> readable_ids fs ->
    exists rows, back PNL vs fs (Arr2 rows) (Arr2 (map face_row fs)) /\ Forall2 (saved_vertex (saved_fixed dbl 6)) vs rows.
  Proof.
    intros vs fs V C I. destruct (C72_round_trip dbl vs fs V C I) as (rows & L & S). exists rows. split; auto. roundtrip L.
  Qed.
  Theorem C75_round_trip_HST : forall vs fs, fs <> [] -> usual_exponents vs -> readable_ids fs ->
    exists rows, back HST vs fs (table rows) (Arr2 (map face_row fs)) /\ Forall2 (saved_vertex (saved_sci dbl 6)) vs rows.
  Proof. intros vs fs F C I. destruct (C93_round_trip dbl vs fs F C I) as (rows & L & S). exists rows. split; auto. roundtrip L. Qed.
  Theorem C75_round_trip_TEC : forall name vs fs k k' d, ~ In newline name -> vs <> [] -> usual_exponents vs -> readable_ids fs -> In k (keywords TEC) -> In k' (keywords TEC) ->
    exists rows d', write_mesh other_write date normal_text unfinished name vs fs k d = (Ok tt, d') /\ (forall n, n <> name -> d' n = d n) /\
      load_mesh dbl other_load d' name k' = Ok (Arr2 rows, Arr2 (map face_row fs)) /\ Forall2 (saved_vertex (saved_sci dbl 6)) vs rows.
  Proof.
    intros name vs fs k k' d NL V C I K K'. destruct (C94_round_trip dbl name vs fs NL V C I) as (rows & L & S).
    destruct (back_file TEC name vs fs (Arr2 rows) (Arr2 (map face_row fs)) (write_TEC name vs fs) k k' d name) as (d' & E & N & B); auto; [intros R; cbn in R; intuition discriminate|reflexivity|reflexivity|].
    exists rows, d'. auto.
  Qed.
  (** A Diodore file is found under the name with the extension in capitals. *)
  Theorem C75_round_trip_DAT : forall name base ext cap cap' vs fs k k' d, extension name base ext -> in_capitals base cap -> in_capitals ext cap' -> without dat_words cap -> without dat_words date ->
    vs <> [] -> exponents_within 5 2 vs -> ids_within 7 fs -> corners_within (length vs) fs -> In k (keywords DAT) -> In k' (keywords DAT) ->
    exists rows d', write_mesh other_write date normal_text unfinished name vs fs k d = (Ok tt, d') /\ (forall n, n <> base ++ cap' -> d' n = d n) /\
      load_mesh dbl other_load d' (base ++ cap') k' = Ok (Arr2 rows, table (map face_row (triangles_first fs))) /\ Forall2 (saved_vertex (saved_sci dbl 5)) vs rows.
  Proof.
    intros name base ext cap cap' vs fs k k' d X C C' WC WD V E I CW K K'. destruct (C95_round_trip dbl date cap vs fs V E I CW WC WD) as (rows & L & S).
    destruct (back_file DAT name vs fs (Arr2 rows) (table (map face_row (triangles_first fs))) (write_DAT date cap vs fs) k k' d (base ++ cap')) as (d' & W & N & B); auto; [intros R; cbn in R; intuition discriminate| | |].
    - exists base, ext, cap. auto.
    - exists base, ext, cap'. auto.
    - exists rows, d'. auto.
  Qed.
  (** Under the name that was asked for there is nothing new if the extension has a small letter. *)
  Theorem C75_dat_elsewhere : forall name base ext c vs fs k k' d, extension name base ext -> In c ext -> In c small_letters -> In k (keywords DAT) -> d name = None ->
    load_mesh dbl other_load (snd (write_mesh other_write date normal_text unfinished name vs fs k d)) name k' = Raise IOError.
  Proof.
    intros name base ext c vs fs k k' d X I SM K D. destruct (C75_writes other_write date normal_text unfinished name vs fs k d DAT K) as (place & r & d' & t & E & A & N & _); [intros R; cbn in R; intuition discriminate|].
    rewrite E. cbn [snd]. apply C75_no_file. rewrite N; auto. destruct A as (b & e & cap & X' & C & ->). destruct (extension_unique _ _ _ _ _ X X') as [<- <-]. destruct X as [-> _]. intros Q. apply app_inv_head in Q. subst cap.
    clear -I SM C. unfold in_capitals in C. assert (G : forall u v, Forall2 (fun c d => In (c, d) (combine small_letters capitals) \/ c = d /\ ~ In c small_letters) u v -> u = v -> In c u -> False).
    { intros u v H. induction H as [|a b u v A H IH]; intros Q J; [contradiction|]. injection Q as Q1 Q2. subst b. destruct J as [->|J]; [|auto]. destruct A as [A|[_ A]]; [|contradiction].
      cbn in A. repeat (destruct A as [A|A]; [congruence|]). contradiction. }
    apply (G ext ext C eq_refl I).
  Qed.
End Back.

(** ** C76 *)
(** A medium of the list has a positive density, whatever the case of the letters. *)
Theorem C76_listed : forall m, In m list_medium -> exists x, (value x > 0)%Q /\ forall t, same_but_case t m -> get_density t = Ok x.
Proof.
  intros m H. unfold list_medium in H. apply in_map_iff in H as ((k & x) & <- & H). exists x. split.
  - cbn in H. repeat (destruct H as [H|H]; [injection H as _ <-; reflexivity|]). contradiction.
  - intros t T. apply upper_case in T. unfold get_density. cbn [fst] in T. rewrite T, (densities_upper k x H), (lookup_in _ densities k x densities_unique H). auto.
Qed.
Theorem C76_others : forall t, (forall m, In m list_medium -> ~ same_but_case t m) -> get_density t = Raise KeyError.
Proof.
  intros t H. unfold get_density. destruct (lookup (upper t) densities) as [x|] eqn:E; auto. exfalso. apply lookup_some in E.
  apply (H (upper t)); [apply in_map_iff; exists (upper t, x); auto|]. apply upper_case. symmetry. apply (densities_upper _ x E).
Qed.
(** The densities *)
Theorem C76_values : map get_density list_medium =
  map (fun x => Ok (Num false (fst x) (snd x)))
    [(2300%N, 1%positive); (2400%N, 1%positive); (1000%N, 1%positive); (1025%N, 1%positive); (1600%N, 1%positive); (7850%N, 1%positive);
     (2700%N, 1%positive); (11350%N, 1%positive); (4500%N, 1%positive); (1050%N, 1%positive); (750%N, 1%positive); (850%N, 1%positive);
     (789%N, 1%positive); (1204%N, 1000%positive); (27%N, 10%positive); (201%N, 100%positive); (70%N, 1%positive); (810%N, 1%positive)] /\
  list_medium = map s ["CONCRETE"; "REINFORCED_CONCRETE"; "FRESH_WATER"; "SALT_WATER"; "SAND"; "STEEL"; "ALUMINUM"; "LEAD"; "TITANIUM";
    "POLYSTYRENE"; "GASOLINE"; "DIESEL_FUEL"; "ETHANOL"; "AIR_20DEGC"; "BUTANE"; "PROPANE"; "HYDROGEN_-252DEGC"; "NITROGEN_-195DEGC"]%string.
Proof. split; reflexivity. Qed.

(** ** Examples *)
Example known_keywords : map know_extension [s "mar"; s "nemoh_mesh"; s "MAR"; s "dat"; s ""; s "diodore-dat"; s "ply"] = [true; true; false; false; false; true; false].
Proof. reflexivity. Qed.
Example steel : same_but_case (s "sTeel") (s "STEEL") /\ get_density (s "sTeel") = Ok (Num false 7850 1) /\ get_density (s "Iron") = Raise KeyError.
Proof. split; [apply upper_case; reflexivity|split; reflexivity]. Qed.
Example splitext_cases : map splitext [s "a/b.c/ship"; s "ship.tar.gz"; s ".bashrc"; s "x/..mar"; s "ship."; s "x/.mar/y.MAR"] =
  [(s "a/b.c/ship", []); (s "ship.tar", s ".gz"); (s ".bashrc", []); (s "x/..mar", []); (s "ship", s "."); (s "x/.mar/y", s ".MAR")].
Proof. reflexivity. Qed.
Definition no_disk : disk := fun _ => None.
Example box_through_files : forall ol ow dt nt un,
  let d := snd (write_mesh ow dt nt un (s "box.mar") box_vs box_fs (s "nemoh") no_disk) in
  load_mesh exact_dbl ol d (s "box.mar") (s "mar") = load_MAR exact_dbl (write_MAR box_vs box_fs) /\ d (s "box") = None /\
  fst (write_mesh ow dt nt un (s "box.msh") box_vs box_fs (s "msh") d) = Raise NotImplementedError.
Proof. intros. repeat split; vm_compute; reflexivity. Qed.

(** hull.dat is asked for, hull.DAT is written. *)
Example box_dat_name : forall ol ow nt un,
  let d := snd (write_mesh ow a_date nt un (s "hulls/box.dat") box_vs box_fs (s "diodore-dat") no_disk) in
  extension (s "hulls/box.dat") (s "hulls/box") (s ".dat") /\ in_capitals (s "hulls/box") (s "HULLS/BOX") /\ in_capitals (s ".dat") (s ".DAT") /\
  load_mesh exact_dbl ol d (s "hulls/box.dat") (s "diodore-dat") = Raise IOError /\
  load_mesh exact_dbl ol d (s "hulls/box.DAT") (s "diodore-dat") = load_DAT exact_dbl (write_DAT a_date (s "HULLS/BOX") box_vs box_fs).
Proof. intros. split; [exact (splitext_ok (s "hulls/box.dat"))|]. split; [apply upper_capitals; reflexivity|]. split; [apply upper_capitals; reflexivity|]. split; vm_compute; reflexivity. Qed.

Print Assumptions C75_known. Print Assumptions C75_one_format. Print Assumptions C75_loads. Print Assumptions C75_no_file. Print Assumptions C75_unknown. Print Assumptions C75_capitals.
Print Assumptions C75_extension. Print Assumptions C75_dat_unknown. Print Assumptions C75_read_only. Print Assumptions C75_writes. Print Assumptions C75_one_file.
Print Assumptions C75_round_trip_MAR. Print Assumptions C75_round_trip_NEM. Print Assumptions C75_round_trip_NAT. Print Assumptions C75_round_trip_GDF. Print Assumptions C75_round_trip_PNL.
Print Assumptions C75_round_trip_HST. Print Assumptions C75_round_trip_TEC. Print Assumptions C75_round_trip_DAT. Print Assumptions C75_dat_elsewhere.
Print Assumptions C76_listed. Print Assumptions C76_others. Print Assumptions C76_values.
