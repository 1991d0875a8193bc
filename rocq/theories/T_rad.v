(** Property C107: Radioss files. *)
From Coq Require Import Ascii String List Arith NArith ZArith Bool Lia.
From Verif Require Import M_base M_merge M_mesh M_text M_mmio S_text S_files P_text P_mmio P_formats M_regex M_files P_regex P_hst P_tec P_layout P_dat P_msh M_formats M_inp S_inp P_inp S_rad P_rad.
Import ListNotations.
Local Open Scope nat_scope.

Lemma node_length : forall dbl l p, rad_line dbl l p -> length p = 3.
Proof. intros dbl l p (n & p0 & d & p1 & x & p2 & y & p3 & z & _ & _ & _ & _ & _ & _ & _ & _ & _ & _ & M). cbn [mapM] in M. destruct (to_float dbl x); [|discriminate]. cbn [bind] in M. destruct (to_float dbl y); [|discriminate]. cbn [bind] in M. destruct (to_float dbl z); [|discriminate]. injection M as <-. auto. Qed.
Lemma same_rows : forall A k (rows : list (list A)), rows <> [] -> Forall (fun r => length r = k) rows -> np_array rows = Ok (Arr2 rows).
Proof. intros A k rows N F. pose proof (np_array_rows A (list A) (fun r => r) k rows N) as X. rewrite map_id in X. apply X. apply Forall_forall. auto. Qed.
Lemma lines_before : forall ls t, ls <> [] -> newline :: concat (map line ls) ++ t = concat (map (cons newline) ls) ++ newline :: t.
Proof.
  intros ls t _. induction ls as [|l ls IH]; auto. cbn [map concat]. cbn [app]. f_equal. unfold line at 1. rewrite <- !app_assoc. cbn [app]. rewrite IH. reflexivity.
Qed.
Section Read.
  Variable dbl : N -> Z -> N * positive.
  Variables (head nodes mid els : list text) (ps : list (list num)) (css : list (list nat)).
  Hypothesis R : is_rad dbl head nodes mid els ps css.
  Lemma rad_nodes_found : forall rest, exists cs, search rad_node_section (rad_file head nodes mid els rest) = Some (concat (map (cons newline) nodes), (1, concat (map (cons newline) nodes)) :: cs).
  Proof.
    intros rest. destruct R as [H N S (_ & m & mid' & -> & T) _]. unfold rad_file. rewrite !map_app, !concat_app, <- !app_assoc. set (after := concat (map line (m :: mid')) ++ concat (map line els) ++ rest).
    destruct (heading_skipped head (concat (map line nodes) ++ after) H) as (h & E & SK). rewrite E. unfold search. rewrite SK, lines_before by auto.
    assert (TA : titled after).
    { destruct T as (p & c & r & -> & P & C). unfold after. cbn [map concat]. unfold line at 1. rewrite <- !app_assoc. exists p, c. eexists. split; [reflexivity|]. auto. }
    destruct (rad_section dbl nodes ps (fin None h) after N S TA) as (cs & ->). exists cs. reflexivity.
  Qed.
  Lemma rad_vs : forall rest, exists ns, search rad_node_section (rad_file head nodes mid els rest) = Some ns /\
    mapM (fun m => mapM (fun i => to_float dbl (group i m)) [1; 2; 3]) (matches rad_node_line (group 1 ns)) = Ok ps /\ np_array ps = Ok (Arr2 ps).
  Proof.
    intros rest. destruct (rad_nodes_found rest) as (cs & E). eexists. split; [exact E|]. destruct R as [H N S _ _]. split; [apply (rad_vertices dbl nodes ps N)|]. apply (same_rows _ 3).
    - intros ->. inversion N; subst. congruence.
    - clear -N. induction N; constructor; auto. eapply node_length. eauto.
  Qed.
  Lemma rad_to_els : forall rest, exists b, at_line_start b /\ scan rad_elem_section None (rad_file head nodes mid els rest) = scan rad_elem_section b (concat (map line els) ++ rest).
  Proof.
    intros rest. destruct R as [(H & _) N S (M & _) _]. unfold rad_file. replace (head ++ nodes ++ mid ++ els) with ((head ++ nodes ++ mid) ++ els) by (rewrite <- !app_assoc; reflexivity). rewrite map_app, concat_app, <- app_assoc.
    apply wordy_skipped; [|left; auto]. repeat (apply Forall_app; split); auto. clear -N. induction N; constructor; auto. eapply node_wordy. eauto.
  Qed.
End Read.
Lemma minus_faces : forall css, minus_one (Arr2 (map (map Z.of_nat) css)) = Arr2 (map rad_face css).
Proof. intros css. cbn [minus_one]. rewrite map_map. f_equal. apply map_ext. intros cs. unfold rad_face. rewrite map_map. reflexivity. Qed.

(** The points of the nodes in the order of the file, and for each element the face on its last four numbers, counted from one *)
Theorem C107_loaded : forall dbl head nodes mid els ps css rest, is_rad dbl head nodes mid els ps css -> 3 <= length els -> rest = [] \/ titled rest ->
  load_RAD dbl (rad_file head nodes mid els rest) = Ok (Arr2 ps, Arr2 (map rad_face css)).
Proof.
  intros dbl head nodes mid els ps css rest R L T. unfold load_RAD. destruct (rad_vs dbl _ _ _ _ _ _ R rest) as (ns & -> & V & A). rewrite V. cbn [bind]. rewrite A. cbn [bind].
  destruct (rad_to_els dbl _ _ _ _ _ _ R rest) as (b & B & E). pose proof (rad_els _ _ _ _ _ _ _ R) as EL. destruct (elem_section els css rest b EL L T B) as (st & E2). unfold search. rewrite E, E2. cbn [option_map fst group snd assoc_nat Nat.eqb].
  change (group 1 (concat (map line els), [(1, concat (map line els))])) with (concat (map line els)). rewrite (elems_found els css EL).
  assert (M : mapM (fun l => mapM to_int (skipn 3 (words l))) (map line els) = Ok (map (map Z.of_nat) css)).
  { clear -EL. apply mapM_forall2. induction EL as [|l cs ls css H F IH]; constructor; auto. apply elem_read. auto. }
  rewrite M. cbn [bind]. rewrite (same_rows _ 4).
  - cbn [bind]. rewrite minus_faces. reflexivity.
  - intros Q. apply map_eq_nil in Q. subst. inversion EL; subst. cbn in L. lia.
  - clear -EL. induction EL as [|l cs ls css H F IH]; constructor; auto. rewrite map_length. eapply elem_corners. eauto.
Qed.
(** Fewer than three elements are not found. *)
Theorem C107_few : forall dbl head nodes mid els ps css after, is_rad dbl head nodes mid els ps css -> length els < 3 -> Forall wordy after ->
  load_RAD dbl (rad_file head nodes mid els (concat (map line after))) = Raise AttributeError.
Proof.
  intros dbl head nodes mid els ps css after R L T. unfold load_RAD. destruct (rad_vs dbl _ _ _ _ _ _ R (concat (map line after))) as (ns & -> & V & A). rewrite V. cbn [bind]. rewrite A. cbn [bind].
  destruct (rad_to_els dbl _ _ _ _ _ _ R (concat (map line after))) as (b & B & E). unfold search. rewrite E, (few_elems els css); auto. apply (rad_els _ _ _ _ _ _ _ R).
Qed.
(** No file without a decimal point is read. *)
Theorem C107_no_node : forall dbl t, ~ In "."%char t -> load_RAD dbl t = Raise AttributeError.
Proof. intros dbl t N. unfold load_RAD, search. rewrite (scan_requires "."%char); auto. Qed.

(** A file, and one whose nodes do not carry the numbers 1, 2, 3... *)
Definition rad_header : list text := [s "# RADIOSS STARTER"; s "# generated by ICEM CFD 14.0"; s "/BEGIN"; s "/NODE"].
Definition rad_points (ids : list string) : list text :=
  map (fun ic => let '(i, (x, y, z)) := ic in s " " ++ s i ++ s "  " ++ s x ++ s "  " ++ s y ++ s "  " ++ s z)
    (combine ids [("0.0", "0.0", "0.0"); ("1.5", "0.0", "-.25"); ("1.5", "1.", "0.0"); ("0.0", "1.E+0", "0.0"); ("0.5", "2.0", "1.0e-1")]%string).
Definition rad_shells : list string := ["  1  1  1  1 2 3 4"; "  2  1  1  3 4 5 3"; "  3  1  1  1 2 4 1"]%string.
Definition dec_of (m : N) (e : Z) : N * positive := match e with Z0 => (m, 1%positive) | Zpos p => (m * 10 ^ Npos p, 1%positive)%N | Zneg p => (m, Pos.pow 10 p) end.
Lemma blanks_spec : forall t, forallb (Ascii.eqb " ") t = true -> blanks t.
Proof. intros t H. apply Forall_forall. intros c I. apply (proj1 (forallb_forall _ _) H) in I. apply Ascii.eqb_eq in I. auto. Qed.
Lemma number_spec : forall t, t <> [] -> forallb is_digit t = true -> number t.
Proof. intros t N H. split; auto. apply Forall_forall. apply forallb_forall. auto. Qed.
Lemma wordy_spec : forall l, forallb (fun c => negb (Ascii.eqb c newline) && negb (Ascii.eqb c return_char)) l = true -> existsb (fun c => negb (digit_or_space c)) l = true -> wordy l.
Proof.
  intros l H E. split.
  - split; intros I; apply (proj1 (forallb_forall _ _) H) in I; vm_compute in I; discriminate.
  - apply existsb_exists in E as (c & I & C). apply in_split in I as (a & b & ->). exists a, c, b. split; auto. unfold digit_or_space in C. destruct (is_digit c), (is_space c); try discriminate; auto.
Qed.
(** The longest stretches of characters of numbers *)
Fixpoint stretches (cur : text) (t : text) : list text :=
  match t with [] => [rev cur] | c :: t' => if of_numbers c then stretches (c :: cur) t' else rev cur :: stretches [] t' end.
Lemma stretch_in : forall t cur a u b, t = a ++ u ++ b -> Forall (fun c => of_numbers c = true) u -> exists x y z, In x (stretches cur t) /\ x = y ++ u ++ z.
Proof.
  assert (G : forall u b cur, Forall (fun c => of_numbers c = true) u -> exists x z, In x (stretches cur (u ++ b)) /\ x = rev cur ++ u ++ z).
  { induction u as [|c u IH]; intros b cur F.
    - cbn [app]. revert cur. induction b as [|c b IHb]; intros cur; cbn [stretches]; [exists (rev cur), []; rewrite app_nil_r; split; [left; auto|auto]|].
      destruct (of_numbers c); [|exists (rev cur), []; rewrite app_nil_r; split; [left; auto|auto]]. destruct (IHb (c :: cur)) as (x & z & I & ->). eexists. exists (c :: z). split; [exact I|]. cbn [rev]. rewrite <- app_assoc. reflexivity.
    - inversion F as [|? ? C F']; subst. cbn [app stretches]. rewrite C. destruct (IH b (c :: cur) F') as (x & z & I & ->). eexists. exists z. split; [exact I|]. cbn [rev]. rewrite <- app_assoc. reflexivity. }
  intros t cur a. revert t cur. induction a as [|c a IH]; intros t cur u b E F.
  - subst. destruct (G u b cur F) as (x & z & I & ->). eexists. exists (rev cur), z. split; [exact I|auto].
  - subst. cbn [app stretches]. destruct (of_numbers c).
    + destruct (IH (a ++ u ++ b) (c :: cur) u b eq_refl F) as (x & y & z & I & ->). eexists. exists y, z. split; [exact I|auto].
    + destruct (IH (a ++ u ++ b) [] u b eq_refl F) as (x & y & z & I & ->). eexists. exists y, z. split; [right; exact I|auto].
Qed.
Lemma heading_spec : forall ls ls' l c, Forall wordy ls -> forallb (fun x => count_occ ascii_dec x "."%char <=? 2) (stretches [] (concat (map line ls))) = true ->
  ls = ls' ++ [l ++ [c]] -> of_number c = false -> is_space c = false -> heading ls.
Proof.
  intros ls ls' l c W K E C1 C2. split; auto. split; [|exists ls', l, c; auto]. intros a u b Q F. destruct (stretch_in _ [] a u b Q F) as (x & y & z & I & ->). apply (proj1 (forallb_forall _ _) K) in I. apply Nat.leb_le in I. rewrite !count_occ_app in I. lia.
Qed.
Lemma decimal_spec : forall w, run real_re (St None w []) (fun st => match rest st with [] => Some tt | _ => None end) = Some tt -> decimal w.
Proof.
  intros w E. apply run_sound in E as (st & L & K). apply lang_decimal in L as (w' & E & D). unfold pos_of in E. cbn [snd rest] in E. destruct (rest st); [|discriminate]. rewrite app_nil_r in E. subst. auto.
Qed.
Lemma node_spec : forall i x y z n p, s i <> [] -> forallb is_digit (s i) = true -> decimal (s x) -> decimal (s y) -> decimal (s z) -> to_int (s i) = Ok (Z.of_nat n) -> mapM (to_float dec_of) [s x; s y; s z] = Ok p ->
  rad_line dec_of (s " " ++ s i ++ s "  " ++ s x ++ s "  " ++ s y ++ s "  " ++ s z) p.
Proof.
  intros i x y z n p N I X Y Z T M. exists n, (s " "), (s i), (s "  "), (s x), (s "  "), (s y), (s "  "), (s z). assert (B : some_blanks (s "  ")) by (split; [discriminate|apply blanks_spec; reflexivity]).
  split; auto. split; [apply blanks_spec; reflexivity|]. do 3 (split; [exact B|]). split; [apply number_spec; auto|]. auto 10.
Qed.
Lemma element_spec : forall n1 n2 n3 n4 n5 n6 n7 cs, let w n := digits (N.of_nat n) in cs = [n4; n5; n6; n7] ->
  rad_element (s "  " ++ w n1 ++ concat (map (fun c => fst c ++ snd c) [(s " ", w n2); (s " ", w n3); (s " ", w n4); (s " ", w n5); (s " ", w n6); (s " ", w n7)])) cs.
Proof.
  intros n1 n2 n3 n4 n5 n6 n7 cs w ->. assert (W : forall n, number (w n)) by (intros; split; [apply digits_nonempty|apply digits_chars]). assert (B : some_blanks (s " ")) by (split; [discriminate|apply blanks_spec; reflexivity]).
  do 3 eexists. split; [reflexivity|]. split; [apply blanks_spec; reflexivity|]. split; [apply W|]. split; [reflexivity|]. split; [repeat (constructor; [cbn [fst snd]; auto|]); constructor|]. cbn [skipn]. repeat (constructor; [apply to_int_of_nat|]). constructor.
Qed.
Definition rad_ps : list (list num) :=
  [[Num false 0 10; Num false 0 10; Num false 0 10]; [Num false 15 10; Num false 0 10; Num true 25 100]; [Num false 15 10; Num false 1 1; Num false 0 10];
   [Num false 0 10; Num false 1 1; Num false 0 10]; [Num false 5 10; Num false 20 10; Num false 10 100]].
Definition rad_els (cs : list (list nat)) : list text := map (fun ic => s "  " ++ digits (N.of_nat (S (fst ic))) ++ s " 1 1" ++ concat (map (fun n => s " " ++ digits (N.of_nat n)) (snd ic))) (combine (seq 0 (length cs)) cs).
Ltac node_case := eapply node_spec; [discriminate|reflexivity|apply decimal_spec; vm_compute; reflexivity|apply decimal_spec; vm_compute; reflexivity|apply decimal_spec; vm_compute; reflexivity| |vm_compute; reflexivity].
Lemma rad_heading : heading rad_header.
Proof.
  apply (heading_spec _ [s "# RADIOSS STARTER"; s "# generated by ICEM CFD 14.0"; s "/BEGIN"] (s "/NOD") "E"%char); auto. repeat (constructor; [apply wordy_spec; vm_compute; reflexivity|]). constructor.
Qed.
Lemma rad_middle : Forall wordy [s "/SHELL/1"] /\ exists m mid', [s "/SHELL/1"] = m :: mid' /\ titled m.
Proof. split; [constructor; [apply wordy_spec; vm_compute; reflexivity|constructor]|]. exists (s "/SHELL/1"), []. split; auto. exists [], "/"%char, (s "SHELL/1"). repeat split; constructor. Qed.
Lemma rad_elements : Forall2 rad_element (rad_els [[1; 2; 3; 4]; [3; 4; 5; 3]; [1; 2; 4; 1]]) [[1; 2; 3; 4]; [3; 4; 5; 3]; [1; 2; 4; 1]].
Proof. repeat constructor. exact (element_spec 1 1 1 1 2 3 4 _ eq_refl). exact (element_spec 2 1 1 3 4 5 3 _ eq_refl). exact (element_spec 3 1 1 1 2 4 1 _ eq_refl). Qed.
Example C107_case : exists els, 3 <= length els /\ titled (s "/END") /\
  is_rad dec_of rad_header (rad_points ["1"; "2"; "3"; "4"; "5"]%string) [s "/SHELL/1"] els rad_ps [[1; 2; 3; 4]; [3; 4; 5; 3]; [1; 2; 4; 1]].
Proof.
  exists (rad_els [[1; 2; 3; 4]; [3; 4; 5; 3]; [1; 2; 4; 1]]). split; [cbn; lia|]. split; [exists [], "/"%char, (s "END"); repeat split; constructor|]. split.
  - apply rad_heading.
  - repeat (constructor; [node_case|]). all: try constructor. exact (to_int_of_nat 1). exact (to_int_of_nat 2). exact (to_int_of_nat 3). exact (to_int_of_nat 4). exact (to_int_of_nat 5).
  - discriminate.
  - apply rad_middle.
  - apply rad_elements.
Qed.
(** The numbers of the nodes are ignored: elements that name the nodes by their numbers lead to faces on vertices that do not exist. *)
Theorem C107_numbers_refuted : exists head nodes ids mid els ps css, is_rad dec_of head nodes mid els ps css /\ map (fun l => nth 0 (words l) []) nodes = map s ids /\
  Forall (Forall (fun n => In (digits (N.of_nat n)) (map s ids))) css /\
  exists fs, load_RAD dec_of (rad_file head nodes mid els (s "/END")) = Ok (Arr2 ps, Arr2 fs) /\ exists row i, In row fs /\ In i row /\ (Z.of_nat (length ps) <= i)%Z.
Proof.
  set (css := [[10; 20; 30; 40]; [30; 40; 50; 30]; [10; 20; 40; 10]]). set (ids := ["10"; "20"; "30"; "40"; "50"]%string).
  assert (R : is_rad dec_of rad_header (rad_points ids) [s "/SHELL/1"] (rad_els css) rad_ps css).
  { split.
    - apply rad_heading.
    - repeat (constructor; [node_case|]). all: try constructor. exact (to_int_of_nat 10). exact (to_int_of_nat 20). exact (to_int_of_nat 30). exact (to_int_of_nat 40). exact (to_int_of_nat 50).
    - discriminate.
    - apply rad_middle.
    - repeat constructor. exact (element_spec 1 1 1 10 20 30 40 _ eq_refl). exact (element_spec 2 1 1 30 40 50 30 _ eq_refl). exact (element_spec 3 1 1 10 20 40 10 _ eq_refl). }
  exists rad_header, (rad_points ids), ids, [s "/SHELL/1"], (rad_els css), rad_ps, css. split; [exact R|]. split; [vm_compute; reflexivity|]. split; [repeat (constructor; [repeat (constructor; [vm_compute; intuition|]); constructor|]); constructor|].
  exists (map rad_face css). split; [apply C107_loaded; [exact R|vm_compute; lia|right; exists [], "/"%char, (s "END"); repeat split; constructor]|].
  exists [9; 19; 29; 39]%Z, 39%Z. split; [left; reflexivity|]. split; [cbn; auto|]. vm_compute. discriminate.
Qed.
(** A coordinate without a point ends the nodes: the nodes from there on are lost and no error is raised. *)
Theorem C107_integer_refuted : exists nodes mid els vs fs, load_RAD dec_of (rad_file rad_header nodes mid els (s "/END")) = Ok (Arr2 vs, Arr2 fs) /\
  Forall (fun l => exists d x y z p, words l = [d; x; y; z] /\ mapM (to_float dec_of) [x; y; z] = Ok p) nodes /\ length nodes = 5 /\ length vs = 3.
Proof.
  exists [s " 1  0.0 0.0 0.0"; s " 2  1.5 0.0 -.25"; s " 3  1.5 1. 0.0"; s " 4  0 1.0 0.0"; s " 5  0.5 2.0 1.0"], [s "/SHELL/1"], (rad_els [[1; 2; 3; 4]; [3; 4; 5; 3]; [1; 2; 4; 1]]). do 2 eexists. split; [vm_compute; reflexivity|].
  split; [repeat (constructor; [do 5 eexists; split; [vm_compute; reflexivity|vm_compute; reflexivity]|]); constructor|]. split; reflexivity.
Qed.

Print Assumptions C107_loaded. Print Assumptions C107_few. Print Assumptions C107_no_node. Print Assumptions C107_numbers_refuted. Print Assumptions C107_integer_refuted.
