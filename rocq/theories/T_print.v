(** Properties C105 and C106: printed texts. *)
From Coq Require Import Ascii String List Arith NArith ZArith QArith Bool Lia.
From Verif Require Import M_base M_merge M_mesh M_text M_mmio M_formats M_print S_text S_print P_text P_mmio P_columns P_formats P_print.
Import ListNotations.
Local Open Scope nat_scope.

(** ** C105: the hydrostatic report *)
Section Report.
  Variable degrees square : num -> num.
  Variable mul div : num -> num -> num.
  Variable square_root : num -> res num.
  Variable version : text.
  Hypothesis V : nonl version.
  Notation report := (report degrees square mul div square_root version).
  Notation report_lines := (report_lines degrees square mul div version).

  Lemma report_nonl : forall h r1 r2 r3, Forall nonl (report_lines h r1 r2 r3).
  Proof.
    intros h r1 r2 r3. unfold M_print.report_lines. cbv zeta. rewrite !Forall_app. unfold given.
    assert (B : forall label st d, label_ok label = true -> nonl (build_line label st d)) by exact build_nonl.
    repeat split.
    - constructor; [apply nonl_app; [apply nonl_text; reflexivity|apply nonl_app; [exact V|apply nonl_text; reflexivity]]|].
      constructor; [constructor|]. constructor; [apply nonl_text; reflexivity|].
      repeat (constructor; [first [apply B; reflexivity | apply B; destruct (trust_lpp h); reflexivity | apply Forall_nil]|]). apply Forall_nil.
    - destruct (below_zero (gmt h)); [constructor; [apply nonl_text; reflexivity|apply Forall_nil]|apply Forall_nil].
    - destruct (below_zero (gml h)); [constructor; [apply nonl_text; reflexivity|apply Forall_nil]|apply Forall_nil].
    - repeat (constructor; [first [apply B; reflexivity | apply Forall_nil | apply nonl_text; reflexivity | apply nonl_text; destruct (trust_lpp h); reflexivity]|]). apply Forall_nil.
  Qed.
  Definition note_lines (h : hs) : list text := if trust_lpp h then [[]] else
    [s "[2] Not enough information to get a trusted Lpp. It has been approximated by Lwl instead.";
     s "    It has an influence on the Iyy and Izz inertias calculated from standard approximations.";
     s "    To get more accurate results, please specify a Lpp."].
  Lemma report_lines_all : forall h r1 r2 r3,
    lines (concat (map line (report_lines h r1 r2 r3)) ++ if trust_lpp h then [] else lpp_note) = report_lines h r1 r2 r3 ++ note_lines h.
  Proof. intros h r1 r2 r3. rewrite lines_concat by apply report_nonl. f_equal. unfold note_lines. destruct (trust_lpp h); reflexivity. Qed.
  Lemma report_ok : forall h r1 r2 r3, square_root (div (ixx h) (disp_mass h)) = Ok r1 -> square_root (div (iyy h) (disp_mass h)) = Ok r2 ->
    square_root (div (izz h) (disp_mass h)) = Ok r3 -> exists t, report h = Ok t /\ lines t = report_lines h r1 r2 r3 ++ note_lines h.
  Proof. intros h r1 r2 r3 A B C. unfold M_print.report. rewrite A, B, C. cbn [bind]. eexists. split; [reflexivity|]. apply report_lines_all. Qed.

  (** Every quantity is displayed under its label, rounded. *)
  Theorem report_values : forall dbl h r1 r2 r3,
    square_root (div (ixx h) (disp_mass h)) = Ok r1 -> square_root (div (iyy h) (disp_mass h)) = Ok r2 -> square_root (div (izz h) (disp_mass h)) = Ok r3 ->
    Forall small (waterplane_center h) -> Forall small (buoyancy_center h) -> Forall small (center_of_gravity h) ->
    exists t, report h = Ok t /\ Forall2 (displays dbl) (quantities degrees square mul div h r1 r2 r3) (entries t).
  Proof.
    intros dbl h r1 r2 r3 A B C W Y G. destruct (report_ok h r1 r2 r3 A B C) as (t & T & L). exists t. split; auto.
    unfold entries. rewrite L, flat_map_app.
    replace (flat_map entry (note_lines h)) with (@nil (text * list text)) by (unfold note_lines; destruct (trust_lpp h); reflexivity). rewrite app_nil_r.
    unfold M_print.report_lines. cbv zeta. rewrite !flat_map_app.
    replace (flat_map entry (given (below_zero (gmt h)) _)) with (@nil (text * list text)) by (unfold given; destruct (below_zero (gmt h)); reflexivity).
    replace (flat_map entry (given (below_zero (gml h)) _)) with (@nil (text * list text)) by (unfold given; destruct (below_zero (gml h)); reflexivity).
    assert (O : forall label label' st x, label_ok label = true -> upper (s label) = s label' -> Forall2 (displays dbl) [(label', st, [x])] (entry (build_line label st (Scalar x)))).
    { intros label label' st x K E. rewrite entry_scalar by auto. constructor; [|constructor]. split; auto. constructor; [apply style_shows|constructor]. }
    assert (M : forall label label' xs, label_ok label = true -> upper (s label) = s label' -> Forall small xs -> Forall2 (displays dbl) [(label', Fix 3, xs)] (entry (build_line label (Fix 3) (Vector xs)))).
    { intros label label' xs K E F. rewrite entry_vector; auto.
      - constructor; [|constructor]. split; auto. cbn [snd]. clear F. induction xs; constructor; auto. apply style_shows.
      - eapply Forall_impl; [|exact F]. apply small_length. }
    assert (S : forall q qs e es, Forall2 (displays dbl) [q] e -> Forall2 (displays dbl) qs es -> Forall2 (displays dbl) (q :: qs) (e ++ es)).
    { intros q qs e es E F. apply (Forall2_app E F). }
    cbn [flat_map app]. rewrite ?app_nil_r, <- ?app_assoc. cbn [app]. unfold quantities. cbv zeta.
    repeat match goal with |- context [entry (?a ++ ?b) ++ ?r] => change (entry (a ++ b)) with (@nil (text * list text)); cbn [app] end.
    repeat match goal with |- context [entry (tab :: s ?b)] => change (entry (tab :: s b)) with (@nil (text * list text)); cbn [app] end.
    repeat match goal with |- context [entry (s ?b)] => change (entry (s b)) with (@nil (text * list text)); cbn [app] end.
    change (entry []) with (@nil (text * list text)). cbn [app].
    destruct (trust_lpp h);
      (match goal with |- context [entry ((if ?b then _ else _) ++ ?x)] => idtac | |- context [entry (?x ++ tab :: ?y)] => change (entry (x ++ tab :: y)) with (@nil (text * list text)) end; cbn [app];
       repeat (apply S; [first [apply O; reflexivity | apply M; [reflexivity|reflexivity|assumption]]|]); first [apply O; reflexivity | apply Forall2_nil]).
  Qed.

  (** The warnings are those of negative metacentric heights. *)
  Lemma report_warnings : forall h t, report h = Ok t ->
    warnings t = given (below_zero (gmt h)) [tab :: s "<<<  TRANSVERSALLY UNSTABLE  >>>"] ++ given (below_zero (gml h)) [tab :: s "<<<  LONGITUDINALLY UNSTABLE  >>>"].
  Proof.
    intros h t T. pose proof T as T'. unfold M_print.report in T'.
    destruct (square_root (div (ixx h) (disp_mass h))) as [r1|] eqn:A; cbn [bind] in T'; [|discriminate].
    destruct (square_root (div (iyy h) (disp_mass h))) as [r2|] eqn:B; cbn [bind] in T'; [|discriminate].
    destruct (square_root (div (izz h) (disp_mass h))) as [r3|] eqn:C; cbn [bind] in T'; [|discriminate].
    clear T'. destruct (report_ok h r1 r2 r3 A B C) as (u & U & L). rewrite T in U. injection U as <-.
    unfold warnings. rewrite L, filter_app. replace (filter warning (note_lines h)) with (@nil text) by (unfold note_lines; destruct (trust_lpp h); reflexivity).
    rewrite app_nil_r. unfold M_print.report_lines. cbv zeta. rewrite !filter_app.
    unfold given. destruct (trust_lpp h), (below_zero (gmt h)), (below_zero (gml h)); reflexivity.
  Qed.
  Lemma report_note : forall h t, report h = Ok t ->
    (In (s "[2] Not enough information to get a trusted Lpp. It has been approximated by Lwl instead.") (lines t) <-> trust_lpp h = false).
  Proof.
    intros h t T. pose proof T as T'. unfold M_print.report in T'.
    destruct (square_root (div (ixx h) (disp_mass h))) as [r1|] eqn:A; cbn [bind] in T'; [|discriminate].
    destruct (square_root (div (iyy h) (disp_mass h))) as [r2|] eqn:B; cbn [bind] in T'; [|discriminate].
    destruct (square_root (div (izz h) (disp_mass h))) as [r3|] eqn:C; cbn [bind] in T'; [|discriminate].
    clear T'. destruct (report_ok h r1 r2 r3 A B C) as (u & U & L). rewrite T in U. injection U as <-. rewrite L.
    destruct (trust_lpp h) eqn:E; split; intros H; auto; try discriminate.
    - exfalso. set (p := fun l : text => match l with a :: b :: c :: d :: e :: _ => Ascii.eqb a "[" && Ascii.eqb b "2" && Ascii.eqb e "N" | _ => false end).
      assert (P : filter p (report_lines h r1 r2 r3 ++ note_lines h) = []).
      { rewrite filter_app. unfold note_lines. rewrite E. unfold M_print.report_lines. cbv zeta. rewrite !filter_app. unfold given. rewrite E.
        destruct (below_zero (gmt h)), (below_zero (gml h)); reflexivity. }
      assert (I : In (s "[2] Not enough information to get a trusted Lpp. It has been approximated by Lwl instead.") (filter p (report_lines h r1 r2 r3 ++ note_lines h))).
      { apply filter_In. split; [exact H|reflexivity]. }
      rewrite P in I. destruct I.
    - apply in_or_app. right. unfold note_lines. rewrite E. left. reflexivity.
  Qed.
End Report.

Theorem C105_values : forall degrees square mul div square_root version dbl h r1 r2 r3, nonl version ->
  square_root (div (ixx h) (disp_mass h)) = Ok r1 -> square_root (div (iyy h) (disp_mass h)) = Ok r2 -> square_root (div (izz h) (disp_mass h)) = Ok r3 ->
  Forall small (waterplane_center h) -> Forall small (buoyancy_center h) -> Forall small (center_of_gravity h) ->
  exists t, report degrees square mul div square_root version h = Ok t /\ Forall2 (displays dbl) (quantities degrees square mul div h r1 r2 r3) (entries t).
Proof. intros. apply report_values; auto. Qed.
Lemma below_zero_value : forall x, below_zero x = true <-> (value x < 0)%Q.
Proof.
  intros [n a b]. unfold below_zero, value, magnitude. cbn [neg top bot]. unfold Qlt. destruct n; cbn [Qnum Qden Qopp andb].
  - destruct (N.eqb_spec a 0); cbn [negb]; split; intros; try discriminate; try reflexivity; subst; lia.
  - split; [discriminate|lia].
Qed.
(** The report says that the body is unstable exactly when a metacentric height is negative, and gives no other warning. *)
Theorem C105_warnings : forall degrees square mul div square_root version h t, nonl version ->
  report degrees square mul div square_root version h = Ok t ->
  (In (tab :: s "<<<  TRANSVERSALLY UNSTABLE  >>>") (lines t) <-> (value (gmt h) < 0)%Q) /\
  (In (tab :: s "<<<  LONGITUDINALLY UNSTABLE  >>>") (lines t) <-> (value (gml h) < 0)%Q) /\
  (forall l, In l (warnings t) -> l = tab :: s "<<<  TRANSVERSALLY UNSTABLE  >>>" \/ l = tab :: s "<<<  LONGITUDINALLY UNSTABLE  >>>").
Proof.
  intros degrees square mul div square_root version h t V T. pose proof (report_warnings _ _ _ _ _ _ V _ _ T) as W.
  assert (I : forall l, warning l = true -> (In l (lines t) <-> In l (warnings t))).
  { intros l H. unfold warnings. rewrite filter_In. intuition. }
  rewrite !I by reflexivity. rewrite W. rewrite <- !below_zero_value. unfold given.
  destruct (below_zero (gmt h)), (below_zero (gml h)); cbn [app In]; repeat split; intros; auto; try discriminate; try contradiction;
    repeat match goal with H : _ \/ _ |- _ => destruct H end; try contradiction; auto; try discriminate.
Qed.
(** The note on the length between perpendiculars is there exactly when this length is a guess. *)
Theorem C105_note : forall degrees square mul div square_root version h t, nonl version ->
  report degrees square mul div square_root version h = Ok t ->
  (In (s "[2] Not enough information to get a trusted Lpp. It has been approximated by Lwl instead.") (lines t) <-> trust_lpp h = false).
Proof. intros degrees square mul div square_root version h t V T. eapply report_note; eauto. Qed.
(** No report when a gyration radius does not exist *)
Theorem C105_failure : forall degrees square mul div square_root version h e, square_root (div (ixx h) (disp_mass h)) = Raise e ->
  report degrees square mul div square_root version h = Raise e.
Proof. intros degrees square mul div square_root version h e E. unfold report. rewrite E. auto. Qed.

(** A report *)
Definition n_of (a : Z) (b : positive) : num := Num (a <? 0)%Z (Z.abs_N a) b.
Definition barge : hs := mkHs (n_of (-5) 2) (n_of 0 1) (n_of 1 100) (n_of 981 100) (n_of 1025 1) (n_of 200 1) [n_of 1 3; n_of (-1) 7; n_of 0 1] (n_of 400 1)
  (n_of 500 1) (n_of 512500 1) [n_of 0 1; n_of 0 1; n_of (-5) 4] [n_of 0 1; n_of 0 1; n_of 30 1] (n_of 5 2) (n_of 20 1) (n_of 10 1) (n_of 20 1) (n_of 10 1) (n_of 20 1) false
  (n_of 10 3) (n_of 40 3) (n_of (-251) 9) (n_of (-161) 9) (n_of 2011050 1) (n_of 0 1) (n_of 0 1) (n_of (-140214625) 1) (n_of 0 1) (n_of (-89938375) 1)
  (n_of 4537760 1) (n_of 17350000 1) (n_of 21354166 1).
Definition rat_mul (x y : num) : num := Num (xorb (neg x) (neg y)) (top x * top y) (bot x * bot y).
Definition rat_div (x y : num) : num := Num (xorb (neg x) (neg y)) (top x * Npos (bot y)) (match top y with Npos p => bot x * p | N0 => 1 end).
Definition root (x : num) : res num := if below_zero x then Raise ValueError else Ok (Num false (N.sqrt (top x * 1000000 / Npos (bot x))) 1000).
Definition rat_report : hs -> res text := report (fun x => x) (fun x => rat_mul x x) rat_mul rat_div root (s "3.4").
Example C105_case : Forall small (waterplane_center barge) /\ Forall small (buoyancy_center barge) /\ Forall small (center_of_gravity barge) /\
  exists t, rat_report barge = Ok t /\
    In (s "DISPLACEMENT MASS (TONS)", [s "512.500"]) (entries t) /\
    In (s "WATERPLANE CENTER (M)", [s "0.333"; s "-0.143"; s "0.000"]) (entries t) /\
    In (s "K44 (N.M)", [s "-1.4021E+08"]) (entries t) /\
    In (s "[2] LENGTH BETWEEN PERPENDICULARS LPP (M)", [s "20.00"]) (entries t) /\
    In (s "RXX", [s "2.975"]) (entries t) /\
    In (tab :: s "<<<  LONGITUDINALLY UNSTABLE  >>>") (lines t).
Proof.
  assert (K : forall x, (nearest (top x * 10 ^ 3) (bot x) <? 10 ^ 7)%N = true -> small x).
  { intros x H m M. apply fixed_digits_unique in M. subst m. apply N.ltb_lt. exact H. }
  repeat split; try (repeat (constructor; [apply K; vm_compute; reflexivity|]); constructor).
  destruct (rat_report barge) as [t|] eqn:E; [|vm_compute in E; discriminate]. exists t.
  assert (E' : t = match rat_report barge with Ok t => t | _ => [] end) by (rewrite E; auto). clear E. rewrite E'. clear E' t.
  split; [vm_compute; reflexivity|]. vm_compute. intuition.
Qed.
(** Coordinates of 10000 and more are no longer apart when they are negative. *)
Theorem C105_columns_refuted : exists h t, rat_report h = Ok t /\
  exists w, In (s "CENTER OF GRAVITY (M)", [w]) (entries t) /\ List.length (center_of_gravity h) = 3 /\ forall dbl, to_float dbl w = Raise ValueError.
Proof.
  set (x := n_of (-12345678) 1000).
  exists (mkHs (n_of 0 1) (n_of 0 1) (n_of 0 1) (n_of 0 1) (n_of 0 1) (n_of 0 1) [] (n_of 0 1) (n_of 0 1) (n_of 1 1) [] [x; x; x]
    (n_of 0 1) (n_of 0 1) (n_of 0 1) (n_of 0 1) (n_of 0 1) (n_of 0 1) true (n_of 0 1) (n_of 0 1) (n_of 0 1) (n_of 0 1)
    (n_of 0 1) (n_of 0 1) (n_of 0 1) (n_of 0 1) (n_of 0 1) (n_of 0 1) (n_of 0 1) (n_of 0 1) (n_of 0 1)).
  eexists. split; [vm_compute; reflexivity|]. exists (s "-12345.678-12345.678-12345.678").
  split; [vm_compute; intuition|]. split; [reflexivity|]. intros dbl. vm_compute. reflexivity.
Qed.

(** ** C106: the inertia of a rigid body and the summary of a mesh *)
Definition shown dbl (st : style) (xs : list num) (ws : list text) : Prop := Forall2 (shows dbl st) xs ws.
Theorem C106_inertia : forall dbl mass cog point r0 r1 r2,
  Forall (exponent_room 6 3) (mass :: row_list cog ++ row_list point ++ row_list r0 ++ row_list r1 ++ row_list r2) ->
  exists m c p i0 i1 i2, map words (lines (inertia_str mass cog point (r0, r1, r2))) =
    [[]; [s "Pincipal"; s "inertial"; s "parameters:"]; [s "Mass:"; m; s "kg"]; s "COG:" :: c;
     [s "Inertia"; s "matrix"; s "expressed"; s "at:"] ++ p; i0; i1; i2; []] /\
    shows dbl (Sci 6) mass m /\ shown dbl (Sci 6) (row_list cog) c /\ shown dbl (Sci 6) (row_list point) p /\
    shown dbl (Sci 6) (row_list r0) i0 /\ shown dbl (Sci 6) (row_list r1) i1 /\ shown dbl (Sci 6) (row_list r2) i2.
Proof.
  intros dbl mass cog point r0 r1 r2 F. inversion F as [|? ? M F']; subst. rewrite !Forall_app in F'. destruct F' as (C & P & R0 & R1 & R2).
  assert (S : forall r, shown dbl (Sci 6) (row_list r) (map (style_text (Sci 6)) (row_list r))).
  { intros r. induction (row_list r); constructor; auto. apply style_shows. }
  exists (style_text (Sci 6) mass), (map (style_text (Sci 6)) (row_list cog)), (map (style_text (Sci 6)) (row_list point)),
    (map (style_text (Sci 6)) (row_list r0)), (map (style_text (Sci 6)) (row_list r1)), (map (style_text (Sci 6)) (row_list r2)).
  split; [|repeat split; try apply S; apply style_shows].
  unfold inertia_str. change (newline :: line ?a ++ ?b) with (line [] ++ line a ++ b).
  rewrite lines_line by constructor. rewrite lines_line by (apply nonl_text; reflexivity).
  rewrite lines_line by (constructor; [reflexivity|]; apply nonl_app; [apply nonl_text; reflexivity|]; apply nonl_app; [apply inertia_field_nonl|apply nonl_text; reflexivity]).
  rewrite lines_line by (constructor; [reflexivity|]; apply nonl_app; [apply nonl_text; reflexivity|apply inertia_row_nonl]).
  rewrite lines_line by (constructor; [reflexivity|]; apply nonl_app; [apply nonl_text; reflexivity|apply inertia_row_nonl]).
  rewrite lines_line by (do 2 (constructor; [reflexivity|]); apply inertia_row_nonl).
  rewrite lines_line by (do 2 (constructor; [reflexivity|]); apply inertia_row_nonl).
  rewrite <- (app_nil_r (line _)), lines_line by (do 2 (constructor; [reflexivity|]); apply inertia_row_nonl).
  cbn [map]. 
  assert (T : forall t, words (tab :: t) = words t) by (intros t; apply (words_spaces [tab]); repeat constructor). rewrite !T.
  assert (H1 : forall t, words (s "Mass: " ++ t) = s "Mass:" :: words t) by reflexivity.
  assert (H2 : forall t, words (s "COG:  " ++ t) = s "COG:" :: words t) by reflexivity.
  assert (H3 : forall t, words (s "Inertia matrix expressed at: " ++ t) = [s "Inertia"; s "matrix"; s "expressed"; s "at:"] ++ words t) by reflexivity.
  rewrite H1, H2, H3, field_words_15, !inertia_row_words by auto. reflexivity.
Qed.

Theorem C106_mesh : forall dbl name nv nf nt nq x0 x1 y0 y1 z0 z1, nonl name ->
  exists n0 n1 n2 n3 a0 a1 b0 b1 c0 c1, map words (lines (mesh_str name nv nf nt nq [x0; x1; y0; y1; z0; z1])) =
    [[]; [repeat "-"%char 44]; [s "MESH"; s "NAME"; s ":"] ++ words name; [repeat "-"%char 44]; [];
     [s "Number"; s "of"; s "vertices:"; n0]; [s "Number"; s "of"; s "faces:"; n1]; [];
     [s "Number"; s "of"; s "triangles:"; n2]; [s "Number"; s "of"; s "quadrangles:"; n3]; [];
     [s "xmin"; s "="; a0; s "xmax"; s "="; a1]; [s "ymin"; s "="; b0; s "ymax"; s "="; b1]; [s "zmin"; s "="; c0; s "zmax"; s "="; c1]; []; []; []] /\
    map to_int [n0; n1; n2; n3] = map (fun n => Ok (Z.of_nat n)) [nv; nf; nt; nq] /\
    shown dbl (Fix 6) [x0; x1; y0; y1; z0; z1] [a0; a1; b0; b1; c0; c1].
Proof.
  intros dbl name nv nf nt nq x0 x1 y0 y1 z0 z1 N.
  set (d := fun n => digits (N.of_nat n)). set (f := fixed_point 6).
  exists (d nv), (d nf), (d nt), (d nq), (f x0), (f x1), (f y0), (f y1), (f z0), (f z1).
  split; [|split].
  2: { cbn [map]. unfold d. rewrite !to_int_of_nat. reflexivity. }
  2: { repeat constructor; apply (style_shows dbl (Fix 6)). }
  unfold mesh_str. cbv zeta. fold f. cbn [nth]. fold (d nv) (d nf) (d nt) (d nq).
  set (i := s "        ").
  assert (I : nonl i) by (apply nonl_text; reflexivity).
  assert (D : forall n, nonl (d n)) by (intros; apply digits_nonl).
  assert (F : forall x, nonl (f x)) by (intros; apply word_nonl, fixed_word).
  assert (X : forall t, forallb (fun c => negb (Ascii.eqb c newline)) t = true -> nonl t) by exact nonl_text.
  assert (B : forall u x v y, forallb (fun c => negb (Ascii.eqb c newline)) u = true -> forallb (fun c => negb (Ascii.eqb c newline)) v = true -> nonl (i ++ u ++ f x ++ tab :: v ++ f y)).
  { intros u x v y U W. apply nonl_app; auto. apply nonl_app; auto. apply nonl_app; auto. constructor; [reflexivity|]. apply nonl_app; auto. }
  change (newline :: line ?a ++ ?b) with (line [] ++ line a ++ b).
  rewrite lines_line by constructor. rewrite lines_line by (apply X; reflexivity).
  rewrite lines_line by (apply nonl_app; auto; constructor; [reflexivity|]; apply nonl_app; [apply X; reflexivity|exact N]).
  rewrite lines_line by (apply X; reflexivity). rewrite lines_line by constructor.
  rewrite lines_line by (apply nonl_app; auto; apply nonl_app; [apply X; reflexivity|apply D]).
  rewrite lines_line by (apply nonl_app; auto; apply nonl_app; [apply X; reflexivity|apply D]).
  rewrite lines_line by constructor.
  rewrite lines_line by (apply nonl_app; auto; apply nonl_app; [apply X; reflexivity|apply D]).
  rewrite lines_line by (apply nonl_app; auto; apply nonl_app; [apply X; reflexivity|apply D]).
  rewrite lines_line by constructor.
  do 3 rewrite lines_line by (apply B; reflexivity). do 2 rewrite lines_line by constructor.
  assert (WD : forall n, words (d n) = [d n]) by (intros; apply digits_line).
  assert (WF : forall x, words (f x) = [f x]).
  { intros x. rewrite <- (app_nil_r (f x)) at 1. rewrite words_word; auto. apply fixed_word. }
  assert (WT : forall x t, words (f x ++ tab :: t) = f x :: words t).
  { intros x t. rewrite words_word; [f_equal; apply (words_spaces [tab]); repeat constructor|apply fixed_word|]. right. exists tab, t. auto. }
  cbn [map]. unfold i.
  assert (H0 : forall t, words (s "        " ++ tab :: s "MESH NAME : " ++ t) = [s "MESH"; s "NAME"; s ":"] ++ words t) by reflexivity.
  assert (H1 : forall t, words (s "        " ++ s "Number of vertices: " ++ t) = [s "Number"; s "of"; s "vertices:"] ++ words t) by reflexivity.
  assert (H2 : forall t, words (s "        " ++ s "Number of faces:    " ++ t) = [s "Number"; s "of"; s "faces:"] ++ words t) by reflexivity.
  assert (H3 : forall t, words (s "        " ++ s "Number of triangles:   " ++ t) = [s "Number"; s "of"; s "triangles:"] ++ words t) by reflexivity.
  assert (H4 : forall t, words (s "        " ++ s "Number of quadrangles: " ++ t) = [s "Number"; s "of"; s "quadrangles:"] ++ words t) by reflexivity.
  assert (H5 : forall t, words (s "        " ++ s "xmin = " ++ t) = [s "xmin"; s "="] ++ words t) by reflexivity.
  assert (H6 : forall t, words (s "        " ++ s "ymin = " ++ t) = [s "ymin"; s "="] ++ words t) by reflexivity.
  assert (H7 : forall t, words (s "        " ++ s "zmin = " ++ t) = [s "zmin"; s "="] ++ words t) by reflexivity.
  assert (J5 : forall t, words (s "xmax = " ++ t) = [s "xmax"; s "="] ++ words t) by reflexivity.
  assert (J6 : forall t, words (s "ymax = " ++ t) = [s "ymax"; s "="] ++ words t) by reflexivity.
  assert (J7 : forall t, words (s "zmax = " ++ t) = [s "zmax"; s "="] ++ words t) by reflexivity.
  rewrite H0, H1, H2, H3, H4, H5, H6, H7, !WT, J5, J6, J7, !WD, !WF. reflexivity.
Qed.
Example C106_case : exists t, inertia_str (n_of 512500 1) (n_of 0 1, n_of (-1) 3, n_of 2 1) (n_of 0 1, n_of 0 1, n_of 0 1)
    ((n_of 4 1, n_of (-100) 7, n_of 0 1), (n_of (-100) 7, n_of 5 1, n_of 0 1), (n_of 0 1, n_of 0 1, n_of 6 1)) = t /\
  nth_error (lines t) 2 = Some (tab :: s "Mass:  5.125000E+05   kg") /\
  nth_error (lines t) 5 = Some (tab :: tab :: s " 4.000000E+00  -1.428571E+01   0.000000E+00  ").
Proof. eexists. split; [reflexivity|]. split; vm_compute; reflexivity. Qed.

Print Assumptions C105_values. Print Assumptions C105_warnings. Print Assumptions C105_note. Print Assumptions C105_failure. Print Assumptions C105_columns_refuted.
Print Assumptions C106_inertia. Print Assumptions C106_mesh.
