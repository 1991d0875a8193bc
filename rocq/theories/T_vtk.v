(** Properties C100-C104: files exchanged through the VTK and h5py libraries (meshmagick/mmio.py). *)
From Coq Require Import Reals Lra Lia List Arith Bool ZArith Ascii String.
From Verif Require Import M_base M_merge M_mesh M_text M_regex S_merge P_base P_merge P_mesh P_regex M_vtk S_vtk P_vtk.
Import ListNotations.
Local Open Scope nat_scope.

(** ** C100: .vtu and .vtp files *)
Lemma single_vec_nearly : forall vs, Forall2 nearly_vec vs (map single_vec vs).
Proof. induction vs as [|v vs IH]; constructor; auto. repeat split; apply single_nearly. Qed.
Lemma poly_cell_polygon : forall f, polygon f (poly_cell f).
Proof. intros [a b c d]. unfold polygon, poly_cell. cbn. destruct (Nat.eqb_spec a d); [left|right]; auto. Qed.
Lemma grid_cell_polygon : forall f, proper f -> polygon f (grid_cell f).
Proof.
  intros [a b c d] [E|(E & F & G)]; unfold polygon, grid_cell; cbn in *.
  - subst. rewrite Nat.eqb_refl. auto.
  - destruct (Nat.eqb_spec d a), (Nat.eqb_spec d b), (Nat.eqb_spec d c); try contradiction. auto.
Qed.
Lemma dump_polygons : forall d fs, Forall2 polygon fs (cells d) -> dump_vtk d = Ok (points d, fs).
Proof.
  intros d fs H. unfold dump_vtk. rewrite (mapM_Forall2 _ _ _ _ fs); auto.
  induction H; constructor; auto. apply cell_polygon. auto.
Qed.
Lemma Forall2_self : forall A B (R : A -> B -> Prop) f l, Forall (fun a => R a (f a)) l -> Forall2 R l (map f l).
Proof. intros A B R f l H. induction H; cbn; constructor; auto. Qed.

Theorem C100_vtp : forall vs fs, exists vs', dump_vtk (build_polydata vs fs) = Ok (vs', fs) /\ Forall2 nearly_vec vs vs'.
Proof.
  intros vs fs. exists (map single_vec vs). split; [|apply single_vec_nearly]. apply (dump_polygons (build_polydata vs fs)).
  apply Forall2_self, Forall_forall. intros. apply poly_cell_polygon.
Qed.
Theorem C100_vtu : forall junk vs fs, 3 <= List.length vs -> Forall proper fs ->
  exists vs', dump_vtk (build_grid junk vs fs) = Ok (vs', fs) /\ Forall2 nearly_vec vs vs'.
Proof.
  intros junk vs fs L P. exists (map single_vec vs). split; [|apply single_vec_nearly].
  rewrite (dump_polygons (build_grid junk vs fs) fs).
  - unfold build_grid. cbn [points]. rewrite Nat.max_l, Nat.sub_diag by auto. cbn. rewrite app_nil_r. auto.
  - apply Forall2_self. eapply Forall_impl; [|exact P]. apply grid_cell_polygon.
Qed.
(** Other programs see the same polygons. *)
Theorem C100_cells : forall junk vs fs, Forall2 polygon fs (cells (build_polydata vs fs)) /\
  (Forall proper fs -> Forall2 polygon fs (cells (build_grid junk vs fs))).
Proof.
  intros junk vs fs. split; [|intros P]; apply Forall2_self.
  - apply Forall_forall. intros. apply poly_cell_polygon.
  - eapply Forall_impl; [|exact P]. apply grid_cell_polygon.
Qed.
(** In .vtu files a face whose last corner is the second or the third comes back as another face. *)
Theorem C100_vtu_improper : forall junk vs fs vs' fs' i f, dump_vtk (build_grid junk vs fs) = Ok (vs', fs') -> nth_error fs i = Some f ->
  (nth_error fs' i = Some f <-> proper f).
Proof.
  intros junk vs fs vs' fs' i f D I. unfold dump_vtk in D. cbn [cells build_grid] in D.
  destruct (mapM cell_face (map grid_cell fs)) as [l|] eqn:M; cbn in D; [|discriminate]. injection D as _ <-.
  apply mapM_Forall2_inv in M.
  assert (G : forall k g, nth_error fs k = Some g -> exists h, nth_error l k = Some h /\ cell_face (grid_cell g) = Ok h).
  { clear I. revert l M. induction fs as [|a fs IH]; intros l M k g K; [destruct k; discriminate|]. cbn in M. inversion M; subst.
    destruct k; cbn in *; [injection K as <-; eauto|eauto]. }
  destruct (G i f I) as (h & H & E). rewrite H. split.
  - intros Q. injection Q as ->. destruct f as [a b c d]. unfold grid_cell, proper in *. cbn in *.
    destruct (Nat.eqb_spec d a); [left; auto|]. destruct (Nat.eqb_spec d b); cbn in E; [injection E as ->; auto|].
    destruct (Nat.eqb_spec d c); cbn in E; [injection E as ->; auto|]. right. auto.
  - intros P. rewrite (cell_polygon f) in E by (apply grid_cell_polygon; auto). injection E as ->. auto.
Qed.
(** A mesh of fewer than three vertices comes back with three. *)
Theorem C100_vtu_few : forall junk vs fs vs' fs', List.length vs < 3 -> dump_vtk (build_grid junk vs fs) = Ok (vs', fs') -> List.length vs' = 3.
Proof.
  intros junk vs fs vs' fs' L D. unfold dump_vtk in D. destruct (mapM cell_face _); cbn [bind] in D; [|discriminate]. injection D as <- _.
  unfold build_grid. cbn [points]. rewrite app_length, !map_length, seq_length. lia.
Qed.
(** Coordinates with no more than 24 bits are kept, and a second round changes nothing. *)
Theorem C100_exact : forall junk vs fs, 3 <= List.length vs -> Forall proper fs -> Forall (fun v => short (vx v) /\ short (vy v) /\ short (vz v)) vs ->
  dump_vtk (build_polydata vs fs) = Ok (vs, fs) /\ dump_vtk (build_grid junk vs fs) = Ok (vs, fs).
Proof.
  intros junk vs fs L P S. assert (E : map single_vec vs = vs).
  { clear L. induction S as [|[x y z] vs (X & Y & Z) S IH]; cbn; auto. rewrite IH. unfold single_vec. cbn in *. rewrite !short_single; auto. }
  split; (rewrite dump_polygons with (fs := fs); [|apply C100_cells; auto]).
  - cbn. rewrite E. auto.
  - unfold build_grid. cbn [points]. rewrite Nat.max_l, Nat.sub_diag by auto. cbn. rewrite app_nil_r, E. auto.
Qed.
Theorem C100_again : forall vs fs vs' fs', dump_vtk (build_polydata vs fs) = Ok (vs', fs') -> dump_vtk (build_polydata vs' fs') = Ok (vs', fs').
Proof.
  intros vs fs vs' fs' D. rewrite dump_polygons with (fs := fs) in D by (apply (C100_cells (fun _ => vzero))). injection D as <- <-.
  rewrite dump_polygons with (fs := fs) by (apply (C100_cells (fun _ => vzero))). cbn. rewrite map_map. do 2 f_equal.
  apply map_ext. apply single_again.
Qed.
(** Vertices less than a millionth of a millimetre apart, a metre from the origin, become one point. *)
Theorem C100_distinct_refuted : exists v w, v <> w /\ forall vs' fs', dump_vtk (build_polydata [v; w] []) = Ok (vs', fs') -> exists u, vs' = [u; u].
Proof.
  exists (V3 1 0 0), (V3 (1 + 1 / 2 ^ 30) 0 0). split.
  - intros E. injection E as E. cbn in E. lra.
  - intros vs' fs' D. unfold dump_vtk, build_polydata in D. cbn [cells points map mapM bind] in D. apply (f_equal (fun r => match r with Ok x => fst x | Raise _ => [] end)) in D. cbn [fst] in D. rewrite <- D. exists (V3 1 (single 0) (single 0)). unfold single_vec. cbn [vx vy vz].
    rewrite single_one. rewrite (short_single 1); auto. exists 1%Z, 0%Z. repeat split; try lia. cbn. lra.
Qed.
(** quick_save writes a file whose name ends with .vtp, the given one if it does. *)
Theorem C100_quick_save : forall filename, exists a, quick_save_name filename = a ++ s ".vtp" /\
  forall n, filename = Some n -> n <> [] -> n = a ++ s ".vtp" \/ n = a.
Proof.
  intros filename. unfold quick_save_name.
  assert (E : forall n, ends_with (s ".vtp") n = true -> exists a, n = a ++ s ".vtp").
  { intros n H. unfold ends_with in H. apply andb_prop in H as [_ H]. destruct list_eq_dec as [E|]; [|discriminate].
    exists (firstn (List.length n - List.length (s ".vtp")) n). rewrite <- E at 2. symmetry. apply firstn_skipn. }
  destruct filename as [[|c n]|].
  - exists (s "quick_save"). split; [reflexivity|]. intros n N. injection N as <-. contradiction.
  - destruct (ends_with (s ".vtp") (c :: n)) eqn:W.
    + destruct (E _ W) as (a & A). exists a. split; auto. intros m M _. injection M as <-. left. auto.
    + exists (c :: n). split; auto. intros m M _. injection M as <-. right. auto.
  - exists (s "quick_save"). split; [reflexivity|]. intros n N. discriminate.
Qed.
Example C100_case : dump_vtk (build_grid (fun _ => vzero) [V3 0 0 0; V3 1 0 0; V3 1 1 0; V3 0 1 (1/2)] [F4 0 1 2 3; F4 0 2 1 0]) =
  Ok ([V3 0 0 0; V3 1 0 0; V3 1 1 0; V3 0 1 (1/2)], [F4 0 1 2 3; F4 0 2 1 0]).
Proof.
  assert (Z : short 0) by (exists 0%Z, 0%Z; repeat split; try lia; cbn; lra).
  assert (O : short 1) by (exists 1%Z, 0%Z; repeat split; try lia; cbn; lra).
  assert (H : short (1/2)) by (exists 1%Z, (-1)%Z; repeat split; try lia; cbn; change (Pos.to_nat 1) with 1; cbn; lra).
  apply C100_exact; [cbn; lia| |].
  - constructor; [right; cbn; lia|]. constructor; [left; reflexivity|constructor].
  - repeat (constructor; [cbn; auto|]). constructor.
Qed.

(** ** C101: reading of a dataset *)
Theorem C101_polygons : forall d,
  Forall (fun c => List.length c = 3 \/ (List.length c = 4 /\ nth_error c 3 <> nth_error c 0)) (cells d) ->
  exists fs, dump_vtk d = Ok (points d, fs) /\ Forall2 polygon fs (cells d).
Proof.
  intros [ps cs] H. cbn in H.
  assert (E : exists fs, Forall2 polygon fs cs).
  { induction H as [|c cs [L|[L N]] H (fs & IH)]; [exists []; constructor| |].
    - destruct c as [|x [|y [|z [|w c]]]]; try discriminate. exists (F4 x y z x :: fs). constructor; auto. left. auto.
    - destruct c as [|x [|y [|z [|w [|v c]]]]]; try discriminate. exists (F4 x y z w :: fs). constructor; auto. right. cbn in *. split; auto. }
  destruct E as (fs & E). exists fs. split; auto. apply (dump_polygons (Dataset ps cs)). auto.
Qed.
(** A cell of more than four points makes the whole reading fail. *)
Theorem C101_large : forall d c, In c (cells d) -> 4 < List.length c -> dump_vtk d = Raise IndexError.
Proof.
  intros d c I L. unfold dump_vtk. rewrite (mapM_first_fail _ _ cell_face (cells d) IndexError c); auto using cell_large.
  intros b _. unfold cell_face. destruct (4 <? List.length b); eauto.
Qed.
Theorem C101_loaded : forall d, (exists fs, dump_vtk d = Ok (points d, fs)) <-> Forall (fun c => List.length c <= 4) (cells d).
Proof.
  intros d. split.
  - intros (fs & D). apply Forall_forall. intros c I. destruct (le_lt_dec (List.length c) 4) as [L|L]; auto. rewrite (C101_large d c I L) in D. discriminate.
  - intros F. unfold dump_vtk. assert (E : exists fs, mapM cell_face (cells d) = Ok fs).
    { induction F as [|c cs L F (fs & IH)]; [exists []; auto|]. unfold mapM; fold (mapM cell_face cs). rewrite IH. unfold cell_face.
      destruct (Nat.ltb_spec 4 (List.length c)); [lia|]. cbn [bind]. eauto. }
    destruct E as (fs & E). rewrite E. exists fs. auto.
Qed.
(** Lines and isolated points of a dataset become faces that lean on vertex 0. *)
Theorem C101_segments : forall d vs fs k, dump_vtk d = Ok (vs, fs) ->
  (forall a b, nth_error (cells d) k = Some [a; b] -> nth_error fs k = Some (F4 a b 0 0)) /\
  (forall a, nth_error (cells d) k = Some [a] -> nth_error fs k = Some (F4 a 0 0 0)).
Proof.
  intros [ps cs] vs fs k D. unfold dump_vtk in D. cbn [cells points] in *. destruct (mapM cell_face cs) as [l|] eqn:M; cbn in D; [|discriminate].
  injection D as _ <-. apply mapM_Forall2_inv in M. revert k. induction M as [|c f cs l E M IH]; intros k.
  - split; intros; destruct k; discriminate.
  - destruct k as [|k]; [|apply IH]. split; cbn; intros; [injection H as ->|injection H as ->]; cbn in E; injection E as <-; auto.
Qed.
Example C101_case : dump_vtk (Dataset [V3 0 0 0; V3 1 0 0; V3 1 1 0; V3 0 1 0] [[0; 1; 2; 3]; [2; 1; 3]]) =
  Ok ([V3 0 0 0; V3 1 0 0; V3 1 1 0; V3 0 1 0], [F4 0 1 2 3; F4 2 1 3 2]).
Proof. reflexivity. Qed.

(** ** C102: .wrl files *)
Lemma readline_line : forall l t, Forall (fun c => Ascii.eqb c newline = false) l -> readline (l ++ newline :: t) = l ++ [newline].
Proof.
  intros l t F. induction F as [|c l C F IH]; cbn.
  - destruct (ascii_dec newline newline); [auto|contradiction].
  - destruct (ascii_dec c newline); [subst; discriminate|]. rewrite IH. auto.
Qed.
Lemma wrl_search : forall sp d c e w, sp <> [] -> holds is_space sp -> is_digit d = true -> is_digit e = true -> c <> newline ->
  exists m, search wrl_version (s "#VRML" ++ sp ++ s "V" ++ [d; c; e] ++ w) = Some m /\ group 1 m = [d; c; e].
Proof.
  intros sp d c e w N S D E C. unfold search.
  assert (G : gets None wrl_version (s "#VRML" ++ sp ++ s "V" ++ [d; c; e]) w [(1, [d; c; e])]).
  { unfold wrl_version. apply gets_then; [apply eats_word|]. apply gets_then; [apply eats_plus_class; auto; reflexivity|].
    apply gets_then; [apply eats_lit|]. apply gets_group.
    change [d; c; e] with ([d] ++ [c] ++ [e]). apply eats_seq; [apply eats_chr; auto|]. apply eats_seq; apply eats_chr; auto.
    apply negb_true_iff. apply Ascii.eqb_neq. auto. }
  specialize (G []). rewrite app_nil_r in G.
  replace (s "#VRML" ++ sp ++ s "V" ++ [d; c; e] ++ w) with ((s "#VRML" ++ sp ++ s "V" ++ [d; c; e]) ++ w) by (rewrite <- !app_assoc; auto).
  rewrite (scan_here _ _ _ _ _ _ G). cbn. eexists. split; [reflexivity|]. reflexivity.
Qed.
Definition blank (sp : text) : Prop := sp <> [] /\ Forall (fun c => is_space c = true /\ Ascii.eqb c newline = false) sp.
Definition line_text (w : text) : Prop := Forall (fun c => Ascii.eqb c newline = false) w.
Lemma wrl_header : forall sp d c e w t, blank sp -> is_digit d = true -> is_digit e = true -> c <> newline -> line_text w ->
  exists m, search wrl_version (readline (s "#VRML" ++ sp ++ s "V" ++ [d; c; e] ++ w ++ newline :: t)) = Some m /\ group 1 m = [d; c; e].
Proof.
  intros sp d c e w t [N B] D E C W.
  replace (s "#VRML" ++ sp ++ s "V" ++ [d; c; e] ++ w ++ newline :: t) with ((s "#VRML" ++ sp ++ s "V" ++ [d; c; e] ++ w) ++ newline :: t) by (rewrite <- !app_assoc; auto).
  rewrite readline_line.
  - replace ((s "#VRML" ++ sp ++ s "V" ++ [d; c; e] ++ w) ++ [newline]) with (s "#VRML" ++ sp ++ s "V" ++ [d; c; e] ++ (w ++ [newline])) by (rewrite <- !app_assoc; auto).
    apply wrl_search; auto. eapply Forall_impl; [|exact B]. intros x [X _]. auto.
  - assert (Dg : forall x, is_digit x = true -> Ascii.eqb x newline = false).
    { intros x X. apply Ascii.eqb_neq. intros ->. discriminate. }
    rewrite !Forall_app. repeat split; auto; try (repeat constructor; fail).
    + eapply Forall_impl; [|exact B]. intros x [_ X]. auto.
    + repeat constructor; auto. apply Ascii.eqb_neq. auto.
Qed.
(** The first object of a scene in VRML 2.0 is read, and that one only. *)
Theorem C102_loaded : forall sp w t d ds, blank sp -> line_text w ->
  load_WRL (s "#VRML" ++ sp ++ s "V2.0" ++ w ++ newline :: t) (d :: ds) = dump_vtk d.
Proof.
  intros sp w t d ds B W. unfold load_WRL. destruct (wrl_header sp "2" "." "0" w t B) as (m & M & G); auto; try discriminate.
  change (s "V2.0" ++ w ++ newline :: t) with (s "V" ++ ["2"; "."; "0"]%char ++ w ++ newline :: t). rewrite M, G. destruct list_eq_dec as [_|X]; [auto|contradiction X; auto].
Qed.
Theorem C102_other_version : forall sp d c e w t actors, blank sp -> line_text w -> is_digit d = true -> is_digit e = true -> c <> newline ->
  [d; c; e] <> s "2.0" -> load_WRL (s "#VRML" ++ sp ++ s "V" ++ [d; c; e] ++ w ++ newline :: t) actors = Raise NotImplementedError.
Proof.
  intros sp d c e w t actors B W D E C N. unfold load_WRL. destruct (wrl_header sp d c e w t B) as (m & M & G); auto.
  rewrite M, G. destruct list_eq_dec; [contradiction|auto].
Qed.
(** A file whose first line does not name VRML ends with an AttributeError, not with a message about the format. *)
Theorem C102_other_file : forall l t actors, line_text l -> ~ occurs (s "#VRML") l -> load_WRL (l ++ newline :: t) actors = Raise AttributeError.
Proof.
  intros l t actors L N. unfold load_WRL. rewrite readline_line by auto. unfold search.
  rewrite scan_none; auto. intros u v E. unfold wrl_version. apply fails_seq, fails_lang. intros p K.
  destruct (lang_word _ _ _ K) as (r & R & _). cbn [pos_of rest snd] in R. subst v.
  apply N. destruct (exists_last (l := r)) as (r' & z & Z).
  - intros ->. rewrite app_nil_r in E. change (s "#VRML") with (s "#VRM" ++ ["L"%char]) in E. rewrite app_assoc in E. apply app_inj_tail in E as [_ E]. discriminate.
  - subst r. rewrite !app_assoc in E. apply app_inj_tail in E as [E _]. exists u, r'. rewrite E, <- app_assoc. auto.
Qed.
Theorem C102_empty_scene : forall sp w t, blank sp -> line_text w -> load_WRL (s "#VRML" ++ sp ++ s "V2.0" ++ w ++ newline :: t) [] = Raise AttributeError.
Proof.
  intros sp w t B W. unfold load_WRL. destruct (wrl_header sp "2" "." "0" w t B) as (m & M & G); auto; try discriminate.
  change (s "V2.0" ++ w ++ newline :: t) with (s "V" ++ ["2"; "."; "0"]%char ++ w ++ newline :: t). rewrite M, G. destruct list_eq_dec as [_|X]; [auto|contradiction X; auto].
Qed.
Example C102_case : blank (s " ") /\ line_text (s " utf8") /\
  load_WRL (s "#VRML V2.0 utf8" ++ [newline] ++ s "Shape {}") [Dataset [V3 0 0 0; V3 1 0 0; V3 0 1 0] [[0; 1; 2]]; Dataset [V3 5 5 5] []] =
  Ok ([V3 0 0 0; V3 1 0 0; V3 0 1 0], [F4 0 1 2 0]).
Proof. split; [split; [discriminate|repeat constructor]|]. split; [repeat constructor|]. reflexivity. Qed.

(** ** C103: .stl files *)
Definition triangle_in (n : nat) (c : option (nat * nat * nat)) : Prop :=
  match c with Some (x, y, z) => x < n /\ y < n /\ z < n | None => True end.
(** The corners of a loaded face are those of the triangle of the file, to 1e-8. *)
Definition loaded_as (ps vs : list vec) (c : option (nat * nat * nat)) (f : face) : Prop :=
  forall x y z, c = Some (x, y, z) -> f3 f = f0 f /\
  Forall2 (fun i k => exists p q, nth_error ps i = Some p /\ nth_error vs k = Some q /\ within coords (1 / 100000000) p q) [x; y; z] [f0 f; f1 f; f2 f].
Theorem C103_corners : forall argsort ps cs, sorting argsort -> ps <> [] -> Forall (triangle_in (List.length ps)) cs ->
  exists vs fs, load_STL argsort ps cs = Ok (vs, fs) /\ Forall2 (loaded_as ps vs) cs fs /\
    List.length vs <= List.length ps /\ (forall v, In v vs -> In v ps).
Proof.
  intros argsort ps cs Hs Hne F. unfold load_STL.
  destruct (merge_merged argsort Hs default_atol ltac:(unfold default_atol; lra) _ coords ps Hne) as (vs & ids & M & MM).
  rewrite M. cbn [bind].
  assert (K : forall i, i < List.length ps -> exists p k q, nth_error ps i = Some p /\ nth_error ids i = Some k /\ nth_error vs k = Some q /\ within coords default_atol p q).
  { intros i I. destruct (nth_error ps i) as [p|] eqn:E; [|apply nth_error_None in E; lia].
    destruct (merged_close _ _ _ _ _ MM i p E) as (k & q & A & B & C). exists p, k, q. auto. }
  assert (Z : 0 < List.length ps) by (destruct ps; [contradiction|cbn; lia]).
  assert (X : exists fs, mapM (renumber ids) (map stl_face cs) = Ok fs /\ Forall2 (loaded_as ps vs) cs fs).
  { clear M. induction F as [|c cs C F (fs & E & L)]; [exists []; split; [auto|constructor]|]. cbn [map mapM]. destruct c as [[[x y] z]|]; cbn [stl_face].
    - destruct C as (CX & CY & CZ). destruct (K x CX) as (p1 & k1 & q1 & A1 & B1 & C1 & D1), (K y CY) as (p2 & k2 & q2 & A2 & B2 & C2 & D2), (K z CZ) as (p3 & k3 & q3 & A3 & B3 & C3 & D3).
      rewrite (renumber_ok ids (F4 x y z x) k1 k2 k3) by auto. cbn [bind]. rewrite E. cbn [bind]. eexists. split; [reflexivity|]. constructor; auto.
      intros x' y' z' Q. injection Q as <- <- <-. cbn. split; auto. unfold default_atol in *. repeat constructor; eauto.
    - destruct (K 0 Z) as (p1 & k1 & q1 & A1 & B1 & _). rewrite (renumber_ok ids (F4 0 0 0 0) k1 k1 k1) by auto. cbn [bind]. rewrite E. cbn [bind].
      eexists. split; [reflexivity|]. constructor; auto. intros x y z Q. discriminate. }
  destruct X as (fs & E & L). rewrite E. cbn [bind]. exists vs, fs. split; auto. split; auto. split; [apply (merged_count _ _ _ _ _ MM)|].
  intros v V. apply In_nth_error in V as (k & V). destruct (merged_origin _ _ _ _ _ MM k v V) as (i & I & _). apply nth_error_In in I. auto.
Qed.
(** Triangles that share a corner in the file share a vertex in the mesh. *)
Theorem C103_shared : forall argsort ps cs vs fs i j n m f g c d p q, sorting argsort -> load_STL argsort ps cs = Ok (vs, fs) ->
  nth_error cs i = Some (Some c) -> nth_error cs j = Some (Some d) -> nth_error fs i = Some f -> nth_error fs j = Some g ->
  nth_error ps (match n with 0 => fst (fst c) | 1 => snd (fst c) | _ => snd c end) = Some p ->
  nth_error ps (match m with 0 => fst (fst d) | 1 => snd (fst d) | _ => snd d end) = Some q -> p = q ->
  (match n with 0 => f0 f | 1 => f1 f | _ => f2 f end) = (match m with 0 => f0 g | 1 => f1 g | _ => f2 g end).
Proof.
  intros argsort ps cs vs fs i j n m f g c d p q Hs L Ci Cj Fi Fj P Q E. subst q. unfold load_STL in L.
  assert (Hne : ps <> []) by (intros ->; destruct n as [|[|]]; destruct c as [[a b] e]; cbn in P; (destruct a + destruct b + destruct e); discriminate).
  destruct (merge_duplicate_rows argsort default_atol coords ps) as [[v ids]|] eqn:M; cbn [bind] in L; [|discriminate].
  destruct (mapM (renumber ids) (map stl_face cs)) as [l|] eqn:R; cbn [bind] in L; [|discriminate]. injection L as <- <-.
  apply mapM_Forall2_inv in R.
  assert (G : forall k a b, nth_error cs k = Some a -> nth_error l k = Some b -> renumber ids (stl_face a) = Ok b).
  { clear -R. revert l R. induction cs as [|x cs IH]; intros l R k a b A B; [destruct k; discriminate|]. cbn in R. inversion R; subst.
    destruct k; cbn in *; [injection A as <-; injection B as <-; auto|eauto]. }
  assert (H : forall c' b, renumber ids (stl_face (Some c')) = Ok b -> forall k,
    nth_error ids (match k with 0 => fst (fst c') | 1 => snd (fst c') | _ => snd c' end) = Some (match k with 0 => f0 b | 1 => f1 b | _ => f2 b end)).
  { intros [[x y] z] b Rb k. unfold renumber, stl_face, get in Rb. cbn [f0 f1 f2 f3] in Rb.
    destruct (nth_error ids x) eqn:X; cbn in Rb; [|discriminate]. destruct (nth_error ids y) eqn:Y; cbn in Rb; [|discriminate].
    destruct (nth_error ids z) eqn:Z; cbn in Rb; [|discriminate]. injection Rb as <-. destruct k as [|[|k]]; cbn; auto. }
  pose proof (H _ _ (G _ _ _ Ci Fi) n) as A. pose proof (H _ _ (G _ _ _ Cj Fj) m) as B.
  assert (S : same_row coords p p) by (intros r _; auto).
  pose proof (merge_same argsort Hs default_atol ltac:(unfold default_atol; lra) _ coords ps Hne v ids _ _ p p M P Q S) as I.
  rewrite A, B in I. injection I. auto.
Qed.
(** A file without triangles is refused with an error. *)
Theorem C103_empty : forall argsort cs, load_STL argsort [] cs = Raise IndexError.
Proof. intros. unfold load_STL. rewrite merge_empty. auto. Qed.
(** Two triangles of a file, with a common side given twice: the loaded faces share its vertices. *)
Definition two_triangles : list vec := [V3 0 0 0; V3 1 0 0; V3 0 1 0; V3 0 1 0; V3 1 0 0; V3 1 1 0].
Example C103_case : forall argsort, sorting argsort -> exists vs f g, load_STL argsort two_triangles [Some (0, 1, 2); Some (3, 4, 5)] = Ok (vs, [f; g]) /\
  f1 f = f1 g /\ f2 f = f0 g.
Proof.
  intros argsort Hs. destruct (C103_corners argsort two_triangles [Some (0, 1, 2); Some (3, 4, 5)] Hs) as (vs & fs & L & F & _).
  - discriminate.
  - repeat constructor.
  - destruct fs as [|f [|g [|h fs]]]; [inversion F|inversion F as [|? ? ? ? _ F']; inversion F'| |inversion F as [|? ? ? ? _ F']; inversion F' as [|? ? ? ? _ F'']; inversion F''].
    exists vs, f, g. split; auto. split.
    + exact (C103_shared argsort _ _ vs [f; g] 0 1 1 1 f g (0, 1, 2) (3, 4, 5) (V3 1 0 0) (V3 1 0 0) Hs L eq_refl eq_refl eq_refl eq_refl eq_refl eq_refl eq_refl).
    + exact (C103_shared argsort _ _ vs [f; g] 0 1 2 0 f g (0, 1, 2) (3, 4, 5) (V3 0 1 0) (V3 0 1 0) Hs L eq_refl eq_refl eq_refl eq_refl eq_refl eq_refl eq_refl).
Qed.

(** ** C104: .med files *)
Definition coo := s "/NOE/COO".
Definition tr3 := s "/MAI/TR3/NOD".
Definition qu4 := s "/MAI/QU4/NOD".
(** Every array of nodes, triangles or quadrangles has the layout of the format. *)
Definition med_file (file : list (text * item)) : Prop := forall name x, In (name, x) file ->
  (occurs coo name -> exists vs, x = Floats (stored_vertices vs)) /\
  (occurs tr3 name -> exists ts, x = Ints (stored_triangles ts)) /\
  (occurs qu4 name -> exists qs, x = Ints (stored_quadrangles qs)).
Definition last_or_none (p : text) (file : list (text * item)) (x : item) (none : Prop) : Prop :=
  last_named p file x \/ (none /\ forall y, In y file -> ~ occurs p (fst y)).
Lemma minus_ones : forall l, map (fun n => n - 1)%Z (map (fun n => Z.of_nat (S n)) l) = map Z.of_nat l.
Proof. intros l. rewrite map_map. apply map_ext. intros n. lia. Qed.
Theorem C104_loaded : forall file vs ts qs, med_file file -> last_named coo file (Floats (stored_vertices vs)) ->
  last_or_none tr3 file (Ints (stored_triangles ts)) (ts = []) -> last_or_none qu4 file (Ints (stored_quadrangles qs)) (qs = []) ->
  load_MED file = Ok (rows_of vs, faces_of ts qs).
Proof.
  intros file vs ts qs M V T Q. unfold load_MED. rewrite med_loop_kept by (apply Forall_forall; intros [n x] I; exact (M n x I)). cbn [bind].
  rewrite (kept_last _ _ _ _ _ _ V). cbn [rows3]. rewrite reshape_vertices.
  assert (ET : match kept (s "/MAI/TR3/NOD") (rowsz 3) None file with Some rows => map (fun r => r ++ firstn 1 r) rows | None => [] end =
    map (fun t => let '(a, b, c) := t in map Z.of_nat [a; b; c; a]) ts).
  { destruct T as [T|[-> T]].
    - rewrite (kept_last _ _ _ _ _ _ T). cbn [rowsz]. rewrite reshape_triangles. rewrite !map_map. apply map_ext. intros [[a b] c].
      rewrite minus_ones. reflexivity.
    - rewrite kept_none by exact T. auto. }
  assert (EQ : match kept (s "/MAI/QU4/NOD") (rowsz 4) None file with Some rows => rows | None => [] end = map (fun q => map Z.of_nat [f0 q; f1 q; f2 q; f3 q]) qs).
  { destruct Q as [Q|[-> Q]].
    - rewrite (kept_last _ _ _ _ _ _ Q). cbn [rowsz]. rewrite reshape_quadrangles. rewrite map_map. apply map_ext. intros q. apply minus_ones.
    - rewrite kept_none by exact Q. auto. }
  rewrite ET, EQ. reflexivity.
Qed.
(** Without nodes the loader ends with an UnboundLocalError. *)
Theorem C104_no_nodes : forall file, med_file file -> (forall y, In y file -> ~ occurs coo (fst y)) -> load_MED file = Raise NameError.
Proof.
  intros file M V. unfold load_MED. rewrite med_loop_kept by (apply Forall_forall; intros [n x] I; exact (M n x I)). cbn [bind]. rewrite kept_none by exact V. auto.
Qed.
(** When a file holds two meshes, the nodes of the second may come with the triangles of the first. *)
Definition hold (mesh dir : string) (x : item) : text * item := (s "ENS_MAA/" ++ s mesh ++ s dir, x).
Definition two_meshes : list (text * item) :=
  [hold "hull" "/MAI/TR3/NOD" (Ints (stored_triangles [(0, 1, 2); (1, 3, 2)]));
   hold "hull" "/NOE/COO" (Floats (stored_vertices [V3 0 0 0; V3 1 0 0; V3 0 1 0; V3 1 1 0]));
   hold "keel" "/MAI" Folder;
   hold "keel" "/NOE/COO" (Floats (stored_vertices [V3 7 7 7]))].
Theorem C104_two_meshes_refuted : exists file, med_file file /\
  load_MED file = Ok ([[7; 7; 7]%R], [[0; 1; 2; 0]; [1; 3; 2; 1]]%Z).
Proof.
  exists two_meshes. assert (M : med_file two_meshes).
  { intros n x I. repeat (destruct I as [I|I]; [injection I as <- <-; repeat split; intros O; try (apply inside_occurs in O; vm_compute in O; discriminate); eauto|]). destruct I. }
  split; [exact M|reflexivity].
Qed.
Example C104_case : load_MED [hold "hull" "/MAI/QU4/NOD" (Ints [1; 3; 2; 4; 5; 6; 4; 5]%Z); hold "hull" "/MAI/TR3/NOD" (Ints [1; 2; 3]%Z);
    hold "hull" "/NOE/COO" (Floats [0; 1; 2; 3; 4; 5; 0; 0; 0; 0; 0; 0; 9; 8; 7; 6; 5; 4]%R)] =
  Ok ([[0; 0; 9]; [1; 0; 8]; [2; 0; 7]; [3; 0; 6]; [4; 0; 5]; [5; 0; 4]]%R, [[0; 1; 2; 0]; [0; 1; 4; 3]; [2; 3; 5; 4]]%Z).
Proof. reflexivity. Qed.

Print Assumptions C100_vtp. Print Assumptions C100_vtu. Print Assumptions C100_cells. Print Assumptions C100_vtu_improper. Print Assumptions C100_vtu_few.
Print Assumptions C100_exact. Print Assumptions C100_again. Print Assumptions C100_distinct_refuted. Print Assumptions C100_quick_save.
Print Assumptions C101_polygons. Print Assumptions C101_large. Print Assumptions C101_loaded. Print Assumptions C101_segments.
Print Assumptions C102_loaded. Print Assumptions C102_other_version. Print Assumptions C102_other_file. Print Assumptions C102_empty_scene.
Print Assumptions C103_corners. Print Assumptions C103_shared. Print Assumptions C103_empty.
Print Assumptions C104_loaded. Print Assumptions C104_no_nodes. Print Assumptions C104_two_meshes_refuted.
