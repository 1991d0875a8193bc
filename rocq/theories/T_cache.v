(** Theorems about the data cached by a mesh: properties C24 to C26, C34 and C80. *)
From Coq Require Import Reals List Arith Bool Lia Lra.
From Verif Require Import M_base P_base M_merge S_merge P_merge M_plane M_rotations S_rotations P_rotations M_mesh S_mesh P_mesh M_inertia
  M_geometry S_geometry P_geometry P_volume P_quantities P_witness M_connectivity S_connectivity P_connectivity P_heal P_healed P_checks
  M_cache S_cache P_cache P_stale T_merge T_mesh T_geometry T_connectivity.
Import ListNotations.
Open Scope nat_scope.

(** ** C24 *)
(** Along a disciplined history the cache is invisible: same answers, same exception or same final mesh as with meshes
    rebuilt at each call. *)
Theorem C24_disciplined_histories : forall argsort order h m, disciplined no_flags h = true -> movable_along argsort order h m ->
  visible (run argsort order h (fresh m)) = fresh_run argsort order h m.
Proof. intros argsort order h m D M. apply (histories argsort order h no_flags (fresh m)); auto. apply agrees_fresh. Qed.

(** Queries, moves and assignments in any order are disciplined. *)
Definition plain_call (c : call) : bool :=
  match c with
  | SetVertices _ | SetFaces _ | Triangulate | Symmetrize _ | Mirror _ | Translate _ | TranslateX _ | TranslateY _ | TranslateZ _
  | RotateMatrix _ | Rotate _ _ _ | RemoveUnused
  | QIds | QProps | QInts | QVolume | QPlain _ | QShell _ _ | QConn | QClosed | QConformal | QBox | QEdges => true
  | _ => false
  end.
Theorem C24_plain_histories : forall h, forallb plain_call h = true -> disciplined no_flags h = true.
Proof.
  assert (G : forall h f, fconn f <> BadConn -> forallb plain_call h = true -> disciplined f h = true).
  { induction h as [|c h IH]; intros f F H; auto. cbn [forallb] in H. apply andb_prop in H. destruct H as [H1 H2].
    cbn [disciplined]. destruct c; try discriminate; cbn [next]; try (apply IH; [cbn; auto; discriminate|auto]);
      destruct (fconn f) eqn:E; try congruence; apply IH; auto; cbn; discriminate. }
  intros h. apply G. discriminate.
Qed.

Example tetrahedron_history : forall argsort, exists h,
  disciplined no_flags h = true /\ length h = 10 /\ movable_along argsort (fun l => l) h tetrahedron /\
  exists m answers, fresh_run argsort (fun l => l) h tetrahedron = Ok (m, answers) /\
    nth_error answers 0 = Some (Real (1 / 6)) /\ nth_error answers 6 = Some (Real (- (1 / 6))) /\ nth_error answers 9 = Some (Closed true).
Proof.
  intros argsort. destruct tetrahedron_meets as (V & P & C).
  assert (Q : proper_mesh tetrahedron) by (apply planar_proper; auto).
  pose (t1 := translate (V3 1 2 3) tetrahedron).
  assert (V1 : valid t1) by (apply valid_map; auto).
  assert (P1 : planar_mesh t1). 
  { repeat constructor; unfold planar_face; cbn; intros X; unfold triangle_normal in X; vunfold; injection X; lra. }
  pose (t2 := flip_normals t1).
  assert (V2 : valid t2) by (apply valid_flip; auto).
  assert (E2 : volume t2 = Ok (- (1 / 6))%R).
  { destruct (volume_flip t1 V1 P1) as (W & E & F). unfold t2. rewrite F. f_equal.
    rewrite (proj1 (C16_volume_exact _ V1 P1)) in E. injection E as <-.
    unfold signed_volume, surface_sum. cbn. unfold tetra. vunfold. field. }
  exists [QVolume; QProps; Translate (V3 1 2 3); QInts; QProps; FlipNormals; QVolume; RemoveUnused; QBox; QClosed].
  split; [reflexivity|]. split; [reflexivity|].
  assert (EU : remove_unused_vertices t2 = Ok t2) by reflexivity.
  assert (EB : exists b, axis_aligned_bbox t2 = Ok b) by (eexists; reflexivity). destruct EB as (bb & EB).
  split.
  - cbn [movable_along movable fresh_step]. unfold asked, changed. rewrite tetrahedron_volume. cbn [bind].
    split; [exact I|]. intros m0 a0 X. injection X as <- _. 
    rewrite faces_properties_ok by auto. cbn [bind]. split; [exact I|]. intros m0 a0' X. injection X as <- _.
    split; [auto|]. intros m0 a1 X. injection X as <- _. fold t1. split; [exact I|].
    rewrite faces_integrals_ok by auto. cbn [bind]. intros m0 a2 X. injection X as <- _. split; [exact I|].
    rewrite faces_properties_ok by auto. cbn [bind]. intros m0 a3 X. injection X as <- _. split; [auto|].
    intros m0 a4 X. injection X as <- _. fold t2. split; [exact I|]. rewrite E2. cbn [bind]. intros m0 a5 X. injection X as <- _.
    split; [auto|]. rewrite EU. cbn [bind]. intros m0 a6 X. injection X as <- _. repeat (split; [exact I|]; intros); auto.
  - do 2 eexists. split.
    + cbn [fresh_run fresh_step]. unfold asked, changed. rewrite tetrahedron_volume. cbn [bind].
      rewrite faces_properties_ok by auto. cbn [bind]. fold t1. rewrite faces_integrals_ok by auto. cbn [bind]. rewrite faces_properties_ok by auto. cbn [bind].
      fold t2. rewrite E2. cbn [bind]. rewrite EU. cbn [bind]. rewrite EB. cbn [bind].
      assert (EC : is_mesh_closed (fun l => l) t2 = Ok true) by reflexivity. rewrite EC. cbn [bind]. reflexivity.
    + repeat split; reflexivity.
Qed.

(** ** C25 *)
(** On every mesh without degenerate face: the volume after the scaling is the one of the mesh before. *)
Theorem C25_scaling_stale : forall argsort order m a, valid m -> proper_mesh m -> (0 < a)%R ->
  exists V ints s m', volume m = Ok V /\
    run argsort order [QInts; Scale a; QVolume] (fresh m) = Ok (s, [Ints ints; Done; Real V]) /\
    fresh_run argsort order [QInts; Scale a; QVolume] m = Ok (m', [Ints ints; Done; Real (a ^ 3 * V)]).
Proof. exact stale_scaled. Qed.
Theorem C25_scaling_refuted : forall argsort order, exists m h, visible (run argsort order h (fresh m)) <> fresh_run argsort order h m.
Proof.
  intros argsort order. destruct tetrahedron_meets as (V & P & _).
  exists tetrahedron, [QInts; Scale 2; QVolume].
  destruct (C25_scaling_stale argsort order tetrahedron 2 V (planar_proper _ P) Rlt_0_2) as (W & i & s & m' & EV & -> & ->).
  rewrite tetrahedron_volume in EV. injection EV as <-. cbn [visible]. intros X. injection X as _ X. lra.
Qed.

(** ** C26 *)
Theorem C26_merging_stale : forall argsort order atol m k f, sorting argsort -> (0 <= atol)%R -> valid m ->
  nth_error (faces m) k = Some f -> f0 f <> f3 f -> point (verts m) (f0 f) = point (verts m) (f3 f) ->
  exists s m' old new tri quad, run argsort order [QIds; Merge atol; QIds] (fresh m) = Ok (s, [Ids old; Done; Ids old]) /\
    fresh_run argsort order [QIds; Merge atol; QIds] m = Ok (m', [Ids old; Done; Ids new]) /\
    In k (snd old) /\ new = (tri, quad) /\ In k tri /\ ~ In k quad.
Proof. exact stale_merged. Qed.
Definition pinched : mesh := mkMesh [V3 0 0 0; V3 1 0 0; V3 1 1 0; V3 0 0 0] [F4 0 1 2 3].
Example pinched_meets : valid pinched /\ nth_error (faces pinched) 0 = Some (F4 0 1 2 3) /\
  point (verts pinched) 0 = point (verts pinched) 3.
Proof. split; [repeat constructor; cbn; lia|]. split; reflexivity. Qed.

Theorem C26_heal_triangles_stale_refuted : forall argsort order, exists m s m',
  run argsort order [QIds; HealTriangles; QIds] (fresh m) = Ok (s, [Ids ([], [0]); Done; Ids ([], [0])]) /\
  fresh_run argsort order [QIds; HealTriangles; QIds] m = Ok (m', [Ids ([], [0]); Done; Ids ([0], [])]).
Proof. intros. exists (mkMesh (verts house) [F4 0 1 2 2]). do 2 eexists. split; reflexivity. Qed.

Theorem C26_degenerated_stale : forall argsort order rtol m m' c, iteration order -> valid m -> simple m ->
  mesh_connectivity order m = Ok c -> remove_degenerated_faces rtol m = Ok m' ->
  length (faces m') < length (faces m) ->
  exists s, run argsort order [QConn; RemoveDegenerated rtol; QConn] (fresh m) = Ok (s, [Conn c; Done; Conn c]) /\
    cm s = m' /\ length (c_ff c) = length (faces m) /\
    forall c', mesh_connectivity order m' = Ok c' -> length (c_ff c') = length (faces m') /\ c' <> c.
Proof. exact stale_degenerated. Qed.
Definition flattened : mesh := mkMesh [V3 0 0 0; V3 1 0 0; V3 1 1 0; V3 0 1 0; V3 (1 / 2) 0 0] [F4 0 1 2 3; F4 0 4 1 0].
Example flattened_meets : valid flattened /\ simple flattened /\ (exists c, mesh_connectivity (fun l => l) flattened = Ok c) /\
  remove_degenerated_faces (1 / 1000) flattened = Ok (mkMesh (verts flattened) [F4 0 1 2 3]).
Proof.
  split; [repeat constructor; cbn; lia|]. split; [apply simple_check_ok; reflexivity|]. split; [eexists; reflexivity|].
  rewrite remove_degenerated_ok by (try lra; repeat constructor; simpl; lia).
  assert (A : face_area (verts flattened) (F4 0 1 2 3) = 1%R).
  { unfold face_area. cbn. unfold triangle_normal.
    rewrite (norm_val _ 1), (norm_val _ 1) by (vunfold; ring). rewrite sqrt_1. lra. }
  assert (B : face_area (verts flattened) (F4 0 4 1 0) = 0%R).
  { unfold face_area. cbn. unfold triangle_normal. rewrite (norm_val _ 0) by (vunfold; field). rewrite sqrt_0. lra. }
  unfold mean_area. cbn [verts flattened faces filter map Rsum fold_right length INR].
  cbn [verts flattened] in A, B.
  rewrite A, B.
  replace (Rleb (1 / 1000 * ((1 + (0 + 0)) / (1 + 1))) 1) with true by (symmetry; apply Rleb_true; lra).
  replace (Rleb (1 / 1000 * ((1 + (0 + 0)) / (1 + 1))) 0) with false by (symmetry; apply Rleb_false; lra).
  reflexivity.
Qed.

(** The boundary runs the other way around after a flip, the cached one does not. *)
Theorem C26_flip_stale_refuted : forall argsort, exists m s m' c c',
  run argsort (fun l => l) [QConn; FlipNormals; QConn] (fresh m) = Ok (s, [Conn c; Done; Conn c]) /\
  fresh_run argsort (fun l => l) [QConn; FlipNormals; QConn] m = Ok (m', [Conn c; Done; Conn c']) /\
  c_bounds c = [[3; 4; 2; 1; 0; 3]] /\ c_bounds c' = [[4; 3; 0; 1; 2; 4]].
Proof. intros argsort. exists house. do 4 eexists. split; [reflexivity|]. split; [reflexivity|]. split; reflexivity. Qed.

(** Healing empties the cached face adjacency. *)
Theorem C26_heal_normals_stale_refuted : forall argsort, exists m s m' c c' c'',
  run argsort (fun l => l) [QConn; HealNormals; QConn] (fresh m) = Ok (s, [Conn c; Done; Conn c']) /\
  fresh_run argsort (fun l => l) [QConn; HealNormals; QConn] m = Ok (m', [Conn c; Done; Conn c'']) /\
  c_ff c' = [[1]; []] /\ c_ff c'' = [[1]; [0]].
Proof. intros argsort. exists house. do 5 eexists. split; [reflexivity|]. split; [reflexivity|]. split; reflexivity. Qed.

(** ** C34 *)
Theorem C34_heal_twice_history : forall argsort order m m1 g, iteration order -> valid m -> simple m -> adjacent (faces m) 0 g ->
  heal_normals order m = Ok m1 -> run argsort order [HealNormals; HealNormals] (fresh m) = Raise KeyError.
Proof. exact stale_heal_twice. Qed.
Example house_history : valid house /\ simple house /\ adjacent (faces house) 0 1 /\ heal_normals (fun l => l) house = Ok house.
Proof. destruct connectivity_house_meets as (_ & V & S). split; auto. split; auto. split; [apply house_adjacent|reflexivity]. Qed.

(** ** C80 *)
(** The orientation test on a closed mesh uses the cached properties of the faces before they were flipped. *)
Definition inside_out : mesh := mkMesh (verts tetrahedron) [F4 1 3 2 1; F4 0 2 1 0; F4 0 1 3 0; F4 0 3 2 0].
Theorem C80_heal_with_cached_properties_refuted : forall argsort, exists m, valid m /\ simple m /\ planar_mesh m /\
  (exists s p, run argsort (fun l => l) [QProps; HealNormals; QVolume] (fresh m) = Ok (s, [Props p; Done; Real (- (1 / 6))])) /\
  (exists s, run argsort (fun l => l) [HealNormals; QVolume] (fresh m) = Ok (s, [Done; Real (1 / 6)])).
Proof.
  intros argsort. exists inside_out.
  assert (V : valid inside_out) by (repeat constructor; cbn; lia).
  assert (P : planar_mesh inside_out).
  { repeat constructor; unfold planar_face; simpl; intros E; unfold triangle_normal in E; vunfold; injection E; lra. }
  split; auto. split; [apply simple_check_ok; reflexivity|]. split; auto.
  assert (M : arr_max (map vz (verts inside_out)) = Ok 1%R).
  { cbn. f_equal. unfold Rmax. repeat destruct (Rle_dec _ _); lra. }
  pose (healed := mkMesh (verts tetrahedron) [F4 1 3 2 1; F4 0 1 2 0; F4 0 3 1 0; F4 0 2 3 0]).
  assert (VH : valid healed) by (repeat constructor; cbn; lia).
  assert (PH : planar_mesh healed).
  { repeat constructor; unfold planar_face; simpl; intros E; unfold triangle_normal in E; vunfold; injection E; lra. }
  assert (CH : closed_surface (faces healed)) by (apply closed_check_ok; reflexivity).
  assert (S : signed_volume vzero healed = (- (1 / 6))%R).
  { unfold signed_volume, surface_sum. cbn. unfold tetra. vunfold. field. }
  assert (VOL : volume healed = Ok (- (1 / 6))%R) by (rewrite <- S; apply volume_exact; auto using planar_flat).
  assert (VOL' : volume (flip_normals healed) = Ok (1 / 6)%R).
  { destruct (volume_flip healed VH PH) as (W & E & F). rewrite F. rewrite VOL in E. injection E as <-. f_equal. lra. }
  pose (c := mkConn [[1; 2; 3]; [2; 3; 0]; [1; 3; 0]; [1; 2; 0]] [[1; 2; 3]; [0; 1; 2]; [0; 1; 3]; [0; 2; 3]]
    [[1; 2; 3]; [2; 3; 0]; [1; 3; 0]; [1; 2; 0]] []).
  assert (EC : mesh_connectivity (fun l => l) inside_out = Ok c) by reflexivity.
  assert (EF : flood_faces (fun l => l) [0; 1; 2; 3] (c_ff c) (faces inside_out) =
    Ok (mkFlood (faces healed) [[1; 2; 3]; [2; 3]; [1; 3]; [1; 2]] [true; true; true; true] [])) by reflexivity.
  assert (HC : heave 1 (map (props_of (verts inside_out)) (faces inside_out)) = (5 / 6)%R).
  { change (heave_of inside_out 1 = (5 / 6)%R). rewrite heave_sum by auto using planar_flat.
    unfold surface_sum. cbn. unfold zheave, triangle_normal. vunfold. field. }
  assert (HF : heave 1 (map (props_of (verts healed)) (faces healed)) = (- (1 / 6))%R).
  { change (heave_of healed 1 = (- (1 / 6))%R). rewrite heave_volume; auto using planar_flat. }
  split.
  - cut (exists s, run argsort (fun l => l) [QProps; HealNormals; QVolume] (fresh inside_out) =
      Ok (s, [Props (map (props_of (verts inside_out)) (faces inside_out)); Done; Real (- (1 / 6))])); [intros [s E]; eauto|].
    cbn [run step].
    assert (Q : q_props (fresh inside_out) = Ok (map (props_of (verts inside_out)) (faces inside_out),
      CM inside_out (Some (map (props_of (verts inside_out)) (faces inside_out))) (Some ([0; 1; 2; 3], [])) None None)).
    { unfold q_props. cbn [fresh c_props q_ids c_ids with_ids cm].
      change (faces_properties_with _ _ (verts inside_out) (faces inside_out)) with (faces_properties inside_out).
      rewrite faces_properties_ok by auto. reflexivity. }
    rewrite Q. cbn [bind]. unfold c_heal_normals, q_conn. cbn [c_conn cm]. rewrite EC. cbn [bind with_conn q_ids c_ids].
    unfold heal_normals_with. unfold with_conn. cbn [cm c_props]. rewrite EF. cbn [bind c_bounds c fl_faces fl_ff]. rewrite M. cbn [bind]. rewrite HC.
    replace (Rltb (5 / 6) 0) with false by (symmetry; apply Rltb_false; lra). cbn [bind done].
    change (mkMesh (verts inside_out) (faces healed)) with healed.
    cbn [remove_faces_properties with_conn with_mesh c_conn cm].
    match goal with |- context [q_volume ?s] => set (st := s) end.
    assert (A : agrees (fun l => l) (Fl false false false BadConn) st) by (split; cbn; auto; discriminate).
    pose proof (volume_answers (fun l => l) _ st A) as Q2. change (cm st) with healed in Q2. rewrite VOL in Q2. cbn [answers] in Q2.
    destruct Q2 as (s2 & -> & _). exists s2. reflexivity.
  - pose proof (C24_disciplined_histories argsort (fun l => l) [HealNormals; QVolume] inside_out eq_refl) as H.
    assert (MV : movable_along argsort (fun l => l) [HealNormals; QVolume] inside_out).
    { cbn [movable_along movable]. auto. }
    specialize (H MV). cbn [fresh_run fresh_step] in H. unfold changed, heal_normals in H. rewrite EC in H. cbn [bind] in H.
    unfold heal_normals_with in H. change (triangles_ids (faces inside_out)) with [0; 1; 2; 3] in H. rewrite EF in H.
    cbn [bind c_bounds c fl_faces fl_ff] in H. rewrite M in H. cbn [bind] in H.
    change (faces_properties_with [0; 1; 2; 3] (quadrangles_ids (faces inside_out)) (verts inside_out) (faces healed)) with (faces_properties healed) in H.
    rewrite faces_properties_ok in H by auto. cbn [bind] in H. rewrite HF in H.
    replace (Rltb (- (1 / 6)) 0) with true in H by (symmetry; apply Rltb_true; lra). cbn [bind] in H.
    change (mkMesh (verts inside_out) (map flip_face (faces healed))) with (flip_normals healed) in H. unfold asked in H.
    rewrite VOL' in H. cbn [bind] in H. destruct (run _ _ _ _) as [[s l]|]; [|discriminate]. injection H as _ ->. eauto.
Qed.

Print Assumptions C24_disciplined_histories.
Print Assumptions C25_scaling_stale.
Print Assumptions C26_merging_stale.
Print Assumptions C34_heal_twice_history.
Print Assumptions C80_heal_with_cached_properties_refuted.
