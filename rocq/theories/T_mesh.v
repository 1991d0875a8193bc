(** Properties C04-C12: restructuring of meshes (meshmagick/mesh.py). *)
From Coq Require Import Reals List Arith Bool Lia Lra ZArith Sorting.Permutation.
From Verif Require Import M_base P_base M_merge S_merge P_merge M_plane M_mesh S_mesh P_mesh M_geometry S_integral S_geometry
  P_geometry P_volume P_quantities.
Import ListNotations.
Open Scope R_scope.

(** ** C04 *)
Theorem C04_merge_keeps_faces : forall argsort atol m, sorting argsort -> 0 <= atol -> verts m <> [] -> valid m ->
  exists m', merge_duplicates argsort atol m = Ok m' /\ valid m' /\
    length (faces m') = length (faces m) /\
    forall k ps, face_points m k ps -> exists ps', face_points m' k ps' /\ Forall2 (near_point atol) ps ps'.
Proof.
  intros argsort atol m S A N V. destruct (merge_mesh argsort atol m S A N V) as (m' & ids & _ & E & V' & M & L & F).
  exists m'. split; auto. split; auto. split; auto. intros k ps H. exact (merge_points atol m m' ids k ps V M F H).
Qed.
(** With return_index the vertices are those of the merged rows, and each face entry is renumbered by the index. *)
Theorem C04_merge_index : forall argsort atol m, sorting argsort -> 0 <= atol -> verts m <> [] -> valid m ->
  exists m' ids, merge_duplicates_index argsort atol m = Ok (m', ids) /\
    merged coords atol (verts m) (verts m') ids /\
    forall k f, nth_error (faces m) k = Some f -> exists f', nth_error (faces m') k = Some f' /\
       nth_error ids (f0 f) = Some (f0 f') /\ nth_error ids (f1 f) = Some (f1 f') /\
       nth_error ids (f2 f) = Some (f2 f') /\ nth_error ids (f3 f) = Some (f3 f').
Proof.
  intros argsort atol m S A N V. destruct (merge_mesh argsort atol m S A N V) as (m' & ids & E & _ & V' & M & L & F).
  exists m', ids. auto.
Qed.
Theorem C04_unmerged_is_unchanged : forall argsort atol m m', sorting argsort -> 0 <= atol -> verts m <> [] -> valid m ->
  merge_duplicates argsort atol m = Ok m' -> length (verts m') = length (verts m) -> m' = m.
Proof.
  intros argsort atol m m' S A N V E L.
  destruct (merge_mesh argsort atol m S A N V) as (m'' & ids & E1 & E2 & _). assert (m'' = m') by congruence. subst m''.
  eapply merge_mesh_unchanged; eauto.
Qed.
Theorem C04_empty_mesh_crashes : forall argsort atol fs, merge_duplicates argsort atol (mkMesh [] fs) = Raise IndexError.
Proof. exact merge_mesh_empty. Qed.

(** A quadrangle and a triangle, five vertices. *)
Definition house : mesh :=
  mkMesh [V3 0 0 0; V3 1 0 0; V3 1 1 0; V3 0 1 0; V3 (1/2) 2 0] [F4 0 1 2 3; F4 3 2 4 3].
Example house_valid : valid house /\ verts house <> [].
Proof. split; [repeat constructor; simpl; lia | discriminate]. Qed.

(** ** C05 *)
Theorem C05_extract_faces : forall m ids, valid m -> Forall (fun i => (i < length (faces m))%nat) ids ->
  exists m' id_v, extract_faces m ids = Ok (m', id_v) /\ restricts m ids m' id_v /\ valid m' /\
    forall k id ps, nth_error ids k = Some id -> (face_points m' k ps <-> face_points m id ps).
Proof.
  intros m ids V F. destruct (extract_restricts m ids V F) as (m' & id_v & E & R). exists m', id_v.
  split; auto. split; auto. split; [eapply restricts_valid; eauto|].
  intros. eapply restricts_points; eauto. rewrite Forall_forall in F. apply F. eapply nth_error_In; eauto.
Qed.
Example extract_house : extract_faces house [1%nat] =
  Ok (mkMesh [V3 1 1 0; V3 0 1 0; V3 (1/2) 2 0] [F4 1 0 2 1], [2; 3; 4]%nat).
Proof. reflexivity. Qed.

(** ** C06 *)
Theorem C06_remove_unused : forall m, valid m ->
  exists m' id_v, remove_unused_vertices m = Ok m' /\ restricts m (seq 0 (length (faces m))) m' id_v /\ valid m' /\
    length (faces m') = length (faces m) /\ (forall k ps, face_points m' k ps <-> face_points m k ps) /\
    remove_unused_vertices m' = Ok m'.
Proof.
  intros m V. destruct (remove_unused_restricts m V) as (m' & id_v & E & R). exists m', id_v.
  assert (L : Forall (fun i => (i < length (faces m))%nat) (seq 0 (length (faces m)))).
  { rewrite Forall_forall. intros i I. apply in_seq in I. lia. }
  assert (LF : length (faces m') = length (faces m)) by (rewrite (restricts_count _ _ _ _ R), seq_length; auto).
  split; auto. split; auto. split; [eapply restricts_valid; eauto|]. split; auto. split.
  - intros k ps. destruct (Nat.lt_ge_cases k (length (faces m))) as [K|K].
    + eapply restricts_points; eauto. rewrite nth_error_seq by auto. auto.
    + split; intros (f & Hf & _); apply nth_error_bound in Hf; lia.
  - eapply remove_unused_idempotent; eauto.
Qed.
(** Nothing changes when every vertex is used. *)
Theorem C06_all_used_unchanged : forall m, valid m -> (forall i, (i < length (verts m))%nat -> uses (faces m) i) ->
  remove_unused_vertices m = Ok m.
Proof. exact remove_unused_full. Qed.
Example remove_unused_example :
  remove_unused_vertices (mkMesh (V3 9 9 9 :: verts house) [F4 1 2 3 4]) =
  Ok (mkMesh [V3 0 0 0; V3 1 0 0; V3 1 1 0; V3 0 1 0] [F4 0 1 2 3]).
Proof. reflexivity. Qed.

(** ** C07 *)
Theorem C07_heal_triangles : forall m,
  verts (heal_triangles m) = verts m /\
  Forall2 (fun f g => In g (rotations f) /\ (is_triangle g = true <-> repeated f) /\ (is_triangle f = true -> g = f))
          (faces m) (faces (heal_triangles m)) /\
  (forall i j, net_edge (faces (heal_triangles m)) i j = net_edge (faces m) i j) /\
  map is_triangle (faces (heal_triangles (heal_triangles m))) = map is_triangle (faces (heal_triangles m)).
Proof.
  intros m. split; [reflexivity|]. rewrite !heal_faces. split; [|split].
  - induction (faces m); simpl; constructor; auto.
    split; [apply heal_face_rotation|]. split; [apply heal_face_triangle|apply heal_face_same].
  - intros. induction (faces m); simpl; auto. rewrite !net_cons, IHl. f_equal. apply fnet_rotation, heal_face_rotation.
  - rewrite !map_map. apply map_ext. intros. apply heal_face_twice.
Qed.
Example heal_triangles_example :
  faces (heal_triangles (mkMesh [] [F4 5 5 6 7; F4 5 6 6 7; F4 5 6 7 7; F4 5 6 7 5])) =
  [F4 5 6 7 5; F4 6 7 5 6; F4 7 5 6 7; F4 5 6 7 5].
Proof. reflexivity. Qed.

(** ** C08 *)
Lemma Forall2_perm : forall A B (P : A -> B -> Prop) l l', Permutation l l' -> forall vals, Forall2 P l vals ->
  exists vals', Forall2 P l' vals' /\ Permutation vals vals'.
Proof.
  induction 1; intros vals F.
  - inversion F; subst. exists []. auto.
  - inversion F; subst. destruct (IHPermutation _ H4) as (v & Q & R). exists (y :: v). auto.
  - inversion F; subst. inversion H3; subst. exists (y1 :: y0 :: l'0). split; auto. apply perm_swap.
  - destruct (IHPermutation1 _ F) as (v & Q & R). destruct (IHPermutation2 _ Q) as (w & Q' & R'). exists w.
    split; auto. eapply perm_trans; eauto.
Qed.
Lemma integral_perm : forall int ts ts' I, Permutation ts ts' -> is_triangles_integral int ts I -> is_triangles_integral int ts' I.
Proof.
  intros int ts ts' I P (vals & F & S). destruct (Forall2_perm _ _ _ _ _ P _ F) as (v & G & Q). exists v. split; auto.
  rewrite <- S. symmetry. apply Rsum_perm; auto.
Qed.

Theorem C08_triangulate : forall m, exists m', triangulate_quadrangles m = Ok m' /\
  verts m' = verts m /\ Forall (fun f => is_triangle f = true) (faces m') /\
  length (faces m') = (length (faces m) + length (filter (fun f => negb (is_triangle f)) (faces m)))%nat /\
  (forall k f, nth_error (faces m) k = Some f -> nth_error (faces m') k =
     Some (if Nat.eq_dec (f0 f) (f3 f) then f else F4 (f0 f) (f2 f) (f3 f) (f0 f))) /\
  skipn (length (faces m)) (faces m') =
    map (fun f => F4 (f0 f) (f1 f) (f2 f) (f0 f)) (filter (fun f => negb (is_triangle f)) (faces m)) /\
  (forall i j, net_edge (faces m') i j = net_edge (faces m) i j) /\
  (forall phi, surface_sum phi (verts m') (faces m') = surface_sum phi (verts m) (faces m)).
Proof.
  intros m. eexists. split; [apply triangulate_faces|]. cbn [verts faces]. split; auto. split; [|split; [|split; [|split; [|split]]]].
  - apply Forall_app. split; rewrite Forall_map, Forall_forall; intros f _; unfold cut_face, half_face.
    + destruct (is_triangle f) eqn:T; auto. unfold is_triangle. simpl. apply Nat.eqb_refl.
    + unfold is_triangle. simpl. apply Nat.eqb_refl.
  - rewrite app_length, !map_length. auto.
  - intros k f H. rewrite nth_error_app1 by (rewrite map_length; eapply nth_error_bound; eauto).
    rewrite nth_error_map, H. simpl. unfold cut_face. destruct (is_triangle f) eqn:T.
    + apply is_triangle_true in T. destruct (Nat.eq_dec (f0 f) (f3 f)); congruence.
    + apply is_triangle_false in T. destruct (Nat.eq_dec (f0 f) (f3 f)); congruence.
  - rewrite skipn_app, map_length, skipn_all2 by (rewrite map_length; auto).
    replace (length (faces m) - length (faces m))%nat with 0%nat by lia. reflexivity.
  - intros. apply net_cut.
  - intros. unfold surface_sum. apply Rsum_perm, Permutation_map, triangulate_triangles.
Qed.
(** The exact integrals over the surface and over the volume under it are kept. *)
Theorem C08_integrals_kept : forall m m' phi I, triangulate_quadrangles m = Ok m' ->
  (is_mesh_surface_integral phi m' I <-> is_mesh_surface_integral phi m I) /\
  (is_mesh_volume_integral phi m' I <-> is_mesh_volume_integral phi m I).
Proof.
  intros m m' phi I E. rewrite triangulate_faces in E. injection E as <-.
  pose proof (triangulate_triangles (faces m)) as P. unfold is_mesh_surface_integral, is_mesh_volume_integral, point_triangles.
  cbn [verts faces].
  split; split; apply integral_perm; apply Permutation_map; auto using Permutation_sym.
Qed.
(** In particular the vector area. *)
Theorem C08_vector_area_kept : forall m m', triangulate_quadrangles m = Ok m' ->
  vsum (map (vector_area (verts m')) (faces m')) = vsum (map (vector_area (verts m)) (faces m)).
Proof.
  intros m m' E. destruct (C08_triangulate m) as (m'' & E' & _ & _ & _ & _ & _ & _ & S). assert (m'' = m') by congruence. subst m''.
  pose proof (tsum_vsum (fun a b c => vscale (1 / 2) (triangle_normal a b c))) as T.
  assert (Q : forall m, vsum (map (vector_area (verts m)) (faces m)) =
                        tsum (fun a b c => vscale (1 / 2) (triangle_normal a b c)) m).
  { intros. rewrite T. f_equal. }
  rewrite !Q. unfold tsum. rewrite !S. auto.
Qed.
Example triangulate_house : triangulate_quadrangles house =
  Ok (mkMesh (verts house) [F4 0 2 3 0; F4 3 2 4 3; F4 0 1 2 0]).
Proof. reflexivity. Qed.

(** ** C09 *)
Theorem C09_add : forall argsort m1 m2, sorting argsort -> valid m1 -> valid m2 -> verts m1 ++ verts m2 <> [] ->
  exists m', add argsort m1 m2 = Ok m' /\ valid m' /\
    length (faces m') = (length (faces m1) + length (faces m2))%nat /\
    (forall k ps, face_points m1 k ps ->
       exists ps', face_points m' k ps' /\ Forall2 (near_point (1 / 100000000)) ps ps') /\
    (forall k ps, face_points m2 k ps ->
       exists ps', face_points m' (length (faces m1) + k) ps' /\ Forall2 (near_point (1 / 100000000)) ps ps').
Proof. exact add_spec. Qed.

(** ** C10 *)
Theorem C10_mirror_vertices : forall p m, unit (p_normal p) ->
  Forall2 (mirror_image (p_normal p) (p_scalar p)) (verts m) (verts (mirror p m)) /\
  faces (mirror p m) = map (fun f => F4 (f3 f) (f2 f) (f1 f) (f0 f)) (faces m).
Proof.
  intros p m U. split; [|reflexivity]. unfold mirror, flip_normals. simpl.
  induction (verts m); simpl; constructor; auto. apply reflect_image; auto.
Qed.
Theorem C10_mirror_image_is_determined : forall n c v a b, unit n -> mirror_image n c v a -> mirror_image n c v b -> a = b.
Proof. intros n c v a b U. apply mirror_image_unique. exact U. Qed.
Theorem C10_mirror_involution : forall p m, unit (p_normal p) -> mirror p (mirror p m) = m.
Proof. intros p m U. apply mirror_involutive. exact U. Qed.
Theorem C10_mirror_isometry : forall p m i j a b a' b', unit (p_normal p) ->
  nth_error (verts m) i = Some a -> nth_error (verts m) j = Some b ->
  nth_error (verts (mirror p m)) i = Some a' -> nth_error (verts (mirror p m)) j = Some b' ->
  norm (vsub a' b') = norm (vsub a b).
Proof.
  intros p m i j a b a' b' U A B A' B'. unfold mirror, flip_normals in *. simpl in *.
  rewrite nth_error_map, A in A'. rewrite nth_error_map, B in B'. injection A' as <-. injection B' as <-.
  apply reflect_distance. exact U.
Qed.
Theorem C10_mirror_keeps_volume : forall p m, unit (p_normal p) -> valid m -> planar_mesh m -> closed_surface (faces m) ->
  exists V, volume m = Ok V /\ volume (mirror p m) = Ok V.
Proof. exact volume_mirror. Qed.
(** The boundary is reversed, so closed meshes stay closed. *)
Theorem C10_mirror_boundary : forall p m i j, net_edge (faces (mirror p m)) i j = (- net_edge (faces m) i j)%Z.
Proof. intros. apply (net_flip (faces m)). Qed.

(** ** C11 *)
Theorem C11_symmetrize : forall argsort p m, sorting argsort -> valid m -> verts m <> [] ->
  exists m', symmetrize argsort p m = Ok m' /\ valid m' /\
    length (faces m') = (2 * length (faces m))%nat /\
    (forall k ps, face_points m k ps ->
       (exists ps', face_points m' k ps' /\ Forall2 (near_point (1 / 100000000)) ps ps') /\
       (exists ps', face_points m' (length (faces m) + k) ps' /\
                    Forall2 (near_point (1 / 100000000)) (rev (map (reflect p) ps)) ps')).
Proof. exact symmetrize_spec. Qed.
Lemma face_points_unique : forall m k ps qs, face_points m k ps -> face_points m k qs -> ps = qs.
Proof.
  intros m k ps qs (f & F & a & b & c & d & -> & A & B & C & D) (g & G & a' & b' & c' & d' & -> & A' & B' & C' & D').
  assert (f = g) by congruence. subst g. congruence.
Qed.
(** Before merging, the reflection of each face, re-oriented, is a face. *)
Theorem C11_symmetric_before_merging : forall p m k ps, unit (p_normal p) -> valid m ->
  face_points (symmetrize_concat p m) k ps ->
  exists k', face_points (symmetrize_concat p m) k' (rev (map (reflect p) ps)).
Proof.
  intros p m k ps U V H.
  destruct (Nat.lt_ge_cases k (length (faces m))) as [K|K].
  - destruct (nth_error_lt _ _ _ K) as [f Hf]. destruct (valid_corners m k f V Hf) as [qs Q].
    assert (FP : face_points m k qs) by (exists f; auto).
    destruct (symmetrize_points p m k qs V FP) as [A B].
    rewrite (face_points_unique _ _ _ _ H A). eauto.
  - assert (K2 : (k - length (faces m) < length (faces m))%nat).
    { destruct H as (f & Hf & _). apply nth_error_bound in Hf. unfold symmetrize_concat in Hf. simpl in Hf.
      rewrite app_length, map_length in Hf. lia. }
    destruct (nth_error_lt _ _ _ K2) as [f Hf]. destruct (valid_corners m _ f V Hf) as [qs Q].
    assert (FP : face_points m (k - length (faces m)) qs) by (exists f; auto).
    destruct (symmetrize_points p m _ qs V FP) as [A B].
    replace (length (faces m) + (k - length (faces m)))%nat with k in B by lia.
    rewrite (face_points_unique _ _ _ _ H B). exists (k - length (faces m))%nat.
    rewrite map_rev, rev_involutive, map_map, (map_ext _ (fun v => v)), map_id; auto.
    intros. apply reflect_involutive. exact U.
Qed.

(** ** C12 *)
Theorem C12_flip_involution : forall m, flip_normals (flip_normals m) = m.
Proof. exact flip_involutive. Qed.
Theorem C12_normals_opposite : forall m, valid m ->
  exists ps qs, faces_properties m = Ok ps /\ faces_properties (flip_normals m) = Ok qs /\
    map fp_normal qs = map (fun p => vopp (fp_normal p)) ps.
Proof. exact normals_flip. Qed.
Theorem C12_volume_changes_sign : forall m, valid m -> planar_mesh m ->
  exists V, volume m = Ok V /\ volume (flip_normals m) = Ok (- V).
Proof. exact volume_flip. Qed.
Theorem C12_triangles_stay_triangles : forall m, map is_triangle (faces (flip_normals m)) = map is_triangle (faces m).
Proof. intros. unfold flip_normals. simpl. rewrite map_map. apply map_ext. apply flip_face_tri. Qed.
Theorem C12_boundary_reversed : forall m i j, net_edge (faces (flip_normals m)) i j = (- net_edge (faces m) i j)%Z.
Proof. intros. apply (net_flip (faces m)). Qed.
Example flip_house : flip_normals house = mkMesh (verts house) [F4 3 2 1 0; F4 3 4 2 3].
Proof. reflexivity. Qed.

(** A closed tetrahedron, for the hypotheses of C10 and C12. *)
Definition tetrahedron : mesh :=
  mkMesh [V3 0 0 0; V3 1 0 0; V3 0 1 0; V3 0 0 1] [F4 0 2 1 0; F4 0 1 3 0; F4 0 3 2 0; F4 1 2 3 1].
Example tetrahedron_meets : valid tetrahedron /\ planar_mesh tetrahedron /\ closed_surface (faces tetrahedron).
Proof.
  split; [repeat constructor; simpl; lia|]. split.
  - repeat constructor; unfold planar_face; simpl; intros E; unfold triangle_normal in E; vunfold; injection E; lra.
  - apply closed_check_ok. reflexivity.
Qed.

Print Assumptions C04_merge_keeps_faces.
Print Assumptions C05_extract_faces.
Print Assumptions C06_remove_unused.
Print Assumptions C07_heal_triangles.
Print Assumptions C08_triangulate.
Print Assumptions C08_integrals_kept.
Print Assumptions C09_add.
Print Assumptions C10_mirror_keeps_volume.
Print Assumptions C11_symmetric_before_merging.
Print Assumptions C12_volume_changes_sign.
