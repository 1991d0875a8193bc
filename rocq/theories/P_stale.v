(** Histories that leave stale data in the cache. *)
From Coq Require Import Reals List Arith Bool Lia Lra.
From Verif Require Import M_base P_base M_merge S_merge P_merge M_plane M_rotations S_rotations P_rotations M_mesh S_mesh P_mesh M_inertia
  M_geometry S_geometry P_geometry P_volume P_quantities P_witness M_connectivity S_connectivity P_connectivity P_heal P_healed P_checks
  M_cache S_cache P_cache.
Import ListNotations.
Open Scope R_scope.

Lemma planar_proper : forall m, planar_mesh m -> proper_mesh m.
Proof.
  intros m P. unfold planar_mesh, proper_mesh in *. eapply Forall_impl; [|exact P]. intros f. unfold planar_face, proper_face.
  destruct (Nat.eq_dec (f0 f) (f3 f)); auto. intros (u & U & _ & _ & _ & T1 & _ & T3 & _ & H). split.
  - intros E. rewrite E in H. replace (dot u vzero) with 0 in H by vring. lra.
  - rewrite normal_sum in H. destruct (Req_dec (dot u (triangle_normal (point (verts m) (f0 f)) (point (verts m) (f1 f)) (point (verts m) (f2 f)))) 0) as [Z|Z].
    + right. intros E. rewrite E, dot_add_r, Z in H. replace (dot u vzero) with 0 in H by vring. lra.
    + left. intros E. apply Z. rewrite E. vring.
Qed.

(** ** Scaling *)
Lemma vdiv_scaled : forall k n a, 0 < k -> a <> 0 -> vdiv (vscale k n) (k * a) = vdiv n a.
Proof. intros. unfold vdiv. apply vec_eq; vunfold; field; lra. Qed.
Lemma norm_scaled : forall k n, 0 <= k -> norm (vscale k n) = k * norm n.
Proof.
  intros k n H. rewrite !norm_dot. replace (dot (vscale k n) (vscale k n)) with (k * k * dot n n) by vring.
  rewrite sqrt_mult_alt by nra. rewrite sqrt_square; auto.
Qed.
Lemma normal_scaled : forall a vs f, 0 < a -> valid_face (length vs) f -> proper_face vs f ->
  fp_normal (props_of (map (vscale a) vs) f) = fp_normal (props_of vs f).
Proof.
  intros a vs f H V F. unfold props_of. rewrite cor_map by auto. unfold proper_face in F. destruct (is_triangle f) eqn:T.
  - apply is_triangle_true in T. destruct (Nat.eq_dec (f0 f) (f3 f)); [|congruence].
    unfold triangle_props, move_corners. cbn [p0 p1 p2 p3 fp_normal cor].
    replace (cross (vsub (vscale a (point vs (f1 f))) (vscale a (point vs (f0 f)))) (vsub (vscale a (point vs (f2 f))) (vscale a (point vs (f0 f)))))
      with (vscale (a * a) (triangle_normal (point vs (f0 f)) (point vs (f1 f)) (point vs (f2 f)))) by (unfold triangle_normal; vring).
    rewrite norm_scaled by nra. apply vdiv_scaled; [nra|]. apply Rgt_not_eq. apply norm_pos in F. auto.
  - assert (E : f0 f <> f3 f) by (intros E; unfold is_triangle in T; rewrite E, Nat.eqb_refl in T; discriminate).
    destruct (Nat.eq_dec (f0 f) (f3 f)); [congruence|]. destruct F as [F _].
    unfold quad_props, move_corners. cbn [p0 p1 p2 p3 fp_normal cor].
    replace (cross (vsub (vscale a (point vs (f2 f))) (vscale a (point vs (f0 f)))) (vsub (vscale a (point vs (f3 f))) (vscale a (point vs (f1 f)))))
      with (vscale (a * a) (cross (vsub (point vs (f2 f)) (point vs (f0 f))) (vsub (point vs (f3 f)) (point vs (f1 f))))) by vring.
    rewrite norm_scaled by nra. apply vdiv_scaled; [nra|]. apply Rgt_not_eq. apply norm_pos in F. auto.
Qed.
Lemma triangle_i0_scaled : forall k a b c, 0 < k ->
  i0 (triangle_integrals (vscale k a) (vscale k b) (vscale k c)) = vscale (k ^ 3) (i0 (triangle_integrals a b c)).
Proof.
  intros k a b c H. unfold triangle_integrals. cbn [i0].
  replace (cross (vsub (vscale k b) (vscale k a)) (vsub (vscale k c) (vscale k a)))
    with (vscale (k * k) (cross (vsub b a) (vsub c a))) by vring.
  rewrite norm_scaled by nra. generalize (norm (cross (vsub b a) (vsub c a))). intros d. unfold vdiv. apply vec_eq; vunfold; field.
Qed.
Lemma i0_scaled : forall k vs f, 0 < k -> valid_face (length vs) f ->
  i0 (ints_of (map (vscale k) vs) f) = vscale (k ^ 3) (i0 (ints_of vs f)).
Proof.
  intros k vs f H V. unfold ints_of. rewrite cor_map by auto. unfold tri_face_integrals, quad_face_integrals, move_corners, cor.
  cbn [p0 p1 p2 p3]. destruct (is_triangle f).
  - apply triangle_i0_scaled; auto.
  - cbn [add_integrals i0]. rewrite !triangle_i0_scaled by auto. vring.
Qed.

(** The surface integrals survive the scaling; the volume computed from them is that of the mesh before. *)
Lemma stale_scaled : forall argsort order m a, valid m -> proper_mesh m -> 0 < a ->
  exists V ints s m', volume m = Ok V /\
    run argsort order [QInts; Scale a; QVolume] (fresh m) = Ok (s, [Ints ints; Done; Real V]) /\
    fresh_run argsort order [QInts; Scale a; QVolume] m = Ok (m', [Ints ints; Done; Real (a ^ 3 * V)]).
Proof.
  intros argsort order m a V P H. pose (m' := mkMesh (map (vscale a) (verts m)) (faces m)).
  assert (V' : valid m') by (apply valid_map; auto).
  assert (ES : scale a m = Ok m') by (unfold scale, scaling; apply Rltb_true in H; rewrite H; auto).
  assert (NS : map fp_normal (map (props_of (verts m')) (faces m')) = map fp_normal (map (props_of (verts m)) (faces m))).
  { cbn [m' verts faces]. rewrite !map_map. apply map_ext_in. intros f Hf. apply normal_scaled; auto.
    - apply valid_in; auto.
    - unfold proper_mesh in P. rewrite Forall_forall in P. auto. }
  exists (Rsum (map (fun f => dot (fp_normal (props_of (verts m) f)) (i0 (ints_of (verts m) f))) (faces m)) / 3).
  do 3 eexists. split; [apply volume_ok; auto|]. split.
  - cbn [run step]. unfold q_ints. cbn [fresh c_ints q_ids c_ids with_ids cm].
    change (faces_integrals_with (triangles_ids (faces m)) (quadrangles_ids (faces m)) (verts m) (faces m)) with (faces_integrals m).
    rewrite faces_integrals_ok by auto. cbn [bind done]. unfold c_scaling. cbn [with_ints cm with_ids fresh]. rewrite ES. cbn [bind done].
    unfold drop_if_props. cbn [with_mesh with_ints with_ids fresh c_props].
    unfold q_volume, q_ints. cbn [c_ints with_mesh with_ints with_ids fresh bind]. unfold q_props, q_ids. cbn [c_props c_ids cm with_mesh with_ints with_ids fresh].
    change (triangles_ids (faces m)) with (triangles_ids (faces m')). change (quadrangles_ids (faces m)) with (quadrangles_ids (faces m')).
    change (faces_properties_with (triangles_ids (faces m')) (quadrangles_ids (faces m')) (verts m') (faces m')) with (faces_properties m').
    rewrite faces_properties_ok by auto. cbn [bind]. unfold volume_with, same_length. rewrite !map_length.
    cbn [m' faces]. rewrite Nat.eqb_refl. cbn [bind]. do 5 f_equal. rewrite combine_map, map_map. cbn [fst snd]. f_equal. f_equal.
    apply Rsum_map_ext. intros f Hf. cbn [m' verts]. rewrite normal_scaled; auto.
    + apply valid_in; auto.
    + unfold proper_mesh in P. rewrite Forall_forall in P. auto.
  - cbn [fresh_run fresh_step asked]. rewrite faces_integrals_ok by auto. unfold asked, changed. cbn [bind]. rewrite ES. cbn [bind].
    rewrite volume_ok by auto. cbn [bind]. do 5 f_equal. f_equal.
    unfold Rdiv. rewrite <- Rmult_assoc. f_equal. 
    rewrite <- Rsum_map_scale. apply Rsum_map_ext. intros f Hf. cbn [m' verts]. rewrite normal_scaled, i0_scaled; auto.
    + vring.
    + apply valid_in; auto.
    + apply valid_in; auto.
    + unfold proper_mesh in P. rewrite Forall_forall in P. auto.
Qed.

Open Scope nat_scope.
(** ** Merging *)
(** A quadrangle whose first and last corners coincide becomes a triangle, the cached ids say otherwise. *)
Lemma stale_merged : forall argsort order atol m k f, sorting argsort -> (0 <= atol)%R -> valid m ->
  nth_error (faces m) k = Some f -> f0 f <> f3 f -> point (verts m) (f0 f) = point (verts m) (f3 f) ->
  exists s m' old new tri quad, run argsort order [QIds; Merge atol; QIds] (fresh m) = Ok (s, [Ids old; Done; Ids old]) /\
    fresh_run argsort order [QIds; Merge atol; QIds] m = Ok (m', [Ids old; Done; Ids new]) /\
    In k (snd old) /\ new = (tri, quad) /\ In k tri /\ ~ In k quad.
Proof.
  intros argsort order atol m k f Hs Ha V E N P.
  assert (VF : valid_face (length (verts m)) f) by (apply valid_in; auto; eapply nth_error_In; eauto). unfold valid_face in VF.
  assert (NE : verts m <> []) by (intros H; rewrite H in VF; simpl in VF; lia).
  destruct (merge_mesh argsort atol m Hs Ha NE V) as (m' & ids & EI & EM & V' & MM & L & FF).
  destruct (FF k f E) as (f' & E' & G0 & _ & _ & G3).
  assert (EQ : f0 f' = f3 f').
  { assert (H : nth_error ids (f0 f) = nth_error ids (f3 f)).
    { unfold merge_duplicates_index in EI. destruct (merge_duplicate_rows argsort atol coords (verts m)) as [[u d]|] eqn:M; [|discriminate].
      cbn [bind] in EI. destruct (mapM _ _); [|discriminate]. cbn [bind] in EI. injection EI as _ <-.
      eapply (merge_same argsort Hs atol Ha _ coords (verts m)); eauto.
      - unfold point in P. rewrite (nth_error_nth' (verts m) vzero) by lia. reflexivity.
      - rewrite (nth_error_nth' (verts m) vzero) by lia. reflexivity.
      - unfold point in P. rewrite P. intros c Hc. reflexivity. }
    congruence. }
  do 6 eexists. split; [|split; [|split; [|split; [reflexivity|]]]].
  - cbn [run step]. unfold q_ids at 1. cbn [fresh c_ids bind done c_merge]. unfold c_merge. cbn [cm with_ids fresh]. rewrite EM. cbn. reflexivity.
  - cbn [fresh_run fresh_step changed]. cbn [bind]. rewrite EM. cbn. reflexivity.
  - cbn [snd]. apply in_where. exists f. split; auto. unfold is_triangle. apply Nat.eqb_neq in N. rewrite N. auto.
  - split.
    + apply in_where. exists f'. split; auto. unfold is_triangle. apply Nat.eqb_eq. auto.
    + intros I. apply in_where in I. destruct I as (g & Eg & T). rewrite E' in Eg. injection Eg as <-.
      unfold is_triangle in T. apply Nat.eqb_eq in EQ. rewrite EQ in T. discriminate.
Qed.

(** ** Degenerate faces *)
(** The cached face adjacency still counts the removed faces. *)
Lemma stale_degenerated : forall argsort order rtol m m' c, iteration order -> valid m -> simple m ->
  mesh_connectivity order m = Ok c -> remove_degenerated_faces rtol m = Ok m' ->
  length (faces m') < length (faces m) ->
  exists s, run argsort order [QConn; RemoveDegenerated rtol; QConn] (fresh m) = Ok (s, [Conn c; Done; Conn c]) /\
    cm s = m' /\ length (c_ff c) = length (faces m) /\
    forall c', mesh_connectivity order m' = Ok c' -> length (c_ff c') = length (faces m') /\ c' <> c.
Proof.
  intros argsort order rtol m m' c O V S EC ER L.
  destruct (connectivity_inv order O _ _ V S c EC) as (_ & be & CS). pose proof (cs_ff_length _ _ _ _ CS) as LF.
  cbn [run step]. unfold q_conn at 1. cbn [fresh c_conn cm]. rewrite EC. cbn [bind done].
  assert (A : agrees order (Fl false false false GoodConn) (with_conn (Some c) (fresh m))).
  { split; cbn; auto; [discriminate|]. intros c' H. injection H as <-. auto. }
  pose proof (remove_degenerated_sim order rtol _ _ A) as Q. cbn [with_conn cm fresh] in Q. rewrite ER in Q. cbn [simulates] in Q.
  destruct Q as (s & ES & EM & _). unfold c_remove_degenerated in ES.
  assert (K : c_conn s = Some c).
  { destruct (Rltb 0 rtol); [|discriminate].
    assert (QP : forall p s1, q_props (with_conn (Some c) (fresh m)) = Ok (p, s1) -> c_conn s1 = Some c).
    { intros p s1 H. unfold q_props in H. cbn in H. destruct (faces_properties_with _ _ _ _); [|discriminate]. cbn in H.
      injection H as _ <-. reflexivity. }
    destruct (q_props _) as [[p s1]|] eqn:EP; [|discriminate]. cbn [bind] in ES. specialize (QP p s1 eq_refl).
    destruct (remove_degenerated_with _ _ _); [|discriminate]. cbn [bind] in ES. injection ES as <-. cbn. auto. }
  unfold c_remove_degenerated. unfold c_remove_degenerated in ES. cbn [with_conn fresh] in *. 
  exists s. rewrite ES. cbn [bind done]. unfold q_conn. rewrite K. cbn [bind]. split; [reflexivity|]. split; [auto|]. split; [auto|].
  assert (I : incl (faces m') (faces m)).
  { clear - ER. unfold remove_degenerated_faces in ER. destruct (Rltb 0 rtol); [|discriminate].
    destruct (faces_properties m); [|discriminate]. cbn [bind] in ER. unfold remove_degenerated_with in ER.
    destruct (Nat.eqb _ _); [|discriminate]. cbn [bind] in ER. injection ER as <-. cbn [faces].
    intros f H. apply in_map_iff in H. destruct H as ([x y] & <- & H). apply filter_In in H. destruct H as [H _].
    apply in_combine_r in H. auto. }
  assert (EV : verts m' = verts m).
  { clear - ER. unfold remove_degenerated_faces in ER. destruct (Rltb 0 rtol); [|discriminate].
    destruct (faces_properties m); [|discriminate]. cbn [bind] in ER. destruct (remove_degenerated_with _ _ _); [|discriminate].
    cbn [bind] in ER. injection ER as <-. reflexivity. }
  intros c' E'.
  assert (V' : valid m') by (unfold valid in *; rewrite EV; eapply incl_Forall; eauto).
  assert (S' : simple m') by (unfold simple in *; eapply incl_Forall; eauto).
  destruct (connectivity_inv order O _ _ V' S' c' E') as (_ & be' & CS'). pose proof (cs_ff_length _ _ _ _ CS') as LF'.
  split; auto. intros ->. lia.
Qed.

(** ** Healing normals twice *)
Lemma stale_heal_twice : forall argsort order m m1 g, iteration order -> valid m -> simple m -> adjacent (faces m) 0 g ->
  heal_normals order m = Ok m1 -> run argsort order [HealNormals; HealNormals] (fresh m) = Raise KeyError.
Proof.
  intros argsort order m m1 g O V S A H. unfold heal_normals in H. destruct (mesh_connectivity order m) as [c|] eqn:EC; [|discriminate].
  cbn [bind] in H. destruct (heal_normals_with order c _ _ None m) as [[m' ff]|] eqn:EH; [|discriminate]. cbn [bind] in H. injection H as ->.
  cbn [run step]. unfold c_heal_normals at 1. unfold q_conn at 1. cbn [fresh c_conn cm]. rewrite EC. cbn [bind].
  unfold q_ids at 1. cbn [with_conn fresh c_ids cm with_ids c_props]. rewrite EH. cbn [bind].
  destruct (heal_reverses _ _ _ _ _ _ _ _ EH) as (EV & b & RB). destruct (triangle_flips _ _ _ RB) as [T1 T2].
  assert (HT : forall quad2 props2, heal_normals_with order (mkConn (c_vv c) (c_vf c) ff (c_bounds c)) (triangles_ids (faces m1)) quad2 props2 m1 =
    Raise KeyError).
  { intros. eapply heal_twice; eauto. apply Forall_forall. intros i I. apply in_where in I. destruct I as (x & Ex & _).
    eapply nth_error_bound; eauto. }
  destruct (c_bounds c) eqn:EB.
  - cbn [done bind]. unfold c_heal_normals, q_conn, q_ids. cbn [remove_faces_properties with_conn with_mesh with_ids fresh c_conn cm bind c_ids c_props].
    rewrite HT. reflexivity.
  - cbn [drop_if_props c_props with_conn with_mesh with_ids fresh done bind].
    unfold c_heal_normals, q_conn, q_ids. cbn [with_conn with_mesh with_ids fresh c_conn cm bind c_ids c_props].
    rewrite <- T1, HT. reflexivity.
Qed.
