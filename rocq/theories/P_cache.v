(** Proofs about the cache: disciplined histories, and witnesses of stale data. *)
From Coq Require Import Reals List Arith Bool Lia Lra.
From Verif Require Import M_base P_base M_merge P_merge M_plane M_rotations S_rotations P_rotations M_mesh S_mesh P_mesh M_inertia
  M_geometry S_geometry P_geometry P_volume P_quantities M_connectivity S_connectivity P_connectivity P_heal P_healed M_cache S_cache.
Import ListNotations.
Open Scope nat_scope.

(** ** Moves keep the cached properties right *)
Lemma cached_translate : forall t m p, valid m -> proper_mesh m -> faces_properties m = Ok p ->
  faces_properties (translate t m) = Ok (map (translate_cached t) p).
Proof.
  intros t m p V P E. destruct (faces_properties_translate t m P V) as (q & E' & F). rewrite E in E'. injection E' as <-. auto.
Qed.
Lemma cached_rotate : forall r m p, valid m -> is_rotation r -> faces_properties m = Ok p ->
  faces_properties (rotate_matrix r m) = Ok (map (rotate_cached r) p).
Proof.
  intros r m p V P E. destruct (faces_properties_rotate r m P V) as (q & E' & F). rewrite E in E'. injection E' as <-. auto.
Qed.
Lemma barycentric : forall a b c d u, unit u -> dot u (vsub b a) = 0%R -> dot u (vsub c a) = 0%R -> dot u (vsub d a) = 0%R ->
  vadd (vadd (vscale (dot u (triangle_normal b c d)) a) (vscale (- dot u (triangle_normal a c d)) b))
       (vadd (vscale (dot u (triangle_normal a b d)) c) (vscale (- dot u (triangle_normal a b c)) d)) = vzero.
Proof.
  intros a b c d u U B C D.
  assert (E : dot u u = 1%R) by exact U.
  transitivity (vscale (- dot (vsub b a) (cross (vsub c a) (vsub d a))) u); [unfold triangle_normal; apply vec_eq; vunfold; ring|].
  assert (P : cross (vsub c a) (vsub d a) = vscale (dot u (cross (vsub c a) (vsub d a))) u) by (apply along_unit; auto).
  rewrite P. replace (dot (vsub b a) (vscale (dot u (cross (vsub c a) (vsub d a))) u)) with
    (dot u (cross (vsub c a) (vsub d a)) * dot u (vsub b a))%R by vring. rewrite B. apply vec_eq; vunfold; ring.
Qed.
Lemma props_flip : forall vs f, planar_face vs f -> props_of vs (flip_face f) = flip_cached (props_of vs f).
Proof.
  intros vs f P. pose proof (normal_flip vs f) as NF.
  cut (fp_area (props_of vs (flip_face f)) = fp_area (props_of vs f) /\ fp_center (props_of vs (flip_face f)) = fp_center (props_of vs f)).
  { intros [E1 E2]. destruct (props_of vs (flip_face f)), (props_of vs f). unfold flip_cached. cbn in *. congruence. }
  clear NF. unfold props_of. rewrite flip_face_tri. unfold planar_face in P. destruct (is_triangle f) eqn:T.
  - apply is_triangle_true in T. unfold triangle_props, cor, flip_face. cbn [p0 p1 p2 p3 f0 f1 f2 f3 fp_area fp_center]. rewrite <- T.
    split; [rewrite norm_cross_sym; auto|]. unfold vdiv. apply vec_eq; vunfold; field.
  - apply is_triangle_false in T. destruct (Nat.eq_dec (f0 f) (f3 f)); [congruence|].
    unfold quad_props, cor, flip_face. cbn [p0 p1 p2 p3 f0 f1 f2 f3 fp_area fp_center].
    set (a := point vs (f0 f)) in *. set (b := point vs (f1 f)) in *. set (c := point vs (f2 f)) in *. set (d := point vs (f3 f)) in *.
    destruct P as (u & U & B & C & D & T1 & T2 & T3 & T4 & P).
    pose proof (barycentric a b c d u U B C D) as BC.
    assert (K1 : triangle_normal a b c = vscale (dot u (triangle_normal a b c)) u) by (apply along_unit; auto).
    assert (K2 : triangle_normal a c d = vscale (dot u (triangle_normal a c d)) u) by (apply along_unit; auto).
    assert (K4 : triangle_normal a b d = vscale (dot u (triangle_normal a b d)) u) by (apply along_unit; auto).
    assert (K3 : triangle_normal b c d = vscale (dot u (triangle_normal b c d)) u).
    { replace (triangle_normal b c d) with (vsub (vadd (triangle_normal a b c) (triangle_normal a c d)) (triangle_normal a b d))
        by (unfold triangle_normal; vring). rewrite K1, K2, K4.
      set (k1 := dot u (triangle_normal a b c)). set (k2 := dot u (triangle_normal a c d)). set (k4 := dot u (triangle_normal a b d)).
      replace (vsub (vadd (vscale k1 u) (vscale k2 u)) (vscale k4 u)) with (vscale (k1 + k2 - k4) u) by vring. f_equal.
      replace (dot u (vscale (k1 + k2 - k4) u)) with ((k1 + k2 - k4) * dot u u)%R by vring. unfold unit in U. rewrite U. ring. }
    assert (SUM : (dot u (triangle_normal b c d) + dot u (triangle_normal a b d) = dot u (triangle_normal a b c) + dot u (triangle_normal a c d))%R)
      by (unfold triangle_normal; vring).
    assert (P1 : (0 <= dot u (triangle_normal a b c))%R).
    { unfold triangle_normal. replace (cross (vsub b a) (vsub c a)) with (cross (vsub b a) (vsub c b)) by vring. auto. }
    assert (P2 : (0 <= dot u (triangle_normal a c d))%R).
    { unfold triangle_normal. replace (cross (vsub c a) (vsub d a)) with (cross (vsub d c) (vsub a d)) by vring. auto. }
    assert (P3 : (0 <= dot u (triangle_normal b c d))%R).
    { unfold triangle_normal. replace (cross (vsub c b) (vsub d b)) with (cross (vsub c b) (vsub d c)) by vring. auto. }
    assert (P4 : (0 <= dot u (triangle_normal a b d))%R).
    { unfold triangle_normal. replace (cross (vsub b a) (vsub d a)) with (cross (vsub a d) (vsub b a)) by vring. auto. }
    assert (PS : (0 < dot u (triangle_normal a b c) + dot u (triangle_normal a c d))%R).
    { rewrite normal_sum in P. replace (dot u (vadd (triangle_normal a b c) (triangle_normal a c d))) with
        (dot u (triangle_normal a b c) + dot u (triangle_normal a c d))%R in P by vring. auto. }
    rewrite (norm_cross_sym (vsub d a)). rewrite (norm_cross_sym (vsub c d)).
    replace (cross (vsub b d) (vsub c d)) with (triangle_normal b c d) by (unfold triangle_normal; vring).
    replace (cross (vsub a d) (vsub b d)) with (triangle_normal a b d) by (unfold triangle_normal; vring).
    fold (triangle_normal a b c). fold (triangle_normal a c d). rewrite K1, K2, K3, K4, !cross_norm_split by auto.
    set (k1 := dot u (triangle_normal a b c)) in *. set (k2 := dot u (triangle_normal a c d)) in *.
    set (k3 := dot u (triangle_normal b c d)) in *. set (k4 := dot u (triangle_normal a b d)) in *. split; [lra|].
    assert (EK : k3 = (k1 + k2 - k4)%R) by lra. clearbody k1 k2 k3 k4. clear - BC EK PS. subst k3.
    assert (BX := f_equal vx BC). assert (BY := f_equal vy BC). assert (BZ := f_equal vz BC). clear BC. vunfold. unfold vdiv.
    replace ((k1 + k2 - k4) * (1 / 2) + k4 * (1 / 2))%R with (k1 * (1 / 2) + k2 * (1 / 2))%R by lra.
    cbn [vx vy vz]. clear PS. f_equal; (match goal with |- (?x / ?s)%R = (?y / ?s)%R => replace x with y; [reflexivity|] end); lra.
Qed.
Lemma cached_flip : forall m p, valid m -> planar_mesh m -> faces_properties m = Ok p ->
  faces_properties (flip_normals m) = Ok (map flip_cached p).
Proof.
  intros m p V P E. rewrite faces_properties_ok in E by auto. injection E as <-.
  rewrite faces_properties_ok by (apply valid_flip; auto). f_equal. cbn [flip_normals verts faces]. rewrite !map_map.
  apply map_ext_in. intros f I. apply props_flip. unfold planar_mesh in P. rewrite Forall_forall in P. auto.
Qed.
(** Faces with the same corners have the same properties and integrals. *)
Lemma restrict_cor : forall m m' id_v k f, restricts m (seq 0 (length (faces m))) m' id_v -> nth_error (faces m) k = Some f ->
  exists f', nth_error (faces m') k = Some f' /\ cor (verts m') f' = cor (verts m) f /\ is_triangle f' = is_triangle f.
Proof.
  intros m m' id_v k f [RC RE RU RS [RL RV]] E. pose proof (nth_error_bound _ _ _ _ E) as L.
  assert (K : nth_error (seq 0 (length (faces m))) k = Some k).
  { rewrite (nth_error_nth' _ 0) by (rewrite seq_length; auto). rewrite seq_nth; auto. }
  destruct (RE k k f K E) as (f' & E' & E0 & E1 & E2 & E3). exists f'. split; auto.
  assert (P : forall i j, nth_error id_v i = Some j -> point (verts m') i = point (verts m) j).
  { intros i j H. specialize (RV i j H). unfold point. 
    assert (Li : i < length (verts m')) by (rewrite RL; eapply nth_error_bound; eauto).
    rewrite (nth_error_nth' _ vzero Li) in RV. symmetry in RV. symmetry. apply nth_error_nth. auto. }
  split.
  - unfold cor. rewrite (P _ _ E0), (P _ _ E1), (P _ _ E2), (P _ _ E3). auto.
  - unfold is_triangle. assert (ND : NoDup id_v) by (apply sorted_NoDup; auto). rewrite NoDup_nth_error in ND.
    destruct (Nat.eqb_spec (f0 f) (f3 f)) as [H|H], (Nat.eqb_spec (f0 f') (f3 f')) as [H'|H']; auto; exfalso.
    + apply H'. apply ND; [eapply nth_error_bound; eauto|]. rewrite E0, E3, H. auto.
    + apply H. rewrite H' in E0. congruence.
Qed.
Lemma restrict_valid : forall m m' id_v, restricts m (seq 0 (length (faces m))) m' id_v -> valid m'.
Proof. intros. eapply restricts_valid; eauto. apply Forall_forall. intros i I. apply in_seq in I. lia. Qed.
Lemma restrict_map : forall (A : Type) (h : mesh -> face -> A) m m' id_v, restricts m (seq 0 (length (faces m))) m' id_v ->
  (forall f f', cor (verts m') f' = cor (verts m) f -> is_triangle f' = is_triangle f -> h m' f' = h m f) ->
  map (h m') (faces m') = map (h m) (faces m).
Proof.
  intros A h m m' id_v R H. apply nth_error_ext. intros k. rewrite !nth_error_map.
  destruct (nth_error (faces m) k) as [f|] eqn:E.
  - destruct (restrict_cor _ _ _ _ _ R E) as (f' & E' & C & T). rewrite E'. simpl. rewrite (H f f'); auto.
  - pose proof (restricts_count _ _ _ _ R) as L. rewrite seq_length in L. apply nth_error_None in E.
    replace (nth_error (faces m') k) with (@None face); auto. symmetry. apply nth_error_None. lia.
Qed.
Lemma restrict_ids : forall m m' id_v, restricts m (seq 0 (length (faces m))) m' id_v ->
  triangles_ids (faces m') = triangles_ids (faces m) /\ quadrangles_ids (faces m') = quadrangles_ids (faces m).
Proof.
  intros m m' id_v R. pose proof (restrict_map bool (fun _ f => is_triangle f) m m' id_v R (fun f f' _ T => T)) as H.
  pose proof (restricts_count _ _ _ _ R) as L. rewrite seq_length in L.
  assert (W : forall (p : bool -> bool), where_ (fun f => p (is_triangle f)) (faces m') = where_ (fun f => p (is_triangle f)) (faces m)).
  { intros p. unfold where_. rewrite L. apply filter_ext. intros i. 
    assert (N : nth_error (map is_triangle (faces m')) i = nth_error (map is_triangle (faces m)) i) by (f_equal; exact H).
    rewrite !nth_error_map in N. destruct (nth_error (faces m') i), (nth_error (faces m) i); simpl in N; congruence. }
  split; [apply (W (fun b => b))|apply (W negb)].
Qed.

Section Discipline.
  Variable argsort : list R -> list nat.
  Variable order : list nat -> list nat.

  Record agrees (f : flags) (s : cmesh) : Prop := {
    ag_ids : forall i, c_ids s = Some i -> may_ids f = true /\ i = (triangles_ids (faces (cm s)), quadrangles_ids (faces (cm s)));
    ag_props : if has_props f then exists p, c_props s = Some p /\ faces_properties (cm s) = Ok p else c_props s = None;
    ag_ints : if has_ints f then exists p, c_ints s = Some p /\ faces_integrals (cm s) = Ok p else c_ints s = None;
    ag_conn : match fconn f with
              | NoConn => c_conn s = None
              | GoodConn => forall c, c_conn s = Some c -> mesh_connectivity order (cm s) = Ok c
              | BadConn => True
              end }.

  Lemma agrees_fresh : forall m, agrees no_flags (fresh m).
  Proof. intros m. split; simpl; auto. discriminate. Qed.

  Lemma q_ids_agrees : forall f s, agrees f s -> exists s',
    q_ids s = ((triangles_ids (faces (cm s)), quadrangles_ids (faces (cm s))), s') /\ cm s' = cm s /\ c_props s' = c_props s /\
    c_conn s' = c_conn s /\ agrees (Fl true (has_props f) (has_ints f) (fconn f)) s'.
  Proof.
    intros f s [I P N C]. unfold q_ids. destruct (c_ids s) as [i|] eqn:E.
    - exists s. destruct (I i eq_refl) as [M ->]. do 4 (split; [reflexivity|]). split; cbn; auto.
      intros j Hj. rewrite E in Hj. injection Hj as <-. auto.
    - eexists. split; [reflexivity|]. cbn [cm with_ids c_props c_conn]. do 3 (split; [reflexivity|]). split; cbn; auto.
      intros j Hj. injection Hj as <-. auto.
  Qed.
  Lemma q_props_agrees : forall f s, agrees f s ->
    match faces_properties (cm s) with
    | Ok p => exists s', q_props s = Ok (p, s') /\ cm s' = cm s /\ agrees (Fl true true (has_ints f) (fconn f)) s'
    | Raise e => q_props s = Raise e
    end.
  Proof.
    intros f s A. unfold q_props. destruct (c_props s) as [p|] eqn:E.
    - pose proof (ag_props _ _ A) as P. destruct (has_props f); [|congruence]. destruct P as (p' & E' & F).
      rewrite E in E'. injection E' as <-. rewrite F. exists s. split; auto. split; auto. destruct A as [I P N C]. split; auto.
      + intros i Hi. destruct (I i Hi). auto.
      + cbn. eauto.
    - destruct (q_ids_agrees f s A) as (s' & Q & EC & EP & EK & A'). rewrite Q. rewrite EC.
      change (faces_properties_with (triangles_ids (faces (cm s))) (quadrangles_ids (faces (cm s))) (verts (cm s)) (faces (cm s)))
        with (faces_properties (cm s)).
      destruct (faces_properties (cm s)) as [p|e] eqn:F; cbn [bind]; auto.
      eexists. split; [reflexivity|]. cbn [cm with_props]. split; auto. destruct A' as [I P N C]. split; auto.
      cbn. exists p. rewrite EC. auto.
  Qed.
  Lemma q_ints_agrees : forall f s, agrees f s ->
    match faces_integrals (cm s) with
    | Ok p => exists s', q_ints s = Ok (p, s') /\ cm s' = cm s /\ agrees (Fl true (has_props f) true (fconn f)) s'
    | Raise e => q_ints s = Raise e
    end.
  Proof.
    intros f s A. unfold q_ints. destruct (c_ints s) as [p|] eqn:E.
    - pose proof (ag_ints _ _ A) as P. destruct (has_ints f); [|congruence]. destruct P as (p' & E' & F).
      rewrite E in E'. injection E' as <-. rewrite F. exists s. split; auto. split; auto. destruct A as [I P N C]. split; auto.
      + intros i Hi. destruct (I i Hi). auto.
      + cbn. eauto.
    - destruct (q_ids_agrees f s A) as (s' & Q & EC & EP & EK & A'). rewrite Q. rewrite EC.
      change (faces_integrals_with (triangles_ids (faces (cm s))) (quadrangles_ids (faces (cm s))) (verts (cm s)) (faces (cm s)))
        with (faces_integrals (cm s)).
      destruct (faces_integrals (cm s)) as [p|e] eqn:F; cbn [bind]; auto.
      eexists. split; [reflexivity|]. cbn [cm with_ints]. split; auto. destruct A' as [I P N C]. split; auto.
      cbn. exists p. rewrite EC. auto.
  Qed.
  Lemma q_conn_agrees : forall f s, agrees f s -> fconn f <> BadConn ->
    match mesh_connectivity order (cm s) with
    | Ok p => exists s', q_conn order s = Ok (p, s') /\ cm s' = cm s /\ agrees (Fl (may_ids f) (has_props f) (has_ints f) GoodConn) s'
    | Raise e => q_conn order s = Raise e
    end.
  Proof.
    intros f s A NB. unfold q_conn. destruct A as [I P N C]. destruct (c_conn s) as [c|] eqn:E.
    - destruct (fconn f); [congruence| |congruence]. rewrite (C c eq_refl). exists s. split; auto. split; auto. split; auto.
      cbn. rewrite E. auto.
    - destruct (mesh_connectivity order (cm s)) as [c|e] eqn:F; cbn [bind]; auto.
      eexists. split; [reflexivity|]. cbn. split; auto. split; auto. cbn. intros c' H. injection H as <-. auto.
  Qed.

  (** A call that gives a new state from the mesh alone. *)
  Definition sound (c : call) : Prop := forall f f' s, agrees f s -> next c f = Some f' -> movable c (cm s) ->
    visible (step argsort order c s) = fresh_step argsort order c (cm s) /\
    forall s' a, step argsort order c s = Ok (s', a) -> agrees f' s'.

  Lemma update_agrees : forall f s m u, agrees f s -> faces m = faces (cm s) -> length (verts m) = length (verts (cm s)) ->
    (forall p, faces_properties (cm s) = Ok p -> faces_properties m = Ok (map u p)) ->
    agrees (Fl (may_ids f) (has_props f) false (fconn f)) (update_cached m u s).
  Proof.
    intros f s m u [I P N C] EF EV H. split; cbn [update_cached cm c_ids c_props c_ints c_conn may_ids has_props has_ints fconn]; auto.
    - rewrite EF. auto.
    - destruct (has_props f).
      + destruct P as (p & -> & F). exists (map u p). auto.
      + rewrite P. auto.
    - unfold mesh_connectivity in *. rewrite EF, EV. auto.
  Qed.
  Lemma drop_agrees : forall f s m, agrees f s -> faces m = faces (cm s) -> length (verts m) = length (verts (cm s)) ->
    forall f', (if has_props f then Some (Fl false false false (fconn f)) else if has_ints f then None else Some f) = Some f' ->
    agrees f' (drop_if_props (with_mesh m s)).
  Proof.
    intros f s m [I P N C] EF EV f' E. unfold drop_if_props. cbn [with_mesh c_props].
    destruct f as [fi fp fn fc]. cbn [has_props has_ints fconn may_ids] in *. destruct fp.
    - destruct P as (p & -> & F). injection E as <-. split; cbn; auto; [discriminate|].
      unfold mesh_connectivity in *. rewrite EF, EV. auto.
    - rewrite P. destruct fn; [discriminate|]. injection E as <-. split; cbn; auto.
      + rewrite EF. auto.
      + unfold mesh_connectivity in *. rewrite EF, EV. auto.
  Qed.

  Ltac plain := split; [reflexivity|]; intros s' ans E; injection E as <- <-.
  Lemma sound_moves : forall t r a b c, sound (Translate t) /\ sound (TranslateX a) /\ sound (TranslateY a) /\ sound (TranslateZ a) /\
    sound (RotateMatrix r) /\ sound (Rotate a b c).
  Proof.
    assert (T : forall t f s, agrees f s -> valid (cm s) -> proper_mesh (cm s) ->
      agrees (Fl (may_ids f) (has_props f) false (fconn f)) (update_cached (translate t (cm s)) (translate_cached t) s)).
    { intros. apply update_agrees; auto; [apply map_length|]. intros. apply cached_translate; auto. }
    assert (R : forall r f s, agrees f s -> valid (cm s) -> is_rotation r ->
      agrees (Fl (may_ids f) (has_props f) false (fconn f)) (update_cached (rotate_matrix r (cm s)) (rotate_cached r) s)).
    { intros. apply update_agrees; auto; [apply map_length|]. intros. apply cached_rotate; auto. }
    intros t r a b c. repeat match goal with |- _ /\ _ => split end; intros f f' s A N M; cbn in N; injection N as <-; cbn in M; plain.
    - apply T; tauto.
    - rewrite translate_x_affine, <- translate_affine. apply T; tauto.
    - rewrite translate_y_affine, <- translate_affine. apply T; tauto.
    - rewrite translate_z_affine, <- translate_affine. apply T; tauto.
    - apply R; tauto.
    - apply R; try tauto. apply cardan_rotation.
  Qed.
  Lemma sound_scales : forall a, sound (Scale a) /\ sound (ScaleX a) /\ sound (ScaleY a) /\ sound (ScaleZ a).
  Proof.
    assert (T : forall g a f f' s, agrees f s ->
      (if has_props f then Some (Fl false false false (fconn f)) else if has_ints f then None else Some f) = Some f' ->
      visible (done (c_scaling (scaling g a) s)) = changed (scaling g a (cm s)) /\
      forall s' x, done (c_scaling (scaling g a) s) = Ok (s', x) -> agrees f' s').
    { intros g a f f' s A N. unfold c_scaling, scaling. destruct (Rltb 0 a); cbn [bind done changed visible].
      - split; [cbn; unfold drop_if_props; cbn; destruct (c_props s); auto|].
        intros s' x E. injection E as <- <-. eapply drop_agrees; eauto. cbn. apply map_length.
      - split; auto. discriminate. }
    intros a. repeat match goal with |- _ /\ _ => split end; intros f f' s A N M; cbn in N; apply T with (f := f); auto.
  Qed.

  Definition simulates (r : res cmesh) (p : res mesh) (f : flags) : Prop :=
    match p with Ok m => exists s, r = Ok s /\ cm s = m /\ agrees f s | Raise e => r = Raise e end.
  Lemma sim_done : forall r p f, simulates r p f ->
    visible (done r) = changed p /\ forall s a, done r = Ok (s, a) -> agrees f s.
  Proof.
    intros r p f H. destruct p as [m|e]; cbn in H.
    - destruct H as (s & -> & <- & A). cbn. split; auto. intros s' a E. injection E as <- _. auto.
    - subst r. cbn. split; auto. discriminate.
  Qed.
  Definition answers {A} (r : res (A * cmesh)) (p : res A) (f : flags) (m : mesh) : Prop :=
    match p with Ok a => exists s, r = Ok (a, s) /\ cm s = m /\ agrees f s | Raise e => r = Raise e end.
  Lemma sim_asked : forall A (r : res (A * cmesh)) p f m k, answers r p f m ->
    visible (do (a, s) <- r; Ok (s, k a)) = asked m k p /\ forall s a, (do (a, s) <- r; Ok (s, k a)) = Ok (s, a) -> agrees f s.
  Proof.
    intros A r p f m k H. destruct p as [a|e]; cbn in H.
    - destruct H as (s & -> & <- & G). cbn. split; auto. intros s' x E. injection E as <- _. auto.
    - subst r. cbn. split; auto. discriminate.
  Qed.

  Lemma remove_unused_sim : forall f s, agrees f s -> valid (cm s) ->
    simulates (c_remove_unused s) (remove_unused_vertices (cm s)) (Fl (may_ids f) (has_props f) (has_ints f) NoConn).
  Proof.
    intros f s [I P N C] V. unfold c_remove_unused. destruct (remove_unused_restricts (cm s) V) as (m' & id_v & E & R).
    rewrite E. cbn [bind simulates]. eexists. split; [reflexivity|]. split; [reflexivity|].
    pose proof (restrict_valid _ _ _ R) as V'. destruct (restrict_ids _ _ _ R) as [T Q].
    split; cbn [cm with_conn with_mesh c_ids c_props c_ints c_conn may_ids has_props has_ints fconn]; auto.
    - rewrite T, Q. auto.
    - destruct (has_props f); auto. destruct P as (p & E1 & E2). exists p. split; auto. rewrite <- E2.
      rewrite !faces_properties_ok by auto. f_equal. 
      apply (restrict_map _ (fun m => props_of (verts m)) _ _ _ R). intros g g' H1 H2. unfold props_of. rewrite H1, H2. auto.
    - destruct (has_ints f); auto. destruct N as (p & E1 & E2). exists p. split; auto. rewrite <- E2.
      rewrite !faces_integrals_ok by auto. f_equal. 
      apply (restrict_map _ (fun m => ints_of (verts m)) _ _ _ R). intros g g' H1 H2. unfold ints_of. rewrite H1, H2. auto.
  Qed.
  Lemma remove_degenerated_sim : forall rtol f s, agrees f s ->
    simulates (c_remove_degenerated rtol s) (remove_degenerated_faces rtol (cm s)) (spoiled f).
  Proof.
    intros rtol f s A. unfold c_remove_degenerated, remove_degenerated_faces. destruct (Rltb 0 rtol); [|reflexivity].
    pose proof (q_props_agrees f s A) as Q. destruct (faces_properties (cm s)) as [p|e]; [|rewrite Q; reflexivity].
    destruct Q as (s' & -> & E & A'). cbn [bind]. rewrite E.
    destruct (remove_degenerated_with _ _ _) as [fs|e]; cbn [bind simulates]; auto.
    eexists. split; [reflexivity|]. cbn [cm remove_faces_properties with_mesh]. split; [auto|].
    destruct A' as [I P N C]. split; cbn in *; auto; [discriminate|]. unfold spoiled. cbn. destruct (fconn f); cbn; auto.
  Qed.
  Lemma merge_sim : forall atol f s, agrees f s -> may_ids f || has_props f || has_ints f = false ->
    simulates (c_merge argsort atol s) (merge_duplicates argsort atol (cm s)) no_flags.
  Proof.
    intros atol f s [I P N C] H. unfold c_merge. destruct (merge_duplicates argsort atol (cm s)) as [m|e]; cbn [bind simulates]; auto.
    eexists. split; [reflexivity|]. split; [reflexivity|]. apply orb_false_iff in H. destruct H as [H Hn].
    apply orb_false_iff in H. destruct H as [Hi Hp]. rewrite Hp in P. rewrite Hn in N.
    split; cbn; auto. intros i Ei. apply I in Ei. rewrite Hi in Ei. destruct Ei. discriminate.
  Qed.
  Lemma heal_triangles_agrees : forall f f' s, agrees f s -> next HealTriangles f = Some f' ->
    cm (c_heal_triangles s) = heal_triangles (cm s) /\ agrees f' (c_heal_triangles s).
  Proof.
    intros f f' s [I P N C] H. unfold c_heal_triangles, drop_if_props. cbn [next] in H. destruct (has_props f) eqn:Hp.
    - destruct P as (p & -> & _). split; [reflexivity|]. injection H as <-. split; cbn; auto; [discriminate|].
      destruct (fconn f); cbn; auto.
    - rewrite P. split; [reflexivity|]. destruct (may_ids f) eqn:Hi, (has_ints f) eqn:Hn; cbn in H; try discriminate.
      injection H as <-. split; cbn; auto.
      + intros i E. apply I in E. destruct E. discriminate.
      + destruct (fconn f); cbn; auto.
  Qed.

  Lemma triangle_flips : forall b fs fs', reversed_by b fs fs' ->
    triangles_ids fs' = triangles_ids fs /\ quadrangles_ids fs' = quadrangles_ids fs.
  Proof.
    intros b fs fs' [L H].
    assert (W : forall (p : bool -> bool), where_ (fun f => p (is_triangle f)) fs' = where_ (fun f => p (is_triangle f)) fs).
    { intros p. unfold where_. rewrite L. apply filter_ext. intros i. destruct (nth_error fs i) as [f|] eqn:E.
      - rewrite (H i f E). destruct (b i); auto. rewrite flip_face_tri. auto.
      - apply nth_error_None in E. replace (nth_error fs' i) with (@None face); auto. symmetry. apply nth_error_None. lia. }
    split; [apply (W (fun x => x))|apply (W negb)].
  Qed.
  Lemma heal_normals_sim : forall f s, agrees f s -> fconn f <> BadConn -> has_props f = false -> has_ints f = false ->
    simulates (c_heal_normals order s) (heal_normals order (cm s)) (Fl true false false BadConn).
  Proof.
    intros f s A NB HP HN. unfold c_heal_normals, heal_normals. pose proof (q_conn_agrees f s A NB) as Q.
    destruct (mesh_connectivity order (cm s)) as [c|e]; [|rewrite Q; reflexivity].
    destruct Q as (s1 & -> & E1 & A1). cbn [bind].
    destruct (q_ids_agrees _ s1 A1) as (s2 & Q & E2 & EP & EK & A2). rewrite Q.
    assert (NP : c_props s2 = None). { rewrite EP. pose proof (ag_props _ _ A1) as P. cbn [has_props] in P. rewrite HP in P. auto. }
    rewrite NP, E2, E1.
    destruct (heal_normals_with order c _ _ None (cm s)) as [[m ff]|e] eqn:H; cbn [bind simulates]; auto.
    destruct (heal_reverses _ _ _ _ _ _ _ _ H) as (EV & b & RB). destruct (triangle_flips _ _ _ RB) as [T1 T2].
    assert (G : agrees (Fl true false false BadConn) (with_conn (Some (mkConn (c_vv c) (c_vf c) ff (c_bounds c))) (with_mesh m s2))).
    { destruct A2 as [I P N C]. cbn [may_ids has_props has_ints fconn] in *. rewrite HN in N.
      split; cbn; auto. intros i Ei. rewrite T1, T2. apply I in Ei. rewrite E2, E1 in Ei. auto. }
    destruct (c_bounds c).
    - eexists. split; [reflexivity|]. split; [reflexivity|]. split; cbn; auto; discriminate.
    - eexists. split; [reflexivity|]. unfold drop_if_props. cbn [with_conn with_mesh c_props]. rewrite NP. split; [reflexivity|]. auto.
  Qed.
  Lemma heal_mesh_sim : forall f s, agrees f s -> valid (cm s) ->
    simulates (c_heal_mesh argsort order s) (heal_mesh argsort order (cm s)) (Fl true false false BadConn).
  Proof.
    intros f s A V. unfold c_heal_mesh, heal_mesh.
    assert (D : exists f0, agrees f0 (drop_if_props s) /\ cm (drop_if_props s) = cm s).
    { unfold drop_if_props. destruct (c_props s); [|eauto]. exists (Fl false false false BadConn). split; [|reflexivity].
      split; cbn; auto; discriminate. }
    destruct D as (f0 & A0 & E0). pose proof (remove_unused_sim f0 _ A0) as S1. rewrite E0 in S1. specialize (S1 V). unfold simulates in S1.
    destruct (remove_unused_vertices (cm s)) as [m1|e]; [|rewrite S1; reflexivity].
    destruct S1 as (s1 & -> & <- & A1). cbn [bind].
    pose proof (remove_degenerated_sim default_rtol _ s1 A1) as S2. unfold simulates in S2.
    destruct (remove_degenerated_faces default_rtol (cm s1)) as [m2|e]; [|rewrite S2; reflexivity].
    destruct S2 as (s2 & -> & <- & A2). cbn [bind].
    pose proof (merge_sim default_atol _ s2 A2 eq_refl) as S3. unfold simulates in S3.
    destruct (merge_duplicates argsort default_atol (cm s2)) as [m3|e]; [|rewrite S3; reflexivity].
    destruct S3 as (s3 & -> & <- & A3). cbn [bind].
    destruct (heal_triangles_agrees _ _ s3 A3 eq_refl) as [E4 A4]. rewrite <- E4.
    apply (heal_normals_sim _ _ A4); cbn; auto. discriminate.
  Qed.

  Lemma volume_answers : forall f s, agrees f s -> answers (q_volume s) (volume (cm s)) (Fl true true true (fconn f)) (cm s).
  Proof.
    intros f s A. unfold q_volume, volume. pose proof (q_ints_agrees f s A) as Q.
    destruct (faces_integrals (cm s)) as [i|e]; [|rewrite Q; reflexivity]. destruct Q as (s1 & -> & E1 & A1). cbn [bind].
    pose proof (q_props_agrees _ s1 A1) as Q. rewrite E1 in Q.
    destruct (faces_properties (cm s)) as [p|e]; [|rewrite Q; reflexivity]. destruct Q as (s2 & -> & E2 & A2). cbn [bind].
    destruct (volume_with i p); cbn [bind answers]; auto. exists s2. split; auto. 
  Qed.
  Lemma plain_answers : forall rho f s, agrees f s ->
    answers (q_plain rho s) (eval_plain_mesh_inertias rho (cm s)) (Fl true true true (fconn f)) (cm s).
  Proof.
    intros rho f s A. unfold q_plain, eval_plain_mesh_inertias. pose proof (q_ints_agrees f s A) as Q.
    destruct (faces_integrals (cm s)) as [i|e]; [|rewrite Q; reflexivity]. destruct Q as (s1 & -> & E1 & A1). cbn [bind].
    pose proof (q_props_agrees _ s1 A1) as Q. rewrite E1 in Q.
    destruct (faces_properties (cm s)) as [p|e]; [|rewrite Q; reflexivity]. destruct Q as (s2 & -> & E2 & A2). cbn [bind].
    destruct (plain_inertia_with rho i p); cbn [bind answers]; auto. exists s2. split; auto. 
  Qed.
  Lemma shell_answers : forall rho t f s, agrees f s ->
    answers (q_shell rho t s) (eval_shell_mesh_inertias rho t (cm s)) (Fl true true true (fconn f)) (cm s).
  Proof.
    intros rho t f s A. unfold q_shell, eval_shell_mesh_inertias. pose proof (q_props_agrees f s A) as Q.
    destruct (faces_properties (cm s)) as [i|e]; [|rewrite Q; reflexivity]. destruct Q as (s1 & -> & E1 & A1). cbn [bind].
    pose proof (q_ints_agrees _ s1 A1) as Q. rewrite E1 in Q.
    destruct (faces_integrals (cm s)) as [p|e]; [|rewrite Q; reflexivity]. destruct Q as (s2 & -> & E2 & A2). cbn [bind answers].
    exists s2. split; auto. 
  Qed.

  Lemma all_sound : forall c, sound c.
  Proof.
    intros c. destruct c; try (first [eapply sound_moves|eapply sound_scales]; first [exact vzero|exact mid|exact 0%R]);
      intros f f' s A N M; cbn [next] in N; cbn [movable] in M.
    - injection N as <-. plain. apply agrees_fresh.
    - injection N as <-. plain. apply agrees_fresh.
    - (* FlipNormals *)
      injection N as <-. plain. destruct A as [I P N C].
      assert (RB : reversed_by (fun _ => true) (faces (cm s)) (map flip_face (faces (cm s)))).
      { split; [apply map_length|]. intros k g E. rewrite nth_error_map, E. auto. }
      destruct (triangle_flips _ _ _ RB) as [T1 T2].
      split; cbn [update_cached cm flip_normals verts faces c_ids c_props c_ints c_conn may_ids has_props has_ints fconn]; auto.
      + rewrite T1, T2. auto.
      + destruct (has_props f).
        * destruct P as (p & -> & F). eexists. split; [reflexivity|]. apply cached_flip; tauto.
        * rewrite P. auto.
      + destruct (fconn f); cbn; auto.
    - (* Merge *)
      destruct (may_ids f || has_props f || has_ints f) eqn:H; [discriminate|]. injection N as <-. apply sim_done. eapply merge_sim; eauto.
    - (* HealNormals *)
      assert (H : fconn f <> BadConn /\ has_props f = false /\ has_ints f = false /\ f' = Fl true false false BadConn).
      { destruct (fconn f), (has_props f), (has_ints f); cbn in N; try discriminate; injection N as <-; repeat split; discriminate. }
      destruct H as (H1 & H2 & H3 & ->). apply sim_done. eapply heal_normals_sim; eauto.
    - injection N as <-. apply sim_done. apply remove_unused_sim; auto.
    - destruct (heal_triangles_agrees f f' s A N) as [E G]. cbn [step fresh_step visible]. rewrite E. split; auto.
      intros s' a H. injection H as <- _. auto.
    - injection N as <-. apply sim_done. apply remove_degenerated_sim; auto.
    - injection N as <-. apply sim_done. eapply heal_mesh_sim; eauto.
    - (* Triangulate *)
      injection N as <-. apply sim_done. unfold c_triangulate, triangulate_quadrangles.
      destruct (q_ids_agrees _ s A) as (s2 & Q & E2 & _). rewrite Q, E2.
      destruct (triangulate_with _ _); cbn [bind simulates]; auto. eexists. split; [reflexivity|]. split; auto. apply agrees_fresh.
    - injection N as <-. apply sim_done. destruct (symmetrize argsort p (cm s)); cbn [bind simulates]; auto.
      eexists. split; [reflexivity|]. split; auto. apply agrees_fresh.
    - injection N as <-. plain. apply agrees_fresh.
    - injection N as <-. cbn [step]. destruct (q_ids_agrees _ s A) as (s2 & Q & E2 & _ & _ & G). rewrite Q. cbn. rewrite E2. split; auto.
      intros s' a H. injection H as <- _. auto.
    - injection N as <-. apply sim_asked. unfold answers. pose proof (q_props_agrees f s A). destruct (faces_properties (cm s)); auto.
    - assert (H : fconn f <> BadConn /\ f' = Fl (may_ids f) (has_props f) (has_ints f) GoodConn)
        by (destruct (fconn f); try discriminate; injection N as <-; split; auto; discriminate).
      destruct H as [H ->]. apply sim_asked. unfold answers. pose proof (q_conn_agrees f s A H). destruct (mesh_connectivity order (cm s)); auto.
    - injection N as <-. apply sim_asked. unfold answers. pose proof (q_ints_agrees f s A). destruct (faces_integrals (cm s)); auto.
    - injection N as <-. apply sim_asked. apply volume_answers; auto.
    - injection N as <-. apply sim_asked. apply plain_answers; auto.
    - injection N as <-. apply sim_asked. apply shell_answers; auto.
    - assert (H : fconn f <> BadConn /\ f' = Fl (may_ids f) (has_props f) (has_ints f) GoodConn)
        by (destruct (fconn f); try discriminate; injection N as <-; split; auto; discriminate).
      destruct H as [H ->]. cbn [step fresh_step]. unfold is_mesh_closed. pose proof (q_conn_agrees f s A H) as Q.
      destruct (mesh_connectivity order (cm s)) as [c|e]; [|rewrite Q; split; [reflexivity|discriminate]].
      destruct Q as (s1 & -> & E1 & A1). cbn. rewrite E1. split; auto. intros s' a E. injection E as <- _. auto.
    - assert (H : fconn f <> BadConn /\ f' = Fl (may_ids f) (has_props f) (has_ints f) GoodConn)
        by (destruct (fconn f); try discriminate; injection N as <-; split; auto; discriminate).
      destruct H as [H ->]. cbn [step fresh_step]. unfold is_mesh_conformal. pose proof (q_conn_agrees f s A H) as Q.
      destruct (mesh_connectivity order (cm s)) as [c|e]; [|rewrite Q; split; [reflexivity|discriminate]].
      destruct Q as (s1 & -> & E1 & A1). cbn [bind]. rewrite E1.
      destruct (is_mesh_conformal_with (c_bounds c) (verts (cm s))); cbn; [|split; auto; discriminate]. rewrite E1. split; auto.
      intros s' a' E. injection E as <- _. auto.
    - injection N as <-. cbn [step fresh_step]. destruct (axis_aligned_bbox (cm s)); cbn; split; auto; [|discriminate].
      intros s' a' E. injection E as <- _. auto.
    - injection N as <-. cbn [step fresh_step]. destruct (edges_stats (cm s)); cbn; split; auto; [|discriminate].
      intros s' a' E. injection E as <- _. auto.
  Qed.

  Lemma histories : forall h f s, agrees f s -> disciplined f h = true -> movable_along argsort order h (cm s) ->
    visible (run argsort order h s) = fresh_run argsort order h (cm s).
  Proof.
    induction h as [|c h IH]; intros f s A D M; [reflexivity|]. cbn [disciplined run fresh_run movable_along] in *.
    destruct (next c f) as [f'|] eqn:N; [|discriminate]. destruct M as [M1 M2].
    destruct (all_sound c f f' s A N M1) as [V G].
    destruct (step argsort order c s) as [[s' a]|e]; cbn [visible] in V; rewrite <- V; cbn [bind]; auto.
    specialize (G s' a eq_refl). specialize (M2 _ _ (eq_sym V)). specialize (IH f' s' G D M2).
    rewrite <- IH. destruct (run argsort order h s') as [[s2 l]|e]; reflexivity.
  Qed.
End Discipline.
