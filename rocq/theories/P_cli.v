(** The command line: the cache plays no part in what is written. *)
From Coq Require Import Ascii String Reals List Arith NArith ZArith Bool Lia Lra.
From Verif Require Import M_base P_base M_merge M_rotations M_plane M_mesh P_mesh M_inertia M_geometry M_connectivity M_cache S_cache P_cache P_volume M_clipper M_hydro
  M_text M_mmio M_formats M_cli S_cli.
Import ListNotations.
Local Open Scope R_scope.

(** ** States without cached face properties *)
Definition lean (c : cmesh) : Prop :=
  c_props c = None /\ c_ints c = None /\
  (c_ids c = None \/ c_ids c = Some (triangles_ids (faces (cm c)), quadrangles_ids (faces (cm c)))).
Lemma lean_fresh : forall m, lean (fresh m). Proof. intros m. repeat split; cbn; auto. Qed.
Lemma agrees_lean : forall order f c, agrees order f c -> has_props f = false -> has_ints f = false -> lean c.
Proof.
  intros order f c [I P N _] HP HN. rewrite HP in P. rewrite HN in N. split; auto. split; auto. destruct (c_ids c) as [i|] eqn:E; auto. right. destruct (I i eq_refl). congruence.
Qed.
Lemma agrees_none : forall order c, agrees order no_flags c -> c = fresh (cm c).
Proof.
  intros order [m p i k n] [I P N C]. cbn in *. subst. destruct i as [i|]; [destruct (I i eq_refl); discriminate|reflexivity].
Qed.

Section Cli.
  Variable dbl : N -> Z -> N * positive.
  Variable argsort : list R -> list nat.
  Variable order : list nat -> list nat.
  Notation perform := (perform argsort order).
  Notation step := (step argsort order).

  (** The state follows the operation on plain meshes. *)
  Definition follows (r : res cmesh) (p : res mesh) : Prop :=
    match p with Ok m => exists c, r = Ok c /\ cm c = m /\ lean c | Raise e => r = Raise e end.
  Lemma simulates_follows : forall r p f, simulates order r p f -> has_props f = false -> has_ints f = false -> follows r p.
  Proof.
    intros r [m|e] f S P N; cbn in *; auto. destruct S as (c & E & M & A). exists c. split; auto. split; auto. apply (agrees_lean order f); auto.
  Qed.

  Lemma perform_app : forall a b c, perform (a ++ b) c = do c <- perform a c; perform b c.
  Proof.
    unfold M_cli.perform. induction a as [|x a IH]; intros b c; cbn [app run bind]; auto.
    destruct (step x c) as [[c1 y]|e]; cbn [bind]; auto. specialize (IH b c1). destruct (run argsort order (a ++ b) c1) as [[c2 l]|e], (run argsort order a c1) as [[c3 l']|e']; cbn [bind] in *; auto.
  Qed.
  Lemma in_order_app : forall a b m, in_order (a ++ b) m = do m <- in_order a m; in_order b m.
  Proof. induction a as [|f a IH]; intros b m; cbn [app in_order bind]; auto. destruct (f m); cbn [bind]; auto. Qed.

  (** A list of calls follows a list of operations. *)
  Definition tracks (h : list call) (l : list (mesh -> res mesh)) : Prop :=
    forall c, lean c -> follows (perform h c) (in_order l (cm c)).
  Lemma tracks_app : forall a b l k, tracks a l -> tracks b k -> tracks (a ++ b) (l ++ k).
  Proof.
    intros a b l k A B c L. rewrite perform_app, in_order_app. specialize (A c L). unfold follows in A. destruct (in_order l (cm c)) as [m|e]; [|rewrite A; reflexivity].
    destruct A as (c' & -> & <- & L'). cbn [bind]. apply B. auto.
  Qed.
  Lemma tracks_nil : tracks [] [].
  Proof. intros c L. exists c. auto. Qed.
  Lemma tracks_one : forall x f, (forall c, lean c -> follows (do (c, _) <- step x c; Ok c) (f (cm c))) -> tracks [x] [f].
  Proof.
    intros x f H c L. specialize (H c L). unfold M_cli.perform. cbn [run in_order]. destruct (step x c) as [[c' y]|e]; cbn [bind] in *; unfold follows in *.
    - destruct (f (cm c)); cbn [bind]; auto.
    - destruct (f (cm c)); cbn [bind]; auto.
  Qed.
  Lemma tracks_if : forall A (o : option A) (k : A -> call) f, (forall a, tracks [k a] [f a]) -> tracks (call_if o k) (optional o f).
  Proof. intros A [a|] k f H; [apply H|apply tracks_nil]. Qed.
  Lemma tracks_when : forall b k f, tracks [k] [f] -> tracks (call_when b k) (only b f).
  Proof. intros [] k f H; [auto|apply tracks_nil]. Qed.

  (** *** Each call *)
  Lemma update_lean : forall m u c, lean c -> triangles_ids (faces m) = triangles_ids (faces (cm c)) -> quadrangles_ids (faces m) = quadrangles_ids (faces (cm c)) -> lean (update_cached m u c).
  Proof. intros m u c (P & N & I) T Q. unfold lean, update_cached. cbn. rewrite P, T, Q. auto. Qed.
  Ltac moves := apply tracks_one; intros c L; cbn [M_cache.step bind follows always]; eexists; (split; [reflexivity|]); (split; [reflexivity|]); apply update_lean; auto.
  Lemma t_translate : forall t, tracks [Translate t] [always translate t]. Proof. intros. moves. Qed.
  Lemma t_translate_x : forall t, tracks [TranslateX t] [always translate_x t]. Proof. intros. moves. Qed.
  Lemma t_translate_y : forall t, tracks [TranslateY t] [always translate_y t]. Proof. intros. moves. Qed.
  Lemma t_translate_z : forall t, tracks [TranslateZ t] [always translate_z t]. Proof. intros. moves. Qed.
  Lemma t_rotate_matrix : forall r, tracks [RotateMatrix r] [always rotate_matrix r]. Proof. intros. moves. Qed.
  Lemma t_rotate : forall x y z, tracks [Rotate x y z] [fun m => Ok (rotate x y z m)]. Proof. intros. moves. Qed.
  Lemma t_scaling : forall x op, (forall c, step x c = done (c_scaling op c)) -> (forall m m', op m = Ok m' -> faces m' = faces m) -> tracks [x] [op].
  Proof.
    intros x op E F. apply tracks_one. intros c (P & N & I). rewrite E. unfold done, c_scaling. destruct (op (cm c)) as [m|e] eqn:O; cbn [bind follows]; auto.
    eexists. split; [reflexivity|]. unfold drop_if_props, lean. cbn [with_mesh c_props c_ints c_ids cm]. rewrite P. cbn. rewrite (F _ _ O). auto.
  Qed.
  Lemma scaling_faces : forall f a m m', scaling f a m = Ok m' -> faces m' = faces m.
  Proof. intros f a m m' E. unfold scaling in E. destruct (Rltb 0 a); [|discriminate]. injection E as <-. auto. Qed.
  Lemma t_flip : tracks [FlipNormals] [fun m => Ok (flip_normals m)].
  Proof.
    apply tracks_one. intros c L. cbn [M_cache.step bind follows]. eexists. split; [reflexivity|]. split; [reflexivity|].
    assert (W : forall p : bool -> bool, where_ (fun f => p (is_triangle f)) (faces (flip_normals (cm c))) = where_ (fun f => p (is_triangle f)) (faces (cm c))).
    { intros p. unfold where_, flip_normals. cbn [faces]. rewrite map_length. apply filter_ext. intros i. rewrite nth_error_map. destruct (nth_error (faces (cm c)) i); [|reflexivity]. cbn [option_map]. rewrite flip_face_tri. auto. }
    apply update_lean; auto; [apply (W (fun b => b))|apply (W negb)].
  Qed.
  Lemma t_triangulate : tracks [Triangulate] [triangulate_quadrangles].
  Proof.
    apply tracks_one. intros c (P & N & I). cbn [M_cache.step]. unfold c_triangulate, q_ids, triangulate_quadrangles, done.
    assert (Q : exists c', (match c_ids c with Some i => (i, c) | None => ((triangles_ids (faces (cm c)), quadrangles_ids (faces (cm c))), with_ids (Some (triangles_ids (faces (cm c)), quadrangles_ids (faces (cm c)))) c) end)
      = ((triangles_ids (faces (cm c)), quadrangles_ids (faces (cm c))), c') /\ cm c' = cm c).
    { destruct I as [->| ->]; eexists; (split; [reflexivity|reflexivity]). }
    destruct Q as (c' & Q & E). 
    first [rewrite Q | idtac]. rewrite E. destruct (triangulate_with _ _) as [fs|e]; cbn [bind follows]; auto. eexists. split; [reflexivity|]. split; [reflexivity|apply lean_fresh].
  Qed.
  (** Healing begins with nothing in the cache. *)
  Lemma f_heal_mesh : forall m, follows (perform [HealMesh] (fresh m)) (heal_mesh argsort order m).
  Proof.
    intros m. unfold M_cli.perform. cbn [run M_cache.step]. unfold done, c_heal_mesh, heal_mesh. cbn [drop_if_props fresh c_props]. unfold c_remove_unused. change (cm (fresh m)) with m.
    destruct (remove_unused_vertices m) as [m1|e]; [|reflexivity]. cbn [bind]. change (with_conn None (with_mesh m1 (fresh m))) with (fresh m1).
    pose proof (remove_degenerated_sim order default_rtol _ _ (agrees_fresh order m1)) as S2. unfold simulates in S2. change (cm (fresh m1)) with m1 in S2.
    destruct (remove_degenerated_faces default_rtol m1) as [m2|e]; [|rewrite S2; reflexivity]. destruct S2 as (s2 & S2 & <- & A2). rewrite S2. cbn [bind].
    pose proof (merge_sim argsort order default_atol _ s2 A2 eq_refl) as S3. unfold simulates in S3.
    destruct (merge_duplicates argsort default_atol (cm s2)) as [m3|e]; [|rewrite S3; reflexivity]. destruct S3 as (s3 & -> & <- & A3). cbn [bind].
    destruct (heal_triangles_agrees order _ _ s3 A3 eq_refl) as [E4 A4]. rewrite <- E4.
    assert (H : follows (c_heal_normals order (c_heal_triangles s3)) (heal_normals order (cm (c_heal_triangles s3)))).
    { eapply simulates_follows; [eapply heal_normals_sim; [exact A4|cbn; discriminate|reflexivity|reflexivity]|reflexivity|reflexivity]. }
    unfold follows in *. destruct (heal_normals order _) as [m5|e]; [|rewrite H; reflexivity]. destruct H as (c & -> & <- & L). exists c. auto.
  Qed.
  Lemma f_heal_normals : forall m, follows (perform [HealNormals] (fresh m)) (heal_normals order m).
  Proof.
    intros m. assert (H : follows (c_heal_normals order (fresh m)) (heal_normals order m)).
    { eapply simulates_follows; [eapply (heal_normals_sim order no_flags (fresh m)); [apply agrees_fresh|cbn; discriminate|reflexivity|reflexivity]|reflexivity|reflexivity]. }
    unfold M_cli.perform. cbn [run M_cache.step]. unfold done. unfold follows in *. destruct (heal_normals order m) as [m'|e]; [|rewrite H; reflexivity]. destruct H as (c & -> & <- & L). exists c. auto.
  Qed.
  Lemma f_healing : forall o m, follows (perform (healing o) (fresh m))
    (in_order (only (o_heal_mesh o) (heal_mesh argsort order) ++ only (o_heal_normals o && negb (o_heal_mesh o)) (heal_normals order)) m).
  Proof.
    intros o m. unfold healing, call_when, only. destruct (o_heal_mesh o); cbn [negb andb].
    - rewrite andb_false_r. cbn [app in_order]. pose proof (f_heal_mesh m) as H. destruct (heal_mesh argsort order m); auto.
    - rewrite andb_true_r. destruct (o_heal_normals o); cbn [app in_order].
      + pose proof (f_heal_normals m) as H. destruct (heal_normals order m); auto.
      + exists (fresh m). split; auto. split; auto. apply lean_fresh.
  Qed.
  Lemma t_moving : forall o, tracks (moving o) (motions o).
  Proof.
    intros o. unfold moving, motions. repeat apply tracks_app; try (apply tracks_if; intros a).
    all: try apply t_translate; try apply t_translate_x; try apply t_translate_y; try apply t_translate_z; try apply t_rotate.
    all: apply t_scaling; [reflexivity|]; intros m m'; apply scaling_faces.
  Qed.
  Lemma t_turning : forall o, tracks (turning o) (only (o_flip o) (fun m => Ok (flip_normals m)) ++ only (o_triangulate o) triangulate_quadrangles).
  Proof. intros o. apply tracks_app; apply tracks_when; [apply t_flip|apply t_triangulate]. Qed.

  (** *** Before healing nothing is cached; after clipping neither. *)
  Definition kept_fresh (r : res cmesh) (p : res mesh) : Prop := r = do m <- p; Ok (fresh m).
  Lemma k_merging : forall o m, kept_fresh (do c <- merging dbl o; perform c (fresh m))
    (in_order (optional (o_merge o) (fun w m => do tol <- to_real dbl w; merge_duplicates argsort tol m)) m).
  Proof.
    intros o m. unfold kept_fresh, merging, optional. destruct (o_merge o) as [w|]; [|reflexivity]. cbn [in_order]. destruct (to_real dbl w) as [tol|e]; cbn [bind]; [|reflexivity].
    unfold M_cli.perform. cbn [run M_cache.step]. unfold done, c_merge. cbn [cm fresh]. destruct (merge_duplicates argsort tol m); reflexivity.
  Qed.
  Lemma k_mirroring : forall planes o m, kept_fresh (do c <- mirroring dbl planes o; perform c (fresh m))
    (in_order (optional (o_mirror o) (fun ws m => do p <- choose_plane dbl planes ws; Ok (mirror p m))) m).
  Proof.
    intros planes o m. unfold kept_fresh, mirroring, optional. destruct (o_mirror o) as [ws|]; [|reflexivity]. cbn [in_order]. destruct (choose_plane dbl planes ws) as [p|e]; cbn [bind]; reflexivity.
  Qed.
  Lemma k_symmetries : forall planes l m, kept_fresh (symmetries dbl argsort order planes l (fresh m))
    (in_order (map (fun ws m => do p <- choose_plane dbl planes (or_default (s "Oxz") ws); symmetrize argsort p m) l) m).
  Proof.
    unfold kept_fresh. intros planes. induction l as [|ws l IH]; intros m; [reflexivity|]. cbn [symmetries map in_order]. destruct (choose_plane dbl planes _) as [p|e]; cbn [bind]; [|reflexivity].
    unfold M_cli.perform at 1. cbn [run M_cache.step cm fresh]. unfold done. destruct (symmetrize argsort p m) as [m'|e]; cbn [bind]; [|reflexivity]. apply IH.
  Qed.
  Lemma f_clippings : forall planes l c, lean c -> follows (clippings dbl argsort planes l c)
    (in_order (map (fun ws m => do p <- choose_plane dbl planes (or_default (s "Oxy") ws); do k <- mesh_clipper argsort p (1 / 1000) false m; Ok (clipped k)) l) (cm c)).
  Proof.
    intros planes. induction l as [|ws l IH]; intros c L; [exists c; auto|]. cbn [clippings map in_order]. destruct (choose_plane dbl planes _) as [p|e]; cbn [bind]; [|reflexivity].
    unfold clip_tol, vicinity_tol. destruct (mesh_clipper argsort p (1 / 1000) false (cm c)) as [k|e]; cbn [bind]; [|reflexivity]. apply (IH (fresh (clipped k))). apply lean_fresh.
  Qed.

  (** ** Altogether *)
  Variable other_load : fmt -> text -> res (array num * array Z).
  Lemma k_loaded : forall d o, kept_fresh (loaded dbl other_load argsort d o) (read dbl argsort other_load d o).
  Proof.
    intros d o. unfold kept_fresh, loaded, read, load_healed, read_healed. destruct (input_format o) as [k|e]; cbn [bind]; [|reflexivity].
    destruct (load_mesh dbl other_load d (o_infile o) k) as [vf|e]; cbn [bind]; [|reflexivity]. destruct (mesh_of vf) as [m|e]; cbn [bind]; [|reflexivity].
    destruct (o_concat o) as [name|]; [|reflexivity]. destruct (load_mesh dbl other_load d name k) as [vf2|e]; cbn [bind]; [|reflexivity].
    destruct (mesh_of vf2) as [m2|e]; cbn [bind]; [|reflexivity]. cbn [cm fresh c_heal_triangles drop_if_props c_props with_mesh]. destruct (add argsort _ _); reflexivity.
  Qed.

  Lemma follows_bind : forall (r : res cmesh) p k (q : mesh -> res mesh), follows r p -> (forall c, lean c -> follows (k c) (q (cm c))) -> follows (bind r k) (bind p q).
  Proof.
    intros r p k q F H. unfold follows in F. destruct p as [m|e]; [|rewrite F; reflexivity]. destruct F as (c & -> & <- & L). cbn [bind]. auto.
  Qed.
  Lemma fresh_bind : forall (r : res cmesh) p k (q : mesh -> res mesh), kept_fresh r p -> (forall m, follows (k (fresh m)) (q m)) -> follows (bind r k) (bind p q).
  Proof. intros r p k q F H. unfold kept_fresh in F. subst r. destruct p as [m|e]; cbn [bind]; auto. reflexivity. Qed.

  Lemma processed_order : forall d o, processed dbl other_load argsort order d o =
    do m <- read dbl argsort other_load d o;
    do m <- in_order (optional (o_merge o) (fun w m => do tol <- to_real dbl w; merge_duplicates argsort tol m)) m;
    do planes <- planes_of dbl o;
    do m <- in_order (operations dbl argsort order planes o) m;
    positioned dbl argsort o m.
  Proof.
    intros d o. unfold processed. pose proof (k_loaded d o) as K. unfold kept_fresh in K. rewrite K. clear K. destruct (read dbl argsort other_load d o) as [m|e]; cbn [bind]; [|reflexivity].
    pose proof (k_merging o m) as K. unfold kept_fresh in K. destruct (merging dbl o) as [c|e]; cbn [bind] in *.
    2: { symmetry in K. destruct (in_order _ m) as [m1|e']; cbn [bind] in *; congruence. }
    rewrite K. clear K. destruct (in_order _ m) as [m1|e]; cbn [bind]; [|reflexivity].
    destruct (planes_of dbl o) as [planes|e]; cbn [bind]; [|reflexivity].
    pose proof (k_mirroring planes o m1) as K. unfold kept_fresh in K. unfold operations. rewrite in_order_app. destruct (mirroring dbl planes o) as [c1|e]; cbn [bind] in *.
    2: { symmetry in K. destruct (in_order _ m1) as [m2|e']; cbn [bind] in *; congruence. }
    rewrite K. clear K. destruct (in_order _ m1) as [m2|e]; cbn [bind]; [|reflexivity].
    rewrite in_order_app. assert (K : (match o_sym o with None => Ok (fresh m2) | Some l => symmetries dbl argsort order planes l (fresh m2) end) =
      do m <- in_order (many (o_sym o) (fun ws m => do p <- choose_plane dbl planes (or_default (s "Oxz") ws); symmetrize argsort p m)) m2; Ok (fresh m)).
    { unfold many. destruct (o_sym o) as [l|]; [apply k_symmetries|reflexivity]. }
    rewrite K. clear K. destruct (in_order (many (o_sym o) _) m2) as [m3|e]; cbn [bind]; [|reflexivity].
    assert (F : follows (do c <- perform (healing o) (fresh m3); do c <- perform (moving o) c; do c <- perform (turning o) c; match o_clip o with None => Ok c | Some l => clippings dbl argsort planes l c end)
      (in_order (only (o_heal_mesh o) (heal_mesh argsort order) ++ only (o_heal_normals o && negb (o_heal_mesh o)) (heal_normals order) ++ motions o ++
        only (o_flip o) (fun m => Ok (flip_normals m)) ++ only (o_triangulate o) triangulate_quadrangles ++
        many (o_clip o) (fun ws m => do p <- choose_plane dbl planes (or_default (s "Oxy") ws); do k <- mesh_clipper argsort p (1 / 1000) false m; Ok (clipped k))) m3)).
    { rewrite !app_assoc. rewrite <- (app_assoc (only _ _ ++ only _ _)), <- (app_assoc (only _ _ ++ only _ _)), <- (app_assoc (only _ _ ++ only _ _)), <- (app_assoc (motions o)).
      rewrite <- (app_assoc (motions o)). rewrite in_order_app. apply follows_bind; [apply f_healing|]. intros c0 L. rewrite in_order_app. apply follows_bind; [apply t_moving; auto|]. intros c' L'. rewrite in_order_app. apply follows_bind; [apply t_turning; auto|].
      intros c2 L2. unfold many. destruct (o_clip o) as [l|]; [apply f_clippings; auto|exists c2; auto]. }
    unfold follows in F. destruct (in_order (only (o_heal_mesh o) _ ++ _) m3) as [m4|e]; cbn [bind].
    - destruct F as (cl & F & <- & L). destruct (perform (healing o) (fresh m3)) as [ca|]; [|discriminate]. cbn [bind] in *. destruct (perform (moving o) ca) as [cb|]; [|discriminate]. cbn [bind] in *.
      destruct (perform (turning o) cb) as [cc|]; [|discriminate]. cbn [bind] in *. rewrite F. cbn [bind]. unfold positioned. destruct (o_hydrostatics o); [|reflexivity].
      destruct (hydrostatics dbl argsort o (cm cl)) as [[[h z] rot]|e]; reflexivity.
    - destruct (perform (healing o) (fresh m3)) as [ca|]; [|cbn [bind] in *; congruence]. cbn [bind] in *. destruct (perform (moving o) ca) as [cb|]; [|cbn [bind] in *; congruence]. cbn [bind] in *.
      destruct (perform (turning o) cb) as [cc|]; [|cbn [bind] in *; congruence]. cbn [bind] in *. rewrite F. reflexivity.
  Qed.
End Cli.
