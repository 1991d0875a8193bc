(** Property C118: clipper objects, their setters, and the planes that they share. *)
From Coq Require Import Reals List Arith Bool Lra Lia.
From Verif Require Import M_base M_merge M_plane M_mesh M_connectivity M_clipper M_hydro M_clipobj S_merge S_mesh S_clipper S_clipobj P_base P_merge P_mesh P_connectivity P_parts P_clip_mesh P_curves P_clipobj T_clipper.
Import ListNotations.
Local Open Scope R_scope.

(** A clipper that was just made or set, without an exception, shows the clipping of its mesh by its plane. *)
Theorem C118_set : forall argsort w c k, sorting argsort -> builds w c k -> snd (step argsort w c) = None -> current argsort (fst (step argsort w c)) k.
Proof.
  intros argsort w c k SA B N. destruct c as [| | | |m p tol b|j p|j tol|]; cbn [builds] in B; try contradiction; subst; cbn [step] in *.
  - destruct (refresh argsort w _) as [o [e|]] eqn:E; cbn [fst snd] in *; [discriminate|]. apply refresh_ok in E as (A1 & A2 & A3 & A4 & q & m' & c & P & M & C & X); auto.
    cbn [c_mesh c_plane c_tol c_assert] in *. exists o, q, m', c. unfold holds. cbn [with_clippers w_clippers w_planes w_meshes]. rewrite A1, A2, A3.
    split; [|split; auto; eapply any_option; eauto]. split; auto. rewrite nth_error_app2 by lia. rewrite Nat.sub_diag. auto.
  - destruct (nth_error (w_clippers w) k) as [o|] eqn:K; [|discriminate]. destruct (nth_error (w_planes w) p) as [q|] eqn:Q; [|discriminate].
    destruct (refresh argsort w _) as [o' e] eqn:E. cbn [fst snd] in *. subst e. apply refresh_ok in E as (A1 & A2 & A3 & A4 & q' & m' & c & P & M & C & X); auto.
    cbn [c_mesh c_plane c_tol c_assert] in *. exists o', q', m', c. unfold holds. cbn [with_clippers w_clippers w_planes w_meshes]. rewrite A1, A2, A3.
    split; [|split; auto; eapply any_option; eauto]. split; auto. apply put_same. eapply some_lt; eauto.
  - destruct (nth_error (w_clippers w) k) as [o|] eqn:K; [|discriminate].
    destruct (refresh argsort w _) as [o' e] eqn:E. cbn [fst snd] in *. subst e. apply refresh_ok in E as (A1 & A2 & A3 & A4 & q' & m' & c & P & M & C & X); auto.
    cbn [c_mesh c_plane c_tol c_assert] in *. exists o', q', m', c. unfold holds. cbn [with_clippers w_clippers w_planes w_meshes]. rewrite A1, A2, A3.
    split; [|split; auto; eapply any_option; eauto]. split; auto. apply put_same. eapply some_lt; eauto.
Qed.

(** A setter succeeds exactly when a new clipper of the same mesh, plane, tolerance and option could be made. *)
Theorem C118_succeeds : forall argsort w k o p m q r, sorting argsort -> holds w k o p m -> nth_error (w_planes w) r = Some q ->
  (snd (step argsort w (SetPlane k r)) = None <-> exists c, mesh_clipper argsort q (c_tol o) (c_assert o) m = Ok c) /\
  (forall tol, snd (step argsort w (SetTol k tol)) = None <-> exists c, mesh_clipper argsort p tol (c_assert o) m = Ok c) /\
  (forall e, snd (step argsort w (SetPlane k r)) = Some e <-> mesh_clipper argsort q (c_tol o) (c_assert o) m = Raise e) /\
  forall tol e, snd (step argsort w (SetTol k tol)) = Some e <-> mesh_clipper argsort p tol (c_assert o) m = Raise e.
Proof.
  intros argsort w k o p m q r SA (K & P & M) Q.
  assert (X : forall q' tol, match mesh_clipper argsort q' tol (c_assert o) m with Ok _ => snd (update argsort q' tol (c_assert o) m empty) = None | Raise e => snd (update argsort q' tol (c_assert o) m empty) = Some e end).
  { intros q' tol. destruct (mesh_clipper argsort q' tol (c_assert o) m) as [c|e] eqn:C; [rewrite (update_ok _ _ _ _ _ _ _ C); auto|apply (update_fails _ _ _ _ _ empty _ C)]. }
  assert (SP : snd (step argsort w (SetPlane k r)) = snd (update argsort q (c_tol o) (c_assert o) m empty)).
  { cbn [step]. rewrite K, Q. erewrite refresh_held; [|exact Q|exact M]. reflexivity. }
  assert (ST : forall tol, snd (step argsort w (SetTol k tol)) = snd (update argsort p tol (c_assert o) m empty)).
  { intros tol. cbn [step]. rewrite K. erewrite refresh_held; [|exact P|exact M]. reflexivity. }
  rewrite SP. split; [|split; [|split]].
  - specialize (X q (c_tol o)). destruct (mesh_clipper argsort q (c_tol o) (c_assert o) m); rewrite X; split; intros H; eauto; try discriminate. destruct H; discriminate.
  - intros tol. rewrite ST. specialize (X p tol). destruct (mesh_clipper argsort p tol (c_assert o) m); rewrite X; split; intros H; eauto; try discriminate. destruct H; discriminate.
  - intros e. specialize (X q (c_tol o)). destruct (mesh_clipper argsort q (c_tol o) (c_assert o) m); rewrite X; split; intros H; try discriminate; congruence.
  - intros tol e. rewrite ST. specialize (X p tol). destruct (mesh_clipper argsort p tol (c_assert o) m); rewrite X; split; intros H; try discriminate; congruence.
Qed.

(** Any call that does not touch its plane or its mesh leaves it up to date, whether it succeeds or not. *)
Theorem C118_kept : forall argsort w c k, current argsort w k -> ~ touches w k c -> current argsort (fst (step argsort w c)) k.
Proof.
  intros argsort w c k S0 T. pose proof S0 as (o & p & m & cl & (K & P & M) & E & X).
  assert (KL := some_lt _ _ _ _ K). assert (PL := some_lt _ _ _ _ P). assert (ML := some_lt _ _ _ _ M).
  destruct c as [n s|r op|m'|r m'|r q tol b|j q|j tol|j b]; cbn [touches] in T; cbn [step].
  - exists o, p, m, cl. split; [|auto]. split; [exact K|]. cbn. split; auto. rewrite nth_error_app1 by auto. auto.
  - destruct (nth_error (w_planes w) r) as [p'|] eqn:R; [|exact S0].
    exists o, p, m, cl. split; [|auto]. split; [exact K|]. cbn. split; auto. rewrite put_other; [assumption|intros Z; apply T; exists o; auto|eapply some_lt; eassumption].
  - exists o, p, m, cl. split; [|auto]. split; [exact K|]. cbn. split; auto. rewrite nth_error_app1 by auto. auto.
  - destruct (nth_error (w_meshes w) r) as [p'|] eqn:R; [|exact S0].
    exists o, p, m, cl. split; [|auto]. split; [exact K|]. cbn. split; auto. rewrite put_other; [assumption|intros Z; apply T; exists o; auto|eapply some_lt; eassumption].
  - destruct (refresh argsort w _) as [o' [e|]]; exists o, p, m, cl; (split; [|auto]); [split; auto|]. split; [|split; auto]. cbn. rewrite nth_error_app1; auto.
  - destruct (nth_error (w_clippers w) j) as [oj|] eqn:J; [|exact S0].
    destruct (nth_error (w_planes w) q); [|exact S0].
    destruct (refresh argsort w _) as [o' e]. exists o, p, m, cl. split; [|auto]. split; [|split; auto]. cbn. rewrite put_other; [assumption|congruence|eapply some_lt; eassumption].
  - destruct (nth_error (w_clippers w) j) as [oj|] eqn:J; [|exact S0].
    destruct (refresh argsort w _) as [o' e]. exists o, p, m, cl. split; [|auto]. split; [|split; auto]. cbn. rewrite put_other; [assumption|congruence|eapply some_lt; eassumption].
  - destruct (nth_error (w_clippers w) j) as [oj|] eqn:J; [|exact S0].
    destruct (Nat.eq_dec j k) as [->|JK].
    + assert (oj = o) by congruence. subst oj. exists (mkObject (c_mesh o) (c_plane o) (c_tol o) b (c_data o)), p, m, cl. split; [|split; [exact E|]].
      * split; [|split; auto]. cbn. apply put_same. auto.
      * destruct X. constructor; assumption.
    + exists o, p, m, cl. split; [|auto]. split; [|split; auto]. cbn. rewrite put_other; [assumption|congruence|eapply some_lt; eassumption].
Qed.
(** So it stays up to date along every sequence of calls whose setters of this clipper succeed. *)
Theorem C118_history : forall argsort cs w k, sorting argsort -> current argsort w k -> careful argsort w k cs -> current argsort (after argsort w cs) k.
Proof.
  intros argsort cs. induction cs as [|c cs IH]; intros w k SA C H; auto. destruct H as [H1 H2]. cbn [after fold_left]. apply IH; auto.
  assert (D : touches w k c \/ ~ touches w k c).
  { assert (N : forall g, (exists o, nth_error (w_clippers w) k = Some o /\ g o) \/ ~ (exists o, nth_error (w_clippers w) k = Some o /\ g o) \/ (exists o, nth_error (w_clippers w) k = Some o)).
    { intros g. destruct (nth_error (w_clippers w) k) as [o|]; [right; right; eauto|right; left; intros (o & E & _); discriminate]. }
    destruct c as [n s|r op|m'|r m'|r q tol b|j q|j tol|j b]; cbn [touches]; auto.
    - destruct (N (fun o => c_plane o = r)) as [Y|[Y|[o Y]]]; auto. destruct (Nat.eq_dec (c_plane o) r); [left; eauto|right; intros (o' & E & F); congruence].
    - destruct (N (fun o => c_mesh o = r)) as [Y|[Y|[o Y]]]; auto. destruct (Nat.eq_dec (c_mesh o) r); [left; eauto|right; intros (o' & E & F); congruence].
    - destruct (Nat.eq_dec j k); auto.
    - destruct (Nat.eq_dec j k); auto. }
  destruct D as [D|D]; [destruct (H1 D); apply C118_set; auto|apply C118_kept; auto].
Qed.

(** The option to refuse open curves only matters when a clipper is made or set. *)
Theorem C118_option : forall argsort p tol m c,
  mesh_clipper argsort p tol true m = Ok c <-> mesh_clipper argsort p tol false m = Ok c /\ lines c = [].
Proof. intros. apply clipper_option. Qed.

(** A call that makes or sets a clipper does as it is told; the other clippers stay as they are. *)
Theorem C118_told : forall argsort w c, snd (step argsort w c) = None ->
  match c with NewClipper _ _ _ _ | SetPlane _ _ | SetTol _ _ | AssertClosed _ _ =>
    exists k o', nth_error (w_clippers (fst (step argsort w c))) k = Some o' /\ told w c k o' /\
      forall j o, j <> k -> (nth_error (w_clippers (fst (step argsort w c))) j = Some o <-> nth_error (w_clippers w) j = Some o)
  | _ => w_clippers (fst (step argsort w c)) = w_clippers w end.
Proof.
  intros argsort w c N.
  assert (RF : forall o o' e, refresh argsort w o = (o', e) -> (c_mesh o', c_plane o', c_tol o', c_assert o') = (c_mesh o, c_plane o, c_tol o, c_assert o)).
  { intros o o' e E. unfold refresh in E. destruct (nth_error (w_planes w) (c_plane o)); [|injection E as <- <-; auto]. destruct (nth_error (w_meshes w) (c_mesh o)); [|injection E as <- <-; auto].
    destruct (update _ _ _ _ _ _). injection E as <- <-. auto. }
  destruct c as [n s|r op|m'|r m'|r q tol b|j q|j tol|j b]; cbn [step] in *; auto.
  - destruct (nth_error (w_planes w) r); auto.
  - destruct (nth_error (w_meshes w) r); auto.
  - destruct (refresh argsort w _) as [o' [e|]] eqn:E; [discriminate|]. exists (length (w_clippers w)), o'. cbn [fst with_clippers w_clippers].
    split; [rewrite nth_error_app2, Nat.sub_diag by lia; auto|]. split; [split; auto; apply RF in E; exact E|]. intros j o J.
    destruct (le_lt_dec (length (w_clippers w)) j) as [L|L]; [|rewrite nth_error_app1 by auto; tauto].
    replace (nth_error (w_clippers w) j) with (@None clip_object) by (symmetry; apply nth_error_None; auto).
    replace (nth_error (w_clippers w ++ [o']) j) with (@None clip_object) by (symmetry; apply nth_error_None; rewrite app_length; cbn; lia). tauto.
  - destruct (nth_error (w_clippers w) j) as [o|] eqn:J; [|discriminate]. destruct (nth_error (w_planes w) q); [|discriminate].
    destruct (refresh argsort w _) as [o' e] eqn:E. cbn [fst with_clippers w_clippers] in *. exists j, o'. assert (L := some_lt _ _ _ _ J).
    split; [apply put_same; auto|]. split; [split; auto; exists o; split; auto; apply RF in E; exact E|]. intros i x I. rewrite put_other by auto. tauto.
  - destruct (nth_error (w_clippers w) j) as [o|] eqn:J; [|discriminate].
    destruct (refresh argsort w _) as [o' e] eqn:E. cbn [fst with_clippers w_clippers] in *. exists j, o'. assert (L := some_lt _ _ _ _ J).
    split; [apply put_same; auto|]. split; [split; auto; exists o; split; auto; apply RF in E; exact E|]. intros i x I. rewrite put_other by auto. tauto.
  - destruct (nth_error (w_clippers w) j) as [o|] eqn:J; [|discriminate]. cbn [fst with_clippers w_clippers]. assert (L := some_lt _ _ _ _ J).
    exists j. eexists. split; [apply put_same; auto|]. split; [split; auto; exists o; split; auto|]. intros i x I. rewrite put_other by auto. tauto.
Qed.

(** A setter that fails: the new value is kept and the old data are gone. *)
Lemma update_failed : forall argsort q tol b m e o', snd (update argsort q tol b m empty) = Some e -> c_data o' = fst (update argsort q tol b m empty) -> failed argsort q tol b m e o'.
Proof.
  intros argsort q tol b m e o' E D. set (u := update argsort q tol b m empty) in *.
  destruct (mesh_clipper argsort q tol b m) as [c|e'] eqn:C.
  { unfold u in E. rewrite (update_ok _ _ _ _ _ _ _ C) in E. discriminate. }
  destruct (update_fails _ _ _ _ _ empty _ C) as [F1 F2]. fold u in F1, F2. rewrite E in F1. injection F1 as <-.
  split; [exact C|]. split; [unfold clipped_mesh; rewrite D, F2; reflexivity|]. split.
  - intros AB. apply empty_blank. rewrite D. unfold u, update. destruct (refused tol (distances q m)) eqn:RF; [reflexivity|].
    exfalso.
    assert (NA : ~ Forall (is_above q tol) (verts m)) by (intros H; apply refused_above in H; congruence).
    destruct AB as [H|H]; auto. assert (Y : refused tol (distances q m) = Some AllBelow) by (apply refused_below; auto). congruence.
  - intros c -> C'. assert (L : lines c <> []). { intros L. assert (Z := proj2 (clipper_option argsort q tol m c) (conj C' L)). congruence. }
    unfold mesh_clipper in C, C'. unfold lower_mesh, crown_mesh, upper_mesh, clipped_crown_mesh, closed_polygons, open_lines. rewrite D. unfold u, update.
    destruct (refused tol (distances q m)) eqn:RF; [discriminate|].
    destruct (partition_mesh q tol m) as [part|] eqn:PM; [|discriminate]. cbn [bind] in C, C'.
    destruct (clip_crown argsort q tol false (crown part)) as [[[cc cl] op]|] eqn:CC'; [|discriminate]. cbn [bind] in C'.
    destruct (add argsort (pt_mesh (lower part)) cc) as [x|] eqn:AD; [|discriminate]. cbn [bind] in C'. injection C' as <-. cbn [lines k_partition] in *.
    assert (CC : clip_crown argsort q tol true (crown part) = Raise RuntimeError).
    { unfold clip_crown in *. destruct (clip_faces _ _ _ _ _) as [st|]; cbn [bind] in *; [|discriminate].
      destruct (faces_array _) as [fs|]; cbn [bind] in *; [|discriminate].
      destruct (merge_duplicates_index _ _ _) as [[m' ids]|]; cbn [bind] in *; [|discriminate].
      destruct (renumber_dict ids (cs_direct st)) as [d|]; cbn [bind] in *; [|discriminate].
      destruct (renumber_dict ids (cs_inv st)) as [v|]; cbn [bind] in *; [|discriminate].
      destruct (curves (length d) v d) as [cl' op']. cbn [andb] in *. injection CC' as _ _ <-. destruct op'; [congruence|reflexivity]. }
    rewrite CC in C |- *. cbn [bind] in C. injection C as <-. repeat split; auto.
Qed.
Theorem C118_failure : forall argsort w k o p m q r e, holds w k o p m -> nth_error (w_planes w) r = Some q ->
  snd (step argsort w (SetPlane k r)) = Some e ->
  exists o', holds (fst (step argsort w (SetPlane k r))) k o' q m /\ c_plane o' = r /\ c_tol o' = c_tol o /\ failed argsort q (c_tol o) (c_assert o) m e o'.
Proof.
  intros argsort w k o p m q r e (K & P & M) Q E. cbn [step] in *. rewrite K, Q in *.
  rewrite (refresh_held argsort w (mkObject (c_mesh o) r (c_tol o) (c_assert o) empty) q m Q M) in *. cbn [c_mesh c_plane c_tol c_assert c_data fst snd] in *.
  eexists. split; [split; [cbn [with_clippers w_clippers]; apply put_same; eapply some_lt; eauto|split; auto]|].
  do 2 (split; [reflexivity|]). apply update_failed; auto.
Qed.
Theorem C118_failure_tol : forall argsort w k o p m tol e, holds w k o p m -> snd (step argsort w (SetTol k tol)) = Some e ->
  exists o', holds (fst (step argsort w (SetTol k tol))) k o' p m /\ c_plane o' = c_plane o /\ c_tol o' = tol /\ failed argsort p tol (c_assert o) m e o'.
Proof.
  intros argsort w k o p m tol e (K & P & M) E. cbn [step] in *. rewrite K in *.
  rewrite (refresh_held argsort w (mkObject (c_mesh o) (c_plane o) tol (c_assert o) empty) p m P M) in *. cbn [c_mesh c_plane c_tol c_assert c_data fst snd] in *.
  eexists. split; [split; [cbn [with_clippers w_clippers]; apply put_same; eapply some_lt; eauto|split; auto]|].
  do 2 (split; [reflexivity|]). apply update_failed; auto.
Qed.
(** When the constructor fails nothing changes. *)
Theorem C118_not_made : forall argsort w m p tol b e, snd (step argsort w (NewClipper m p tol b)) = Some e -> fst (step argsort w (NewClipper m p tol b)) = w.
Proof. intros argsort w m p tol b e. cbn [step]. destruct (refresh argsort w _) as [o [x|]]; [reflexivity|discriminate]. Qed.

(** Changing a plane or a mesh in place changes nothing that clippers show. *)
Theorem C118_in_place : forall argsort w r o m, w_clippers (fst (step argsort w (EditPlane r o))) = w_clippers w /\ w_clippers (fst (step argsort w (EditMesh r m))) = w_clippers w.
Proof. intros. cbn [step]. destruct (nth_error (w_planes w) r), (nth_error (w_meshes w) r); auto. Qed.

(** ** The default plane *)
Lemma default_is_water : plane_new (V3 0 0 1) 0 = sea.
Proof.
  unfold plane_new, sea. assert (N : normalize (V3 0 0 1) = V3 0 0 1).
  { unfold normalize, norm, dot. cbn [vx vy vz]. replace (0 * 0 + 0 * 0 + 1 * 1) with 1 by ring. rewrite sqrt_1. f_equal; field. }
  rewrite N. unfold orientation_wrt_z. cbn [vx vy vz]. replace (0 * 0 + 0 * 0) with 0 by ring. rewrite sqrt_0.
  destruct (Req_EM_T 0 0); [|lra]. destruct (Req_EM_T 1 1); [|lra]. f_equal. unfold rodrigues. replace (0 * 0 + 0 * 0) with 0 by ring. rewrite sqrt_0.
  destruct (Req_EM_T 0 0); [|lra]. unfold mid, madd, mscale. cbn. f_equal; ring.
Qed.
(** As long as nobody changes the default plane in place, the hydrostatics are those for the plane z = 0. *)
Theorem C118_hydrostatics : forall argsort cs m, (forall o, ~ In (EditPlane default_plane o) cs) ->
  hydro_clipper argsort (after argsort start cs) m = mesh_clipper argsort water vicinity_tol true m.
Proof.
  intros argsort cs m H. assert (G : forall cs w, (forall o, ~ In (EditPlane default_plane o) cs) -> nth_error (w_planes w) default_plane = Some sea -> nth_error (w_planes (after argsort w cs)) default_plane = Some sea).
  { clear. induction cs as [|c cs IH]; intros w H W; auto. cbn [after fold_left]. apply IH; [intros o I; apply (H o); right; auto|].
    assert (L := some_lt _ _ _ _ W). destruct c as [n s|r op|m'|r m'|r q tol b|j q|j tol|j b]; cbn [step].
    - cbn [w_planes fst]. rewrite nth_error_app1; auto.
    - destruct (nth_error (w_planes w) r) eqn:R; auto. cbn [w_planes fst]. rewrite put_other; [assumption|intros ->; apply (H op); left; auto|eapply some_lt; eassumption].
    - auto.
    - destruct (nth_error (w_meshes w) r); auto.
    - destruct (refresh argsort w _) as [o' [e|]]; auto.
    - destruct (nth_error (w_clippers w) j); auto. destruct (nth_error (w_planes w) q); auto. destruct (refresh argsort w _) as [o' e]; auto.
    - destruct (nth_error (w_clippers w) j); auto. destruct (refresh argsort w _) as [o' e]; auto.
    - destruct (nth_error (w_clippers w) j); auto. }
  unfold hydro_clipper, get. rewrite (G cs start H); [reflexivity|]. cbn. rewrite default_is_water. reflexivity.
Qed.

(** Two clippers made without a plane share one; raising the plane of the first by its setter [c] ... *)
Definition story : list call :=
  [NewMesh barge; NewMesh barge; NewClipper 0 None usual false; NewClipper 1 None usual false; EditPlane default_plane (PSetC 10)].
Lemma raised_refuses : forall argsort b, mesh_clipper argsort (set_c sea 10) usual b barge = Raise RuntimeError.
Proof.
  intros argsort b. apply clipper_refused. right. unfold barge. cbn [verts].
  repeat (constructor; [unfold is_below, height, set_c, sea, usual, dot; cbn [p_normal p_scalar vx vy vz]; lra|]). constructor.
Qed.
Lemma new_step : forall argsort w r q m tol b c, nth_error (w_planes w) default_plane = Some q -> nth_error (w_meshes w) r = Some m ->
  mesh_clipper argsort q tol b m = Ok c ->
  step argsort w (NewClipper r None tol b) = (with_clippers w (w_clippers w ++ [mkObject r default_plane tol b (data_of q m c)]), None).
Proof.
  intros argsort w r q m tol b c Q M C. cbn [step]. rewrite (refresh_held argsort w (mkObject r default_plane tol b empty) q m Q M).
  cbn [c_mesh c_plane c_tol c_assert c_data]. rewrite (update_ok _ _ _ _ _ _ _ C). reflexivity.
Qed.
Lemma story_start : forall argsort, after argsort start (firstn 2 story) = mkWorld [sea] [barge; barge] [].
Proof. intros. unfold story, after. cbn [firstn fold_left step fst]. unfold start. rewrite default_is_water. reflexivity. Qed.
Lemma story_world : forall argsort, sorting argsort -> exists c, mesh_clipper argsort sea usual false barge = Ok c /\
  after argsort start (firstn 3 story) = mkWorld [sea] [barge; barge] [mkObject 0 default_plane usual false (data_of sea barge c)] /\
  after argsort start story = mkWorld [set_c sea 10] [barge; barge]
    [mkObject 0 default_plane usual false (data_of sea barge c); mkObject 1 default_plane usual false (data_of sea barge c)].
Proof.
  intros argsort SA. destruct (barge_clips argsort SA) as [c C]. exists c. split; auto.
  assert (W3 : after argsort start (firstn 3 story) = mkWorld [sea] [barge; barge] [mkObject 0 default_plane usual false (data_of sea barge c)]).
  { change (firstn 3 story) with (firstn 2 story ++ [NewClipper 0 None usual false]). unfold after. rewrite fold_left_app. fold (after argsort start (firstn 2 story)).
    rewrite story_start. cbn [fold_left]. rewrite (new_step argsort (mkWorld [sea] [barge; barge] []) 0%nat sea barge usual false c eq_refl eq_refl C). reflexivity. }
  split; auto. change story with (firstn 3 story ++ [NewClipper 1 None usual false; EditPlane default_plane (PSetC 10)]). unfold after. rewrite fold_left_app.
  fold (after argsort start (firstn 3 story)). rewrite W3. cbn [fold_left]. rewrite (new_step argsort (mkWorld [sea] [barge; barge] [mkObject 0 default_plane usual false (data_of sea barge c)]) 1%nat sea barge usual false c eq_refl eq_refl C). reflexivity.
Qed.
(** ... leaves the data of the second out of date; assigning to the second the tolerance that it has already then fails and loses its
    data; and hydrostatics, which use the same default plane, refuse a body that floats. *)
Theorem C118_default_refuted : forall argsort, sorting argsort ->
  let w := after argsort start story in let w' := fst (step argsort w (SetTol 1 usual)) in
  current argsort (after argsort start (firstn 4 story)) 1 /\ ~ current argsort w 0 /\ ~ current argsort w 1 /\
  (exists o, nth_error (w_clippers w) 1 = Some o /\ c_tol o = usual) /\
  snd (step argsort w (SetTol 1 usual)) = Some RuntimeError /\ (exists o, nth_error (w_clippers w') 1 = Some o /\ blank o) /\
  (exists c, mesh_clipper argsort water vicinity_tol true barge = Ok c) /\ hydro_clipper argsort w barge = Raise RuntimeError.
Proof.
  intros argsort SA w w'. destruct (story_world argsort SA) as (c & C & W3 & W). fold w in W.
  assert (NC : forall k, ~ current argsort w k).
  { intros k (o & p & m & c' & (K & P & M) & E & _). rewrite W in K, P, M. cbn [w_clippers w_planes w_meshes] in K, P, M.
    destruct k as [|[|k]]; cbn in K; try (injection K as <-); try (destruct k; discriminate); cbn [c_plane c_mesh c_tol default_plane nth_error] in *; injection P as <-; injection M as <-;
      rewrite raised_refuses in E; discriminate. }
  split; [|split; [apply NC|split; [apply NC|split; [|split; [|split; [|split]]]]]].
  - change (firstn 4 story) with (firstn 3 story ++ [NewClipper 1 None usual false]). unfold after. rewrite fold_left_app. cbn [fold_left]. fold (after argsort start (firstn 3 story)).
    rewrite W3. apply C118_set; auto; [reflexivity|]. rewrite (new_step argsort (mkWorld [sea] [barge; barge] [mkObject 0 default_plane usual false (data_of sea barge c)]) 1%nat sea barge usual false c eq_refl eq_refl C). reflexivity.
  - rewrite W. eexists. split; reflexivity.
  - rewrite W. cbn [step w_clippers nth_error]. unfold refresh. cbn [c_mesh c_plane c_tol c_assert c_data default_plane nth_error w_planes w_meshes].
    destruct (update_fails _ _ _ _ _ empty _ (raised_refuses argsort false)) as [F _]. destruct (update argsort (set_c sea 10) usual false barge empty). exact F.
  - unfold w'. rewrite W. cbn [step w_clippers nth_error]. unfold refresh. cbn [c_mesh c_plane c_tol c_assert c_data default_plane nth_error w_planes w_meshes].
    destruct (update argsort (set_c sea 10) usual false barge empty) as [i e] eqn:U. cbn. eexists. split; [reflexivity|]. apply empty_blank. cbn [c_data].
    unfold update in U. assert (R : refused usual (distances (set_c sea 10) barge) <> None).
    { pose proof (raised_refuses argsort false) as Z. unfold mesh_clipper in Z. intros R. unfold refused in R.
      destruct (forallb (above usual) _); [discriminate|]. destruct (forallb (below usual) (distances (set_c sea 10) barge)) eqn:B; [discriminate|].
      assert (B' : forallb (below usual) (distances (set_c sea 10) barge) = true); [|congruence].
      apply forallb_forall. intros d I. unfold distances, barge in I. cbn [verts map In] in I.
      assert (D : d < - usual). { unfold plane_dist, set_c, sea, dot, usual in *. cbn [p_normal p_scalar vx vy vz] in I. repeat (destruct I as [<-|I]; [lra|]). destruct I. }
      unfold below, Rltb. destruct (Rlt_dec d (- usual)); auto. }
    destruct (refused usual (distances (set_c sea 10) barge)); [|congruence]. injection U as <- _. reflexivity.
  - destruct (barge_polygon argsort SA) as (k & E & _). exists k. exact E.
  - unfold hydro_clipper. rewrite W. unfold get. cbn [w_planes default_plane nth_error bind]. apply raised_refuses.
Qed.

Print Assumptions C118_set. Print Assumptions C118_succeeds. Print Assumptions C118_kept. Print Assumptions C118_history. Print Assumptions C118_option.
Print Assumptions C118_told. Print Assumptions C118_failure. Print Assumptions C118_failure_tol. Print Assumptions C118_not_made. Print Assumptions C118_in_place. Print Assumptions C118_hydrostatics. Print Assumptions C118_default_refuted.
