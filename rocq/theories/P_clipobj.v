(** Proofs about clipper objects. *)
From Coq Require Import Reals List Arith Bool Lra Lia.
From Verif Require Import M_base M_merge M_plane M_mesh M_connectivity M_clipper M_hydro M_clipobj S_merge S_mesh S_clipper S_clipobj P_base P_merge P_mesh P_connectivity P_clip_mesh P_curves.
Import ListNotations.
Local Open Scope R_scope.

(** ** The curves are made of vertices of the clipped crown *)
Section Range.
  Variable P : nat -> Prop.
  Definition both (d : list (nat * nat)) : Prop := Forall (fun e => P (fst e) /\ P (snd e)) d.
  Lemma both_del : forall d k, both d -> both (od_del d k).
  Proof. intros d k H. unfold both, od_del in *. rewrite Forall_forall in *. intros e I. apply filter_In in I as [I _]. auto. Qed.
  Lemma both_get : forall d k v, both d -> od_get d k = Some v -> P k /\ P v.
  Proof. intros d k v H E. apply od_get_in in E. unfold both in H. rewrite Forall_forall in H. apply (H (k, v) E). Qed.
  Lemma chain_range : forall n d v, both d -> Forall P (fst (chain n d v)) /\ both (snd (chain n d v)).
  Proof.
    induction n as [|n IH]; intros d v H; [split; [constructor|auto]|]. cbn. destruct (od_get d v) as [u|] eqn:E; [|split; [constructor|auto]].
    specialize (IH (od_del d v) u (both_del d v H)). destruct (chain n (od_del d v) u) as [l d']. cbn [fst snd] in *. destruct IH as [A B].
    split; auto. constructor; auto. exact (proj2 (both_get d v u H E)).
  Qed.
  Lemma queue_range : forall n inv d v, both d -> Forall P (fst (queue n inv d v)) /\ both (snd (queue n inv d v)).
  Proof.
    induction n as [|n IH]; intros inv d v H; [split; [constructor|auto]|]. cbn. destruct (od_get inv v) as [w|]; [|split; [constructor|auto]].
    destruct (od_get d w) as [u|] eqn:E; [|split; [constructor|auto]].
    specialize (IH inv (od_del d w) w (both_del d w H)). destruct (queue n inv (od_del d w) w) as [l d']. cbn [fst snd] in *. destruct IH as [A B].
    split; auto. apply Forall_app. split; auto. constructor; [|constructor]. exact (proj1 (both_get d w u H E)).
  Qed.
  Lemma curves_range : forall n inv d, both d -> Forall (Forall P) (fst (curves n inv d)) /\ Forall (Forall P) (snd (curves n inv d)).
  Proof.
    induction n as [|n IH]; intros inv d H; [split; constructor|]. cbn [curves]. destruct (rev d) as [|[o t] r] eqn:ER; [split; constructor|].
    assert (HR : both ((o, t) :: r)). { rewrite <- ER. unfold both in *. rewrite Forall_forall in *. intros e I. apply H. apply in_rev. auto. }
    inversion HR as [|? ? [HO HT] HR']; subst. cbn [fst snd] in HO, HT.
    assert (HRR : both (rev r)). { unfold both in *. rewrite Forall_forall in *. intros e I. apply HR'. apply in_rev. auto. }
    destruct (chain_range (length d) (rev r) t HRR) as [CL CD]. destruct (chain (length d) (rev r) t) as [l d']. cbn [fst snd] in CL, CD.
    destruct (o =? last (o :: t :: l) 0)%nat.
    - specialize (IH inv d' CD). destruct (curves n inv d') as [c op]. cbn [fst snd] in *. destruct IH. split; auto.
    - destruct (queue_range (length d) inv d' o CD) as [QL QD]. destruct (queue (length d) inv d' o) as [q d'']. cbn [fst snd] in QL, QD.
      specialize (IH inv d'' QD). destruct (curves n inv d'') as [c op]. cbn [fst snd] in *. destruct IH. split; auto. constructor; auto.
      apply Forall_app. split; auto.
  Qed.
End Range.
Lemma renumber_both : forall P ids d d', Forall P ids -> renumber_dict ids d = Ok d' -> both P d'.
Proof.
  intros P ids d d' F E. unfold renumber_dict in E. apply bind_ok in E as (l & EL & E). injection E as <-.
  assert (L : both P l).
  { apply mapM_Forall2 in EL. unfold both. apply Forall_forall. intros x I. apply In_nth_error in I as [k K].
    destruct (Forall2_nth_error_r _ _ _ _ _ EL k x K) as (e & _ & H). apply bind_ok in H as (a & HA & H). apply bind_ok in H as (b & HB & H). injection H as <-.
    rewrite Forall_forall in F. cbn [fst snd]. apply get_inv in HA, HB. split; apply F; eapply nth_error_In; eauto. }
  clear EL. assert (G : forall l d, both P l -> both P d -> both P (fold_left (fun d e => od_set d (fst e) (snd e)) l d)).
  { clear. induction l as [|[a b] l IH]; intros d H D; auto. inversion H as [|? ? AB H']; subst. cbn [fold_left]. apply IH; auto.
    unfold both. apply Forall_forall. intros e I. apply od_set_in in I as [->|I]; auto. unfold both in D. rewrite Forall_forall in D. auto. }
  apply G; auto. constructor.
Qed.
Lemma clip_crown_range : forall argsort p tol b c m closed op, sorting argsort -> clip_crown argsort p tol b c = Ok (m, closed, op) ->
  Forall (Forall (fun i => (i < length (verts m))%nat)) closed /\ Forall (Forall (fun i => (i < length (verts m))%nat)) op.
Proof.
  intros argsort p tol b c m closed op SA E. unfold clip_crown in E.
  apply bind_ok in E as (st & _ & E). apply bind_ok in E as (fs & _ & E). apply bind_ok in E as ([m' ids] & EM & E).
  apply bind_ok in E as (direct & ED & E). apply bind_ok in E as (inv & _ & E). destruct (curves (length direct) inv direct) as [cl o] eqn:EC.
  destruct (b && negb (length o =? 0)%nat); [discriminate|]. injection E as <- <- <-.
  assert (I : Forall (fun i => (i < length (verts m'))%nat) ids).
  { unfold merge_duplicates_index in EM. cbn [verts faces] in EM. apply bind_ok in EM as ([u ids'] & EU & EM). apply bind_ok in EM as (fs' & _ & EM). injection EM as <- <-.
    cbn [verts]. assert (NE : verts (pt_mesh c) ++ cs_ints st <> []). { intros Z. rewrite Z in EU. rewrite merge_empty in EU. discriminate. }
    destruct (merge_merged argsort SA crown_atol ltac:(unfold crown_atol; lra) vec coords _ NE) as (u' & ids & EU' & MM). rewrite EU in EU'. injection EU' as <- <-.
    apply Forall_forall. intros j IJ. apply In_nth_error in IJ as [i IJ].
    assert (Li : (i < length ids')%nat) by (apply nth_error_Some; congruence). rewrite (merged_ids _ _ _ _ _ MM) in Li.
    destruct (nth_error_lt _ _ _ Li) as [r Hr]. destruct (merged_close _ _ _ _ _ MM i r Hr) as (k & s & K & U & _).
    assert (k = j) by congruence. subst. apply nth_error_Some. congruence. }
  pose proof (curves_range _ (length direct) inv direct (renumber_both _ ids _ _ I ED)) as G. rewrite EC in G. exact G.
Qed.

(** ** The object and the clipping *)
Section Objects.
  Variable argsort : list R -> list nat.
  Hypothesis SA : sorting argsort.

  Definition data_of (p : plane) (m : mesh) (c : clipper) : internals :=
    mkInternals (Some (distances p m)) (Some (k_partition c)) (Some (clipped_crown c, polygons c, lines c)) (Some (clipped c)).
  Lemma update_ok : forall p tol b m i c, mesh_clipper argsort p tol b m = Ok c -> update argsort p tol b m i = (data_of p m c, None).
  Proof.
    intros p tol b m i c E. unfold mesh_clipper in E. unfold update. destruct (refused tol (distances p m)); [discriminate|].
    destruct (partition_mesh p tol m) as [part|]; [|discriminate]. cbn [bind] in E.
    destruct (clip_crown argsort p tol b (crown part)) as [[[cc cl] op]|]; [|discriminate]. cbn [bind] in E. cbn [fst].
    destruct (add argsort (pt_mesh (lower part)) cc) as [r|]; [|discriminate]. cbn [bind] in E. injection E as <-. reflexivity.
  Qed.
  Lemma update_fails : forall p tol b m i e, mesh_clipper argsort p tol b m = Raise e -> snd (update argsort p tol b m i) = Some e /\ i_clipped (fst (update argsort p tol b m i)) = i_clipped i.
  Proof.
    intros p tol b m i e E. unfold mesh_clipper in E. unfold update. destruct (refused tol (distances p m)); [injection E as <-; auto|].
    destruct (partition_mesh p tol m) as [part|]; [|injection E as <-; auto]. cbn [bind] in E.
    destruct (clip_crown argsort p tol b (crown part)) as [[[cc cl] op]|]; [|injection E as <-; auto]. cbn [bind] in E. cbn [fst].
    destruct (add argsort (pt_mesh (lower part)) cc) as [r|]; [discriminate|injection E as <-; auto].
  Qed.
  (** The option only adds an error. *)
  Lemma clipper_option : forall p tol m c, mesh_clipper argsort p tol true m = Ok c <-> mesh_clipper argsort p tol false m = Ok c /\ lines c = [].
  Proof.
    intros p tol m c. unfold mesh_clipper. destruct (refused tol (distances p m)); [split; [|intros [? _]]; discriminate|].
    destruct (partition_mesh p tol m) as [part|]; cbn [bind]; [|split; [|intros [? _]]; discriminate].
    unfold clip_crown. destruct (clip_faces _ _ _ _ _) as [st|]; cbn [bind]; [|split; [|intros [? _]]; discriminate].
    destruct (faces_array _) as [fs|]; cbn [bind]; [|split; [|intros [? _]]; discriminate].
    destruct (merge_duplicates_index _ _ _) as [[m' ids]|]; cbn [bind]; [|split; [|intros [? _]]; discriminate].
    destruct (renumber_dict ids (cs_direct st)) as [d|]; cbn [bind]; [|split; [|intros [? _]]; discriminate].
    destruct (renumber_dict ids (cs_inv st)) as [v|]; cbn [bind]; [|split; [|intros [? _]]; discriminate].
    destruct (curves (length d) v d) as [cl op]. cbn [andb]. destruct op as [|x op]; cbn [length Nat.eqb negb bind].
    - destruct (add _ _ _) as [r|]; cbn [bind]; [|split; [|intros [? _]]; discriminate]. split; [|intros [H _]; auto]. intros H. split; auto. injection H as <-. reflexivity.
    - split; [discriminate|]. intros [H L]. destruct (add _ _ _) as [r|]; cbn [bind] in H; [|discriminate]. injection H as <-. discriminate.
  Qed.
  Lemma any_option : forall p tol b m c, mesh_clipper argsort p tol b m = Ok c -> mesh_clipper argsort p tol false m = Ok c.
  Proof. intros p tol [] m c H; auto. apply clipper_option in H. tauto. Qed.

  Lemma in_range_mapM : forall A (l : list A) (b : list nat), Forall (fun i => (i < length l)%nat) b ->
    exists xs, mapM (get l) b = Ok xs /\ Forall2 (fun i x => nth_error l i = Some x) b xs.
  Proof.
    intros A l b F. induction F as [|i b I F (xs & E & H)]; [exists []; split; auto; constructor|].
    destruct (nth_error_lt _ _ _ I) as [x X]. exists (x :: xs). split; [|constructor; auto].
    cbn [mapM]. rewrite E. unfold get. rewrite X. reflexivity.
  Qed.
  Lemma clipper_range : forall p tol b m c, mesh_clipper argsort p tol b m = Ok c ->
    Forall (Forall (fun i => (i < length (verts (clipped_crown c)))%nat)) (polygons c) /\ Forall (Forall (fun i => (i < length (verts (clipped_crown c)))%nat)) (lines c).
  Proof.
    intros p tol b m c E. unfold mesh_clipper in E. destruct (refused tol (distances p m)); [discriminate|].
    destruct (partition_mesh p tol m) as [part|]; [|discriminate]. cbn [bind] in E.
    destruct (clip_crown argsort p tol b (crown part)) as [[[cc cl] op]|] eqn:EC; [|discriminate]. cbn [bind] in E.
    destruct (add argsort (pt_mesh (lower part)) cc) as [r|]; [|discriminate]. cbn [bind] in E. injection E as <-. cbn [polygons lines clipped_crown].
    eapply clip_crown_range; eauto.
  Qed.
  Lemma data_exposes : forall p tol b m c o, mesh_clipper argsort p tol b m = Ok c -> c_data o = data_of p m c -> exposes o c.
  Proof.
    intros p tol b m c o E D. destruct (clipper_range _ _ _ _ _ E) as [RP RL].
    assert (X : forall l, Forall (Forall (fun i => (i < length (verts (clipped_crown c)))%nat)) l ->
      exists xs, curves_vertices o l = Ok xs /\ Forall2 (Forall2 (fun i x => nth_error (verts (clipped_crown c)) i = Some x)) l xs).
    { intros l F. unfold curves_vertices, clipped_crown_mesh. rewrite D. cbn [data_of i_crown key bind fst].
      induction F as [|b' l B F (xs & EX & H)]; [exists []; split; auto; constructor|].
      destruct (in_range_mapM _ _ _ B) as (x & EB & HB). exists (x :: xs). split; [|constructor; auto]. cbn [mapM]. rewrite EB, EX. reflexivity. }
    constructor; unfold closed_polygons_vertices, open_lines_vertices, nb_closed_polygons, nb_open_lines, lower_mesh, crown_mesh, upper_mesh, clipped_crown_mesh, clipped_mesh, closed_polygons, open_lines;
      rewrite D; try reflexivity; cbn [data_of i_crown key bind fst snd]; apply X; auto.
  Qed.
  Lemma empty_blank : forall o, c_data o = empty -> blank o.
  Proof. intros o D. constructor; unfold closed_polygons_vertices, open_lines_vertices, nb_closed_polygons, nb_open_lines, lower_mesh, crown_mesh, upper_mesh, clipped_crown_mesh, clipped_mesh, closed_polygons, open_lines; rewrite D; reflexivity. Qed.

  (** ** Stores *)
  Lemma put_length : forall A (l : list A) i x, (i < length l)%nat -> length (put l i x) = length l.
  Proof. intros A l i x H. unfold put. rewrite app_length, firstn_length. cbn [length]. rewrite skipn_length. lia. Qed.
  Lemma put_same : forall A (l : list A) i x, (i < length l)%nat -> nth_error (put l i x) i = Some x.
  Proof. intros A l i x H. unfold put. rewrite nth_error_app2; rewrite firstn_length; [|lia]. replace (i - Nat.min i (length l))%nat with 0%nat by lia. reflexivity. Qed.
  Lemma put_other : forall A (l : list A) i j x, i <> j -> (i < length l)%nat -> nth_error (put l i x) j = nth_error l j.
  Proof.
    intros A l. induction l as [|y l IH]; intros i j x N L; [cbn in L; lia|]. destruct i as [|i], j as [|j]; try congruence; try reflexivity.
    unfold put in *. cbn [firstn skipn app nth_error]. apply (IH i j x); [congruence|cbn in L; lia].
  Qed.
  Lemma some_lt : forall A (l : list A) i x, nth_error l i = Some x -> (i < length l)%nat.
  Proof. intros A l i x H. apply nth_error_Some. congruence. Qed.

  Lemma refresh_held : forall w o p m, nth_error (w_planes w) (c_plane o) = Some p -> nth_error (w_meshes w) (c_mesh o) = Some m ->
    refresh argsort w o = (mkObject (c_mesh o) (c_plane o) (c_tol o) (c_assert o) (fst (update argsort p (c_tol o) (c_assert o) m (c_data o))),
      snd (update argsort p (c_tol o) (c_assert o) m (c_data o))).
  Proof. intros w o p m P M. unfold refresh. rewrite P, M. destruct (update _ _ _ _ _ _). reflexivity. Qed.
  (** After a successful refresh the object is up to date. *)
  Lemma refresh_ok : forall w o o', refresh argsort w o = (o', None) ->
    c_mesh o' = c_mesh o /\ c_plane o' = c_plane o /\ c_tol o' = c_tol o /\ c_assert o' = c_assert o /\
    exists p m c, nth_error (w_planes w) (c_plane o) = Some p /\ nth_error (w_meshes w) (c_mesh o) = Some m /\
      mesh_clipper argsort p (c_tol o) (c_assert o) m = Ok c /\ exposes o' c.
  Proof.
    intros w o o' E. unfold refresh in E. destruct (nth_error (w_planes w) (c_plane o)) as [p|] eqn:P; [|discriminate].
    destruct (nth_error (w_meshes w) (c_mesh o)) as [m|] eqn:M; [|discriminate].
    destruct (mesh_clipper argsort p (c_tol o) (c_assert o) m) as [c|e] eqn:C.
    - rewrite (update_ok _ _ _ _ _ _ C) in E. injection E as <-. cbn [c_mesh c_plane c_tol c_assert].
      do 4 (split; [reflexivity|]). exists p, m, c. do 3 (split; [auto|]). eapply data_exposes; eauto.
    - destruct (update_fails _ _ _ _ (c_data o) _ C) as [F _]. destruct (update argsort p (c_tol o) (c_assert o) m (c_data o)) as [i x]. cbn in F. subst x. discriminate.
  Qed.
End Objects.
