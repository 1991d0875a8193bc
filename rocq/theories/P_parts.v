(** Proofs about the partition of a mesh by a plane. *)
From Coq Require Import Reals List Arith Bool Lia Lra Psatz Sorting.Sorted.
From Verif Require Import M_base P_base M_merge P_merge M_plane M_mesh S_mesh P_mesh S_geometry S_plane P_plane
  M_connectivity M_clipper S_clipper P_hull P_cut P_clipper P_crown.
Import ListNotations.
Open Scope R_scope.

Lemma above_iff : forall p tol x, above tol (plane_dist p x) = true <-> is_above p tol x.
Proof. intros. unfold above, is_above. rewrite height_dist. unfold Rltb. destruct (Rlt_dec _ _); split; auto; discriminate || contradiction. Qed.
Lemma below_iff : forall p tol x, below tol (plane_dist p x) = true <-> is_below p tol x.
Proof. intros. unfold below, is_below. rewrite height_dist. unfold Rltb. destruct (Rlt_dec _ _); split; auto; discriminate || contradiction. Qed.

Lemma refused_above : forall p tol m, refused tol (distances p m) = Some AllAbove <-> Forall (is_above p tol) (verts m).
Proof.
  intros. unfold refused, distances. destruct (forallb (above tol) _) eqn:E.
  - split; auto. intros _. apply Forall_forall. intros x X. rewrite forallb_forall in E. apply above_iff, E, in_map. auto.
  - split; [destruct (forallb (below tol) _); discriminate|]. intros F. exfalso. rewrite <- Bool.not_true_iff_false in E. apply E.
    apply forallb_forall. intros d D. apply in_map_iff in D as (x & <- & X). rewrite Forall_forall in F. apply above_iff; auto.
Qed.
Lemma refused_below : forall p tol m, refused tol (distances p m) = Some AllBelow <->
  ~ Forall (is_above p tol) (verts m) /\ Forall (is_below p tol) (verts m).
Proof.
  intros. rewrite <- refused_above. unfold refused, distances. destruct (forallb (above tol) _) eqn:E.
  - split; [discriminate|tauto].
  - destruct (forallb (below tol) _) eqn:E'.
    + split; auto. intros _. split; [discriminate|]. apply Forall_forall. intros x X. rewrite forallb_forall in E'. apply below_iff, E', in_map. auto.
    + split; [discriminate|]. intros [_ F]. exfalso. rewrite <- Bool.not_true_iff_false in E'. apply E'.
      apply forallb_forall. intros d D. apply in_map_iff in D as (x & <- & X). rewrite Forall_forall in F. apply below_iff; auto.
Qed.

Definition four (mask : R -> bool) (p : plane) (vs : list vec) (f : face) : bool :=
  forallb (fun i => mask (plane_dist p (point vs i))) (entries f).
Lemma count_ok : forall mask p m f, valid_face (length (verts m)) f ->
  exists n, count_corners mask (distances p m) f = Ok n /\ (n =? 4)%nat = four mask p (verts m) f.
Proof.
  intros mask p m f (H0 & H1 & H2 & H3). unfold count_corners, distances.
  assert (G : forall i, (i < length (verts m))%nat -> get (map (plane_dist p) (verts m)) i = Ok (plane_dist p (point (verts m) i))).
  { intros i I. apply get_some. rewrite nth_error_map, nth_point; auto. }
  cbn [entries mapM bind]. rewrite !G by auto. cbn [bind]. eexists. split; [reflexivity|].
  unfold four. cbn [entries forallb filter]. destruct (mask _), (mask _), (mask _), (mask _); reflexivity.
Qed.
Lemma counts_ok : forall mask p m, valid m -> exists ns, mapM (count_corners mask (distances p m)) (faces m) = Ok ns /\
  map (fun n => n =? 4)%nat ns = map (four mask p (verts m)) (faces m).
Proof.
  intros mask p m V. unfold valid in V. induction (faces m) as [|f fs IH].
  - exists []. auto.
  - inversion V; subst. destruct IH as (ns & E & M); auto. destruct (count_ok mask p m f) as (n & EN & B); auto.
    exists (n :: ns). simpl. rewrite EN. cbn [bind]. rewrite E. cbn [bind]. rewrite M, B. auto.
Qed.

Definition upper_face p tol vs := four (above tol) p vs.
Definition lower_face p tol vs := four (below tol) p vs.
Definition crown_face p tol vs f := negb (upper_face p tol vs f) && negb (lower_face p tol vs f).

Lemma partition_ids_ok : forall p tol m, valid m -> partition_ids tol (distances p m) (faces m) =
  Ok (where_ (upper_face p tol (verts m)) (faces m), where_ (crown_face p tol (verts m)) (faces m), where_ (lower_face p tol (verts m)) (faces m)).
Proof.
  intros p tol m V. unfold partition_ids.
  destruct (counts_ok (above tol) p m V) as (na & EA & A). destruct (counts_ok (below tol) p m V) as (nb & EB & B).
  rewrite EA. cbn [bind]. rewrite EB. cbn [bind]. rewrite A, B.
  assert (C : map (fun ab : bool * bool => negb (fst ab) && negb (snd ab))
     (combine (map (four (above tol) p (verts m)) (faces m)) (map (four (below tol) p (verts m)) (faces m))) =
     map (crown_face p tol (verts m)) (faces m)).
  { clear. induction (faces m); simpl; auto. rewrite IHl. reflexivity. }
  rewrite C, !where_map. reflexivity.
Qed.

(** A part of the mesh *)
Record part_of (p : plane) (m : mesh) (ids : list nat) (q : part) : Prop := {
  po_restricts : restricts m ids (pt_mesh q) (pt_ids q);
  po_valid : valid (pt_mesh q);
  po_dist : pt_dist q = map (plane_dist p) (verts (pt_mesh q))
}.
Lemma generate_ok : forall p m ids, valid m -> Forall (fun i => (i < length (faces m))%nat) ids ->
  exists q, generate_mesh m (distances p m) ids = Ok q /\ part_of p m ids q.
Proof.
  intros p m ids V F. destruct (extract_restricts m ids V F) as (m' & id_v & E & RS). unfold generate_mesh. rewrite E. cbn [bind].
  assert (D : mapM (get (distances p m)) id_v = Ok (map (plane_dist p) (verts m'))).
  { destruct (restricts_vertices _ _ _ _ RS) as [L VV].
    destruct (mapM_ok _ _ (get (distances p m)) id_v) as (ds & ED & FD).
    - intros i I. apply In_nth_error in I as [k K]. assert (B : (k < length (verts m'))%nat) by (rewrite L; eapply nth_error_bound; eauto).
      destruct (nth_error_lt _ _ _ B) as [v HV]. rewrite (VV k i K) in HV. exists (plane_dist p v). apply get_some.
      unfold distances. rewrite nth_error_map, HV. auto.
    - rewrite ED. f_equal. apply nth_error_ext. intros k. rewrite nth_error_map.
      destruct (nth_error id_v k) as [i|] eqn:K.
      + destruct (Forall2_nth_error _ _ _ _ _ FD k i K) as (d & HD & G). apply get_inv in G. rewrite HD, (VV k i K).
        unfold distances in G. rewrite nth_error_map in G. destruct (nth_error (verts m) i); simpl in *; congruence.
      + assert (nth_error (verts m') k = None) as -> by (apply nth_error_None; apply nth_error_None in K; lia).
        apply nth_error_None. rewrite <- (Forall2_len _ _ _ _ _ FD). apply nth_error_None. auto. }
  rewrite D. cbn [bind]. eexists. split; [reflexivity|]. split; cbn [pt_mesh pt_ids pt_dist]; auto. eapply restricts_valid; eauto.
Qed.

Lemma where_bound : forall X (f : X -> bool) l, Forall (fun i => (i < length l)%nat) (where_ f l).
Proof. intros. apply Forall_forall. intros i I. apply in_where in I as (a & E & _). eapply nth_error_bound; eauto. Qed.

Lemma partition_ok : forall p tol m, valid m -> exists P, partition_mesh p tol m = Ok P /\
  above_ids P = where_ (upper_face p tol (verts m)) (faces m) /\
  crown_ids P = where_ (crown_face p tol (verts m)) (faces m) /\
  below_ids P = where_ (lower_face p tol (verts m)) (faces m) /\
  part_of p m (above_ids P) (upper P) /\ part_of p m (crown_ids P) (crown P) /\ part_of p m (below_ids P) (lower P).
Proof.
  intros p tol m V. unfold partition_mesh. cbn zeta. rewrite partition_ids_ok by auto. cbn [bind].
  destruct (generate_ok p m (where_ (upper_face p tol (verts m)) (faces m))) as (u & EU & PU); auto; [apply where_bound|].
  destruct (generate_ok p m (where_ (crown_face p tol (verts m)) (faces m))) as (c & EC & PC); auto; [apply where_bound|].
  destruct (generate_ok p m (where_ (lower_face p tol (verts m)) (faces m))) as (l & EL & PL); auto; [apply where_bound|].
  rewrite EU. cbn [bind]. rewrite EC. cbn [bind]. rewrite EL. cbn [bind]. eexists. split; [reflexivity|]. cbn. repeat (split; [auto|]). auto.
Qed.

(** Corners of a face in a part *)
Lemma part_face : forall m ids m' id_v k id f, restricts m ids m' id_v -> valid m -> nth_error ids k = Some id ->
  nth_error (faces m) id = Some f -> exists f', nth_error (faces m') k = Some f' /\ outline (verts m') f' = outline (verts m) f /\
    (f0 f' = f3 f' <-> f0 f = f3 f) /\ forall ps, corners (verts m') f' ps <-> corners (verts m) f ps.
Proof.
  intros m ids m' id_v k id f RS V K Hf. destruct (restricts_entries _ _ _ _ RS k id f K Hf) as (f' & Hf' & E0 & E1 & E2 & E3).
  destruct (restricts_vertices _ _ _ _ RS) as [L VV]. exists f'. split; auto.
  assert (PT : forall i j, nth_error id_v i = Some j -> point (verts m') i = point (verts m) j).
  { intros i j H. pose proof (VV i j H) as E. unfold point.
    assert (B : (i < length (verts m'))%nat) by (rewrite L; eapply nth_error_bound; eauto).
    destruct (nth_error_lt _ _ _ B) as [v HV]. rewrite (nth_error_nth _ _ _ HV). rewrite HV in E. symmetry in E. rewrite (nth_error_nth _ _ _ E). auto. }
  assert (Q : f0 f' = f3 f' <-> f0 f = f3 f).
  { split; intros EQ.
    - rewrite EQ in E0. congruence.
    - rewrite EQ in E0. pose proof (sorted_NoDup _ (restricts_sorted _ _ _ _ RS)) as ND.
      apply (proj1 (NoDup_nth_error id_v) ND); [eapply nth_error_bound; eauto|congruence]. }
  split; [|split; auto].
  - unfold outline. rewrite (PT _ _ E0), (PT _ _ E1), (PT _ _ E2), (PT _ _ E3).
    destruct (Nat.eq_dec (f0 f') (f3 f')), (Nat.eq_dec (f0 f) (f3 f)); auto; tauto.
  - intros ps. unfold corners. rewrite <- (VV _ _ E0), <- (VV _ _ E1), <- (VV _ _ E2), <- (VV _ _ E3). reflexivity.
Qed.
