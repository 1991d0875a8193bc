(** Properties C27-C35: connectivity, boundaries, normal healing (meshmagick/mesh.py). *)
From Coq Require Import Reals List Arith Bool Lia Lra Psatz ZArith Classical_Prop.
From Verif Require Import M_base P_base M_merge M_plane M_mesh S_mesh P_mesh M_geometry S_geometry P_geometry P_volume
  M_connectivity S_connectivity P_connectivity P_heal P_healed P_checks T_mesh T_geometry.
Import ListNotations.
Open Scope nat_scope.

(** A tetrahedron with two faces turned inside out: closed, not oriented. *)
Definition mixed_tetrahedron : mesh := mkMesh (verts tetrahedron) [F4 0 2 1 0; F4 0 3 1 0; F4 0 2 3 0; F4 1 2 3 1].
Lemma mixed_checked : checked mixed_tetrahedron [[1; 2; 3]; [0; 2; 3]; [0; 1; 3]; [0; 1; 2]] [].
Proof. apply full_check_ok. vm_compute. reflexivity. Qed.
(** The house (a square and a triangle, open) is checked as well. *)
Lemma house_checked : checked house [[1]; [0]] [[3; 4; 2; 1; 0; 3]].
Proof. apply full_check_ok. vm_compute. reflexivity. Qed.

(** ** C27 *)
Theorem C27_tables : forall order m c, iteration order -> valid m -> simple m -> mesh_connectivity order m = Ok c ->
  (length (c_vf c) = length (verts m) /\ length (c_vv c) = length (verts m) /\ length (c_ff c) = length (faces m)) /\
  (Forall (@NoDup nat) (c_vf c) /\ Forall (@NoDup nat) (c_vv c) /\ Forall (@NoDup nat) (c_ff c)) /\
  (forall v k, v < length (verts m) -> (In k (nth v (c_vf c) []) <-> face_at (faces m) k v)) /\
  (forall u v, u < length (verts m) -> (In v (nth u (c_vv c) []) <-> linked (faces m) u v)) /\
  (forall f g, f < length (faces m) -> (In g (nth f (c_ff c) []) <-> adjacent (faces m) f g)).
Proof.
  intros order m c O V S E. destruct (connectivity_inv order O _ _ V S c E) as (_ & be & CS).
  destruct (cs_tables _ _ _ _ CS) as [[L1 L2] [N1 N2] VV VF].
  split; [|split; [|split; [|split]]]; auto.
  - split; auto. split; auto. apply (cs_ff_length _ _ _ _ CS).
  - split; auto. split; auto. apply (cs_ff_nodup _ _ _ _ CS).
  - apply (cs_ff _ _ _ _ CS).
Qed.
Theorem C27_symmetric : forall order m c f g, iteration order -> valid m -> simple m -> mesh_connectivity order m = Ok c ->
  f < length (faces m) -> In g (nth f (c_ff c) []) -> g < length (faces m) /\ In f (nth g (c_ff c) []).
Proof.
  intros order m c f g O V S E L I. destruct (C27_tables order m c O V S E) as (_ & _ & _ & _ & H).
  apply H in I; auto. destruct (adjacent_lt _ _ _ I) as [_ Lg]. split; auto. apply H; auto. apply adjacent_sym. auto.
Qed.
Example connectivity_house : mesh_connectivity (fun l => l) house =
  Ok (mkConn [[3; 1]; [0; 2]; [1; 3; 4]; [0; 2; 4]; [3; 2]] [[0]; [0]; [0; 1]; [0; 1]; [1]] [[1]; [0]] [[3; 4; 2; 1; 0; 3]]).
Proof. reflexivity. Qed.
Example connectivity_house_meets : iteration (fun l => l) /\ valid house /\ simple house.
Proof. split; [apply iteration_id|]. split; [apply (ck_valid _ _ _ house_checked)|apply (ck_simple _ _ _ house_checked)]. Qed.

(** ** C28 *)
Theorem C28_error : forall order m, iteration order -> valid m -> simple m ->
  ((exists e, mesh_connectivity order m = Raise e) <-> crowded (faces m)) /\
  (crowded (faces m) -> mesh_connectivity order m = Raise RuntimeError).
Proof.
  intros order m O V S. split; [split|].
  - intros [e E]. apply NNPP. intros C. destruct (connectivity_sound order O _ _ V S C) as (c & be & E' & _).
    unfold mesh_connectivity in E. rewrite E' in E. discriminate.
  - intros C. exists RuntimeError. apply (connectivity_error order O _ _ V S C).
  - apply (connectivity_error order O _ _ V S).
Qed.
(** Three triangles on one edge. *)
Definition fan : mesh := mkMesh (verts house) [F4 0 1 2 0; F4 0 1 3 0; F4 0 1 4 0].
Example fan_fails : valid fan /\ simple fan /\ crowded (faces fan) /\ mesh_connectivity (fun l => l) fan = Raise RuntimeError.
Proof.
  assert (V : valid fan) by (apply valid_check_ok; reflexivity). assert (S : simple fan) by (apply simple_check_ok; reflexivity).
  split; auto. split; auto. split; [|reflexivity].
  apply (C28_error (fun l => l) fan iteration_id V S). exists RuntimeError. reflexivity.
Qed.

(** ** C29 *)
Theorem C29_boundaries : forall order m c, iteration order -> valid m -> simple m -> mesh_connectivity order m = Ok c ->
  Forall (fun b => 2 <= length b /\ hd 0 b = last b 0 /\ forall u v, In (u, v) (pairs b) -> border (faces m) v u) (c_bounds c) /\
  NoDup (flat_map pairs (c_bounds c)).
Proof.
  intros order m c O V S E. destruct (connectivity_inv order O _ _ V S c E) as (_ & be & CS). eapply bounds_chains; eauto.
Qed.
(** Nothing is missed when the border edges go around. *)
Theorem C29_all_borders : forall order m c, iteration order -> valid m -> simple m -> circular_border (faces m) ->
  mesh_connectivity order m = Ok c -> forall u v, In (u, v) (flat_map pairs (c_bounds c)) <-> border (faces m) v u.
Proof.
  intros order m c O V S C E. destruct (connectivity_inv order O _ _ V S c E) as (_ & be & CS). eapply bounds_circular; eauto.
Qed.
Example house_circular : circular_border (faces house).
Proof. apply circular_check_ok. reflexivity. Qed.

(** ** C30 *)
Theorem C30_closed : forall order m, iteration order -> valid m -> simple m -> ~ crowded (faces m) ->
  (forall u v, ~ border (faces m) u v) -> is_mesh_closed order m = Ok true.
Proof.
  intros order m O V S NC NB. destruct (connectivity_sound order O _ _ V S NC) as (c & be & E & CS).
  unfold is_mesh_closed, mesh_connectivity. rewrite E. cbn [bind]. rewrite (bounds_closed _ _ _ _ CS NB). auto.
Qed.
Theorem C30_converse : forall order m, iteration order -> valid m -> simple m -> circular_border (faces m) ->
  is_mesh_closed order m = Ok true -> forall u v, ~ border (faces m) u v.
Proof.
  intros order m O V S C H. unfold is_mesh_closed in H. destruct (mesh_connectivity order m) as [c|] eqn:E; [|discriminate].
  destruct (connectivity_inv order O _ _ V S c E) as (_ & be & CS). cbn [bind] in H.
  destruct (c_bounds c) eqn:B; [|discriminate]. eapply bounds_empty; eauto.
Qed.
(** Two triangles that traverse their common edge in the same direction: four border edges, none reported. *)
Theorem C30_open_reported_closed_refuted : exists m, valid m /\ simple m /\ ~ crowded (faces m) /\
  (exists u v, border (faces m) u v) /\ is_mesh_closed (fun l => l) m = Ok true.
Proof.
  exists (mkMesh (verts house) [F4 0 1 2 0; F4 0 1 4 0]).
  destruct (full_check_ok (mkMesh (verts house) [F4 0 1 2 0; F4 0 1 4 0]) [[1]; [0]] []) as [V S NC _ _]; [vm_compute; reflexivity|].
  split; auto. split; auto. split; auto. split; [|reflexivity].
  exists 1, 2. apply border_list_spec. vm_compute. auto.
Qed.
Example mixed_closed : is_mesh_closed (fun l => l) mixed_tetrahedron = Ok true /\ forall u v, ~ border (faces mixed_tetrahedron) u v.
Proof. split; [reflexivity|]. apply no_border_check. reflexivity. Qed.
Example house_open : is_mesh_closed (fun l => l) house = Ok false.
Proof. reflexivity. Qed.

(** ** C31 *)
Theorem C31_heal_only_flips : forall order m m', heal_normals order m = Ok m' ->
  verts m' = verts m /\ exists s, reversed_by s (faces m) (faces m').
Proof.
  intros order m m' H. unfold heal_normals in H. destruct (mesh_connectivity order m) as [c|]; [|discriminate]. cbn [bind] in H.
  destruct (heal_normals_with _ _ _ _ _ _) as [[m1 ff]|] eqn:E; [|discriminate]. cbn [bind] in H. injection H as <-.
  apply (heal_reverses _ _ _ _ _ _ _ _ E).
Qed.
(** The same with any cached connectivity, ids and face properties, even out of date. *)
Theorem C31_heal_only_flips_cached : forall order c tri quad props m m' ff,
  heal_normals_with order c tri quad props m = Ok (m', ff) -> verts m' = verts m /\ exists s, reversed_by s (faces m) (faces m').
Proof. exact heal_reverses. Qed.
(** The traversal ends: the bound on the number of turns of the model is never reached. *)
Theorem C31_heal_terminates : forall order tri ff fs, flood_faces order tri ff fs <> Raise OutOfFuel.
Proof. exact flood_faces_fuel. Qed.

(** ** C32 *)
Theorem C32_heal_orients : forall order m, iteration order -> valid m -> simple m -> ~ crowded (faces m) -> share_edges (faces m) ->
  orientable (faces m) -> faces m <> [] ->
  exists m' s, heal_normals order m = Ok m' /\ verts m' = verts m /\ reversed_by s (faces m) (faces m') /\ oriented (faces m').
Proof. exact heal_orients. Qed.
Lemma mixed_orientable : orientable (faces mixed_tetrahedron).
Proof.
  exists (fun k => nth k [false; true; true; false] false), (flip_by [false; true; true; false] (faces mixed_tetrahedron)).
  split; [apply flip_by_reverses; reflexivity|].
  pose (t := mkMesh (verts tetrahedron) (flip_by [false; true; true; false] (faces mixed_tetrahedron))).
  assert (K : checked t [[1; 2; 3]; [0; 2; 3]; [0; 1; 3]; [0; 1; 2]] []) by (apply full_check_ok; vm_compute; reflexivity).
  apply (oriented_check_ok t _ _ K). vm_compute. reflexivity.
Qed.
Example mixed_meets : iteration (fun l => l) /\ valid mixed_tetrahedron /\ simple mixed_tetrahedron /\ ~ crowded (faces mixed_tetrahedron) /\
  share_edges (faces mixed_tetrahedron) /\ ~ oriented (faces mixed_tetrahedron).
Proof.
  destruct mixed_checked as [V S NC SH (c & E & F & _)]. split; [apply iteration_id|]. repeat (split; auto).
  intros H. assert (A : adjacent (faces mixed_tetrahedron) 0 1).
  { destruct (C27_tables _ _ _ iteration_id V S E) as (_ & _ & _ & _ & T). apply T; [simpl; lia|]. rewrite F. simpl. auto. }
  apply (H 0 1 _ _ A eq_refl eq_refl 1 0); simpl; auto.
Qed.

(** ** C33 *)
Theorem C33_heal_volume : forall order m, iteration order -> valid m -> simple m -> ~ crowded (faces m) -> share_edges (faces m) ->
  orientable (faces m) -> (forall u v, ~ border (faces m) u v) -> planar_mesh m -> faces m <> [] ->
  exists m' V, heal_normals order m = Ok m' /\ closed_surface (faces m') /\ volume m' = Ok V /\ (0 <= V)%R.
Proof. exact heal_volume. Qed.
Example mixed_planar : planar_mesh mixed_tetrahedron.
Proof. repeat constructor; unfold planar_face; simpl; intros E; unfold triangle_normal in E; vunfold; injection E; lra. Qed.

(** ** C34 *)
(** The second call uses the connectivity left by the first one, with any other cached data. *)
Theorem C34_heal_twice : forall order m c tri quad props m1 ff1 g tri2 quad2 props2, iteration order -> valid m -> simple m ->
  mesh_connectivity order m = Ok c -> adjacent (faces m) 0 g ->
  heal_normals_with order c tri quad props m = Ok (m1, ff1) ->
  Forall (fun i => i < length (faces m1)) tri2 ->
  heal_normals_with order (mkConn (c_vv c) (c_vf c) ff1 (c_bounds c)) tri2 quad2 props2 m1 = Raise KeyError.
Proof. exact heal_twice. Qed.
Example house_heals : exists ff, heal_normals_with (fun l => l)
  (mkConn [[3; 1]; [0; 2]; [1; 3; 4]; [0; 2; 4]; [3; 2]] [[0]; [0]; [0; 1]; [0; 1]; [1]] [[1]; [0]] [[3; 4; 2; 1; 0; 3]]) [1] [0] None house
  = Ok (house, ff) /\ ff = [[1]; []].
Proof. eexists. split; [reflexivity|]. reflexivity. Qed.
Example house_adjacent : adjacent (faces house) 0 1.
Proof.
  destruct house_checked as [V S NC SH (c & E & F & _)].
  destruct (C27_tables _ _ _ iteration_id V S E) as (_ & _ & _ & _ & T). apply T; [simpl; lia|]. rewrite F. simpl. auto.
Qed.

(** ** C35 *)
Theorem C35_no_boundary : forall vs, is_mesh_conformal_with [] vs = Ok None.
Proof. reflexivity. Qed.
(** The verdict depends on the first boundary, through the area of its horizontal projection. *)
Theorem C35_verdict : forall order m c b bs, iteration order -> valid m -> simple m -> mesh_connectivity order m = Ok c ->
  c_bounds c = b :: bs ->
  exists v, is_mesh_conformal order m = Ok (Some v) /\ (v = true <-> (1 / 10000000 <= Rabs (horizontal_area (verts m) b))%R).
Proof.
  intros order m c b bs O V S E B. destruct (C29_boundaries order m c O V S E) as [F _]. rewrite B in F. apply Forall_inv in F.
  destruct F as (L & HL & P). unfold is_mesh_conformal. rewrite E. cbn [bind]. rewrite B. apply conformal_verdict; auto.
  - apply Forall_forall. intros x I. assert (Q : exists y, In (x, y) (pairs b) \/ In (y, x) (pairs b)).
    { clear - L I. revert L I. induction b as [|a [|a' t] IH]; intros L I; simpl in L; try lia. destruct I as [<-|I].
      - exists a'. left. simpl. auto.
      - destruct t as [|a'' t].
        + destruct I as [<-|[]]. exists a. right. simpl. auto.
        + destruct IH as [y H]; auto; [simpl; lia|]. exists y. destruct H; [left|right]; right; auto. }
    assert (U : forall u v, border (faces m) u v -> u < length (verts m) /\ v < length (verts m)).
    { intros u v (k & f & E' & I' & _). apply nth_error_In in E'. unfold valid in V. rewrite Forall_forall in V. specialize (V f E').
      destruct (cycle_uses _ _ _ I'). split; eapply valid_uses; eauto. }
    destruct Q as [y [Q|Q]]; apply P in Q; apply U in Q; tauto.
  - intros ->. simpl in L. lia.
Qed.
Theorem C35_later_boundaries_ignored : forall vs b bs bs', is_mesh_conformal_with (b :: bs) vs = is_mesh_conformal_with (b :: bs') vs.
Proof. reflexivity. Qed.
(** A collapsed triangle (three aligned points) is missed when it is not the first boundary. *)
Theorem C35_collapsed_missed_refuted : exists m c b, valid m /\ simple m /\ mesh_connectivity (fun l => l) m = Ok c /\ In b (c_bounds c) /\
  (forall i, In i b -> point (verts m) i = V3 (vx (point (verts m) i)) 0 0) /\
  is_mesh_conformal (fun l => l) m = Ok (Some true).
Proof.
  pose (m := mkMesh [V3 0 0 0; V3 1 0 0; V3 2 0 0; V3 5 0 0; V3 6 0 0; V3 5 1 0] [F4 0 1 2 0; F4 3 4 5 3]).
  destruct (full_check_ok m [[]; []] [[5; 4; 3; 5]; [2; 1; 0; 2]]) as [V S NC _ (c & E & _ & B)]; [vm_compute; reflexivity|].
  exists m, c, [2; 1; 0; 2]. split; auto. split; auto. split; auto. split; [rewrite B; simpl; auto|]. split.
  - intros i [<-|[<-|[<-|[<-|[]]]]]; reflexivity.
  - destruct (C35_verdict _ _ _ _ _ iteration_id V S E B) as (v & H & K). rewrite H. do 2 f_equal. apply K.
    unfold horizontal_area, m. cbn. match goal with |- (_ <= Rabs ?x)%R => replace x with (-1)%R by ring end.
    rewrite Rabs_left by lra. lra.
Qed.
(** A proper triangle in a vertical plane is reported as collapsed. *)
Theorem C35_vertical_boundary_rejected_refuted : exists m, valid m /\ simple m /\ Forall (proper_face (verts m)) (faces m) /\
  is_mesh_conformal (fun l => l) m = Ok (Some false).
Proof.
  pose (m := mkMesh [V3 0 0 0; V3 0 1 0; V3 0 0 1] [F4 0 1 2 0]).
  destruct (full_check_ok m [[]] [[2; 1; 0; 2]]) as [V S NC _ (c & E & _ & B)]; [vm_compute; reflexivity|].
  exists m. split; auto. split; auto. split.
  - repeat constructor. cbn. unfold triangle_normal. vunfold. intros H. injection H. lra.
  - destruct (C35_verdict _ _ _ _ _ iteration_id V S E B) as (v & H & K). rewrite H. do 2 f_equal.
    destruct v; auto. exfalso. assert (A : (1 / 10000000 <= Rabs (horizontal_area (verts m) [2; 1; 0; 2]%nat))%R) by (apply K; auto).
    unfold horizontal_area, m in A. cbn in A. match type of A with (_ <= Rabs ?x)%R => replace x with 0%R in A by ring end.
    rewrite Rabs_R0 in A. lra.
Qed.

Print Assumptions C27_tables.
Print Assumptions C27_symmetric.
Print Assumptions C28_error.
Print Assumptions C29_boundaries.
Print Assumptions C29_all_borders.
Print Assumptions C30_closed.
Print Assumptions C30_converse.
Print Assumptions C30_open_reported_closed_refuted.
Print Assumptions C31_heal_only_flips.
Print Assumptions C31_heal_only_flips_cached.
Print Assumptions C31_heal_terminates.
Print Assumptions C32_heal_orients.
Print Assumptions C33_heal_volume.
Print Assumptions C34_heal_twice.
Print Assumptions C35_no_boundary.
Print Assumptions C35_verdict.
Print Assumptions C35_later_boundaries_ignored.
Print Assumptions C35_collapsed_missed_refuted.
Print Assumptions C35_vertical_boundary_rejected_refuted.
