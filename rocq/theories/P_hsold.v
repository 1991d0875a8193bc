(** Bodies of hydrostatics_old.py: forces and the stores of shared objects. *)
From Coq Require Import Reals List Arith ZArith Bool Lia Lra.
From Verif Require Import M_base P_base M_merge P_merge M_rotations S_rotations P_rotations M_plane M_mesh M_inertia M_geometry M_clipper M_hydro S_hydro P_hydro2 S_equil P_equil P_search M_hsold S_hsold.
Import ListNotations.
Open Scope R_scope.

Lemma nth_set_same : forall A (l : list A) i v d, (i < length l)%nat -> nth i (set_nth l i v) d = v.
Proof. intros A l i v d H. apply nth_error_nth. apply set_nth_same. auto. Qed.
Lemma nth_set_other : forall A (l : list A) i j v d, i <> j -> nth j (set_nth l i v) d = nth j l d.
Proof.
  intros A l i j v d H. pose proof (set_nth_other A l i j v H) as E. destruct (nth_error l j) as [x|] eqn:X.
  - rewrite (nth_error_nth _ _ _ E), (nth_error_nth _ _ _ X). auto.
  - apply nth_error_None in X. apply nth_error_None in E. rewrite !nth_overflow; auto.
Qed.

(** ** Stores *)
Lemma array_store : forall w r v, (r < length (arrays w))%nat -> array (store r v w) r = v.
Proof. intros w r v H. unfold array, store. cbn [arrays]. apply nth_set_same. auto. Qed.
Lemma array_store_other : forall w r r' v, r <> r' -> array (store r v w) r' = array w r'.
Proof. intros w r r' v H. unfold array, store. cbn [arrays]. apply nth_set_other. auto. Qed.
Lemma length_store : forall w r v, length (arrays (store r v w)) = length (arrays w).
Proof. intros. unfold store. cbn [arrays]. apply set_nth_length. Qed.
Lemma object_store : forall w r v i, object (store r v w) i = object w i.
Proof. reflexivity. Qed.
Lemma array_alloc : forall w v, array (fst (alloc v w)) (length (arrays w)) = v.
Proof. intros. unfold array, alloc. cbn [arrays fst]. rewrite app_nth2, Nat.sub_diag by lia. auto. Qed.
Lemma array_alloc_other : forall w v r, (r < length (arrays w))%nat -> array (fst (alloc v w)) r = array w r.
Proof. intros. unfold array, alloc. cbn [arrays fst]. rewrite app_nth1 by lia. auto. Qed.
Lemma length_alloc : forall w v, length (arrays (fst (alloc v w))) = S (length (arrays w)).
Proof. intros. unfold alloc. cbn [arrays fst]. rewrite app_length. cbn. lia. Qed.

(** ** Forces *)
Lemma update_force_ok : forall dz q w i, (i < length (objects w))%nat -> (f_point (object w i) < length (arrays w))%nat ->
  let w' := update_force dz q w i in let f := object w i in
  length (objects w') = length (objects w) /\ length (arrays w') = S (length (arrays w)) /\
  object w' i = mkForce (length (arrays w)) (if f_relative f then mvec q (f_value f) else f_value f) (f_relative f) /\
  (forall j, j <> i -> object w' j = object w j) /\
  array w' (length (arrays w)) = mvec q (raise_by dz (array w (f_point f))) /\
  (forall r, r <> f_point f -> (r < length (arrays w))%nat -> array w' r = array w r).
Proof.
  intros dz q w i I R. cbv zeta. unfold update_force. set (f := object w i) in *. set (p := raise_by dz (array w (f_point f))).
  unfold alloc. cbn [arrays objects store]. unfold array, object. cbn [arrays objects]. rewrite !set_nth_length, !app_length, !set_nth_length.
  split; auto. split; [cbn; lia|]. split; [apply nth_set_same; auto|]. split; [intros j J; apply nth_set_other; auto|]. split.
  - rewrite app_nth2; rewrite set_nth_length; [|lia]. rewrite Nat.sub_diag. auto.
  - intros r N L. rewrite app_nth1 by (rewrite set_nth_length; lia). apply nth_set_other. auto.
Qed.
Lemma raise_mvec : forall q dz p, mvec q (raise_by dz p) = vadd (mvec q p) (mvec q (V3 0 0 dz)).
Proof. intros. unfold raise_by. vring. Qed.
Lemma refs_same : forall w w' l, (forall i, In i l -> object w' i = object w i) -> point_refs w' l = point_refs w l.
Proof. intros w w' l H. unfold point_refs. apply map_ext_in. intros i I. rewrite H; auto. Qed.
Lemma update_forces_ok : forall dz q l w, own_loads w l -> let w' := fold_left (update_force dz q) l w in
  own_loads w' l /\ map (load_of w') l = map (carried q (mvec q (V3 0 0 dz))) (map (load_of w) l) /\
  length (objects w') = length (objects w) /\ (length (arrays w) <= length (arrays w'))%nat /\
  (forall j, ~ In j l -> object w' j = object w j) /\
  (forall r, (r < length (arrays w))%nat -> ~ In r (point_refs w l) -> array w' r = array w r /\ ~ In r (point_refs w' l)).
Proof.
  intros dz q l. induction l as [|i l IH]; intros w (O & N & R & D); cbv zeta; cbn [fold_left].
  { split; [split; [|split; [|split]]; auto|]. repeat split; auto. }
  inversion O as [|? ? I O']; subst. inversion N as [|? ? NI N']; subst. cbn [point_refs map] in R, D. inversion R as [|? ? RI R']; subst. inversion D as [|? ? DI D']; subst.
  fold (point_refs w l) in *. destruct (update_force_ok dz q w i I RI) as (LO & LA & OI & OJ & AI & AJ). set (w1 := update_force dz q w i) in *.
  assert (S1 : point_refs w1 l = point_refs w l) by (apply refs_same; intros j J; apply OJ; congruence).
  assert (OW : own_loads w1 l).
  { split; [rewrite LO; auto|]. split; auto. rewrite S1. split; auto. eapply Forall_impl; [|exact R']. intros r B. cbv beta in B. lia. }
  specialize (IH w1 OW). cbv zeta in IH. set (w' := fold_left (update_force dz q) l w1) in *. destruct IH as ((O2 & _ & R2 & D2) & LD & LO2 & LA2 & OJ2 & AJ2).
  assert (PI : object w' i = object w1 i) by (apply OJ2; auto).
  assert (NL : ~ In (length (arrays w)) (point_refs w1 l)). { rewrite S1. intros H. rewrite Forall_forall in R'. apply R' in H. lia. }
  destruct (AJ2 (length (arrays w))) as [A1 A2]; [lia|auto|].
  split; [|split; [|split; [lia|split; [lia|split]]]].
  - split; [constructor; [lia|auto]|]. split; [auto|]. cbn [point_refs map]. rewrite PI, OI. cbn [f_point]. split; constructor; auto. lia.
  - cbn [map]. f_equal.
    + unfold load_of. rewrite PI, OI. cbn [f_point f_value f_relative]. rewrite A1, AI, raise_mvec. unfold carried. cbn [l_point l_value l_follows]. auto.
    + rewrite LD. f_equal. apply map_ext_in. intros j J. unfold load_of. rewrite OJ by congruence. rewrite AJ; auto.
      * intros E. apply DI. rewrite <- E. unfold point_refs. apply in_map_iff. exists j. auto.
      * rewrite Forall_forall in R'. apply R'. unfold point_refs. apply in_map_iff. exists j. auto.
  - intros j J. rewrite OJ2, OJ; auto; intros E; apply J; subst; cbn; auto.
  - intros r L J. cbn [point_refs map] in J. fold (point_refs w l) in J. destruct (AJ2 r) as [B1 B2]; [lia|rewrite S1; intros H; apply J; cbn; auto|].
    split; [rewrite B1; apply AJ; auto; intros E; apply J; cbn; auto|]. cbn [point_refs map]. rewrite PI, OI. cbn [f_point]. intros [E|E]; [lia|]. apply B2. exact E.
Qed.
Lemma hs_force_load : forall w i, hs_force w i = vertical_load (load_of w i).
Proof. reflexivity. Qed.

(** ** Data *)
Lemma placed_mid : forall m, translate_z 0 (rotate_matrix mid m) = m.
Proof.
  intros [vs fs]. unfold translate_z, rotate_matrix. cbn [verts faces]. f_equal. rewrite map_map. rewrite <- map_id. apply map_ext.
  intros [x y z]. rewrite mvec_id. cbn. f_equal. ring.
Qed.
(** A face of the clipped mesh smaller than 1e-10 *)
Definition tiny_face (k : clipper) : Prop := exists props, faces_properties (clipped k) = Ok props /\ exists p, In p props /\ Rabs (fp_area p) < 1 / 10000000000.
Lemma or4 : forall a b c d, a || b || c || d = false -> a = false /\ b = false /\ c = false /\ d = false.
Proof. intros [] [] [] []; cbn; auto; discriminate. Qed.
Lemma plain_point : forall rho m i, eval_plain_mesh_inertias rho m = Ok i -> rb_point i = vzero.
Proof.
  intros rho m i. unfold eval_plain_mesh_inertias, plain_inertia_with. destruct (faces_integrals m); [|discriminate]. cbn [bind]. destruct (faces_properties m); [|discriminate]. cbn [bind].
  destruct (volume_with _ _); [|discriminate]. cbn [bind]. intros H. injection H as <-. reflexivity.
Qed.
Lemma plain_transport : forall rho i cog, rb_point i = vzero -> rho <> 0 ->
  let b := rb_cog i in let body := shift_at_cog i in let body' := shift_at_cog (set_cog i (V3 (vx (mvec mid cog)) (vy (mvec mid cog)) (vz cog))) in let w := rho * (rb_mass i / rho) in
  rb_xx body = rb_xx body' + w * (vy b * vy b + vz b * vz b - vy cog * vy cog - vz cog * vz cog) /\
  rb_yy body = rb_yy body' + w * (vx b * vx b + vz b * vz b - vx cog * vx cog - vz cog * vz cog) /\
  rb_zz body = rb_zz body' + w * (vx b * vx b + vy b * vy b - vx cog * vx cog - vy cog * vy cog) /\
  rb_xy body = rb_xy body' + w * (vx b * vy b - vx cog * vy cog) /\
  rb_xz body = rb_xz body' + w * (vx b * vz b - vx cog * vz cog) /\
  rb_yz body = rb_yz body' + w * (vy b * vz b - vy cog * vz cog).
Proof.
  intros rho [ma c p m] cog P N. cbv zeta. cbn [rb_point] in P. subst p. rewrite mvec_id. unfold shift_at_cog, set_cog, huygens, outer, rb_xx, rb_yy, rb_zz, rb_xy, rb_xz, rb_yz.
  cbn [rb_mat rb_cog rb_mass rb_point].
  replace (rho * (ma / rho)) with ma by (field; auto).
  repeat split; cbn [madd mscale msub mid dot vsub vzero vx vy vz m00 m01 m02 m10 m11 m12 m20 m21 m22]; unfold dot, vsub, vzero; cbn [vx vy vz]; ring.
Qed.
Lemma properties_spec : forall argsort m k cog rho grav, clip_mesh argsort m = Ok k ->
  (forall d, properties k rho (rho * grav) (vz cog) = Ok d -> (exists h, at_rest_in argsort m cog rho grav = Ok h /\ agree d h) /\ ~ tiny_face k) /\
  (forall h, at_rest_in argsort m cog rho grav = Ok h ->
     (exists d, properties k rho (rho * grav) (vz cog) = Ok d /\ agree d h) \/ (properties k rho (rho * grav) (vz cog) = Raise PlainException /\ tiny_face k)).
Proof.
  intros argsort m k cog rho grav K. unfold at_rest_in, compute_hydrostatics, properties. rewrite placed_mid. unfold clip_mesh in K. rewrite K. cbn [bind].
  destruct (faces_properties (clipped k)) as [props|e] eqn:P; cbn [bind]; [|split; discriminate].
  assert (TF : existsb (fun p => Rltb (Rabs (fp_area p)) (1 / 10000000000)) props = true <-> tiny_face k).
  { unfold tiny_face. rewrite P. split.
    - intros T. exists props. split; auto. apply existsb_exists in T. destruct T as (p & I & L). exists p. split; auto. apply Rltb_true in L. auto.
    - intros (ps & E & p & I & L). injection E as <-. apply existsb_exists. exists p. split; auto. apply Rltb_true. auto. }
  destruct (existsb (fun p => Rltb (Rabs (fp_area p)) (1 / 10000000000)) props) eqn:T.
  - split; [discriminate|]. intros h _. right. split; auto. apply TF. auto.
  - assert (NT : ~ tiny_face k) by (intros X; apply TF in X; discriminate).
    destruct (eval_plain_mesh_inertias rho (clipped k)) as [i|e] eqn:I; cbn [bind];
      [|split; [discriminate|destruct (existsb (no_normal (verts (clipped k))) (faces (clipped k))); discriminate]].
    set (b := rb_cog i).
    destruct (add_polygons (verts (clipped_crown k)) false b no_sums (polygons k)) as [[s es]|e]; cbn [bind];
      [|split; [discriminate|destruct (existsb (no_normal _) _), (Reqb rho 0), (Reqb (rb_mass i / rho) 0); discriminate]].
    destruct (arr_min (map e_xmin es)); cbn [bind]; [|split; [discriminate|destruct (existsb (no_normal _) _), (Reqb rho 0), (Reqb (rb_mass i / rho) 0); discriminate]].
    destruct (arr_max (map e_xmax es)); cbn [bind]; [|split; [discriminate|destruct (existsb (no_normal _) _), (Reqb rho 0), (Reqb (rb_mass i / rho) 0); discriminate]].
    destruct (arr_min (map e_ymin es)); cbn [bind]; [|split; [discriminate|destruct (existsb (no_normal _) _), (Reqb rho 0), (Reqb (rb_mass i / rho) 0); discriminate]].
    destruct (arr_max (map e_ymax es)); cbn [bind]; [|split; [discriminate|destruct (existsb (no_normal _) _), (Reqb rho 0), (Reqb (rb_mass i / rho) 0); discriminate]].
    destruct (axis_aligned_bbox (clipped k)) as [box|e]; cbn [bind];
      [|split; [discriminate|destruct (existsb (no_normal _) _), (Reqb rho 0), (Reqb (rb_mass i / rho) 0), (Reqb (rho * grav * g0 (scale_sums s)) 0); discriminate]].
    destruct (existsb (no_normal (verts (clipped k))) (faces (clipped k))); cbn [orb]; [split; discriminate|].
    destruct (Reqb rho 0) eqn:R0; cbn [orb]; [split; discriminate|]. assert (N0 : rho <> 0) by (intros X; apply Reqb_false in R0; auto). pose proof (plain_point _ _ _ I) as PP.
    destruct (Reqb (rb_mass i / rho) 0); cbn [orb]; [split; discriminate|].
    destruct (Reqb (rho * grav * g0 (scale_sums s)) 0); [split; discriminate|].
    assert (C0 : vz (mvec mid cog) + 0 = vz cog) by (rewrite mvec_id; ring). cbn [vx vy vz]. rewrite C0.
    assert (TM : forall v, mvec (mtrans mid) v = v) by (intros; change (mtrans mid) with mid; apply mvec_id).
    split.
    + intros d D. split; [|exact NT]. eexists. split; [reflexivity|]. injection D as <-.
      constructor; cbn [d_wet_surface_area d_volume d_mass d_buoyancy d_flotation d_waterplane_area d_transversal_radius d_longitudinal_radius d_gm_x d_gm_y d_stiffness d_lwl d_los d_bos d_draught d_breadth
        h_wet_surface_area h_disp_volume h_disp_mass h_buoyancy_center h_waterplane_center h_waterplane_area h_transversal_metacentric_radius h_longitudinal_metacentric_radius h_transversal_metacentric_height h_longitudinal_metacentric_height h_stiffness_matrix h_length_at_waterline h_breadth_at_waterline h_length_overall_submerged h_breadth_overall_submerged h_draught h_forward_perpendicular d_fp]; auto.
      * rewrite TM. destruct b. cbn. f_equal. ring.
      * rewrite TM, !Rplus_0_r, Ropp_0. auto.
      * unfold transported. cbn [d_buoyancy d_mass d_Ixx d_Iyy d_Izz d_Ixy d_Ixz d_Iyz h_cog h_Ixx h_Iyy h_Izz h_Ixy h_Ixz h_Iyz]. apply plain_transport; auto.
    + intros h H. left. eexists. split; [reflexivity|]. injection H as <-.
      constructor; cbn [d_wet_surface_area d_volume d_mass d_buoyancy d_flotation d_waterplane_area d_transversal_radius d_longitudinal_radius d_gm_x d_gm_y d_stiffness d_lwl d_los d_bos d_draught d_breadth
        h_wet_surface_area h_disp_volume h_disp_mass h_buoyancy_center h_waterplane_center h_waterplane_area h_transversal_metacentric_radius h_longitudinal_metacentric_radius h_transversal_metacentric_height h_longitudinal_metacentric_height h_stiffness_matrix h_length_at_waterline h_breadth_at_waterline h_length_overall_submerged h_breadth_overall_submerged h_draught h_forward_perpendicular d_fp]; auto.
      * rewrite TM. destruct b. cbn. f_equal. ring.
      * rewrite TM, !Rplus_0_r, Ropp_0. auto.
      * unfold transported. cbn [d_buoyancy d_mass d_Ixx d_Iyy d_Izz d_Ixy d_Ixz d_Iyz h_cog h_Ixx h_Iyy h_Izz h_Ixy h_Ixz h_Iyz]. apply plain_transport; auto.
Qed.

(** The water displaced does not depend on the center of gravity. *)
Lemma at_rest_water : forall argsort m cog cog' rho grav h, at_rest_in argsort m cog rho grav = Ok h -> exists h', at_rest_in argsort m cog' rho grav = Ok h' /\
  h_buoyancy_center h' = h_buoyancy_center h /\ h_disp_mass h' = h_disp_mass h /\ exists d, d_buoyancy d = h_buoyancy_center h /\ d_mass d = h_disp_mass h /\ transported d h /\ transported d h'.
Proof.
  intros argsort m cog cog' rho grav h. unfold at_rest_in, compute_hydrostatics. rewrite placed_mid.
  destruct (mesh_clipper argsort water vicinity_tol true m) as [k|e]; cbn [bind]; [|discriminate].
  destruct (faces_properties (clipped k)) as [props|e] eqn:P; cbn [bind]; [|discriminate].
  destruct (existsb (no_normal (verts (clipped k))) (faces (clipped k))); [discriminate|].
  destruct (eval_plain_mesh_inertias rho (clipped k)) as [i|e] eqn:I; cbn [bind]; [|discriminate]. pose proof (plain_point _ _ _ I) as PP.
  destruct (Reqb rho 0) eqn:R0; [discriminate|]. assert (N0 : rho <> 0) by (intros X; apply Reqb_false in R0; auto).
  destruct (Reqb (rb_mass i / rho) 0); [discriminate|]. set (b := rb_cog i).
  destruct (add_polygons (verts (clipped_crown k)) false b no_sums (polygons k)) as [[s es]|e]; cbn [bind]; [|discriminate].
  destruct (arr_min (map e_xmin es)); cbn [bind]; [|discriminate]. destruct (arr_max (map e_xmax es)); cbn [bind]; [|discriminate].
  destruct (arr_min (map e_ymin es)); cbn [bind]; [|discriminate]. destruct (arr_max (map e_ymax es)); cbn [bind]; [|discriminate].
  destruct (Reqb (rho * grav * g0 (scale_sums s)) 0); [discriminate|]. destruct (axis_aligned_bbox (clipped k)) as [box|e]; cbn [bind]; [|discriminate].
  assert (C0 : forall c, vz (mvec mid c) + 0 = vz c) by (intros; rewrite mvec_id; ring). cbn [vx vy vz]. rewrite !C0.
  assert (TM : forall v, mvec (mtrans mid) v = v) by (intros; change (mtrans mid) with mid; apply mvec_id).
  intros H. eexists. split; [reflexivity|]. injection H as <-. cbn [h_buoyancy_center h_disp_mass]. split; auto. split; auto.
  exists (mkData 0 0 (rho * (rb_mass i / rho)) b vzero 0 0 0 0 0 mid 0 0 0 0 0 0 (rb_xx (shift_at_cog i)) (rb_yy (shift_at_cog i)) (rb_zz (shift_at_cog i)) (rb_xy (shift_at_cog i)) (rb_xz (shift_at_cog i)) (rb_yz (shift_at_cog i))).
  cbn [d_buoyancy d_mass]. split; [rewrite TM; destruct b; cbn; f_equal; ring|]. split; auto.
  unfold transported. cbn [d_buoyancy d_mass d_Ixx d_Iyy d_Izz d_Ixy d_Ixz d_Iyz h_cog h_Ixx h_Iyy h_Izz h_Ixy h_Ixz h_Iyz]. split; apply plain_transport; auto.
Qed.

(** ** Motions *)
Lemma keep_loads : forall w w' l, own_loads w l -> objects w' = objects w -> (length (arrays w) <= length (arrays w'))%nat ->
  (forall r, In r (point_refs w l) -> array w' r = array w r) ->
  own_loads w' l /\ map (load_of w') l = map (load_of w) l /\ point_refs w' l = point_refs w l.
Proof.
  intros w w' l (O & N & R & D) E L A. assert (PR : point_refs w' l = point_refs w l) by (apply refs_same; intros; unfold object; rewrite E; auto).
  split; [|split; auto].
  - split; [rewrite E; auto|]. split; auto. rewrite PR. split; auto. eapply Forall_impl; [|exact R]. intros r B. cbv beta in B. lia.
  - apply map_ext_in. intros i I. unfold load_of. unfold object. rewrite E. fold (object w i). rewrite A; auto. unfold point_refs. apply in_map_iff. exists i. auto.
Qed.
(** An array that belongs to someone else *)
Definition outside (r : nat) (u : hull) : Prop := (r < length (arrays (u_world u)))%nat /\ r <> u_cog u /\ ~ In r (point_refs (u_world u) (u_forces u)).
Record carriage (q : mat) (t : vec) (u u' : hull) : Prop := {
  ca_moved : moved q t u u';
  ca_apart : apart u';
  ca_body : same_body u u';
  ca_forces : u_forces u' = u_forces u;
  ca_backup : u_backup u' = u_backup u;
  ca_rotation : u_rotation u' = mmul q (u_rotation u);
  ca_outside : forall r, outside r u -> outside r u' /\ array (u_world u') r = array (u_world u) r }.
Lemma mmul_mid : forall r, mmul mid r = r.
Proof. vring. Qed.
Lemma vadd_zero : forall v, vadd v vzero = v.
Proof. vring. Qed.
Lemma carried_mid : forall l, carried mid vzero l = l.
Proof. intros [p v b]. unfold carried. cbn [l_point l_value l_follows]. rewrite !mvec_id, vadd_zero. destruct b; auto. Qed.
Lemma mmul_vec : forall a b v, mvec (mmul a b) v = mvec a (mvec b v).
Proof. intros. vring. Qed.
Lemma carried_trans : forall q1 t1 q2 t2 l, carried q2 t2 (carried q1 t1 l) = carried (mmul q2 q1) (vadd (mvec q2 t1) t2) l.
Proof.
  intros. unfold carried. cbn [l_point l_value l_follows]. destruct (l_follows l); rewrite ?mmul_vec; f_equal; vring.
Qed.
Lemma same_refl : forall u, same_body u u.
Proof. intros. constructor; auto. Qed.
Lemma same_trans : forall u u' u'', same_body u u' -> same_body u' u'' -> same_body u u''.
Proof. intros u u' u'' [] []. constructor; intuition congruence. Qed.
Lemma carriage_refl : forall u, apart u -> carriage mid vzero u u.
Proof.
  intros u A. constructor; auto; try (constructor; auto).
  - destruct (u_mesh u) as [vs fs]. cbn [verts faces]. f_equal. rewrite <- map_id at 1. apply map_ext. intros. rewrite mvec_id, vadd_zero. auto.
  - rewrite mvec_id, vadd_zero. auto.
  - rewrite <- map_id at 1. apply map_ext. intros. rewrite carried_mid. auto.
  - rewrite mmul_mid. auto.
Qed.
Lemma moved_trans : forall q1 t1 q2 t2 u u' u'', moved q1 t1 u u' -> moved q2 t2 u' u'' -> moved (mmul q2 q1) (vadd (mvec q2 t1) t2) u u''.
Proof.
  intros q1 t1 q2 t2 u u' u'' [M C L] [M' C' L']. constructor.
  - rewrite M', M. cbn [verts faces]. f_equal. rewrite map_map. apply map_ext. intros v. rewrite mmul_vec. vring.
  - rewrite C', C, mmul_vec. vring.
  - rewrite L', L, map_map. apply map_ext. intros. apply carried_trans.
Qed.
Lemma carriage_trans : forall q1 t1 q2 t2 u u' u'', carriage q1 t1 u u' -> carriage q2 t2 u' u'' ->
  carriage (mmul q2 q1) (vadd (mvec q2 t1) t2) u u''.
Proof.
  intros q1 t1 q2 t2 u u' u'' C C'. destruct C as [M A B F K R O], C' as [M' A' B' F' K' R' O'].
  constructor; auto; try congruence.
  - eapply moved_trans; eauto.
  - eapply same_trans; eauto.
  - rewrite R', R, mmul_assoc. auto.
  - intros r Or. destruct (O r Or) as [X Y]. destruct (O' r X) as [X' Y']. split; auto. congruence.
Qed.
(** The data and the clipper are not part of the motion. *)
Lemma carriage_data : forall q t u u' d, carriage q t u u' -> carriage q t u (with_data d u').
Proof. intros q t u u' d [[M1 M2 M3] A [B1 B2 B3 B4] F K R O]. constructor; auto; constructor; auto. Qed.
Lemma carriage_clipper : forall q t u u' k, carriage q t u u' -> carriage q t u (with_clipper k u').
Proof. intros q t u u' d [[M1 M2 M3] A [B1 B2 B3 B4] F K R O]. constructor; auto; constructor; auto. Qed.

Lemma rotate_mid : forall m, rotate_matrix mid m = m.
Proof. intros [vs fs]. unfold rotate_matrix. cbn [verts faces]. f_equal. rewrite <- map_id. apply map_ext. intros. apply mvec_id. Qed.
Lemma translate_0 : forall m, translate_z 0 m = m.
Proof. intros [vs fs]. unfold translate_z. cbn [verts faces]. f_equal. rewrite <- map_id. apply map_ext. intros [x y z]. cbn. rewrite Rplus_0_r. auto. Qed.
(** The mesh, the center of gravity and the world of the next positions *)
Lemma carriage_intro : forall q dz u u' w r, apart u ->
  let t := mvec q (V3 0 0 dz) in let v := mvec q (raise_by dz (gravity_center u)) in
  objects w = objects (u_world u) -> (length (arrays (u_world u)) <= length (arrays w))%nat ->
  (forall s, (s < length (arrays (u_world u)))%nat -> s <> u_cog u -> array w s = array (u_world u) s) ->
  array w r = v -> (r = u_cog u \/ (length (arrays (u_world u)) <= r)%nat) -> (r < length (arrays w))%nat ->
  u_world u' = fold_left (update_force dz q) (u_forces u) w -> u_cog u' = r -> u_forces u' = u_forces u ->
  u_mesh u' = rotate_matrix q (translate_z dz (u_mesh u)) -> same_body u u' -> u_backup u' = u_backup u -> u_rotation u' = mmul q (u_rotation u) ->
  carriage q t u u'.
Proof.
  intros q dz u u' w r (OW & CL & CN) t v EO EL EA ER RN RL WU CU FU MU SB BU RU.
  destruct OW as (OW1 & OW2 & OW3 & OW4).
  assert (REFS : forall s, In s (point_refs (u_world u) (u_forces u)) -> (s < length (arrays (u_world u)))%nat /\ s <> u_cog u).
  { intros s I. rewrite Forall_forall in OW3. split; [apply OW3; auto|]. intros ->. auto. }
  destruct (keep_loads (u_world u) w (u_forces u)) as (OW & LW & PW); auto; [split; auto| |].
  { intros s I. destruct (REFS s I). apply EA; auto. }
  pose proof (update_forces_ok dz q (u_forces u) w OW) as X. cbv zeta in X. destruct X as (OF & LF & LO & LA & OJ & AJ). rewrite <- WU in *. rewrite PW in AJ.
  assert (NR : ~ In r (point_refs (u_world u) (u_forces u))).
  { intros I. destruct (REFS r I). destruct RN as [->|RN]; [auto|lia]. }
  destruct (AJ r RL NR) as [AR NR'].
  constructor; auto.
  - constructor.
    + rewrite MU. unfold rotate_matrix, translate_z. cbn [verts faces]. f_equal. rewrite map_map. apply map_ext. intros p. subst t. change (V3 (vx p) (vy p) (vz p + dz)) with (raise_by dz p). apply raise_mvec.
    + unfold gravity_center at 1. rewrite CU, AR, ER. subst v t. apply raise_mvec.
    + unfold loads at 1. rewrite FU, LF, LW. auto.
  - unfold apart. rewrite FU, CU. split; auto. split; [lia|auto].
  - intros s (S1 & S2 & S3). assert (SL : (s < length (arrays w))%nat) by lia. destruct (AJ s SL S3) as [AS NS].
    assert (SR : s <> r) by (destruct RN; [congruence|lia]).
    split; [split; [lia|split; [congruence|rewrite FU; auto]]|]. rewrite AS. apply EA; auto.
Qed.
Lemma heave_carriage : forall dz u, apart u -> carriage mid (V3 0 0 dz) u (update_forces dz mid (heave dz u)).
Proof.
  intros dz u A. pose proof A as (OW & CL & CN). replace (V3 0 0 dz) with (mvec mid (V3 0 0 dz)) by apply mvec_id.
  apply (carriage_intro mid dz u _ (store (u_cog u) (raise_by dz (gravity_center u)) (u_world u)) (u_cog u)); auto.
  - rewrite length_store. auto.
  - intros s L N. apply array_store_other. auto.
  - rewrite array_store by auto. rewrite mvec_id. auto.
  - rewrite length_store. auto.
  - rewrite rotate_mid. reflexivity.
  - constructor; auto.
  - rewrite mmul_mid. auto.
Qed.
Lemma move_carriage : forall dz q u, apart u -> carriage q (mvec q (V3 0 0 dz)) u (update_forces dz q (turn q (heave dz u))).
Proof.
  intros dz q u A. pose proof A as (OW & CL & CN). set (w1 := store (u_cog u) (raise_by dz (gravity_center u)) (u_world u)).
  assert (G1 : array w1 (u_cog u) = raise_by dz (gravity_center u)) by (apply array_store; auto).
  apply (carriage_intro q dz u _ (fst (alloc (mvec q (array w1 (u_cog u))) w1)) (length (arrays w1))); auto.
  - rewrite length_alloc. unfold w1. rewrite length_store. lia.
  - intros s L N. rewrite array_alloc_other by (unfold w1; rewrite length_store; auto). apply array_store_other. auto.
  - rewrite array_alloc. rewrite G1. auto.
  - right. unfold w1. rewrite length_store. auto.
  - rewrite length_alloc. lia.
  - constructor; auto.
Qed.
Lemma turn_carriage : forall q u, apart u -> carriage q (mvec q (V3 0 0 0)) u (update_forces 0 q (turn q u)).
Proof.
  intros q u A. pose proof A as (OW & CL & CN).
  apply (carriage_intro q 0 u _ (fst (alloc (mvec q (gravity_center u)) (u_world u))) (length (arrays (u_world u)))); auto.
  - rewrite length_alloc. lia.
  - intros s L N. apply array_alloc_other. auto.
  - rewrite array_alloc. f_equal. unfold raise_by. destruct (gravity_center u); cbn; f_equal; ring.
  - rewrite length_alloc. lia.
  - rewrite translate_0. reflexivity.
  - constructor; auto.
Qed.

(** ** Balance *)
Lemma vadd_assoc' : forall a b c, vadd a (vadd b c) = vadd (vadd a b) c. Proof. vring. Qed.
Lemma fold_total : forall w l r, fold_left (fun r i => vadd r (hs_force w i)) l r = vadd (total (map (load_of w) l)) r.
Proof.
  intros w l. induction l as [|i l IH]; intros r; cbn [fold_left map total fold_right].
  - unfold total. cbn. vring.
  - rewrite IH, hs_force_load. unfold total. cbn [map fold_right]. vring.
Qed.
Lemma residual_eq : forall u, residual u = unbalance u.
Proof. intros u. unfold residual, unbalance. rewrite fold_total. fold (loads u). f_equal. unfold vertical_load, moment. cbn [l_point l_value]. vring. Qed.
Lemma balance_test : forall u, is_at_equilibrium u = true <-> in_balance (p_reltol (u_solver u)) u.
Proof.
  intros u. unfold is_at_equilibrium, in_balance. rewrite residual_eq. cbv zeta. unfold scale_of. cbn [vx vy vz]. rewrite !andb_true_iff, !ratio_below_spec. unfold within. tauto.
Qed.
Lemma stable_test : forall u, isstable u = true <-> stable u.
Proof. intros u. unfold isstable, stable, is_stable_in_pitch, is_stable_in_roll. rewrite andb_true_iff. rewrite !Rltb_true. tauto. Qed.
Lemma total_raise : forall t l, vx (total (map (carried mid t) l)) = vx (total l).
Proof.
  intros t l. induction l as [|a l IH]; auto. unfold total in *. cbn [map fold_right]. unfold vadd at 1 3. cbn [vx]. rewrite IH. f_equal.
  unfold vertical_load, carried. cbn [l_value vx]. destruct (l_follows a); rewrite ?mvec_id; auto.
Qed.

(** ** Updates *)
Section Methods.
  Variable argsort : list R -> list nat.
  Definition wired (u : hull) : Prop := u_rhog u = u_rho u * u_gravity u /\ u_mg u = u_mass u * u_gravity u.
  Lemma update_inv : forall u u', fresh_clipper argsort u -> update_properties argsort u = (Ok tt, u') ->
    exists k d, clip_mesh argsort (u_mesh u) = Ok k /\ properties k (u_rho u) (u_rhog u) (zg u) = Ok d /\ u' = with_data d (with_clipper (Some k) u).
  Proof.
    intros u u' F H. unfold update_properties, seq_, the_clipper in H. destruct (u_clipper u) as [k|] eqn:K.
    - destruct (properties k (u_rho u) (u_rhog u) (zg u)) as [d|e] eqn:P; [|discriminate]. injection H as <-. exists k, d.
      split; [apply F; auto|]. split; auto. destruct u. cbn in K. subst. reflexivity.
    - destruct (clip_mesh argsort (u_mesh u)) as [k|e] eqn:C; [|discriminate]. cbn in H. change (zg (with_clipper (Some k) u)) with (zg u) in H.
      destruct (properties k (u_rho u) (u_rhog u) (zg u)) as [d|e] eqn:P; [|discriminate]. injection H as <-. exists k, d. auto.
  Qed.
  Lemma update_current : forall u u', wired u -> fresh_clipper argsort u -> update_properties argsort u = (Ok tt, u') ->
    up_to_date argsort u' /\ fresh_clipper argsort u'.
  Proof.
    intros u u' [W1 W2] F H. destruct (update_inv u u' F H) as (k & d & K & P & ->). split.
    - split; [|auto]. rewrite W1 in P. unfold zg in P. destruct (properties_spec argsort (u_mesh u) k (gravity_center u) (u_rho u) (u_gravity u) K) as [X _].
      apply X in P. apply P.
    - intros k' E. cbn in E. injection E as <-. auto.
  Qed.
  Lemma unit_ok : forall (r : res unit * hull), (exists e, fst r = Raise e) \/ r = (Ok tt, snd r).
  Proof. intros [[[]|e] u]; cbn; eauto. Qed.
  Lemma carriage_wired : forall q t u u', carriage q t u u' -> wired u -> wired u'.
  Proof. intros q t u u' [_ _ [_ (A & B & C) (D & E) _] _ _ _ _] [W1 W2]. split; congruence. Qed.
  Lemma refreshed : forall q t u u1 u2, wired u -> carriage q t u u1 -> update_properties argsort (with_clipper None u1) = (Ok tt, u2) ->
    carriage q t u u2 /\ up_to_date argsort u2 /\ fresh_clipper argsort u2.
  Proof.
    intros q t u u1 u2 W C H. assert (F : fresh_clipper argsort (with_clipper None u1)) by (intros k K; discriminate).
    destruct (update_current _ _ (carriage_wired _ _ _ _ (carriage_clipper _ _ _ _ None C) W) F H) as [U1 U2].
    split; auto. destruct (update_inv _ _ F H) as (k & d & _ & _ & ->). apply carriage_data, carriage_clipper, carriage_clipper. auto.
  Qed.
  Lemma raised : forall z u u', carriage mid (V3 0 0 z) u u' ->
    u_mesh u' = placed_mesh mid z (u_mesh u) /\ gravity_center u' = placed mid z (gravity_center u).
  Proof.
    intros z u u' [[M C L] _ _ _ _ _ _]. assert (E : forall v, vadd (mvec mid v) (V3 0 0 z) = placed mid z v).
    { intros v. unfold placed. cbv zeta. unfold vadd. cbn [vx vy vz]. rewrite !Rplus_0_r. auto. }
    split; [|rewrite C; auto]. rewrite M. unfold placed_mesh. f_equal. apply map_ext. auto.
  Qed.
  (** After the move to the height [z]: the hydrostatics there, and the vertical force left *)
  Lemma raised_data : forall z u u', carriage mid (V3 0 0 z) u u' -> up_to_date argsort u' ->
    exists h, raised_hydro argsort u z = Ok h /\ agree (u_data u') h /\ vx (residual u') = excess (u_rhog u) (u_mg u) (vx (total (loads u))) h.
  Proof.
    intros z u u' C ((h & H & A) & W). destruct (raised z u u' C) as [M G]. destruct C as [[_ _ L] _ [_ (W1 & W2 & W3) (B1 & B2) _] _ _ _ _].
    exists h. unfold raised_hydro. rewrite <- M, <- G, <- W1, <- W2. split; auto. split; auto.
    rewrite residual_eq. unfold unbalance, excess. rewrite L. unfold vadd at 1 2. cbn [vx]. rewrite total_raise. unfold vertical_load. cbn [l_value vx vz]. rewrite W3, B2. destruct A. rewrite ag_volume. ring.
  Qed.
  Lemma z_travel : forall a b, vadd (mvec mid (V3 0 0 a)) (V3 0 0 b) = V3 0 0 (a + b).
  Proof. intros. rewrite mvec_id. vring. Qed.
  Lemma displace_ok : forall u, wired u -> 0 <= p_z_relax (u_solver u) -> forall n dz z v z' v', carriage mid (V3 0 0 z) u v ->
    displace argsort (S n) dz z v = (Ok z', v') ->
    exists i hs, (i <= n)%nat /\ reach (lift_search argsort u) i (z + dz) z' /\ raised_hydro argsort u z' = Ok hs /\
      ((i < n)%nat -> lifted (u_rhog u) (u_mg u) (vx (total (loads u))) (p_reltol (u_solver u)) hs) /\
      carriage mid (V3 0 0 z') u v' /\ up_to_date argsort v' /\ fresh_clipper argsort v'.
  Proof.
    intros u W B n. induction n as [|n IH]; intros dz z v z' v' C H.
    all: cbn [displace] in H; unfold seq_, reinit_clipper, modify, return_ in H; cbv beta iota zeta in H.
    all: pose proof (carriage_trans _ _ _ _ _ _ _ C (heave_carriage dz v (ca_apart _ _ _ _ C))) as C1.
    all: rewrite mmul_mid, z_travel in C1; set (v1 := update_forces dz mid (heave dz v)) in *.
    all: destruct (update_properties argsort (with_clipper None v1)) as [[[]|e] v2] eqn:U; [|discriminate].
    all: destruct (refreshed _ _ _ _ _ W C1 U) as (C2 & D2 & F2); destruct (raised_data _ _ _ C2 D2) as (hs & E & A & X); rewrite X in H.
    all: pose proof (ca_body _ _ _ _ C2) as [_ (_ & _ & Wg) (_ & Wm) Ws]; rewrite ?Wg, ?Wm, ?Ws in H; destruct A as [_ _ _ _ _ AA _ _ _ _ _]; rewrite ?AA in H.
    - assert (Z : z' = z + dz /\ v' = v2) by (destruct (ratio_below _ _ _); injection H as <- <-; auto). destruct Z as [-> ->].
      exists 0%nat, hs. split; [lia|]. split; [constructor|]. split; [auto|]. split; [lia|]. auto.
    - destruct (ratio_below _ _ _) eqn:T.
      + injection H as <- <-. apply ratio_below_spec in T. exists 0%nat, hs. split; [lia|]. split; [constructor|]. split; [auto|]. split; [intros _; exact T|]. auto.
      + destruct (IH _ _ _ _ _ C2 H) as (i & hs' & I & Rc & E' & T' & C' & D' & F').
        exists (S i), hs'. split; [lia|]. split; [|split; [auto|split; [intros; apply T'; lia|auto]]].
        eapply reach_front; [|exact Rc]. exists hs. split; auto. apply ratio_below_false in T. split; [exact T|]. rewrite relax_clamp by auto. reflexivity.
  Qed.

  (** ** Search of an equilibrium *)
  Lemma move_eq : forall dz tx ty u, move argsort dz tx ty u =
    update_properties argsort (with_clipper None (update_forces dz (cardan_to_rotmat tx ty 0) (turn (cardan_to_rotmat tx ty 0) (heave dz u)))).
  Proof. intros. unfold move. cbv zeta. set (q := cardan_to_rotmat tx ty 0). clearbody q. reflexivity. Qed.
  Lemma move_ok : forall dz tx ty u u', apart u -> wired u -> move argsort dz tx ty u = (Ok tt, u') ->
    let q := cardan_to_rotmat tx ty 0 in
    carriage q (mvec q (V3 0 0 dz)) u u' /\ up_to_date argsort u' /\ fresh_clipper argsort u'.
  Proof.
    intros dz tx ty u u' A W H q. rewrite move_eq in H. fold q in H.
    apply (refreshed _ _ _ _ _ W (move_carriage dz q u A) H).
  Qed.
  Lemma restart_ok : forall rnd n u u', apart u -> restart argsort rnd n u = (Ok tt, u') ->
    exists q t, is_rotation q /\ carriage q t u u'.
  Proof.
    intros rnd n u u' A H. unfold restart, seq_, reinit_clipper, modify in H. cbv beta iota zeta in H. set (q := cardan_to_rotmat _ _ 0) in H.
    exists q, (mvec q (V3 0 0 0)). split; [apply cardan_rotation|].
    destruct (update_properties argsort (with_clipper None (turn q u))) as [[[]|e] u2] eqn:U; [|discriminate]. injection H as <-.
    assert (F : fresh_clipper argsort (with_clipper None (turn q u))) by (intros k K; discriminate).
    destruct (update_inv _ _ F U) as (k & d & _ & _ & ->).
    change (carriage q (mvec q (V3 0 0 0)) u (with_data d (with_clipper (Some k) (update_forces 0 q (turn q u))))).
    apply carriage_data, carriage_clipper, turn_carriage. auto.
  Qed.
  Definition rigid (u u' : hull) : Prop := exists q t, is_rotation q /\ carriage q t u u'.
  Lemma rigid_trans : forall u u' u'', rigid u u' -> rigid u' u'' -> rigid u u''.
  Proof. intros u u' u'' (q & t & Q & C) (q' & t' & Q' & C'). exists (mmul q' q), (vadd (mvec q' t) t'). split; [apply rotation_mul; auto|]. eapply carriage_trans; eauto. Qed.
  Lemma rigid_apart : forall u u', rigid u u' -> apart u'.
  Proof. intros u u' (q & t & _ & []). auto. Qed.
  Lemma rigid_wired : forall u u', rigid u u' -> wired u -> wired u'.
  Proof. intros u u' (q & t & _ & C). eapply carriage_wired; eauto. Qed.
  Lemma rigid_solver : forall u u', rigid u u' -> u_solver u' = u_solver u.
  Proof. intros u u' (q & t & _ & [_ _ [_ _ _ S] _ _ _ _]). auto. Qed.
  Definition known (u : hull) : Prop := up_to_date argsort u /\ fresh_clipper argsort u.
  Definition judged (code : nat) (u : hull) : Prop := known u /\ verdict code u.
  Lemma seq_inv : forall A B (m : method A) (f : A -> method B) u b u2, seq_ m f u = (Ok b, u2) ->
    exists a u1, m u = (Ok a, u1) /\ f a u1 = (Ok b, u2).
  Proof. intros A B m f u b u2 H. unfold seq_ in H. destruct (m u) as [[a|e] u1]; [eauto|discriminate]. Qed.
  (** One pass of the loop *)
  Definition after (rnd : nat -> R * R) (fuel iter nb : nat) (dz tx ty : R) (u : hull) : res nat * hull :=
    if is_at_equilibrium u then
      if isstable u then (Ok 1%nat, u)
      else if p_stop_at_unstable (u_solver u) then (Ok 2%nat, u)
      else search argsort rnd fuel (S iter) nb true dz tx ty u
    else
      match solve3 (d_stiffness (u_data u)) (residual u) with
      | Raise e => (Raise e, u)
      | Ok d =>
          let theta := radians (p_theta_relax (u_solver u)) in
          search argsort rnd fuel (S iter) nb false (relax (p_z_relax (u_solver u)) (vx d)) (relax theta (vy d)) (relax theta (vz d)) u
      end.
  Local Notation pass rnd fuel iter nb dz tx ty := (seq_ (move argsort dz tx ty) (fun _ => after rnd fuel iter nb dz tx ty)).
  Definition limit_met (iter nb : nat) (unst : bool) (u : hull) : bool := unst || (iter =? (nb + 1) * (p_itermax (u_solver u) - 1))%nat.
  Lemma search_S : forall rnd fuel iter nb unst dz tx ty u, search argsort rnd (S fuel) iter nb unst dz tx ty u =
    if limit_met iter nb unst u then
      if (nb <? p_max_restart (u_solver u) - 1)%nat then
        seq_ (restart argsort rnd (S nb)) (fun _ => pass rnd fuel iter (S nb) 0 0 0) u
      else (Ok 0%nat, u)
    else pass rnd fuel iter nb dz tx ty u.
  Proof.
    intros. cbn [search]. unfold seq_ at 1. unfold limit_met. destruct (unst || _)%bool.
    - destruct (nb <? _)%nat; [|reflexivity]. unfold after. generalize (restart argsort rnd (S nb)), (move argsort). intros m1 m2.
      unfold seq_. destruct (m1 u) as [[[]|e] u1]; reflexivity.
    - unfold after. generalize (move argsort). reflexivity.
  Qed.
  Lemma after_ok : forall rnd u fuel iter code v',
    (forall nb unst dz tx ty v, rigid u v -> judged 0 v ->
       search argsort rnd fuel (S iter) nb unst dz tx ty v = (Ok code, v') ->
       rigid u v' /\ judged code v') ->
    forall nb dz tx ty v2, rigid u v2 -> known v2 -> after rnd fuel iter nb dz tx ty v2 = (Ok code, v') ->
    rigid u v' /\ judged code v'.
  Proof.
    intros rnd u fuel iter code v' IH nb dz tx ty v2 Rg2 K H. unfold after in H. destruct (is_at_equilibrium v2) eqn:B.
    - apply balance_test in B. destruct (isstable v2) eqn:St.
      + apply stable_test in St. injection H as <- <-. split; auto. split; auto. left. auto.
      + assert (NS : ~ stable v2) by (intros X; apply stable_test in X; congruence). destruct (p_stop_at_unstable (u_solver v2)) eqn:Sp.
        * injection H as <- <-. split; auto. split; auto. right. left. auto.
        * refine (IH _ _ _ _ _ _ Rg2 _ H). split; [auto|]. right. right. auto.
    - assert (NB : ~ in_balance (p_reltol (u_solver v2)) v2) by (intros X; apply balance_test in X; congruence).
      destruct (solve3 _ _) as [d|e]; [|discriminate]. refine (IH _ _ _ _ _ _ Rg2 _ H). split; [auto|]. right. right. auto.
  Qed.
  Lemma move_rigid : forall u v v2 dz tx ty, wired u -> rigid u v -> move argsort dz tx ty v = (Ok tt, v2) -> rigid u v2 /\ known v2.
  Proof.
    intros u v v2 dz tx ty W Rg M. pose proof (move_ok _ _ _ _ _ (rigid_apart _ _ Rg) (rigid_wired _ _ Rg W) M) as X. cbv zeta in X. destruct X as (C & K).
    split; [|exact K]. eapply rigid_trans; [exact Rg|]. exists (cardan_to_rotmat tx ty 0), (mvec (cardan_to_rotmat tx ty 0) (V3 0 0 dz)). split; [apply cardan_rotation|exact C].
  Qed.
  Lemma pass_ok : forall rnd u fuel iter code v',
    (forall nb unst dz tx ty v, rigid u v -> judged 0 v ->
       search argsort rnd fuel (S iter) nb unst dz tx ty v = (Ok code, v') ->
       rigid u v' /\ judged code v') ->
    wired u -> forall nb dz tx ty v, rigid u v -> pass rnd fuel iter nb dz tx ty v = (Ok code, v') ->
    rigid u v' /\ judged code v'.
  Proof.
    intros rnd u fuel iter code v' IH W nb dz tx ty v Rg H. apply seq_inv in H. destruct H as ([] & v2 & M & H).
    destruct (move_rigid u v v2 dz tx ty W Rg M) as [Rg2 K]. exact (after_ok rnd u fuel iter code v' IH nb dz tx ty v2 Rg2 K H).
  Qed.
  Lemma search_ok : forall rnd u fuel iter nb unst dz tx ty v code v', rigid u v -> wired u ->
    (iter = 0%nat /\ unst = false /\ nb = 0%nat /\ (2 <= p_itermax (u_solver u))%nat \/
     judged 0 v) ->
    search argsort rnd fuel iter nb unst dz tx ty v = (Ok code, v') ->
    rigid u v' /\ judged code v'.
  Proof.
    intros rnd u fuel. induction fuel as [|fuel IH]; intros iter nb unst dz tx ty v code v' Rg W Hy H; [discriminate|].
    assert (IH' : forall nb unst dz tx ty v, rigid u v -> judged 0 v ->
       search argsort rnd fuel (S iter) nb unst dz tx ty v = (Ok code, v') ->
       rigid u v' /\ judged code v').
    { intros nb0 un dz0 tx0 ty0 v0 R0 V0 H0. exact (IH _ _ _ _ _ _ _ _ _ R0 W (or_intror V0) H0). }
    pose proof (pass_ok rnd u fuel iter code v' IH' W) as PASS.
    rewrite search_S in H. destruct (limit_met iter nb unst v) eqn:L; [|eauto].
    destruct (nb <? _)%nat.
    - apply seq_inv in H. destruct H as ([] & v1 & Rs & H). eapply PASS; [|exact H].
      eapply rigid_trans; [exact Rg|]. exact (restart_ok _ _ _ _ (rigid_apart _ _ Rg) Rs).
    - injection H as <- <-. split; auto. destruct Hy as [(-> & -> & -> & I)|Hy]; auto. exfalso.
      unfold limit_met in L. rewrite (rigid_solver _ _ Rg) in L. cbn [orb] in L. apply Nat.eqb_eq in L. lia.
  Qed.
  Lemma seq_same : forall A B (m : method A) (f g : A -> method B) u, (forall a u1, m u = (Ok a, u1) -> f a u1 = g a u1) -> seq_ m f u = seq_ m g u.
  Proof. intros A B m f g u H. unfold seq_. destruct (m u) as [[a|e] u1]; auto. Qed.
  Lemma update_solver : forall u r u', update_properties argsort u = (r, u') -> u_solver u' = u_solver u.
  Proof.
    intros u r u' H. unfold update_properties, seq_, the_clipper in H. destruct (u_clipper u) as [k|].
    - destruct (properties k (u_rho u) (u_rhog u) (zg u)); injection H as _ <-; auto.
    - destruct (clip_mesh argsort (u_mesh u)) as [k|e]; [|injection H as _ <-; auto].
      destruct (properties _ _ _ _); injection H as _ <-; auto.
  Qed.
  Lemma move_solver : forall dz tx ty u r u', move argsort dz tx ty u = (r, u') -> u_solver u' = u_solver u.
  Proof. intros dz tx ty u r u' H. rewrite move_eq in H. apply update_solver in H. rewrite H. reflexivity. Qed.
  Lemma restart_solver : forall rnd n u u', restart argsort rnd n u = (Ok tt, u') -> u_solver u' = u_solver u.
  Proof.
    intros rnd n u u' H. unfold restart in H. cbv zeta in H. apply seq_inv in H. destruct H as ([] & u1 & E1 & H). injection E1 as <-.
    apply seq_inv in H. destruct H as ([] & u1 & E1 & H). injection E1 as <-. apply seq_inv in H. destruct H as ([] & u1 & E1 & H). injection H as <-.
    apply update_solver in E1. cbn. rewrite E1. reflexivity.
  Qed.
  Lemma search_fuel : forall rnd M N fuel fuel' iter nb unst dz tx ty v, (p_itermax (u_solver v) - 1)%nat = M -> (1 <= M)%nat -> (p_max_restart (u_solver v) - 1)%nat = N ->
    (nb <= N)%nat -> (iter <= (nb + 1) * M)%nat -> ((N + 1) * M + 1 <= fuel + iter)%nat -> ((N + 1) * M + 1 <= fuel' + iter)%nat ->
    search argsort rnd fuel iter nb unst dz tx ty v = search argsort rnd fuel' iter nb unst dz tx ty v.
  Proof.
    intros rnd M N fuel. induction fuel as [|fuel IH]; intros fuel' iter nb unst dz tx ty v EM LM EN LN LI F1 F2; [exfalso; nia|].
    destruct fuel' as [|fuel']; [exfalso; nia|]. rewrite !search_S. unfold limit_met. rewrite EM, EN.
    assert (PASS : forall nb' dz tx ty v1, u_solver v1 = u_solver v -> (nb' <= N)%nat -> (iter + 1 <= (nb' + 1) * M)%nat ->
      pass rnd fuel iter nb' dz tx ty v1 = pass rnd fuel' iter nb' dz tx ty v1).
    { intros nb' dz' tx' ty' v1 SV L1 L2. apply seq_same. intros [] v2 Mv.
      assert (S2 : u_solver v2 = u_solver v) by (rewrite <- SV; eapply move_solver; eauto).
      assert (E2 : forall b x y z, search argsort rnd fuel (S iter) nb' b x y z v2 = search argsort rnd fuel' (S iter) nb' b x y z v2).
      { intros. apply IH; rewrite ?S2; auto; lia. }
      unfold after. rewrite !E2. destruct (is_at_equilibrium v2), (isstable v2), (p_stop_at_unstable (u_solver v2)); auto; destruct (solve3 _ _); auto; cbv zeta; apply E2. }
    destruct (unst || (iter =? (nb + 1) * M)%nat) eqn:Cd.
    - destruct (Nat.ltb_spec nb N); [|reflexivity]. apply seq_same. intros [] v1 Rs. apply PASS; [eapply restart_solver; eauto|lia|nia].
    - apply orb_false_iff in Cd. destruct Cd as [_ Cd]. apply Nat.eqb_neq in Cd. apply PASS; auto. lia.
  Qed.

  (** ** Bringing the center of gravity above the origin *)
  Lemma update_xy_ok : forall c l w, own_loads w l -> ~ In c (point_refs w l) ->
    let g := array w c in let w' := fold_left (fun w i => let g := array w c in update_force_xy (- vx g) (- vy g) w i) l w in
    objects w' = objects w /\ length (arrays w') = length (arrays w) /\
    (forall r, ~ In r (point_refs w l) -> array w' r = array w r) /\
    map (load_of w') l = map (carried mid (V3 (- vx g) (- vy g) 0)) (map (load_of w) l).
  Proof.
    intros c l. induction l as [|i l IH]; intros w (O & N & Rf & D) NC; cbv zeta; cbn [fold_left]; [repeat split; auto|].
    inversion O as [|? ? I O']; subst. inversion N as [|? ? NI N']; subst. cbn [point_refs map] in Rf, D, NC. inversion Rf as [|? ? RI R']; subst. inversion D as [|? ? DI D']; subst.
    fold (point_refs w l) in *. set (g := array w c) in *. set (r := f_point (object w i)) in *. set (p := array w r).
    set (w1 := update_force_xy (- vx g) (- vy g) w i).
    assert (E1 : w1 = store r (V3 (vx p + - vx g) (vy p + - vy g) (vz p)) w) by reflexivity. clearbody w1.
    assert (OB : objects w1 = objects w) by (rewrite E1; auto).
    assert (LE : length (arrays w1) = length (arrays w)) by (rewrite E1; apply length_store).
    assert (OT : forall s, s <> r -> array w1 s = array w s) by (intros s NS; rewrite E1; apply array_store_other; auto).
    assert (AR : array w1 r = V3 (vx p + - vx g) (vy p + - vy g) (vz p)) by (rewrite E1; apply array_store; auto).
    destruct (keep_loads w w1 l) as (OW & LW & PW); auto; [split; auto|lia| |].
    { intros s J. apply OT. intros ->. auto. }
    destruct (IH w1 OW) as (OB' & LE' & OT' & LO').
    { rewrite PW. intros J. apply NC. cbn. auto. }
    assert (GC : array w1 c = g) by (apply OT; intros ->; apply NC; cbn; auto). cbv zeta in *. rewrite GC in *.
    split; [congruence|]. split; [congruence|]. split.
    - intros s J. rewrite OT' by (rewrite PW; intros X; apply J; cbn; auto). apply OT. intros ->. apply J. cbn. auto.
    - cbn [map]. f_equal; [|rewrite LO', LW; auto]. unfold load_of. unfold object. rewrite OB', OB. fold (object w i). fold r.
      rewrite OT' by (rewrite PW; auto). rewrite AR. unfold carried. cbn [l_point l_value l_follows]. rewrite !mvec_id. f_equal; [subst p; vring|destruct (f_relative (object w i)); auto].
  Qed.
  Lemma recenter_carriage : forall u, apart u -> let g := gravity_center u in
    carriage mid (V3 (- vx g) (- vy g) 0) u (recenter u) /\ gravity_center (recenter u) = V3 0 0 (vz g) /\
    u_data (recenter u) = with_buoyancy (vadd (d_buoyancy (u_data u)) (V3 (- vx g) (- vy g) 0)) (u_data u) /\
    u_clipper (recenter u) = u_clipper u /\ unbalance (recenter u) =
      let r := unbalance u in V3 (vx r) (vy r - vy g * vx r) (vz r + vx g * vx r).
  Proof.
    intros u (OW & CL & CN) g. pose proof (update_xy_ok (u_cog u) (u_forces u) (u_world u) OW CN) as X. cbv zeta in X. fold (gravity_center u) in X. fold g in X.
    set (w' := fold_left _ _ _) in X. destruct X as (OB & LE & OT & LO).
    assert (ER : recenter u = write_cog (V3 0 0 (vz g)) (with_world w' (with_data (with_buoyancy (V3 (vx (d_buoyancy (u_data u)) - vx g) (vy (d_buoyancy (u_data u)) - vy g) (vz (d_buoyancy (u_data u)))) (u_data u))
      (with_mesh (translate (V3 (- vx g) (- vy g) 0) (u_mesh u)) u)))).
    { unfold recenter. cbv zeta. fold g. unfold zg at 1. f_equal. f_equal. unfold gravity_center. cbn [u_world u_cog with_world with_data with_mesh]. fold w'. rewrite OT by auto. reflexivity. }
    assert (OWX : own_loads w' (u_forces u) /\ point_refs w' (u_forces u) = point_refs (u_world u) (u_forces u)).
    { assert (PR : point_refs w' (u_forces u) = point_refs (u_world u) (u_forces u)) by (apply refs_same; intros; unfold object; rewrite OB; auto).
      destruct OW as (A1 & A2 & A3 & A4). split; auto. split; [rewrite OB; auto|]. split; auto. rewrite PR, LE. auto. }
    destruct OWX as [OW' PW']. set (w2 := store (u_cog u) (V3 0 0 (vz g)) w').
    assert (C2 : array w2 (u_cog u) = V3 0 0 (vz g)) by (apply array_store; lia).
    assert (O2 : forall s, s <> u_cog u -> array w2 s = array w' s) by (intros; apply array_store_other; auto).
    destruct (keep_loads w' w2 (u_forces u)) as (OW2 & LW2 & PW2); auto; [unfold w2; rewrite length_store; auto| |].
    { intros s J. apply O2. intros ->. rewrite PW' in J. auto. }
    assert (GR : gravity_center (recenter u) = V3 0 0 (vz g)) by (rewrite ER; exact C2).
    assert (LR : loads (recenter u) = map (carried mid (V3 (- vx g) (- vy g) 0)) (loads u)).
    { rewrite ER. change (map (load_of w2) (u_forces u) = map (carried mid (V3 (- vx g) (- vy g) 0)) (loads u)). rewrite LW2, LO. auto. }
    assert (DR : u_data (recenter u) = with_buoyancy (vadd (d_buoyancy (u_data u)) (V3 (- vx g) (- vy g) 0)) (u_data u)).
    { rewrite ER. cbn [u_data write_cog with_world with_data]. f_equal. vring. }
    assert (GG : gravity_center u = g) by reflexivity. clearbody g.
    split; [|split; [auto|split; [auto|split; [rewrite ER; auto|]]]].
    - constructor.
      + constructor; auto.
        * rewrite ER. cbn [u_mesh write_cog with_world with_data with_mesh]. unfold translate. f_equal. apply map_ext. intros v. rewrite mvec_id. auto.
        * rewrite GR, mvec_id, GG. vring.
      + unfold apart. rewrite ER. cbn [u_forces u_world u_cog write_cog with_world with_data with_mesh]. fold w2. split; auto. split; [unfold w2; rewrite length_store; lia|]. rewrite PW2, PW'. auto.
      + rewrite ER. constructor; auto.
      + rewrite ER. auto.
      + rewrite ER. auto.
      + rewrite ER, mmul_mid. auto.
      + intros r (R1 & R2 & R3). rewrite ER. unfold outside. cbn [u_forces u_world u_cog write_cog with_world with_data with_mesh]. fold w2. rewrite PW2, PW'. unfold w2 at 1. rewrite length_store, LE. split; auto.
        rewrite O2 by auto. apply OT. auto.
    - assert (TT : forall l, total (map (carried mid (V3 (- vx g) (- vy g) 0)) l) = let r := total l in V3 (vx r) (vy r - vy g * vx r) (vz r + vx g * vx r)).
      { clear. induction l as [|a l IH]; [unfold total; cbn [map fold_right]; vring|]. unfold total in *. cbn [map fold_right]. rewrite IH. cbv zeta.
        set (tl := fold_right _ _ _). clearbody tl. unfold vertical_load, moment, carried. cbn [l_point l_value l_follows]. rewrite !mvec_id. destruct (l_follows a); vring. }
      unfold unbalance. rewrite LR, TT, GR, DR, GG. cbv zeta. unfold vertical_load, moment. cbn [l_point l_value].
      replace (u_rhog (recenter u)) with (u_rhog u) by (rewrite ER; auto). replace (u_mg (recenter u)) with (u_mg u) by (rewrite ER; auto).
      cbn [d_buoyancy d_volume with_buoyancy]. vring.
  Qed.

  (** ** Equilibrium *)
  Lemma set_mass_inv : forall t u u', set_mass t u = (Ok tt, u') -> u' = with_mass (t * 1000) (t * 1000 * u_gravity u) u.
  Proof.
    intros t u u' H. unfold set_mass in H. apply seq_inv in H. destruct H as ([] & u1 & E1 & H). injection E1 as <-. apply seq_inv in H. destruct H as (b & u1 & E1 & H).
    assert (u1 = with_mass (t * 1000) (t * 1000 * u_gravity u) u).
    { unfold is_sinking in E1. destruct (existsb _ _); [injection E1 as _ <-; auto|]. destruct (volume _); [injection E1 as _ <-; auto|discriminate]. }
    subst. destruct b; [discriminate|]. injection H as <-. auto.
  Qed.
  Lemma set_displacement_ok : forall t u z u', apart u -> wired u -> 0 <= p_z_relax (u_solver u) -> (1 <= p_itermax (u_solver u))%nat ->
    set_displacement argsort t u = (Ok z, u') -> let u0 := with_mass (t * 1000) (t * 1000 * u_gravity u) u in
    exists i hs, (i < p_itermax (u_solver u))%nat /\ reach (lift_search argsort u0) i 0 z /\ raised_hydro argsort u0 z = Ok hs /\
      ((i + 1 < p_itermax (u_solver u))%nat -> lifted (u_rhog u0) (u_mg u0) (vx (total (loads u0))) (p_reltol (u_solver u0)) hs) /\
      carriage mid (V3 0 0 z) u0 u' /\ known u'.
  Proof.
    intros t u z u' A W B I H u0. unfold set_displacement in H. apply seq_inv in H. destruct H as ([] & u1 & E1 & H). apply set_mass_inv in E1. fold u0 in E1. subst u1.
    assert (W0 : wired u0) by (destruct W; split; auto). change (u_solver u0) with (u_solver u) in H. destruct (p_itermax (u_solver u)) as [|n] eqn:N; [lia|].
    assert (C0 : carriage mid (V3 0 0 0) u0 u0) by (apply carriage_refl; exact A).
    destruct (displace_ok u0 W0 B n 0 0 u0 z u' C0 H) as (i & hs & L & Rc & E & T & C & K). rewrite Rplus_0_r in Rc.
    exists i, hs. split; [lia|]. split; auto. split; auto. split; [intros; apply T; lia|]. auto.
  Qed.
  Lemma same_mass : forall u, wired u -> with_mass (mass u * 1000) (mass u * 1000 * u_gravity u) u = u.
  Proof. intros u [_ W]. unfold mass. replace (u_mass u / 1000 * 1000) with (u_mass u) by field. rewrite <- W. destruct u. reflexivity. Qed.
  Lemma rigid_refl : forall u, apart u -> rigid u u.
  Proof. intros. exists mid, vzero. split; [apply rotation_id|apply carriage_refl; auto]. Qed.
  Lemma equilibrate_ok : forall rnd init fuel u code u', apart u -> wired u -> 0 <= p_z_relax (u_solver u) -> (2 <= p_itermax (u_solver u))%nat ->
    equilibrate argsort rnd init fuel u = (Ok code, u') ->
    exists v, rigid u v /\ judged code v /\ u' = recenter v.
  Proof.
    intros rnd init fuel u code u' A W B I H. unfold equilibrate in H. apply seq_inv in H. destruct H as ([] & u1 & E1 & H).
    assert (R1 : rigid u u1).
    { destruct init; [|injection E1 as <-; apply rigid_refl; auto]. apply seq_inv in E1. destruct E1 as (z & u2 & E1 & E2). injection E2 as <-.
      assert (I1 : (1 <= p_itermax (u_solver u))%nat) by lia.
      destruct (set_displacement_ok _ _ _ _ A W B I1 E1) as (i & hs & _ & _ & _ & _ & C & _). rewrite same_mass in C by auto. exists mid, (V3 0 0 z). split; [apply rotation_id|auto]. }
    apply seq_inv in H. destruct H as (c & v & E2 & H). apply seq_inv in H. destruct H as ([] & v2 & E3 & H). injection E3 as <-. injection H as <- <-.
    eapply search_ok in E2; [|exact R1|exact W|left; repeat split; auto]. exists v. destruct E2. auto.
  Qed.

  (** ** Sequences of calls *)
  Definition fit (u : hull) : Prop := 0 < p_z_relax (u_solver u) /\ (1 <= p_itermax (u_solver u))%nat.
  Definition sound (u : hull) : Prop := apart u /\ up_to_date argsort u /\ fresh_clipper argsort u /\ fit u.
  Lemma sound_wired : forall u, sound u -> wired u.
  Proof. intros u (_ & (_ & W) & _). exact W. Qed.
  Lemma update_sound : forall u u', apart u -> wired u -> fresh_clipper argsort u -> fit u -> update_properties argsort u = (Ok tt, u') ->
    sound u' /\ u_world u' = u_world u /\ u_forces u' = u_forces u /\ u_cog u' = u_cog u /\ u_backup u' = u_backup u /\ u_init_mesh u' = u_init_mesh u.
  Proof.
    intros u u' A W F S H. destruct (update_current u u' W F H) as [U1 U2]. destruct (update_inv u u' F H) as (k & d & _ & _ & ->).
    split; [split; [exact A|split; [exact U1|split; [exact U2|exact S]]]|]. repeat split.
  Qed.
  (** Its own array keeps the first center of gravity. *)
  Definition keeps (m : mesh) (g : vec) (u : hull) : Prop := u_init_mesh u = m /\ outside (u_backup u) u /\ array (u_world u) (u_backup u) = g.
  Lemma new_force_ok : forall p v b u u', apart u -> add_new_force p v b u = (Ok tt, u') ->
    apart u' /\ loads u' = loads u ++ [mkLoad p v b] /\ gravity_center u' = gravity_center u /\
    u' = with_forces (u_forces u') (with_world (u_world u') u) /\
    (forall r, outside r u -> outside r u' /\ array (u_world u') r = array (u_world u) r).
  Proof.
    intros p v b u u' ((O & N & Rf & D) & CL & CN) H. injection H as <-. set (w := u_world u) in *. set (l := u_forces u) in *.
    set (w1 := mkWorld (arrays w ++ [p]) (objects w ++ [mkForce (length (arrays w)) v b])).
    change (with_forces (l ++ [length (objects w)]) (with_world w1 u)) with (with_forces (l ++ [length (objects w)]) (with_world w1 u)).
    assert (OB : forall i, In i l -> object w1 i = object w i). { intros i I. rewrite Forall_forall in O. apply O in I. unfold object, w1. cbn [objects]. apply app_nth1. auto. }
    assert (ON : object w1 (length (objects w)) = mkForce (length (arrays w)) v b). { unfold object, w1. cbn [objects]. rewrite app_nth2, Nat.sub_diag by lia. auto. }
    assert (AO : forall r, (r < length (arrays w))%nat -> array w1 r = array w r). { intros r L. unfold array, w1. cbn [arrays]. apply app_nth1. auto. }
    assert (AN : array w1 (length (arrays w)) = p). { unfold array, w1. cbn [arrays]. rewrite app_nth2, Nat.sub_diag by lia. auto. }
    assert (PR : point_refs w1 (l ++ [length (objects w)]) = point_refs w l ++ [length (arrays w)]).
    { unfold point_refs. rewrite map_app. cbn [map]. rewrite ON. cbn [f_point]. f_equal. apply map_ext_in. intros i I. rewrite OB; auto. }
    assert (LA : length (arrays w1) = S (length (arrays w))) by (unfold w1; cbn [arrays]; rewrite app_length; cbn; lia).
    assert (LO : length (objects w1) = S (length (objects w))) by (unfold w1; cbn [objects]; rewrite app_length; cbn; lia).
    assert (NI : forall r, (r < length (arrays w))%nat -> ~ In r (point_refs w l) -> ~ In r (point_refs w1 (l ++ [length (objects w)]))).
    { intros r L X Y. rewrite PR in Y. apply in_app_or in Y. destruct Y as [Y|[Y|[]]]; [auto|lia]. }
    assert (ND : forall (l : list nat) x, NoDup l -> (forall y, In y l -> (y < x)%nat) -> NoDup (l ++ [x])).
    { clear. intros l x. induction l as [|a l IH]; intros N L; [repeat constructor; auto|]. inversion N; subst. cbn. constructor; [|apply IH; auto; intros; apply L; cbn; auto].
      intros I. apply in_app_or in I. destruct I as [I|[I|[]]]; [auto|]. specialize (L a). cbn in L. lia. }
    split; [|split; [|split; [|split]]].
    - split; [|split].
      + split; [|split; [|split]].
        * change (Forall (fun i => (i < length (objects w1))%nat) (l ++ [length (objects w)])). rewrite LO. apply Forall_app. split; [|repeat constructor; lia].
          eapply Forall_impl; [|exact O]. cbv beta. intros. lia.
        * apply ND; auto. apply Forall_forall. auto.
        * change (Forall (fun r => (r < length (arrays w1))%nat) (point_refs w1 (l ++ [length (objects w)]))). rewrite PR, LA. apply Forall_app. split; [|repeat constructor; lia]. eapply Forall_impl; [|exact Rf]. cbv beta. intros. lia.
        * change (NoDup (point_refs w1 (l ++ [length (objects w)]))). rewrite PR. apply ND; auto. apply Forall_forall. auto.
      + change (u_cog u < length (arrays w1))%nat. lia.
      + apply (NI (u_cog u)); auto.
    - change (map (load_of w1) (l ++ [length (objects w)]) = loads u ++ [mkLoad p v b]). rewrite map_app. cbn [map]. f_equal.
      + apply map_ext_in. intros i I. unfold load_of. rewrite OB by auto. rewrite AO; auto. rewrite Forall_forall in Rf. apply Rf. unfold point_refs. apply in_map_iff. eauto.
      + unfold load_of. rewrite ON. cbn [f_point f_value f_relative]. rewrite AN. auto.
    - apply (AO (u_cog u)). auto.
    - reflexivity.
    - intros r (R1 & R2 & R3). split; [|apply AO; auto]. split; [change (r < length (arrays w1))%nat; fold w in R1; lia|]. split; [auto|]. apply NI; auto.
  Qed.
  Lemma replace_cog_apart : forall v u, apart u -> let u' := replace_cog v u in
    apart u' /\ gravity_center u' = v /\ loads u' = loads u /\ (forall r, outside r u -> outside r u' /\ array (u_world u') r = array (u_world u) r).
  Proof.
    intros v u (OW & CL & CN) u'. set (w1 := fst (alloc v (u_world u))). pose proof OW as (O & N & Rf & D).
    destruct (keep_loads (u_world u) w1 (u_forces u)) as (OW1 & LW1 & PW1); auto; [unfold w1; rewrite length_alloc; lia| |].
    { intros r I. apply array_alloc_other. rewrite Forall_forall in Rf. auto. }
    split; [|split; [|split]].
    - split; [exact OW1|]. split; [change (length (arrays (u_world u)) < length (arrays w1))%nat; unfold w1; rewrite length_alloc; lia|].
      change (~ In (length (arrays (u_world u))) (point_refs w1 (u_forces u))). rewrite PW1. intros I. rewrite Forall_forall in Rf. apply Rf in I. lia.
    - apply array_alloc.
    - exact LW1.
    - intros r (R1 & R2 & R3). split; [|apply array_alloc_other; auto]. split; [change (r < length (arrays w1))%nat; unfold w1; rewrite length_alloc; lia|].
      split; [change (r <> length (arrays (u_world u))); lia|]. change (~ In r (point_refs w1 (u_forces u))). rewrite PW1. auto.
  Qed.
  Lemma write_cog_apart : forall v u, apart u -> let u' := write_cog v u in
    apart u' /\ gravity_center u' = v /\ loads u' = loads u /\ (forall r, outside r u -> outside r u' /\ array (u_world u') r = array (u_world u) r).
  Proof.
    intros v u (OW & CL & CN) u'. set (w1 := store (u_cog u) v (u_world u)).
    destruct (keep_loads (u_world u) w1 (u_forces u)) as (OW1 & LW1 & PW1); auto; [unfold w1; rewrite length_store; lia| |].
    { intros r I. apply array_store_other. intros <-. auto. }
    split; [|split; [|split]].
    - split; [exact OW1|]. split; [change (u_cog u < length (arrays w1))%nat; unfold w1; rewrite length_store; lia|].
      change (~ In (u_cog u) (point_refs w1 (u_forces u))). rewrite PW1. auto.
    - apply array_store. auto.
    - exact LW1.
    - intros r (R1 & R2 & R3). split; [|apply array_store_other; auto]. split; [change (r < length (arrays w1))%nat; unfold w1; rewrite length_store; auto|].
      split; [exact R2|]. change (~ In r (point_refs w1 (u_forces u))). rewrite PW1. auto.
  Qed.

  Lemma keeps_update : forall m g u u1, keeps m g u ->
    u_world u1 = u_world u -> u_forces u1 = u_forces u -> u_cog u1 = u_cog u -> u_backup u1 = u_backup u -> u_init_mesh u1 = u_init_mesh u -> keeps m g u1.
  Proof. intros m g u u1 (K1 & (K2 & K3 & K4) & K5) E1 E2 E3 E4 E5. unfold keeps, outside. rewrite E1, E2, E3, E4, E5. auto. Qed.
  Lemma keeps_outside : forall m g u u1, keeps m g u -> u_backup u1 = u_backup u -> u_init_mesh u1 = u_init_mesh u ->
    (forall r, outside r u -> outside r u1 /\ array (u_world u1) r = array (u_world u) r) -> keeps m g u1.
  Proof. intros m g u u1 (K1 & K2 & K3) E1 E2 O. unfold keeps. rewrite E1, E2. destruct (O _ K2) as [O1 O2]. rewrite O2. auto. Qed.
  Lemma reset_inv : forall u u', apart u -> wired u -> reset argsort u = (Ok tt, u') ->
    exists u1, update_properties argsort (with_clipper None (replace_cog (array (u_world u) (u_backup u)) (with_mesh (u_init_mesh u) u))) = (Ok tt, u1) /\
      u' = with_rotation mid u1 /\ apart u' /\ known u' /\ u_mesh u' = u_init_mesh u /\ gravity_center u' = array (u_world u) (u_backup u) /\ loads u' = loads u /\
      u_solver u' = u_solver u /\ u_backup u' = u_backup u /\ u_init_mesh u' = u_init_mesh u /\ u_mass u' = u_mass u /\ u_rho u' = u_rho u /\ u_gravity u' = u_gravity u /\ 
      (forall r, outside r u -> outside r u' /\ array (u_world u') r = array (u_world u) r).
  Proof.
    intros u u' A W H. unfold reset in H. apply seq_inv in H. destruct H as ([] & v & E1 & H). injection E1 as <-.
    apply seq_inv in H. destruct H as ([] & v & E1 & H). injection E1 as <-. apply seq_inv in H. destruct H as ([] & u1 & E1 & H). injection H as <-.
    set (v0 := replace_cog (array (u_world u) (u_backup u)) (with_mesh (u_init_mesh u) u)) in *. exists u1. split; [exact E1|]. split; [auto|].
    destruct (replace_cog_apart (array (u_world u) (u_backup u)) (with_mesh (u_init_mesh u) u) A) as (A' & G' & L' & O'). fold v0 in A', G', L', O'.
    assert (F : fresh_clipper argsort (with_clipper None v0)) by (intros k K; discriminate).
    assert (W' : wired (with_clipper None v0)) by exact W.
    destruct (update_current _ _ W' F E1) as [U1 U2]. destruct (update_inv _ _ F E1) as (k & d & _ & _ & ->).
    split; [exact A'|]. split; [exact (conj U1 U2)|]. split; [reflexivity|]. split; [exact G'|]. split; [exact L'|]. repeat (split; [reflexivity|]). exact O'.
  Qed.
  Lemma solver_ok : forall b f u u', sound u -> set_solver b f u = (Ok tt, u') -> (b = true -> fit (with_solver (f (u_solver u)) u)) ->
    sound u' /\ (forall m g, keeps m g u -> keeps m g u').
  Proof.
    intros b f u u' (A & U & F & S) H Q. unfold set_solver in H. destruct b; [|discriminate]. injection H as <-.
    split; [split; [exact A|split; [exact U|split; [exact F|auto]]]|auto].
  Qed.
  Lemma between_lt : forall a b x, between a b x = true -> a < x < b.
  Proof. intros a b x H. unfold between in H. apply andb_true_iff in H. rewrite !Rltb_true in H. auto. Qed.
  Lemma perform_sound : forall c u u', sound u -> perform argsort c u = (Ok tt, u') ->
    sound u' /\ ((forall v, c <> CCenter v) -> forall m g, keeps m g u -> keeps m g u').
  Proof.
    intros c u u' S H. pose proof S as (A & U & F & T). pose proof (sound_wired u S) as W. destruct W as [W1 W2]. destruct T as [T1 T2].
    destruct c; cbn [perform] in H.
    - unfold set_gravity in H. apply seq_inv in H. destruct H as ([] & u1 & E1 & H). injection E1 as <-.
      apply update_sound in H; [destruct H as (S' & E); split; [exact S'|intros _ m0 g0 K; apply (keeps_update m0 g0 u); tauto]|exact A|split; reflexivity|exact F|split; auto].
    - unfold set_rho_water in H. apply seq_inv in H. destruct H as ([] & u1 & E1 & H). injection E1 as <-.
      apply update_sound in H; [destruct H as (S' & E); split; [exact S'|intros _ m0 g0 K; apply (keeps_update m0 g0 u); tauto]|exact A|split; [reflexivity|exact W2]|exact F|split; auto].
    - apply set_mass_inv in H. subst u'. split; [|auto]. split; [exact A|]. split; [|split; [exact F|split; auto]]. destruct U as [U _]. split; [exact U|]. split; [exact W1|reflexivity].
    - split; [|intros X; exfalso; eapply X; reflexivity]. unfold set_gravity_center in H. unfold set_gravity_array in H.
      apply seq_inv in H. destruct H as ([] & u1 & E1 & H). injection E1 as <-.
      destruct (replace_cog_apart v u A) as (A' & G' & L' & O'). apply update_sound in H; [tauto|exact A'|split; auto|exact F|split; auto].
    - unfold set_zg in H. apply seq_inv in H. destruct H as ([] & u1 & E1 & H). injection E1 as <-.
      destruct (write_cog_apart (V3 (vx (gravity_center u)) (vy (gravity_center u)) z) u A) as (A' & G' & L' & O').
      apply update_sound in H; [destruct H as (S' & E1 & E2 & E3 & E4 & E5); split; [exact S'|]|exact A'|split; auto|exact F|split; auto].
      intros _ m0 g0 K. apply (keeps_update m0 g0 (write_cog (V3 (vx (gravity_center u)) (vy (gravity_center u)) z) u)); auto. apply (keeps_outside m0 g0 u); auto.
    - apply seq_inv in H. destruct H as (z & u1 & E1 & H). injection H as <-. assert (B : 0 <= p_z_relax (u_solver u)) by lra.
      destruct (set_displacement_ok _ _ _ _ A (conj W1 W2) B T2 E1) as (i & hs & _ & _ & _ & _ & C & (K1 & K2)).
      pose proof (ca_body _ _ _ _ C) as [Bi _ _ Bs]. change (u_solver _) with (u_solver u) in Bs at 2. change (u_init_mesh _) with (u_init_mesh u) in Bi at 2. split.
      + split; [exact (ca_apart _ _ _ _ C)|]. split; [exact K1|]. split; [exact K2|]. unfold fit. rewrite Bs. auto.
      + intros _ m0 g0 K. apply (keeps_outside m0 g0 u); auto; [exact (ca_backup _ _ _ _ C)|exact (ca_outside _ _ _ _ C)].
    - destruct (reset_inv u u' A (conj W1 W2) H) as (u1 & _ & _ & A' & K' & _ & _ & _ & ES & EB & EI & _ & _ & _ & O').
      destruct K' as [K1 K2]. split; [split; [exact A'|split; [exact K1|split; [exact K2|unfold fit; rewrite ES; auto]]]|].
      intros _ m0 g0 K. apply (keeps_outside m0 g0 u); auto.
    - destruct (new_force_ok point value relative u u' A H) as (A' & L' & G' & E' & O'). split.
      + split; [exact A'|]. rewrite E' in *. destruct U as [(h & U1 & U2) U]. split; [split; [exists h; split; [|exact U2]|exact U]|split; [exact F|split; auto]].
        rewrite G'. exact U1.
      + intros _ m0 g0 K. apply (keeps_outside m0 g0 u); auto; rewrite E'; auto.
    - eapply solver_ok in H; [split; [apply H|intros _; apply H]|exact S|intros _; split; auto].
    - eapply solver_ok in H; [split; [apply H|intros _; apply H]|exact S|intros _; split; auto].
    - eapply solver_ok in H; [split; [apply H|intros _; apply H]|exact S|intros Q; apply between_lt in Q; split; [cbn; lra|auto]].
    - eapply solver_ok in H; [split; [apply H|intros _; apply H]|exact S|intros Q; apply Z.ltb_lt in Q; split; [auto|cbn; lia]].
    - eapply solver_ok in H; [split; [apply H|intros _; apply H]|exact S|intros _; split; auto].
    - unfold set_allow_unstable in H. eapply solver_ok in H; [split; [apply H|intros _; apply H]|exact S|intros _; split; auto].
  Qed.
  Lemma history_sound : forall u u', history argsort u u' -> sound u -> sound u'.
  Proof. intros u u' H S. induction H as [|u u1 u2 c H IH P]; auto. exact (proj1 (perform_sound _ _ _ (IH S) P)). Qed.
  (** The constructor *)
  Lemma constructor_ok : forall w m cog tons rho grav u, hydrostatics argsort w m cog tons rho grav = Ok u ->
    sound u /\ keeps m cog u /\ u_mesh u = m /\ gravity_center u = cog /\ u_rotation u = mid /\ u_rho u = rho /\ u_gravity u = grav /\ loads u = [] /\ u_solver u = default_solver /\
    u_mass u = match tons with Some t => if Reqb t 0 then d_mass (u_data u) else t * 1000 * 1000 | None => d_mass (u_data u) end.
  Proof.
    intros w m cog tons rho grav u H. unfold hydrostatics in H. unfold alloc in H. cbn [arrays objects] in H. set (w2 := mkWorld _ _) in H.
    set (u0 := mkHull _ _ _ _ _ _ _ _ _ _ _ _ _ _ _) in H.
    assert (LB : length (arrays w2) = S (S (length (arrays w)))) by (unfold w2; cbn [arrays]; rewrite !app_length; cbn; lia).
    assert (RB : array w2 (length (arrays w)) = cog). { unfold array, w2. cbn [arrays]. rewrite <- app_assoc, app_nth2, Nat.sub_diag by lia. auto. }
    assert (RC : array w2 (length (arrays w ++ [cog])) = cog). { unfold array, w2. cbn [arrays]. rewrite app_nth2, Nat.sub_diag by lia. auto. }
    assert (LC : length (arrays w ++ [cog]) = S (length (arrays w))) by (rewrite app_length; cbn; lia).
    assert (A0 : apart u0). { split; [repeat split; constructor|]. split; [change (length (arrays w ++ [cog]) < length (arrays w2))%nat; lia|intros []]. }
    assert (K0 : keeps m cog u0). { split; [reflexivity|]. split; [|exact RB]. split; [change (length (arrays w) < length (arrays w2))%nat; lia|]. split; [change (length (arrays w) <> length (arrays w ++ [cog])); lia|intros []]. }
    assert (F0 : fresh_clipper argsort u0) by (intros k X; discriminate).
    assert (W0 : wired u0) by (split; [reflexivity|change (0 = 0 * grav); ring]).
    assert (T0 : fit u0) by (split; [change (0 < 1 / 10); lra|change (1 <= 1000)%nat; lia]).
    destruct (update_properties argsort u0) as [[[]|e] u1] eqn:U; [|discriminate].
    destruct (update_sound u0 u1 A0 W0 F0 T0 U) as (S1 & _). destruct (update_inv u0 u1 F0 U) as (k & d & _ & _ & E1).
    assert (K1 : keeps m cog u1) by (rewrite E1; exact K0). assert (M1 : u_mesh u1 = m) by (rewrite E1; reflexivity). assert (G1 : gravity_center u1 = cog) by (rewrite E1; exact RC).
    assert (Q1 : u_rotation u1 = mid) by (rewrite E1; reflexivity). assert (RH : u_rho u1 = rho) by (rewrite E1; reflexivity). assert (GR : u_gravity u1 = grav) by (rewrite E1; reflexivity).
    assert (L1 : loads u1 = []) by (rewrite E1; reflexivity). assert (P1 : u_solver u1 = default_solver) by (rewrite E1; reflexivity). clearbody u0. clear E1 U.
    assert (FIN : forall x, sound (with_mass x (x * u_gravity u1) u1)).
    { intros x. destruct S1 as (S1 & (S2 & S3 & S3') & S4 & S5). split; [exact S1|]. split; [split; [exact S2|split; [exact S3|reflexivity]]|]. split; [exact S4|exact S5]. }
    destruct tons as [t|].
    - destruct (Reqb t 0) eqn:Z.
      + injection H as <-. split; [apply FIN|]. split; [exact K1|]. repeat (split; [assumption|]). reflexivity.
      + destruct (set_mass (t * 1000) u1) as [[[]|e] u2] eqn:SM; [|discriminate]. apply set_mass_inv in SM. injection H as <-. subst u2.
        split; [apply FIN|]. split; [exact K1|]. repeat (split; [assumption|]). reflexivity.
    - injection H as <-. split; [apply FIN|]. split; [exact K1|]. repeat (split; [assumption|]). reflexivity.
  Qed.
End Methods.
