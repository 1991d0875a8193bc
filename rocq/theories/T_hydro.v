(** Properties C60-C64, C85-C89: hydrostatics of a mesh (meshmagick/hydrostatics.py, compute_hydrostatics). *)
From Coq Require Import Reals List Arith Bool Lia Lra Psatz Permutation.
From Verif Require Import M_base P_base S_merge M_merge P_merge M_rotations S_rotations P_rotations M_mesh S_mesh P_mesh S_integral P_integral S_geometry M_geometry P_geometry P_volume P_quantities
  S_connectivity P_connectivity M_plane M_inertia M_clipper S_clipper P_cut P_curves P_waterline P_sharp M_hydro S_hydro P_hydro P_flat P_hydro2 P_wetted P_archimedes P_contour P_cones P_immersed P_report P_barge S_report P_waterplane P_extent P_afloat P_vee P_checks P_hull.
Import ListNotations.
Open Scope R_scope.

(** ** C60: moments of the waterplane *)
Theorem C60_total : forall vs at_cog b s polys, (exists r, add_polygons vs at_cog b s polys = Ok r) <->
  Forall (fun p => p <> [] /\ Forall (fun i => (i < length vs)%nat) p) polys.
Proof.
  intros. split; [intros (r & H); eapply add_polygons_inv; eauto|]. intros F. pose proof (add_polygons_ok vs at_cog b polys s F) as H.
  destruct (origin_of at_cog b). destruct H as (es & H & _). eauto.
Qed.
Lemma sums_inv : forall vs at_cog b polys s es, add_polygons vs at_cog b no_sums polys = Ok (s, es) ->
  let o := if at_cog then b else vzero in s = plus_sums (vx o) (vy o) no_sums (flat_map (polygon_sides vs) polys).
Proof.
  intros vs at_cog b polys s es H. pose proof (add_polygons_ok vs at_cog b polys no_sums (add_polygons_inv _ _ _ _ _ _ H)) as E.
  rewrite origin_eq in E. destruct E as (es' & E & _). rewrite H in E. injection E as -> _. destruct at_cog; reflexivity.
Qed.
(** Whatever triangles fill the polygons, the sums are the integrals over them. *)
Theorem C60_moments : forall vs at_cog b polys s es ts, add_polygons vs at_cog b no_sums polys = Ok (s, es) ->
  fills ts (flat_map (polygon_sides vs) polys) ->
  let o := if at_cog then b else vzero in let g := scale_sums s in
  is_flat_integral (fun _ => 1) ts (g0 g) /\
  is_flat_integral (fun v => vx v - vx o) ts (g1 g) /\
  is_flat_integral (fun v => vy v - vy o) ts (g2 g) /\
  is_flat_integral (fun v => (vx v - vx o) * (vx v - vx o)) ts (g4 g) /\
  is_flat_integral (fun v => (vy v - vy o) * (vy v - vy o)) ts (g5 g).
Proof.
  intros vs at_cog b polys s es ts H F. cbv zeta. rewrite (sums_inv _ _ _ _ _ _ H). set (o := if at_cog then b else vzero).
  unfold scale_sums, plus_sums, no_sums. cbn [g0 g1 g2 g4 g5]. rewrite !Rplus_0_l.
  split; [apply exact0; auto|]. split; [apply (exact1 (vx o) (vy o)); auto|]. split; [apply (exact2 (vx o) (vy o)); auto|].
  split; [apply (exact4 (vx o) (vy o)); auto|apply (exact5 (vx o) (vy o)); auto].
Qed.
(** Closed polygons are filled by the triangles that join their sides to any point. *)
Theorem C60_fan : forall o vs polys, Forall closed_polygon polys ->
  fills (fan o (flat_map (polygon_sides vs) polys)) (flat_map (polygon_sides vs) polys).
Proof. exact fan_fills. Qed.
(** Only the sides matter, neither their order nor the starting vertex. *)
Theorem C60_start : forall vs at_cog b polys polys' s es s' es',
  add_polygons vs at_cog b no_sums polys = Ok (s, es) -> add_polygons vs at_cog b no_sums polys' = Ok (s', es') ->
  Permutation (flat_map (polygon_sides vs) polys) (flat_map (polygon_sides vs) polys') -> s = s'.
Proof.
  intros vs at_cog b polys polys' s es s' es' H H' P. rewrite (sums_inv _ _ _ _ _ _ H), (sums_inv _ _ _ _ _ _ H').
  unfold plus_sums. f_equal; f_equal; apply run_perm; auto.
Qed.
Lemma pairs_snoc : forall b x y, pairs (b ++ [x; y]) = pairs (b ++ [x]) ++ [(x, y)].
Proof. induction b as [|a [|c b] IH]; intros x y; auto. change ((a, c) :: pairs ((c :: b) ++ [x; y]) = (a, c) :: pairs ((c :: b) ++ [x]) ++ [(x, y)]). rewrite IH. auto. Qed.
Lemma pairs_rev : forall b, pairs (rev b) = rev (map (fun e => (snd e, fst e)) (pairs b)).
Proof.
  induction b as [|x [|y b] IH]; auto. cbn [pairs map rev fst snd]. change (pairs (rev (x :: y :: b))) with (pairs (rev (y :: b) ++ [x])).
  cbn [rev] in *. rewrite <- app_assoc. cbn [app]. rewrite pairs_snoc, IH. auto.
Qed.
Lemma reverse_run : forall psi vs polys, (forall a b, psi a b = - psi b a) ->
  run psi (flat_map (polygon_sides vs) (map (@rev nat) polys)) = - run psi (flat_map (polygon_sides vs) polys).
Proof.
  intros psi vs polys A. induction polys as [|p ps IH]; [unfold run; cbn; ring|]. cbn [map flat_map]. rewrite !run_app, IH.
  assert (E : run psi (polygon_sides vs (rev p)) = - run psi (polygon_sides vs p)); [|rewrite E; ring].
  unfold polygon_sides. rewrite pairs_rev, map_rev. rewrite (run_perm psi _ _ (Permutation_sym (Permutation_rev _))).
  generalize (pairs p). intros l. unfold run, Rsum. induction l as [|e l IHl]; cbn [map fold_right fst snd] in *; [ring|]. rewrite IHl, A. ring.
Qed.
Theorem C60_reverse : forall vs at_cog b polys s es s' es',
  add_polygons vs at_cog b no_sums polys = Ok (s, es) -> add_polygons vs at_cog b no_sums (map (@rev nat) polys) = Ok (s', es') ->
  s' = mkSums (- g0 s) (- g1 s) (- g2 s) (- g3 s) (- g4 s) (- g5 s).
Proof.
  intros vs at_cog b polys s es s' es' H H'. rewrite (sums_inv _ _ _ _ _ _ H), (sums_inv _ _ _ _ _ _ H'). set (o := if at_cog then b else vzero).
  unfold plus_sums, no_sums. cbn [g0 g1 g2 g3 g4 g5]. rewrite !Rplus_0_l, !reverse_run; auto; intros; unfold side0, side1, side2, side3, side4, side5; ring.
Qed.
(** A triangle with a hole, counted from the point (1, 1). *)
Definition tri_points : list vec := [V3 0 0 0; V3 6 0 0; V3 0 6 0; V3 1 1 0; V3 1 2 0; V3 2 1 0].
Definition tri_hole : list (list nat) := [[0; 1; 2; 0]; [3; 4; 5; 3]]%nat.
Example tri_sums : exists s es, add_polygons tri_points true (V3 1 1 5) no_sums tri_hole = Ok (s, es) /\ Forall closed_polygon tri_hole /\
  g0 (scale_sums s) = 35 / 2 /\ g1 (scale_sums s) = 107 / 6 /\ g2 (scale_sums s) = 107 / 6.
Proof.
  destruct (proj2 (C60_total tri_points true (V3 1 1 5) no_sums tri_hole)) as ([s es] & E).
  { repeat constructor; try discriminate; cbn; lia. }
  exists s, es. split; auto. split; [repeat constructor|]. rewrite (sums_inv _ _ _ _ _ _ E).
  unfold scale_sums, plus_sums, run, Rsum, side0, side1, side2. cbn. repeat split; field.
Qed.
(** In a report, with any triangles filling the polygons of the clipper. *)
Theorem C60_hydrostatics : forall argsort m cog rho grav rot z at_cog lpp ap h, is_rotation rot ->
  compute_hydrostatics argsort m cog rho grav rot z at_cog lpp ap = Ok h ->
  exists k, mesh_clipper argsort sea_level close true (placed_mesh rot z m) = Ok k /\ Forall closed_polygon (polygons k) /\
    forall ts, fills ts (flat_map (polygon_sides (verts (clipped_crown k))) (polygons k)) -> right_waterplane at_cog rot z h ts.
Proof.
  intros argsort m cog rho grav rot z at_cog lpp ap h RO E. destruct (hydro_inv _ _ _ _ _ _ _ _ _ _ _ E) as (k & body & minx & maxx & miny & maxy & box & HR).
  exists k. split; [apply HR|]. split; [apply HR|]. intros ts F. exact (waterplane_right _ _ _ _ _ _ _ _ _ _ _ _ _ _ _ _ _ _ RO HR _ ts (fun psi => eq_refl) F).
Qed.
(** For meshes whose immersed part is known exactly, with any triangles filling the waterline. *)
Theorem C60_waterline : forall argsort m cog rho grav rot z at_cog lpp ap h ts, sorting argsort -> is_rotation rot ->
  compute_hydrostatics argsort m cog rho grav rot z at_cog lpp ap = Ok h -> floats_well (placed_mesh rot z m) ->
  fills ts (waterline sea_level close (placed_mesh rot z m)) -> right_waterplane at_cog rot z h ts.
Proof.
  intros argsort m cog rho grav rot z at_cog lpp ap h ts SA RO E FW F. destruct (hydro_inv _ _ _ _ _ _ _ _ _ _ _ E) as (k & body & minx & maxx & miny & maxy & box & HR).
  assert (PS := fun psi => plane_sides _ _ _ _ _ _ _ _ _ _ SA FW _ _ _ _ _ _ _ _ HR psi). exact (waterplane_right _ _ _ _ _ _ _ _ _ _ _ _ _ _ _ _ _ _ RO HR _ ts PS F).
Qed.

(** ** C61: the product of roll and pitch *)
Theorem C61_product : forall argsort m cog rho grav rot z at_cog lpp ap h, is_rotation rot ->
  compute_hydrostatics argsort m cog rho grav rot z at_cog lpp ap = Ok h ->
  exists k, mesh_clipper argsort sea_level close true (placed_mesh rot z m) = Ok k /\
    let sides := flat_map (polygon_sides (verts (clipped_crown k))) (polygons k) in let o := stiffness_origin at_cog rot z h in
    forall ts i, fills ts sides -> is_flat_integral (fun v => (vx v - vx o) * (vy v - vy o)) ts i ->
      kept_coefficient (- (rho * grav * (i - product_gap o sides / 24))) (m12 (h_stiffness_matrix h)).
Proof.
  intros argsort m cog rho grav rot z at_cog lpp ap h RO E. destruct (hydro_inv _ _ _ _ _ _ _ _ _ _ _ E) as (k & body & minx & maxx & miny & maxy & box & HR).
  exists k. split; [apply HR|]. cbv zeta. intros ts i F I. exact (product_reported _ _ _ _ _ _ _ _ _ _ _ _ _ _ _ _ _ _ RO HR _ ts (fun psi => eq_refl) F i I).
Qed.
Theorem C61_waterline : forall argsort m cog rho grav rot z at_cog lpp ap h ts i, sorting argsort -> is_rotation rot ->
  compute_hydrostatics argsort m cog rho grav rot z at_cog lpp ap = Ok h -> floats_well (placed_mesh rot z m) ->
  let sides := waterline sea_level close (placed_mesh rot z m) in let o := stiffness_origin at_cog rot z h in
  fills ts sides -> is_flat_integral (fun v => (vx v - vx o) * (vy v - vy o)) ts i ->
  kept_coefficient (- (rho * grav * (i - product_gap o sides / 24))) (m12 (h_stiffness_matrix h)).
Proof.
  intros argsort m cog rho grav rot z at_cog lpp ap h ts i SA RO E FW sides o F I.
  destruct (hydro_inv _ _ _ _ _ _ _ _ _ _ _ E) as (k & body & minx & maxx & miny & maxy & box & HR).
  assert (PS := fun psi => plane_sides _ _ _ _ _ _ _ _ _ _ SA FW _ _ _ _ _ _ _ _ HR psi). exact (product_reported _ _ _ _ _ _ _ _ _ _ _ _ _ _ _ _ _ _ RO HR _ ts PS F i I).
Qed.
(** It is right, namely zero, for waterlines with a symmetry through the origin of the matrix. *)
Theorem C61_symmetric : forall argsort m cog rho grav rot z at_cog lpp ap h ts, sorting argsort -> is_rotation rot ->
  compute_hydrostatics argsort m cog rho grav rot z at_cog lpp ap = Ok h -> floats_well (placed_mesh rot z m) ->
  let sides := waterline sea_level close (placed_mesh rot z m) in let o := stiffness_origin at_cog rot z h in
  fills ts sides -> (vx o = 0 /\ symmetric_sides mirror_x sides) \/ (vy o = 0 /\ symmetric_sides mirror_y sides) ->
  m12 (h_stiffness_matrix h) = 0 /\ is_flat_integral (fun v => (vx v - vx o) * (vy v - vy o)) ts 0.
Proof.
  intros argsort m cog rho grav rot z at_cog lpp ap h ts SA RO E FW sides o F I.
  destruct (hydro_inv _ _ _ _ _ _ _ _ _ _ _ E) as (k & body & minx & maxx & miny & maxy & box & HR).
  assert (PS := fun psi => plane_sides _ _ _ _ _ _ _ _ _ _ SA FW _ _ _ _ _ _ _ _ HR psi). exact (product_zero _ _ _ _ _ _ _ _ _ _ _ _ _ _ _ _ _ _ RO HR _ ts PS F I).
Qed.

(** ** C62: the stiffness matrix *)
Theorem C62_stiffness : forall argsort m cog rho grav rot z at_cog lpp ap h, is_rotation rot ->
  compute_hydrostatics argsort m cog rho grav rot z at_cog lpp ap = Ok h ->
  exists k, mesh_clipper argsort sea_level close true (placed_mesh rot z m) = Ok k /\
    forall ts, fills ts (flat_map (polygon_sides (verts (clipped_crown k))) (polygons k)) -> right_stiffness rho grav cog at_cog rot z h ts.
Proof.
  intros argsort m cog rho grav rot z at_cog lpp ap h RO E. destruct (hydro_inv _ _ _ _ _ _ _ _ _ _ _ E) as (k & body & minx & maxx & miny & maxy & box & HR).
  exists k. split; [apply HR|]. intros ts F. exact (stiffness_right _ _ _ _ _ _ _ _ _ _ _ _ _ _ _ _ _ _ RO HR _ ts (fun psi => eq_refl) F).
Qed.
Theorem C62_waterline : forall argsort m cog rho grav rot z at_cog lpp ap h ts, sorting argsort -> is_rotation rot ->
  compute_hydrostatics argsort m cog rho grav rot z at_cog lpp ap = Ok h -> floats_well (placed_mesh rot z m) ->
  fills ts (waterline sea_level close (placed_mesh rot z m)) -> right_stiffness rho grav cog at_cog rot z h ts.
Proof.
  intros argsort m cog rho grav rot z at_cog lpp ap h ts SA RO E FW F. destruct (hydro_inv _ _ _ _ _ _ _ _ _ _ _ E) as (k & body & minx & maxx & miny & maxy & box & HR).
  assert (PS := fun psi => plane_sides _ _ _ _ _ _ _ _ _ _ SA FW _ _ _ _ _ _ _ _ HR psi). exact (stiffness_right _ _ _ _ _ _ _ _ _ _ _ _ _ _ _ _ _ _ RO HR _ ts PS F).
Qed.

(** ** C63: the frame of the report *)
Theorem C63_centers : forall argsort m cog rho grav rot z at_cog lpp ap h, is_rotation rot ->
  compute_hydrostatics argsort m cog rho grav rot z at_cog lpp ap = Ok h ->
  (exists k body, mesh_clipper argsort sea_level close true (placed_mesh rot z m) = Ok k /\ eval_plain_mesh_inertias rho (clipped k) = Ok body /\
     placed rot z (h_buoyancy_center h) = rb_cog body /\ h_disp_mass h = rb_mass body) /\
  vz (placed rot z (h_waterplane_center h)) = 0 /\
  h_grav h = grav /\ h_rho_water h = rho /\ h_mesh h = m /\ h_rotmat_eq h = rot /\ h_z_eq h = z /\ h_cog h = cog.
Proof.
  intros argsort m cog rho grav rot z at_cog lpp ap h RO E. destruct (hydro_inv _ _ _ _ _ _ _ _ _ _ _ E) as (k & body & minx & maxx & miny & maxy & box & HR).
  split; [|split; [|eapply run_inputs; eauto]].
  - exists k, body. split; [apply HR|]. split; [apply HR|]. split; [eapply run_buoyancy; eauto|]. eapply run_fields; eauto.
  - eapply run_fields; eauto.
Qed.
(** Giving a position to the function, or moving the mesh and the center of gravity there, is the same. *)
Definition back_to (m : mesh) (cog : vec) (rot : mat) (z : R) (h : hydro) : hydro :=
  mkHydro (h_grav h) (h_rho_water h) m rot z cog (h_wet_surface_area h) (h_disp_volume h) (h_disp_mass h)
    (mvec (mtrans rot) (vsub (h_buoyancy_center h) (V3 0 0 z))) (mvec (mtrans rot) (vsub (h_waterplane_center h) (V3 0 0 z)))
    (h_waterplane_area h) (h_transversal_metacentric_radius h) (h_longitudinal_metacentric_radius h)
    (h_transversal_metacentric_height h) (h_longitudinal_metacentric_height h) (h_stiffness_matrix h)
    (h_length_at_waterline h) (h_breadth_at_waterline h) (h_length_overall_submerged h) (h_breadth_overall_submerged h) (h_draught h)
    (h_forward_perpendicular h) (h_breadth h) (h_trust_lpp h) (h_length_between_perpendiculars h)
    (h_Ixx h) (h_Iyy h) (h_Izz h) (h_Ixy h) (h_Ixz h) (h_Iyz h).
Theorem C63_moved : forall argsort m cog rho grav rot z at_cog lpp ap,
  compute_hydrostatics argsort m cog rho grav rot z at_cog lpp ap =
  match compute_hydrostatics argsort (placed_mesh rot z m) (placed rot z cog) rho grav mid 0 at_cog lpp ap with
  | Ok h => Ok (back_to m cog rot z h)
  | Raise e => Raise e
  end.
Proof.
  intros. unfold compute_hydrostatics. cbv zeta. rewrite !placed_mesh_eq.
  assert (I : forall v, placed mid 0 v = v) by (intros; unfold placed; apply vec_eq; vunfold; ring).
  assert (IM : placed_mesh mid 0 (placed_mesh rot z m) = placed_mesh rot z m).
  { unfold placed_mesh. cbn [verts faces]. f_equal. rewrite <- (map_id (map (placed rot z) (verts m))) at 2. apply map_ext. auto. }
  rewrite IM. change (V3 (vx (mvec rot cog)) (vy (mvec rot cog)) (vz (mvec rot cog) + z)) with (placed rot z cog).
  change (V3 (vx (mvec mid (placed rot z cog))) (vy (mvec mid (placed rot z cog))) (vz (mvec mid (placed rot z cog)) + 0)) with (placed mid 0 (placed rot z cog)). rewrite I.
  assert (TI : forall v, mvec (mtrans mid) v = v) by (intros; apply vec_eq; vunfold; ring).
  destruct (mesh_clipper argsort water vicinity_tol true (placed_mesh rot z m)) as [k|]; [|reflexivity]. cbn [bind].
  destruct (faces_properties (clipped k)) as [props|]; [|reflexivity]. cbn [bind].
  destruct (existsb (no_normal (verts (clipped k))) (faces (clipped k))); [reflexivity|].
  destruct (eval_plain_mesh_inertias rho (clipped k)) as [body|]; [|reflexivity]. cbn [bind].
  destruct (Reqb rho 0); [reflexivity|]. destruct (Reqb (rb_mass body / rho) 0); [reflexivity|].
  destruct (add_polygons (verts (clipped_crown k)) at_cog (rb_cog body) no_sums (polygons k)) as [[s es]|]; [|reflexivity]. cbn [bind].
  destruct (arr_min (map e_xmin es)); [|reflexivity]. cbn [bind]. destruct (arr_max (map e_xmax es)); [|reflexivity]. cbn [bind].
  destruct (arr_min (map e_ymin es)); [|reflexivity]. cbn [bind]. destruct (arr_max (map e_ymax es)); [|reflexivity]. cbn [bind].
  match goal with |- context [Reqb ?x 0] => destruct (Reqb x 0); [reflexivity|] end.
  destruct (axis_aligned_bbox (clipped k)); [|reflexivity]. cbn [bind]. unfold back_to.
  cbn [h_grav h_rho_water h_wet_surface_area h_disp_volume h_disp_mass h_buoyancy_center h_waterplane_center h_waterplane_area h_transversal_metacentric_radius
    h_longitudinal_metacentric_radius h_transversal_metacentric_height h_longitudinal_metacentric_height h_stiffness_matrix h_length_at_waterline h_breadth_at_waterline
    h_length_overall_submerged h_breadth_overall_submerged h_draught h_forward_perpendicular h_breadth h_trust_lpp h_length_between_perpendiculars h_Ixx h_Iyy h_Izz h_Ixy h_Ixz h_Iyz].
  rewrite !TI. assert (S : forall x y c, vsub (V3 x y c) (V3 0 0 z) = V3 x y (c - z)) by (intros; apply vec_eq; vunfold; ring).
  rewrite !S, !Ropp_0, !Rminus_0_r, Rminus_0_l. reflexivity.
Qed.

(** ** C64: the forward perpendicular *)
Theorem C64_forward_perpendicular : forall argsort m cog rho grav rot z at_cog lpp ap h, is_rotation rot ->
  compute_hydrostatics argsort m cog rho grav rot z at_cog lpp ap = Ok h ->
  exists k x, mesh_clipper argsort sea_level close true (placed_mesh rot z m) = Ok k /\
    is_max x (map (fun i => vx (point (verts (clipped_crown k)) i)) (concat (polygons k))) /\
    h_forward_perpendicular h = x + (if at_cog then 0 else vx (placed rot z (h_buoyancy_center h))).
Proof.
  intros argsort m cog rho grav rot z at_cog lpp ap h RO E. destruct (hydro_inv _ _ _ _ _ _ _ _ _ _ _ E) as (k & body & minx & maxx & miny & maxy & box & HR).
  destruct (run_dims _ _ _ _ _ _ _ _ _ _ _ _ _ _ _ _ _ _ RO HR) as (_ & [MI MA] & _ & _ & _ & _ & _ & FP & _).
  set (B := placed rot z (h_buoyancy_center h)) in *. exists k, (maxx + if at_cog then vx B else 0). split; [apply HR|]. split.
  - apply in_map_iff in MI as (i & EI & I). unfold at_x in *. split.
    + apply in_map_iff. exists i. split; auto. destruct at_cog; lra.
    + intros y Y. apply in_map_iff in Y as (j & <- & J). specialize (MA _ (in_map _ _ _ J)). cbv beta in MA. destruct at_cog; lra.
  - rewrite FP. destruct at_cog; ring.
Qed.
(** For meshes whose immersed part is known exactly: the foremost point of the waterline. *)
Theorem C64_waterline : forall argsort m cog rho grav rot z at_cog lpp ap h x, sorting argsort -> is_rotation rot ->
  compute_hydrostatics argsort m cog rho grav rot z at_cog lpp ap = Ok h -> floats_well (placed_mesh rot z m) ->
  is_max x (map (fun s => vx (fst s)) (waterline sea_level close (placed_mesh rot z m))) ->
  h_forward_perpendicular h = x + (if at_cog then 0 else vx (placed rot z (h_buoyancy_center h))).
Proof.
  intros argsort m cog rho grav rot z at_cog lpp ap h x SA RO E FW [XI XM]. destruct (hydro_inv _ _ _ _ _ _ _ _ _ _ _ E) as (k & body & minx & maxx & miny & maxy & box & HR).
  pose proof (plane_points _ _ _ _ _ _ _ _ _ _ SA FW _ _ _ _ _ _ _ _ HR) as PP.
  destruct (run_dims _ _ _ _ _ _ _ _ _ _ _ _ _ _ _ _ _ _ RO HR) as (_ & [MI MA] & _ & _ & _ & _ & _ & -> & _).
  set (B := placed rot z (h_buoyancy_center h)) in *. unfold at_x in *.
  apply in_map_iff in MI as (i & EI & I). apply in_map_iff in XI as (s & <- & J).
  assert (A : In (point (verts (clipped_crown k)) i) (map fst (waterline sea_level close (placed_mesh rot z m)))) by (apply PP, in_map; auto).
  apply in_map_iff in A as (t & ET & A). specialize (XM _ (in_map (fun s => vx (fst s)) _ _ A)). cbv beta in XM. rewrite ET in XM.
  assert (C : In (fst s) (map (point (verts (clipped_crown k))) (concat (polygons k)))) by (apply PP, in_map; auto).
  apply in_map_iff in C as (j & EJ & C). specialize (MA _ (in_map _ _ _ C)). cbv beta in MA. rewrite EJ in MA.
  destruct at_cog; lra.
Qed.

(** ** Examples for C60-C64: a box and a hull with a V section *)
Definition lid : list (vec * vec * vec) := [(w1, w2, w3); (w1, w3, w4)].
Lemma lid_fills : forall z, -2 + 1 / 500 < z < 1 - 1 / 500 -> fills lid (waterline sea_level close (placed_mesh mid z (afloat 0))).
Proof.
  intros z Z psi A. rewrite afloat_placed, af_line by auto. unfold lid, run, around. cbn. unfold Rsum. cbn [fold_right]. rewrite (A w3 w1). ring.
Qed.
(** The box of length 4 and breadth 2 at any draught meets the hypotheses. *)
Example box_waterplane : forall argsort z, sorting argsort -> -2 + 1 / 500 < z < 1 - 1 / 500 ->
  exists h, compute_hydrostatics argsort (afloat 0) (V3 2 1 0) 1025 9.81 mid z true None false = Ok h /\
    right_waterplane true mid z h lid /\ right_stiffness 1025 9.81 (V3 2 1 0) true mid z h lid /\
    h_waterplane_area h = 8 /\ placed mid z (h_waterplane_center h) = V3 2 1 0 /\ h_disp_volume h = 8 * (1 - z) /\ h_forward_perpendicular h = 4 /\
    m12 (h_stiffness_matrix h) = 0.
Proof.
  intros argsort z SA Z. destruct (box_ok argsort z 1025 9.81 (V3 2 1 0) true None false SA Z) as (h & E); try lra. exists h. split; auto.
  pose proof (box_floats z Z) as FW. pose proof (lid_fills z Z) as F.
  split; [eapply C60_waterline; eauto using mid_rotation|]. split; [eapply C62_waterline; eauto using mid_rotation|].
  split; [eapply box_plane; eauto|]. split; [eapply box_plane; eauto|]. split; [eapply box_volume; eauto|]. split.
  - rewrite (C64_waterline argsort (afloat 0) (V3 2 1 0) 1025 9.81 mid z true None false h 4 SA mid_rotation E FW); [ring|].
    rewrite afloat_placed, af_line by auto. unfold w1, w2, w3, w4. split; [cbn; tauto|]. intros y Y. cbn in Y. repeat destruct Y as [<-|Y]; try lra; contradiction.
  - assert (I : is_flat_integral (fun v => (vx v - 2) * (vy v - 1)) lid 0).
    { pose proof (exact3 2 1 lid _ F) as I. rewrite afloat_placed, af_line in I by auto. eapply eq_ind; [exact I|].
      unfold run, Rsum, side3, missing, w1, w2, w3, w4. cbn. field. }
    assert (O : stiffness_origin true mid z h = V3 2 1 ((z - 1) / 2)) by (unfold stiffness_origin; eapply box_center; eauto).
    pose proof (C61_waterline argsort (afloat 0) (V3 2 1 0) 1025 9.81 mid z true None false h lid 0 SA mid_rotation E FW F) as K. cbv zeta in K. rewrite O in K.
    destruct (K I) as [[_ ->]|[_ ->]]; auto. rewrite afloat_placed, af_line by auto. unfold product_gap, run, Rsum, w1, w2, w3, w4. cbn. field.
Qed.
(** The product of roll and pitch of the same box about the origin is 40/3 instead of 16. *)
Theorem C61_refuted : forall argsort, sorting argsort -> exists m h ts,
  compute_hydrostatics argsort m vzero 1 1 mid 0 false None false = Ok h /\ floats_well (placed_mesh mid 0 m) /\
  fills ts (waterline sea_level close (placed_mesh mid 0 m)) /\
  is_flat_integral (fun v => vx v * vy v) ts 16 /\ m12 (h_stiffness_matrix h) = - (40 / 3).
Proof.
  intros argsort SA. assert (Z : -2 + 1 / 500 < 0 < 1 - 1 / 500) by lra.
  destruct (box_ok argsort 0 1 1 vzero false None false SA Z) as (h & E); try lra. pose proof (box_floats 0 Z) as FW. pose proof (lid_fills 0 Z) as F.
  exists (afloat 0), h, lid. split; auto. split; auto. split; auto.
  assert (I : is_flat_integral (fun v => (vx v - 0) * (vy v - 0)) lid 16).
  { pose proof (exact3 0 0 lid _ F) as I. rewrite afloat_placed, af_line in I by auto. eapply eq_ind; [exact I|].
    unfold run, Rsum, side3, missing, w1, w2, w3, w4. cbn. field. }
  split.
  - eapply flat_ext; [|exact I]. intros v. cbv beta. ring.
  - destruct (C61_waterline argsort (afloat 0) vzero 1 1 mid 0 false None false h lid 16 SA mid_rotation E FW F) as [K|K]; [exact I| |].
    + destruct K as [_ ->]. rewrite afloat_placed, af_line by auto. unfold product_gap, run, Rsum, w1, w2, w3, w4. cbn. field.
    + exfalso. destruct K as [K _]. revert K. rewrite afloat_placed, af_line by auto. unfold product_gap, run, Rsum, w1, w2, w3, w4. cbn.
      unfold Rabs. destruct (Rcase_abs _); lra.
Qed.
Lemma vee_placed : placed_mesh mid 0 vee = vee.
Proof. unfold placed_mesh, vee. cbn [verts faces map]. f_equal. repeat (apply f_equal2; [apply vec_eq; unfold placed; cbv zeta; vunfold; ring|]). reflexivity. Qed.
Lemma vee_ok : forall argsort cog rho grav at_cog lpp ap, sorting argsort -> rho <> 0 -> grav <> 0 ->
  exists h, compute_hydrostatics argsort vee cog rho grav mid 0 at_cog lpp ap = Ok h.
Proof.
  intros argsort cog rho grav at_cog lpp ap SA R0 G0. assert (FW : floats_well (placed_mesh mid 0 vee)) by (rewrite vee_placed; apply vee_floats).
  pose proof (outcomes argsort vee cog rho grav mid 0 at_cog lpp ap SA FW) as O. cbv beta zeta in O. rewrite vee_placed, vee_volume, vee_line in O.
  destruct (O vee_strict) as (_ & _ & _ & O4). apply O4; auto. unfold run, Rsum, side0, v1, v2, v3, v4. cbn. lra.
Qed.
(** The V section is symmetric: its product is right. *)
Example vee_symmetric : forall argsort, sorting argsort -> exists h,
  compute_hydrostatics argsort vee vzero 1025 9.81 mid 0 false None false = Ok h /\ m12 (h_stiffness_matrix h) = 0.
Proof.
  intros argsort SA. destruct (vee_ok argsort vzero 1025 9.81 false None false SA) as (h & E); try lra. exists h. split; auto.
  assert (FW : floats_well (placed_mesh mid 0 vee)) by (rewrite vee_placed; apply vee_floats).
  destruct (C61_symmetric argsort vee vzero 1025 9.81 mid 0 false None false h [(v2, v1, v3); (v2, v3, v4)] SA mid_rotation E FW) as [K _]; auto.
  - intros psi A. rewrite vee_placed, vee_line. unfold run, around. cbn. unfold Rsum. cbn [fold_right]. rewrite (A v3 v2). ring.
  - left. split; [reflexivity|]. intros psi. rewrite vee_placed, vee_line. unfold run, Rsum. cbn [map fold_right fst snd].
    assert (M1 : mirror_x v1 = v2) by (unfold mirror_x, v1, v2; cbn; f_equal; ring). assert (M2 : mirror_x v2 = v1) by (unfold mirror_x, v1, v2; cbn; f_equal; ring).
    assert (M3 : mirror_x v3 = v4) by (unfold mirror_x, v3, v4; cbn; f_equal; ring). assert (M4 : mirror_x v4 = v3) by (unfold mirror_x, v3, v4; cbn; f_equal; ring).
    rewrite M1, M2, M3, M4. ring.
Qed.

(** ** C85: volume, mass, center of buoyancy and wet surface *)
Theorem C85_displacement : forall argsort m cog rho grav rot z at_cog lpp ap h, sorting argsort -> is_rotation rot ->
  compute_hydrostatics argsort m cog rho grav rot z at_cog lpp ap = Ok h -> floats_well (placed_mesh rot z m) ->
  let M := placed_mesh rot z m in let B := placed rot z (h_buoyancy_center h) in let V := h_disp_volume h in
  is_immersed_integral (fun _ => 1) M V /\ V <> 0 /\ h_disp_mass h = rho * V /\
  is_immersed_integral vx M (V * vx B) /\ is_immersed_integral vy M (V * vy B) /\ is_immersed_integral vz M (V * vz B).
Proof.
  intros argsort m cog rho grav rot z at_cog lpp ap h SA RO E FW M B V.
  destruct (volume_report _ _ _ _ _ _ _ _ _ _ SA FW h RO E) as (V1 & V2 & V3 & _). destruct (center_report _ _ _ _ _ _ _ _ _ _ SA FW h RO E) as (C1 & C2 & C3).
  unfold is_immersed_integral, V, B. rewrite C1, C2, C3.
  split; [rewrite V1; apply cones_exact, cone0_exact|]. split; auto. split; auto.
  split; [|split]; apply cones_exact; intros; apply cone1_exact; unfold coordinate; tauto.
Qed.
(** The integral above closes the immersed surface by a lid at the sea level: any apex gives the same volume. *)
Theorem C85_lid : forall argsort m cog rho grav rot z at_cog lpp ap h ts o, sorting argsort -> is_rotation rot ->
  compute_hydrostatics argsort m cog rho grav rot z at_cog lpp ap = Ok h -> floats_well (placed_mesh rot z m) ->
  let M := placed_mesh rot z m in fills ts (waterline sea_level close M) -> at_sea_level ts ->
  triangles_volume o (immersed_triangles sea_level close M) + triangles_volume o ts = h_disp_volume h.
Proof.
  intros argsort m cog rho grav rot z at_cog lpp ap h ts o SA RO E FW M F L.
  destruct (volume_report _ _ _ _ _ _ _ _ _ _ SA FW h RO E) as (-> & _). destruct (floats_clip argsort SA M FW) as (k & CL).
  exact (sea_lid argsort SA M FW k CL ts o F L).
Qed.
Theorem C85_wet_surface : forall argsort m cog rho grav rot z at_cog lpp ap h u, sorting argsort -> is_rotation rot ->
  compute_hydrostatics argsort m cog rho grav rot z at_cog lpp ap = Ok h -> floats_well (placed_mesh rot z m) ->
  let M := placed_mesh rot z m in (forall f, In f (faces M) -> unit (u f) /\ turns_along (u f) (outline (verts M) f)) ->
  h_wet_surface_area h = Rsum (map (fun f => fan_area (u f) (immersed_fan sea_level close (outline (verts M) f))) (faces M)).
Proof. intros argsort m cog rho grav rot z at_cog lpp ap h u SA RO E FW M U. apply (wet_report _ _ _ _ _ _ _ _ _ _ SA FW h E u U). Qed.

(** ** C86: the pressure of the water is the weight of the displaced water at the center of buoyancy *)
Theorem C86_force : forall argsort m cog rho grav rot z at_cog lpp ap h, sorting argsort -> is_rotation rot ->
  compute_hydrostatics argsort m cog rho grav rot z at_cog lpp ap = Ok h -> floats_well (placed_mesh rot z m) ->
  let M := placed_mesh rot z m in
  is_immersed_flux (fun x n => rho * grav * vz x * vx n) M 0 /\ is_immersed_flux (fun x n => rho * grav * vz x * vy n) M 0 /\
  is_immersed_flux (fun x n => rho * grav * vz x * vz n) M (h_disp_mass h * grav).
Proof.
  intros argsort m cog rho grav rot z at_cog lpp ap h SA RO E FW M.
  destruct (volume_report _ _ _ _ _ _ _ _ _ _ SA FW h RO E) as (V1 & V2 & V3 & _). destruct (buoyancy_force argsort _ SA FW) as (F1 & F2 & F3).
  unfold is_immersed_flux. rewrite V2, V1.
  split; [|split].
  - eapply flux_ext; [| |apply (flux_scale (rho * grav) _ _ _ F1)]; [intros; cbv beta; ring|ring].
  - eapply flux_ext; [| |apply (flux_scale (rho * grav) _ _ _ F2)]; [intros; cbv beta; ring|ring].
  - eapply flux_ext; [| |apply (flux_scale (rho * grav) _ _ _ F3)]; [intros; cbv beta; ring|cbv beta; ring].
Qed.
Theorem C86_moment : forall argsort m cog rho grav rot z at_cog lpp ap h q, sorting argsort -> is_rotation rot ->
  compute_hydrostatics argsort m cog rho grav rot z at_cog lpp ap = Ok h -> floats_well (placed_mesh rot z m) ->
  let M := placed_mesh rot z m in let B := placed rot z (h_buoyancy_center h) in let W := h_disp_mass h * grav in let k := rho * grav in
  is_immersed_flux (fun x n => (vy x - vy q) * (k * vz x * vz n) - (vz x - vz q) * (k * vz x * vy n)) M (W * (vy B - vy q)) /\
  is_immersed_flux (fun x n => (vz x - vz q) * (k * vz x * vx n) - (vx x - vx q) * (k * vz x * vz n)) M (- (W * (vx B - vx q))) /\
  is_immersed_flux (fun x n => (vx x - vx q) * (k * vz x * vy n) - (vy x - vy q) * (k * vz x * vx n)) M 0.
Proof.
  intros argsort m cog rho grav rot z at_cog lpp ap h q SA RO E FW M B W k.
  destruct (volume_report _ _ _ _ _ _ _ _ _ _ SA FW h RO E) as (V1 & V2 & V3 & _). destruct (center_report _ _ _ _ _ _ _ _ _ _ SA FW h RO E) as (C1 & C2 & C3).
  destruct (moment_about argsort _ SA FW k q) as (M1 & M2 & M3). rewrite <- V1, <- C1, <- C2 in *. unfold is_immersed_flux.
  split; [|split; auto].
  - eapply flux_ext; [reflexivity| |exact M1]. unfold W, B, k. rewrite V2. ring.
  - eapply flux_ext; [reflexivity| |exact M2]. unfold W, B, k. rewrite V2. ring.
Qed.
(** The box floats at the depth where its displaced mass is its mass. *)
Example box_displacement : forall argsort z, sorting argsort -> -2 + 1 / 500 < z < 1 - 1 / 500 ->
  exists h, compute_hydrostatics argsort (afloat 0) (V3 2 1 0) 1025 9.81 mid z true None false = Ok h /\
    floats_well (placed_mesh mid z (afloat 0)) /\ h_disp_mass h = 8200 * (1 - z) /\ placed mid z (h_buoyancy_center h) = V3 2 1 ((z - 1) / 2).
Proof.
  intros argsort z SA Z. destruct (box_ok argsort z 1025 9.81 (V3 2 1 0) true None false SA Z) as (h & E); try lra. exists h. split; auto.
  pose proof (box_floats z Z) as FW. split; auto. split; [|eapply box_center; eauto].
  destruct (C85_displacement _ _ _ _ _ _ _ _ _ _ _ SA mid_rotation E FW) as (_ & _ & -> & _). rewrite (box_volume argsort z 1025 9.81 (V3 2 1 0) true None false SA Z h E). field.
Qed.

(** ** C87: when there is a report *)
Theorem C87_outcomes : forall argsort m cog rho grav rot z at_cog lpp ap V A ts, sorting argsort ->
  let M := placed_mesh rot z m in floats_well M -> strict_mesh M -> is_immersed_integral (fun _ => 1) M V ->
  fills ts (waterline sea_level close M) -> is_flat_integral (fun _ => 1) ts A ->
  let out := compute_hydrostatics argsort m cog rho grav rot z at_cog lpp ap in
  (rho = 0 \/ V = 0 -> out = Raise NotANumber) /\
  (rho <> 0 -> V <> 0 -> waterline sea_level close M = [] -> out = Raise ValueError) /\
  (rho <> 0 -> V <> 0 -> waterline sea_level close M <> [] -> grav = 0 \/ A = 0 -> out = Raise NotANumber) /\
  (rho <> 0 -> V <> 0 -> grav <> 0 -> A <> 0 -> exists h, out = Ok h).
Proof.
  intros argsort m cog rho grav rot z at_cog lpp ap V A ts SA M FW SM IV F IA out.
  pose proof (outcomes argsort m cog rho grav rot z at_cog lpp ap SA FW SM) as O. cbv beta zeta in O. fold M out in O.
  assert (EV : V = Rsum (map (fun t => let '(a, b, c) := t in tetra vzero a b c) (immersed_triangles sea_level close M))).
  { eapply cones_unique; [exact IV|]. apply cones_exact, cone0_exact. }
  assert (EA : A = run (side0 0 0) (waterline sea_level close M) / 2) by (eapply flat_unique; [exact IA|]; apply exact0; auto).
  rewrite <- EV in O. destruct O as (O1 & O2 & O3 & O4). repeat split; auto.
  - intros R V0 W [G|A0]; apply O3; auto. right. lra.
  - intros R V0 G A0. apply O4; auto. intros X. apply A0. rewrite EA, X. field.
Qed.
(** The waterplane is what the immersed surface covers. *)
Theorem C87_projection : forall argsort m cog rho grav rot z at_cog lpp ap h, sorting argsort -> is_rotation rot ->
  compute_hydrostatics argsort m cog rho grav rot z at_cog lpp ap = Ok h -> floats_well (placed_mesh rot z m) ->
  is_immersed_flux (fun _ n => vz n) (placed_mesh rot z m) (- h_waterplane_area h).
Proof.
  intros argsort m cog rho grav rot z at_cog lpp ap h SA RO E FW. destruct (hydro_inv _ _ _ _ _ _ _ _ _ _ _ E) as (k & body & minx & maxx & miny & maxy & box & HR).
  pose proof (plane_sides _ _ _ _ _ _ _ _ _ _ SA FW _ _ _ _ _ _ _ _ HR) as PS.
  destruct (run_fields _ _ _ _ _ _ _ _ _ _ _ _ _ _ _ _ _ _ RO HR) as (A & _). eapply flux_ext; [reflexivity| |apply (normal_flux argsort _ SA FW)].
  f_equal. rewrite A, <- PS. set (ox := if at_cog then _ else _). set (oy := if at_cog then vy _ else _). clearbody ox oy.
  assert (T : forall g : vec -> R, run (fun x y => g y - g x) (flat_map (polygon_sides (verts (clipped_crown k))) (polygons k)) = 0).
  { intros g. pose proof (hr_closed _ _ _ _ _ _ _ _ _ _ _ _ _ _ _ _ _ _ HR) as CP. clear - CP. induction CP as [|p ps C CP IH]; [reflexivity|]. cbn [flat_map]. rewrite run_app, IH, polygon_telescope by auto. ring. }
  set (sd := flat_map (polygon_sides (verts (clipped_crown k))) (polygons k)) in *.
  specialize (T (fun v => / 2 * (vx v * vy v) - ox * vy v)).
  replace (run (side0 ox oy) sd / 2) with (run (fun a b => / 2 * (vx a * vy b - vy a * vx b)) sd + run (fun x y => / 2 * (vx y * vy y) - ox * vy y - (/ 2 * (vx x * vy x) - ox * vy x)) sd); [rewrite T; ring|].
  unfold run. rewrite <- Rsum_map_add. unfold Rdiv. rewrite Rmult_comm, <- Rsum_map_scale. apply Rsum_map_ext. intros [a b] _. cbn [fst snd]. unfold side0. field.
Qed.
(** A pyramid hanging from the sea level by its apex: there is no waterline. *)
Definition hanging : mesh := mkMesh [V3 0 0 0; V3 1 0 (-2); V3 0 1 (-2); V3 0 0 (-2)] [F4 0 1 2 0; F4 1 3 2 1; F4 0 2 3 0; F4 0 3 1 0].
Ltac corner := unfold sorted_out, is_above, is_below, is_near, exactly_at, close; rewrite ?sea_height; cbn [vz]; intros;
  first [match goal with |- context [Rabs ?x] => unfold Rabs; destruct (Rcase_abs x); intros ?; lra end | lra | intros ?; lra].
Ltac sides := repeat match goal with
  | |- context [below_dec ?p ?t ?x] => first [let H := fresh in destruct (below_dec p t x) as [H|H]; [|exfalso; apply H; clear H; corner]
                                             |let H := fresh in destruct (below_dec p t x) as [H|H]; [exfalso; revert H; corner|]]
  | |- context [above_dec ?p ?t ?x] => first [let H := fresh in destruct (above_dec p t x) as [H|H]; [|exfalso; apply H; clear H; corner]
                                             |let H := fresh in destruct (above_dec p t x) as [H|H]; [exfalso; revert H; corner|]]
  end.
Lemma hanging_line : waterline sea_level close hanging = [].
Proof.
  unfold waterline, hanging. cbn [faces verts flat_map]. unfold face_waterline, touching. cbn. unfold touching, entering, leaving. cbn [filter fst snd flat_map app]. sides. cbn [app].
  sides. reflexivity.
Qed.
Lemma hanging_floats : floats_well hanging.
Proof.
  constructor.
  - apply valid_check_ok. reflexivity.
  - apply closed_check_ok. reflexivity.
  - unfold hanging. cbn [faces]. repeat (apply Forall_cons; [exact I|]). apply Forall_nil.
  - unfold settled, hanging. cbn [faces]. repeat (apply Forall_cons; [cbn; repeat (apply Forall_cons; [corner|]); apply Forall_nil|]). apply Forall_nil.
  - intros v J N. cbn in J. repeat (destruct J as [<-|J]; [first [reflexivity|exfalso; revert N; corner]|]). contradiction.
  - apply Forall_forall. intros f J (a & b & c & d & [k T] & _). apply (f_equal (@length vec)) in T. rewrite app_length in T. cbn in J.
    repeat (destruct J as [<-|J]; [cbn in T; destruct k as [|[|[|[|k]]]]; cbn in T; discriminate|]). contradiction.
  - apply Forall_forall. intros f J (a & b & c & d & [k T] & _). apply (f_equal (@length vec)) in T. rewrite app_length in T. cbn in J.
    repeat (destruct J as [<-|J]; [cbn in T; destruct k as [|[|[|[|k]]]]; cbn in T; discriminate|]). contradiction.
  - intros H. inversion H as [|? ? X]; subst. revert X. corner.
  - intros H. inversion H as [|? ? X]; subst. revert X. corner.
  - exists (F4 0 1 2 0). split; [simpl; auto|]. split; [exists (V3 1 0 (-2))|exists (V3 0 0 0)]; (split; [cbn; auto|corner]).
  - assert (P : forall x, cut_point sea_level close hanging x -> In x (verts hanging)).
    { intros x [J|(f & a & b & J & K & H & _)]; auto. exfalso. cbn in J.
      repeat (destruct J as [<-|J]; [cbn in K; repeat (destruct K as [K|K]; [injection K as <- <-; revert H; unfold is_above, is_below, close; rewrite !sea_height; cbn [vz]; lra|]); contradiction|]).
      contradiction. }
    intros x y X Y (NX & NY & NZ). apply P in X. apply P in Y. unfold clip_move in *.
    assert (A : forall u, Rabs u <= 1 / 100000 + 1 / 100000000 -> - (1 / 1000) <= u <= 1 / 1000) by (intros u H; unfold Rabs in H; destruct (Rcase_abs u); lra).
    apply A in NX. apply A in NY. apply A in NZ. cbn in X, Y.
    repeat (destruct X as [<-|X]; [repeat (destruct Y as [<-|Y]; [first [reflexivity|exfalso; cbn [vx vy vz] in *; lra]|]); contradiction|]). contradiction.
  - rewrite hanging_line. constructor.
Qed.
Lemma hanging_strict : strict_mesh hanging.
Proof.
  assert (D : forall u a b c, 0 < dot u (triangle_normal a b c) -> triangle_normal a b c = vscale (dot u (triangle_normal a b c)) u -> ahead u (triangle_normal a b c)) by (intros u a b c H E; exists (dot u (triangle_normal a b c)); auto).
  unfold strict_mesh, hanging. cbn [faces]. repeat (apply Forall_cons; [cbn|]); [..|apply Forall_nil].
  - exists (V3 (2/3) (2/3) (1/3)). split; [unfold unit; vunfold; field|]. apply D; [|apply vec_eq]; unfold triangle_normal; vunfold; lra.
  - exists (V3 0 0 (-1)). split; [unfold unit; vunfold; field|]. apply D; [|apply vec_eq]; unfold triangle_normal; vunfold; lra.
  - exists (V3 (-1) 0 0). split; [unfold unit; vunfold; field|]. apply D; [|apply vec_eq]; unfold triangle_normal; vunfold; lra.
  - exists (V3 0 (-1) 0). split; [unfold unit; vunfold; field|]. apply D; [|apply vec_eq]; unfold triangle_normal; vunfold; lra.
Qed.
Example hanging_refused : forall argsort cog at_cog lpp ap, sorting argsort ->
  compute_hydrostatics argsort hanging cog 1025 9.81 mid 0 at_cog lpp ap = Raise ValueError /\
  compute_hydrostatics argsort hanging cog 0 9.81 mid 0 at_cog lpp ap = Raise NotANumber.
Proof.
  intros argsort cog at_cog lpp ap SA. assert (P : placed_mesh mid 0 hanging = hanging).
  { unfold placed_mesh, hanging. cbn [verts faces map]. f_equal. repeat (apply f_equal2; [apply vec_eq; unfold placed; cbv zeta; vunfold; ring|]). reflexivity. }
  assert (V : is_immersed_integral (fun _ => 1) hanging (1 / 3)).
  { eapply cones_ext; [reflexivity| |apply cones_exact, cone0_exact]. unfold immersed_triangles, hanging. cbn [faces verts flat_map]. unfold immersed_fan, immersed_border. cbn.
    unfold face_waterline, touching, entering, leaving. cbn. sides. cbn [app map fst snd]. sides. cbn [app map fst snd]. unfold Rsum, tetra. cbn [map fold_right]. vunfold. field. }
  assert (F : fills [] (waterline sea_level close hanging)) by (intros psi _; rewrite hanging_line; reflexivity).
  assert (A : is_flat_integral (fun _ => 1) [] 0) by (exists []; split; [constructor|reflexivity]).
  split.
  - pose proof (C87_outcomes argsort hanging cog 1025 9.81 mid 0 at_cog lpp ap (1 / 3) 0 [] SA) as H. cbv zeta in H. rewrite P in H.
    destruct (H hanging_floats hanging_strict V F A) as (_ & H2 & _). apply H2; try lra. apply hanging_line.
  - pose proof (C87_outcomes argsort hanging cog 0 9.81 mid 0 at_cog lpp ap (1 / 3) 0 [] SA) as H. cbv zeta in H. rewrite P in H.
    destruct (H hanging_floats hanging_strict V F A) as (H1 & _). auto.
Qed.
Example box_reported : forall argsort z cog at_cog lpp ap, sorting argsort -> -2 + 1 / 500 < z < 1 - 1 / 500 ->
  (exists h, compute_hydrostatics argsort (afloat 0) cog 1025 9.81 mid z at_cog lpp ap = Ok h) /\
  compute_hydrostatics argsort (afloat 0) cog 1025 0 mid z at_cog lpp ap = Raise NotANumber.
Proof.
  intros argsort z cog at_cog lpp ap SA Z. split; [apply (box_ok argsort z 1025 9.81 cog at_cog lpp ap SA Z); lra|].
  destruct (box_ok argsort z 1025 9.81 cog at_cog lpp ap SA Z) as (h & E); try lra. pose proof (box_floats z Z) as FW. pose proof (lid_fills z Z) as F.
  destruct (C85_displacement _ _ _ _ _ _ _ _ _ _ _ SA mid_rotation E FW) as (V & V0 & _).
  destruct (C60_waterline argsort _ _ _ _ _ _ _ _ _ _ lid SA mid_rotation E FW F) as (A & _).
  assert (SM : strict_mesh (placed_mesh mid z (afloat 0))) by (rewrite afloat_placed; apply af_strict).
  destruct (C87_outcomes argsort (afloat 0) cog 1025 0 mid z at_cog lpp ap _ _ lid SA FW SM V F A) as (_ & _ & O & _). apply O; auto.
  rewrite afloat_placed, af_line by auto. discriminate.
Qed.

(** ** C88: the inertia of the displaced water *)
Theorem C88_inertia : forall argsort m cog rho grav rot z at_cog lpp ap h, sorting argsort -> is_rotation rot ->
  compute_hydrostatics argsort m cog rho grav rot z at_cog lpp ap = Ok h -> floats_well (placed_mesh rot z m) ->
  let M := placed_mesh rot z m in let B := placed rot z (h_buoyancy_center h) in let G := placed rot z cog in let w := h_disp_mass h in
  (forall i, is_immersed_integral (fun v => (vy v - vy G) * (vy v - vy G) + (vz v - vz G) * (vz v - vz G)) M i -> h_Ixx h = rho * i + 2 * w * (vy G * vy B + vz G * vz B)) /\
  (forall i, is_immersed_integral (fun v => (vx v - vx G) * (vx v - vx G) + (vz v - vz G) * (vz v - vz G)) M i -> h_Iyy h = rho * i + 2 * w * (vx G * vx B + vz G * vz B)) /\
  (forall i, is_immersed_integral (fun v => (vx v - vx G) * (vx v - vx G) + (vy v - vy G) * (vy v - vy G)) M i -> h_Izz h = rho * i + 2 * w * (vx G * vx B + vy G * vy B)) /\
  (forall i, is_immersed_integral (fun v => (vx v - vx G) * (vy v - vy G)) M i -> h_Ixy h = rho * i + w * (vx G * vy B + vy G * vx B)) /\
  (forall i, is_immersed_integral (fun v => (vx v - vx G) * (vz v - vz G)) M i -> h_Ixz h = rho * i + w * (vx G * vz B + vz G * vx B)) /\
  (forall i, is_immersed_integral (fun v => (vy v - vy G) * (vz v - vz G)) M i -> h_Iyz h = rho * i + w * (vy G * vz B + vz G * vy B)).
Proof.
  intros argsort m cog rho grav rot z at_cog lpp ap h SA RO E FW M B G w.
  destruct (volume_report _ _ _ _ _ _ _ _ _ _ SA FW h RO E) as (V1 & V2 & _). destruct (center_report _ _ _ _ _ _ _ _ _ _ SA FW h RO E) as (C1 & C2 & C3).
  destruct (inertia_report _ _ _ _ _ _ _ _ _ _ SA FW h RO E) as (I1 & I2 & I3 & I4 & I5 & I6).
  fold B in C1, C2, C3. fold G in I1, I2, I3, I4, I5, I6. fold w in I1, I2, I3, I4, I5, I6, V2. set (V := h_disp_volume h) in *.
  set (T := immersed_triangles sea_level close M) in *. fold M T in V1, C1, C2, C3, I1, I2, I3, I4, I5, I6. unfold is_immersed_integral. fold T.
  pose (S2 := fun p q : vec -> R => Rsum (map (fun t => let '(a, b, c) := t in cone2 p q a b c) T)).
  change (h_Ixx h = rho * (S2 vy vy + S2 vz vz) + w * (vy G * vy G + vz G * vz G)) in I1. change (h_Iyy h = rho * (S2 vx vx + S2 vz vz) + w * (vx G * vx G + vz G * vz G)) in I2.
  change (h_Izz h = rho * (S2 vx vx + S2 vy vy) + w * (vx G * vx G + vy G * vy G)) in I3. change (h_Ixy h = rho * S2 vx vy + w * (vx G * vy G)) in I4.
  change (h_Ixz h = rho * S2 vz vx + w * (vx G * vz G)) in I5. change (h_Iyz h = rho * S2 vy vz + w * (vy G * vz G)) in I6.
  assert (J0 : is_triangles_integral (is_cone_integral (fun _ => 1)) T V) by (rewrite V1; apply cones_exact, cone0_exact).
  assert (J1 : forall p, coordinate p -> is_triangles_integral (is_cone_integral p) T (Rsum (map (fun t => let '(a, b, c) := t in cone1 p a b c) T))) by (intros; apply cones_exact; intros; apply cone1_exact; auto).
  assert (J2 : forall p q, coordinate p -> coordinate q -> is_triangles_integral (is_cone_integral (fun v => p v * q v)) T (S2 p q))
    by (intros; apply cones_exact; intros; apply cone2_exact; auto).
  assert (CX : coordinate vx) by (unfold coordinate; tauto). assert (CY : coordinate vy) by (unfold coordinate; tauto). assert (CZ : coordinate vz) by (unfold coordinate; tauto).
  pose proof (J1 _ CX) as JX. pose proof (J1 _ CY) as JY. pose proof (J1 _ CZ) as JZ. rewrite <- C1 in JX. rewrite <- C2 in JY. rewrite <- C3 in JZ.
  (* transport of a product to the point G *)
  assert (TR : forall p q a b, coordinate p -> coordinate q -> is_triangles_integral (is_cone_integral p) T (V * a) -> is_triangles_integral (is_cone_integral q) T (V * b) ->
    is_triangles_integral (is_cone_integral (fun v => (p v - p G) * (q v - q G))) T
      (S2 p q - q G * (V * a) - p G * (V * b) + p G * q G * V)).
  { intros p q a b P Q HA HB. eapply cones_ext; [| |exact (cones_linear _ _ (p G * q G) _ _ _ (cones_linear _ _ (- p G) _ _ _ (cones_linear _ _ (- q G) _ _ _ (J2 p q P Q) HA) HB) J0)];
      [intros; cbv beta; ring|ring]. }
  pose proof (TR _ _ _ _ CX CX JX JX) as XX. pose proof (TR _ _ _ _ CY CY JY JY) as YY. pose proof (TR _ _ _ _ CZ CZ JZ JZ) as ZZ.
  pose proof (TR _ _ _ _ CX CY JX JY) as XY. pose proof (TR _ _ _ _ CZ CX JZ JX) as ZX. pose proof (TR _ _ _ _ CY CZ JY JZ) as YZ.
  assert (SU : forall f g x y, is_triangles_integral (is_cone_integral f) T x -> is_triangles_integral (is_cone_integral g) T y ->
    is_triangles_integral (is_cone_integral (fun v => f v + g v)) T (x + y)).
  { intros f g x y X Y. eapply cones_ext; [| |exact (cones_linear _ _ 1 _ _ _ X Y)]; [intros; cbv beta; ring|ring]. }
  split; [|split; [|split; [|split; [|split]]]]; intros i I.
  - rewrite (cones_unique _ _ _ _ I (SU _ _ _ _ YY ZZ)), I1, V2. ring.
  - rewrite (cones_unique _ _ _ _ I (SU _ _ _ _ XX ZZ)), I2, V2. ring.
  - rewrite (cones_unique _ _ _ _ I (SU _ _ _ _ XX YY)), I3, V2. ring.
  - pose proof (cones_unique _ _ _ _ I XY) as ->. rewrite I4, V2. ring.
  - pose proof (cones_unique _ _ _ _ I (cones_ext _ _ _ _ _ (fun v => Rmult_comm _ _) eq_refl ZX)) as ->. rewrite I5, V2. ring.
  - pose proof (cones_unique _ _ _ _ I YZ) as ->. rewrite I6, V2. ring.
Qed.
Lemma moment_exists : forall p q a b M, coordinate p -> coordinate q -> exists i, is_immersed_integral (fun v => (p v - a) * (q v - b)) M i.
Proof.
  intros p q a b M P Q. unfold is_immersed_integral. set (T := immersed_triangles sea_level close M). eexists.
  eapply cones_ext; [|reflexivity|exact (cones_linear _ _ (a * b) _ _ _ (cones_linear _ _ (- a) _ _ _ (cones_linear _ _ (- b) _ _ _
    (cones_exact _ _ T (fun x y c => cone2_exact p q x y c P Q)) (cones_exact _ _ T (fun x y c => cone1_exact p x y c P))) (cones_exact _ _ T (fun x y c => cone1_exact q x y c Q))) (cones_exact _ _ T cone0_exact))].
  intros. cbv beta. ring.
Qed.
(** For the box floating with its center of gravity at its center of buoyancy, the inertia reported about this point is too
    large by 20 times the density. *)
Theorem C88_refuted : forall argsort, sorting argsort -> exists m cog h i,
  compute_hydrostatics argsort m cog 1 1 mid 0 false None false = Ok h /\ floats_well (placed_mesh mid 0 m) /\
  placed mid 0 (h_buoyancy_center h) = placed mid 0 cog /\
  is_immersed_integral (fun v => (vy v - vy cog) * (vy v - vy cog) + (vz v - vz cog) * (vz v - vz cog)) (placed_mesh mid 0 m) i /\ h_Ixx h = i + 20.
Proof.
  intros argsort SA. assert (Z : -2 + 1 / 500 < 0 < 1 - 1 / 500) by lra. set (cog := V3 2 1 (-1 / 2)).
  destruct (box_ok argsort 0 1 1 cog false None false SA Z) as (h & E); try lra. pose proof (box_floats 0 Z) as FW.
  assert (PC : placed mid 0 cog = cog) by (apply vec_eq; unfold placed, cog; vunfold; field).
  assert (B : placed mid 0 (h_buoyancy_center h) = cog) by (rewrite (box_center argsort 0 1 1 cog false None false SA Z h E); unfold cog; apply vec_eq; cbn [vx vy vz]; field).
  destruct (moment_exists vy vy (vy cog) (vy cog) (placed_mesh mid 0 (afloat 0))) as (i & I); [unfold coordinate; tauto..|].
  destruct (moment_exists vz vz (vz cog) (vz cog) (placed_mesh mid 0 (afloat 0))) as (j & J); [unfold coordinate; tauto..|].
  assert (IJ : is_immersed_integral (fun v => (vy v - vy cog) * (vy v - vy cog) + (vz v - vz cog) * (vz v - vz cog)) (placed_mesh mid 0 (afloat 0)) (i + j)).
  { eapply cones_ext; [| |exact (cones_linear _ _ 1 _ _ _ I J)]; [intros; cbv beta; ring|ring]. }
  exists (afloat 0), cog, h, (i + j). split; auto. split; auto. split; [congruence|]. split; auto.
  destruct (C88_inertia _ _ _ _ _ _ _ _ _ _ _ SA mid_rotation E FW) as (K & _). rewrite PC in K. rewrite (K _ IJ), B.
  destruct (C85_displacement _ _ _ _ _ _ _ _ _ _ _ SA mid_rotation E FW) as (_ & _ & -> & _). rewrite (box_volume argsort 0 1 1 cog false None false SA Z h E).
  unfold cog. cbn [vx vy vz]. field.
Qed.

(** ** C89: dimensions *)
Lemma plane_extent : forall argsort m cog rho grav rot z at_cog lpp ap h k body minx maxx miny maxy box, sorting argsort -> floats_well (placed_mesh rot z m) ->
  hydro_run argsort m cog rho grav rot z at_cog lpp ap h k body minx maxx miny maxy box ->
  forall (q : vec -> R) o lo hi, is_min lo (map (fun i => q (point (verts (clipped_crown k)) i) - o) (concat (polygons k))) ->
    is_max hi (map (fun i => q (point (verts (clipped_crown k)) i) - o) (concat (polygons k))) ->
    is_extent q (fun x => In x (map fst (waterline sea_level close (placed_mesh rot z m)))) (hi - lo).
Proof.
  intros argsort m cog rho grav rot z at_cog lpp ap h k body minx maxx miny maxy box SA FW HR q o lo hi [LI LA] [HI HA].
  pose proof (plane_points _ _ _ _ _ _ _ _ _ _ SA FW _ _ _ _ _ _ _ _ HR) as PP. set (vs := verts (clipped_crown k)) in *. split.
  - assert (B : forall x, In x (map fst (waterline sea_level close (placed_mesh rot z m))) -> lo <= q x - o <= hi).
    { intros x X. apply PP in X. apply in_map_iff in X as (i & <- & I). pose proof (in_map (fun i => q (point vs i) - o) _ _ I) as J. auto. }
    intros x y X Y. apply B in X. apply B in Y. lra.
  - apply in_map_iff in LI as (i & EI & I). apply in_map_iff in HI as (j & EJ & J). exists (point vs j), (point vs i).
    split; [apply PP, in_map; auto|]. split; [apply PP, in_map; auto|]. lra.
Qed.
Theorem C89_dimensions : forall argsort m cog rho grav rot z at_cog lpp ap h, sorting argsort -> is_rotation rot ->
  compute_hydrostatics argsort m cog rho grav rot z at_cog lpp ap = Ok h -> floats_well (placed_mesh rot z m) ->
  let M := placed_mesh rot z m in let on_line x := In x (map fst (waterline sea_level close M)) in
  is_extent vx on_line (h_length_at_waterline h) /\ is_extent vy on_line (h_breadth_at_waterline h) /\ h_breadth h = h_breadth_at_waterline h /\
  is_extent vx (wetted_corner M) (h_length_overall_submerged h) /\ is_extent vy (wetted_corner M) (h_breadth_overall_submerged h) /\
  is_depth (wetted_corner M) (h_draught h) /\
  h_length_between_perpendiculars h = (match lpp with Some l => l | None => if ap then h_forward_perpendicular h else h_length_at_waterline h end) /\
  h_trust_lpp h = (match lpp with Some _ => true | None => ap end).
Proof.
  intros argsort m cog rho grav rot z at_cog lpp ap h SA RO E FW M on_line. destruct (hydro_inv _ _ _ _ _ _ _ _ _ _ _ E) as (k & body & minx & maxx & miny & maxy & box & HR).
  destruct (run_dims _ _ _ _ _ _ _ _ _ _ _ _ _ _ _ _ _ _ RO HR) as (X1 & X2 & Y1 & Y2 & -> & EB & -> & _ & -> & -> & -> & -> & ->). rewrite EB.
  pose proof (hr_clip _ _ _ _ _ _ _ _ _ _ _ _ _ _ _ _ _ _ HR) as CL. pose proof (hr_box _ _ _ _ _ _ _ _ _ _ _ _ _ _ _ _ _ _ HR) as BX.
  assert (NV : verts (clipped k) <> []).
  { destruct (clipper_points sea_level close close_pos argsort SA true M k (fw_valid _ FW) (fw_settled _ FW) (fw_convex _ FW) (fw_unpinched _ FW) (fw_spread _ FW) CL) as [P _].
    destruct (fw_straddles _ FW) as (f & I & (x & X & BE) & _). intros N. assert (J : In x (verts (clipped k))).
    { apply (P f x); auto. split; auto. intros F. rewrite Forall_forall in F. specialize (F x X). unfold is_above, is_below, close in *. lra. }
    rewrite N in J. destruct J. }
  destruct (bbox_tight (clipped k) NV) as (b & EB' & (X3 & X4 & X5) & (Y3 & Y4 & Y5) & (Z3 & Z4 & Z5)). rewrite BX in EB'. injection EB' as <-.
  assert (MI : forall lo hi l, (forall x, In x l -> lo <= x <= hi) -> In lo l -> is_min lo l) by (intros lo hi l H I; split; auto; intros x J; apply H in J; lra).
  assert (MA : forall lo hi l, (forall x, In x l -> lo <= x <= hi) -> In hi l -> is_max hi l) by (intros lo hi l H I; split; auto; intros x J; apply H in J; lra).
  split; [eapply (plane_extent argsort); eauto|]. split; [eapply (plane_extent argsort); eauto|]. split; auto.
  split; [apply (extent argsort M SA FW k CL); eauto; unfold component; auto|]. split; [apply (extent argsort M SA FW k CL); eauto; unfold component; auto|].
  split; [eapply (depth argsort M SA FW k CL); eauto|]. auto.
Qed.
(** The V section is 8 wide under the sea level; the report says 16. *)
Theorem C89_refuted : forall argsort, sorting argsort -> exists m h,
  compute_hydrostatics argsort m vzero 1025 9.81 mid 0 false None false = Ok h /\ floats_well (placed_mesh mid 0 m) /\
  is_extent vx (immersed_point (placed_mesh mid 0 m)) 8 /\ h_length_overall_submerged h = 16 /\ h_length_at_waterline h = 8 /\ h_draught h = 3.
Proof.
  intros argsort SA. destruct (vee_ok argsort vzero 1025 9.81 false None false SA) as (h & E); try lra. exists vee, h. split; auto.
  assert (FW : floats_well (placed_mesh mid 0 vee)) by (rewrite vee_placed; apply vee_floats). split; auto.
  destruct (C89_dimensions _ _ _ _ _ _ _ _ _ _ _ SA mid_rotation E FW) as (L & _ & _ & S & _ & D & _). cbv zeta in *. rewrite vee_placed in *.
  assert (U : forall q Q a b, is_extent q Q a -> is_extent q Q b -> a = b).
  { intros q Q a b (A & x & y & X & Y & EA) (B & x' & y' & X' & Y' & EB). specialize (A _ _ X' Y'). specialize (B _ _ X Y). lra. }
  assert (CO : forall x, wetted_corner vee x -> In x (verts vee)) by (intros x (f & I & J & _); exact (in_outline _ f x vee_valid I J)).
  assert (W2 : wetted_corner vee (V3 8 0 3)) by (exists (F4 0 2 4 0); split; [simpl; auto|]; split; [cbn; auto|]; exists (V3 0 0 (-3)); split; [cbn; auto|corner]).
  assert (W4 : wetted_corner vee (V3 (-8) 0 3)) by (exists (F4 0 2 4 0); split; [simpl; auto|]; split; [cbn; auto|]; exists (V3 0 0 (-3)); split; [cbn; auto|corner]).
  assert (W0 : wetted_corner vee (V3 0 0 (-3))) by (exists (F4 0 2 4 0); split; [simpl; auto|]; split; [cbn; auto|]; exists (V3 0 0 (-3)); split; [cbn; auto|corner]).
  split; [|split; [|split]].
  - split.
    + intros x y (f & I & X & ZX) (g & J & Y & ZY). pose proof (vee_inside f x I X) as A. pose proof (vee_inside g y J Y) as B.
      assert (forall u, - Rabs u <= u <= Rabs u) as R by (intros u; unfold Rabs; destruct (Rcase_abs u); lra). pose proof (R (vx x)). pose proof (R (vx y)). lra.
    + exists v1, v2. split; [|split].
      * exists (F4 0 2 4 0). split; [simpl; auto|]. split; [|cbn; lra]. cbn. apply hull3. exists (1/2), (1/2), 0. repeat split; try lra. unfold mix, v1. apply vec_eq; cbn; field.
      * exists (F4 0 2 4 0). split; [simpl; auto|]. split; [|cbn; lra]. cbn. apply hull3. exists (1/2), 0, (1/2). repeat split; try lra. unfold mix, v2. apply vec_eq; cbn; field.
      * unfold v1, v2. cbn. ring.
  - apply (U _ _ _ _ S). split.
    + intros x y X Y. apply CO in X. apply CO in Y. cbn in X, Y. repeat (destruct X as [<-|X]; [repeat (destruct Y as [<-|Y]; [cbn [vx]; lra|]); contradiction|]). contradiction.
    + exists (V3 8 0 3), (V3 (-8) 0 3). repeat split; auto. cbn. ring.
  - apply (U _ _ _ _ L). rewrite vee_line. split.
    + intros x y X Y. cbn in X, Y. repeat (destruct X as [<-|X]; [repeat (destruct Y as [<-|Y]; [unfold v1, v2, v3, v4; cbn [vx]; lra|]); contradiction|]). contradiction.
    + exists v1, v2. split; [cbn; tauto|]. split; [cbn; tauto|]. unfold v1, v2. cbn. ring.
  - destruct D as ((x & X & EX) & D2 & _). specialize (D2 _ W0). cbn [vz] in D2. apply CO in X. cbn in X.
    repeat (destruct X as [<-|X]; [cbn [vz] in *; lra|]). contradiction.
Qed.
(** Its wet surface: two ends of area 12 and two slopes of area 10. *)
Example vee_wet : forall argsort, sorting argsort -> exists h,
  compute_hydrostatics argsort vee vzero 1025 9.81 mid 0 false None false = Ok h /\ h_wet_surface_area h = 44 /\ h_disp_volume h = 24.
Proof.
  intros argsort SA. destruct (vee_ok argsort vzero 1025 9.81 false None false SA) as (h & E); try lra. exists h. split; auto.
  assert (FW : floats_well (placed_mesh mid 0 vee)) by (rewrite vee_placed; apply vee_floats).
  set (u := fun f => match f0 f, f1 f with 0, 2 => V3 0 (-1) 0 | 1, _ => V3 0 1 0 | 0, 1 => V3 (3/5) 0 (-4/5) | 0, _ => V3 (-3/5) 0 (-4/5) | _, _ => V3 0 0 1 end%nat).
  assert (D : forall u a b c, 0 <= dot u (triangle_normal a b c) -> triangle_normal a b c = vscale (dot u (triangle_normal a b c)) u -> along u (triangle_normal a b c)) by (intros v a b c H E'; exists (dot v (triangle_normal a b c)); auto).
  split.
  - rewrite (C85_wet_surface argsort vee vzero 1025 9.81 mid 0 false None false h u SA mid_rotation E FW).
    + rewrite vee_placed. unfold vee. cbn [faces verts map]. unfold immersed_fan, immersed_border, u. cbn.
      unfold face_waterline, touching, entering, leaving. cbn. sides. cbn [app map fst snd].
      assert (M1 : meet sea_level (V3 0 0 (-3)) (V3 8 0 3) = v1) by meets. assert (M2 : meet sea_level (V3 0 0 (-3)) (V3 (-8) 0 3) = v2) by meets.
      assert (M3 : meet sea_level (V3 0 2 (-3)) (V3 8 2 3) = v3) by meets. assert (M4 : meet sea_level (V3 0 2 (-3)) (V3 (-8) 2 3) = v4) by meets.
      assert (N1 : meet sea_level (V3 8 0 3) (V3 0 0 (-3)) = v1) by meets. assert (N2 : meet sea_level (V3 (-8) 0 3) (V3 0 0 (-3)) = v2) by meets.
      assert (N3 : meet sea_level (V3 8 2 3) (V3 0 2 (-3)) = v3) by meets. assert (N4 : meet sea_level (V3 (-8) 2 3) (V3 0 2 (-3)) = v4) by meets.
      rewrite ?M1, ?M2, ?M3, ?M4, ?N1, ?N2, ?N3, ?N4. unfold v1, v2, v3, v4, Rsum, fan_area, triangle_normal. cbn [map fold_right]. unfold Rsum. cbn [fold_right]. vunfold. field.
    + rewrite vee_placed. intros f I. cbn in I. repeat (destruct I as [<-|I]; [split; [unfold u, unit; cbn; vunfold; field|];
        unfold u; cbn; repeat split; (apply D; [|apply vec_eq]; unfold triangle_normal; vunfold; lra)|]). contradiction.
  - pose proof (C85_displacement _ _ _ _ _ _ _ _ _ _ _ SA mid_rotation E FW) as (V & _). rewrite vee_placed in V.
    rewrite <- vee_volume. eapply cones_unique; [exact V|]. apply cones_exact, cone0_exact.
Qed.

Print Assumptions C60_total.
Print Assumptions C60_moments.
Print Assumptions C60_fan.
Print Assumptions C60_start.
Print Assumptions C60_reverse.
Print Assumptions C60_hydrostatics.
Print Assumptions C60_waterline.
Print Assumptions C61_product.
Print Assumptions C61_waterline.
Print Assumptions C61_symmetric.
Print Assumptions C62_stiffness.
Print Assumptions C62_waterline.
Print Assumptions C63_centers.
Print Assumptions C63_moved.
Print Assumptions C64_forward_perpendicular.
Print Assumptions C64_waterline.
Print Assumptions C61_refuted.
Print Assumptions C85_displacement.
Print Assumptions C85_lid.
Print Assumptions C85_wet_surface.
Print Assumptions C86_force.
Print Assumptions C86_moment.
Print Assumptions C87_outcomes.
Print Assumptions C87_projection.
Print Assumptions C88_inertia.
Print Assumptions C88_refuted.
Print Assumptions C89_dimensions.
Print Assumptions C89_refuted.
