(** What compute_hydrostatics returns. *)
From Coq Require Import Reals List Arith Bool Lia Lra Psatz Permutation.
From Verif Require Import M_base P_base M_rotations S_rotations P_rotations M_merge M_mesh S_mesh P_mesh S_integral P_integral S_geometry M_geometry P_geometry P_quantities
  P_volume S_connectivity M_plane M_inertia M_clipper S_clipper P_curves P_waterline M_hydro S_hydro P_hydro P_flat.
Import ListNotations.
Open Scope R_scope.

Lemma placed_mesh_eq : forall rot z m, translate_z z (rotate_matrix rot m) = placed_mesh rot z m.
Proof. intros. unfold translate_z, rotate_matrix, placed_mesh. cbn [verts faces]. rewrite map_map. reflexivity. Qed.

(** The polygons of the clipper are closed. *)
Lemma clipper_polygons_closed : forall argsort p tol closed m k, mesh_clipper argsort p tol closed m = Ok k ->
  Forall closed_polygon (polygons k).
Proof.
  intros argsort p tol closed m k H. unfold mesh_clipper in H. destruct (refused tol (distances p m)); [discriminate|].
  apply bind_ok in H as (part & _ & H). apply bind_ok in H as ([[cc cl] op] & H1 & H). apply bind_ok in H as (r & _ & H).
  injection H as <-. cbn [polygons]. unfold clip_crown in H1. apply bind_ok in H1 as (st & _ & H1). apply bind_ok in H1 as (fs & _ & H1).
  apply bind_ok in H1 as ([cm ids] & _ & H1). apply bind_ok in H1 as (d & D & H1). apply bind_ok in H1 as (i & _ & H1).
  destruct (curves (length d) i d) as [c o] eqn:C. destruct (closed && negb (length o =? 0)%nat); [discriminate|]. injection H1 as <- <- <-.
  apply curves_ordered in C; [|eapply renumber_keys; eauto|auto]. pose proof (or_closed _ _ _ _ C) as O.
  eapply Forall_impl; [|exact O]. intros b (A & B & _). split; auto.
Qed.

(** Degenerate faces are detected. *)
Lemma no_normal_spec : forall m, valid m -> (existsb (no_normal (verts m)) (faces m) = false <-> proper_mesh m).
Proof.
  intros m V. unfold proper_mesh. rewrite Forall_forall.
  assert (E : forall f, In f (faces m) -> no_normal (verts m) f = false <-> proper_face (verts m) f).
  { intros f I. unfold no_normal, proper_face. rewrite (face_corners_ok _ f (valid_in m f V I)). rewrite Reqb_false, norm_zero_iff.
    unfold is_triangle. destruct (Nat.eqb_spec (f0 f) (f3 f)) as [T|T]; destruct (Nat.eq_dec (f0 f) (f3 f)); try congruence; cbn; [tauto|].
    set (a := point (verts m) (f0 f)). set (b := point (verts m) (f1 f)). set (c := point (verts m) (f2 f)). set (d := point (verts m) (f3 f)).
    assert (SUM : cross (vsub c a) (vsub d b) = vadd (triangle_normal a b c) (triangle_normal a c d)) by (unfold triangle_normal; vring).
    split; [intros H|tauto]. split; auto.
    destruct (Req_dec (norm (triangle_normal a b c)) 0) as [X|X]; [right; intros Y|left; intros Y; apply X, norm_zero_iff; auto].
    apply norm_zero_iff in X. apply H. rewrite SUM, X, Y. vring. }
  split.
  - intros H f I. apply E; auto. destruct (no_normal (verts m) f) eqn:N; auto.
    rewrite <- H. symmetry. apply existsb_exists. eauto.
  - intros H. destruct (existsb (no_normal (verts m)) (faces m)) eqn:X; auto. apply existsb_exists in X as (f & I & N).
    rewrite (proj2 (E f I)) in N; auto.
Qed.

Record hydro_run (argsort : list R -> list nat) (m : mesh) (cog : vec) (rho grav : R) (rot : mat) (z : R)
    (at_cog : bool) (lpp : option R) (ap : bool) (h : hydro) (k : clipper) (body : rigid) (minx maxx miny maxy : R) (box : bbox) : Prop := {
  hr_clip : mesh_clipper argsort water vicinity_tol true (placed_mesh rot z m) = Ok k;
  hr_closed : Forall closed_polygon (polygons k);
  hr_wet : exists props, faces_properties (clipped k) = Ok props /\ h_wet_surface_area h = Rsum (map fp_area props);
  hr_proper : valid (clipped k) -> proper_mesh (clipped k);
  hr_body : eval_plain_mesh_inertias rho (clipped k) = Ok body;
  hr_box : axis_aligned_bbox (clipped k) = Ok box;
  hr_rho : rho <> 0;
  hr_vol : rb_mass body / rho <> 0;
  hr_minx : let ox := fst (origin_of at_cog (rb_cog body)) in is_min minx (map (at_x ox (verts (clipped_crown k))) (concat (polygons k)));
  hr_maxx : let ox := fst (origin_of at_cog (rb_cog body)) in is_max maxx (map (at_x ox (verts (clipped_crown k))) (concat (polygons k)));
  hr_miny : let oy := snd (origin_of at_cog (rb_cog body)) in is_min miny (map (at_y oy (verts (clipped_crown k))) (concat (polygons k)));
  hr_maxy : let oy := snd (origin_of at_cog (rb_cog body)) in is_max maxy (map (at_y oy (verts (clipped_crown k))) (concat (polygons k)));
  hr_area : let sides := flat_map (polygon_sides (verts (clipped_crown k))) (polygons k) in
    let (ox, oy) := origin_of at_cog (rb_cog body) in rho * grav * (run (side0 ox oy) sides / 2) <> 0;
  hr_result : let sides := flat_map (polygon_sides (verts (clipped_crown k))) (polygons k) in
    let (ox, oy) := origin_of at_cog (rb_cog body) in
    let b := rb_cog body in
    let vol := rb_mass body / rho in
    let s0 := run (side0 ox oy) sides / 2 in
    let s1 := run (side1 ox oy) sides / 6 in
    let s2 := run (side2 ox oy) sides / -6 in
    let s3 := run (side3 ox oy) sides / 24 in
    let s4 := run (side4 ox oy) sides / 12 in
    let s5 := run (side5 ox oy) sides / -12 in
    let a := vz (placed rot z cog) - vz b in
    let s33 := rho * grav * s0 in let s34 := rho * grav * s2 in let s35 := - (rho * grav) * s1 in let s45 := - (rho * grav) * s3 in
    let s44 := rho * grav * vol * (s5 / vol - a) in
    let s55 := rho * grav * vol * (s4 / vol - a) in
    let nb := shift_at_cog (set_cog body (placed rot z cog)) in
    h = mkHydro grav rho m rot z cog (h_wet_surface_area h) vol (rho * vol)
      (mvec (mtrans rot) (V3 (vx b) (vy b) (vz b - z)))
      (mvec (mtrans rot) (V3 (- s35 / s33 + (if at_cog then vx b else 0)) (s34 / s33 + (if at_cog then vy b else 0)) (- z)))
      s0 (s5 / vol) (s4 / vol) (s5 / vol - a) (s4 / vol - a)
      (M3 (zero_tiny s33) (zero_tiny s34) (zero_tiny s35) (zero_tiny s34) (zero_tiny s44) (zero_tiny s45)
          (zero_tiny s35) (zero_tiny s45) (zero_tiny s55))
      (maxx - minx) (maxy - miny) (xmax box - xmin box) (ymax box - ymin box) (Rabs (zmin box)) (maxx + vx b) (maxy - miny)
      (match lpp with Some _ => true | None => ap end)
      (match lpp with Some l => l | None => if ap then maxx + vx b else maxx - minx end)
      (rb_xx nb) (rb_yy nb) (rb_zz nb) (rb_xy nb) (rb_xz nb) (rb_yz nb)
}.

Lemma extents_parts : forall X Y ps es, Forall2 (has_extent X Y) ps es ->
  Forall2 (fun p e => is_min (e_xmin e) (map X p)) ps es /\ Forall2 (fun p e => is_max (e_xmax e) (map X p)) ps es /\
  Forall2 (fun p e => is_min (e_ymin e) (map Y p)) ps es /\ Forall2 (fun p e => is_max (e_ymax e) (map Y p)) ps es.
Proof. intros X Y ps es F. induction F as [|p e ps es (A & B & C & D) F (I & J & K & L)]; repeat split; constructor; auto. Qed.
Lemma arr_min_inv : forall l x, arr_min l = Ok x -> is_min x l.
Proof.
  intros l x H. destruct l as [|a l]; [discriminate|]. destruct (arr_min_spec (a :: l)) as (y & E & M); [discriminate|].
  rewrite H in E. injection E as <-. auto.
Qed.
Lemma arr_max_inv : forall l x, arr_max l = Ok x -> is_max x l.
Proof.
  intros l x H. destruct l as [|a l]; [discriminate|]. destruct (arr_max_spec (a :: l)) as (y & E & M); [discriminate|].
  rewrite H in E. injection E as <-. auto.
Qed.

Lemma hydro_inv : forall argsort m cog rho grav rot z at_cog lpp ap h,
  compute_hydrostatics argsort m cog rho grav rot z at_cog lpp ap = Ok h ->
  exists k body minx maxx miny maxy box, hydro_run argsort m cog rho grav rot z at_cog lpp ap h k body minx maxx miny maxy box.
Proof.
  intros argsort m cog rho grav rot z at_cog lpp ap h H. unfold compute_hydrostatics in H. cbv zeta in H. rewrite placed_mesh_eq in H.
  apply bind_ok in H as (k & CL & H). apply bind_ok in H as (props & FP & H).
  destruct (existsb (no_normal (verts (clipped k))) (faces (clipped k))) eqn:NN; [discriminate|]. apply bind_ok in H as (body & B & H).
  destruct (Reqb rho 0) eqn:R0; [discriminate|]. apply Reqb_false in R0.
  destruct (Reqb (rb_mass body / rho) 0) eqn:V0; [discriminate|]. apply Reqb_false in V0.
  apply bind_ok in H as ([s es] & AP & H).
  apply bind_ok in H as (minx & X0 & H). apply bind_ok in H as (maxx & X1 & H).
  apply bind_ok in H as (miny & Y0 & H). apply bind_ok in H as (maxy & Y1 & H).
  pose proof (add_polygons_inv _ _ _ _ _ _ AP) as V. pose proof (add_polygons_ok _ at_cog (rb_cog body) _ no_sums V) as E.
  destruct (origin_of at_cog (rb_cog body)) as [ox oy] eqn:O. destruct E as (es' & E & X). rewrite AP in E. injection E as -> <-.
  apply extents_parts in X as (X & X' & Y & Y').
  cbn [scale_sums g0 g1 g2 g3 g4 g5 plus_sums no_sums] in H. rewrite !Rplus_0_l in H.
  match type of H with context [Reqb ?x 0] => destruct (Reqb x 0) eqn:A0; [discriminate|]; apply Reqb_false in A0 end.
  apply bind_ok in H as (box & BB & H). injection H as <-.
  exists k, body, minx, maxx, miny, maxy, box. constructor; auto.
  - eapply clipper_polygons_closed; eauto.
  - exists props. auto.
  - intros V'. apply no_normal_spec; auto.
  - rewrite O. eapply min_of_mins; eauto using arr_min_inv.
  - rewrite O. eapply max_of_maxs; eauto using arr_max_inv.
  - rewrite O. eapply min_of_mins; eauto using arr_min_inv.
  - rewrite O. eapply max_of_maxs; eauto using arr_max_inv.
  - rewrite O. auto.
  - rewrite O. reflexivity.
Qed.

Lemma hydro_ok : forall argsort m cog rho grav rot z at_cog lpp ap k body props,
  mesh_clipper argsort water vicinity_tol true (placed_mesh rot z m) = Ok k ->
  faces_properties (clipped k) = Ok props -> valid (clipped k) -> proper_mesh (clipped k) ->
  eval_plain_mesh_inertias rho (clipped k) = Ok body -> rho <> 0 -> rb_mass body <> 0 -> grav <> 0 ->
  polygons k <> [] -> Forall (Forall (fun i => (i < length (verts (clipped_crown k)))%nat)) (polygons k) ->
  run (side0 0 0) (flat_map (polygon_sides (verts (clipped_crown k))) (polygons k)) <> 0 ->
  exists h, compute_hydrostatics argsort m cog rho grav rot z at_cog lpp ap = Ok h.
Proof.
  intros argsort m cog rho grav rot z at_cog lpp ap k body props CL FP VC PM B R0 M0 G0 NE V A0.
  unfold compute_hydrostatics. cbv zeta. rewrite placed_mesh_eq, CL. cbn [bind]. rewrite FP. cbn [bind]. rewrite (proj2 (no_normal_spec _ VC) PM), B. cbn [bind].
  assert (V0 : rb_mass body / rho <> 0) by (apply Rmult_integral_contrapositive; split; auto using Rinv_neq_0_compat).
  rewrite (proj2 (Reqb_false rho 0) R0), (proj2 (Reqb_false _ 0) V0).
  pose proof (clipper_polygons_closed _ _ _ _ _ _ CL) as CP.
  assert (V' : Forall (fun p => p <> [] /\ Forall (fun i => (i < length (verts (clipped_crown k)))%nat) p) (polygons k)).
  { rewrite Forall_forall in *. intros p I. split; auto. destruct (CP p I) as [L _]. intros ->. cbn in L. lia. }
  pose proof (add_polygons_ok _ at_cog (rb_cog body) _ no_sums V') as E.
  destruct (origin_of at_cog (rb_cog body)) as [ox oy] eqn:O. destruct E as (es & E & X). rewrite E. cbn [bind].
  assert (NS : es <> []) by (destruct X; congruence).
  destruct (arr_min_spec (map e_xmin es)) as (a1 & -> & _); [destruct es; [congruence|discriminate]|].
  destruct (arr_max_spec (map e_xmax es)) as (a2 & -> & _); [destruct es; [congruence|discriminate]|].
  destruct (arr_min_spec (map e_ymin es)) as (a3 & -> & _); [destruct es; [congruence|discriminate]|].
  destruct (arr_max_spec (map e_ymax es)) as (a4 & -> & _); [destruct es; [congruence|discriminate]|]. cbn [bind].
  cbn [scale_sums g0 g1 g2 g3 g4 g5 plus_sums no_sums]. rewrite !Rplus_0_l.
  set (sides := flat_map (polygon_sides (verts (clipped_crown k))) (polygons k)) in *.
  assert (Z : run (side0 ox oy) sides = run (side0 0 0) sides).
  { assert (T : forall g, run (fun x y => g y - g x) sides = 0).
    { intros g. unfold sides. clear -CP. induction CP as [|p ps C CP IH]; auto. cbn [flat_map]. rewrite run_app, IH, polygon_telescope by auto. ring. }
    replace (run (side0 ox oy) sides) with (run (side0 0 0) sides + run (fun a b => (-2 * ox) * (vy b - vy a)) sides).
    - rewrite run_scale, T. ring.
    - unfold run. rewrite <- Rsum_map_add. apply Rsum_map_ext. intros [a b] _. cbn [fst snd]. unfold side0. ring. }
  match goal with |- context [Reqb ?x 0] => assert (N : x <> 0) end.
  { rewrite Z. assert (run (side0 0 0) sides / 2 <> 0) by lra. repeat (apply Rmult_integral_contrapositive; split; auto). }
  rewrite (proj2 (Reqb_false _ 0) N). destruct (bbox_total (clipped k)) as (box & -> & _). cbn [bind]. eauto.
Qed.

Lemma rotation_back : forall r v, is_rotation r -> mvec r (mvec (mtrans r) v) = v.
Proof.
  intros r v H. rewrite <- mvec_mul. replace (mmul r (mtrans r)) with mid by (symmetry; apply rotation_right; auto). vring.
Qed.

Lemma origin_eq : forall at_cog b, origin_of at_cog b = (if at_cog then vx b else 0, if at_cog then vy b else 0).
Proof. intros []; reflexivity. Qed.
Lemma placed_back : forall rot z b, is_rotation rot -> placed rot z (mvec (mtrans rot) (V3 (vx b) (vy b) (vz b - z))) = b.
Proof. intros rot z b H. unfold placed. rewrite rotation_back by auto. cbn [vx vy vz]. apply vec_eq; cbn; ring. Qed.
Lemma placed_back' : forall rot z x y, is_rotation rot -> placed rot z (mvec (mtrans rot) (V3 x y (- z))) = V3 x y 0.
Proof. intros rot z x y H. unfold placed. rewrite rotation_back by auto. cbn [vx vy vz]. apply vec_eq; cbn; ring. Qed.

Section Run.
  Variables (argsort : list R -> list nat) (m : mesh) (cog : vec) (rho grav : R) (rot : mat) (z : R) (at_cog : bool) (lpp : option R) (ap : bool).
  Variables (h : hydro) (k : clipper) (body : rigid) (minx maxx miny maxy : R) (box : bbox).
  Hypothesis RO : is_rotation rot.
  Hypothesis HR : hydro_run argsort m cog rho grav rot z at_cog lpp ap h k body minx maxx miny maxy box.
  Let sides := flat_map (polygon_sides (verts (clipped_crown k))) (polygons k).
  Let B := placed rot z (h_buoyancy_center h).
  Let F := placed rot z (h_waterplane_center h).
  Let ox := if at_cog then vx B else 0.
  Let oy := if at_cog then vy B else 0.

  Lemma run_buoyancy : B = rb_cog body.
  Proof.
    unfold B. pose proof (hr_result _ _ _ _ _ _ _ _ _ _ _ _ _ _ _ _ _ _ HR) as E. cbv zeta in E. rewrite origin_eq in E.
    rewrite E. cbn [h_buoyancy_center]. apply placed_back; auto.
  Qed.
  Lemma run_fields : 
    h_waterplane_area h = run (side0 ox oy) sides / 2 /\
    h_disp_volume h = rb_mass body / rho /\ h_disp_mass h = rb_mass body /\
    h_transversal_metacentric_radius h * h_disp_volume h = run (side5 ox oy) sides / -12 /\
    h_longitudinal_metacentric_radius h * h_disp_volume h = run (side4 ox oy) sides / 12 /\
    h_waterplane_area h * (vx F - ox) = run (side1 ox oy) sides / 6 /\
    h_waterplane_area h * (vy F - oy) = run (side2 ox oy) sides / -6 /\ vz F = 0 /\
    h_disp_volume h <> 0 /\ h_waterplane_area h <> 0 /\ rho <> 0 /\ grav <> 0.
  Proof.
    unfold F. pose proof run_buoyancy as EB. pose proof (hr_result _ _ _ _ _ _ _ _ _ _ _ _ _ _ _ _ _ _ HR) as E.
    pose proof (hr_area _ _ _ _ _ _ _ _ _ _ _ _ _ _ _ _ _ _ HR) as A. pose proof (hr_vol _ _ _ _ _ _ _ _ _ _ _ _ _ _ _ _ _ _ HR) as V.
    pose proof (hr_rho _ _ _ _ _ _ _ _ _ _ _ _ _ _ _ _ _ _ HR) as R0.
    cbv zeta in E, A. rewrite origin_eq in E, A. fold sides in E, A. rewrite <- EB in E, A. fold ox oy in E, A. unfold F.
    assert (G0 : grav <> 0) by (intros ->; apply A; ring). assert (A0 : run (side0 ox oy) sides / 2 <> 0) by (intros X; apply A; rewrite X; ring).
    rewrite E. cbn [h_waterplane_area h_disp_volume h_disp_mass h_transversal_metacentric_radius h_longitudinal_metacentric_radius h_waterplane_center].
    rewrite placed_back' by auto. cbn [vx vy vz].
    set (s0 := run (side0 ox oy) sides / 2) in *. set (s1 := run (side1 ox oy) sides / 6) in *. set (s2 := run (side2 ox oy) sides / -6) in *.
    clearbody s0 s1 s2. assert (M0 : rb_mass body <> 0) by (intros X; apply V; rewrite X; field; auto). repeat split; auto; try (field; auto; fail); unfold ox, oy; destruct at_cog; field; auto.
  Qed.
  Lemma run_heights :
    h_transversal_metacentric_height h = h_transversal_metacentric_radius h - (vz (placed rot z cog) - vz B) /\
    h_longitudinal_metacentric_height h = h_longitudinal_metacentric_radius h - (vz (placed rot z cog) - vz B).
  Proof.
    pose proof run_buoyancy as EB. pose proof (hr_result _ _ _ _ _ _ _ _ _ _ _ _ _ _ _ _ _ _ HR) as E. cbv zeta in E. rewrite origin_eq in E.
    rewrite <- EB in E. rewrite E. cbn [h_transversal_metacentric_height h_transversal_metacentric_radius h_longitudinal_metacentric_height h_longitudinal_metacentric_radius]. auto.
  Qed.
  Lemma run_stiffness : exists s45, s45 = - (rho * grav) * (run (side3 ox oy) sides / 24) /\
    let t := zero_tiny in let rg := rho * grav in let A := h_waterplane_area h in let V := h_disp_volume h in
    let s34 := rg * (A * (vy F - oy)) in let s35 := - rg * (A * (vx F - ox)) in
    h_stiffness_matrix h = M3 (t (rg * A)) (t s34) (t s35) (t s34) (t (rg * V * h_transversal_metacentric_height h)) (t s45)
                              (t s35) (t s45) (t (rg * V * h_longitudinal_metacentric_height h)).
  Proof.
    eexists. split; [reflexivity|]. cbv zeta. destruct run_fields as (_ & _ & _ & _ & _ & -> & -> & _).
    pose proof run_buoyancy as EB. pose proof (hr_result _ _ _ _ _ _ _ _ _ _ _ _ _ _ _ _ _ _ HR) as E. cbv zeta in E. rewrite origin_eq in E.
    rewrite <- EB in E. fold sides ox oy in E. rewrite E.
    cbn [h_stiffness_matrix h_waterplane_area h_disp_volume h_transversal_metacentric_height h_longitudinal_metacentric_height]. reflexivity.
  Qed.
  Lemma run_dims : let vs := verts (clipped_crown k) in
    is_min minx (map (at_x ox vs) (concat (polygons k))) /\ is_max maxx (map (at_x ox vs) (concat (polygons k))) /\
    is_min miny (map (at_y oy vs) (concat (polygons k))) /\ is_max maxy (map (at_y oy vs) (concat (polygons k))) /\
    h_length_at_waterline h = maxx - minx /\ h_breadth_at_waterline h = maxy - miny /\ h_breadth h = maxy - miny /\
    h_forward_perpendicular h = maxx + vx B /\
    h_length_overall_submerged h = xmax box - xmin box /\ h_breadth_overall_submerged h = ymax box - ymin box /\ h_draught h = Rabs (zmin box) /\
    h_trust_lpp h = (match lpp with Some _ => true | None => ap end) /\
    h_length_between_perpendiculars h = (match lpp with Some l => l | None => if ap then h_forward_perpendicular h else h_length_at_waterline h end).
  Proof.
    pose proof run_buoyancy as EB. pose proof (hr_result _ _ _ _ _ _ _ _ _ _ _ _ _ _ _ _ _ _ HR) as E. 
    pose proof (hr_minx _ _ _ _ _ _ _ _ _ _ _ _ _ _ _ _ _ _ HR) as A1. pose proof (hr_maxx _ _ _ _ _ _ _ _ _ _ _ _ _ _ _ _ _ _ HR) as A2.
    pose proof (hr_miny _ _ _ _ _ _ _ _ _ _ _ _ _ _ _ _ _ _ HR) as A3. pose proof (hr_maxy _ _ _ _ _ _ _ _ _ _ _ _ _ _ _ _ _ _ HR) as A4.
    cbv zeta in *. rewrite origin_eq in *. rewrite <- EB in *. cbn [fst snd] in *. fold ox oy in A1, A2, A3, A4. rewrite E. cbn.
    split; auto. split; auto. split; auto. split; auto. repeat (split; auto).
  Qed.
  Lemma run_inputs : h_grav h = grav /\ h_rho_water h = rho /\ h_mesh h = m /\ h_rotmat_eq h = rot /\ h_z_eq h = z /\ h_cog h = cog.
  Proof.
    pose proof (hr_result _ _ _ _ _ _ _ _ _ _ _ _ _ _ _ _ _ _ HR) as E. cbv zeta in *. rewrite origin_eq in *. rewrite E. cbn. auto 10.
  Qed.
  Lemma run_inertia : let nb := shift_at_cog (set_cog body (placed rot z cog)) in
    h_Ixx h = rb_xx nb /\ h_Iyy h = rb_yy nb /\ h_Izz h = rb_zz nb /\ h_Ixy h = rb_xy nb /\ h_Ixz h = rb_xz nb /\ h_Iyz h = rb_yz nb.
  Proof.
    pose proof (hr_result _ _ _ _ _ _ _ _ _ _ _ _ _ _ _ _ _ _ HR) as E. cbv zeta in *. rewrite origin_eq in *. rewrite E. cbn. auto 10.
  Qed.
End Run.
