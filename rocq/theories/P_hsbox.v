(** The box afloat in the module hydrostatics_old. *)
From Coq Require Import Reals List Arith ZArith Bool Lia Lra Psatz.
From Verif Require Import M_base P_base S_merge M_merge P_merge M_rotations S_rotations P_rotations M_mesh S_mesh P_mesh S_integral P_integral S_geometry M_geometry P_geometry P_volume P_quantities
  S_connectivity P_connectivity M_plane M_inertia M_clipper S_clipper P_cut P_curves P_waterline P_sharp M_hydro S_hydro P_hydro P_flat P_hydro2 P_wetted P_archimedes P_contour P_cones P_immersed P_report P_barge S_report P_waterplane P_extent P_afloat P_checks P_hull
  S_equil P_equil P_search T_hydro T_equil M_hsold S_hsold P_hsold.
Import ListNotations.
Open Scope R_scope.

(** ** The hydrostatics of a body raised, and those of the body with a correction in height *)
Lemma raised_same : forall argsort m cog rho grav z h', compute_hydrostatics argsort m cog rho grav mid z false None false = Ok h' ->
  exists h, at_rest_in argsort (placed_mesh mid z m) (placed mid z cog) rho grav = Ok h /\
    h_disp_volume h = h_disp_volume h' /\ h_waterplane_area h = h_waterplane_area h' /\ h_disp_mass h = h_disp_mass h' /\
    h_buoyancy_center h = placed mid z (h_buoyancy_center h') /\ h_waterplane_center h = placed mid z (h_waterplane_center h') /\
    h_transversal_metacentric_height h = h_transversal_metacentric_height h' /\ h_longitudinal_metacentric_height h = h_longitudinal_metacentric_height h' /\
    h_length_at_waterline h = h_length_at_waterline h' /\ h_breadth_at_waterline h = h_breadth_at_waterline h' /\ h_stiffness_matrix h = h_stiffness_matrix h'.
Proof.
  intros argsort m cog rho grav z h' H. unfold at_rest_in, compute_hydrostatics in *. rewrite placed_mid. rewrite <- placed_mesh_eq.
  destruct (mesh_clipper argsort water vicinity_tol true (translate_z z (rotate_matrix mid m))) as [k|e]; [|discriminate]. cbn [bind] in *.
  destruct (faces_properties (clipped k)) as [props|e]; [|discriminate]. cbn [bind] in *.
  destruct (existsb _ _); [discriminate|]. destruct (eval_plain_mesh_inertias rho (clipped k)) as [i|e]; [|discriminate]. cbn [bind] in *.
  destruct (Reqb rho 0); [discriminate|]. destruct (Reqb (rb_mass i / rho) 0); [discriminate|].
  destruct (add_polygons _ _ _ _ _) as [[s es]|e]; [|discriminate]. cbn [bind] in *.
  destruct (arr_min (map e_xmin es)); [|discriminate]. destruct (arr_max (map e_xmax es)); [|discriminate]. destruct (arr_min (map e_ymin es)); [|discriminate]. destruct (arr_max (map e_ymax es)); [|discriminate]. cbn [bind] in *.
  destruct (Reqb (rho * grav * g0 (scale_sums s)) 0); [discriminate|].
  destruct (axis_aligned_bbox (clipped k)) as [box|e]; [|discriminate]. cbn [bind] in *.
  assert (E : vz (mvec mid (placed mid z cog)) + 0 = vz (mvec mid cog) + z) by (rewrite mvec_id; unfold placed; cbn [vz]; ring).
  eexists. split; [reflexivity|]. assert (INJ : forall x y : hydro, Ok x = Ok y -> x = y) by (intros x y X; inversion X; auto). apply INJ in H. subst h'.
  cbn [h_disp_volume h_waterplane_area h_disp_mass h_buoyancy_center h_waterplane_center h_transversal_metacentric_height h_longitudinal_metacentric_height h_length_at_waterline h_breadth_at_waterline h_breadth h_stiffness_matrix vx vy vz].
  rewrite E. change (mtrans mid) with mid. rewrite !mvec_id.
  repeat (split; [reflexivity|]). split; [apply vec_eq; unfold placed; cbn; ring|]. split; [unfold placed; rewrite mvec_id; cbn [vx vy vz]; f_equal; ring|]. repeat (split; [reflexivity|]). reflexivity.
Qed.

(** ** No face is too small. *)
Definition half (x : R) : Prop := exists n, x = IZR n / 2.
Definition quarter (x : R) : Prop := exists n, x = IZR n / 4.
Lemma half_sub : forall x y, half x -> half y -> half (x - y).
Proof. intros x y (n & ->) (p & ->). exists (n - p)%Z. rewrite minus_IZR. field. Qed.
Lemma quarter_det : forall a b c d, half a -> half b -> half c -> half d -> quarter (a * b - c * d).
Proof. intros a b c d (n & ->) (p & ->) (q & ->) (r & ->). exists (n * p - q * r)%Z. rewrite minus_IZR, !mult_IZR. field. Qed.
Lemma quarter_big : forall x, quarter x -> x <> 0 -> 1 / 16 <= x * x.
Proof.
  intros x (n & ->) H. assert (N : (n <> 0)%Z) by (intros ->; apply H; lra). assert (B : (1 <= n * n)%Z) by nia. apply IZR_le in B. rewrite mult_IZR in B. lra.
Qed.
Definition half_point (v : vec) : Prop := half (vx v) /\ half (vy v) /\ half (vz v).
Lemma half_normal : forall a b c, half_point a -> half_point b -> half_point c -> let n := cross (vsub b a) (vsub c a) in n <> vzero -> 1 / 4 <= norm n.
Proof.
  intros a b c (A1 & A2 & A3) (B1 & B2 & B3) (C1 & C2 & C3) n N.
  assert (Q : quarter (vx n) /\ quarter (vy n) /\ quarter (vz n)) by (unfold n, cross, vsub; cbn [vx vy vz]; repeat split; apply quarter_det; apply half_sub; auto).
  destruct Q as (Q1 & Q2 & Q3). assert (S : 1 / 16 <= dot n n).
  { destruct (Req_dec (vx n) 0) as [X|X]; [destruct (Req_dec (vy n) 0) as [Y|Y]; [destruct (Req_dec (vz n) 0) as [W|W]|]|].
    - exfalso. apply N. apply vec_eq; auto.
    - apply quarter_big in W; auto. unfold dot. nra.
    - apply quarter_big in Y; auto. unfold dot. nra.
    - apply quarter_big in X; auto. unfold dot. nra. }
  assert (NN : norm n * norm n = dot n n) by apply norm_sqr. assert (P : 0 <= norm n) by apply sqrt_pos. nra.
Qed.

Section Box.
  Variables (argsort : list R -> list nat) (z : R).
  Hypothesis SA : sorting argsort.
  Hypothesis Z : -2 + 1 / 500 < z < 1 - 1 / 500.
  Hypothesis HZ : half z.
  Lemma box_half : forall x, in_box z x -> half_point x.
  Proof.
    assert (I : forall n, half (IZR n)) by (intros n; exists (2 * n)%Z; rewrite mult_IZR; field).
    intros x (A & B & C). split; [destruct A as [-> | ->]; apply I|]. split; [destruct B as [-> | ->]; apply I|].
    destruct C as [-> | [-> | ->]]; [apply half_sub; auto; apply I|apply I|]. replace (z + 2) with (z - IZR (-2)) by (simpl; ring). apply half_sub; auto.
  Qed.
  Lemma box_not_tiny : forall k, clip_mesh argsort (afloat z) = Ok k -> valid (clipped k) -> proper_mesh (clipped k) -> ~ tiny_face k.
  Proof.
    intros k K VC PC (props & E & p & I & L). unfold clip_mesh in K.
    destruct (clipper_lined_ok sea_level close close_pos argsort SA true (afloat z) k (af_valid z) (af_settled z Z) (af_convex z) (af_unpinched z Z) K)
      as (direct & inv & name & low & cr & LI & _). assert (LR : Forall (cut_point sea_level close (afloat z)) (verts (clipped k))) by (destruct LI; assumption).
    rewrite (faces_properties_ok _ VC) in E. injection E as <-. apply in_map_iff in I as (f & <- & IF).
    pose proof (valid_in _ f VC IF) as (V0 & V1 & V2 & V3').
    assert (HP : forall i, (i < length (verts (clipped k)))%nat -> half_point (point (verts (clipped k)) i)).
    { intros i Hi. apply box_half, af_points; auto. rewrite Forall_forall in LR. apply LR. apply nth_In. auto. }
    unfold proper_mesh in PC. rewrite Forall_forall in PC. specialize (PC f IF). unfold proper_face in PC.
    apply Rabs_def2 in L. destruct L as [L _]. unfold props_of in L.
    assert (SW : forall x y, norm (cross x y) = norm (cross y x)) by (intros x y; unfold norm; f_equal; vunfold; ring).
    assert (BG : forall i j l, (i < length (verts (clipped k)))%nat -> (j < length (verts (clipped k)))%nat -> (l < length (verts (clipped k)))%nat ->
      let vs := verts (clipped k) in triangle_normal (point vs i) (point vs j) (point vs l) <> vzero -> 1 / 4 <= norm (cross (vsub (point vs j) (point vs i)) (vsub (point vs l) (point vs i)))).
    { intros i j l Hi Hj Hl vs N. apply half_normal; auto. }
    unfold is_triangle in L. destruct (Nat.eq_dec (f0 f) (f3 f)) as [T|T].
    - rewrite (proj2 (Nat.eqb_eq _ _) T) in L. unfold triangle_props, cor in L. cbn [fp_area p0 p1 p2] in L. specialize (BG _ _ _ V0 V1 V2 PC). cbv zeta in BG. lra.
    - rewrite (proj2 (Nat.eqb_neq _ _) T) in L. unfold quad_props, cor in L. cbn [fp_area p0 p1 p2 p3] in L. destruct PC as (_ & [PC|PC]).
      + specialize (BG _ _ _ V0 V1 V2 PC). cbv zeta in BG. match type of L with _ + ?x * _ < _ => assert (0 <= x) by apply norm_nonneg end. lra.
      + specialize (BG _ _ _ V0 V2 V3' PC). cbv zeta in BG. rewrite SW in BG. match type of L with ?x * _ + _ < _ => assert (0 <= x) by apply norm_nonneg end. lra.
  Qed.

  (** The data of the box *)
  Lemma box_data : forall cog rho grav, rho <> 0 -> grav <> 0 -> exists k d, clip_mesh argsort (afloat z) = Ok k /\ properties k rho (rho * grav) (vz cog) = Ok d /\
    d_volume d = 8 * (1 - z) /\ d_mass d = rho * (8 * (1 - z)) /\ d_buoyancy d = V3 2 1 ((z - 1) / 2) /\ d_flotation d = V3 2 1 0 /\ d_waterplane_area d = 8 /\ d_lwl d = 4 /\ d_breadth d = 2 /\
    d_gm_x d = 4 / (3 * (1 - z)) - (vz cog - (z - 1) / 2) /\ d_gm_y d = 16 / (3 * (1 - z)) - (vz cog - (z - 1) / 2).
  Proof.
    intros cog rho grav R0 G0. set (cog' := V3 (vx cog) (vy cog) (vz cog - z)).
    assert (PC : placed mid z cog' = cog) by (unfold placed; rewrite mvec_id; apply vec_eq; unfold cog'; cbn; ring).
    destruct (box_ok argsort z rho grav cog' false None false SA Z R0 G0) as (h' & EV).
    destruct (raised_same _ _ _ _ _ _ _ EV) as (h & AR & VO & WA & MA & BC & WC & HT & HL & LW & BR & _). rewrite afloat_placed, PC in AR.
    destruct (box_sides argsort z rho grav cog' false None false SA Z h' EV) as (k & body & minx & maxx & miny & maxy & box & HR & PS & KZ).
    assert (K : clip_mesh argsort (afloat z) = Ok k) by exact KZ.
    destruct (clip_wetted argsort SA (afloat z) k (af_floats z Z) KZ) as (WT & _ & PM). specialize (PM (af_strict z)).
    assert (VC : valid (clipped k)) by (destruct WT; assumption).
    destruct (properties_spec _ _ _ cog rho grav K) as (_ & OK). destruct (OK _ AR) as [(d & P & AG)|(_ & T)]; [|exfalso; apply (box_not_tiny k); auto].
    exists k, d. split; auto. split; auto. destruct AG. 
    assert (V : h_disp_volume h = 8 * (1 - z)) by (rewrite VO; apply (box_volume argsort z rho grav cog' false None false SA Z h' EV)).
    assert (B : h_buoyancy_center h = V3 2 1 ((z - 1) / 2)) by (rewrite BC; apply (box_center argsort z rho grav cog' false None false SA Z h' EV)).
    destruct (box_plane argsort z rho grav cog' false None false SA Z h' EV) as (A & F). rewrite <- WC in F. rewrite <- WA in A.
    destruct (box_dims argsort z rho grav cog' h' SA Z EV) as (L & BB). rewrite <- LW in L. destruct (C89_dimensions _ _ _ _ _ _ _ _ _ _ _ SA mid_rotation EV (box_floats z Z)) as (_ & _ & BE & _).
    rewrite BE, <- BR in BB.
    destruct (run_fields _ _ _ _ _ _ _ _ _ _ _ _ _ _ _ _ _ _ mid_rotation HR) as (_ & MU & MV & RT & RL & _).
    assert (M : h_disp_mass h = rho * (8 * (1 - z))) by (rewrite MA, MV, <- V, VO, MU; field; auto).
    destruct (run_heights _ _ _ _ _ _ _ _ _ _ _ _ _ _ _ _ _ _ mid_rotation HR) as (H1 & H2).
    rewrite <- VO in RT, RL. rewrite <- HT in H1. rewrite <- HL in H2. rewrite <- BC, PC in *. rewrite B, V in *. cbn [vx vy vz] in *. rewrite !PS in *.
    unfold S_clipper.run, Rsum, side4, side5, w1, w2, w3, w4 in RT, RL. cbn in RT, RL.
    assert (RT' : h_transversal_metacentric_radius h' = 4 / (3 * (1 - z))) by (apply (Rmult_eq_reg_r (8 * (1 - z))); [rewrite RT; field|]; lra).
    assert (RL' : h_longitudinal_metacentric_radius h' = 16 / (3 * (1 - z))) by (apply (Rmult_eq_reg_r (8 * (1 - z))); [rewrite RL; field|]; lra).
    destruct ag_heights as [-> ->], ag_waterline as [-> ->]. rewrite ag_volume, ag_mass, ag_buoyancy, ag_flotation, ag_area, H1, H2, RT', RL'.
    repeat (split; [first [assumption|reflexivity]|]). reflexivity.
  Qed.
End Box.

(** ** Bodies made of the box *)
Lemma box_raised : forall z dz, placed_mesh mid dz (afloat z) = afloat (z + dz).
Proof.
  intros z dz. unfold placed_mesh, afloat. cbn [verts faces map]. f_equal.
  repeat (apply f_equal2; [apply vec_eq; unfold placed; cbv zeta; vunfold; ring|]). reflexivity.
Qed.
Lemma box_proper : forall z, existsb (no_normal (verts (afloat z))) (faces (afloat z)) = false.
Proof.
  intros z. apply no_normal_spec; [apply af_valid|]. unfold proper_mesh, afloat, box_faces. cbn [faces verts].
  repeat (apply Forall_cons; [cbn; unfold triangle_normal; vunfold; split; [|left]; intros X; injection X; intros; lra|]). apply Forall_nil.
Qed.
Lemma box_whole : forall z, volume (afloat z) = Ok 24.
Proof.
  intros z. rewrite volume_exact.
  - f_equal. unfold signed_volume, surface_sum. cbn. unfold tetra. vunfold. field.
  - apply af_valid.
  - unfold flat_mesh, afloat, box_faces. cbn [faces verts]. repeat (apply Forall_cons; [cbn; unfold flat_quad|]); [..|apply Forall_nil].
    + exists (V3 0 0 (-1)), 8, 8. unfold unit, triangle_normal. vunfold. repeat split; try lra; apply vec_eq; cbn; ring.
    + exists (V3 0 0 1), 8, 8. unfold unit, triangle_normal. vunfold. repeat split; try lra; apply vec_eq; cbn; ring.
    + exists (V3 0 (-1) 0), 12, 12. unfold unit, triangle_normal. vunfold. repeat split; try lra; apply vec_eq; cbn; ring.
    + exists (V3 1 0 0), 6, 6. unfold unit, triangle_normal. vunfold. repeat split; try lra; apply vec_eq; cbn; ring.
    + exists (V3 0 1 0), 12, 12. unfold unit, triangle_normal. vunfold. repeat split; try lra; apply vec_eq; cbn; ring.
    + exists (V3 (-1) 0 0), 6, 6. unfold unit, triangle_normal. vunfold. repeat split; try lra; apply vec_eq; cbn; ring.
Qed.

Lemma box_mass : forall t u z, u_mesh u = afloat z -> 
  set_mass t u = (if Rltb (u_rho u * 24) (t * 1000) then Raise ValueError else Ok tt, with_mass (t * 1000) (t * 1000 * u_gravity u) u).
Proof.
  intros t u z M. unfold set_mass, seq_, modify, is_sinking. cbn [u_mesh u_rho u_mass with_mass]. rewrite M, box_proper, box_whole.
  destruct (Rltb (u_rho u * 24) (t * 1000)); reflexivity.
Qed.

(** The data of the box at the height [z] *)
Record boxed (z zg rho : R) (d : data) : Prop := {
  bx_volume : d_volume d = 8 * (1 - z);
  bx_mass : d_mass d = rho * (8 * (1 - z));
  bx_buoyancy : d_buoyancy d = V3 2 1 ((z - 1) / 2);
  bx_flotation : d_flotation d = V3 2 1 0;
  bx_area : d_waterplane_area d = 8;
  bx_lwl : d_lwl d = 4;
  bx_breadth : d_breadth d = 2;
  bx_roll : d_gm_x d = 4 / (3 * (1 - z)) - (zg - (z - 1) / 2);
  bx_pitch : d_gm_y d = 16 / (3 * (1 - z)) - (zg - (z - 1) / 2) }.
Definition box_at (z : R) : Prop := -2 + 1 / 500 < z < 1 - 1 / 500 /\ half z.

Section Bodies.
  Variable argsort : list R -> list nat.
  Hypothesis SA : sorting argsort.
  Lemma box_refresh : forall u z, box_at z -> u_mesh u = afloat z -> fresh_clipper argsort u -> u_rhog u = u_rho u * u_gravity u -> u_rho u <> 0 -> u_gravity u <> 0 ->
    exists k d, clip_mesh argsort (afloat z) = Ok k /\ update_properties argsort u = (Ok tt, with_data d (with_clipper (Some k) u)) /\ boxed z (zg u) (u_rho u) d.
  Proof.
    intros u z (Z & HZ) M F RG R0 G0. destruct (box_data argsort z SA Z HZ (gravity_center u) (u_rho u) (u_gravity u) R0 G0) as (k & d & K & P & D). exists k, d. split; auto.
    split; [|destruct D as (? & ? & ? & ? & ? & ? & ? & ? & ?); constructor; auto].
    unfold update_properties, seq_, the_clipper. unfold zg. destruct (u_clipper u) as [k'|] eqn:C.
    - specialize (F k' C). rewrite M, K in F. injection F as <-. rewrite RG, P. f_equal. f_equal. destruct u. cbn in *. subst. reflexivity.
    - rewrite M, K. cbn [u_rho u_rhog with_clipper]. change (gravity_center (with_clipper (Some k) u)) with (gravity_center u). rewrite RG, P. reflexivity.
  Qed.

  Lemma box_made : forall w z cog rho grav, box_at z -> rho <> 0 -> grav <> 0 ->
    exists u, hydrostatics argsort w (afloat z) cog None rho grav = Ok u /\ boxed z (vz cog) rho (u_data u).
  Proof.
    intros w z cog rho grav BH R0 G0. unfold hydrostatics. cbn [alloc]. match goal with |- context [update_properties argsort ?x] => set (u := x) end.
    destruct (box_refresh u z BH) as (k & d & _ & E & D); auto; [intros ? X; discriminate X|]. rewrite E. eexists. split; [reflexivity|]. cbn [u_data with_mass with_data with_clipper].
    replace (vz cog) with (zg u); auto. unfold zg. f_equal. exact (array_alloc (fst (alloc cog w)) cog).
  Qed.
  (** A mass that is given *)
  Lemma box_made_of : forall w z cog rho grav t, box_at z -> rho <> 0 -> grav <> 0 -> t <> 0 -> rho * 24 < t * 1000 * 1000 ->
    hydrostatics argsort w (afloat z) cog (Some t) rho grav = Raise ValueError.
  Proof.
    intros w z cog rho grav t BH R0 G0 T0 L. unfold hydrostatics. cbn [alloc]. match goal with |- context [update_properties argsort ?x] => set (u := x) end.
    destruct (box_refresh u z BH) as (k & d & _ & E & D); auto; [intros ? X; discriminate X|]. rewrite E. rewrite (proj2 (Reqb_false _ _) T0).
    rewrite (box_mass _ _ z) by reflexivity. cbn [u_rho with_data with_clipper u]. rewrite (proj2 (Rltb_true _ _) L). reflexivity.
  Qed.

  Lemma mid_cardan : cardan_to_rotmat 0 0 0 = mid.
  Proof. unfold cardan_to_rotmat. rewrite cos_0, sin_0. apply mat_eq; vunfold; ring. Qed.
  Lemma box_moved : forall u u' z dz, carriage mid (V3 0 0 dz) u u' -> u_mesh u = afloat z -> u_mesh u' = afloat (z + dz).
  Proof. intros u u' z dz C M. destruct (raised dz u u' C) as [E _]. rewrite E, M. apply box_raised. Qed.
  (** The box after a motion in height *)
  Lemma box_heave : forall u v z dz, apart u -> wired u -> carriage mid (V3 0 0 dz) u v -> u_mesh u = afloat z -> box_at (z + dz) -> u_rho u <> 0 -> u_gravity u <> 0 ->
    exists k d, update_properties argsort (with_clipper None v) = (Ok tt, with_data d (with_clipper (Some k) v)) /\ boxed (z + dz) (zg u + dz) (u_rho u) d.
  Proof.
    intros u v z dz A W C M BH R0 G0. pose proof (carriage_wired _ _ _ _ C W) as W'. pose proof (ca_body _ _ _ _ C) as [_ (S1 & S2 & S3) _ _].
    destruct (box_refresh (with_clipper None v) (z + dz)) as (k & d & _ & E & D); auto.
    - cbn. apply (box_moved u v); auto.
    - intros ? X. discriminate X.
    - apply W'.
    - cbn. congruence.
    - cbn. congruence.
    - exists k, d. split; auto. replace (zg u + dz) with (zg v); [rewrite <- S1; exact D|]. unfold zg. destruct (raised dz u v C) as [_ ->]. unfold placed. rewrite mvec_id. reflexivity.
  Qed.
  Lemma box_step : forall n dz zc u z, apart u -> wired u -> u_mesh u = afloat z -> box_at (z + dz) -> u_rho u <> 0 -> u_gravity u <> 0 ->
    exists u', carriage mid (V3 0 0 dz) u u' /\ known argsort u' /\ boxed (z + dz) (zg u + dz) (u_rho u) (u_data u') /\
      displace argsort (S n) dz zc u = (if ratio_below (vx (residual u')) (u_mg u') (p_reltol (u_solver u')) then (Ok (zc + dz), u')
        else displace argsort n (relax (p_z_relax (u_solver u')) (vx (residual u') / (u_rhog u' * 8))) (zc + dz) u').
  Proof.
    intros n dz zc u z A W M BH R0 G0. set (v := update_forces dz mid (heave dz u)). pose proof (heave_carriage dz u A) as C. fold v in C.
    destruct (box_heave u v z dz A W C M BH R0 G0) as (k & d & E & D). exists (with_data d (with_clipper (Some k) v)).
    destruct (refreshed argsort _ _ u v _ W C E) as (C' & U & F). split; auto. split; [split; auto|]. split; auto.
    assert (AR : d_waterplane_area d = 8) by apply (bx_area _ _ _ _ D).
    change (displace argsort (S n) dz zc u) with (match update_properties argsort (with_clipper None v) with (Ok _, u0) =>
      if ratio_below (vx (residual u0)) (u_mg u0) (p_reltol (u_solver u0)) then (Ok (zc + dz), u0)
      else displace argsort n (relax (p_z_relax (u_solver u0)) (vx (residual u0) / (u_rhog u0 * d_waterplane_area (u_data u0)))) (zc + dz) u0 | (Raise e, u0) => (Raise e, u0) end).
    rewrite E. cbn [u_data with_data]. rewrite AR. reflexivity.
  Qed.
  Lemma box_still : forall u z, apart u -> wired u -> u_mesh u = afloat z -> box_at z -> u_rho u <> 0 -> u_gravity u <> 0 ->
    exists u', move argsort 0 0 0 u = (Ok tt, u') /\ carriage mid (V3 0 0 0) u u' /\ known argsort u' /\ boxed z (zg u) (u_rho u) (u_data u') /\ exists k, u_clipper u' = Some k.
  Proof.
    intros u z A W M BH R0 G0. rewrite move_eq, mid_cardan. set (v := update_forces 0 mid (turn mid (heave 0 u))). pose proof (move_carriage 0 mid u A) as C. rewrite mvec_id in C. fold v in C.
    destruct (box_heave u v z 0 A W C M) as (k & d & E & D); try rewrite Rplus_0_r; auto. rewrite !Rplus_0_r in D. exists (with_data d (with_clipper (Some k) v)).
    destruct (refreshed argsort _ _ u v _ W C E) as (C' & U & F). rewrite E. repeat (split; auto). exists k. reflexivity.
  Qed.
  Lemma still : forall u u', carriage mid (V3 0 0 0) u u' -> u_mesh u' = u_mesh u /\ gravity_center u' = gravity_center u /\ loads u' = loads u.
  Proof.
    intros u u' [[M G L] _ _ _ _ _ _]. assert (V : forall v, vadd (mvec mid v) (V3 0 0 0) = v) by (intros v; rewrite mvec_id; apply vadd_zero). rewrite M, G, L, V. split; [|split; auto].
    - destruct (u_mesh u) as [vs fs]. cbn. f_equal. rewrite <- (map_id vs) at 2. apply map_ext. auto.
    - rewrite <- (map_id (loads u)) at 2. apply map_ext. intros l. apply carried_mid.
  Qed.
End Bodies.
