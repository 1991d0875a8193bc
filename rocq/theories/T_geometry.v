(** Properties C13-C23: geometric quantities of a mesh (meshmagick/mesh.py). *)
From Coq Require Import Reals List Arith Bool Lia Lra Psatz ZArith.
From Verif Require Import M_base P_base M_merge M_plane M_rotations S_rotations P_rotations M_mesh S_mesh P_mesh M_inertia
  M_geometry S_integral P_integral S_geometry P_geometry P_volume P_quantities P_witness T_mesh.
Import ListNotations.
Open Scope R_scope.

(** ** C13 *)
Theorem C13_remove_degenerated : forall rtol m, 0 < rtol -> valid m ->
  exists m', remove_degenerated_faces rtol m = Ok m' /\ verts m' = verts m /\
    faces m' = filter (fun f => Rleb (rtol * mean_area m) (face_area (verts m) f)) (faces m).
Proof. intros rtol m H V. eexists. split; [apply remove_degenerated_ok; auto|]. auto. Qed.
Theorem C13_one_face_kept : forall rtol m m', 0 < rtol <= 1 -> valid m -> faces m <> [] ->
  remove_degenerated_faces rtol m = Ok m' -> faces m' <> [].
Proof. exact degenerated_keeps_one. Qed.
Theorem C13_large_faces_kept : forall rtol m m' f, 0 < rtol <= 1 -> valid m ->
  remove_degenerated_faces rtol m = Ok m' -> In f (faces m) -> mean_area m <= face_area (verts m) f -> In f (faces m').
Proof. exact degenerated_keeps_large. Qed.
Theorem C13_bad_tolerance : forall rtol m, rtol <= 0 -> remove_degenerated_faces rtol m = Raise AssertionError.
Proof. intros. unfold remove_degenerated_faces. apply Rltb_false in H. rewrite H. auto. Qed.
(** A flat sliver beside a unit square: removed with rtol = 1/1000. *)
Example degenerated_example :
  remove_degenerated_faces (1 / 1000) (mkMesh (verts house) [F4 0 1 2 3; F4 0 1 1 0]) =
  Ok (mkMesh (verts house) [F4 0 1 2 3]).
Proof.
  rewrite remove_degenerated_ok by (try lra; repeat constructor; simpl; lia).
  assert (A : face_area (verts house) (F4 0 1 2 3) = 1).
  { unfold face_area. cbn. unfold triangle_normal.
    rewrite (norm_val _ 1), (norm_val _ 1) by (vunfold; ring). rewrite sqrt_1. lra. }
  assert (B : face_area (verts house) (F4 0 1 1 0) = 0).
  { unfold face_area. cbn. unfold triangle_normal. rewrite (norm_val _ 0) by (vunfold; ring). rewrite sqrt_0. lra. }
  unfold mean_area. cbn [verts faces filter map Rsum fold_right length INR].
  change (F4 0 1 1 0) with (F4 0 1 1 0) in *.
  replace (face_area (verts house) {| f0 := 0; f1 := 1; f2 := 2; f3 := 3 |}) with 1 by (symmetry; exact A).
  replace (face_area (verts house) {| f0 := 0; f1 := 1; f2 := 1; f3 := 0 |}) with 0 by (symmetry; exact B).
  replace (Rleb (1 / 1000 * ((1 + (0 + 0)) / (1 + 1))) 1) with true by (symmetry; apply Rleb_true; lra).
  replace (Rleb (1 / 1000 * ((1 + (0 + 0)) / (1 + 1))) 0) with false by (symmetry; apply Rleb_false; lra).
  reflexivity.
Qed.

(** ** C14 *)
(** One line of properties for each face: area and center are the exact area and centroid, the normal is unit and
    orthogonal to the edges of a triangle or to the diagonals of a quadrangle, oriented by the right-hand rule. *)
Theorem C14_face_properties : forall m, valid m -> proper_mesh m ->
  exists ps, faces_properties m = Ok ps /\ length ps = length (faces m) /\
  forall k f p, nth_error (faces m) k = Some f -> nth_error ps k = Some p ->
    let P i := point (verts m) i in
    is_mesh_surface_integral (fun _ => 1) (mkMesh (verts m) [f]) (fp_area p) /\ 0 < fp_area p /\
    is_mesh_surface_integral vx (mkMesh (verts m) [f]) (fp_area p * vx (fp_center p)) /\
    is_mesh_surface_integral vy (mkMesh (verts m) [f]) (fp_area p * vy (fp_center p)) /\
    is_mesh_surface_integral vz (mkMesh (verts m) [f]) (fp_area p * vz (fp_center p)) /\
    unit (fp_normal p) /\
    (f0 f = f3 f ->
       dot (fp_normal p) (vsub (P (f1 f)) (P (f0 f))) = 0 /\ dot (fp_normal p) (vsub (P (f2 f)) (P (f0 f))) = 0 /\
       0 < dot (fp_normal p) (cross (vsub (P (f1 f)) (P (f0 f))) (vsub (P (f2 f)) (P (f0 f))))) /\
    (f0 f <> f3 f ->
       dot (fp_normal p) (vsub (P (f2 f)) (P (f0 f))) = 0 /\ dot (fp_normal p) (vsub (P (f3 f)) (P (f1 f))) = 0 /\
       0 < dot (fp_normal p) (cross (vsub (P (f2 f)) (P (f0 f))) (vsub (P (f3 f)) (P (f1 f))))).
Proof.
  intros m V Pm. exists (map (props_of (verts m)) (faces m)). split; [apply faces_properties_ok; auto|].
  split; [apply map_length|]. intros k f p Hf Hp P. rewrite nth_error_map, Hf in Hp. injection Hp as <-.
  assert (PF : proper_face (verts m) f) by (unfold proper_mesh in Pm; rewrite Forall_forall in Pm; apply Pm; eapply nth_error_In; eauto).
  rewrite props_area. split; [apply face_area_exact|]. split; [apply face_area_pos; auto|].
  split; [apply center_exact; auto; left; auto|]. split; [apply center_exact; auto; right; left; auto|].
  split; [apply center_exact; auto; right; right; auto|]. split; [apply normal_unit; auto|]. split; intros E.
  - apply normal_triangle; auto. apply is_triangle_true; auto.
  - apply normal_quad; auto. apply is_triangle_false; auto.
Qed.
(** Closed forms. *)
Theorem C14_closed_forms : forall m, valid m ->
  exists ps, faces_properties m = Ok ps /\
  forall k f p, nth_error (faces m) k = Some f -> nth_error ps k = Some p ->
    fp_area p = face_area (verts m) f /\ (planar_face (verts m) f -> vscale (fp_area p) (fp_normal p) = vector_area (verts m) f).
Proof.
  intros m V. exists (map (props_of (verts m)) (faces m)). split; [apply faces_properties_ok; auto|].
  intros k f p Hf Hp. rewrite nth_error_map, Hf in Hp. injection Hp as <-. split; [apply props_area|].
  intros P. apply vector_area_flat. unfold planar_face, flat_face in *. destruct (Nat.eq_dec (f0 f) (f3 f)); auto.
  apply convex_flat; auto.
Qed.
Example house_proper : proper_mesh house /\ planar_mesh house.
Proof.
  split; unfold proper_mesh, planar_mesh; cbn [house faces];
    (apply Forall_cons; [|apply Forall_cons; [|constructor]]); unfold proper_face, planar_face; cbn.
  - split; [|left]; unfold triangle_normal; intros E; vunfold; injection E; intros; lra.
  - unfold triangle_normal; intros E; vunfold; injection E; intros; lra.
  - exists (V3 0 0 1). unfold unit. vunfold. repeat split; lra.
  - unfold triangle_normal; intros E; vunfold; injection E; intros; lra.
Qed.

(** ** C15 *)
Theorem C15_translation : forall t m, valid m -> proper_mesh m ->
  exists ps, faces_properties m = Ok ps /\
    faces_properties (translate t m) =
      Ok (map (fun p => mkProps (fp_area p) (fp_normal p) (vadd (fp_center p) t)) ps).
Proof. intros. apply faces_properties_translate; auto. Qed.
Theorem C15_axis_translations : forall t m,
  translate_x t m = translate (V3 t 0 0) m /\ translate_y t m = translate (V3 0 t 0) m /\
  translate_z t m = translate (V3 0 0 t) m.
Proof.
  intros. rewrite !translate_affine, translate_x_affine, translate_y_affine, translate_z_affine. auto.
Qed.
Theorem C15_rotation : forall r m, is_rotation r -> valid m ->
  exists ps, faces_properties m = Ok ps /\
    faces_properties (rotate_matrix r m) =
      Ok (map (fun p => mkProps (fp_area p) (mvec r (fp_normal p)) (mvec r (fp_center p))) ps).
Proof. intros. apply faces_properties_rotate; auto. Qed.
Theorem C15_rotate_is_rotation : forall phi theta psi m,
  rotate phi theta psi m = rotate_matrix (mmul (Rot_z psi) (mmul (Rot_y theta) (Rot_x phi))) m /\
  is_rotation (mmul (Rot_z psi) (mmul (Rot_y theta) (Rot_x phi))).
Proof.
  intros. unfold rotate. rewrite <- cardan_product. split; auto. apply cardan_rotation.
Qed.
Theorem C15_rotate_composes : forall phi theta psi m,
  rotate phi theta psi m = rotate_z psi (rotate_y theta (rotate_x phi m)).
Proof.
  intros phi theta psi m. unfold rotate_z, rotate_y, rotate_x, rotate. rewrite !cardan_product.
  unfold rotate_matrix. cbn [verts faces]. f_equal. rewrite !map_map. apply map_ext. intros v.
  assert (X : Rot_x 0 = mid) by (unfold Rot_x; rewrite cos_0, sin_0, Ropp_0; reflexivity).
  assert (Y : Rot_y 0 = mid) by (unfold Rot_y; rewrite cos_0, sin_0, Ropp_0; reflexivity).
  assert (Z : Rot_z 0 = mid) by (unfold Rot_z; rewrite cos_0, sin_0, Ropp_0; reflexivity).
  rewrite X, Y, Z, !mmul_id_l, !mmul_id_r, !mvec_mul. reflexivity.
Qed.
Theorem C15_distances : forall t r m i j a b a' b' a'' b'', is_rotation r ->
  nth_error (verts m) i = Some a -> nth_error (verts m) j = Some b ->
  nth_error (verts (translate t m)) i = Some a' -> nth_error (verts (translate t m)) j = Some b' ->
  nth_error (verts (rotate_matrix r m)) i = Some a'' -> nth_error (verts (rotate_matrix r m)) j = Some b'' ->
  norm (vsub a' b') = norm (vsub a b) /\ norm (vsub a'' b'') = norm (vsub a b) /\
  a' = vadd a t /\ a'' = mvec r a.
Proof.
  intros t r m i j a b a' b' a'' b'' R A B A' B' A'' B''. cbn in *. rewrite nth_error_map in *. rewrite A, B in *.
  cbn in *. injection A' as <-. injection B' as <-. injection A'' as <-. injection B'' as <-.
  split; [rewrite sub_shift; auto|]. split; [apply rotation_distance; auto|]. auto.
Qed.
Theorem C15_volume : forall t r m, is_rotation r -> valid m ->
  (exists V, volume m = Ok V /\ volume (rotate_matrix r m) = Ok V) /\
  (planar_mesh m -> closed_surface (faces m) -> exists V, volume m = Ok V /\ volume (translate t m) = Ok V).
Proof.
  intros. split; [apply volume_rotate; auto|]. intros. apply volume_translate; auto.
Qed.

(** ** C16 *)
Theorem C16_volume_exact : forall m, valid m -> planar_mesh m ->
  volume m = Ok (signed_volume vzero m) /\ is_mesh_volume_integral (fun _ => 1) m (signed_volume vzero m).
Proof.
  intros m V P. split; [apply volume_exact; auto using planar_flat|].
  apply (cone_sum (fun _ => 1) (tetra vzero)). apply cone0_exact.
Qed.
(** For a closed mesh the signed volume does not depend on the apex of the tetrahedra. *)
Theorem C16_apex_is_free : forall m o, closed_surface (faces m) -> signed_volume o m = signed_volume vzero m.
Proof. exact signed_volume_apex. Qed.
Theorem C16_scaling : forall a m, 0 < a -> valid m -> planar_mesh m ->
  exists V s x y z, volume m = Ok V /\
    scale a m = Ok s /\ volume s = Ok (a ^ 3 * V) /\
    scalex a m = Ok x /\ volume x = Ok (a * V) /\
    scaley a m = Ok y /\ volume y = Ok (a * V) /\
    scalez a m = Ok z /\ volume z = Ok (a * V).
Proof. exact volume_scale. Qed.
(** A scaling factor that is not positive is refused. *)
Theorem C16_bad_factor : forall a m, a <= 0 ->
  scale a m = Raise AssertionError /\ scalex a m = Raise AssertionError /\
  scaley a m = Raise AssertionError /\ scalez a m = Raise AssertionError.
Proof.
  intros a m H. unfold scale, scalex, scaley, scalez, scaling. apply Rltb_false in H. rewrite H. auto.
Qed.
Theorem C16_translation : forall t m, valid m -> planar_mesh m -> closed_surface (faces m) ->
  exists V, volume m = Ok V /\ volume (translate t m) = Ok V.
Proof. exact volume_translate. Qed.
Theorem C16_rotation : forall phi theta psi m, valid m ->
  exists V, volume m = Ok V /\ volume (rotate phi theta psi m) = Ok V.
Proof. intros. apply volume_rotate; auto. apply cardan_rotation. Qed.
Theorem C16_flip : forall m, valid m -> planar_mesh m ->
  exists V, volume m = Ok V /\ volume (flip_normals m) = Ok (- V).
Proof. exact volume_flip. Qed.
Example tetrahedron_volume : volume tetrahedron = Ok (1 / 6).
Proof.
  destruct tetrahedron_meets as (V & P & _). rewrite (proj1 (C16_volume_exact _ V P)). f_equal.
  unfold signed_volume, surface_sum. cbn. unfold tetra. vunfold. field.
Qed.

(** ** C17 *)
Theorem C17_volume_depends_on_position_refuted : exists m V W, valid m /\ closed_surface (faces m) /\
  volume m = Ok V /\ volume (translate_z 1 m) = Ok W /\ V <> W.
Proof. exact warped_moves. Qed.
Theorem C17_volume_differs_from_triangulated_refuted : exists m m' V W, valid m /\ closed_surface (faces m) /\
  triangulate_quadrangles m = Ok m' /\ volume m = Ok V /\ volume m' = Ok W /\ V <> W.
Proof. exact warped_triangulated. Qed.

(** ** C18 *)
Theorem C18_surface_integrals : forall m, valid m ->
  exists is, faces_integrals m = Ok is /\ length is = length (faces m) /\
  forall k f i, nth_error (faces m) k = Some f -> nth_error is k = Some i ->
    let exact phi x := is_mesh_surface_integral phi (mkMesh (verts m) [f]) x in
    exact vx (vx (i0 i)) /\ exact vy (vy (i0 i)) /\ exact vz (vz (i0 i)) /\
    exact (fun v => vx v * vx v) (vx (i6 i)) /\ exact (fun v => vy v * vy v) (vy (i6 i)) /\
    exact (fun v => vz v * vz v) (vz (i6 i)) /\
    exact (fun v => vx v * vx v * vx v) (vx (i9 i)) /\ exact (fun v => vy v * vy v * vy v) (vy (i9 i)) /\
    exact (fun v => vz v * vz v * vz v) (vz (i9 i)) /\
    exact (fun v => vx v * vx v * vy v) (vx (i12 i)) /\ exact (fun v => vy v * vy v * vz v) (vy (i12 i)) /\
    exact (fun v => vz v * vz v * vx v) (vz (i12 i)).
Proof.
  intros m V. exists (map (ints_of (verts m)) (faces m)). split; [apply faces_integrals_ok; auto|].
  split; [apply map_length|]. intros k f i Hf Hi exact. rewrite nth_error_map, Hf in Hi. injection Hi as <-.
  destruct (ints_exact (verts m) f) as (E0 & E6 & E9 & E12). rewrite E0, E6, E9, E12. cbn [vx vy vz]. unfold exact.
  do 3 (split; [apply face_integral; intros; apply surf1_exact; unfold coordinate; auto|]).
  do 3 (split; [apply face_integral; intros; apply surf2_exact; unfold coordinate; auto|]).
  do 5 (split; [apply face_integral; intros; apply surf3_exact; unfold coordinate; auto|]).
  apply face_integral; intros; apply surf3_exact; unfold coordinate; auto.
Qed.
(** The exact integral is unique, so that these statements determine the values. *)
Theorem C18_integrals_are_determined : forall phi a b c I J,
  is_surface_integral phi a b c I -> is_surface_integral phi a b c J -> I = J.
Proof. exact surface_unique. Qed.

(** ** C19 *)
(** Right if and only if the triangle is degenerate or a polynomial of its sides vanishes. *)
Theorem C19_products_right_iff : forall a b c Iyz Ixz Ixy,
  is_surface_integral (fun v => vy v * vz v) a b c Iyz -> is_surface_integral (fun v => vx v * vz v) a b c Ixz ->
  is_surface_integral (fun v => vx v * vy v) a b c Ixy ->
  let degenerate := triangle_normal a b c = vzero in
  (vx (i3 (triangle_integrals a b c)) = Iyz <-> degenerate \/ warp vy vz a b c = 0) /\
  (vy (i3 (triangle_integrals a b c)) = Ixz <-> degenerate \/ warp vx vz a b c = 0) /\
  (vz (i3 (triangle_integrals a b c)) = Ixy <-> degenerate \/ warp vx vy a b c = 0).
Proof.
  intros a b c Iyz Ixz Ixy A B C degenerate.
  rewrite (surface_unique _ _ _ _ _ _ A (surf2_exact vy vz a b c (or_intror (or_introl eq_refl)) (or_intror (or_intror eq_refl)))),
    (surface_unique _ _ _ _ _ _ B (surf2_exact vx vz a b c (or_introl eq_refl) (or_intror (or_intror eq_refl)))),
    (surface_unique _ _ _ _ _ _ C (surf2_exact vx vy a b c (or_introl eq_refl) (or_intror (or_introl eq_refl)))).
  rewrite triangle_products. cbn [vx vy vz].
  assert (Q : forall e w, surf (fun a b c => e a b c + w a b c / 24) a b c = surf e a b c <-> degenerate \/ w a b c = 0).
  { intros e w. unfold surf. unfold degenerate. rewrite <- norm_zero_iff.
    set (N := norm (triangle_normal a b c)). clearbody N. split.
    - intros E. assert (Z : N * w a b c = 0) by lra. apply Rmult_integral in Z. auto.
    - intros [-> | ->]; lra. }
  repeat split; apply Q; auto.
Qed.
Theorem C19_product_wrong_refuted : exists a b c I, is_surface_integral (fun v => vx v * vy v) a b c I /\
  vz (i3 (triangle_integrals a b c)) <> I.
Proof.
  exists (V3 0 0 0), (V3 1 1 0), (V3 0 1 0). eexists. split.
  - apply surf2_exact; unfold coordinate; auto.
  - rewrite triangle_products. cbn [vz]. unfold surf, triangle_normal, warp. cbn [vx vy].
    rewrite (norm_val _ 1) by (vunfold; ring). rewrite sqrt_1. lra.
Qed.
(** Product of inertia of a shell: exact value plus the error term. *)
Theorem C19_shell_products : forall rho t m, valid m ->
  exists r Iyz Ixz Ixy, eval_shell_mesh_inertias rho t m = Ok r /\
    is_mesh_surface_integral (fun v => vy v * vz v) m Iyz /\
    is_mesh_surface_integral (fun v => vx v * vz v) m Ixz /\
    is_mesh_surface_integral (fun v => vx v * vy v) m Ixy /\
    let err p q := surface_sum (fun a b c => norm (triangle_normal a b c) * (warp p q a b c / 24)) (verts m) (faces m) in
    rb_yz r = rho * t * (Iyz + err vy vz) /\ rb_xz r = rho * t * (Ixz + err vx vz) /\ rb_xy r = rho * t * (Ixy + err vx vy).
Proof.
  intros rho t m V. do 4 eexists. split; [apply shell_sums; auto|].
  split; [apply surface_integral_sum; intros; apply surf2_exact; unfold coordinate; auto|].
  split; [apply surface_integral_sum; intros; apply surf2_exact; unfold coordinate; auto|].
  split; [apply surface_integral_sum; intros; apply surf2_exact; unfold coordinate; auto|].
  cbv zeta. unfold rb_yz, rb_xz, rb_xy, rigid_new, surf. cbn [rb_mat m12 m02 m01]. repeat split; ring.
Qed.
(** Exact value of the shell made of one triangle, where the reported product is different. *)
Theorem C19_shell_wrong_refuted : exists m r I, valid m /\ proper_mesh m /\ eval_shell_mesh_inertias 1 1 m = Ok r /\
  is_mesh_surface_integral (fun v => vx v * vy v) m I /\ rb_xy r <> I.
Proof.
  exists (mkMesh [V3 0 0 0; V3 1 1 0; V3 0 1 0] [F4 0 1 2 0]).
  destruct (C19_shell_products 1 1 (mkMesh [V3 0 0 0; V3 1 1 0; V3 0 1 0] [F4 0 1 2 0])) as (r & A & B & I & E & _ & _ & EI & _ & _ & X).
  { repeat constructor; simpl; lia. }
  exists r, I. split; [repeat constructor; simpl; lia|]. split.
  { repeat constructor. simpl. unfold triangle_normal. intros Z; vunfold; injection Z; intros; lra. }
  split; auto. split; auto. rewrite X. unfold surface_sum. cbn. unfold triangle_normal, warp.
  rewrite (norm_val _ 1) by (vunfold; ring). rewrite sqrt_1. cbn. lra.
Qed.

(** ** C20 *)
Theorem C20_plain_inertia : forall rho m, valid m -> planar_mesh m -> closed_surface (faces m) ->
  signed_volume vzero m <> 0 ->
  exists r V X Y Z XX YY ZZ YZ XZ XY, eval_plain_mesh_inertias rho m = Ok r /\
    let exact phi x := is_mesh_volume_integral phi m x in
    exact (fun _ => 1) V /\ exact vx X /\ exact vy Y /\ exact vz Z /\
    exact (fun v => vx v * vx v) XX /\ exact (fun v => vy v * vy v) YY /\ exact (fun v => vz v * vz v) ZZ /\
    exact (fun v => vy v * vz v) YZ /\ exact (fun v => vz v * vx v) XZ /\ exact (fun v => vx v * vy v) XY /\
    V = signed_volume vzero m /\
    rb_mass r = rho * V /\ rb_cog r = V3 (X / V) (Y / V) (Z / V) /\ rb_point r = vzero /\
    rb_xx r = rho * (YY + ZZ) /\ rb_yy r = rho * (XX + ZZ) /\ rb_zz r = rho * (XX + YY) /\
    rb_yz r = rho * YZ /\ rb_xz r = rho * XZ /\ rb_xy r = rho * XY /\ rb_mat r = mtrans (rb_mat r).
Proof.
  intros rho m V P C N. 
  pose proof (plain_inertia_sums rho m V (planar_flat m P) C N) as E. cbv zeta in E.
  do 11 eexists. split; [exact E|]. cbv zeta.
  split; [apply (cone_sum (fun _ => 1) (tetra vzero)); apply cone0_exact|].
  do 3 (split; [apply cone_sum; intros; apply cone1_exact; unfold coordinate; auto|]).
  do 6 (split; [apply cone_sum; intros; apply cone2_exact; unfold coordinate; auto|]).
  split; [reflexivity|]. split; [reflexivity|]. split; [reflexivity|]. split; [reflexivity|].
  unfold rb_xx, rb_yy, rb_zz, rb_yz, rb_xz, rb_xy, rigid_new. cbn [rb_mat m00 m11 m22 m01 m02 m12].
  repeat split; try ring; rewrite Ropp_involutive; reflexivity.
Qed.
(** The mass is right on open meshes, the center of gravity is not. *)
Theorem C20_open_mesh_mass : forall rho m, valid m -> planar_mesh m ->
  exists r, eval_plain_mesh_inertias rho m = Ok r /\ rb_mass r = rho * signed_volume vzero m.
Proof.
  intros rho m V P. pose proof (volume_exact m V (planar_flat m P)) as E. unfold volume in E.
  unfold eval_plain_mesh_inertias. rewrite faces_integrals_ok, faces_properties_ok in * by auto. cbn [bind] in *.
  unfold plain_inertia_with. rewrite E. cbn [bind]. eexists. split; reflexivity.
Qed.
Theorem C20_open_mesh_center_refuted : exists m r X V, valid m /\ planar_mesh m /\
  eval_plain_mesh_inertias 1 m = Ok r /\ is_mesh_volume_integral vx m X /\ volume m = Ok V /\ vx (rb_cog r) <> X / V.
Proof.
  destruct open_inertia as (r & E & M & G & I). destruct open_flat as [V P].
  exists open_triangle, r. do 2 eexists. split; auto. split; auto. split; auto. split; [exact I|].
  split; [apply volume_exact; auto using planar_flat|]. rewrite G. unfold signed_volume, surface_sum. cbn. unfold tetra. vunfold. lra.
Qed.
Example tetrahedron_inertia : signed_volume vzero tetrahedron <> 0.
Proof. unfold signed_volume, surface_sum. cbn. unfold tetra. vunfold. lra. Qed.

(** ** C21 *)
Theorem C21_shell_inertia : forall rho t m, valid m ->
  exists r A X Y Z XX YY ZZ, eval_shell_mesh_inertias rho t m = Ok r /\
    let exact phi x := is_mesh_surface_integral phi m x in
    exact (fun _ => 1) A /\ exact vx X /\ exact vy Y /\ exact vz Z /\
    exact (fun v => vx v * vx v) XX /\ exact (fun v => vy v * vy v) YY /\ exact (fun v => vz v * vz v) ZZ /\
    A = Rsum (map (face_area (verts m)) (faces m)) /\
    rb_mass r = rho * t * A /\ rb_cog r = V3 (X / A) (Y / A) (Z / A) /\ rb_point r = vzero /\
    rb_xx r = rho * t * (YY + ZZ) /\ rb_yy r = rho * t * (XX + ZZ) /\ rb_zz r = rho * t * (XX + YY).
Proof.
  intros rho t m V. do 8 eexists. split; [apply shell_sums; auto|]. cbv zeta.
  split; [apply surface_integral_sum; intros; apply surf0_exact|].
  do 3 (split; [apply surface_integral_sum; intros; apply surf1_exact; unfold coordinate; auto|]).
  do 3 (split; [apply surface_integral_sum; intros; apply surf2_exact; unfold coordinate; auto|]).
  split; [rewrite <- surface_sum_faces; apply Rsum_map_ext; intros; symmetry; apply face_area_sum|].
  repeat split; reflexivity.
Qed.
(** The area dividing the center of gravity is positive. *)
Theorem C21_area_positive : forall m, proper_mesh m -> faces m <> [] -> 0 < Rsum (map (face_area (verts m)) (faces m)).
Proof.
  intros m P N. unfold proper_mesh in P. destruct P as [|f fs F P]; [congruence|]. clear N. cbn [map Rsum fold_right].
  pose proof (face_area_pos _ _ F). assert (0 <= Rsum (map (face_area (verts m)) fs)).
  { clear. induction fs; cbn; [lra|]. pose proof (face_area_nonneg (verts m) a). unfold Rsum in *. lra. }
  unfold Rsum in *. lra.
Qed.

(** ** C22 *)
Theorem C22_bbox : forall m, verts m <> [] -> exists b, axis_aligned_bbox m = Ok b /\
  tight (xmin b) (xmax b) (map vx (verts m)) /\ tight (ymin b) (ymax b) (map vy (verts m)) /\
  tight (zmin b) (zmax b) (map vz (verts m)).
Proof. exact bbox_tight. Qed.
Theorem C22_squared_bbox : forall m, exists b s side, axis_aligned_bbox m = Ok b /\ squared_axis_aligned_bbox m = Ok s /\
  xmin s <= xmin b /\ xmax b <= xmax s /\ ymin s <= ymin b /\ ymax b <= ymax s /\ zmin s <= zmin b /\ zmax b <= zmax s /\
  xmax s - xmin s = side /\ ymax s - ymin s = side /\ zmax s - zmin s = side /\
  xmin s + xmax s = xmin b + xmax b /\ ymin s + ymax s = ymin b + ymax b /\ zmin s + zmax s = zmin b + zmax b /\
  is_max side [xmax b - xmin b; ymax b - ymin b; zmax b - zmin b].
Proof. exact squared_spec. Qed.
Theorem C22_empty : forall fs, axis_aligned_bbox (mkMesh [] fs) = Ok (mkBox 0 0 0 0 0 0).
Proof. reflexivity. Qed.

(** ** C23 *)
Theorem C23_max_edge : forall m, valid m -> faces m <> [] ->
  exists mn mx mean, edges_stats m = Ok (mn, mx, mean) /\ is_max mx (true_lengths m).
Proof. exact edges_max. Qed.
Theorem C23_quadrangles : forall m, valid m -> faces m <> [] -> Forall (fun f => is_triangle f = false) (faces m) ->
  exists mn mx, edges_stats m = Ok (mn, mx, Rsum (true_lengths m) / INR (length (true_lengths m))) /\
    is_min mn (true_lengths m) /\ is_max mx (true_lengths m).
Proof. exact edges_quads. Qed.
Theorem C23_triangle_gives_zero : forall m f, valid m -> In f (faces m) -> is_triangle f = true ->
  exists mx mean, edges_stats m = Ok (0, mx, mean).
Proof. exact edges_triangle. Qed.
(** The mean divides the right total by four edges for each face, triangles included. *)
Theorem C23_mean_counts_four : forall m, valid m -> faces m <> [] ->
  exists mn mx, edges_stats m = Ok (mn, mx, Rsum (true_lengths m) / INR (4 * length (faces m))).
Proof. exact edges_mean. Qed.

Print Assumptions C13_remove_degenerated.
Print Assumptions C14_face_properties.
Print Assumptions C15_rotation.
Print Assumptions C16_volume_exact.
Print Assumptions C16_scaling.
Print Assumptions C17_volume_depends_on_position_refuted.
Print Assumptions C18_surface_integrals.
Print Assumptions C19_products_right_iff.
Print Assumptions C20_plain_inertia.
Print Assumptions C21_shell_inertia.
Print Assumptions C22_squared_bbox.
Print Assumptions C23_mean_counts_four.
