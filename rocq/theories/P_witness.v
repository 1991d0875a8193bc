(** Witnesses about volumes: warped quadrangles, open meshes. *)
From Coq Require Import Reals List Arith Bool Lia Lra Psatz ZArith.
From Verif Require Import M_base P_base M_merge P_merge M_plane M_mesh S_mesh P_mesh
  M_inertia M_geometry S_integral P_integral S_geometry P_geometry P_volume P_quantities.
Import ListNotations.
Open Scope R_scope.

Lemma norm_val : forall v q, dot v v = q -> norm v = sqrt q.
Proof. intros v q H. rewrite norm_dot, H. auto. Qed.

(** A warped quadrangle closed by two triangles, at height [h]: its triangulation encloses nothing. *)
Definition warped (h : R) : mesh :=
  mkMesh [V3 0 0 h; V3 1 0 h; V3 1 1 (1 + h); V3 0 1 h] [F4 0 1 2 3; F4 0 2 1 0; F4 0 3 2 0].

Lemma warped_valid : forall h, valid (warped h).
Proof. intros. repeat constructor; simpl; lia. Qed.
Lemma warped_closed : forall h, closed_surface (faces (warped h)).
Proof. intros. apply closed_check_ok. reflexivity. Qed.
Lemma warped_translate : forall h k, translate_z k (warped h) = warped (h + k).
Proof. intros. unfold translate_z, warped. cbn. replace (1 + (h + k)) with (1 + h + k) by ring. reflexivity. Qed.

Lemma warped_volume : forall h, volume (warped h) =
  Ok ((sqrt 2 / sqrt 6 * ((1 + 3 * h) * 2 / 3 - 1) - h) / 3).
Proof.
  intros h. rewrite volume_ok by apply warped_valid. f_equal. unfold warped. cbn [verts faces map Rsum fold_right].
  assert (Q : dot (fp_normal (props_of [V3 0 0 h; V3 1 0 h; V3 1 1 (1 + h); V3 0 1 h] (F4 0 1 2 3)))
                  (i0 (ints_of [V3 0 0 h; V3 1 0 h; V3 1 1 (1 + h); V3 0 1 h] (F4 0 1 2 3))) =
              sqrt 2 / sqrt 6 * ((1 + 3 * h) * 2 / 3 - 1)).
  { unfold props_of, ints_of, is_triangle. cbn [f0 f3 Nat.eqb]. unfold quad_props, quad_face_integrals, cor, point.
    cbn [p0 p1 p2 p3 f0 f1 f2 f3 nth fp_normal add_integrals i0 triangle_integrals].
    replace (cross (vsub (V3 1 1 (1 + h)) (V3 0 0 h)) (vsub (V3 0 1 h) (V3 1 0 h))) with (V3 (-1) (-1) 2) by vring.
    replace (cross (vsub (V3 1 0 h) (V3 0 0 h)) (vsub (V3 1 1 (1 + h)) (V3 0 0 h))) with (V3 0 (-1) 1) by vring.
    replace (cross (vsub (V3 1 1 (1 + h)) (V3 0 0 h)) (vsub (V3 0 1 h) (V3 0 0 h))) with (V3 (-1) 0 1) by vring.
    rewrite (norm_val (V3 (-1) (-1) 2) 6), (norm_val (V3 0 (-1) 1) 2), (norm_val (V3 (-1) 0 1) 2) by (vunfold; ring).
    assert (0 < sqrt 6) by (apply sqrt_lt_R0; lra). 
    unfold vdiv, dot, vscale, vadd. cbn [vx vy vz]. field. lra. }
  assert (T : forall f, is_triangle f = true -> flat_face [V3 0 0 h; V3 1 0 h; V3 1 1 (1 + h); V3 0 1 h] f ->
    dot (fp_normal (props_of [V3 0 0 h; V3 1 0 h; V3 1 1 (1 + h); V3 0 1 h] f))
        (i0 (ints_of [V3 0 0 h; V3 1 0 h; V3 1 1 (1 + h); V3 0 1 h] f)) =
    3 * tetra vzero (point [V3 0 0 h; V3 1 0 h; V3 1 1 (1 + h); V3 0 1 h] (f0 f))
      (point [V3 0 0 h; V3 1 0 h; V3 1 1 (1 + h); V3 0 1 h] (f1 f)) (point [V3 0 0 h; V3 1 0 h; V3 1 1 (1 + h); V3 0 1 h] (f2 f))).
  { intros f T F. rewrite vmul_dot, (face_flux i0) by (auto; left; auto). unfold vtri. rewrite face_triangles_tri by auto.
    rewrite <- tflux0. cbn [map vsum fold_right]. vunfold. ring. }
  rewrite Q, !T; auto.
  - cbn [point nth f0 f1 f2]. unfold tetra. vunfold. set (x := sqrt 2 / sqrt 6). clearbody x. field.
  - unfold flat_face. simpl. unfold triangle_normal. intros E. vunfold. injection E. intros. lra.
  - unfold flat_face. simpl. unfold triangle_normal. intros E. vunfold. injection E. intros. lra.
Qed.
Lemma ratio_val : sqrt 2 / sqrt 6 * (sqrt 2 / sqrt 6) = 1 / 3 /\ 0 < sqrt 2 / sqrt 6.
Proof.
  assert (0 < sqrt 6) by (apply sqrt_lt_R0; lra). assert (0 < sqrt 2) by (apply sqrt_lt_R0; lra).
  pose proof (sqrt_sqrt 2 ltac:(lra)) as A. pose proof (sqrt_sqrt 6 ltac:(lra)) as B. split.
  - replace (sqrt 2 / sqrt 6 * (sqrt 2 / sqrt 6)) with ((sqrt 2 * sqrt 2) / (sqrt 6 * sqrt 6)) by (field; lra).
    rewrite A, B. field.
  - apply Rdiv_lt_0_compat; auto.
Qed.

Lemma warped_moves : exists m V W, valid m /\ closed_surface (faces m) /\
  volume m = Ok V /\ volume (translate_z 1 m) = Ok W /\ V <> W.
Proof.
  exists (warped 0). do 2 eexists. split; [apply warped_valid|]. split; [apply warped_closed|].
  split; [apply warped_volume|]. split; [rewrite warped_translate; apply warped_volume|].
  destruct ratio_val as [A B]. set (x := sqrt 2 / sqrt 6) in *. clearbody x. intros E.
  assert (x = 1 / 2) by lra. subst x. lra.
Qed.
Lemma warped_triangulated : exists m m' V W, valid m /\ closed_surface (faces m) /\
  triangulate_quadrangles m = Ok m' /\ volume m = Ok V /\ volume m' = Ok W /\ V <> W.
Proof.
  exists (warped 0). eexists. do 2 eexists. split; [apply warped_valid|]. split; [apply warped_closed|].
  split; [reflexivity|]. split; [apply warped_volume|]. split.
  - apply volume_exact; [repeat constructor; simpl; lia|].
    repeat constructor; unfold flat_face; simpl; unfold triangle_normal; intros E; vunfold; injection E; intros; lra.
  - unfold signed_volume, surface_sum. cbn. unfold tetra. vunfold. destruct ratio_val as [A B].
    set (x := sqrt 2 / sqrt 6) in *. clearbody x. lra.
Qed.

(** One triangle: an open mesh, whose reported center of gravity is not even within the body spanned by the origin and
    the triangle. *)
Definition open_triangle : mesh := mkMesh [V3 1 0 0; V3 1 1 0; V3 1 0 1] [F4 0 1 2 0].
Lemma open_flat : valid open_triangle /\ planar_mesh open_triangle.
Proof.
  split; [repeat constructor; simpl; lia|].
  repeat constructor. unfold planar_face; simpl. unfold triangle_normal. intros E. vunfold. injection E. intros. lra.
Qed.
Lemma open_inertia : exists r, eval_plain_mesh_inertias 1 open_triangle = Ok r /\ rb_mass r = 1 / 6 /\
  rb_cog r = V3 (3 / 2) 0 0 /\ is_mesh_volume_integral vx open_triangle (1 / 6 * (3 / 4)).
Proof.
  destruct open_flat as [V P]. pose proof (planar_flat _ P) as F.
  pose proof (volume_exact _ V F) as E. unfold volume in E.
  unfold eval_plain_mesh_inertias. rewrite faces_integrals_ok, faces_properties_ok in * by auto.
  cbn [bind] in *. unfold plain_inertia_with. rewrite E. cbn [bind]. eexists. split; [reflexivity|].
  rewrite !flux_tsum by (auto; unfold selection; auto).
  assert (S : signed_volume vzero open_triangle = 1 / 6).
  { unfold signed_volume, surface_sum. cbn. unfold tetra. vunfold. field. }
  rewrite S. unfold rigid_new. cbn [rb_mass rb_cog]. split; [field|]. split.
  - unfold tsum, surface_sum, open_triangle, mesh_triangles, face_triangles. cbn [verts faces flat_map f0 f1 f2 f3 Nat.eq_dec].
    cbn [Nat.eq_dec nat_rec nat_rect app map Rsum fold_right point nth]. unfold tflux. rewrite kern6. 
    unfold triangle_normal, by3, q2, vmul. vunfold. unfold vdiv. cbn [vx vy vz]. apply vec_eq; cbn [vx vy vz]; field.
  - replace (1 / 6 * (3 / 4)) with (surface_sum (cone1 vx) (verts open_triangle) (faces open_triangle)).
    + apply cone_sum. intros. apply cone1_exact. left. auto.
    + unfold surface_sum. cbn. unfold cone1. vunfold. field.
Qed.
