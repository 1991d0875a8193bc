(** Proofs about volumes under affine maps and flips, face properties, and the other geometric quantities. *)
From Coq Require Import Reals List Arith Bool Lia Lra Psatz ZArith Sorting.Permutation.
From Verif Require Import M_base P_base M_merge P_merge M_plane M_rotations S_rotations P_rotations M_mesh S_mesh P_mesh
  M_inertia M_geometry S_integral P_integral S_geometry P_geometry.
Import ListNotations.
Open Scope R_scope.

(** ** Planar convex quadrangles *)
Lemma along_unit : forall u v w, unit u -> dot u v = 0 -> dot u w = 0 ->
  cross v w = vscale (dot u (cross v w)) u.
Proof.
  intros u v w U V W.
  assert (E : vscale (dot u u) (cross v w) = vadd (vscale (dot u (cross v w)) u)
               (vadd (vscale (dot u v) (cross u w)) (vscale (- dot u w) (cross u v)))).
  { apply vec_eq; vunfold; ring. }
  unfold unit in U. rewrite U, V, W in E.
  replace (vscale 1 (cross v w)) with (cross v w) in E by vring. rewrite E at 1. vring.
Qed.

Lemma convex_flat : forall a b c d, convex_planar a b c d -> flat_quad a b c d.
Proof.
  intros a b c d (u & U & B & C & D & T1 & T2 & T3 & T4 & P).
  exists u, (dot u (triangle_normal a b c)), (dot u (triangle_normal a c d)). split; auto.
  split; [|split; [|split; [|split]]].
  - unfold triangle_normal. replace (cross (vsub b a) (vsub c a)) with (cross (vsub b a) (vsub c b)) by vring. auto.
  - unfold triangle_normal. replace (cross (vsub c a) (vsub d a)) with (cross (vsub d c) (vsub a d)) by vring. auto.
  - rewrite normal_sum, dot_add_r in P. auto.
  - apply along_unit; auto.
  - apply along_unit; auto.
Qed.
Lemma planar_flat : forall m, planar_mesh m -> flat_mesh m.
Proof.
  intros m P. unfold planar_mesh, flat_mesh in *. eapply Forall_impl; [|exact P].
  intros f. unfold planar_face, flat_face. destruct (Nat.eq_dec (f0 f) (f3 f)); auto using convex_flat.
Qed.
Lemma convex_flip : forall a b c d, convex_planar a b c d -> convex_planar d c b a.
Proof.
  intros a b c d (u & U & B & C & D & T1 & T2 & T3 & T4 & P).
  exists (vopp u). unfold unit in *. 
  assert (E : forall v, dot (vopp u) v = - dot u v) by (intros; vring). rewrite !E.
  repeat split.
  - replace (dot u (vopp u)) with (- dot u u) by vring. lra.
  - replace (vsub c d) with (vsub (vsub c a) (vsub d a)) by vring. rewrite dot_sub_r. lra.
  - replace (vsub b d) with (vsub (vsub b a) (vsub d a)) by vring. rewrite dot_sub_r. lra.
  - replace (vsub a d) with (vopp (vsub d a)) by vring.
    replace (dot u (vopp (vsub d a))) with (- dot u (vsub d a)) by vring. lra.
  - replace (dot u (cross (vsub c d) (vsub b c))) with (- dot u (cross (vsub c b) (vsub d c))) by vring. lra.
  - replace (dot u (cross (vsub b c) (vsub a b))) with (- dot u (cross (vsub b a) (vsub c b))) by vring. lra.
  - replace (dot u (cross (vsub a b) (vsub d a))) with (- dot u (cross (vsub a d) (vsub b a))) by vring. lra.
  - replace (dot u (cross (vsub d a) (vsub c d))) with (- dot u (cross (vsub d c) (vsub a d))) by vring. lra.
  - replace (dot u (cross (vsub b d) (vsub a c))) with (- dot u (cross (vsub c a) (vsub d b))) by vring. lra.
Qed.

(** ** Flipping *)
Lemma flip_face_tri : forall f, is_triangle (flip_face f) = is_triangle f.
Proof. intros. unfold is_triangle, flip_face. simpl. apply Nat.eqb_sym. Qed.
Lemma valid_flip : forall m, valid m -> valid (flip_normals m).
Proof.
  intros m V. unfold valid, flip_normals in *. simpl. rewrite Forall_map. eapply Forall_impl; [|exact V].
  intros f. unfold valid_face. simpl. lia.
Qed.
Lemma planar_flip : forall m, planar_mesh m -> planar_mesh (flip_normals m).
Proof.
  intros m P. unfold planar_mesh, flip_normals in *. simpl. rewrite Forall_map. eapply Forall_impl; [|exact P].
  intros f. unfold planar_face, flip_face. cbn [f0 f1 f2 f3].
  destruct (Nat.eq_dec (f0 f) (f3 f)), (Nat.eq_dec (f3 f) (f0 f)); try congruence; auto using convex_flip.
  intros N E. apply N. rewrite <- e in E. unfold triangle_normal in *.
  replace (cross (vsub (point (verts m) (f1 f)) (point (verts m) (f0 f))) (vsub (point (verts m) (f2 f)) (point (verts m) (f0 f))))
    with (vopp (cross (vsub (point (verts m) (f2 f)) (point (verts m) (f0 f))) (vsub (point (verts m) (f1 f)) (point (verts m) (f0 f))))) by vring.
  rewrite E. vring.
Qed.

Lemma flip_signed : forall o m, planar_mesh m -> signed_volume o (flip_normals m) = - signed_volume o m.
Proof.
  intros o [vs fs] P. unfold signed_volume, surface_sum, flip_normals, planar_mesh in *. cbn [verts faces] in *.
  induction P as [|f fs Hf P IH]; [cbn; lra|].
  change (mesh_triangles (map flip_face (f :: fs))) with (face_triangles (flip_face f) ++ mesh_triangles (map flip_face fs)).
  change (mesh_triangles (f :: fs)) with (face_triangles f ++ mesh_triangles fs).
  rewrite !map_app, !Rsum_app, IH. rewrite Ropp_plus_distr. f_equal.
  unfold planar_face in Hf. destruct (is_triangle f) eqn:T.
  - rewrite !face_triangles_tri by (rewrite ?flip_face_tri; auto). apply is_triangle_true in T. cbn. rewrite <- T.
    unfold tetra. vunfold. field.
  - rewrite !face_triangles_quad by (rewrite ?flip_face_tri; auto). apply is_triangle_false in T.
    destruct (Nat.eq_dec (f0 f) (f3 f)); [congruence|]. destruct Hf as (u & U & B & C & D & _).
    cbn [map flip_face f0 f1 f2 f3 Rsum fold_right].
    set (a := point vs (f0 f)) in *. set (b := point vs (f1 f)) in *. set (c := point vs (f2 f)) in *.
    set (d := point vs (f3 f)) in *.
    assert (E : dot (vsub d a) (cross (vsub b a) (vsub c a)) = 0).
    { rewrite (along_unit u _ _ U B C), dot_scale_r, (dot_comm _ u), D. ring. }
    enough (tetra o d c b + tetra o d b a + (tetra o a b c + tetra o a c d) =
            - dot (vsub d a) (cross (vsub b a) (vsub c a)) / 6) by (rewrite E in *; lra).
    clear. clearbody a b c d. unfold tetra. destruct o, a, b, c, d. vunfold. field.
Qed.

Lemma volume_flip : forall m, valid m -> planar_mesh m ->
  exists V, volume m = Ok V /\ volume (flip_normals m) = Ok (- V).
Proof.
  intros m V P. exists (signed_volume vzero m). split.
  - apply volume_exact; auto using planar_flat.
  - rewrite volume_exact by auto using planar_flat, valid_flip, planar_flip. rewrite flip_signed; auto.
Qed.

(** ** Affine maps *)
Definition affine (A : mat) (t v : vec) : vec := vadd (mvec A v) t.
Definition affine_mesh (A : mat) (t : vec) (m : mesh) : mesh := mkMesh (map (affine A t) (verts m)) (faces m).
Definition cof (a : mat) : mat := mtrans (adj a).

Lemma point_map : forall g vs i, (i < length vs)%nat -> point (map g vs) i = g (point vs i).
Proof.
  intros. unfold point. rewrite (nth_indep (map g vs) vzero (g vzero)) by (rewrite map_length; auto). apply map_nth.
Qed.
Lemma cross_cof : forall A v w, cross (mvec A v) (mvec A w) = mvec (cof A) (cross v w).
Proof. intros. unfold cof, adj. apply vec_eq; vunfold; ring. Qed.
Lemma dot_cof : forall A v w, dot (mvec A v) (mvec (cof A) w) = mdet A * dot v w.
Proof. intros. unfold cof, adj. vunfold. ring. Qed.
Lemma affine_sub : forall A t a b, vsub (affine A t a) (affine A t b) = mvec A (vsub a b).
Proof. intros. unfold affine. vring. Qed.
Lemma cof_nonzero : forall A v, mdet A <> 0 -> v <> vzero -> mvec (cof A) v <> vzero.
Proof.
  intros A v D N E. pose proof (dot_cof A v v) as H. rewrite E in H.
  replace (dot (mvec A v) vzero) with 0 in H by vring.
  assert (dot v v = 0) by (apply (Rmult_eq_reg_l (mdet A)); auto; lra).
  apply N, dot_zero; auto.
Qed.
Lemma unit_nonzero : forall u, unit u -> u <> vzero.
Proof. intros u U ->. unfold unit in U. vunfold. lra. Qed.

Lemma convex_affine : forall A t a b c d, mdet A <> 0 -> convex_planar a b c d ->
  convex_planar (affine A t a) (affine A t b) (affine A t c) (affine A t d).
Proof.
  intros A t a b c d DA (u & U & B & C & D & T1 & T2 & T3 & T4 & P).
  pose proof (cof_nonzero A u DA (unit_nonzero u U)) as N. pose proof (norm_pos _ N) as NP.
  exists (vdiv (mvec (cof A) u) (norm (mvec (cof A) u))). rewrite !affine_sub.
  assert (Z : forall w, dot u w = 0 -> dot (vdiv (mvec (cof A) u) (norm (mvec (cof A) u))) (mvec A w) = 0).
  { intros w W. rewrite vdiv_scale, dot_scale_l, dot_comm, dot_cof, dot_comm, W. ring. }
  assert (Q : forall v w, dot u v = 0 -> dot u w = 0 ->
    dot (vdiv (mvec (cof A) u) (norm (mvec (cof A) u))) (cross (mvec A v) (mvec A w)) =
    dot u (cross v w) * norm (mvec (cof A) u)).
  { intros v w V W. rewrite cross_cof, (along_unit u v w U V W) at 1.
    replace (mvec (cof A) (vscale (dot u (cross v w)) u)) with (vscale (dot u (cross v w)) (mvec (cof A) u)) by vring.
    rewrite dot_scale_r, vdiv_scale, dot_scale_l, <- norm_sqr. 
    replace (dot u (vscale (dot u (cross v w)) u)) with (dot u (cross v w)) by (rewrite dot_scale_r, U; ring).
    field. lra. }
  assert (CB : dot u (vsub c b) = 0) by (replace (vsub c b) with (vsub (vsub c a) (vsub b a)) by vring; rewrite dot_sub_r; lra).
  assert (DC : dot u (vsub d c) = 0) by (replace (vsub d c) with (vsub (vsub d a) (vsub c a)) by vring; rewrite dot_sub_r; lra).
  assert (AD : dot u (vsub a d) = 0) by (replace (vsub a d) with (vscale (-1) (vsub d a)) by vring; rewrite dot_scale_r; lra).
  assert (DB : dot u (vsub d b) = 0) by (replace (vsub d b) with (vsub (vsub d a) (vsub b a)) by vring; rewrite dot_sub_r; lra).
  rewrite !Q, !Z by auto. repeat split; try nra. apply norm_of_normalised; auto.
Qed.

Lemma planar_affine : forall A t m, mdet A <> 0 -> valid m -> planar_mesh m -> planar_mesh (affine_mesh A t m).
Proof.
  intros A t m D V P. unfold planar_mesh, valid in *. cbn [affine_mesh verts faces].
  rewrite Forall_forall in *. intros f Hf. specialize (V f Hf). specialize (P f Hf). unfold valid_face in V.
  unfold planar_face in *. rewrite !point_map by lia. destruct (Nat.eq_dec (f0 f) (f3 f)).
  - unfold triangle_normal in *. rewrite !affine_sub, cross_cof. apply cof_nonzero; auto.
  - apply convex_affine; auto.
Qed.
Lemma valid_map : forall g m, valid m -> valid (mkMesh (map g (verts m)) (faces m)).
Proof. intros. unfold valid in *. simpl. rewrite map_length. auto. Qed.

Lemma mesh_triangles_in : forall m i j k, valid m -> In (i, j, k) (mesh_triangles (faces m)) ->
  (i < length (verts m) /\ j < length (verts m) /\ k < length (verts m))%nat.
Proof.
  intros m i j k V H. unfold mesh_triangles in H. apply in_flat_map in H. destruct H as (f & Hf & H).
  pose proof (valid_in m f V Hf) as W. unfold valid_face in W. unfold face_triangles in H.
  destruct (Nat.eq_dec (f0 f) (f3 f)); simpl in H; decompose [or] H; try contradiction; 
    match goal with E : (_, _, _) = _ |- _ => injection E as <- <- <- end; lia.
Qed.
Lemma surface_sum_map : forall phi g m, valid m ->
  surface_sum phi (map g (verts m)) (faces m) = surface_sum (fun a b c => phi (g a) (g b) (g c)) (verts m) (faces m).
Proof.
  intros phi g m V. unfold surface_sum. apply Rsum_map_ext. intros [[i j] k] H.
  apply mesh_triangles_in in H; auto. rewrite !point_map by lia. auto.
Qed.
Lemma signed_affine : forall A t m, valid m -> signed_volume t (affine_mesh A t m) = mdet A * signed_volume vzero m.
Proof.
  intros A t m V. unfold signed_volume. cbn [affine_mesh verts faces]. rewrite surface_sum_map by auto.
  rewrite <- surface_sum_scale. apply surface_sum_ext. intros. unfold tetra, affine.
  destruct A, t, a, b, c. vunfold. field.
Qed.

Lemma volume_affine : forall A t m, mdet A <> 0 -> valid m -> planar_mesh m -> closed_surface (faces m) \/ t = vzero ->
  exists V, volume m = Ok V /\ volume (affine_mesh A t m) = Ok (mdet A * V).
Proof.
  intros A t m D V P C. exists (signed_volume vzero m).
  split; [apply volume_exact; auto using planar_flat|].
  rewrite volume_exact by (try apply planar_flat, planar_affine; auto; apply valid_map; auto).
  f_equal. rewrite <- (signed_affine A t) by auto. destruct C as [C | ->]; auto.
  symmetry. apply signed_volume_apex; auto.
Qed.

(** The transformations of the API as affine maps. *)
Lemma translate_affine : forall t m, translate t m = affine_mesh mid t m.
Proof.
  intros. unfold translate, affine_mesh. f_equal. apply map_ext. intros. unfold affine. rewrite mvec_id. auto.
Qed.
Lemma translate_x_affine : forall t m, translate_x t m = affine_mesh mid (V3 t 0 0) m.
Proof. intros. unfold translate_x, affine_mesh. f_equal. apply map_ext. intros. unfold affine. vring. Qed.
Lemma translate_y_affine : forall t m, translate_y t m = affine_mesh mid (V3 0 t 0) m.
Proof. intros. unfold translate_y, affine_mesh. f_equal. apply map_ext. intros. unfold affine. vring. Qed.
Lemma translate_z_affine : forall t m, translate_z t m = affine_mesh mid (V3 0 0 t) m.
Proof. intros. unfold translate_z, affine_mesh. f_equal. apply map_ext. intros. unfold affine. vring. Qed.
Lemma rotate_matrix_affine : forall r m, rotate_matrix r m = affine_mesh r vzero m.
Proof. intros. unfold rotate_matrix, affine_mesh. f_equal. apply map_ext. intros. unfold affine. vring. Qed.
Lemma det_mid : mdet mid = 1. Proof. vring. Qed.

Lemma scaling_affine : forall g A alpha m, 0 < alpha -> (forall v, g v = mvec A v) ->
  scaling g alpha m = Ok (affine_mesh A vzero m).
Proof.
  intros g A alpha m H E. unfold scaling. apply Rltb_true in H. rewrite H. unfold affine_mesh. f_equal. f_equal.
  apply map_ext. intros. rewrite E. unfold affine. vring.
Qed.
Definition diag (a b c : R) : mat := M3 a 0 0 0 b 0 0 0 c.
Lemma det_diag : forall a b c, mdet (diag a b c) = a * b * c. Proof. intros. unfold diag. vring. Qed.
Lemma scale_affine : forall a m, 0 < a -> scale a m = Ok (affine_mesh (diag a a a) vzero m).
Proof. intros. apply scaling_affine; auto. intros. unfold diag. vring. Qed.
Lemma scalex_affine : forall a m, 0 < a -> scalex a m = Ok (affine_mesh (diag a 1 1) vzero m).
Proof. intros. apply scaling_affine; auto. intros. unfold diag. vring. Qed.
Lemma scaley_affine : forall a m, 0 < a -> scaley a m = Ok (affine_mesh (diag 1 a 1) vzero m).
Proof. intros. apply scaling_affine; auto. intros. unfold diag. vring. Qed.
Lemma scalez_affine : forall a m, 0 < a -> scalez a m = Ok (affine_mesh (diag 1 1 a) vzero m).
Proof. intros. apply scaling_affine; auto. intros. unfold diag. vring. Qed.

Lemma volume_translate : forall t m, valid m -> planar_mesh m -> closed_surface (faces m) ->
  exists V, volume m = Ok V /\ volume (translate t m) = Ok V.
Proof.
  intros t m Vm P C. rewrite translate_affine.
  destruct (volume_affine mid t m) as (V & A & B); auto; rewrite det_mid in *; try lra.
  exists V. split; auto. rewrite B. f_equal. ring.
Qed.
Lemma volume_scale : forall a m, 0 < a -> valid m -> planar_mesh m ->
  exists V s x y z, volume m = Ok V /\
    scale a m = Ok s /\ volume s = Ok (a ^ 3 * V) /\
    scalex a m = Ok x /\ volume x = Ok (a * V) /\
    scaley a m = Ok y /\ volume y = Ok (a * V) /\
    scalez a m = Ok z /\ volume z = Ok (a * V).
Proof.
  intros a m H Vm P. pose proof (volume_exact m Vm (planar_flat m P)) as E.
  assert (Q : forall D, mdet D <> 0 -> volume (affine_mesh D vzero m) = Ok (mdet D * signed_volume vzero m)).
  { intros D ND. destruct (volume_affine D vzero m ND Vm P (or_intror eq_refl)) as (V & A & B). congruence. }
  exists (signed_volume vzero m). do 4 eexists. 
  split; [exact E|]. 
  split; [apply scale_affine; auto|]. split; [rewrite Q; rewrite det_diag; [f_equal; ring|apply Rgt_not_eq; repeat apply Rmult_lt_0_compat; lra]|].
  split; [apply scalex_affine; auto|]. split; [rewrite Q; rewrite det_diag; [f_equal; ring|apply Rgt_not_eq; repeat apply Rmult_lt_0_compat; lra]|].
  split; [apply scaley_affine; auto|]. split; [rewrite Q; rewrite det_diag; [f_equal; ring|apply Rgt_not_eq; repeat apply Rmult_lt_0_compat; lra]|].
  split; [apply scalez_affine; auto|]. rewrite Q; rewrite det_diag; [f_equal; ring|apply Rgt_not_eq; repeat apply Rmult_lt_0_compat; lra].
Qed.

(** Mirroring: linear part of determinant -1, then a flip. *)
Definition householder (n : vec) : mat :=
  M3 (1 - 2 * vx n * vx n) (- 2 * vx n * vy n) (- 2 * vx n * vz n)
     (- 2 * vx n * vy n) (1 - 2 * vy n * vy n) (- 2 * vy n * vz n)
     (- 2 * vx n * vz n) (- 2 * vy n * vz n) (1 - 2 * vz n * vz n).
Lemma householder_det : forall n, unit n -> mdet (householder n) = -1.
Proof.
  intros n U. transitivity (1 - 2 * dot n n); [unfold householder; vring | unfold unit in U; rewrite U; ring].
Qed.
Lemma reflect_affine : forall p v, reflect p v = affine (householder (p_normal p)) (vscale (2 * p_scalar p) (p_normal p)) v.
Proof. intros. unfold reflect, affine, householder. vring. Qed.
Lemma volume_mirror : forall p m, unit (p_normal p) -> valid m -> planar_mesh m -> closed_surface (faces m) ->
  exists V, volume m = Ok V /\ volume (mirror p m) = Ok V.
Proof.
  intros p m U Vm P C. unfold mirror.
  replace (map (reflect p) (verts m)) with (map (affine (householder (p_normal p)) (vscale (2 * p_scalar p) (p_normal p))) (verts m))
    by (apply map_ext; intros; symmetry; apply reflect_affine).
  change (mkMesh (map (affine (householder (p_normal p)) (vscale (2 * p_scalar p) (p_normal p))) (verts m)) (faces m))
    with (affine_mesh (householder (p_normal p)) (vscale (2 * p_scalar p) (p_normal p)) m).
  set (A := householder (p_normal p)) in *. set (t := vscale (2 * p_scalar p) (p_normal p)).
  assert (D : mdet A = -1) by (apply householder_det; auto).
  destruct (volume_affine A t m) as (V & E & F); auto; [lra|].
  destruct (volume_flip (affine_mesh A t m)) as (W & G & H).
  - apply valid_map; auto.
  - apply planar_affine; auto. lra.
  - exists V. split; auto. rewrite H. f_equal. rewrite F in G. injection G as <-. rewrite D. ring.
Qed.

(** ** Face properties under rigid motions (no condition on the faces) *)
Definition move_corners (g : vec -> vec) (q : corner4) : corner4 := C4 (g (p0 q)) (g (p1 q)) (g (p2 q)) (g (p3 q)).
Lemma cor_map : forall g vs f, valid_face (length vs) f -> cor (map g vs) f = move_corners g (cor vs f).
Proof. intros g vs f V. unfold valid_face in V. unfold cor, move_corners. simpl. rewrite !point_map by lia. auto. Qed.

Lemma rotation_norm : forall r v, is_rotation r -> norm (mvec r v) = norm v.
Proof.
  intros r v [H _]. rewrite !norm_dot. f_equal.
  transitivity (dot v (mvec (mmul (mtrans r) r) v)); [vring|]. rewrite H, mvec_id. auto.
Qed.
Lemma rotation_cof : forall r, is_rotation r -> cof r = r.
Proof. intros r H. unfold cof. rewrite rotation_adj, mtrans_trans; auto. Qed.
Lemma rotation_cross : forall r a b, is_rotation r -> cross (mvec r a) (mvec r b) = mvec r (cross a b).
Proof. intros. rewrite cross_cof, rotation_cof; auto. Qed.
Lemma mvec_sub : forall r a b, vsub (mvec r a) (mvec r b) = mvec r (vsub a b). Proof. vring. Qed.
Lemma mvec_add : forall r a b, vadd (mvec r a) (mvec r b) = mvec r (vadd a b). Proof. vring. Qed.
Lemma mvec_div : forall r a k, vdiv (mvec r a) k = mvec r (vdiv a k).
Proof. intros. rewrite !vdiv_scale. vring. Qed.
Lemma mvec_scale : forall r a k, vscale k (mvec r a) = mvec r (vscale k a). Proof. vring. Qed.

Definition turn_props (r : mat) (p : fprops) : fprops := mkProps (fp_area p) (mvec r (fp_normal p)) (mvec r (fp_center p)).
Lemma props_rotate : forall r vs f, is_rotation r -> valid_face (length vs) f ->
  props_of (map (mvec r) vs) f = turn_props r (props_of vs f).
Proof.
  intros r vs f H V. unfold props_of. rewrite cor_map by auto. destruct (is_triangle f).
  - unfold triangle_props, turn_props, move_corners. cbn [p0 p1 p2 p3 fp_area fp_normal fp_center].
    rewrite !mvec_sub, !rotation_cross, !rotation_norm, !mvec_add, !mvec_div by auto. auto.
  - unfold quad_props, turn_props, move_corners. cbn [p0 p1 p2 p3 fp_area fp_normal fp_center].
    rewrite !mvec_sub, !rotation_cross, !rotation_norm, !mvec_add, !mvec_div, !mvec_scale, !mvec_add, !mvec_div by auto. auto.
Qed.
Definition shift_props (t : vec) (p : fprops) : fprops := mkProps (fp_area p) (fp_normal p) (vadd (fp_center p) t).
Lemma sub_shift : forall t a b, vsub (vadd a t) (vadd b t) = vsub a b. Proof. vring. Qed.
Lemma proper_area : forall vs f, proper_face vs f -> is_triangle f = false ->
  0 < norm (cross (vsub (point vs (f1 f)) (point vs (f0 f))) (vsub (point vs (f2 f)) (point vs (f0 f)))) * (1 / 2) +
      norm (cross (vsub (point vs (f3 f)) (point vs (f0 f))) (vsub (point vs (f2 f)) (point vs (f0 f)))) * (1 / 2).
Proof.
  intros vs f P T. unfold proper_face in P. apply is_triangle_false in T. destruct (Nat.eq_dec (f0 f) (f3 f)); [congruence|].
  destruct P as [_ P]. unfold triangle_normal in P.
  replace (cross (vsub (point vs (f3 f)) (point vs (f0 f))) (vsub (point vs (f2 f)) (point vs (f0 f))))
    with (vscale (-1) (cross (vsub (point vs (f2 f)) (point vs (f0 f))) (vsub (point vs (f3 f)) (point vs (f0 f))))) by vring.
  rewrite norm_scale. replace (Rabs (-1)) with 1 by (rewrite Rabs_left; lra).
  pose proof (norm_nonneg (cross (vsub (point vs (f1 f)) (point vs (f0 f))) (vsub (point vs (f2 f)) (point vs (f0 f))))).
  pose proof (norm_nonneg (cross (vsub (point vs (f2 f)) (point vs (f0 f))) (vsub (point vs (f3 f)) (point vs (f0 f))))).
  destruct P as [P|P]; apply norm_pos in P; lra.
Qed.
Lemma props_translate : forall t vs f, proper_face vs f -> valid_face (length vs) f ->
  props_of (map (fun v => vadd v t) vs) f = shift_props t (props_of vs f).
Proof.
  intros t vs f P V. unfold props_of. rewrite cor_map by auto. destruct (is_triangle f) eqn:T.
  - unfold triangle_props, shift_props, move_corners. cbn [p0 p1 p2 p3 fp_area fp_normal fp_center].
    rewrite !sub_shift. f_equal. apply vec_eq; cbn; field.
  - pose proof (proper_area vs f P T) as A.
    unfold quad_props, shift_props, move_corners, cor. cbn [p0 p1 p2 p3 fp_area fp_normal fp_center].
    rewrite !sub_shift. f_equal.
    set (a1 := norm (cross (vsub (point vs (f1 f)) (point vs (f0 f))) (vsub (point vs (f2 f)) (point vs (f0 f)))) * (1 / 2)) in *.
    set (a2 := norm (cross (vsub (point vs (f3 f)) (point vs (f0 f))) (vsub (point vs (f2 f)) (point vs (f0 f)))) * (1 / 2)) in *.
    clearbody a1 a2. apply vec_eq; cbn [vx vy vz vadd vdiv vscale]; field; lra.
Qed.

Lemma faces_properties_rotate : forall r m, is_rotation r -> valid m ->
  exists ps, faces_properties m = Ok ps /\ faces_properties (rotate_matrix r m) = Ok (map (turn_props r) ps).
Proof.
  intros r m H V. exists (map (props_of (verts m)) (faces m)). split; [apply faces_properties_ok; auto|].
  rewrite faces_properties_ok by (apply valid_map; auto). simpl. rewrite map_map. f_equal. apply map_ext_in.
  intros f Hf. apply props_rotate; auto. eapply valid_in; eauto.
Qed.
Lemma faces_properties_translate : forall t m, proper_mesh m -> valid m ->
  exists ps, faces_properties m = Ok ps /\ faces_properties (translate t m) = Ok (map (shift_props t) ps).
Proof.
  intros t m P V. exists (map (props_of (verts m)) (faces m)). split; [apply faces_properties_ok; auto|].
  rewrite faces_properties_ok by (apply valid_map; auto). simpl. rewrite map_map. f_equal. apply map_ext_in.
  intros f Hf. apply props_translate; auto.
  - unfold proper_mesh in P. rewrite Forall_forall in P. auto.
  - eapply valid_in; eauto.
Qed.

(** Volume under rotations: any faces. *)
Lemma i0_rotate : forall r vs f, is_rotation r -> valid_face (length vs) f ->
  i0 (ints_of (map (mvec r) vs) f) = mvec r (i0 (ints_of vs f)).
Proof.
  intros r vs f H V. unfold ints_of. rewrite cor_map by auto.
  assert (T : forall a b c, i0 (triangle_integrals (mvec r a) (mvec r b) (mvec r c)) = mvec r (i0 (triangle_integrals a b c))).
  { intros. unfold triangle_integrals. cbn [i0].
    rewrite !mvec_sub, !rotation_cross, !rotation_norm, !mvec_add, !mvec_scale, !mvec_div by auto. auto. }
  destruct (is_triangle f); unfold tri_face_integrals, quad_face_integrals, move_corners, add_integrals; cbn [p0 p1 p2 p3 i0].
  - auto.
  - rewrite !T, mvec_add. auto.
Qed.
Lemma rotation_dot : forall r a b, is_rotation r -> dot (mvec r a) (mvec r b) = dot a b.
Proof.
  intros r a b [H _]. transitivity (dot a (mvec (mmul (mtrans r) r) b)); [vring|]. rewrite H, mvec_id. auto.
Qed.
Lemma volume_rotate : forall r m, is_rotation r -> valid m ->
  exists V, volume m = Ok V /\ volume (rotate_matrix r m) = Ok V.
Proof.
  intros r m H V. eexists. split; [apply volume_ok; auto|].
  rewrite volume_ok by (apply valid_map; auto). cbn [rotate_matrix verts faces]. f_equal. f_equal. apply Rsum_map_ext.
  intros f Hf. rewrite props_rotate, i0_rotate by (auto; eapply valid_in; eauto). cbn [turn_props fp_normal].
  apply rotation_dot; auto.
Qed.
Lemma rotation_distance : forall r a b, is_rotation r -> norm (vsub (mvec r a) (mvec r b)) = norm (vsub a b).
Proof. intros. rewrite mvec_sub, rotation_norm; auto. Qed.
