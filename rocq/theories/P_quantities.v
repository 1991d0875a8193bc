(** Proofs about face properties, surface integrals, shells, boxes, edge lengths and small faces. *)
From Coq Require Import Reals List Arith Bool Lia Lra Psatz ZArith.
From Verif Require Import M_base P_base M_merge P_merge M_plane M_rotations M_mesh S_mesh P_mesh
  M_inertia M_geometry S_integral P_integral S_geometry P_geometry P_volume.
Import ListNotations.
Open Scope R_scope.

(** ** Normals after a flip *)
Lemma norm_vopp : forall v, norm (vopp v) = norm v.
Proof. intros. rewrite !norm_dot. f_equal. vring. Qed.
Lemma normal_flip : forall vs f, fp_normal (props_of vs (flip_face f)) = vopp (fp_normal (props_of vs f)).
Proof.
  intros. unfold props_of. rewrite flip_face_tri. destruct (is_triangle f) eqn:T.
  - apply is_triangle_true in T. unfold triangle_props, cor, flip_face. cbn [p0 p1 p2 p3 f0 f1 f2 f3 fp_normal]. rewrite <- T.
    set (a := point vs (f0 f)). set (b := point vs (f1 f)). set (c := point vs (f2 f)).
    replace (cross (vsub c a) (vsub b a)) with (vopp (cross (vsub b a) (vsub c a))) by vring.
    rewrite norm_vopp, !vdiv_scale. vring.
  - unfold quad_props, cor, flip_face. cbn [p0 p1 p2 p3 f0 f1 f2 f3 fp_normal].
    set (a := point vs (f0 f)). set (b := point vs (f1 f)). set (c := point vs (f2 f)). set (d := point vs (f3 f)).
    replace (cross (vsub b d) (vsub a c)) with (vopp (cross (vsub c a) (vsub d b))) by vring.
    rewrite norm_vopp, !vdiv_scale. vring.
Qed.
Lemma normals_flip : forall m, valid m ->
  exists ps qs, faces_properties m = Ok ps /\ faces_properties (flip_normals m) = Ok qs /\
    map fp_normal qs = map (fun p => vopp (fp_normal p)) ps.
Proof.
  intros m V. do 2 eexists. split; [apply faces_properties_ok; auto|].
  split; [apply faces_properties_ok; apply valid_flip; auto|].
  cbn [flip_normals verts faces]. rewrite !map_map. apply map_ext. intros. apply normal_flip.
Qed.

(** ** Areas and centers *)
Lemma norm_cross_sym : forall v w, norm (cross v w) = norm (cross w v).
Proof. intros. rewrite <- (norm_vopp (cross v w)). f_equal. vring. Qed.
Lemma props_area : forall vs f, fp_area (props_of vs f) = face_area vs f.
Proof.
  intros. unfold props_of, face_area. destruct (is_triangle f) eqn:T.
  - rewrite face_triangles_tri by auto. cbn. unfold triangle_normal. lra.
  - rewrite face_triangles_quad by auto. cbn [map Rsum fold_right]. unfold quad_props, triangle_normal, cor.
    cbn [p0 p1 p2 p3 fp_area]. rewrite (norm_cross_sym (vsub (point vs (f3 f)) _)). field.
Qed.

Lemma face_integral : forall phi ex vs f, (forall a b c, is_surface_integral phi a b c (ex a b c)) ->
  is_mesh_surface_integral phi (mkMesh vs [f]) (surface_sum ex vs [f]).
Proof. intros. apply (surface_integral_sum phi ex (mkMesh vs [f])). auto. Qed.
Lemma surface_sum_tri : forall ex vs f, is_triangle f = true ->
  surface_sum ex vs [f] = ex (point vs (f0 f)) (point vs (f1 f)) (point vs (f2 f)).
Proof.
  intros. unfold surface_sum, mesh_triangles. cbn [flat_map]. rewrite app_nil_r, face_triangles_tri by auto. cbn. ring.
Qed.
Lemma surface_sum_quad : forall ex vs f, is_triangle f = false ->
  surface_sum ex vs [f] = ex (point vs (f0 f)) (point vs (f1 f)) (point vs (f2 f)) +
                          ex (point vs (f0 f)) (point vs (f2 f)) (point vs (f3 f)).
Proof.
  intros. unfold surface_sum, mesh_triangles. cbn [flat_map]. rewrite app_nil_r, face_triangles_quad by auto. cbn. ring.
Qed.
Lemma face_area_sum : forall vs f, face_area vs f = surface_sum (surf e0) vs [f].
Proof.
  intros. unfold face_area. destruct (is_triangle f) eqn:T.
  - rewrite surface_sum_tri, face_triangles_tri by auto. cbn. unfold surf, e0. lra.
  - rewrite surface_sum_quad, face_triangles_quad by auto. cbn. unfold surf, e0. lra.
Qed.
Lemma face_area_exact : forall vs f, is_mesh_surface_integral (fun _ => 1) (mkMesh vs [f]) (face_area vs f).
Proof. intros. rewrite face_area_sum. apply face_integral. apply surf0_exact. Qed.

Lemma center_exact : forall vs f p, proper_face vs f -> coordinate p ->
  is_mesh_surface_integral p (mkMesh vs [f]) (face_area vs f * p (fp_center (props_of vs f))).
Proof.
  intros vs f p P C. 
  replace (face_area vs f * p (fp_center (props_of vs f))) with (surface_sum (surf (e1' p)) vs [f]).
  { apply face_integral. intros. apply surf1_exact. auto. }
  rewrite <- props_area. unfold props_of. destruct (is_triangle f) eqn:T.
  - rewrite surface_sum_tri by auto. unfold triangle_props, cor, surf, triangle_normal, e1', q1.
    cbn [p0 p1 p2 p3 fp_area fp_center]. destruct C as [-> | [-> | ->]]; cbn [vx vy vz vdiv vadd]; field.
  - pose proof (proper_area vs f P T) as A. rewrite surface_sum_quad by auto.
    unfold quad_props, cor, surf, triangle_normal, e1', q1. cbn [p0 p1 p2 p3 fp_area fp_center].
    rewrite (norm_cross_sym (vsub (point vs (f2 f)) (point vs (f0 f))) (vsub (point vs (f3 f)) (point vs (f0 f)))).
    set (n1 := norm (cross (vsub (point vs (f1 f)) (point vs (f0 f))) (vsub (point vs (f2 f)) (point vs (f0 f))))) in *.
    set (n2 := norm (cross (vsub (point vs (f3 f)) (point vs (f0 f))) (vsub (point vs (f2 f)) (point vs (f0 f))))) in *.
    clearbody n1 n2. destruct C as [-> | [-> | ->]]; cbn [vx vy vz vdiv vadd vscale]; field; lra.
Qed.

Lemma face_area_pos : forall vs f, proper_face vs f -> 0 < face_area vs f.
Proof.
  intros vs f P. rewrite <- props_area. unfold props_of. destruct (is_triangle f) eqn:T.
  - unfold proper_face in P. pose proof T as T'. apply is_triangle_true in T.
    destruct (Nat.eq_dec (f0 f) (f3 f)); [|congruence]. apply norm_pos in P. unfold triangle_props, cor, triangle_normal in *.
    cbn [p0 p1 p2 p3 fp_area]. lra.
  - apply (proper_area vs f P T).
Qed.

(** ** Normals *)
Lemma normal_unit : forall vs f, proper_face vs f -> unit (fp_normal (props_of vs f)).
Proof.
  intros vs f P. unfold props_of, proper_face in *. destruct (is_triangle f) eqn:T.
  - apply is_triangle_true in T. destruct (Nat.eq_dec (f0 f) (f3 f)); [|congruence]. apply norm_of_normalised. exact P.
  - apply is_triangle_false in T. destruct (Nat.eq_dec (f0 f) (f3 f)); [congruence|]. apply norm_of_normalised. apply P.
Qed.
Lemma dot_vdiv : forall v k w, dot (vdiv v k) w = dot v w / k.
Proof. intros. rewrite vdiv_scale, dot_scale_l. unfold Rdiv. ring. Qed.
Lemma normal_triangle : forall vs f, proper_face vs f -> is_triangle f = true ->
  let n := fp_normal (props_of vs f) in
  dot n (vsub (point vs (f1 f)) (point vs (f0 f))) = 0 /\ dot n (vsub (point vs (f2 f)) (point vs (f0 f))) = 0 /\
  0 < dot n (cross (vsub (point vs (f1 f)) (point vs (f0 f))) (vsub (point vs (f2 f)) (point vs (f0 f)))).
Proof.
  intros vs f P T n. subst n. unfold props_of, proper_face in *. rewrite T. pose proof T as T'. apply is_triangle_true in T'.
  destruct (Nat.eq_dec (f0 f) (f3 f)); [|congruence]. unfold triangle_props, cor, triangle_normal in *.
  cbn [p0 p1 p2 p3 fp_normal]. rewrite !dot_vdiv, <- norm_sqr. pose proof (norm_pos _ P) as N.
  set (a := point vs (f0 f)) in *. set (b := point vs (f1 f)) in *. set (c := point vs (f2 f)) in *.
  replace (dot (cross (vsub b a) (vsub c a)) (vsub b a)) with 0 by vring.
  replace (dot (cross (vsub b a) (vsub c a)) (vsub c a)) with 0 by vring.
  repeat split; try (unfold Rdiv; ring).
  replace (norm (cross (vsub b a) (vsub c a)) * norm (cross (vsub b a) (vsub c a)) / norm (cross (vsub b a) (vsub c a)))
    with (norm (cross (vsub b a) (vsub c a))) by (field; lra). auto.
Qed.
Lemma normal_quad : forall vs f, proper_face vs f -> is_triangle f = false ->
  let n := fp_normal (props_of vs f) in
  dot n (vsub (point vs (f2 f)) (point vs (f0 f))) = 0 /\ dot n (vsub (point vs (f3 f)) (point vs (f1 f))) = 0 /\
  0 < dot n (cross (vsub (point vs (f2 f)) (point vs (f0 f))) (vsub (point vs (f3 f)) (point vs (f1 f)))).
Proof.
  intros vs f P T n. subst n. unfold props_of, proper_face in *. rewrite T. pose proof T as T'. apply is_triangle_false in T'.
  destruct (Nat.eq_dec (f0 f) (f3 f)); [congruence|]. destruct P as [P _]. unfold quad_props, cor, triangle_normal in *.
  cbn [p0 p1 p2 p3 fp_normal]. rewrite !dot_vdiv, <- norm_sqr. pose proof (norm_pos _ P) as N.
  set (a := point vs (f0 f)) in *. set (b := point vs (f1 f)) in *. set (c := point vs (f2 f)) in *. set (d := point vs (f3 f)) in *.
  replace (dot (cross (vsub c a) (vsub d b)) (vsub c a)) with 0 by vring.
  replace (dot (cross (vsub c a) (vsub d b)) (vsub d b)) with 0 by vring.
  repeat split; try (unfold Rdiv; ring).
  replace (norm (cross (vsub c a) (vsub d b)) * norm (cross (vsub c a) (vsub d b)) / norm (cross (vsub c a) (vsub d b)))
    with (norm (cross (vsub c a) (vsub d b))) by (field; lra). auto.
Qed.
Lemma vector_area_flat : forall vs f, flat_face vs f ->
  vscale (fp_area (props_of vs f)) (fp_normal (props_of vs f)) = vector_area vs f.
Proof.
  intros vs f F. rewrite props_area. unfold face_area, vector_area, props_of, flat_face in *. destruct (is_triangle f) eqn:T.
  - rewrite face_triangles_tri by auto. apply is_triangle_true in T. destruct (Nat.eq_dec (f0 f) (f3 f)); [|congruence].
    unfold triangle_props, cor. cbn [p0 p1 p2 p3 fp_normal map Rsum vsum fold_right]. fold (triangle_normal (point vs (f0 f)) (point vs (f1 f)) (point vs (f2 f))).
    pose proof (norm_pos _ F). apply vec_eq; cbn [vx vy vz vdiv vadd vscale vzero]; field; lra.
  - rewrite face_triangles_quad by auto. apply is_triangle_false in T. destruct (Nat.eq_dec (f0 f) (f3 f)); [congruence|].
    destruct F as (u & k & l & U & K & L & KL & E1 & E2).
    unfold quad_props, cor. cbn [p0 p1 p2 p3 fp_normal map Rsum vsum fold_right].
    rewrite (flat_quad_normal _ _ _ _ u k l U K L KL E1 E2), E1, E2, !cross_norm_split by auto.
    apply vec_eq; cbn; field.
Qed.

(** ** The integrals of each face *)
Lemma triangle_component : forall a b c,
  i0 (triangle_integrals a b c) = V3 (surf (e1' vx) a b c) (surf (e1' vy) a b c) (surf (e1' vz) a b c) /\
  i6 (triangle_integrals a b c) = V3 (surf (e2 vx vx) a b c) (surf (e2 vy vy) a b c) (surf (e2 vz vz) a b c) /\
  i9 (triangle_integrals a b c) = V3 (surf (e3 vx vx vx) a b c) (surf (e3 vy vy vy) a b c) (surf (e3 vz vz vz) a b c) /\
  i12 (triangle_integrals a b c) = V3 (surf (e3 vx vx vy) a b c) (surf (e3 vy vy vz) a b c) (surf (e3 vz vz vx) a b c).
Proof.
  intros. rewrite triangle_integrals_kern.
  rewrite (kern_scale i0), (kern_scale i6), (kern_scale i9), (kern_scale i12) by (unfold selection; auto).
  rewrite kern0, kern6, kern9, kern12. unfold surf. set (D := norm (triangle_normal a b c)). clearbody D.
  unfold by3, e1', e2, e3, q1, q2, q3, q21, tri3.
  repeat split; apply vec_eq; cbn [vx vy vz vscale]; field.
Qed.
(** The fifteen integrals: yz, xz, xy have an error term. *)
Lemma triangle_products : forall a b c,
  i3 (triangle_integrals a b c) =
    V3 (surf (fun a b c => e2 vy vz a b c + warp vy vz a b c / 24) a b c)
       (surf (fun a b c => e2 vx vz a b c + warp vx vz a b c / 24) a b c)
       (surf (fun a b c => e2 vx vy a b c + warp vx vy a b c / 24) a b c).
Proof.
  intros. rewrite triangle_integrals_kern. unfold surf, kern. cbn [i3]. set (D := norm (triangle_normal a b c)). clearbody D.
  unfold e2, warp. apply vec_eq; cbn [vx vy vz vadd]; field.
Qed.

Lemma ints_component : forall sel vs f (ex : vec -> vec -> vec -> vec), 
  (forall x y, sel (add_integrals x y) = vadd (sel x) (sel y)) ->
  (forall a b c, sel (triangle_integrals a b c) = ex a b c) ->
  sel (ints_of vs f) = V3 (surface_sum (fun a b c => vx (ex a b c)) vs [f])
    (surface_sum (fun a b c => vy (ex a b c)) vs [f]) (surface_sum (fun a b c => vz (ex a b c)) vs [f]).
Proof.
  intros sel vs f ex A H. unfold ints_of. destruct (is_triangle f) eqn:T.
  - rewrite !surface_sum_tri by auto. unfold tri_face_integrals, cor. cbn [p0 p1 p2 p3]. rewrite H. apply vec_eq; auto.
  - rewrite !surface_sum_quad by auto. unfold quad_face_integrals, cor. cbn [p0 p1 p2 p3]. rewrite A, !H. apply vec_eq; auto.
Qed.

Lemma ints_exact : forall vs f,
  i0 (ints_of vs f) = V3 (surface_sum (surf (e1' vx)) vs [f]) (surface_sum (surf (e1' vy)) vs [f]) (surface_sum (surf (e1' vz)) vs [f]) /\
  i6 (ints_of vs f) = V3 (surface_sum (surf (e2 vx vx)) vs [f]) (surface_sum (surf (e2 vy vy)) vs [f]) (surface_sum (surf (e2 vz vz)) vs [f]) /\
  i9 (ints_of vs f) = V3 (surface_sum (surf (e3 vx vx vx)) vs [f]) (surface_sum (surf (e3 vy vy vy)) vs [f]) (surface_sum (surf (e3 vz vz vz)) vs [f]) /\
  i12 (ints_of vs f) = V3 (surface_sum (surf (e3 vx vx vy)) vs [f]) (surface_sum (surf (e3 vy vy vz)) vs [f]) (surface_sum (surf (e3 vz vz vx)) vs [f]).
Proof.
  intros.
  rewrite (ints_component i0 vs f _ (fun x y => eq_refl) (fun a b c => proj1 (triangle_component a b c))),
    (ints_component i6 vs f _ (fun x y => eq_refl) (fun a b c => proj1 (proj2 (triangle_component a b c)))),
    (ints_component i9 vs f _ (fun x y => eq_refl) (fun a b c => proj1 (proj2 (proj2 (triangle_component a b c))))),
    (ints_component i12 vs f _ (fun x y => eq_refl) (fun a b c => proj2 (proj2 (proj2 (triangle_component a b c))))).
  repeat split; reflexivity.
Qed.
Lemma surface_sum_cons : forall ex vs f fs, surface_sum ex vs (f :: fs) = surface_sum ex vs [f] + surface_sum ex vs fs.
Proof.
  intros. unfold surface_sum. change (mesh_triangles (f :: fs)) with (face_triangles f ++ mesh_triangles fs).
  unfold mesh_triangles at 2. cbn [flat_map]. rewrite app_nil_r, map_app, Rsum_app. auto.
Qed.
Lemma surface_sum_faces : forall ex vs fs, Rsum (map (fun f => surface_sum ex vs [f]) fs) = surface_sum ex vs fs.
Proof.
  induction fs; [reflexivity|]. rewrite surface_sum_cons, <- IHfs. reflexivity.
Qed.

(** ** Shells *)
Lemma shell_sums : forall rho t m, valid m ->
  let S phi := surface_sum (surf phi) (verts m) (faces m) in
  let E p q := surface_sum (surf (fun a b c => warp p q a b c / 24)) (verts m) (faces m) in
  eval_shell_mesh_inertias rho t m = Ok (rigid_new (rho * t * S e0)
    (V3 (S (e1' vx) / S e0) (S (e1' vy) / S e0) (S (e1' vz) / S e0))
    (rho * t * (S (e2 vy vy) + S (e2 vz vz))) (rho * t * (S (e2 vx vx) + S (e2 vz vz)))
    (rho * t * (S (e2 vx vx) + S (e2 vy vy)))
    (rho * t * (S (e2 vy vz) + E vy vz)) (rho * t * (S (e2 vx vz) + E vx vz)) (rho * t * (S (e2 vx vy) + E vx vy)) (Some vzero)).
Proof.
  intros rho t m V S E. unfold eval_shell_mesh_inertias. rewrite faces_properties_ok, faces_integrals_ok by auto. simpl.
  unfold shell_inertia_with. rewrite !map_map. f_equal.
  assert (A : Rsum (map (fun x => fp_area (props_of (verts m) x)) (faces m)) = S e0).
  { unfold S. rewrite <- surface_sum_faces. apply Rsum_map_ext. intros. rewrite props_area. apply face_area_sum. }
  assert (Q : forall sel (ex ey ez : vec -> vec -> vec -> R),
     (forall f, sel (ints_of (verts m) f) = V3 (surface_sum ex (verts m) [f]) (surface_sum ey (verts m) [f]) (surface_sum ez (verts m) [f])) ->
     vsum (map (fun x => sel (ints_of (verts m) x)) (faces m)) =
     V3 (surface_sum ex (verts m) (faces m)) (surface_sum ey (verts m) (faces m)) (surface_sum ez (verts m) (faces m))).
  { intros sel ex ey ez H. rewrite <- !surface_sum_faces. apply vec_eq; cbn [vx vy vz]; rewrite ?vsum_x, ?vsum_y, ?vsum_z, map_map;
      apply Rsum_map_ext; intros; rewrite H; auto. }
  rewrite A.
  rewrite (Q i0 _ _ _ (fun f => proj1 (ints_exact (verts m) f))), (Q i6 _ _ _ (fun f => proj1 (proj2 (ints_exact (verts m) f)))).
  rewrite (Q i3 _ _ _ (fun f => ints_component i3 (verts m) f _ (fun x y => eq_refl) triangle_products)). cbn [vx vy vz vdiv].
  assert (P : forall p q, surface_sum (fun a b c => surf (fun a b c => e2 p q a b c + warp p q a b c / 24) a b c) (verts m) (faces m) = S (e2 p q) + E p q).
  { intros. unfold S, E. rewrite <- surface_sum_add. apply surface_sum_ext. intros. unfold surf. ring. }
  rewrite !P. fold (S (e1' vx)) (S (e1' vy)) (S (e1' vz)). reflexivity.
Qed.

(** ** Boxes *)
Lemma fold_min_spec : forall l a, fold_left Rmin l a <= a /\ (forall x, In x l -> fold_left Rmin l a <= x) /\
  (fold_left Rmin l a = a \/ In (fold_left Rmin l a) l).
Proof.
  induction l as [|b l IH]; intros a; simpl.
  - repeat split; auto; try lra. intros x [].
  - destruct (IH (Rmin a b)) as (A & B & C). pose proof (Rmin_l a b). pose proof (Rmin_r a b).
    repeat split; [lra| |].
    + intros x [<-|X]; auto. lra.
    + destruct C as [C|C]; auto. rewrite C. unfold Rmin. destruct (Rle_dec a b); auto.
Qed.
Lemma fold_max_spec : forall l a, a <= fold_left Rmax l a /\ (forall x, In x l -> x <= fold_left Rmax l a) /\
  (fold_left Rmax l a = a \/ In (fold_left Rmax l a) l).
Proof.
  induction l as [|b l IH]; intros a; simpl.
  - repeat split; auto; try lra. intros x [].
  - destruct (IH (Rmax a b)) as (A & B & C). pose proof (Rmax_l a b). pose proof (Rmax_r a b).
    repeat split; [lra| |].
    + intros x [<-|X]; auto. lra.
    + destruct C as [C|C]; auto. rewrite C. unfold Rmax. destruct (Rle_dec a b); auto.
Qed.
Lemma arr_min_spec : forall l, l <> [] -> exists x, arr_min l = Ok x /\ is_min x l.
Proof.
  intros [|a l] H; [congruence|]. eexists. split; [reflexivity|].
  destruct (fold_min_spec l a) as (A & B & C). split.
  - destruct C as [C|C]; [left; auto|right; auto].
  - intros x [<-|X]; auto.
Qed.
Lemma arr_max_spec : forall l, l <> [] -> exists x, arr_max l = Ok x /\ is_max x l.
Proof.
  intros [|a l] H; [congruence|]. eexists. split; [reflexivity|].
  destruct (fold_max_spec l a) as (A & B & C). split.
  - destruct C as [C|C]; [left; auto|right; auto].
  - intros x [<-|X]; auto.
Qed.
Lemma min_max_tight : forall a b l, is_min a l -> is_max b l -> tight a b l.
Proof. intros a b l [A B] [C D]. repeat split; auto. Qed.
Lemma bbox_tight : forall m, verts m <> [] -> exists b, axis_aligned_bbox m = Ok b /\
  tight (xmin b) (xmax b) (map vx (verts m)) /\ tight (ymin b) (ymax b) (map vy (verts m)) /\
  tight (zmin b) (zmax b) (map vz (verts m)).
Proof.
  intros m H. unfold axis_aligned_bbox.
  assert (N : forall (p : vec -> R), map p (verts m) <> []) by (intros; destruct (verts m); simpl; congruence).
  replace ((0 <? length (verts m))%nat) with true by (destruct (verts m); simpl; auto; congruence).
  destruct (arr_min_spec _ (N vx)) as (x0 & -> & X0). destruct (arr_max_spec _ (N vx)) as (x1 & -> & X1).
  destruct (arr_min_spec _ (N vy)) as (y0 & -> & Y0). destruct (arr_max_spec _ (N vy)) as (y1 & -> & Y1).
  destruct (arr_min_spec _ (N vz)) as (z0 & -> & Z0). destruct (arr_max_spec _ (N vz)) as (z1 & -> & Z1).
  eexists. split; [reflexivity|]. simpl. auto using min_max_tight.
Qed.
Lemma bbox_total : forall m, exists b, axis_aligned_bbox m = Ok b /\ xmin b <= xmax b /\ ymin b <= ymax b /\ zmin b <= zmax b.
Proof.
  intros m. destruct (verts m) as [|v l] eqn:E.
  - exists (mkBox 0 0 0 0 0 0). unfold axis_aligned_bbox. rewrite E. simpl. repeat split; lra.
  - destruct (bbox_tight m) as (b & B & X & Y & Z); [rewrite E; congruence|].
    exists b. split; auto. destruct X as (X & X0 & _), Y as (Y & Y0 & _), Z as (Z & Z0 & _).
    apply X in X0. apply Y in Y0. apply Z in Z0. lra.
Qed.
Lemma squared_spec : forall m, exists b s side, axis_aligned_bbox m = Ok b /\ squared_axis_aligned_bbox m = Ok s /\
  (* contains the box *)
  xmin s <= xmin b /\ xmax b <= xmax s /\ ymin s <= ymin b /\ ymax b <= ymax s /\ zmin s <= zmin b /\ zmax b <= zmax s /\
  (* a cube, around the same center *)
  xmax s - xmin s = side /\ ymax s - ymin s = side /\ zmax s - zmin s = side /\
  xmin s + xmax s = xmin b + xmax b /\ ymin s + ymax s = ymin b + ymax b /\ zmin s + zmax s = zmin b + zmax b /\
  (* of the least possible side *)
  is_max side [xmax b - xmin b; ymax b - ymin b; zmax b - zmin b].
Proof.
  intros m. destruct (bbox_total m) as (b & B & X & Y & Z). unfold squared_axis_aligned_bbox. rewrite B. cbn [bind]. cbv zeta.
  set (l := [(xmax b - xmin b) * (1 / 2); (ymax b - ymin b) * (1 / 2); (zmax b - zmin b) * (1 / 2)]).
  destruct (arr_max_spec l) as (d & -> & [D1 D2]); [discriminate|].
  assert (A1 := D2 _ (or_introl eq_refl)). assert (A2 := D2 _ (or_intror (or_introl eq_refl))).
  assert (A3 := D2 _ (or_intror (or_intror (or_introl eq_refl)))).
  exists b. eexists. exists (2 * d). split; auto. split; [reflexivity|]. cbn [xmin xmax ymin ymax zmin zmax].
  repeat split; try lra.
  - unfold l in D1. cbn in D1 |- *. decompose [or] D1; try contradiction; [left|right; left|right; right; left]; lra.
  - intros x H. cbn in H. decompose [or] H; try contradiction; subst; lra.
Qed.

(** ** Edge lengths *)
Lemma corners_ok : forall m, valid m -> mapM (face_corners (verts m)) (faces m) = Ok (map (cor (verts m)) (faces m)).
Proof.
  intros m V. unfold valid in V. induction (faces m) as [|f fs IH]; auto. inversion V; subst.
  cbn [mapM map]. rewrite face_corners_ok by auto. cbn [bind]. rewrite IH by auto. auto.
Qed.
Definition all_lengths (m : mesh) : list R := flat_map face_edge_lengths (map (cor (verts m)) (faces m)).
Lemma edges_stats_ok : forall m, valid m -> faces m <> [] ->
  exists mn mx, edges_stats m = Ok (mn, mx, Rsum (all_lengths m) / INR (length (all_lengths m))) /\
    is_min mn (all_lengths m) /\ is_max mx (all_lengths m).
Proof.
  intros m V N. unfold edges_stats. rewrite corners_ok by auto. cbn [bind]. fold (all_lengths m).
  assert (L : all_lengths m <> []) by (unfold all_lengths; destruct (faces m); simpl; congruence).
  destruct (arr_min_spec _ L) as (mn & -> & A). destruct (arr_max_spec _ L) as (mx & -> & B).
  exists mn, mx. auto.
Qed.
Lemma edge_length_sym : forall a b, edge_length a b = edge_length b a.
Proof. intros. unfold edge_length. rewrite <- norm_vopp. f_equal. vring. Qed.
Lemma face_lengths : forall vs f, face_edge_lengths (cor vs f) =
  [edge_length (point vs (f3 f)) (point vs (f0 f)); edge_length (point vs (f0 f)) (point vs (f1 f));
   edge_length (point vs (f1 f)) (point vs (f2 f)); edge_length (point vs (f2 f)) (point vs (f3 f))].
Proof. reflexivity. Qed.
Lemma quad_lengths : forall m, Forall (fun f => is_triangle f = false) (faces m) ->
  Permutation.Permutation (all_lengths m) (true_lengths m).
Proof.
  intros m. unfold all_lengths, true_lengths. induction 1 as [|f fs H F IH]; [simpl; auto|]. cbn [map flat_map].
  apply Permutation.Permutation_app; auto. unfold face_sides. apply is_triangle_false in H.
  destruct (Nat.eq_dec (f0 f) (f3 f)); [congruence|]. rewrite face_lengths.
  apply (Permutation.Permutation_middle [edge_length (point (verts m) (f0 f)) (point (verts m) (f1 f));
    edge_length (point (verts m) (f1 f)) (point (verts m) (f2 f)); edge_length (point (verts m) (f2 f)) (point (verts m) (f3 f))]
    [] (edge_length (point (verts m) (f3 f)) (point (verts m) (f0 f)))).
Qed.
Lemma edge_length_self : forall a, edge_length a a = 0.
Proof. intros. unfold edge_length. apply norm_zero_iff. vring. Qed.
Lemma edge_length_nonneg : forall a b, 0 <= edge_length a b.
Proof. intros. apply norm_nonneg. Qed.
Lemma lengths_in : forall m x, In x (all_lengths m) <->
  In x (true_lengths m) \/ x = 0 /\ Exists (fun f => is_triangle f = true) (faces m).
Proof.
  intros m x. unfold all_lengths, true_lengths. induction (faces m) as [|f fs IH].
  - simpl. split; [tauto|]. intros [[]|[_ H]]. inversion H.
  - cbn [map flat_map]. rewrite !in_app_iff, IH, Exists_cons, face_lengths. unfold face_sides.
    destruct (is_triangle f) eqn:T.
    + pose proof T as T'. apply is_triangle_true in T. destruct (Nat.eq_dec (f0 f) (f3 f)); [|congruence].
      rewrite <- T, edge_length_self. cbn [In]. intuition congruence.
    + pose proof T as T'. apply is_triangle_false in T. destruct (Nat.eq_dec (f0 f) (f3 f)); [congruence|].
      cbn [In]. intuition congruence.
Qed.
Lemma true_lengths_nonneg : forall m x, In x (true_lengths m) -> 0 <= x.
Proof.
  intros m x H. unfold true_lengths in H. apply in_flat_map in H. destruct H as (f & _ & H). unfold face_sides in H.
  destruct (Nat.eq_dec (f0 f) (f3 f)); cbn [In] in H; decompose [or] H; subst; try contradiction; apply edge_length_nonneg.
Qed.
Lemma true_lengths_some : forall m, faces m <> [] -> true_lengths m <> [].
Proof.
  intros m H. unfold true_lengths. destruct (faces m) as [|f fs]; [congruence|]. simpl. unfold face_sides.
  destruct (Nat.eq_dec (f0 f) (f3 f)); simpl; congruence.
Qed.
Lemma edges_max : forall m, valid m -> faces m <> [] ->
  exists mn mx mean, edges_stats m = Ok (mn, mx, mean) /\ is_max mx (true_lengths m).
Proof.
  intros m V N. destruct (edges_stats_ok m V N) as (mn & mx & E & A & [B C]). do 3 eexists. split; [exact E|]. split.
  - apply lengths_in in B. destruct B as [B|[-> _]]; auto.
    destruct (true_lengths m) as [|x l] eqn:L; [exfalso; eapply true_lengths_some; eauto|].
    assert (X : In x (true_lengths m)) by (rewrite L; left; auto).
    pose proof (true_lengths_nonneg m x X). assert (x <= 0) by (apply C, lengths_in; left; rewrite L; left; auto).
    left. lra.
  - intros x X. apply C. apply lengths_in. auto.
Qed.
Lemma edges_quads : forall m, valid m -> faces m <> [] -> Forall (fun f => is_triangle f = false) (faces m) ->
  exists mn mx, edges_stats m = Ok (mn, mx, Rsum (true_lengths m) / INR (length (true_lengths m))) /\
    is_min mn (true_lengths m) /\ is_max mx (true_lengths m).
Proof.
  intros m V N Q. destruct (edges_stats_ok m V N) as (mn & mx & E & [A1 A2] & [B1 B2]).
  pose proof (quad_lengths m Q) as P. exists mn, mx. split; [|split; split].
  - rewrite E. rewrite (Rsum_perm _ _ P), (Permutation.Permutation_length P). auto.
  - eapply Permutation.Permutation_in; eauto.
  - intros x X. apply A2. eapply Permutation.Permutation_in; [apply Permutation.Permutation_sym|]; eauto.
  - eapply Permutation.Permutation_in; eauto.
  - intros x X. apply B2. eapply Permutation.Permutation_in; [apply Permutation.Permutation_sym|]; eauto.
Qed.
Lemma edges_triangle : forall m f, valid m -> In f (faces m) -> is_triangle f = true ->
  exists mx mean, edges_stats m = Ok (0, mx, mean).
Proof.
  intros m f V H T. assert (N : faces m <> []) by (intros E; rewrite E in H; destruct H).
  destruct (edges_stats_ok m V N) as (mn & mx & E & [A1 A2] & _). exists mx. eexists.
  replace 0 with mn; [exact E|].
  assert (mn <= 0) by (apply A2, lengths_in; right; split; auto; apply Exists_exists; eauto).
  assert (0 <= mn); [|lra]. apply lengths_in in A1. destruct A1 as [A1|[-> _]]; [|lra]. eapply true_lengths_nonneg; eauto.
Qed.
(** The mean counts four edges for each face, one of them null for a triangle. *)
Lemma edges_mean : forall m, valid m -> faces m <> [] ->
  exists mn mx, edges_stats m = Ok (mn, mx, Rsum (true_lengths m) / INR (4 * length (faces m))).
Proof.
  intros m V N. destruct (edges_stats_ok m V N) as (mn & mx & E & _). exists mn, mx. rewrite E. f_equal. f_equal.
  assert (L : length (all_lengths m) = (4 * length (faces m))%nat).
  { unfold all_lengths. clear. induction (faces m); simpl in *; lia. }
  assert (S : Rsum (all_lengths m) = Rsum (true_lengths m)).
  { unfold all_lengths, true_lengths. clear. induction (faces m) as [|f fs IH]; auto. cbn [map flat_map].
    rewrite !Rsum_app, IH. f_equal. rewrite face_lengths. unfold face_sides. destruct (Nat.eq_dec (f0 f) (f3 f)) as [e|].
    - rewrite <- e, edge_length_self. cbn. ring.
    - cbn. ring. }
  rewrite L, S. auto.
Qed.

(** ** Small faces *)
Lemma filter_combine : forall A B (g : A -> B) (p : B -> bool) l,
  map snd (filter (fun af => p (fst af)) (combine (map g l) l)) = filter (fun a => p (g a)) l.
Proof. induction l; simpl; auto. destruct (p (g a)); simpl; rewrite IHl; auto. Qed.
Lemma remove_degenerated_ok : forall rtol m, 0 < rtol -> valid m ->
  remove_degenerated_faces rtol m =
  Ok (mkMesh (verts m) (filter (fun f => Rleb (rtol * mean_area m) (face_area (verts m) f)) (faces m))).
Proof.
  intros rtol m H V. unfold remove_degenerated_faces. apply Rltb_true in H. rewrite H.
  rewrite faces_properties_ok by auto. simpl. rewrite map_map. unfold remove_degenerated_with.
  rewrite map_length, Nat.eqb_refl. simpl.
  replace (map (fun x => fp_area (props_of (verts m) x)) (faces m)) with (map (face_area (verts m)) (faces m))
    by (apply map_ext; intros; rewrite props_area; auto).
  rewrite (filter_combine _ _ _ (fun a => negb (Rltb a (Rsum (map (face_area (verts m)) (faces m)) / INR (length (faces m)) * rtol)))).
  f_equal. f_equal. apply filter_ext. intros f. unfold mean_area.
  set (t := Rsum (map (face_area (verts m)) (faces m)) / INR (length (faces m))).
  destruct (Rltb (face_area (verts m) f) (t * rtol)) eqn:E; simpl; symmetry.
  - apply Rltb_true in E. apply Rleb_false. lra.
  - apply Rltb_false in E. apply Rleb_true. lra.
Qed.
Lemma above_mean : forall (l : list R), l <> [] -> exists x, In x l /\ Rsum l / INR (length l) <= x.
Proof.
  intros l H. destruct (arr_max_spec l H) as (M & _ & [A B]). exists M. split; auto.
  assert (P : 0 < INR (length l)) by (apply lt_0_INR; destruct l; simpl; [congruence|lia]).
  assert (S : Rsum l <= INR (length l) * M).
  { clear H A P. induction l as [|a l IH]; [simpl; lra|]. cbn [Rsum fold_right length]. rewrite S_INR.
    assert (a <= M) by (apply B; left; auto). assert (Rsum l <= INR (length l) * M) by (apply IH; intros; apply B; right; auto).
    unfold Rsum in *. lra. }
  apply (Rmult_le_reg_l (INR (length l))); auto. unfold Rdiv. rewrite (Rmult_comm (Rsum l)), <- Rmult_assoc, Rinv_r, Rmult_1_l by lra. auto.
Qed.
Lemma face_area_nonneg : forall vs f, 0 <= face_area vs f.
Proof.
  intros. unfold face_area. induction (face_triangles f) as [|[[i j] k] l IH]; cbn; [lra|].
  pose proof (norm_nonneg (triangle_normal (point vs i) (point vs j) (point vs k))). unfold Rsum in *. lra.
Qed.
Lemma mean_area_nonneg : forall m, 0 <= mean_area m.
Proof.
  intros. unfold mean_area. assert (0 <= Rsum (map (face_area (verts m)) (faces m))).
  { induction (faces m); cbn; [lra|]. pose proof (face_area_nonneg (verts m) a). unfold Rsum in *. lra. }
  destruct (faces m) as [|f fs] eqn:E; [cbn; unfold Rdiv; lra|]. rewrite <- E in *.
  assert (P : 0 < INR (length (faces m))) by (apply lt_0_INR; rewrite E; simpl; lia).
  unfold Rdiv. apply Rmult_le_pos; auto. apply Rlt_le, Rinv_0_lt_compat; auto.
Qed.
Lemma degenerated_keeps_one : forall rtol m m', 0 < rtol <= 1 -> valid m -> faces m <> [] ->
  remove_degenerated_faces rtol m = Ok m' -> faces m' <> [].
Proof.
  intros rtol m m' [A B] V N E. rewrite remove_degenerated_ok in E by auto. injection E as <-. cbn [faces].
  destruct (above_mean (map (face_area (verts m)) (faces m))) as (x & X & L); [destruct (faces m); simpl; congruence|].
  apply in_map_iff in X. destruct X as (f & <- & F). rewrite map_length in L. fold (mean_area m) in L.
  intros Z. assert (I : In f (filter (fun f => Rleb (rtol * mean_area m) (face_area (verts m) f)) (faces m))).
  { apply filter_In. split; auto. apply Rleb_true. pose proof (mean_area_nonneg m). nra. }
  rewrite Z in I. destruct I.
Qed.
Lemma degenerated_keeps_large : forall rtol m m' f, 0 < rtol <= 1 -> valid m ->
  remove_degenerated_faces rtol m = Ok m' -> In f (faces m) -> mean_area m <= face_area (verts m) f -> In f (faces m').
Proof.
  intros rtol m m' f [A B] V E F L. rewrite remove_degenerated_ok in E by auto. injection E as <-. cbn [faces].
  apply filter_In. split; auto. apply Rleb_true. pose proof (mean_area_nonneg m). nra.
Qed.
