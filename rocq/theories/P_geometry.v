(** Proofs about the geometric quantities of a mesh. *)
From Coq Require Import Reals List Arith Bool Lia Lra ZArith Sorting.Permutation.
From Verif Require Import M_base P_base M_merge P_merge M_plane M_rotations M_mesh S_mesh P_mesh M_inertia M_geometry
  S_integral P_integral S_geometry.
Import ListNotations.
Open Scope R_scope.

(** ** Unfolding the computation face by face *)
Definition cor (vs : list vec) (f : face) : corner4 :=
  C4 (point vs (f0 f)) (point vs (f1 f)) (point vs (f2 f)) (point vs (f3 f)).

Lemma get_point : forall vs i, (i < length vs)%nat -> get vs i = Ok (point vs i).
Proof. intros. unfold get, point. rewrite (nth_error_nth' vs vzero H). auto. Qed.
Lemma face_corners_ok : forall vs f, valid_face (length vs) f -> face_corners vs f = Ok (cor vs f).
Proof.
  intros vs f (A & B & C & D). unfold face_corners. rewrite !get_point by auto. reflexivity.
Qed.

Lemma mapM_total : forall A B (h : A -> res B) (g : A -> B) l, (forall a, In a l -> h a = Ok (g a)) ->
  mapM h l = Ok (map g l).
Proof.
  induction l; simpl; intros H; auto. rewrite H by auto. simpl. rewrite IHl by auto. reflexivity.
Qed.

Lemma fold_assign_length : forall B (ivs : list (nat * B)) out,
  length (fold_left (fun l iv => set_nth l (fst iv) (snd iv)) ivs out) = length out.
Proof. induction ivs; simpl; intros; auto. rewrite IHivs, set_nth_length. auto. Qed.
Lemma fold_assign_other : forall B (ivs : list (nat * B)) out k, ~ In k (map fst ivs) ->
  nth_error (fold_left (fun l iv => set_nth l (fst iv) (snd iv)) ivs out) k = nth_error out k.
Proof.
  induction ivs; simpl; intros; auto. rewrite IHivs by tauto. apply set_nth_other. tauto.
Qed.
Lemma fold_assign_at : forall B (ivs : list (nat * B)) out k v, NoDup (map fst ivs) -> In (k, v) ivs ->
  (k < length out)%nat ->
  nth_error (fold_left (fun l iv => set_nth l (fst iv) (snd iv)) ivs out) k = Some v.
Proof.
  induction ivs as [|[i w] ivs IH]; simpl; intros out k v D I L; [tauto|]. inversion D; subst. destruct I as [E|I].
  - injection E as -> ->. rewrite fold_assign_other by auto. apply set_nth_same; auto.
  - apply IH; auto. rewrite set_nth_length; auto.
Qed.

(** Assignment of the rows selected by a test. *)
Lemma assign_where : forall A B (rows : list A) (p : A -> bool) (h : A -> res B) (g : A -> B) out,
  (forall a, In a rows -> h a = Ok (g a)) -> length out = length rows ->
  exists l, assign_rows out (where_ p rows) rows h = Ok l /\ length l = length rows /\
    forall k a, nth_error rows k = Some a -> nth_error l k = if p a then Some (g a) else nth_error out k.
Proof.
  intros A B rows p h g out H L. unfold assign_rows.
  assert (E : mapM (fun i => do r <- get rows i; h r) (where_ p rows) = Ok (map g (filter p rows))).
  { destruct rows as [|a0 rows0] eqn:R.
    - reflexivity.
    - rewrite <- R in *.
      rewrite (mapM_total _ _ _ (fun i => g (nth i rows a0))).
      + f_equal. pose proof (where_rows _ p rows) as W. 
        rewrite (mapM_total _ _ _ (fun i => nth i rows a0)) in W.
        * injection W as W. rewrite <- W. rewrite map_map. reflexivity.
        * intros i Hi. apply in_where in Hi as (a & Ea & _). apply get_some. apply nth_error_nth'.
          eapply nth_error_bound; eauto.
      + intros i Hi. apply in_where in Hi as (a & Ea & _).
        rewrite (get_some _ _ _ _ Ea). simpl. rewrite (nth_error_nth _ _ _ Ea). apply H. eapply nth_error_In; eauto. }
  rewrite E. simpl. eexists. split; [reflexivity|]. split; [rewrite fold_assign_length; auto|].
  assert (LW : length (where_ p rows) = length (map g (filter p rows))).
  { rewrite map_length. pose proof (where_rows _ p rows) as W. apply mapM_length in W. auto. }
  intros k a K. destruct (p a) eqn:P.
  - apply fold_assign_at.
    + replace (map fst (combine (where_ p rows) (map g (filter p rows)))) with (where_ p rows).
      * apply sorted_NoDup, where_sorted.
      * revert LW. generalize (where_ p rows) as l1, (map g (filter p rows)) as l2.
        induction l1; destruct l2; simpl; intros; try lia; auto. f_equal. apply IHl1. lia.
    + assert (I : In k (where_ p rows)) by (apply in_where; eauto).
      pose proof (where_rows _ p rows) as W. apply mapM_Forall2 in W.
      clear - W I K. induction W; simpl in *; [tauto|]. destruct I as [->|I]; auto.
      left. f_equal. apply get_inv in H. congruence.
    + rewrite L. eapply nth_error_bound; eauto.
  - apply fold_assign_other. intros I. apply in_map_iff in I as ([i v] & Ei & Hi). simpl in Ei. subst i.
    apply in_combine_l in Hi. apply in_where in Hi as (b & Eb & Pb). congruence.
Qed.

(** Two complementary assignments fill the whole array. *)
Lemma assign_both : forall A B (rows : list A) (p : A -> bool) (h1 h2 : A -> res B) (g1 g2 : A -> B) (b0 : B),
  (forall a, In a rows -> h1 a = Ok (g1 a)) -> (forall a, In a rows -> h2 a = Ok (g2 a)) ->
  (do l <- assign_rows (repeat b0 (length rows)) (where_ p rows) rows h1;
   assign_rows l (where_ (fun a => negb (p a)) rows) rows h2) =
  Ok (map (fun a => if p a then g1 a else g2 a) rows).
Proof.
  intros A B rows p h1 h2 g1 g2 b0 H1 H2.
  destruct (assign_where A B rows p h1 g1 (repeat b0 (length rows)) H1) as (l & E1 & L1 & N1); [apply repeat_length|].
  rewrite E1. simpl.
  destruct (assign_where A B rows (fun a => negb (p a)) h2 g2 l H2 L1) as (l2 & E2 & L2 & N2).
  rewrite E2. f_equal. apply nth_error_ext. intros k. rewrite nth_error_map.
  destruct (nth_error rows k) as [a|] eqn:K; simpl.
  - rewrite (N2 k a K), (N1 k a K). destruct (p a); auto.
  - apply nth_error_None. rewrite L2. apply nth_error_None. auto.
Qed.

Definition props_of (vs : list vec) (f : face) : fprops :=
  if is_triangle f then triangle_props (cor vs f) else quad_props (cor vs f).
Definition ints_of (vs : list vec) (f : face) : integrals :=
  if is_triangle f then tri_face_integrals (cor vs f) else quad_face_integrals (cor vs f).

Lemma valid_in : forall m f, valid m -> In f (faces m) -> valid_face (length (verts m)) f.
Proof. intros m f V H. unfold valid in V. rewrite Forall_forall in V. auto. Qed.

Lemma faces_properties_ok : forall m, valid m -> faces_properties m = Ok (map (props_of (verts m)) (faces m)).
Proof.
  intros m V. unfold faces_properties, faces_properties_with, triangles_ids, quadrangles_ids.
  rewrite (assign_both _ _ (faces m) is_triangle _ _ (fun f => triangle_props (cor (verts m) f))
            (fun f => quad_props (cor (verts m) f)) no_props); auto;
    intros f Hf; rewrite (face_corners_ok _ f (valid_in m f V Hf)); reflexivity.
Qed.
Lemma faces_integrals_ok : forall m, valid m -> faces_integrals m = Ok (map (ints_of (verts m)) (faces m)).
Proof.
  intros m V. unfold faces_integrals, faces_integrals_with, triangles_ids, quadrangles_ids.
  rewrite (assign_both _ _ (faces m) is_triangle _ _ (fun f => tri_face_integrals (cor (verts m) f))
            (fun f => quad_face_integrals (cor (verts m) f)) no_integrals); auto;
    intros f Hf; rewrite (face_corners_ok _ f (valid_in m f V Hf)); reflexivity.
Qed.

Lemma combine_map : forall A B C (g : A -> B) (h : A -> C) l,
  combine (map g l) (map h l) = map (fun a => (g a, h a)) l.
Proof. induction l; simpl; auto. f_equal; auto. Qed.

Lemma volume_ok : forall m, valid m -> volume m =
  Ok (Rsum (map (fun f => dot (fp_normal (props_of (verts m) f)) (i0 (ints_of (verts m) f))) (faces m)) / 3).
Proof.
  intros m V. unfold volume. rewrite faces_integrals_ok, faces_properties_ok by auto. simpl.
  unfold volume_with, same_length. rewrite !map_length, Nat.eqb_refl. simpl.
  rewrite combine_map, map_map. reflexivity.
Qed.

(** ** Vector algebra *)
Lemma cross_norm_split : forall k u, unit u -> 0 <= k -> norm (vscale k u) = k.
Proof.
  intros. rewrite norm_scale, (norm_unit u H). rewrite Rabs_right by lra. ring.
Qed.
Lemma normal_sum : forall a b c d, cross (vsub c a) (vsub d b) = vadd (triangle_normal a b c) (triangle_normal a c d).
Proof. intros. unfold triangle_normal. vring. Qed.
Lemma vscale_zero_iff : forall k u, unit u -> (vscale k u = vzero <-> k = 0).
Proof.
  intros k u U. split; intros H.
  - assert (E : k * dot u u = 0).
    { transitivity (dot (vscale k u) u); [vring|]. rewrite H. vring. }
    unfold unit in U. rewrite U in E. lra.
  - subst. vring.
Qed.
Lemma vdiv_scale : forall v k, vdiv v k = vscale (/ k) v.
Proof. intros. apply vec_eq; cbn; unfold Rdiv; ring. Qed.
Lemma norm_of_normalised : forall n, n <> vzero -> unit (vdiv n (norm n)).
Proof.
  intros n H. pose proof (norm_pos n H). unfold unit. rewrite vdiv_scale.
  replace (dot (vscale (/ norm n) n) (vscale (/ norm n) n)) with (/ norm n * / norm n * dot n n) by vring.
  rewrite <- norm_sqr. field. lra.
Qed.

(** The integrals of a triangle with the surface element as a parameter. *)
Definition kern (delta : R) (a b c : vec) : integrals :=
  let t0 := vadd a b in
  let F1 := vadd t0 c in
  let t1 := vmul a a in
  let t2 := vadd t1 (vmul b t0) in
  let F2 := vadd t2 (vmul c F1) in
  let F3 := vadd (vadd (vmul a t1) (vmul b t2)) (vmul c F2) in
  let g0 := vadd F2 (vmul a (vadd F1 a)) in
  let g1 := vadd F2 (vmul b (vadd F1 b)) in
  let g2 := vadd F2 (vmul c (vadd F1 c)) in
  I15 (vdiv (vscale delta F1) 6)
      (V3 (delta * (6 * vy a * vz a + 3 * (vy b * vz b + vy c * vz c) - vy a * vz F1 - vz a * vy F1) / 12)
          (delta * (6 * vx a * vz a + 3 * (vx b * vz b + vx c * vz c) - vx a * vz F1 - vz a * vx F1) / 12)
          (delta * (6 * vx a * vy a + 3 * (vx b * vy b + vx c * vy c) - vx a * vy F1 - vy a * vx F1) / 12))
      (vdiv (vscale delta F2) 12)
      (vdiv (vscale delta F3) 20)
      (V3 (delta * (vy a * vx g0 + vy b * vx g1 + vy c * vx g2) / 60)
          (delta * (vz a * vy g0 + vz b * vy g1 + vz c * vy g2) / 60)
          (delta * (vx a * vz g0 + vx b * vz g1 + vx c * vz g2) / 60)).
Lemma triangle_integrals_kern : forall a b c,
  triangle_integrals a b c = kern (norm (triangle_normal a b c)) a b c.
Proof. reflexivity. Qed.

(** Selections of three of the integrals. *)
Definition selection (sel : integrals -> vec) : Prop := sel = i0 \/ sel = i6 \/ sel = i9 \/ sel = i12.
Lemma kern_scale : forall sel delta a b c, selection sel -> sel (kern delta a b c) = vscale delta (sel (kern 1 a b c)).
Proof.
  intros sel delta a b c S. unfold kern. unfold selection in S.
  decompose [or] S; subst; cbn [i0 i6 i9 i12]; apply vec_eq; cbn [vdiv vscale vx vy vz]; unfold Rdiv; ring.
Qed.
Lemma sel_add : forall sel a b, selection sel -> sel (add_integrals a b) = vadd (sel a) (sel b).
Proof. intros sel a b S. unfold selection in S. decompose [or] S; subst; reflexivity. Qed.

(** Contribution of a triangle to a flux. *)
Definition tflux (sel : integrals -> vec) (a b c : vec) : vec := vmul (triangle_normal a b c) (sel (kern 1 a b c)).

Lemma triangle_flux_unit : forall sel a b c u k, selection sel -> unit u -> 0 <= k ->
  triangle_normal a b c = vscale k u -> vmul u (sel (triangle_integrals a b c)) = tflux sel a b c.
Proof.
  intros sel a b c u k S U K E. rewrite triangle_integrals_kern. unfold tflux.
  rewrite (kern_scale sel (norm (triangle_normal a b c))) by auto. rewrite E at 1. rewrite cross_norm_split by auto.
  rewrite E. apply vec_eq; cbn; ring.
Qed.
Lemma triangle_flux : forall sel a b c, selection sel -> triangle_normal a b c <> vzero ->
  vmul (vdiv (triangle_normal a b c) (norm (triangle_normal a b c))) (sel (triangle_integrals a b c)) = tflux sel a b c.
Proof.
  intros sel a b c S H. pose proof (norm_pos _ H) as P.
  apply triangle_flux_unit with (k := norm (triangle_normal a b c)); auto.
  - apply norm_of_normalised; auto.
  - apply norm_nonneg.
  - apply vec_eq; cbn; field; lra.
Qed.

(** A flat quadrangle: its normal is the common one. *)
Lemma flat_quad_normal : forall a b c d u k l, unit u -> 0 <= k -> 0 <= l -> 0 < k + l ->
  triangle_normal a b c = vscale k u -> triangle_normal a c d = vscale l u ->
  vdiv (cross (vsub c a) (vsub d b)) (norm (cross (vsub c a) (vsub d b))) = u.
Proof.
  intros a b c d u k l U K L KL E1 E2. rewrite normal_sum, E1, E2.
  replace (vadd (vscale k u) (vscale l u)) with (vscale (k + l) u) by vring.
  rewrite cross_norm_split by (auto; lra). apply vec_eq; cbn; field; lra.
Qed.

Lemma vmul_add : forall u a b, vmul u (vadd a b) = vadd (vmul u a) (vmul u b).
Proof. intros. apply vec_eq; cbn; ring. Qed.

(** Sum of a vector quantity over the triangles of a face or mesh. *)
Definition vtri (phi : vec -> vec -> vec -> vec) (vs : list vec) (f : face) : vec :=
  vsum (map (fun t => let '(a, b, c) := t in phi (point vs a) (point vs b) (point vs c)) (face_triangles f)).

Lemma face_triangles_tri : forall f, is_triangle f = true -> face_triangles f = [(f0 f, f1 f, f2 f)].
Proof.
  intros f H. apply is_triangle_true in H. unfold face_triangles. destruct (Nat.eq_dec (f0 f) (f3 f)); congruence.
Qed.
Lemma face_triangles_quad : forall f, is_triangle f = false ->
  face_triangles f = [(f0 f, f1 f, f2 f); (f0 f, f2 f, f3 f)].
Proof.
  intros f H. apply is_triangle_false in H. unfold face_triangles. destruct (Nat.eq_dec (f0 f) (f3 f)); congruence.
Qed.

Lemma face_flux : forall sel vs f, selection sel -> flat_face vs f ->
  vmul (fp_normal (props_of vs f)) (sel (ints_of vs f)) = vtri (tflux sel) vs f.
Proof.
  intros sel vs f S H. unfold props_of, ints_of, vtri, flat_face in *.
  destruct (is_triangle f) eqn:T.
  - rewrite face_triangles_tri by auto. apply is_triangle_true in T.
    destruct (Nat.eq_dec (f0 f) (f3 f)); [|congruence]. cbn [map vsum fold_right].
    transitivity (tflux sel (point vs (f0 f)) (point vs (f1 f)) (point vs (f2 f))).
    + exact (triangle_flux sel _ _ _ S H).
    + vring.
  - rewrite face_triangles_quad by auto. apply is_triangle_false in T.
    destruct (Nat.eq_dec (f0 f) (f3 f)); [congruence|]. cbn [map vsum fold_right].
    destruct H as (u & k & l & U & K & L & KL & E1 & E2).
    unfold quad_props, quad_face_integrals, cor. cbn [p0 p1 p2 p3 fp_normal].
    rewrite (flat_quad_normal _ _ _ _ u k l U K L KL E1 E2). rewrite sel_add, vmul_add by auto.
    rewrite (triangle_flux_unit sel _ _ _ u k), (triangle_flux_unit sel _ _ _ u l) by auto. vring.
Qed.

Lemma vsum_app : forall l m, vsum (l ++ m) = vadd (vsum l) (vsum m).
Proof.
  induction l; simpl; intros; [vring|]. unfold vsum in *. simpl. rewrite IHl. vring.
Qed.
Lemma Rsum_app : forall l m, Rsum (l ++ m) = Rsum l + Rsum m.
Proof. induction l; simpl; intros; unfold Rsum in *; simpl; [lra|]. rewrite IHl. lra. Qed.
Lemma Rsum_map_add : forall A (g h : A -> R) l, Rsum (map (fun a => g a + h a) l) = Rsum (map g l) + Rsum (map h l).
Proof. induction l; unfold Rsum in *; simpl; [lra|]. rewrite IHl. lra. Qed.
Lemma Rsum_map_scale : forall A k (g : A -> R) l, Rsum (map (fun a => k * g a) l) = k * Rsum (map g l).
Proof. induction l; unfold Rsum in *; simpl; [lra|]. rewrite IHl. lra. Qed.
Lemma Rsum_map_ext : forall A (g h : A -> R) l, (forall a, In a l -> g a = h a) -> Rsum (map g l) = Rsum (map h l).
Proof. intros. f_equal. apply map_ext_in. auto. Qed.
Lemma vsum_x : forall l, vx (vsum l) = Rsum (map vx l).
Proof. induction l; unfold vsum, Rsum in *; simpl; [auto|]. rewrite IHl. auto. Qed.
Lemma vsum_y : forall l, vy (vsum l) = Rsum (map vy l).
Proof. induction l; unfold vsum, Rsum in *; simpl; [auto|]. rewrite IHl. auto. Qed.
Lemma vsum_z : forall l, vz (vsum l) = Rsum (map vz l).
Proof. induction l; unfold vsum, Rsum in *; simpl; [auto|]. rewrite IHl. auto. Qed.

Lemma vsum_faces : forall phi vs fs, vsum (map (vtri phi vs) fs) =
  vsum (map (fun t => let '(a, b, c) := t in phi (point vs a) (point vs b) (point vs c)) (mesh_triangles fs)).
Proof.
  induction fs; simpl; auto. unfold mesh_triangles in *. simpl. rewrite map_app, vsum_app. unfold vsum in *. simpl.
  rewrite IHfs. reflexivity.
Qed.

(** The fluxes of the model, as sums over the triangles of the mesh. *)
Definition tsum (phi : vec -> vec -> vec -> vec) (m : mesh) : vec :=
  V3 (surface_sum (fun a b c => vx (phi a b c)) (verts m) (faces m))
     (surface_sum (fun a b c => vy (phi a b c)) (verts m) (faces m))
     (surface_sum (fun a b c => vz (phi a b c)) (verts m) (faces m)).

Lemma tsum_vsum : forall phi m, tsum phi m = vsum (map (vtri phi (verts m)) (faces m)).
Proof.
  intros. rewrite vsum_faces. unfold tsum, surface_sum.
  apply vec_eq; cbn [vx vy vz]; rewrite ?vsum_x, ?vsum_y, ?vsum_z, map_map; apply Rsum_map_ext; intros [[? ?] ?] _; auto.
Qed.

Lemma flux_tsum : forall sel m, selection sel -> flat_mesh m ->
  flux sel (map (ints_of (verts m)) (faces m)) (map (props_of (verts m)) (faces m)) = tsum (tflux sel) m.
Proof.
  intros sel m S F. rewrite tsum_vsum. unfold flux. rewrite combine_map, map_map. f_equal. apply map_ext_in.
  intros f Hf. cbn [fst snd]. apply face_flux; auto. unfold flat_mesh in F. rewrite Forall_forall in F. auto.
Qed.

Lemma vmul_dot : forall a b, dot a b = vx (vmul a b) + vy (vmul a b) + vz (vmul a b).
Proof. reflexivity. Qed.

Lemma surface_sum_add : forall g h vs fs,
  surface_sum (fun a b c => g a b c + h a b c) vs fs = surface_sum g vs fs + surface_sum h vs fs.
Proof. intros. unfold surface_sum. rewrite <- Rsum_map_add. apply Rsum_map_ext. intros [[? ?] ?] _. auto. Qed.
Lemma surface_sum_scale : forall k g vs fs,
  surface_sum (fun a b c => k * g a b c) vs fs = k * surface_sum g vs fs.
Proof. intros. unfold surface_sum. rewrite <- Rsum_map_scale. apply Rsum_map_ext. intros [[? ?] ?] _. auto. Qed.
Lemma surface_sum_ext : forall g h vs fs, (forall a b c, g a b c = h a b c) -> surface_sum g vs fs = surface_sum h vs fs.
Proof. intros. unfold surface_sum. apply Rsum_map_ext. intros [[? ?] ?] _. auto. Qed.

(** The integrals of a triangle as polynomials of its coordinates. *)
Definition q1 (x y z : R) : R := (x + y + z) / 6.
Definition q2 (x y z : R) : R := (x * x + y * y + z * z + x * y + y * z + x * z) / 12.
Definition q3 (x y z : R) : R :=
  (x * x * x + y * y * y + z * z * z + x * x * y + x * x * z + y * y * x + y * y * z + z * z * x + z * z * y + x * y * z) / 20.
Definition q21 (x y z a b c : R) : R :=
  (a * (3 * x * x + y * y + z * z + 2 * x * y + 2 * x * z + y * z)
   + b * (3 * y * y + x * x + z * z + 2 * x * y + 2 * y * z + x * z)
   + c * (3 * z * z + x * x + y * y + 2 * x * z + 2 * y * z + x * y)) / 60.
Definition by3 (q : R -> R -> R -> R) (a b c : vec) : vec :=
  V3 (q (vx a) (vx b) (vx c)) (q (vy a) (vy b) (vy c)) (q (vz a) (vz b) (vz c)).
Lemma kern0 : forall a b c, i0 (kern 1 a b c) = by3 q1 a b c.
Proof. intros [] [] []. cbv -[Rplus Rmult Rdiv IZR Rinv]. f_equal; field. Qed.
Lemma kern6 : forall a b c, i6 (kern 1 a b c) = by3 q2 a b c.
Proof. intros [] [] []. cbv -[Rplus Rmult Rdiv IZR Rinv]. f_equal; field. Qed.
Lemma kern9 : forall a b c, i9 (kern 1 a b c) = by3 q3 a b c.
Proof. intros [] [] []. cbv -[Rplus Rmult Rdiv IZR Rinv]. f_equal; field. Qed.
Lemma kern12 : forall a b c, i12 (kern 1 a b c) =
  V3 (q21 (vx a) (vx b) (vx c) (vy a) (vy b) (vy c)) (q21 (vy a) (vy b) (vy c) (vz a) (vz b) (vz c))
     (q21 (vz a) (vz b) (vz c) (vx a) (vx b) (vx c)).
Proof. intros [] [] []. cbv -[Rplus Rmult Rdiv IZR Rinv]. f_equal; field. Qed.

Ltac geo :=
  unfold tflux; rewrite ?kern0, ?kern6, ?kern9, ?kern12;
  repeat match goal with v : vec |- _ => destruct v end;
  cbv -[Rplus Rmult Rdiv Rminus Ropp IZR Rinv].
Lemma tflux0 : forall a b c, vx (tflux i0 a b c) + vy (tflux i0 a b c) + vz (tflux i0 a b c) = 3 * tetra vzero a b c.
Proof. intros. geo. field. Qed.

Lemma volume_exact : forall m, valid m -> flat_mesh m -> volume m = Ok (signed_volume vzero m).
Proof.
  intros m V F. rewrite volume_ok by auto. f_equal. unfold signed_volume.
  assert (E : Rsum (map (fun f => dot (fp_normal (props_of (verts m) f)) (i0 (ints_of (verts m) f))) (faces m)) =
              vx (tsum (tflux i0) m) + vy (tsum (tflux i0) m) + vz (tsum (tflux i0) m)).
  { rewrite tsum_vsum, vsum_x, vsum_y, vsum_z, !map_map, <- !Rsum_map_add. apply Rsum_map_ext. intros f Hf.
    rewrite <- (face_flux i0) by (try (left; auto); unfold flat_mesh in F; rewrite Forall_forall in F; auto).
    apply vmul_dot. }
  rewrite E. unfold tsum. cbn [vx vy vz]. rewrite <- !surface_sum_add.
  rewrite (surface_sum_ext _ (fun a b c => 3 * tetra vzero a b c)) by (intros; apply tflux0).
  rewrite surface_sum_scale. field.
Qed.

(** ** Closed surfaces: functionals of the edges cancel *)
Definition swap (e : nat * nat) : nat * nat := (snd e, fst e).
Lemma count_swap : forall l i j, count_occ edge_eq_dec (map swap l) (i, j) = count_occ edge_eq_dec l (j, i).
Proof.
  induction l as [|[a b] l IH]; intros; auto. cbn [map]. change (swap (a, b)) with (b, a).
  destruct (edge_eq_dec (b, a) (i, j)) as [E|E].
  - rewrite !count_occ_cons_eq by congruence. rewrite IH; auto.
  - rewrite !count_occ_cons_neq by congruence. auto.
Qed.
Lemma closed_edge_sum : forall (g : nat -> nat -> R) fs, closed_surface fs -> (forall i j, g i j = - g j i) ->
  Rsum (map (fun e => g (fst e) (snd e)) (mesh_edges fs)) = 0.
Proof.
  intros g fs C A.
  assert (P : Permutation (mesh_edges fs) (map swap (mesh_edges fs))).
  { apply (Permutation_count_occ edge_eq_dec). intros [i j]. rewrite count_swap.
    specialize (C i j). unfold net_edge in C. lia. }
  assert (E : Rsum (map (fun e => g (fst e) (snd e)) (mesh_edges fs)) =
              Rsum (map (fun e => - 1 * g (fst e) (snd e)) (mesh_edges fs))).
  { rewrite (Rsum_perm _ _ (Permutation_map (fun e => g (fst e) (snd e)) P)) at 1. rewrite map_map.
    apply Rsum_map_ext. intros [i j] _. cbn. rewrite A. ring. }
  rewrite Rsum_map_scale in E. lra.
Qed.

(** Sum over the edges of the triangles = sum over the edges of the faces. *)
Lemma triangle_edge_sum : forall (g : vec -> vec -> R) vs fs, (forall a b, g a b = - g b a) ->
  surface_sum (fun a b c => g a b + g b c + g c a) vs fs =
  Rsum (map (fun e => g (point vs (fst e)) (point vs (snd e))) (mesh_edges fs)).
Proof.
  intros g vs fs A. assert (Z : forall a, g a a = 0) by (intros a; pose proof (A a a); lra).
  unfold surface_sum, mesh_triangles, mesh_edges. induction fs as [|f fs IH]; auto.
  change (flat_map face_triangles (f :: fs)) with (face_triangles f ++ flat_map face_triangles fs).
  change (flat_map face_edges (f :: fs)) with (face_edges f ++ flat_map face_edges fs).
  rewrite !map_app, !Rsum_app, IH.
  assert (E : Rsum (map (fun t => let '(a, b, c) := t in g (point vs a) (point vs b) + g (point vs b) (point vs c) + g (point vs c) (point vs a)) (face_triangles f)) =
     Rsum (map (fun e => g (point vs (fst e)) (point vs (snd e))) (face_edges f))); [|rewrite E; auto].
  destruct (is_triangle f) eqn:T.
  - rewrite face_triangles_tri by auto. apply is_triangle_true in T. unfold face_edges. cbn. rewrite <- T, Z. ring.
  - rewrite face_triangles_quad by auto. unfold face_edges. cbn. rewrite (A (point vs (f2 f)) (point vs (f0 f))). ring.
Qed.
Lemma closed_triangle_edges : forall (g : vec -> vec -> R) vs fs, closed_surface fs -> (forall a b, g a b = - g b a) ->
  surface_sum (fun a b c => g a b + g b c + g c a) vs fs = 0.
Proof.
  intros g vs fs C A. rewrite triangle_edge_sum by auto.
  apply (closed_edge_sum (fun i j => g (point vs i) (point vs j))); auto.
Qed.

Lemma signed_volume_apex : forall m o, closed_surface (faces m) -> signed_volume o m = signed_volume vzero m.
Proof.
  intros m o C. unfold signed_volume.
  rewrite (surface_sum_ext (tetra o) (fun a b c => tetra vzero a b c +
     (- / 6 * dot o (cross a b) + - / 6 * dot o (cross b c) + - / 6 * dot o (cross c a)))).
  - rewrite surface_sum_add. rewrite (closed_triangle_edges (fun a b => - / 6 * dot o (cross a b))); auto; [lra|].
    intros. vunfold. ring.
  - intros. unfold tetra. vunfold. field.
Qed.

(** ** Inertia of plain bodies: divergence theorem on closed meshes *)
Lemma tflux_edges : forall sel a b, selection sel -> tflux sel vzero a b = vopp (tflux sel vzero b a).
Proof.
  intros sel a b S. unfold selection in S.
  decompose [or] S; subst; apply vec_eq; geo; field.
Qed.
Definition edge_ring (sel : integrals -> vec) (a b c : vec) : vec :=
  vadd (vadd (tflux sel vzero a b) (tflux sel vzero b c)) (tflux sel vzero c a).

Definition cone1 (p : vec -> R) (a b c : vec) : R := dot a (cross b c) * (p a + p b + p c) / 24.
Definition cone2 (p q : vec -> R) (a b c : vec) : R := dot a (cross b c) * tet2 (p a) (p b) (p c) (q a) (q b) (q c).

Lemma tflux6 : forall a b c, tflux i6 a b c =
  vadd (vscale 2 (V3 (cone1 vx a b c) (cone1 vy a b c) (cone1 vz a b c))) (edge_ring i6 a b c).
Proof. intros. unfold cone1, edge_ring. apply vec_eq; geo; field. Qed.
Lemma tflux9 : forall a b c, tflux i9 a b c =
  vadd (vscale 3 (V3 (cone2 vx vx a b c) (cone2 vy vy a b c) (cone2 vz vz a b c))) (edge_ring i9 a b c).
Proof. intros. unfold cone2, tet2, edge_ring. apply vec_eq; geo; field. Qed.
Lemma tflux12 : forall a b c, tflux i12 a b c =
  vadd (vscale 2 (V3 (cone2 vx vy a b c) (cone2 vy vz a b c) (cone2 vz vx a b c))) (edge_ring i12 a b c).
Proof. intros. unfold cone2, tet2, edge_ring. apply vec_eq; geo; field. Qed.

Lemma edge_ring_zero : forall sel (p : vec -> R) m, selection sel -> (p = vx \/ p = vy \/ p = vz) ->
  closed_surface (faces m) -> surface_sum (fun a b c => p (edge_ring sel a b c)) (verts m) (faces m) = 0.
Proof.
  intros sel p m S P C. rewrite (surface_sum_ext _ (fun a b c =>
    p (tflux sel vzero a b) + p (tflux sel vzero b c) + p (tflux sel vzero c a))).
  - apply (closed_triangle_edges (fun a b => p (tflux sel vzero a b))); auto.
    intros. rewrite (tflux_edges sel a b) by auto. destruct P as [-> | [-> | ->]]; cbn; ring.
  - intros. unfold edge_ring. destruct P as [-> | [-> | ->]]; cbn; ring.
Qed.

(** Functions of the edges that appear in the integrals cancel. *)
Definition rings_vanish (m : mesh) : Prop := forall sel (p : vec -> R), selection sel -> (p = vx \/ p = vy \/ p = vz) ->
  surface_sum (fun a b c => p (edge_ring sel a b c)) (verts m) (faces m) = 0.
Lemma tsum_split : forall sel k (ex : vec -> vec -> vec -> vec) m, selection sel -> rings_vanish m ->
  (forall a b c, tflux sel a b c = vadd (vscale k (ex a b c)) (edge_ring sel a b c)) ->
  tsum (tflux sel) m = vscale k (tsum ex m).
Proof.
  intros sel k ex m S C H. unfold tsum. apply vec_eq; cbn [vx vy vz vscale]; rewrite <- surface_sum_scale.
  - rewrite (surface_sum_ext _ (fun a b c => k * vx (ex a b c) + vx (edge_ring sel a b c))) by (intros; rewrite H; reflexivity).
    rewrite surface_sum_add, C; auto. ring.
  - rewrite (surface_sum_ext _ (fun a b c => k * vy (ex a b c) + vy (edge_ring sel a b c))) by (intros; rewrite H; reflexivity).
    rewrite surface_sum_add, C; auto. ring.
  - rewrite (surface_sum_ext _ (fun a b c => k * vz (ex a b c) + vz (edge_ring sel a b c))) by (intros; rewrite H; reflexivity).
    rewrite surface_sum_add, C; auto. ring.
Qed.

Lemma plain_inertia_rings : forall rho m, valid m -> flat_mesh m -> rings_vanish m ->
  let S phi := surface_sum phi (verts m) (faces m) in
  let V := signed_volume vzero m in V <> 0 ->
  eval_plain_mesh_inertias rho m = Ok (rigid_new (rho * V)
    (V3 (S (cone1 vx) / V) (S (cone1 vy) / V) (S (cone1 vz) / V))
    (rho * (S (cone2 vy vy) + S (cone2 vz vz))) (rho * (S (cone2 vx vx) + S (cone2 vz vz)))
    (rho * (S (cone2 vx vx) + S (cone2 vy vy)))
    (rho * S (cone2 vy vz)) (rho * S (cone2 vz vx)) (rho * S (cone2 vx vy)) (Some vzero)).
Proof.
  intros rho m Vm F C S V NZ. unfold eval_plain_mesh_inertias.
  pose proof (volume_exact m Vm F) as E. unfold volume in E. rewrite faces_integrals_ok, faces_properties_ok in * by auto.
  simpl in *. unfold plain_inertia_with. rewrite E. simpl.
  rewrite !flux_tsum by (auto; unfold selection; auto).
  rewrite (tsum_split i6 _ _ m (or_intror (or_introl eq_refl)) C tflux6),
    (tsum_split i9 _ _ m (or_intror (or_intror (or_introl eq_refl))) C tflux9),
    (tsum_split i12 _ _ m (or_intror (or_intror (or_intror eq_refl))) C tflux12).
  unfold tsum. cbn [vx vy vz vscale vdiv].
  change (surface_sum (fun a b c => cone1 vx a b c) (verts m) (faces m)) with (S (cone1 vx)).
  change (surface_sum (fun a b c => cone1 vy a b c) (verts m) (faces m)) with (S (cone1 vy)).
  change (surface_sum (fun a b c => cone1 vz a b c) (verts m) (faces m)) with (S (cone1 vz)).
  change (surface_sum (fun a b c => cone2 vx vx a b c) (verts m) (faces m)) with (S (cone2 vx vx)).
  change (surface_sum (fun a b c => cone2 vy vy a b c) (verts m) (faces m)) with (S (cone2 vy vy)).
  change (surface_sum (fun a b c => cone2 vz vz a b c) (verts m) (faces m)) with (S (cone2 vz vz)).
  change (surface_sum (fun a b c => cone2 vx vy a b c) (verts m) (faces m)) with (S (cone2 vx vy)).
  change (surface_sum (fun a b c => cone2 vy vz a b c) (verts m) (faces m)) with (S (cone2 vy vz)).
  change (surface_sum (fun a b c => cone2 vz vx a b c) (verts m) (faces m)) with (S (cone2 vz vx)).
  fold V. clearbody V S.
  unfold rigid_new. f_equal. 
  f_equal; [apply vec_eq; cbn [vx vy vz vdiv vscale]; field; auto | apply mat_eq; cbn [m00 m01 m02 m10 m11 m12 m20 m21 m22]; field].
Qed.

Lemma closed_rings : forall m, closed_surface (faces m) -> rings_vanish m.
Proof. intros m C sel p S P. apply edge_ring_zero; auto. Qed.
Lemma plain_inertia_sums : forall rho m, valid m -> flat_mesh m -> closed_surface (faces m) ->
  let S phi := surface_sum phi (verts m) (faces m) in
  let V := signed_volume vzero m in V <> 0 ->
  eval_plain_mesh_inertias rho m = Ok (rigid_new (rho * V)
    (V3 (S (cone1 vx) / V) (S (cone1 vy) / V) (S (cone1 vz) / V))
    (rho * (S (cone2 vy vy) + S (cone2 vz vz))) (rho * (S (cone2 vx vx) + S (cone2 vz vz)))
    (rho * (S (cone2 vx vx) + S (cone2 vy vy)))
    (rho * S (cone2 vy vz)) (rho * S (cone2 vz vx)) (rho * S (cone2 vx vy)) (Some vzero)).
Proof. intros rho m V F C. apply plain_inertia_rings; auto using closed_rings. Qed.

(** The sums are the exact integrals over the signed tetrahedra. *)
Lemma cone_sum : forall phi ex m,
  (forall a b c, is_cone_integral phi a b c (ex a b c)) ->
  is_mesh_volume_integral phi m (surface_sum ex (verts m) (faces m)).
Proof.
  intros phi ex m H. unfold is_mesh_volume_integral, is_triangles_integral, surface_sum, point_triangles.
  exists (map (fun t => let '(a, b, c) := t in ex (point (verts m) a) (point (verts m) b) (point (verts m) c))
          (mesh_triangles (faces m))). split; auto.
  induction (mesh_triangles (faces m)) as [|[[i j] k] l IH]; simpl; constructor; auto.
Qed.
Lemma surface_integral_sum : forall phi ex m,
  (forall a b c, is_surface_integral phi a b c (ex a b c)) ->
  is_mesh_surface_integral phi m (surface_sum ex (verts m) (faces m)).
Proof.
  intros phi ex m H. unfold is_mesh_surface_integral, is_triangles_integral, surface_sum, point_triangles.
  exists (map (fun t => let '(a, b, c) := t in ex (point (verts m) a) (point (verts m) b) (point (verts m) c))
          (mesh_triangles (faces m))). split; auto.
  induction (mesh_triangles (faces m)) as [|[[i j] k] l IH]; simpl; constructor; auto.
Qed.

Lemma coordinate_linear : forall p, coordinate p -> forall u v w a b c,
  p (vadd (vscale u a) (vadd (vscale v b) (vscale w c))) = u * p a + (v * p b + w * p c).
Proof. intros p [-> | [-> | ->]] *; reflexivity. Qed.
Lemma coordinate_affine : forall p, coordinate p -> forall u v a b c,
  p (triangle_point a b c u v) = p a + (u * (p b - p a) + v * (p c - p a)).
Proof. intros p [-> | [-> | ->]] *; reflexivity. Qed.

Lemma cone0_exact : forall a b c, is_cone_integral (fun _ => 1) a b c (tetra vzero a b c).
Proof.
  intros. unfold is_cone_integral.
  eapply tetra_ext; [| |apply (tet2_int (dot a (cross b c)) 0 0 0 0 0 0 0 0)].
  - intros. cbv beta. ring.
  - unfold tetra. replace (vsub a vzero) with a by vring. replace (vsub b vzero) with b by vring.
    replace (vsub c vzero) with c by vring. unfold tet2. field.
Qed.
Lemma cone1_exact : forall p a b c, coordinate p -> is_cone_integral p a b c (cone1 p a b c).
Proof.
  intros. unfold is_cone_integral.
  eapply tetra_ext; [| |apply (tet2_int 0 (dot a (cross b c)) 0 (p a) (p b) (p c) 0 0 0)].
  - intros. cbv beta. rewrite coordinate_linear by auto. ring.
  - unfold cone1, tet2. field.
Qed.
Lemma cone2_exact : forall p q a b c, coordinate p -> coordinate q ->
  is_cone_integral (fun v => p v * q v) a b c (cone2 p q a b c).
Proof.
  intros. unfold is_cone_integral.
  eapply tetra_ext; [| |apply (tet2_int 0 0 (dot a (cross b c)) (p a) (p b) (p c) (q a) (q b) (q c))].
  - intros. cbv beta. rewrite !coordinate_linear by auto. ring.
  - unfold cone2, tet2. field.
Qed.

(** ** Exact surface integrals *)
Definition surf (ex : vec -> vec -> vec -> R) (a b c : vec) : R := norm (triangle_normal a b c) * ex a b c.
Definition e0 (a b c : vec) : R := / 2.
Definition e1' (p : vec -> R) (a b c : vec) : R := q1 (p a) (p b) (p c).
Definition e2 (p q : vec -> R) (a b c : vec) : R :=
  ((p a + p b + p c) * (q a + q b + q c) + (p a * q a + p b * q b + p c * q c)) / 24.
Definition e3 (p q r : vec -> R) (a b c : vec) : R :=
  tri3 (p a) (p b) (p c) (q a) (q b) (q c) (r a) (r b) (r c).
Lemma surf3_exact : forall p q r a b c, coordinate p -> coordinate q -> coordinate r ->
  is_surface_integral (fun v => p v * q v * r v) a b c (surf (e3 p q r) a b c).
Proof.
  intros. unfold is_surface_integral. 
  set (J := triangle_jacobian a b c).
  eapply triangle_ext; [| |apply (tri3_int (J * p a) (J * p b) (J * p c) (q a) (q b) (q c) (r a) (r b) (r c))].
  - intros. cbv beta. rewrite !coordinate_affine by auto. ring.
  - unfold surf. change (norm (triangle_normal a b c)) with J. unfold e3, tri3. field.
Qed.
Lemma surf2_exact : forall p q a b c, coordinate p -> coordinate q ->
  is_surface_integral (fun v => p v * q v) a b c (surf (e2 p q) a b c).
Proof.
  intros. unfold is_surface_integral. 
  set (J := triangle_jacobian a b c).
  eapply triangle_ext; [| |apply (tri3_int (J * p a) (J * p b) (J * p c) (q a) (q b) (q c) 1 1 1)].
  - intros. cbv beta. rewrite !coordinate_affine by auto. ring.
  - unfold surf. change (norm (triangle_normal a b c)) with J. unfold e2, tri3. field.
Qed.
Lemma surf1_exact : forall p a b c, coordinate p -> is_surface_integral p a b c (surf (e1' p) a b c).
Proof.
  intros. unfold is_surface_integral. 
  set (J := triangle_jacobian a b c).
  eapply triangle_ext; [| |apply (tri3_int (J * p a) (J * p b) (J * p c) 1 1 1 1 1 1)].
  - intros. cbv beta. rewrite !coordinate_affine by auto. ring.
  - unfold surf. change (norm (triangle_normal a b c)) with J. unfold e1', q1, tri3. field.
Qed.
Lemma surf0_exact : forall a b c, is_surface_integral (fun _ => 1) a b c (surf e0 a b c).
Proof.
  intros. unfold is_surface_integral. 
  set (J := triangle_jacobian a b c).
  eapply triangle_ext; [| |apply (tri3_int J J J 1 1 1 1 1 1)].
  - intros. cbv beta. ring.
  - unfold surf. change (norm (triangle_normal a b c)) with J. unfold e0, tri3. field.
Qed.
