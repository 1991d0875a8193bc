(** Properties C121-C124: what double precision does to merging, mirrors, planes and displacements (meshmagick/tools.py,
    meshmagick/mesh.py). *)
From Coq Require Import Reals Lra Lia List Arith Bool ZArith.
From Flocq Require Import Core.
From Verif Require Import M_base M_rotations M_merge M_plane M_mesh S_merge S_mesh S_geometry P_base P_merge P_mesh M_double S_double
  P_double P_double2 P_double3 P_double4 P_double5 P_double6 T_merge T_mesh.
Import ListNotations.
Open Scope R_scope.

(** ** C121: merging *)
(** In double precision the result is that of exact arithmetic, for a tolerance at most half a unit in the last place larger. *)
Theorem C121_merge : forall argsort A (cols : list (A -> R)) arr atol, double atol -> smallest <= atol ->
  exists t, atol <= t <= atol * (1 + ulp1) /\ merge_double argsort atol cols arr = merge_duplicate_rows argsort t cols arr.
Proof. exact merge_widened. Qed.
Theorem C121_within : forall argsort A (cols : list (A -> R)) arr atol, sorting argsort -> double atol -> smallest <= atol -> arr <> [] ->
  exists uniq ids, merge_double argsort atol cols arr = Ok (uniq, ids) /\ merged cols (atol * (1 + ulp1)) arr uniq ids.
Proof.
  intros argsort A cols arr atol S D L N. destruct (merge_widened argsort A cols arr atol D L) as (t & [T1 T2] & ->).
  pose proof smallest_pos. destruct (merge_merged argsort S t ltac:(lra) A cols arr N) as (uq & ids & E & [M1 M2 M3 M4 M5]).
  exists uq, ids. split; auto.
  assert (W : forall r s, within cols t r s -> within cols (atol * (1 + ulp1)) r s) by (intros r s W c C; specialize (W c C); lra).
  split; auto.
  - intros i r I. destruct (M3 i r I) as (k & s & K1 & K2 & K3). exists k, s. auto.
  - intros i j r s k I J KI KJ. apply W. eauto.
Qed.
Theorem C121_duplicates : forall argsort A (cols : list (A -> R)) arr atol uniq ids i j r s,
  sorting argsort -> double atol -> smallest <= atol -> merge_double argsort atol cols arr = Ok (uniq, ids) ->
  nth_error arr i = Some r -> nth_error arr j = Some s -> same_row cols r s -> nth_error ids i = nth_error ids j.
Proof.
  intros argsort A cols arr atol uniq ids i j r s S D L M I J R.
  destruct (merge_widened argsort A cols arr atol D L) as (t & [T1 T2] & E). rewrite E in M. pose proof smallest_pos.
  exact (C02_duplicates_merged argsort t A cols arr uniq ids i j r s S ltac:(lra) M I J R).
Qed.
(** Rows within the tolerance in exact arithmetic are never told apart by a rounding: clusters are merged as in exact arithmetic. *)
Theorem C121_clusters : forall argsort A (cols : list (A -> R)) arr atol uniq ids i j r s,
  sorting argsort -> double atol -> smallest <= atol ->
  (forall c a b, In c cols -> In a arr -> In b arr -> Rabs (c a - c b) <= atol \/ atol * (1 + ulp1) < Rabs (c a - c b)) ->
  (forall c a b d, In c cols -> In a arr -> In b arr -> In d arr ->
     Rabs (c a - c b) <= atol -> Rabs (c b - c d) <= atol -> Rabs (c a - c d) <= atol) ->
  merge_double argsort atol cols arr = Ok (uniq, ids) ->
  nth_error arr i = Some r -> nth_error arr j = Some s ->
  (nth_error ids i = nth_error ids j <-> within cols atol r s).
Proof.
  intros argsort A cols arr atol uniq ids i j r s S D L G T M I J.
  destruct (merge_widened argsort A cols arr atol D L) as (t & [T1 T2] & E). rewrite E in M. pose proof smallest_pos.
  assert (K : forall c a b, In c cols -> In a arr -> In b arr -> (Rabs (c a - c b) <= t <-> Rabs (c a - c b) <= atol)).
  { intros c a b C IA IB. destruct (G c a b C IA IB); lra. }
  rewrite (C01_clusters_merged_exactly argsort t A cols arr uniq ids i j r s S ltac:(lra)); auto.
  - apply nth_error_In in I, J. split; intros W c C; apply (K c r s C I J); auto.
  - intros c a b d C IA IB ID. rewrite !K by auto. apply T; auto.
Qed.
Theorem C121_zero : forall argsort A (cols : list (A -> R)) arr,
  (forall r c, In r arr -> In c cols -> double (c r)) ->
  merge_double argsort 0 cols arr = merge_duplicate_rows argsort 0 cols arr.
Proof. exact merge_zero. Qed.
Theorem C121_grid : forall argsort A (cols : list (A -> R)) arr atol e, (-1074 <= e)%Z ->
  (forall r c, In r arr -> In c cols -> on_grid e (c r)) ->
  merge_double argsort atol cols arr = merge_duplicate_rows argsort atol cols arr.
Proof. exact merge_grid. Qed.
Theorem C121_mesh : forall argsort m, sorting argsort -> verts m <> [] -> valid m ->
  exists m', merge_duplicates_double argsort default_atol_double m = Ok m' /\ valid m' /\
    length (faces m') = length (faces m) /\
    forall k ps, face_points m k ps ->
      exists ps', face_points m' k ps' /\ Forall2 (near_point (1 / 100000000 * (1 + 3 * ulp1))) ps ps'.
Proof.
  intros argsort m S N V. destruct (default_mesh_widened argsort m) as (t & T & ->). apply Rabs_le_inv in T.
  pose proof ulp1_small. pose proof ulp1_pos.
  destruct (C04_merge_keeps_faces argsort t m S ltac:(lra) N V) as (m' & E & V' & L & F). exists m'. split; auto. split; auto. split; auto.
  intros k ps P. destruct (F k ps P) as (ps' & P' & Q). exists ps'. split; auto.
  clear - Q T H H0. induction Q as [|a b l l' X Q IH]; constructor; auto. destruct X as (X & Y & Z). unfold near_point. lra.
Qed.
(** Two rows farther apart than the tolerance are merged all the same. *)
Theorem C121_farther_refuted : exists (arr : list vec) atol, double atol /\ Forall double_vec arr /\
  forall argsort, sorting argsort ->
  exists uniq ids i j r s, merge_double argsort atol coords arr = Ok (uniq, ids) /\
    nth_error arr i = Some r /\ nth_error arr j = Some s /\ nth_error ids i = nth_error ids j /\ ~ within coords atol r s.
Proof.
  exists apart_pair, 1. split; [apply double_1|]. split.
  - repeat constructor; cbn [vx vy vz]; try apply double_0; [apply double_1|apply double_opp, grain_double].
  - intros argsort S. destruct (apart_merged argsort S) as (uq & ids & M & E).
    exists uq, ids, 0%nat, 1%nat, (V3 1 0 0), (V3 (- grain) 0 0). split; auto. split; auto. split; auto. split; auto.
    intros W. specialize (W vx (or_introl eq_refl)). cbn [vx] in W. unfold grain in W. rewrite Rabs_pos_eq in W; lra.
Qed.
Example C121_case : forall argsort, sorting argsort ->
  merge_double argsort 1 coords [V3 3 0 0; V3 0 0 0; V3 (7/2) 0 0] = merge_duplicate_rows argsort 1 coords [V3 3 0 0; V3 0 0 0; V3 (7/2) 0 0].
Proof.
  intros argsort S. apply (C121_grid argsort vec coords _ 1 (-1)); [lia|]. intros r c R C. cbn in R, C.
  destruct R as [<-|[<-|[<-|[]]]]; destruct C as [<-|[<-|[<-|[]]]]; cbn [vx vy vz];
    [exists 6%Z|exists 0%Z|exists 0%Z|exists 0%Z|exists 0%Z|exists 0%Z|exists 7%Z|exists 0%Z|exists 0%Z]; (split; [lia|]); change (powerRZ 2 (-1)) with (/ (2 * 1)); lra.
Qed.

(** ** C122: mirrors and symmetries *)
(** Planes of the axes are stored without error, mirrors on them move vertices without error, and twice is back. *)
Theorem C122_normal : forall fdot n, computes_dot fdot -> axis_normal n -> normalize_double fdot n = n.
Proof. exact axis_normalize. Qed.
Theorem C122_mirror : forall fdot p m, computes_dot fdot -> axis_normal (p_normal p) -> p_scalar p = 0 ->
  Forall double_vec (verts m) -> mirror_double fdot p m = mirror p m.
Proof. exact axis_mirror. Qed.
Theorem C122_mirror_twice : forall fdot p m, computes_dot fdot -> axis_normal (p_normal p) -> p_scalar p = 0 ->
  Forall double_vec (verts m) -> mirror_double fdot p (mirror_double fdot p m) = m.
Proof.
  intros fdot p m C A S D. rewrite (axis_mirror fdot p m C A S D), (axis_mirror fdot p _ C A S).
  - apply C10_mirror_involution. destruct A as (s & SS & [-> | [-> | ->]]); unfold S_geometry.unit, dot; cbn; destruct SS; subst; ring.
  - unfold mirror, flip_normals. cbn. apply Forall_map. eapply Forall_impl; [|exact D]. intros v V. apply axis_reflect_double; auto.
Qed.
(** Symmetrized meshes have every face in place and its mirror image, as in exact arithmetic. *)
Theorem C122_symmetrize : forall argsort fdot p m, sorting argsort -> computes_dot fdot -> axis_normal (p_normal p) -> p_scalar p = 0 ->
  Forall double_vec (verts m) -> valid m -> verts m <> [] ->
  exists m', symmetrize_double argsort fdot p m = Ok m' /\ valid m' /\ length (faces m') = (2 * length (faces m))%nat /\
    forall k ps, face_points m k ps ->
      (exists ps', face_points m' k ps' /\ Forall2 (near_point (1 / 100000000 * (1 + 3 * ulp1))) ps ps') /\
      (exists ps', face_points m' (length (faces m) + k) ps' /\
         Forall2 (near_point (1 / 100000000 * (1 + 3 * ulp1))) (rev (map (reflect p) ps)) ps').
Proof.
  intros argsort fdot p m S C A S0 D V N.
  assert (E : symmetrize_double argsort fdot p m = merge_duplicates_double argsort default_atol_double (symmetrize_concat p m)).
  { unfold symmetrize_double, symmetrize_concat. f_equal. f_equal. f_equal. apply map_ext_in. intros v I.
    apply axis_reflect; auto. rewrite Forall_forall in D. auto. }
  rewrite E. clear E.
  assert (V' : valid (symmetrize_concat p m)) by (apply valid_symmetrize; auto).
  destruct (C121_mesh argsort (symmetrize_concat p m) S) as (m' & E & VM & L & F); auto.
  { unfold symmetrize_concat. cbn. destruct (verts m); [congruence|discriminate]. }
  exists m'. split; auto. split; auto. split.
  - rewrite L. unfold symmetrize_concat. cbn [faces]. rewrite app_length, map_length. lia.
  - intros k ps P. destruct (symmetrize_points p m k ps V P) as [P1 P2]. split; apply F; auto.
Qed.
(** On any other plane, each coordinate is within 71 half units of the largest coordinate. *)
Theorem C122_error : forall fdot p L v, computes_dot fdot -> smallest <= L -> bounded 1 (p_normal p) -> Rabs (p_scalar p) <= L ->
  bounded L v -> bounded (71 * (ulp1 * L)) (vsub (reflect_double fdot p v) (reflect p v)).
Proof. exact reflect_error. Qed.
(** Two mirrors do not give the mesh back when the plane is away from the origin. *)
Theorem C122_twice_refuted : exists p v, axis_normal (p_normal p) /\ double (p_scalar p) /\ double_vec v /\
  forall fdot, computes_dot fdot -> reflect_double fdot p (reflect_double fdot p v) <> v.
Proof.
  exists (mkPlane (V3 0 1 0) 1 mid), (V3 0 grain 0).
  assert (A : axis_normal (V3 0 1 0)) by (exists 1; auto).
  split; [exact A|]. split; [apply double_1|]. split; [repeat split; cbn [vx vy vz]; try apply double_0; apply grain_double|].
  intros fdot C E.
  assert (R1 : reflect_double fdot (mkPlane (V3 0 1 0) 1 mid) (V3 0 grain 0) = V3 0 2 0).
  { unfold reflect_double, plane_dist_double. cbn [p_normal p_scalar]. rewrite (axis_dot fdot _ _ C) by
      (auto; repeat split; cbn [vx vy vz]; try apply double_0; apply grain_double).
    unfold dot, fsub, fmul. cbn [vx vy vz]. replace (0 * 0 + grain * 1 + 0 * 0 - 1) with (- (1 - grain)) by ring.
    rewrite fl_opp, fl_one_less_grain, Rmult_0_r, fl_0, Rmult_0_r, fl_0, Rminus_0_r, fl_0.
    replace (- (1) * 1) with (-1) by ring. rewrite (double_fl (-1)) by (apply (double_IZR (-1)); lia).
    replace (2 * -1) with (-2) by ring. rewrite (double_fl (-2)) by (apply (double_IZR (-2)); lia).
    replace (grain - -2) with (2 + grain) by ring. rewrite fl_two_grain. reflexivity. }
  rewrite R1 in E. unfold reflect_double, plane_dist_double in E. cbn [p_normal p_scalar] in E. rewrite (axis_dot fdot _ _ C) in E by
      (auto; repeat split; cbn [vx vy vz]; try apply double_0; apply double_2).
  unfold dot, fsub, fmul in E. cbn [vx vy vz] in E. injection E as _ E _.
  replace (0 * 0 + 2 * 1 + 0 * 0 - 1) with 1 in E by ring. rewrite (double_fl 1 double_1), Rmult_1_r, (double_fl 1 double_1), Rmult_1_r, (double_fl 2 double_2) in E.
  replace (2 - 2) with 0 in E by ring. rewrite fl_0 in E. unfold grain in E. lra.
Qed.
Example C122_case : axis_normal (V3 0 (-1) 0) /\ Forall double_vec (verts house) /\ computes_dot plain_dot.
Proof.
  split; [exists (-1); auto|]. split; [|apply sums_plain_dot].
  assert (H : double (1 / 2)) by (exists 1%Z, (-1)%Z; split; [lia|]; split; [lia|]; change (powerRZ 2 (-1)) with (/ (2 * 1)); lra).
  repeat constructor; cbn; try apply double_0; try apply double_1; try apply double_2; auto.
Qed.

(** ** C123: planes and edges *)
Theorem C123_normal : forall fdot v, computes_dot fdot -> double_vec v ->
  (exists x, (x = vx v \/ x = vy v \/ x = vz v) /\ powerRZ 2 (-511) <= Rabs x) ->
  bounded 1 (normalize_double fdot v) /\ bounded (25 * ulp1) (vsub (normalize_double fdot v) (normalize v)).
Proof. exact normalize_error. Qed.
Theorem C123_distance : forall fdot p L v, computes_dot fdot -> smallest <= L -> bounded 1 (p_normal p) -> Rabs (p_scalar p) <= L ->
  bounded L v -> Rabs (plane_dist_double fdot p v - plane_dist p v) <= 23 * (ulp1 * L).
Proof. exact plane_dist_error. Qed.
(** The end points being on both sides by more than rounding errors, the intersection is found, next to the edge and to the plane. *)
Theorem C123_intersection : forall fdot p L a b, computes_dot fdot -> smallest <= L -> bounded 1 (p_normal p) -> Rabs (p_scalar p) <= L ->
  double (p_scalar p) -> bounded L a -> bounded L b ->
  (plane_dist p b < - (17 * (ulp1 * L)) /\ 17 * (ulp1 * L) < plane_dist p a \/
   plane_dist p a < - (17 * (ulp1 * L)) /\ 17 * (ulp1 * L) < plane_dist p b) ->
  exists t x, get_edge_intersection_double fdot p a b = Ok (Some x) /\ 0 <= t <= 1 /\
    bounded (14 * (ulp1 * L)) (vsub x (vadd (vscale (1 - t) a) (vscale t b))) /\ Rabs (plane_dist p x) <= 90 * (ulp1 * L).
Proof. exact intersection_ok. Qed.
(** Edges between vertices that the clipper sees on both sides of the plane, at distances computed in any way, can be cut. *)
Theorem C123_clipped_edge : forall fdot fdot' p L tol a b, computes_dot fdot -> computes_dot fdot' -> smallest <= L ->
  bounded 1 (p_normal p) -> Rabs (p_scalar p) <= L -> double (p_scalar p) -> bounded L a -> bounded L b ->
  40 * (ulp1 * L) <= tol -> plane_dist_double fdot' p b < - tol -> tol < plane_dist_double fdot' p a ->
  exists x y, get_edge_intersection_double fdot p a b = Ok (Some x) /\ get_edge_intersection_double fdot p b a = Ok (Some y) /\
    Rabs (plane_dist p x) <= 90 * (ulp1 * L) /\ Rabs (plane_dist p y) <= 90 * (ulp1 * L).
Proof.
  intros fdot fdot' p L tol a b C C' S N B D HA HB T PB PA. pose proof (uQ_pos L S) as W.
  pose proof (plane_dist_error fdot' p L a C' S N B HA) as EA. pose proof (plane_dist_error fdot' p L b C' S N B HB) as EB.
  apply Rabs_le_inv in EA, EB.
  destruct (intersection_ok fdot p L a b C S N B D HA HB) as (t & x & E & _ & _ & X); [left; lra|].
  destruct (intersection_ok fdot p L b a C S N B D HB HA) as (t' & y & E' & _ & _ & Y); [right; lra|].
  exists x, y. auto.
Qed.
(** For instance with coordinates up to 10^10 and the default tolerance of the clipper. *)
Example C123_case : let p := mkPlane (V3 0 0 1) 0 mid in let L := 10000000000 in
  smallest <= L /\ bounded 1 (p_normal p) /\ 40 * (ulp1 * L) <= 1 / 1000 /\
  plane_dist_double plain_dot p (V3 5 1 (-2)) < - (1 / 1000) /\ 1 / 1000 < plane_dist_double plain_dot p (V3 4 3 1).
Proof.
  intros p L. pose proof one_large. pose proof ulp1_small. unfold L.
  split; [lra|]. split; [unfold bounded; cbn; rewrite Rabs_R0, Rabs_R1; lra|]. split; [lra|].
  assert (A : axis_normal (V3 0 0 1)) by (exists 1; auto).
  assert (DD : forall x y z, (Z.abs x < 2 ^ 53)%Z -> (Z.abs y < 2 ^ 53)%Z -> (Z.abs z < 2 ^ 53)%Z ->
    plane_dist_double plain_dot p (V3 (IZR x) (IZR y) (IZR z)) = IZR z).
  { intros x y z X Y Z. unfold plane_dist_double, p. cbn [p_normal p_scalar]. rewrite (axis_dot plain_dot _ _ sums_plain_dot); auto.
    - unfold dot, fsub. cbn [vx vy vz]. replace (IZR x * 0 + IZR y * 0 + IZR z * 1 - 0) with (IZR z) by ring. apply double_fl, double_IZR. auto.
    - repeat split; apply double_IZR; auto. }
  rewrite (DD 5 1 (-2))%Z, (DD 4 3 1)%Z by lia. lra.
Qed.

(** ** C124: translations and scalings *)
Theorem C124_translate : forall t m v w i, double_vec t -> Forall double_vec (verts m) ->
  nth_error (verts m) i = Some v -> nth_error (verts (translate_double t m)) i = Some w ->
  double_vec w /\ Rabs (vx w - (vx v + vx t)) <= ulp1 * Rabs (vx v + vx t) /\ Rabs (vy w - (vy v + vy t)) <= ulp1 * Rabs (vy v + vy t) /\
  Rabs (vz w - (vz v + vz t)) <= ulp1 * Rabs (vz v + vz t).
Proof.
  intros t m v w i (TX & TY & TZ) D V W. unfold translate_double in W. cbn in W. rewrite nth_error_map, V in W. injection W as <-.
  rewrite Forall_forall in D. apply nth_error_In in V. destruct (D v V) as (VX & VY & VZ). cbn [vx vy vz].
  split; [repeat split; apply fl_double|]. repeat split; apply fl_error_add; auto.
Qed.
Theorem C124_there_and_back : forall t m v w i, double_vec t -> Forall double_vec (verts m) ->
  nth_error (verts m) i = Some v -> nth_error (verts (translate_double (vopp t) (translate_double t m))) i = Some w ->
  Rabs (vx w - vx v) <= 3 * ulp1 * (Rabs (vx v) + Rabs (vx t)) /\ Rabs (vy w - vy v) <= 3 * ulp1 * (Rabs (vy v) + Rabs (vy t)) /\
  Rabs (vz w - vz v) <= 3 * ulp1 * (Rabs (vz v) + Rabs (vz t)).
Proof.
  intros t m v w i (TX & TY & TZ) D V W. unfold translate_double in W. cbn in W. rewrite !nth_error_map, V in W. injection W as <-.
  rewrite Forall_forall in D. apply nth_error_In in V. destruct (D v V) as (VX & VY & VZ). cbn [vx vy vz].
  repeat split; apply back_error; auto.
Qed.
Theorem C124_grid : forall e t m, (-1074 <= e)%Z -> on_grid e (vx t) -> on_grid e (vy t) -> on_grid e (vz t) ->
  Forall (fun v => on_grid e (vx v) /\ on_grid e (vy v) /\ on_grid e (vz v)) (verts m) -> translate_double t m = translate t m.
Proof. exact grid_translate. Qed.
Theorem C124_back_refuted : exists t m, double_vec t /\ Forall double_vec (verts m) /\ valid m /\ 
  translate_double (vopp t) (translate_double t m) <> m.
Proof.
  exists (V3 1 0 0), (mkMesh [V3 grain 0 0] []). split; [repeat split; cbn [vx vy vz]; try apply double_0; apply double_1|].
  split; [repeat constructor; cbn [vx vy vz]; try apply double_0; apply grain_double|]. split; [constructor|].
  unfold translate_double, fadd. cbn [verts faces map vx vy vz vopp]. intros E. injection E as E _ _.
  rewrite (Rplus_comm grain 1), fl_one_grain in E. replace (1 + - (1)) with 0 in E by ring. rewrite fl_0 in E. unfold grain in E. lra.
Qed.
Theorem C124_scale : forall a m m' v w i, 0 < a -> scale_double a m = Ok m' ->
  nth_error (verts m) i = Some v -> nth_error (verts m') i = Some w ->
  (smallest <= Rabs (vx v * a) -> Rabs (vx w - vx v * a) <= ulp1 * Rabs (vx v * a)) /\
  (smallest <= Rabs (vy v * a) -> Rabs (vy w - vy v * a) <= ulp1 * Rabs (vy v * a)) /\
  (smallest <= Rabs (vz v * a) -> Rabs (vz w - vz v * a) <= ulp1 * Rabs (vz v * a)).
Proof.
  intros a m m' v w i A E V W. unfold scale_double in E. destruct (Rltb 0 a) eqn:Q; [|apply Rltb_le in Q; lra].
  injection E as <-. cbn in W. rewrite nth_error_map, V in W. injection W as <-. cbn [vx vy vz]. repeat split; apply fl_error_large.
Qed.
(** Scalings by powers of two are exact. *)
Theorem C124_scale_power : forall k m, (0 <= k)%Z -> Forall double_vec (verts m) -> scale_double (powerRZ 2 k) m = scale (powerRZ 2 k) m.
Proof. exact scale_power. Qed.
Example C124_case : Forall (fun v => on_grid (-1) (vx v) /\ on_grid (-1) (vy v) /\ on_grid (-1) (vz v)) (verts house).
Proof.
  assert (G : forall k, (Z.abs k <= 2 ^ 52)%Z -> on_grid (-1) (IZR k * (1 / 2))).
  { intros k K. exists k. split; auto. change (powerRZ 2 (-1)) with (/ (2 * 1)). lra. }
  assert (G0 : on_grid (-1) 0) by (replace 0 with (0 * (1 / 2)) by lra; apply (G 0%Z); lia).
  assert (G1 : on_grid (-1) 1) by (replace 1 with (2 * (1 / 2)) by lra; apply (G 2%Z); lia).
  assert (G2 : on_grid (-1) 2) by (replace 2 with (4 * (1 / 2)) by lra; apply (G 4%Z); lia).
  assert (GH : on_grid (-1) (1 / 2)) by (replace (1 / 2) with (1 * (1 / 2)) by lra; apply (G 1%Z); lia).
  repeat constructor; cbn; auto.
Qed.

Print Assumptions C121_merge.
Print Assumptions C121_within.
Print Assumptions C121_duplicates.
Print Assumptions C121_clusters.
Print Assumptions C121_zero.
Print Assumptions C121_grid.
Print Assumptions C121_mesh.
Print Assumptions C121_farther_refuted.
Print Assumptions C122_normal.
Print Assumptions C122_mirror.
Print Assumptions C122_mirror_twice.
Print Assumptions C122_symmetrize.
Print Assumptions C122_error.
Print Assumptions C122_twice_refuted.
Print Assumptions C123_normal.
Print Assumptions C123_distance.
Print Assumptions C123_intersection.
Print Assumptions C123_clipped_edge.
Print Assumptions C124_translate.
Print Assumptions C124_there_and_back.
Print Assumptions C124_grid.
Print Assumptions C124_back_refuted.
Print Assumptions C124_scale.
Print Assumptions C124_scale_power.
