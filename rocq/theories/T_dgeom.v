(** Property C125: areas, normals, centers and volumes in double precision (meshmagick/mesh.py). *)
From Coq Require Import Reals Lra Lia List Arith Bool ZArith.
From Verif Require Import M_base M_merge M_mesh M_geometry S_mesh S_geometry P_base P_mesh P_geometry P_volume M_double S_double P_double
  M_dgeom S_dgeom P_dgeom P_dgeom2 P_dgeom4 P_dgeom5 P_barge P_afloat P_hsbox.
Import ListNotations.
Open Scope R_scope.

(** Faces of any shape, whatever the order in which numpy adds: areas are as good as numbers of the size of L^2 allow. *)
Theorem C125_area : forall fsum L m, (forall j, adds (fsum j)) -> extent L m -> valid m ->
  exists props, faces_properties_double fsum m = Ok props /\ length props = length (faces m) /\
    forall j p f, nth_error props j = Some p -> nth_error (faces m) j = Some f ->
      Rabs (fp_area p - face_area (verts m) f) <= 250 * (ulp1 * (L * L)).
Proof.
  intros fsum L m A [S B] V. rewrite props_double_ok by auto. eexists. split; [reflexivity|]. split; [rewrite map_length, numbered_length; reflexivity|].
  intros j p f P F. rewrite nth_error_map, (numbered_nth _ _ _ _ F) in P. injection P as <-. cbn [fst snd]. apply area_near; auto.
Qed.
(** Normals and centers of faces that are large enough for the precision, against those of exact arithmetic. *)
Theorem C125_normal : forall fsum L m, (forall j, adds (fsum j)) -> extent L m -> valid m ->
  exists props exact, faces_properties_double fsum m = Ok props /\ faces_properties m = Ok exact /\
    forall j p e f, nth_error props j = Some p -> nth_error exact j = Some e -> nth_error (faces m) j = Some f -> wide L (verts m) f ->
      bounded (400 * (ulp1 * (L * L)) / face_area (verts m) f) (vsub (fp_normal p) (fp_normal e)) /\
      bounded (1500 * (ulp1 * (L * L * L)) / face_area (verts m) f) (vsub (fp_center p) (fp_center e)).
Proof.
  intros fsum L m A [S B] V. rewrite props_double_ok, faces_properties_ok by auto. eexists. eexists. split; [reflexivity|]. split; [reflexivity|].
  intros j p e f P E F [WA WN]. rewrite nth_error_map, (numbered_nth _ _ _ _ F) in P. injection P as <-. cbn [fst snd].
  rewrite nth_error_map, F in E. injection E as <-. pose proof (W_pos L S) as W0. pose proof (L_pos L S) as L0. pose proof ulp1_pos as U0.
  set (W := ulp1 * (L * L)) in *.
  assert (A0 : 0 < face_area (verts m) f) by lra.
  assert (MB : forall a b v, a <= b -> bounded a v -> bounded b v) by (unfold bounded; intros; lra).
  split.
  - eapply MB; [|apply (face_normal_near L S (fsum j) (verts m) f (A j) B); fold W; lra]. fold W.
    unfold Rdiv. rewrite Rmult_assoc. apply Rmult_le_compat_l; [lra|]. apply Rmult_le_compat_l; [lra|]. apply Rinv_le_contravar; auto.
  - destruct (is_triangle f) eqn:T.
    + eapply MB; [|apply (triangle_center_near L S (fsum j) (verts m) f (A j) B T)].
      pose proof (triangle_area_le L (verts m) f S B T) as Q.
      replace (1500 * (ulp1 * (L * L * L)) / face_area (verts m) f) with (ulp1 * L * (1500 * (L * L) * / face_area (verts m) f)) by (unfold Rdiv; ring).
      replace (9 * (ulp1 * L)) with (ulp1 * L * 9) by ring. apply Rmult_le_compat_l; [apply Rmult_le_pos; lra|].
      apply (Rmult_le_reg_r (face_area (verts m) f)); [auto|]. rewrite Rmult_assoc, Rinv_l by lra. assert (0 < L * L) by (apply Rmult_lt_0_compat; lra). lra.
    + eapply MB; [|apply (quad_center_near L S (fsum j) (verts m) f (A j) B T); fold W; lra]. unfold Rdiv. lra.
Qed.
(** Planar convex faces are not folded: it is enough that their area is above the limit. *)
Theorem C125_planar : forall L m, flat_mesh m -> Forall (fun f => 1000 * (ulp1 * (L * L)) <= face_area (verts m) f) (faces m) ->
  Forall (wide L (verts m)) (faces m).
Proof.
  intros L m P A. unfold flat_mesh in P. rewrite Forall_forall in *. intros f I. apply flat_wide; auto.
Qed.
(** The wetted surface or the area of the whole mesh. *)
Theorem C125_total_area : forall fsum ftotal L m, (forall j, adds (fsum j)) -> adds ftotal -> extent L m -> valid m -> faces m <> [] ->
  INR (length (faces m)) <= 100000000000000 ->
  exists a, total_area_double fsum ftotal m = Ok a /\
    Rabs (a - surface_area m) <= INR (length (faces m)) * (ulp1 * (2 * surface_area m + 380 * (L * L))).
Proof. intros fsum ftotal L m A T X V N F. apply area_near_total; auto. Qed.
(** The volume against that of exact arithmetic, and against the volume enclosed by a mesh of planar faces. *)
Theorem C125_volume : forall fsum fsum' ftotal L m, (forall j, adds (fsum j)) -> (forall j, adds (fsum' j)) -> adds ftotal ->
  extent L m -> valid m -> faces m <> [] -> INR (length (faces m)) <= 100000000000000 -> Forall (wide L (verts m)) (faces m) ->
  exists v V, volume_double fsum fsum' ftotal m = Ok v /\ volume m = Ok V /\
    Rabs (v - V) <= INR (length (faces m)) * (ulp1 * L * (6 * surface_area m + 1400 * (L * L))).
Proof. intros. apply volume_near; auto. Qed.
Theorem C125_enclosed : forall fsum fsum' ftotal L m, (forall j, adds (fsum j)) -> (forall j, adds (fsum' j)) -> adds ftotal ->
  extent L m -> valid m -> faces m <> [] -> INR (length (faces m)) <= 100000000000000 -> flat_mesh m ->
  Forall (fun f => 1000 * (ulp1 * (L * L)) <= face_area (verts m) f) (faces m) ->
  exists v, volume_double fsum fsum' ftotal m = Ok v /\
    Rabs (v - signed_volume vzero m) <= INR (length (faces m)) * (ulp1 * L * (6 * surface_area m + 1400 * (L * L))).
Proof.
  intros fsum fsum' ftotal L m A A' T X V N F P W.
  destruct (volume_near L m X V N F fsum fsum' ftotal A A' T (C125_planar L m P W)) as (v & V' & E & EV & D).
  exists v. split; auto. rewrite volume_exact in EV by auto. injection EV as <-. exact D.
Qed.

(** A box of 4 by 2 by 3, its bottom at z = -3/2: at most 10^-10 away from 24. *)
Lemma box_flat : flat_mesh (afloat (-1/2)).
Proof.
  unfold flat_mesh, afloat, box_faces. cbn [faces verts]. repeat (apply Forall_cons; [cbn; unfold flat_quad|]); [..|apply Forall_nil].
  - exists (V3 0 0 (-1)), 8, 8. unfold unit, triangle_normal. vunfold. repeat split; try lra; apply vec_eq; cbn; field.
  - exists (V3 0 0 1), 8, 8. unfold unit, triangle_normal. vunfold. repeat split; try lra; apply vec_eq; cbn; field.
  - exists (V3 0 (-1) 0), 12, 12. unfold unit, triangle_normal. vunfold. repeat split; try lra; apply vec_eq; cbn; field.
  - exists (V3 1 0 0), 6, 6. unfold unit, triangle_normal. vunfold. repeat split; try lra; apply vec_eq; cbn; field.
  - exists (V3 0 1 0), 12, 12. unfold unit, triangle_normal. vunfold. repeat split; try lra; apply vec_eq; cbn; field.
  - exists (V3 (-1) 0 0), 6, 6. unfold unit, triangle_normal. vunfold. repeat split; try lra; apply vec_eq; cbn; field.
Qed.
Lemma box_extent : extent 4 (afloat (-1/2)).
Proof.
  split; [apply Rle_trans with 1; [|lra]; change 1 with (powerRZ 2 0); rewrite <- !(Flocq.Core.Raux.bpow_powerRZ Flocq.Core.Zaux.radix2); apply Flocq.Core.Raux.bpow_le; lia|].
  unfold afloat. cbn [verts]. repeat (apply Forall_cons; [unfold bounded; cbn [vx vy vz]; split; [|split]; apply Rabs_le; lra|]). apply Forall_nil.
Qed.
Lemma box_areas : Forall (fun f => 1000 * (ulp1 * (4 * 4)) <= face_area (verts (afloat (-1/2))) f) (faces (afloat (-1/2))) /\
  surface_area (afloat (-1/2)) = 52.
Proof.
  assert (N : forall k x y z, 0 <= k -> x * x + y * y + z * z = k * k -> norm (V3 x y z) = k).
  { intros k x y z K E. unfold norm. cbn [vx vy vz]. rewrite E. apply sqrt_square. auto. }
  pose proof ulp1_pos.
  split.
  - unfold afloat, box_faces. cbn [verts faces].
    repeat (apply Forall_cons; [unfold face_area, triangle_area, triangle_normal; cbn; vunfold; cbn [vx vy vz];
      first [rewrite !(N 8) by lra | rewrite !(N 12) by lra | rewrite !(N 6) by lra]; pose proof ulp1_le_9; lra|]). apply Forall_nil.
  - unfold surface_area, afloat, box_faces, Rsum. cbn [verts faces map fold_right]. unfold face_area, triangle_area, triangle_normal; cbn; vunfold; cbn [vx vy vz].
    repeat match goal with |- context [norm ?v] => match v with V3 ?x ?y ?z => first [rewrite (N 8 x y z) by lra | rewrite (N 12 x y z) by lra | rewrite (N 6 x y z) by lra] end end.
    lra.
Qed.
Example C125_case : forall fsum fsum' ftotal, (forall j, adds (fsum j)) -> (forall j, adds (fsum' j)) -> adds ftotal ->
  exists v, volume_double fsum fsum' ftotal (afloat (-1/2)) = Ok v /\ Rabs (v - 24) <= 1 / 10000000000.
Proof.
  intros fsum fsum' ftotal A A' T. destruct box_areas as [BA BS].
  destruct (C125_enclosed fsum fsum' ftotal 4 (afloat (-1/2)) A A' T box_extent (af_valid _)) as (v & E & D); auto using box_flat.
  - discriminate.
  - cbn. lra.
  - exists v. split; auto. pose proof (volume_exact _ (af_valid (-1/2)) box_flat) as X. rewrite box_whole in X. injection X as X. rewrite <- X in D.
    apply Rle_trans with (1 := D). rewrite BS. pose proof ulp1_le_9. pose proof ulp1_pos. cbn [length afloat faces box_faces INR]. lra.
Qed.
Example C125_plain : adds plain_sum. Proof. exact plain_sum_adds. Qed.
Print Assumptions C125_area.
Print Assumptions C125_normal.
Print Assumptions C125_planar.
Print Assumptions C125_total_area.
Print Assumptions C125_volume.
Print Assumptions C125_enclosed.
