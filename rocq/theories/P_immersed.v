(** Hydrostatics of meshes whose immersed part is known exactly. *)
From Coq Require Import Reals List Arith Bool Lia Lra Psatz Permutation.
From Verif Require Import M_base P_base S_merge M_merge P_merge M_rotations S_rotations M_mesh S_mesh P_mesh S_integral P_integral S_geometry M_geometry P_geometry P_volume P_quantities
  S_connectivity P_connectivity M_plane M_inertia M_clipper S_clipper P_cut P_curves P_waterline P_sharp M_hydro S_hydro P_hydro P_flat P_hydro2 P_wetted P_archimedes P_contour.
Import ListNotations.
Open Scope R_scope.

(** ** Pressure integrals are additive on coplanar points *)
Lemma press_z_additive : additive (press vz (fun _ => 1) vz).
Proof.
  split; [intros; unfold press, tri3, triangle_normal; cbv zeta; vunfold; field|]. intros o a b c H. apply Rminus_diag_uniq.
  transitivity (dot (vsub a o) (cross (vsub b o) (vsub c o)) / 6); [|rewrite H; field].
  unfold press, tri3, triangle_normal; cbv zeta; vunfold; field.
Qed.
Lemma press_pz_additive : forall p, p = vx \/ p = vy -> additive (press vz p vz).
Proof.
  intros p P. split.
  - intros. destruct P as [-> | ->]; unfold press, tri3, triangle_normal; cbv zeta; vunfold; field.
  - intros o a b c H. apply Rminus_diag_uniq.
    transitivity (dot (vsub a o) (cross (vsub b o) (vsub c o)) * (p o + p a + p b + p c) / 24); [|rewrite H; field].
    destruct P as [-> | ->]; unfold press, tri3, triangle_normal; cbv zeta; vunfold; field.
Qed.
Lemma press_free_additive : forall p n, In (p, n) [(fun _ => 1, vx); (fun _ => 1, vy); (vz, vx); (vz, vy); (vx, vy); (vy, vx)] -> additive (press vz p n).
Proof.
  intros p n P. repeat (destruct P as [P|P]; [injection P as <- <-; split; intros; unfold press, tri3, triangle_normal; cbv zeta; vunfold; field|]). destruct P.
Qed.
Lemma normal_additive : additive (press (fun _ => 1) (fun _ => 1) vz).
Proof. split; intros; unfold press, tri3, triangle_normal; cbv zeta; vunfold; field. Qed.
Lemma apex_additive : forall o, additive (tetra o).
Proof.
  intros o. split; intros; unfold tetra; [vunfold; field|].
  apply Rminus_diag_uniq. transitivity (dot (vsub a o0) (cross (vsub b o0) (vsub c o0)) / 6); [vunfold; field|rewrite H; field].
Qed.

Lemma cones_exact : forall phi ex ts, (forall a b c, is_cone_integral phi a b c (ex a b c)) ->
  is_triangles_integral (is_cone_integral phi) ts (Rsum (map (fun t => let '(a, b, c) := t in ex a b c) ts)).
Proof.
  intros phi ex ts H. exists (map (fun t => let '(a, b, c) := t in ex a b c) ts). split; auto.
  induction ts as [|[[i j] l] ts IH]; cbn [map]; constructor; auto.
Qed.
Lemma inertia_mass : forall rho m body, valid m -> flat_mesh m -> eval_plain_mesh_inertias rho m = Ok body -> rb_mass body = rho * signed_volume vzero m.
Proof.
  intros rho m body V F E. pose proof (volume_exact m V F) as EV. unfold volume in EV. unfold eval_plain_mesh_inertias in E.
  rewrite faces_integrals_ok, faces_properties_ok in * by auto. cbn [bind] in *. unfold plain_inertia_with in E.
  destruct (volume_with _ _) as [v|] in *; [|discriminate]. injection EV as ->. cbn [bind] in E. injection E as <-. reflexivity.
Qed.

Section Floats.
  Variable argsort : list R -> list nat.
  Hypothesis SA : sorting argsort.
  Variables (M : mesh).
  Hypothesis FW : floats_well M.
  Let T := immersed_triangles sea_level close M.
  Let W := waterline sea_level close M.
  Let sumT (g : vec -> vec -> vec -> R) := Rsum (map (fun t => let '(a, b, c) := t in g a b c) T).

  Lemma floats_clip : exists k, mesh_clipper argsort water vicinity_tol true M = Ok k.
  Proof.
    destruct FW. destruct (clipper_polygons sea_level close close_pos argsort SA M) as (k & E & _); auto using clip_spread.
    exists k. apply (E true).
  Qed.
  Section Clip.
    Variable k : clipper.
    Hypothesis CL : mesh_clipper argsort water vicinity_tol true M = Ok k.
    Notation total g := (surface_sum g (verts (clipped k)) (faces (clipped k))).
    Lemma total_sum : forall g, additive g -> total g = sumT g.
    Proof. destruct FW. intros g A. apply (clipped_additive sea_level close close_pos argsort SA true M k); auto. Qed.
    Let WT : wetted (clipped k) W := proj1 (clip_wetted argsort SA M k FW CL).
    Lemma clip_flat : proper_mesh (clipped k) -> flat_mesh (clipped k).
    Proof. apply (clip_wetted argsort SA M k FW CL). Qed.
    Lemma clip_proper : strict_mesh M -> proper_mesh (clipped k).
    Proof. apply (clip_wetted argsort SA M k FW CL). Qed.
    Lemma clip_volume : signed_volume vzero (clipped k) = sumT (tetra vzero).
    Proof. apply total_sum. apply tetra_additive. Qed.

    (** Pressure *)
    Lemma sea_force : sumT (press vz (fun _ => 1) vx) = 0 /\ sumT (press vz (fun _ => 1) vy) = 0 /\ sumT (press vz (fun _ => 1) vz) = sumT (tetra vzero).
    Proof.
      rewrite <- !total_sum by (try apply press_z_additive; try apply tetra_additive; apply press_free_additive; simpl; tauto).
      split; [apply (force_x _ _ WT)|]. split; [apply (force_y _ _ WT)|]. apply (force_z _ _ WT).
    Qed.
    Lemma sea_moment : sumT (press vz vy vz) = sumT (cone1 vy) /\ sumT (press vz vx vz) = sumT (cone1 vx) /\ sumT (press vz vz vy) = 0 /\
      sumT (press vz vz vx) = 0 /\ sumT (press vz vx vy) = 0 /\ sumT (press vz vy vx) = 0.
    Proof.
      rewrite <- !total_sum by (first [apply press_pz_additive; tauto | apply cone1_additive; unfold coordinate; tauto | apply press_free_additive; simpl; tauto]).
      repeat split; [apply (moment_yz _ _ WT)|apply (moment_xz _ _ WT)|apply (moment_zy _ _ WT)|apply (moment_zx _ _ WT)|apply (moment_xy _ _ WT)|apply (moment_yx _ _ WT)].
    Qed.
    Lemma sea_lid : forall ts o, fills ts W -> at_sea_level ts -> triangles_volume o T + triangles_volume o ts = sumT (tetra vzero).
    Proof.
      intros ts o F L. rewrite <- clip_volume, <- (lid_volume _ _ WT ts o F L). f_equal. unfold triangles_volume.
      symmetry. apply (total_sum (tetra o)). apply apex_additive.
    Qed.
    Lemma sea_projection : sumT (press (fun _ => 1) (fun _ => 1) vz) = - run (fun a b => / 2 * (vx a * vy b - vy a * vx b)) W.
    Proof. rewrite <- total_sum by apply normal_additive. apply (projected_area _ _ WT). Qed.

    (** The body *)
    Lemma body_sums : forall rho, proper_mesh (clipped k) -> sumT (tetra vzero) <> 0 ->
      eval_plain_mesh_inertias rho (clipped k) = Ok (rigid_new (rho * sumT (tetra vzero))
        (V3 (sumT (cone1 vx) / sumT (tetra vzero)) (sumT (cone1 vy) / sumT (tetra vzero)) (sumT (cone1 vz) / sumT (tetra vzero)))
        (rho * (sumT (cone2 vy vy) + sumT (cone2 vz vz))) (rho * (sumT (cone2 vx vx) + sumT (cone2 vz vz)))
        (rho * (sumT (cone2 vx vx) + sumT (cone2 vy vy)))
        (rho * sumT (cone2 vy vz)) (rho * sumT (cone2 vz vx)) (rho * sumT (cone2 vx vy)) (Some vzero)).
    Proof.
      intros rho P N. rewrite <- clip_volume in *. rewrite (plain_inertia_rings rho (clipped k) (wt_valid _ _ WT) (clip_flat P) (wetted_rings _ _ WT) N).
      rewrite !total_sum by (first [apply cone1_additive; unfold coordinate; tauto | apply cone2_additive; unfold coordinate; tauto]). reflexivity.
    Qed.
    Lemma wet_area : forall props u, faces_properties (clipped k) = Ok props ->
      (forall f, In f (faces M) -> unit (u f) /\ turns_along (u f) (outline (verts M) f)) ->
      Rsum (map fp_area props) = Rsum (map (fun f => fan_area (u f) (immersed_fan sea_level close (outline (verts M) f))) (faces M)).
    Proof.
      intros props u FP U. rewrite faces_properties_ok in FP by apply (wt_valid _ _ WT). injection FP as <-. rewrite map_map.
      destruct FW. unfold fan_area. rewrite <- (clipped_area sea_level close close_pos argsort SA true M k) by auto.
      rewrite <- surface_sum_faces. apply Rsum_map_ext. intros. rewrite props_area. apply face_area_sum.
    Qed.
  End Clip.
End Floats.
