(** The report on a box afloat. *)
From Coq Require Import Reals List Arith Bool Lia Lra Psatz Permutation.
From Verif Require Import M_base P_base S_merge M_merge P_merge M_rotations S_rotations P_rotations M_mesh S_mesh P_mesh S_integral P_integral S_geometry M_geometry P_geometry P_volume P_quantities
  S_connectivity P_connectivity M_plane M_inertia M_clipper S_clipper P_cut P_curves P_waterline P_sharp M_hydro S_hydro P_hydro P_flat P_hydro2 P_wetted P_archimedes P_contour P_cones P_immersed P_report P_barge S_report P_waterplane P_extent.
Import ListNotations.
Open Scope R_scope.

Lemma mid_rotation : is_rotation mid. Proof. repeat split; try apply mat_eq; vunfold; try ring. Qed.
Section Box.
  Variables (argsort : list R -> list nat) (z rho grav : R) (cog : vec) (at_cog : bool) (lpp : option R) (ap : bool).
  Hypothesis SA : sorting argsort.
  Hypothesis Z : -2 + 1 / 500 < z < 1 - 1 / 500.
  Let out := compute_hydrostatics argsort (afloat 0) cog rho grav mid z at_cog lpp ap.
  Lemma box_floats : floats_well (placed_mesh mid z (afloat 0)). Proof. rewrite afloat_placed. apply af_floats; auto. Qed.
  Lemma box_sum : forall g, additive g -> forall x, (forall k, mesh_clipper argsort water vicinity_tol true (afloat z) = Ok k -> surface_sum g (verts (clipped k)) (faces (clipped k)) = x) ->
    Rsum (map (fun t => let '(a, b, c) := t in g a b c) (immersed_triangles sea_level close (placed_mesh mid z (afloat 0)))) = x.
  Proof.
    intros g A x H. rewrite afloat_placed. destruct (floats_clip argsort SA _ (af_floats z Z)) as (k & CL).
    rewrite <- (total_sum argsort SA _ (af_floats z Z) k CL g A). auto.
  Qed.
  Lemma box_ok : rho <> 0 -> grav <> 0 -> exists h, out = Ok h.
  Proof.
    intros R0 G0. pose proof (outcomes argsort (afloat 0) cog rho grav mid z at_cog lpp ap SA box_floats) as O. cbv beta zeta in O.
    rewrite (box_sum (tetra vzero) tetra_additive (8 * (1 - z))) in O by (intros; apply (af_volume z Z argsort SA k); auto).
    rewrite afloat_placed, af_line in O by auto. destruct (O (af_strict z)) as (_ & _ & _ & O4). apply O4; auto; [lra|].
    unfold run, Rsum, side0, w1, w2, w3, w4. cbn. lra.
  Qed.
  Section Values.
    Variable h : hydro.
    Hypothesis EV : out = Ok h.
    Lemma box_volume : h_disp_volume h = 8 * (1 - z).
    Proof.
      destruct (volume_report _ _ _ _ _ _ _ _ _ _ SA box_floats h mid_rotation EV) as (-> & _). 
      apply (box_sum (tetra vzero) tetra_additive). intros; apply (af_volume z Z argsort SA k); auto.
    Qed.
    Lemma box_center : placed mid z (h_buoyancy_center h) = V3 2 1 ((z - 1) / 2).
    Proof.
      destruct (center_report _ _ _ _ _ _ _ _ _ _ SA box_floats h mid_rotation EV) as (A & B & C).
      assert (A' : 8 * (1 - z) * vx (placed mid z (h_buoyancy_center h)) = 16 * (1 - z)).
      { rewrite box_volume in A. rewrite A. apply (box_sum (cone1 vx)); [apply cone1_additive; unfold coordinate; tauto|]. intros; apply (af_x z Z argsort SA k); auto. }
      assert (B' : 8 * (1 - z) * vy (placed mid z (h_buoyancy_center h)) = 8 * (1 - z)).
      { rewrite box_volume in B. rewrite B. apply (box_sum (cone1 vy)); [apply cone1_additive; unfold coordinate; tauto|]. intros; apply (af_y z Z argsort SA k); auto. }
      assert (C' : 8 * (1 - z) * vz (placed mid z (h_buoyancy_center h)) = - 4 * ((1 - z) * (1 - z))).
      { rewrite box_volume in C. rewrite C. apply (box_sum (cone1 vz)); [apply cone1_additive; unfold coordinate; tauto|]. intros; apply (af_z z Z argsort SA k); auto. }
      apply vec_eq; cbn [vx vy vz]; apply (Rmult_eq_reg_l (8 * (1 - z))); lra.
    Qed.
    Lemma box_sides : exists k body minx maxx miny maxy box, hydro_run argsort (afloat 0) cog rho grav mid z at_cog lpp ap h k body minx maxx miny maxy box /\
      (forall psi, run psi (flat_map (polygon_sides (verts (clipped_crown k))) (polygons k)) = run psi [(w1, w2); (w2, w3); (w3, w4); (w4, w1)]) /\
      mesh_clipper argsort water vicinity_tol true (afloat z) = Ok k.
    Proof.
      destruct (hydro_inv _ _ _ _ _ _ _ _ _ _ _ EV) as (k & body & minx & maxx & miny & maxy & box & HR). exists k, body, minx, maxx, miny, maxy, box. split; auto.
      pose proof (plane_sides _ _ _ _ _ _ _ _ _ _ SA box_floats _ _ _ _ _ _ _ _ HR) as PS. rewrite afloat_placed, af_line in PS by auto. split; auto.
      pose proof (hr_clip _ _ _ _ _ _ _ _ _ _ _ _ _ _ _ _ _ _ HR) as C. rewrite afloat_placed in C. exact C.
    Qed.
    Lemma box_plane : h_waterplane_area h = 8 /\ placed mid z (h_waterplane_center h) = V3 2 1 0.
    Proof.
      destruct box_sides as (k & body & minx & maxx & miny & maxy & box & HR & PS & _).
      destruct (run_fields _ _ _ _ _ _ _ _ _ _ _ _ _ _ _ _ _ _ mid_rotation HR) as (A & _ & _ & _ & _ & X & Y & FZ & _).
      rewrite box_center in *. rewrite !PS in *. cbn [vx vy] in *. 
      assert (A' : h_waterplane_area h = 8) by (rewrite A; unfold run, Rsum, side0, w1, w2, w3, w4; cbn; destruct at_cog; lra). rewrite A' in *. split; auto.
      apply vec_eq; cbn [vx vy vz]; auto.
      - revert X. unfold run, Rsum, side1, w1, w2, w3, w4. cbn. destruct at_cog; lra.
      - revert Y. unfold run, Rsum, side2, w1, w2, w3, w4. cbn. destruct at_cog; lra.
    Qed.
  End Values.
End Box.
