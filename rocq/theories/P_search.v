(** Consequences of the description of the searches for an equilibrium. *)
From Coq Require Import Reals List Arith Bool Lia Lra Psatz.
From Verif Require Import M_base P_base M_rotations S_rotations P_rotations M_mesh S_mesh M_plane M_geometry P_quantities P_curves M_clipper S_clipper P_clip_mesh
  M_hydro S_hydro S_equil P_hydro2 P_equil.
Import ListNotations.
Open Scope R_scope.

Lemma clamp_bound : forall b x, 0 <= b -> Rabs (clamp b x) <= b.
Proof. intros b x H. unfold clamp, Rmax, Rmin. destruct (Rle_dec b x); destruct (Rle_dec (- b) _); unfold Rabs; destruct (Rcase_abs _); lra. Qed.
Lemma clamp_inside : forall b x, Rabs x <= b -> clamp b x = x.
Proof.
  intros b x H. unfold clamp. assert (- b <= x <= b) by (unfold Rabs in H; destruct (Rcase_abs x); lra).
  rewrite Rmin_right by lra. rewrite Rmax_right; lra.
Qed.
Lemma clamp_pos : forall b x, 0 <= b -> b <= x -> clamp b x = b.
Proof. intros b x B H. unfold clamp. rewrite Rmin_left by auto. rewrite Rmax_right; lra. Qed.
Lemma clamp_neg : forall b x, 0 <= b -> x <= - b -> clamp b x = - b.
Proof. intros b x B H. unfold clamp. rewrite Rmin_right by lra. rewrite Rmax_left; lra. Qed.

Section Travel.
  Variables (eval : R -> res hydro) (kg rho reltol bound : R).
  Hypothesis B : 0 <= bound.
  Lemma heave_travel : forall i z0 z, reach (heave_step eval kg rho reltol bound) i z0 z -> Rabs (z - z0) <= INR i * bound.
  Proof.
    intros i z0 z R. induction R as [|i z0 z z' R IH M]; [rewrite Rminus_diag_eq, Rabs_R0 by auto; cbn; lra|].
    destruct M as (hs & _ & _ & _ & ->). rewrite S_INR.
    pose proof (clamp_bound bound ((rho * h_disp_volume hs - kg) / (rho * h_waterplane_area hs)) B) as C.
    pose proof (Rabs_triang (z - z0) (clamp bound ((rho * h_disp_volume hs - kg) / (rho * h_waterplane_area hs)))) as TR.
    replace (z - z0 + clamp bound ((rho * h_disp_volume hs - kg) / (rho * h_waterplane_area hs)))
      with (z + clamp bound ((rho * h_disp_volume hs - kg) / (rho * h_waterplane_area hs)) - z0) in TR by ring. lra.
  Qed.

  (** A waterplane that does not change: the displaced volume is linear. *)
  Variables (zs slope : R).
  Hypothesis K : kg <> 0.
  Hypothesis TOL : 0 < reltol.
  Hypothesis S0 : slope <> 0.
  Hypothesis BP : 0 < bound.
  Hypothesis LIN : forall z, Rmin 0 zs <= z <= Rmax 0 zs -> exists hs, eval z = Ok hs /\
    rho * h_waterplane_area hs = slope /\ rho * h_disp_volume hs - kg = slope * (zs - z).
  Lemma met_dec : forall hs, {met kg rho reltol hs} + {~ met kg rho reltol hs}.
  Proof.
    intros hs. unfold met. destruct (Rlt_dec (Rabs (rho * h_disp_volume hs - kg)) (reltol * Rabs kg)); [left; auto|right; tauto].
  Qed.
  Lemma linear_search : forall n z, Rmin 0 zs <= z <= Rmax 0 zs -> Rabs (zs - z) <= INR n * bound ->
    exists i z' hs, (i <= n)%nat /\ reach (heave_step eval kg rho reltol bound) i z z' /\ Rmin 0 zs <= z' <= Rmax 0 zs /\
      eval z' = Ok hs /\ ~ light rho hs /\ met kg rho reltol hs.
  Proof.
    induction n as [|n IH]; intros z Z D; destruct (LIN z Z) as (hs & E & A & V).
    - assert (zs - z = 0). { cbn in D. rewrite Rmult_0_l in D. pose proof (Rabs_pos (zs - z)). unfold Rabs in *. destruct (Rcase_abs (zs - z)); lra. }
      exists 0%nat, z, hs. split; auto. split; [constructor|]. split; auto. split; auto. split; [unfold light; lra|]. split; auto.
      rewrite V, H, Rmult_0_r, Rabs_R0. apply Rmult_lt_0_compat; auto. apply Rabs_pos_lt; auto.
    - destruct (met_dec hs) as [M|M].
      { exists 0%nat, z, hs. split; [lia|]. split; [constructor|]. split; auto. split; auto. split; [unfold light; lra|auto]. }
      set (z1 := z + clamp bound (zs - z)).
      assert (ST : heave_step eval kg rho reltol bound z z1).
      { exists hs. split; auto. split; [unfold light; lra|]. split; auto. unfold z1. f_equal. f_equal. rewrite V, A. field. auto. }
      rewrite S_INR in D.
      assert (Z1 : Rmin 0 zs <= z1 <= Rmax 0 zs /\ Rabs (zs - z1) <= INR n * bound).
      { pose proof (pos_INR n) as PN. assert (0 <= INR n * bound) by (apply Rmult_le_pos; lra).
        assert (HB : Rmin 0 zs <= zs <= Rmax 0 zs) by (split; [apply Rmin_r|apply Rmax_r]).
        unfold z1. destruct (Rle_dec (Rabs (zs - z)) bound) as [L|L].
        - rewrite clamp_inside by auto. replace (z + (zs - z)) with zs by ring. split; auto. rewrite Rminus_diag_eq, Rabs_R0; auto.
        - apply Rnot_le_lt in L. unfold Rabs in L, D. destruct (Rcase_abs (zs - z)).
          + rewrite clamp_neg by lra. split; [lra|]. rewrite Rabs_left1; lra.
          + rewrite clamp_pos by lra. split; [lra|]. rewrite Rabs_pos_eq; lra. }
      destruct Z1 as [Z1 D1]. destruct (IH z1 Z1 D1) as (i & z' & hs' & L & R & H). exists (S i), z', hs'. split; [lia|]. split; auto.
      eapply reach_front; eauto.
  Qed.
End Travel.

Lemma box_bound : forall m, exists box, axis_aligned_bbox m = Ok box /\ 0 <= (zmax box - zmin box) / 5.
Proof. intros m. destruct (bbox_total m) as (box & E & _ & _ & H). exists box. split; auto. lra. Qed.

Lemma dry : forall argsort m cog rho grav rot z at_cog lpp ap,
  Forall (is_above sea_level close) (verts (placed_mesh rot z m)) \/ Forall (is_below sea_level close) (verts (placed_mesh rot z m)) ->
  compute_hydrostatics argsort m cog rho grav rot z at_cog lpp ap = Raise RuntimeError.
Proof.
  intros. unfold compute_hydrostatics. cbv zeta. rewrite placed_mesh_eq.
  rewrite (clipper_refused sea_level close argsort true (placed_mesh rot z m) H : mesh_clipper argsort water vicinity_tol true (placed_mesh rot z m) = _). reflexivity.
Qed.

Section Turns.
  Variables (eval : mat -> R -> res hydro) (cog : vec) (rhog mg reltol bound : R).
  Hypothesis B : 0 <= bound.
  Lemma full_travel : forall i s s', reach (shift_turn eval cog rhog mg reltol bound) i s s' -> Rabs (fst s' - fst s) <= INR i * bound.
  Proof.
    intros i s s' R. induction R as [|i s [z rot] s' R IH M]; [rewrite Rminus_diag_eq, Rabs_R0 by auto; cbn; lra|].
    destruct M as (hs & d & _ & _ & _ & _ & ->). rewrite S_INR. cbn [fst] in *.
    pose proof (clamp_bound bound (vx d) B) as C. pose proof (Rabs_triang (z - fst s) (clamp bound (vx d))) as TR.
    replace (z - fst s + clamp bound (vx d)) with (z + clamp bound (vx d) - fst s) in TR by ring. lra.
  Qed.
  Lemma balanced_aligned : forall z rot hs, 0 < mg -> balanced cog rhog mg reltol z rot hs ->
    let b := placed rot z (h_buoyancy_center hs) in let g := placed rot z cog in
    Rabs (rhog * h_disp_volume hs - mg) < reltol * mg /\
    Rabs (vy b - vy g) <= reltol * (Rabs (h_breadth hs) + Rabs (vy b)) /\
    Rabs (vx b - vx g) <= reltol * (Rabs (h_length_at_waterline hs) + Rabs (vx b)).
  Proof.
    intros z rot hs P (H1 & H2 & H3). cbv zeta. unfold small, residue in *. cbn [vx vy vz] in *.
    set (b := placed rot z (h_buoyancy_center hs)) in *. set (g := placed rot z cog) in *. set (w := rhog * h_disp_volume hs) in *.
    destruct H1 as [_ H1], H2 as [_ H2], H3 as [_ H3]. rewrite Rabs_mult in H2, H3. rewrite (Rabs_pos_eq mg) in * by lra. split; auto.
    split; apply (Rmult_le_reg_l mg); auto.
    - rewrite <- (Rabs_pos_eq mg) at 1 by lra. rewrite <- Rabs_mult.
      replace (mg * (vy b - vy g)) with ((w * vy b - mg * vy g) + - ((w - mg) * vy b)) by ring.
      pose proof (Rabs_triang (w * vy b - mg * vy g) (- ((w - mg) * vy b))) as TR. rewrite Rabs_Ropp, Rabs_mult in TR.
      pose proof (Rmult_le_compat_r (Rabs (vy b)) _ _ (Rabs_pos _) (Rlt_le _ _ H1)). lra.
    - rewrite <- (Rabs_pos_eq mg) at 1 by lra. rewrite <- Rabs_mult.
      replace (mg * (vx b - vx g)) with (- (- w * vx b + mg * vx g) + - ((w - mg) * vx b)) by ring.
      pose proof (Rabs_triang (- (- w * vx b + mg * vx g)) (- ((w - mg) * vx b))) as TR. rewrite !Rabs_Ropp, Rabs_mult in TR.
      pose proof (Rmult_le_compat_r (Rabs (vx b)) _ _ (Rabs_pos _) (Rlt_le _ _ H1)). lra.
  Qed.
End Turns.
