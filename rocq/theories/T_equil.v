(** Properties C65-C67, C90: the searches for an equilibrium (meshmagick/hydrostatics.py, displacement_equilibrium and
    full_equilibrium). *)
From Coq Require Import Reals List Arith Bool Lia Lra Psatz Permutation.
From Verif Require Import M_base P_base S_merge M_merge P_merge M_rotations S_rotations P_rotations M_mesh S_mesh P_mesh S_integral P_integral S_geometry M_geometry P_geometry P_volume P_quantities
  S_connectivity P_connectivity M_plane M_inertia M_clipper S_clipper P_cut P_curves P_waterline P_sharp M_hydro S_hydro P_hydro P_flat P_hydro2 P_wetted P_archimedes P_contour P_cones P_immersed P_report P_barge S_report P_waterplane P_extent P_afloat P_checks P_hull
  S_equil P_equil P_search T_hydro.
Import ListNotations.
Open Scope R_scope.

Definition mesh_height (m : mesh) (H : R) : Prop := is_extent vz (fun v => In v (verts m)) H.
Lemma height_box : forall m H, mesh_height m H -> exists box, axis_aligned_bbox m = Ok box /\ zmax box - zmin box = H /\ 0 <= H.
Proof.
  intros m H (M & x & y & X & Y & E). destruct (bbox_tight m) as (b & B & _ & _ & (T & L & U)); [intros N; rewrite N in X; contradiction|].
  exists b. split; auto. apply in_map_iff in L as (l & El & L). apply in_map_iff in U as (u & Eu & U).
  pose proof (M _ _ U L). pose proof (T _ (in_map vz _ _ X)). pose proof (T _ (in_map vz _ _ Y)). pose proof (M _ _ X X). lra.
Qed.
(** The hydrostatics of a mesh moved vertically. *)
Definition heaved (argsort : list R -> list nat) (m : mesh) (cog : vec) (rho grav z : R) : res hydro :=
  compute_hydrostatics argsort m cog rho grav mid z false None false.

(** ** C65: displacement *)
(** What is returned: the first position met, starting from 0, where the mass is as wanted, or the 99th one. *)
Theorem C65_result : forall argsort m tons rho grav cog reltol H z, mesh_height m H ->
  displacement_equilibrium argsort m tons rho grav cog reltol = Ok z <->
  exists i, (i <= 99)%nat /\ reach (heave_step (heaved argsort m cog rho grav) (tons * 1000) rho reltol (H / 5)) i 0 z /\
    (i = 99%nat \/ exists hs, heaved argsort m cog rho grav z = Ok hs /\ ~ light rho hs /\ met (tons * 1000) rho reltol hs).
Proof.
  intros argsort m tons rho grav cog reltol H z HH. destruct (height_box _ _ HH) as (box & E & <- & P).
  unfold displacement_equilibrium. rewrite E. cbn [bind]. apply (loop_ok (heaved argsort m cog rho grav)). lra.
Qed.
(** The mesh moves by at most a fifth of its height at each step. *)
Theorem C65_travel : forall argsort m tons rho grav cog reltol H i z, mesh_height m H ->
  reach (heave_step (heaved argsort m cog rho grav) (tons * 1000) rho reltol (H / 5)) i 0 z -> Rabs z <= INR i * (H / 5).
Proof.
  intros argsort m tons rho grav cog reltol H i z HH R. destruct (height_box _ _ HH) as (box & _ & _ & P).
  apply heave_travel in R; [|lra]. rewrite Rminus_0_r in R. auto.
Qed.
(** Stopping before the limit, with a mesh whose immersed part is known: the immersed volume is as wanted. *)
Theorem C65_honest : forall argsort m tons rho grav cog reltol H z V, sorting argsort -> mesh_height m H ->
  displacement_equilibrium argsort m tons rho grav cog reltol = Ok z ->
  floats_well (placed_mesh mid z m) -> is_immersed_integral (fun _ => 1) (placed_mesh mid z m) V ->
  Rabs (rho * V - tons * 1000) < reltol * Rabs (tons * 1000) \/
  reach (heave_step (heaved argsort m cog rho grav) (tons * 1000) rho reltol (H / 5)) 99 0 z.
Proof.
  intros argsort m tons rho grav cog reltol H z V SA HH E FW IV. apply (C65_result _ _ _ _ _ _ _ H _ HH) in E as (i & L & R & [->|(hs & E & _ & _ & M)]); auto.
  left. unfold heaved in E. destruct (C85_displacement argsort m cog rho grav mid z false None false hs SA mid_rotation E FW) as (IV' & _).
  rewrite (cones_unique _ _ _ _ IV IV'). apply M.
Qed.
(** Where the waterplane does not change between the start and the position wanted, the search finds it. *)
Theorem C65_wall_sided : forall argsort m tons rho grav cog reltol H zs A, mesh_height m H -> 0 < H -> tons <> 0 -> 0 < reltol -> rho * A <> 0 ->
  (forall z, Rmin 0 zs <= z <= Rmax 0 zs -> exists hs, heaved argsort m cog rho grav z = Ok hs /\
     h_waterplane_area hs = A /\ rho * h_disp_volume hs - tons * 1000 = rho * A * (zs - z)) ->
  Rabs zs <= 99 / 5 * H ->
  exists z hs, displacement_equilibrium argsort m tons rho grav cog reltol = Ok z /\ Rmin 0 zs <= z <= Rmax 0 zs /\
    heaved argsort m cog rho grav z = Ok hs /\ Rabs (rho * h_disp_volume hs - tons * 1000) < reltol * Rabs (tons * 1000).
Proof.
  intros argsort m tons rho grav cog reltol H zs A HH HP T TOL A0 LIN D. assert (B : 0 <= H / 5) by lra.
  destruct (linear_search (heaved argsort m cog rho grav) (tons * 1000) rho reltol (H / 5) B zs (rho * A)) with (n := 99%nat) (z := 0)
    as (i & z & hs & I & R & Z & E & N & M); auto; try lra.
  - intros z Z. destruct (LIN z Z) as (hs & E & EA & V). exists hs. rewrite EA. auto.
  - unfold Rmin, Rmax. destruct (Rle_dec 0 zs); lra.
  - rewrite Rminus_0_r. replace (INR 99) with 99 by (rewrite INR_IZR_INZ; reflexivity). lra.
  - exists z, hs. split; [|split; [auto|split; [auto|apply M]]]. apply (C65_result _ _ _ _ _ _ _ H _ HH). exists i. split; auto. split; auto. right. eauto.
Qed.
(** A box 4 x 2 x 3 is brought to any displacement that leaves it afloat. *)
Lemma box_height : forall z, mesh_height (afloat z) 3.
Proof.
  intros z. split.
  - intros x y X Y. cbn in X, Y. decompose [or] X; decompose [or] Y; subst; try contradiction; cbn [vz]; lra.
  - exists (V3 0 0 (z + 2)), (V3 0 0 (z - 1)). cbn. split; [tauto|]. split; [tauto|]. lra.
Qed.
Example box_displaced : forall argsort tons rho grav cog reltol, sorting argsort -> 0 < rho -> grav <> 0 -> 0 < reltol ->
  8 * rho * (1 / 500) < tons * 1000 < 8 * rho * (3 - 1 / 500) ->
  exists z, displacement_equilibrium argsort (afloat 0) tons rho grav cog reltol = Ok z /\ -2 + 1 / 500 < z < 1 - 1 / 500 /\
    Rabs (8 * rho * (1 - z) - tons * 1000) < reltol * (tons * 1000).
Proof.
  intros argsort tons rho grav cog reltol SA R0 G0 TOL [T1 T2]. set (zs := 1 - tons * 1000 / (8 * rho)).
  assert (ZS : tons * 1000 = 8 * rho * (1 - zs)) by (unfold zs; field; lra).
  assert (ZR : -2 + 1 / 500 < zs < 1 - 1 / 500). { rewrite ZS in T1, T2. clear - T1 T2 R0. split; apply (Rmult_lt_reg_l (8 * rho)); lra. }
  assert (IN : forall z, Rmin 0 zs <= z <= Rmax 0 zs -> -2 + 1 / 500 < z < 1 - 1 / 500).
  { intros z. unfold Rmin, Rmax. destruct (Rle_dec 0 zs); lra. }
  assert (TP : 0 < tons * 1000) by nra.
  destruct (C65_wall_sided argsort (afloat 0) tons rho grav cog reltol 3 zs 8) as (z & hs & E & Z & EH & M); auto using box_height; try lra.
  - intros z Z. destruct (box_ok argsort z rho grav cog false None false SA (IN z Z)) as (hs & E); try lra. exists hs. split; auto.
    split; [exact (proj1 (box_plane argsort z rho grav cog false None false SA (IN z Z) hs E))|].
    rewrite (box_volume argsort z rho grav cog false None false SA (IN z Z) hs E), ZS. ring.
  - unfold Rabs. destruct (Rcase_abs zs); lra.
  - exists z. split; auto. split; auto. rewrite (box_volume argsort z rho grav cog false None false SA (IN z Z) hs EH) in M.
    rewrite (Rabs_pos_eq (tons * 1000)) in M by lra. replace (8 * rho * (1 - z)) with (rho * (8 * (1 - z))) by ring. auto.
Qed.
(** At the limit the last position is returned although the mass is not as wanted: a tolerance of zero is never met. *)
Example box_no_convergence : forall argsort rho grav cog tons, sorting argsort -> 0 < rho -> grav <> 0 -> tons * 1000 = 8 * rho ->
  displacement_equilibrium argsort (afloat 0) tons rho grav cog 0 = Ok 0 /\
  reach (heave_step (heaved argsort (afloat 0) cog rho grav) (tons * 1000) rho 0 (3 / 5)) 99 0 0.
Proof.
  intros argsort rho grav cog tons SA R0 G0 T. assert (Z : -2 + 1 / 500 < 0 < 1 - 1 / 500) by lra.
  destruct (box_ok argsort 0 rho grav cog false None false SA Z) as (hs & E); try lra.
  assert (M : heave_step (heaved argsort (afloat 0) cog rho grav) (tons * 1000) rho 0 (3 / 5) 0 0).
  { exists hs. split; auto. unfold light, met. rewrite (proj1 (box_plane argsort 0 rho grav cog false None false SA Z hs E)).
    rewrite (box_volume argsort 0 rho grav cog false None false SA Z hs E). split; [lra|]. split.
    - intros [_ L]. rewrite Rmult_0_l in L. pose proof (Rabs_pos (rho * (8 * (1 - 0)) - tons * 1000)). lra.
    - rewrite T. replace ((rho * (8 * (1 - 0)) - 8 * rho) / (rho * 8)) with 0 by (field; lra). rewrite clamp_inside; [ring|]. rewrite Rabs_R0. lra. }
  assert (R : forall n, reach (heave_step (heaved argsort (afloat 0) cog rho grav) (tons * 1000) rho 0 (3 / 5)) n 0 0).
  { induction n; [constructor|econstructor; eauto]. }
  split; auto. apply (C65_result _ _ _ _ _ _ _ 3 _ (box_height 0)). exists 99%nat. auto.
Qed.

(** ** C66: leaving the water *)
(** How the search fails. *)
Theorem C66_failure : forall argsort m tons rho grav cog reltol H e, mesh_height m H ->
  displacement_equilibrium argsort m tons rho grav cog reltol = Raise e <->
  exists i z, (i < 99)%nat /\ reach (heave_step (heaved argsort m cog rho grav) (tons * 1000) rho reltol (H / 5)) i 0 z /\
    ((heaved argsort m cog rho grav z = Raise RuntimeError /\ e = IndexError) \/
     (heaved argsort m cog rho grav z = Raise e /\ e <> RuntimeError) \/
     (exists hs, heaved argsort m cog rho grav z = Ok hs /\ light rho hs /\ e = NotANumber)).
Proof.
  intros argsort m tons rho grav cog reltol H e HH. destruct (height_box _ _ HH) as (box & E & <- & P).
  unfold displacement_equilibrium. rewrite E. cbn [bind]. apply (loop_raise (heaved argsort m cog rho grav)). lra.
Qed.
(** The error of the clipper never comes out. *)
Theorem C66_original_error_lost : forall argsort m tons rho grav cog reltol, displacement_equilibrium argsort m tons rho grav cog reltol <> Raise RuntimeError.
Proof.
  intros argsort m tons rho grav cog reltol E. unfold displacement_equilibrium in E. destruct (box_bound m) as (box & B & P). rewrite B in E. cbn [bind] in E.
  apply (loop_raise (heaved argsort m cog rho grav)) in E as (i & z & _ & _ & [[_ E]|[[_ E]|(hs & _ & _ & E)]]); try discriminate; auto.
Qed.
(** As soon as a position reached has the whole mesh out of the water, or under it, the search ends with IndexError. *)
Theorem C66_dry : forall argsort m tons rho grav cog reltol H i z, mesh_height m H -> (i < 99)%nat ->
  reach (heave_step (heaved argsort m cog rho grav) (tons * 1000) rho reltol (H / 5)) i 0 z ->
  Forall (is_above sea_level close) (verts (placed_mesh mid z m)) \/ Forall (is_below sea_level close) (verts (placed_mesh mid z m)) ->
  displacement_equilibrium argsort m tons rho grav cog reltol = Raise IndexError.
Proof.
  intros argsort m tons rho grav cog reltol H i z HH L R D. apply (C66_failure _ _ _ _ _ _ _ H _ HH). exists i, z. split; auto. split; auto.
  left. split; auto. apply dry. auto.
Qed.
(** Under water from the start, where the code means to return a fallback position. *)
Lemma box_under : forall z, z < -2 - 1 / 1000 -> Forall (is_below sea_level close) (verts (afloat z)).
Proof.
  intros z Z. apply Forall_forall. intros x X. cbn in X. decompose [or] X; subst; try contradiction;
    unfold is_below, close; rewrite sea_height; cbn [vz]; lra.
Qed.
Example box_sunk : forall argsort z tons rho grav cog reltol, z < -2 - 1 / 1000 ->
  displacement_equilibrium argsort (afloat z) tons rho grav cog reltol = Raise IndexError.
Proof.
  intros argsort z tons rho grav cog reltol Z. apply (C66_dry argsort _ tons rho grav cog reltol 3 0 0 (box_height z)); [lia|constructor|].
  right. replace (placed_mesh mid 0 (afloat z)) with (afloat z); [apply box_under; auto|].
  rewrite <- !(afloat_placed z) at 1. unfold placed_mesh. cbn [verts faces afloat map]. f_equal.
  repeat (apply f_equal2; [apply vec_eq; unfold placed; cbv zeta; vunfold; ring|]). reflexivity.
Qed.
(** Overloaded: the search pushes the box under water, a fifth of its height at a time. *)
Example box_overloaded : forall argsort tons rho grav cog reltol, sorting argsort -> 0 < rho -> grav <> 0 -> reltol < 1 / 10 -> 28 * rho <= tons * 1000 ->
  displacement_equilibrium argsort (afloat 0) tons rho grav cog reltol = Raise IndexError.
Proof.
  intros argsort tons rho grav cog reltol SA R0 G0 TOL T.
  assert (STEP : forall z, -19 / 10 < z <= 0 -> heave_step (heaved argsort (afloat 0) cog rho grav) (tons * 1000) rho reltol (3 / 5) z (z + - (3 / 5))).
  { intros z Z. assert (Z' : -2 + 1 / 500 < z < 1 - 1 / 500) by lra.
    destruct (box_ok argsort z rho grav cog false None false SA Z') as (hs & E); try lra. exists hs. split; [exact E|]. unfold light, met.
    rewrite (proj1 (box_plane argsort z rho grav cog false None false SA Z' hs E)), (box_volume argsort z rho grav cog false None false SA Z' hs E).
    split; [lra|]. split.
    - intros [_ L]. rewrite (Rabs_pos_eq (tons * 1000)) in L by nra. rewrite Rabs_left in L by nra. nra.
    - rewrite clamp_neg; [auto|lra|]. apply (Rmult_le_reg_r (rho * 8)); [lra|]. unfold Rdiv. rewrite Rmult_assoc, Rinv_l by lra. nra. }
  apply (C66_dry argsort _ tons rho grav cog reltol 3 4 (0 + - (3 / 5) + - (3 / 5) + - (3 / 5) + - (3 / 5)) (box_height 0)); [lia| |].
  - repeat (eapply reach_move; [|apply STEP; lra]). constructor.
  - right. rewrite afloat_placed. apply box_under. lra.
Qed.

(** ** C67: position and attitude *)
Definition posed (argsort : list R -> list nat) (m : mesh) (cog : vec) (rho grav : R) (rot : mat) (z : R) : res hydro :=
  compute_hydrostatics argsort m cog rho grav rot z false None false.
(** What is returned: starting from the position given by the first search, the first one met that is balanced, or the
    99th one. *)
Theorem C67_result : forall argsort m cog tons rho grav reltol H z rot, mesh_height m H ->
  full_equilibrium argsort m cog tons rho grav reltol = Ok (z, rot) <->
  exists z0 i, displacement_equilibrium argsort m tons rho grav vzero reltol = Ok z0 /\ (i <= 99)%nat /\
    reach (shift_turn (posed argsort m cog rho grav) cog (rho * grav) (tons * 1000 * grav) reltol (H / 5)) i (z0, mid) (z, rot) /\
    (i = 99%nat \/ exists hs, posed argsort m cog rho grav rot z = Ok hs /\ balanced cog (rho * grav) (tons * 1000 * grav) reltol z rot hs).
Proof.
  intros argsort m cog tons rho grav reltol H z rot HH. destruct (height_box _ _ HH) as (box & E & <- & P).
  unfold full_equilibrium. destruct (displacement_equilibrium argsort m tons rho grav vzero reltol) as [z0|e]; cbn [bind].
  - rewrite E. cbn [bind]. rewrite (full_ok (posed argsort m cog rho grav)) by lra. cbn [fst snd]. split.
    + intros (i & I). exists z0, i. split; auto.
    + intros (z1 & i & Z & I). injection Z as <-. exists i. auto.
  - split; [discriminate|]. intros (z0 & i & Z & _). discriminate.
Qed.
Theorem C67_failure : forall argsort m cog tons rho grav reltol H e, mesh_height m H ->
  full_equilibrium argsort m cog tons rho grav reltol = Raise e <->
  displacement_equilibrium argsort m tons rho grav vzero reltol = Raise e \/
  exists z0 i s, displacement_equilibrium argsort m tons rho grav vzero reltol = Ok z0 /\ (i < 99)%nat /\
    reach (shift_turn (posed argsort m cog rho grav) cog (rho * grav) (tons * 1000 * grav) reltol (H / 5)) i (z0, mid) s /\
    (posed argsort m cog rho grav (snd s) (fst s) = Raise e \/
     exists hs, posed argsort m cog rho grav (snd s) (fst s) = Ok hs /\ ~ balanced cog (rho * grav) (tons * 1000 * grav) reltol (fst s) (snd s) hs /\
       mdet (h_stiffness_matrix hs) = 0 /\ e = LinAlgError).
Proof.
  intros argsort m cog tons rho grav reltol H e HH. destruct (height_box _ _ HH) as (box & E & <- & P).
  unfold full_equilibrium. destruct (displacement_equilibrium argsort m tons rho grav vzero reltol) as [z0|e']; cbn [bind].
  - rewrite E. cbn [bind]. rewrite (full_raise (posed argsort m cog rho grav)) by lra. split.
    + intros (i & s & I). right. exists z0, i, s. split; auto.
    + intros [Z|(z1 & i & s & Z & I)]; [discriminate|]. injection Z as <-. exists i, s. auto.
  - split; [intros Q; left; congruence|]. intros [Q|(z0 & i & s & Z & _)]; [congruence|discriminate].
Qed.
Theorem C67_rotation : forall argsort m cog tons rho grav reltol z rot,
  full_equilibrium argsort m cog tons rho grav reltol = Ok (z, rot) -> is_rotation rot.
Proof.
  intros argsort m cog tons rho grav reltol z rot E. unfold full_equilibrium in E.
  destruct (displacement_equilibrium argsort m tons rho grav vzero reltol) as [z0|]; [|discriminate]. cbn [bind] in E.
  destruct (box_bound m) as (box & B & P). rewrite B in E. cbn [bind] in E.
  apply (full_ok (posed argsort m cog rho grav)) in E as (i & _ & R & _); auto. apply full_rotation in R; auto. apply mid_rotation.
Qed.
(** Bounds of the heave, altogether. *)
Theorem C67_travel : forall argsort m cog tons rho grav reltol H z rot, mesh_height m H ->
  full_equilibrium argsort m cog tons rho grav reltol = Ok (z, rot) -> Rabs z <= 198 / 5 * H.
Proof.
  intros argsort m cog tons rho grav reltol H z rot HH E. destruct (height_box _ _ HH) as (box & _ & _ & P).
  apply (C67_result _ _ _ _ _ _ _ H _ _ HH) in E as (z0 & i & D & I & R & _). apply full_travel in R; [|lra]. cbn [fst] in R.
  apply (C65_result _ _ _ _ _ _ _ H _ HH) in D as (j & J & R' & _). apply C65_travel in R'; auto.
  assert (B : forall n, (n <= 99)%nat -> INR n * (H / 5) <= 99 / 5 * H).
  { intros n N. apply le_INR in N. replace (INR 99) with 99 in N by (rewrite INR_IZR_INZ; reflexivity). nra. }
  pose proof (B _ I). pose proof (B _ J). pose proof (Rabs_triang (z - z0) z0) as T. replace (z - z0 + z0) with z in T by ring. lra.
Qed.
(** Stopping before the limit: the weights are equal and the centers are on the same vertical, within tolerance. *)
Theorem C67_honest : forall argsort m cog tons rho grav reltol H z rot, mesh_height m H -> 0 < tons -> 0 < grav ->
  full_equilibrium argsort m cog tons rho grav reltol = Ok (z, rot) ->
  (exists hs, posed argsort m cog rho grav rot z = Ok hs /\
     let b := placed rot z (h_buoyancy_center hs) in let g := placed rot z cog in
     Rabs (rho * h_disp_volume hs - tons * 1000) < reltol * (tons * 1000) /\
     Rabs (vy b - vy g) <= reltol * (Rabs (h_breadth hs) + Rabs (vy b)) /\
     Rabs (vx b - vx g) <= reltol * (Rabs (h_length_at_waterline hs) + Rabs (vx b))) \/
  exists z0, displacement_equilibrium argsort m tons rho grav vzero reltol = Ok z0 /\
    reach (shift_turn (posed argsort m cog rho grav) cog (rho * grav) (tons * 1000 * grav) reltol (H / 5)) 99 (z0, mid) (z, rot).
Proof.
  intros argsort m cog tons rho grav reltol H z rot HH T G E. apply (C67_result _ _ _ _ _ _ _ H _ _ HH) in E as (z0 & i & D & I & R & [->|(hs & E & B)]); [eauto|].
  left. exists hs. split; auto. apply balanced_aligned in B; [|nra]. cbv zeta in *. destruct B as (B1 & B2 & B3). split; [|auto].
  replace (rho * grav * h_disp_volume hs - tons * 1000 * grav) with ((rho * h_disp_volume hs - tons * 1000) * grav) in B1 by ring.
  rewrite Rabs_mult, (Rabs_pos_eq grav) in B1 by lra. apply (Rmult_lt_reg_r grav); auto. lra.
Qed.
(** The box, with its center of gravity on the vertical of its center, is at rest where the first search puts it. *)
Lemma box_dims : forall argsort z rho grav cog h, sorting argsort -> -2 + 1 / 500 < z < 1 - 1 / 500 ->
  compute_hydrostatics argsort (afloat 0) cog rho grav mid z false None false = Ok h -> h_length_at_waterline h = 4 /\ h_breadth h = 2.
Proof.
  intros argsort z rho grav cog h SA Z E. destruct (C89_dimensions _ _ _ _ _ _ _ _ _ _ _ SA mid_rotation E (box_floats z Z)) as (L & B & -> & _).
  rewrite afloat_placed, af_line in L, B by auto. unfold w1, w2, w3, w4 in *. cbn [map fst In] in *.
  destruct L as [L1 (x & y & X & Y & L2)], B as [B1 (x' & y' & X' & Y' & B2)].
  assert (L3 := L1 (V3 4 0 0) (V3 0 0 0) ltac:(tauto) ltac:(tauto)). assert (B3 := B1 (V3 4 2 0) (V3 0 0 0) ltac:(tauto) ltac:(tauto)). cbn [vx vy] in L3, B3.
  split; [clear - L2 L3 X Y; decompose [or] X; decompose [or] Y|clear - B2 B3 X' Y'; decompose [or] X'; decompose [or] Y'];
    subst; try contradiction; cbn [vx vy] in *; lra.
Qed.
Example box_at_rest : forall argsort tons rho grav zg reltol, sorting argsort -> 0 < rho -> 0 < grav -> 0 < reltol ->
  8 * rho * (1 / 500) < tons * 1000 < 8 * rho * (3 - 1 / 500) ->
  exists z, full_equilibrium argsort (afloat 0) (V3 2 1 zg) tons rho grav reltol = Ok (z, mid) /\ Rabs (8 * rho * (1 - z) - tons * 1000) < reltol * (tons * 1000).
Proof.
  intros argsort tons rho grav zg reltol SA R0 G0 TOL T. assert (G1 : grav <> 0) by lra.
  destruct (box_displaced argsort tons rho grav vzero reltol SA R0 G1 TOL T) as (z & E & Z & M). exists z. split; auto.
  apply (C67_result _ _ _ _ _ _ _ 3 _ _ (box_height 0)). exists z, 0%nat. split; auto. split; [lia|]. split; [constructor|]. right.
  destruct (box_ok argsort z rho grav (V3 2 1 zg) false None false SA Z) as (hs & EH); try lra. exists hs. split; [exact EH|].
  unfold balanced. cbv zeta. unfold residue, small. cbn [vx vy vz]. destruct (box_dims argsort z rho grav _ hs SA Z EH) as [-> ->].
  rewrite (box_center argsort z rho grav _ false None false SA Z hs EH), (box_volume argsort z rho grav _ false None false SA Z hs EH).
  assert (GX : vx (placed mid z (V3 2 1 zg)) = 2 /\ vy (placed mid z (V3 2 1 zg)) = 1) by (unfold placed; vunfold; split; ring). destruct GX as [-> ->].
  cbn [vx vy vz]. set (kg := tons * 1000) in *. assert (K : 0 < kg) by nra.
  assert (D : Rabs (rho * grav * (8 * (1 - z)) - kg * grav) < reltol * (kg * grav)).
  { replace (rho * grav * (8 * (1 - z)) - kg * grav) with ((8 * rho * (1 - z) - kg) * grav) by ring. rewrite Rabs_mult, (Rabs_pos_eq grav) by lra. nra. }
  assert (KG : 0 < kg * grav) by nra.
  rewrite !(Rabs_pos_eq (kg * grav)), !(Rabs_pos_eq (kg * grav * 2)), !(Rabs_pos_eq (kg * grav * 4)) by lra.
  split; [split; [lra|auto]|]. split; (split; [lra|]).
  - replace (rho * grav * (8 * (1 - z)) * 1 - kg * grav * 1) with (rho * grav * (8 * (1 - z)) - kg * grav) by ring. nra.
  - replace (- (rho * grav * (8 * (1 - z))) * 2 + kg * grav * 2) with (- 2 * (rho * grav * (8 * (1 - z)) - kg * grav)) by ring.
    rewrite Rabs_mult. replace (Rabs (-2)) with 2 by (rewrite Rabs_left; lra). nra.
Qed.
(** Otherwise it is turned. With a center of gravity in the symmetry plane y = 1 of the box, only pitch is needed, but the
    first correction also rolls the box by 2 degrees, because of the wrong product of roll and pitch (C61). *)
Definition ahead : vec := V3 3 1 (-1).
Lemma kept_big : forall x y, kept_coefficient x y -> 1 / 10000 <= Rabs x -> y = x.
Proof. intros x y [[_ H]|[L _]] B; auto; lra. Qed.
Lemma ahead_stiffness : forall argsort hs, sorting argsort -> posed argsort (afloat 0) ahead 1 1 mid 0 = Ok hs ->
  h_stiffness_matrix hs = M3 8 8 (-16) 8 (44 / 3) (- (40 / 3)) (-16) (- (40 / 3)) (140 / 3).
Proof.
  intros argsort hs SA E. assert (Z : -2 + 1 / 500 < 0 < 1 - 1 / 500) by lra. unfold posed in E.
  pose proof (box_floats 0 Z) as FW. pose proof (lid_fills 0 Z) as F.
  pose proof (C62_waterline argsort (afloat 0) ahead 1 1 mid 0 false None false hs lid SA mid_rotation E FW F) as K. unfold right_stiffness in K. cbv zeta in K.
  rewrite (box_center argsort 0 1 1 ahead false None false SA Z hs E), (box_volume argsort 0 1 1 ahead false None false SA Z hs E) in K.
  pose proof (C61_waterline argsort (afloat 0) ahead 1 1 mid 0 false None false hs lid 16 SA mid_rotation E FW F) as K12. cbv zeta in K12.
  rewrite afloat_placed, af_line in K12, F by auto.
  unfold stiffness_origin in K, K12. cbn [vx vy vz vzero] in K, K12.
  assert (GZ : vz (placed mid 0 ahead) = -1) by (unfold placed, ahead; vunfold; ring). rewrite GZ in K.
  assert (I0 : is_flat_integral (fun _ => 1) lid 8).
  { eapply eq_ind; [exact (exact0 0 0 lid _ F)|]. unfold run, Rsum, side0, w1, w2, w3, w4. cbn. field. }
  assert (I1 : is_flat_integral (fun v => vx v - 0) lid 16).
  { eapply eq_ind; [exact (exact1 0 0 lid _ F)|]. unfold run, Rsum, side1, w1, w2, w3, w4. cbn. field. }
  assert (I2 : is_flat_integral (fun v => vy v - 0) lid 8).
  { eapply eq_ind; [exact (exact2 0 0 lid _ F)|]. unfold run, Rsum, side2, w1, w2, w3, w4. cbn. field. }
  assert (I4 : is_flat_integral (fun v => (vx v - 0) * (vx v - 0)) lid (128 / 3)).
  { eapply eq_ind; [exact (exact4 0 0 lid _ F)|]. unfold run, Rsum, side4, w1, w2, w3, w4. cbn. field. }
  assert (I5 : is_flat_integral (fun v => (vy v - 0) * (vy v - 0)) lid (32 / 3)).
  { eapply eq_ind; [exact (exact5 0 0 lid _ F)|]. unfold run, Rsum, side5, w1, w2, w3, w4. cbn. field. }
  assert (I3 : is_flat_integral (fun v => (vx v - 0) * (vy v - 0)) lid 16).
  { eapply eq_ind; [exact (exact3 0 0 lid _ F)|]. unfold run, Rsum, side3, missing, w1, w2, w3, w4. cbn. field. }
  destruct K as (TR & K0 & K1 & K2 & K11 & K22 & _).
  assert (AB : forall x, 1 <= x \/ x <= -1 -> 1 / 10000 <= Rabs x) by (intros x [X|X]; [rewrite Rabs_pos_eq by lra|rewrite Rabs_left by lra]; lra).
  apply K0, kept_big in I0; [|apply AB; lra]. apply K2, kept_big in I1; [|apply AB; lra]. apply K1, kept_big in I2; [|apply AB; lra].
  apply K22, kept_big in I4; [|apply AB; lra]. apply K11, kept_big in I5; [|apply AB; lra].
  assert (PG : product_gap vzero [(w1, w2); (w2, w3); (w3, w4); (w4, w1)] = 64) by (unfold product_gap, run, Rsum, w1, w2, w3, w4; cbn; field).
  unfold vzero in *. apply K12, kept_big in I3; [|rewrite PG; apply AB; lra]. rewrite PG in I3.
  pose proof (f_equal m01 TR) as T1. pose proof (f_equal m02 TR) as T2. pose proof (f_equal m12 TR) as T3. cbn [m01 m02 m12 mtrans] in T1, T2, T3.
  apply mat_eq; cbn [m00 m01 m02 m10 m11 m12 m20 m21 m22]; lra.
Qed.
Theorem C90_spurious_roll : forall argsort, sorting argsort ->
  shift_turn (posed argsort (afloat 0) ahead 1 1) ahead 1 8 (1 / 1000) (3 / 5) (0, mid)
    (3 / 5, mmul (mmul (Rot_y (PI / 90)) (Rot_x (- (PI / 90)))) mid).
Proof.
  intros argsort SA. assert (Z : -2 + 1 / 500 < 0 < 1 - 1 / 500) by lra.
  destruct (box_ok argsort 0 1 1 ahead false None false SA Z) as (hs & E); try lra. pose proof (ahead_stiffness argsort hs SA E) as ST.
  assert (RS : residue ahead 1 8 0 mid hs = V3 0 0 8).
  { unfold residue. rewrite (box_center argsort 0 1 1 ahead false None false SA Z hs E), (box_volume argsort 0 1 1 ahead false None false SA Z hs E).
    apply vec_eq; unfold placed, ahead; vunfold; ring. }
  exists hs, (V3 (24 / 17) (- (4 / 17)) (10 / 17)). split; [exact E|]. rewrite RS, ST. split; [|split; [|split]].
  - unfold balanced. rewrite RS. cbv zeta. cbn [vz]. intros (_ & _ & _ & B). destruct (box_dims argsort 0 1 1 _ hs SA Z E) as [EL _]. rewrite EL in B.
    rewrite !Rabs_pos_eq in B by lra. lra.
  - vunfold. lra.
  - apply vec_eq; vunfold; field.
  - cbn [vx vy vz]. assert (P : PI / 90 < 1 / 10) by (pose proof PI_4; lra). assert (P0 := PI_RGT_0).
    rewrite (clamp_pos (3 / 5)), (clamp_pos (PI / 90)), (clamp_neg (PI / 90)) by lra. f_equal. ring.
Qed.

Print Assumptions C65_result. Print Assumptions C65_travel. Print Assumptions C65_honest. Print Assumptions C65_wall_sided.
Print Assumptions C66_failure. Print Assumptions C66_original_error_lost. Print Assumptions C66_dry.
Print Assumptions C67_result. Print Assumptions C67_failure. Print Assumptions C67_rotation. Print Assumptions C67_travel.
Print Assumptions C67_honest. Print Assumptions C90_spurious_roll.
