(** Property C133: the center of buoyancy in double precision. *)
From Coq Require Import Reals Lra Lia List Arith Bool Psatz ZArith.
From Flocq Require Import Core.
From Verif Require Import M_base P_base M_merge P_merge S_merge M_rotations S_rotations M_plane M_mesh S_mesh P_mesh S_integral P_integral S_geometry M_geometry P_geometry S_connectivity M_connectivity M_clipper S_clipper P_cut P_clipper P_curves P_hull
  P_sharp P_archimedes P_contour M_inertia M_hydro S_hydro P_hydro P_hydro2 P_wetted P_extent P_cones P_immersed P_barge P_report T_hydro P_hsbox M_double S_double P_double P_double2 P_double3 P_double4 M_dgeom P_dgeom S_dgeom P_dgeom4 P_dgeom5
  M_dclip S_dclip P_dclip P_dclip4 M_dhydro P_dvol P_dhydro P_dhydro2 T_dhydro M_dinertia P_dcenter M_dbuoy P_dbuoy.
Import ListNotations.
Open Scope R_scope.

(** ** C133 *)
(** A body in its position, as in C127. [V] is the volume of its immersed part and [B] its center: the integrals of the coordinates are [V] times
    those of [B]. Unless [V] is as small as the errors of C127, the point that the code finds is at [B] up to roundings. The error grows with the
    number [n] of faces, with the area over the volume and with the displacements [d] of the vertices of the waterline. *)
Theorem C133_buoyancy : forall argsort argsort' fdots fdot fsum fsum' ftotal f6 f9 f12 rho L g M k dir V B,
  sorting argsort -> sorting argsort' -> (forall j, computes_dot (fdots j)) -> computes_dot fdot -> (forall j, adds (fsum j)) -> (forall j, adds (fsum' j)) ->
  adds ftotal -> (forall j, adds (f6 j)) ->
  1 / 1000 <= L <= 10000000000 -> 1 / 900 <= g -> let d := 190 * (u * (L * L) / g) in d <= 1 / 400000000 ->
  floats_well M -> strict_mesh M -> Forall (bounded L) (verts M) -> Forall (firm sea_level close (24 * (u * L)) g) (verts M) ->
  well_spread (1 / 50000) (cut_point sea_level close M) ->
  mesh_clipper argsort water vicinity_tol true M = Ok k -> faces (clipped k) <> [] ->
  let n := INR (length (faces (clipped k))) in n <= 100000000000000 ->
  Forall (fun f => 1010 * (u * (L * L)) + 100 * (L * d) <= face_area (verts (clipped k)) f) (faces (clipped k)) ->
  (forall f, In f (faces M) -> S_geometry.unit (dir f) /\ turns_along (dir f) (outline (verts M) f)) ->
  let A := Rsum (map (fun f => fan_area (dir f) (immersed_fan sea_level close (outline (verts M) f))) (faces M)) in
  is_immersed_integral (fun _ => 1) M V ->
  is_immersed_integral vx M (V * vx B) -> is_immersed_integral vy M (V * vy B) -> is_immersed_integral vz M (V * vz B) ->
  0 < V -> 2 * (n * (u * L * (17 * A + 2905 * (L * L)) + 527 * (L * L * d))) <= V ->
  let q := L * A / V in let p := L ^ 3 / V in let t := L ^ 2 * d / V in
  exists b, buoyancy_double argsort' fdots fdot fsum fsum' ftotal f6 f9 f12 rho M = Ok b /\
    near_point (n * (L * (u * (1 + 3 * q + 1032 * p + q * (6 * q + 970 * p)) + (255 + 176 * q) * t))) B b.
Proof.
  intros argsort argsort' fdots fdot fsum fsum' ftotal f6 f9 f12 rho L g M k dir V B SA SA' DS DT A1 A2 A4 A6 [L1 L2] G d D1 FW SM BV FV WS CL NE n FEW WD DIR A IV IX IY IZ V0 BIG q p t.
  exact (buoyancy_near argsort argsort' fdots fdot fsum fsum' ftotal f6 f9 f12 rho L g M k dir V B SA SA' DS DT A1 A2 A4 A6 L1 L2 G D1 FW SM BV FV WS CL NE FEW WD DIR IV IX IY IZ V0 BIG).
Qed.

(** Back in the frame of the mesh: a point [c] of the body, brought in position by a matrix that is a rotation up to [h] in each entry of the product
    of its transpose with itself, and found there up to [e], is reported at [c] up to [e] and [h] and to roundings. *)
Theorem C133_initial : forall fdots rot z L e h c b, (forall i, computes_dot (fdots i)) -> smallest <= L -> Rabs z <= L -> bounded L b -> bounded L c ->
  near_point e (placed rot z c) b ->
  bounded 1 (row0 (mtrans rot)) -> bounded 1 (row1 (mtrans rot)) -> bounded 1 (row2 (mtrans rot)) ->
  (forall x, bounded 1 x -> bounded h (vsub (mvec (mmul (mtrans rot) rot) x) x)) ->
  near_point (54 * (u * L) + 3 * e + h * L) c (to_initial_double fdots rot z b).
Proof.
  intros fdots rot z L e h c b C S Z BB BC N R0 R1 R2 H. pose proof (Q_pos L S) as L0.
  pose proof (initial_near fdots rot z L e (placed rot z c) b C S Z BB N R0 R1 R2) as (I1 & I2 & I3).
  set (w := mvec (mtrans rot) (V3 (vx (placed rot z c)) (vy (placed rot z c)) (vz (placed rot z c) - z))) in *.
  assert (W : w = vscale L (mvec (mmul (mtrans rot) rot) (vscale (/ L) c))).
  { unfold w, placed. destruct rot, c. apply vec_eq; cbn; field; lra. }
  assert (BS : bounded 1 (vscale (/ L) c)).
  { destruct BC as (C1 & C2 & C3). assert (P : forall x, Rabs x <= L -> Rabs (/ L * x) <= 1).
    { intros x X. rewrite Rabs_mult, Rabs_pos_eq by (apply Rlt_le, Rinv_0_lt_compat; auto). apply Rmult_le_reg_l with L; auto. rewrite <- Rmult_assoc, Rinv_r by lra. lra. }
    unfold bounded, vscale. cbn [vx vy vz]. auto. }
  destruct (H _ BS) as (H1 & H2 & H3). set (y := mvec (mmul (mtrans rot) rot) (vscale (/ L) c)) in *.
  assert (K : forall x y', Rabs (y' - / L * x) <= h -> Rabs (x - L * y') <= h * L).
  { intros x y' X. replace (x - L * y') with (- (L * (y' - / L * x))) by (field; lra). rewrite Rabs_Ropp, Rabs_mult, (Rabs_pos_eq L) by lra.
    rewrite Rmult_comm. apply Rmult_le_compat_r; lra. }
  rewrite W in I1, I2, I3. cbn [vx vy vz vscale vsub] in *. pose proof (K _ _ H1) as K1. pose proof (K _ _ H2) as K2. pose proof (K _ _ H3) as K3.
  assert (T : forall x y' o a r, Rabs (x - y') <= r -> Rabs (y' - o) <= a -> Rabs (x - o) <= a + r).
  { intros x y' o a r X Y. replace (x - o) with ((y' - o) + (x - y')) by ring. eapply Rle_trans; [apply Rabs_triang|]. lra. }
  split; [|split]; eapply T; eauto.
Qed.
(** An exact rotation *)
Corollary C133_rotation : forall fdots rot z L e c b, (forall i, computes_dot (fdots i)) -> smallest <= L -> Rabs z <= L -> bounded L b -> bounded L c ->
  near_point e (placed rot z c) b -> is_rotation rot -> near_point (54 * (u * L) + 3 * e) c (to_initial_double fdots rot z b).
Proof.
  intros fdots rot z L e c b C S Z BB BC N [RO _].
  assert (Q : forall x y w, x * x + y * y + w * w = 1 -> Rabs x <= 1 /\ Rabs y <= 1 /\ Rabs w <= 1).
  { intros x y w E. pose proof (Rle_0_sqr x) as X. pose proof (Rle_0_sqr y) as Y. pose proof (Rle_0_sqr w) as W. unfold Rsqr in *.
    assert (K : forall a, a * a <= 1 -> Rabs a <= 1) by (intros a H; apply Rabs_le; split; nra). repeat split; apply K; lra. }
  pose proof (C133_initial fdots rot z L e 0 c b C S Z BB BC N) as H. rewrite Rmult_0_l, Rplus_0_r in H.
  assert (E0 := f_equal m00 RO). assert (E1 := f_equal m11 RO). assert (E2 := f_equal m22 RO).
  apply H; [unfold bounded, row0|unfold bounded, row1|unfold bounded, row2|].
  - destruct rot; cbn in E0 |- *. apply Q. lra.
  - destruct rot; cbn in E1 |- *. apply Q. lra.
  - destruct rot; cbn in E2 |- *. apply Q. lra.
  - intros x _. rewrite RO. destruct x. unfold bounded, mid. cbn. repeat split; (match goal with |- Rabs ?y <= 0 => replace y with 0 by ring end; rewrite Rabs_R0; lra).
Qed.

(** The box of C127, 4 by 2 meters and 1.5 meters deep in the water: its center of buoyancy is found at 0.75 meters under the sea level, and, half a
    meter higher, in the frame of the mesh. *)
Example C133_case : forall argsort fdots fdots' fdot fsum fsum' ftotal f6 f9 f12, sorting argsort -> (forall j, computes_dot (fdots j)) -> (forall j, computes_dot (fdots' j)) ->
  computes_dot fdot -> (forall j, adds (fsum j)) -> (forall j, adds (fsum' j)) -> adds ftotal -> (forall j, adds (f6 j)) ->
  exists b, buoyancy_double argsort fdots fdot fsum fsum' ftotal f6 f9 f12 1025 (afloat (-1 / 2)) = Ok b /\ near_point (1 / 1000000) (V3 2 1 (-3 / 4)) b /\
    near_point (1 / 100000) (V3 2 1 (-1 / 4)) (to_initial_double fdots' mid (-1 / 2) b).
Proof.
  intros argsort fdots fdots' fdot fsum fsum' ftotal f6 f9 f12 SA DS DS' DT A1 A2 A4 A6.
  assert (Z : -2 + 1 / 500 < -1 / 2 < 1 - 1 / 500) by lra.
  destruct (floats_clip argsort SA _ (af_floats _ Z)) as (k & CL). pose proof ulp1_small as US. pose proof ulp1_pos as U.
  pose proof (box_count argsort k SA CL) as C. pose proof (pos_INR (length (faces (clipped k)))) as C0.
  set (n := INR (length (faces (clipped k)))) in *.
  assert (IN : forall p I, coordinate p -> surface_sum (cone1 p) (verts (clipped k)) (faces (clipped k)) = I -> is_immersed_integral p (afloat (-1 / 2)) I).
  { intros p I P E. rewrite <- E, (total_sum argsort SA _ (af_floats _ Z) k CL (cone1 p)) by (apply cone1_additive; exact P). apply cones_exact. intros. apply cone1_exact. exact P. }
  assert (Q : forall x, 0 <= x -> n * (u * x) <= 208 * (/ 9000000000000000 * x)).
  { intros x X. apply Rmult_le_compat; [lra|apply Rmult_le_pos; lra|auto|]. apply Rmult_le_compat_r; [auto|apply ulp1_le_9]. }
  destruct (C133_buoyancy argsort argsort fdots fdot fsum fsum' ftotal f6 f9 f12 1025 4 1 (afloat (-1 / 2)) k box_dir 12 (V3 2 1 (-3 / 4))) as (b & E & NB);
    auto using af_floats, af_strict, box_firm, box_spread, box_bounded, box_dirs; try lra.
  - apply (box_some argsort); auto.
  - fold n. lra.
  - eapply Forall_impl; [|apply (box_faces_wide argsort k SA CL)]. intros f. cbv beta. lra.
  - replace 12 with (8 * (1 - -1 / 2)) by lra. rewrite <- (af_volume _ Z argsort SA k CL), (clip_volume argsort SA _ (af_floats _ Z) k CL). apply cones_exact, cone0_exact.
  - apply IN; [unfold coordinate; auto|]. rewrite (af_x _ Z argsort SA k CL). cbn [vx]. lra.
  - apply IN; [unfold coordinate; auto|]. rewrite (af_y _ Z argsort SA k CL). cbn [vy]. lra.
  - apply IN; [unfold coordinate; auto|]. rewrite (af_z _ Z argsort SA k CL). cbn [vz]. lra.
  - rewrite box_wet. fold n. pose proof (Q (4 * (17 * 26 + 2905 * (4 * 4)) + 527 * (4 * 4 * (190 * (4 * 4)))) ltac:(lra)). lra.
  - assert (NB' : near_point (1 / 1000000) (V3 2 1 (-3 / 4)) b).
    { rewrite box_wet in NB. fold n in NB.
      match type of NB with near_point ?e _ _ => assert (EB : e <= 1 / 1000000) end.
      { pose proof (Q (4 * ((1 + 3 * (4 * 26 / 12) + 1032 * (4 ^ 3 / 12) + 4 * 26 / 12 * (6 * (4 * 26 / 12) + 970 * (4 ^ 3 / 12))) + (255 + 176 * (4 * 26 / 12)) * (4 ^ 2 * (190 * (4 * 4)) / 12))) ltac:(lra)). lra. }
      destruct NB as (N1 & N2 & N3). unfold near_point. lra. }
    exists b. split; auto. split; auto.
    pose proof smallest_small as SS.
    assert (X : near_point (54 * (u * 4) + 3 * (1 / 1000000)) (V3 2 1 (-1 / 4)) (to_initial_double fdots' mid (-1 / 2) b)).
    { apply C133_rotation; auto.
      - lra.
      - apply Rabs_le. lra.
      - destruct NB' as (N1 & N2 & N3). cbn [vx vy vz] in *. apply Rabs_le_inv in N1. apply Rabs_le_inv in N2. apply Rabs_le_inv in N3. unfold bounded. repeat split; apply Rabs_le; lra.
      - unfold bounded. cbn. repeat split; apply Rabs_le; lra.
      - replace (placed mid (-1 / 2) (V3 2 1 (-1 / 4))) with (V3 2 1 (-3 / 4)); auto. unfold placed, mid. apply vec_eq; cbn; lra.
      - split; [unfold mid; apply mat_eq; cbn; ring|unfold mid, mdet; cbn; ring]. }
    destruct X as (X1 & X2 & X3). unfold near_point. lra.
Qed.

Print Assumptions C133_buoyancy.
Print Assumptions C133_initial.
Print Assumptions C133_rotation.
Print Assumptions C133_case.
