(** Properties C131 and C132: inertias of full and of hollow bodies in double precision (meshmagick/mesh.py). *)
From Coq Require Import Reals Lra Lia List Arith Bool ZArith.
From Verif Require Import M_base M_merge M_mesh M_geometry S_mesh S_geometry P_base P_mesh P_geometry P_volume P_quantities M_inertia M_double S_double P_double P_double3
  M_dgeom M_dinertia P_dgeom P_dgeom2 P_dgeom4 P_dgeom5 P_dinertia3 P_barge P_afloat P_hsbox S_dgeom T_dgeom.
Import ListNotations.
Open Scope R_scope.

(** ** C131 *)
(** Full bodies, against the integrals over the enclosed volume, whatever the order in which numpy adds. *)
Theorem C131_plain_inertia : forall fsum fsum' ftotal f6 f9 f12 rho L m,
  (forall j, adds (fsum j)) -> (forall j, adds (fsum' j)) -> adds ftotal ->
  (forall j, adds (f6 j)) -> (forall j, adds (f9 j)) -> (forall j, adds (f12 j)) ->
  extent L m -> valid m -> faces m <> [] -> INR (length (faces m)) <= 100000000000000 ->
  flat_mesh m -> Forall (fun f => 1000 * (ulp1 * (L * L)) <= face_area (verts m) f) (faces m) -> closed_surface (faces m) ->
  / 1000000 <= Rabs rho ->
  let n := INR (length (faces m)) in let A := surface_area m in
  0 < signed_volume vzero m -> 2 * (n * (ulp1 * L * (15 * A + 2810 * (L * L)))) <= signed_volume vzero m ->
  exists d V X Y Z XX YY ZZ YZ XZ XY, plain_inertia_double fsum fsum' ftotal f6 f9 f12 rho m = Ok d /\
    let exact phi x := is_mesh_volume_integral phi m x in
    exact (fun _ => 1) V /\ exact vx X /\ exact vy Y /\ exact vz Z /\
    exact (fun v => vx v * vx v) XX /\ exact (fun v => vy v * vy v) YY /\ exact (fun v => vz v * vz v) ZZ /\
    exact (fun v => vy v * vz v) YZ /\ exact (fun v => vz v * vx v) XZ /\ exact (fun v => vx v * vy v) XY /\
    V = signed_volume vzero m /\
    let moment := Rabs rho * (n * (ulp1 * (4 * (A * L ^ 3) + 1040 * L ^ 5))) in
    let product := Rabs rho * (n * (ulp1 * (3 * (A * L ^ 3) + 800 * L ^ 5))) in
    let q := L * A / V in let p := L ^ 3 / V in
    Rabs (rb_mass d - rho * V) <= Rabs rho * (n * (ulp1 * L * (8 * A + 1410 * (L * L)))) /\
    bounded (n * (ulp1 * L * (1 + 2 * q + 1030 * p + q * (6 * q + 940 * p)))) (vsub (rb_cog d) (V3 (X / V) (Y / V) (Z / V))) /\
    rb_point d = vzero /\
    Rabs (rb_xx d - rho * (YY + ZZ)) <= moment /\ Rabs (rb_yy d - rho * (XX + ZZ)) <= moment /\ Rabs (rb_zz d - rho * (XX + YY)) <= moment /\
    Rabs (rb_yz d - rho * YZ) <= product /\ Rabs (rb_xz d - rho * XZ) <= product /\ Rabs (rb_xy d - rho * XY) <= product /\
    rb_mat d = mtrans (rb_mat d).
Proof.
  intros fsum fsum' ftotal f6 f9 f12 rho L m a1 a2 a3 a6 a9 a12 X V N F P W C D n A V0 BIG.
  pose proof (volume_exact m V P) as EV.
  destruct (plain_near L m X V N F fsum fsum' ftotal f6 f9 f12 rho a1 a2 a3 a6 a9 a12 D (C125_planar L m P W) _ EV V0 BIG) as (d & e & Ed & Ee & R).
  assert (NZ : signed_volume vzero m <> 0) by lra. rewrite (plain_inertia_sums rho m V P C NZ) in Ee. cbv zeta in Ee. injection Ee as <-.
  do 11 eexists. split; [exact Ed|]. cbv zeta.
  split; [apply (cone_sum (fun _ => 1) (tetra vzero)); apply cone0_exact|].
  do 3 (split; [apply cone_sum; intros; apply cone1_exact; unfold coordinate; auto|]).
  do 6 (split; [apply cone_sum; intros; apply cone2_exact; unfold coordinate; auto|]).
  split; [reflexivity|]. destruct R as (R1 & R2 & R3 & R4 & R5 & R6 & R7 & R8 & R9 & R10). unfold rigid_new, rb_xx, rb_yy, rb_zz, rb_yz, rb_xz, rb_xy in *.
  cbn [rb_mass rb_cog rb_mat m00 m11 m22 m01 m02 m12] in R1, R2, R4, R5, R6, R7, R8, R9. rewrite Ropp_involutive in R7, R8, R9.
  split; [exact R1|]. split; [exact R2|]. split; [exact R3|]. split; [exact R4|]. split; [exact R5|]. split; [exact R6|]. split; [exact R7|]. split; [exact R8|]. split; [exact R9|]. exact R10.
Qed.

(** ** C132 *)
(** Hollow bodies: moments against the integrals over the surface, products against them and the term of C19. *)
Theorem C132_shell_inertia : forall fsum fsum' farea g0 g3 g6 rho thickness L m,
  (forall j, adds (fsum j)) -> (forall j, adds (fsum' j)) -> adds farea ->
  (forall j, adds (g0 j)) -> (forall j, adds (g3 j)) -> (forall j, adds (g6 j)) ->
  extent L m -> valid m -> faces m <> [] -> INR (length (faces m)) <= 100000000000000 ->
  let sigma := rho * thickness in / 1000000 <= Rabs sigma ->
  let n := INR (length (faces m)) in let A := surface_area m in
  0 < A -> 8 * (n * (ulp1 * (A + 190 * (L * L)))) <= A ->
  exists d X Y Z XX YY ZZ YZ XZ XY, shell_inertia_double fsum fsum' farea g0 g3 g6 rho thickness m = Ok d /\
    let exact phi x := is_mesh_surface_integral phi m x in
    exact (fun _ => 1) A /\ exact vx X /\ exact vy Y /\ exact vz Z /\
    exact (fun v => vx v * vx v) XX /\ exact (fun v => vy v * vy v) YY /\ exact (fun v => vz v * vz v) ZZ /\
    exact (fun v => vy v * vz v) YZ /\ exact (fun v => vx v * vz v) XZ /\ exact (fun v => vx v * vy v) XY /\
    let err p q := surface_sum (fun a b c => norm (triangle_normal a b c) * (warp p q a b c / 24)) (verts m) (faces m) in
    let moment := Rabs sigma * (n * (ulp1 * (13 * (A * L ^ 2) + 1320 * L ^ 4))) in
    let product := Rabs sigma * (n * (ulp1 * (16 * (A * L ^ 2) + 1760 * L ^ 4))) in
    Rabs (rb_mass d - sigma * A) <= Rabs sigma * (n * (ulp1 * (6 * A + 385 * L ^ 2))) /\
    bounded (n * (ulp1 * L * (8 + 1400 * (L ^ 2 / A)))) (vsub (rb_cog d) (V3 (X / A) (Y / A) (Z / A))) /\
    rb_point d = vzero /\
    Rabs (rb_xx d - sigma * (YY + ZZ)) <= moment /\ Rabs (rb_yy d - sigma * (XX + ZZ)) <= moment /\ Rabs (rb_zz d - sigma * (XX + YY)) <= moment /\
    Rabs (rb_yz d - sigma * (YZ + err vy vz)) <= product /\ Rabs (rb_xz d - sigma * (XZ + err vx vz)) <= product /\
    Rabs (rb_xy d - sigma * (XY + err vx vy)) <= product /\ rb_mat d = mtrans (rb_mat d).
Proof.
  intros fsum fsum' farea g0 g3 g6 rho thickness L m a1 a2 a3 a0 a3' a6 X V N F sigma D n A A0 BIG.
  destruct (shell_near L m X V N F fsum fsum' farea g0 g3 g6 rho thickness a1 a2 a3 a0 a3' a6 D BIG A0) as (d & e & Ed & Ee & R).
  rewrite (shell_sums rho thickness m V) in Ee. cbv zeta in Ee. injection Ee as <-.
  assert (EA : surface_sum (surf e0) (verts m) (faces m) = A).
  { unfold A, surface_area. rewrite <- surface_sum_faces. apply Rsum_map_ext. intros f _. rewrite <- P_dgeom4.props_area, P_quantities.props_area, P_quantities.face_area_sum. reflexivity. }
  rewrite EA in R.
  do 10 eexists. split; [exact Ed|]. cbv zeta.
  split; [rewrite <- EA; apply surface_integral_sum; intros; apply surf0_exact|].
  do 3 (split; [apply surface_integral_sum; intros; apply surf1_exact; unfold coordinate; auto|]).
  do 6 (split; [apply surface_integral_sum; intros; apply surf2_exact; unfold coordinate; auto|]).
  destruct R as (R1 & R2 & R3 & R4 & R5 & R6 & R7 & R8 & R9 & R10). unfold rigid_new, rb_xx, rb_yy, rb_zz, rb_yz, rb_xz, rb_xy in *.
  cbn [rb_mass rb_cog rb_mat m00 m11 m22 m01 m02 m12] in R1, R2, R4, R5, R6, R7, R8, R9. rewrite Ropp_involutive in R7, R8, R9.
  split; [exact R1|]. split; [exact R2|]. split; [exact R3|]. split; [exact R4|]. split; [exact R5|]. split; [exact R6|]. split; [exact R7|]. split; [exact R8|]. split; [exact R9|]. exact R10.
Qed.

(** The box of C125, of 24 cubic metres, filled with sea water: the mass up to 3 * 10^-7 kg, the center of gravity up to 10^-9 m. *)
Example C131_case : forall f, adds f -> exists d X Y Z,
  plain_inertia_double (fun _ => f) (fun _ => f) f (fun _ => f) (fun _ => f) (fun _ => f) 1023 (afloat (-1/2)) = Ok d /\
  is_mesh_volume_integral vx (afloat (-1/2)) X /\ is_mesh_volume_integral vy (afloat (-1/2)) Y /\ is_mesh_volume_integral vz (afloat (-1/2)) Z /\
  Rabs (rb_mass d - 1023 * 24) <= 3 / 10 ^ 7 /\ bounded (1 / 10 ^ 9) (vsub (rb_cog d) (V3 (X / 24) (Y / 24) (Z / 24))).
Proof.
  intros f A. destruct box_areas as [BA BS]. pose proof ulp1_le_9 as U. pose proof ulp1_pos as U0.
  pose proof (volume_exact _ (af_valid (-1/2)) box_flat) as X. rewrite box_whole in X. injection X as X.
  destruct (C131_plain_inertia (fun _ => f) (fun _ => f) f (fun _ => f) (fun _ => f) (fun _ => f) 1023 4 (afloat (-1/2))) as (d & V & x & y & z & XX & YY & ZZ & YZ & XZ & XY & E & H);
    auto using box_extent, af_valid, box_flat, af_closed; try discriminate.
  - cbn. lra.
  - rewrite Rabs_pos_eq; lra.
  - rewrite <- X. lra.
  - rewrite <- X, BS. cbn [length afloat faces box_faces INR]. lra.
  - cbv zeta in H. destruct H as (_ & HX & HY & HZ & _ & _ & _ & _ & _ & _ & EV & HM & HC & _). rewrite EV, <- X in HM, HC. rewrite BS in HM, HC.
    exists d, x, y, z. split; [exact E|]. split; auto. split; auto. split; auto. cbn [length afloat faces box_faces INR] in HM, HC. split.
    + apply Rle_trans with (1 := HM). rewrite Rabs_pos_eq by lra. lra.
    + destruct HC as (C1 & C2 & C3). unfold bounded in *. split; [apply Rle_trans with (1 := C1)|split; [apply Rle_trans with (1 := C2)|apply Rle_trans with (1 := C3)]]; lra.
Qed.
(** Its walls, of 2 cm of steel *)
Example C132_case : forall f, adds f -> exists d,
  shell_inertia_double (fun _ => f) (fun _ => f) f (fun _ => f) (fun _ => f) (fun _ => f) 7850 (2 / 100) (afloat (-1/2)) = Ok d /\
  Rabs (rb_mass d - 7850 * (2 / 100) * 52) <= 1 / 10 ^ 8.
Proof.
  intros f A. destruct box_areas as [BA BS]. pose proof ulp1_le_9 as U. pose proof ulp1_pos as U0.
  destruct (C132_shell_inertia (fun _ => f) (fun _ => f) f (fun _ => f) (fun _ => f) (fun _ => f) 7850 (2 / 100) 4 (afloat (-1/2))) as (d & x & y & z & XX & YY & ZZ & YZ & XZ & XY & E & H);
    auto using box_extent, af_valid; try discriminate.
  - cbn. lra.
  - rewrite Rabs_pos_eq; lra.
  - rewrite BS. lra.
  - rewrite BS. cbn [length afloat faces box_faces INR]. lra.
  - cbv zeta in H. destruct H as (_ & _ & _ & _ & _ & _ & _ & _ & _ & _ & HM & _). rewrite BS in HM. exists d. split; [exact E|].
    apply Rle_trans with (1 := HM). rewrite Rabs_pos_eq by lra. cbn [length afloat faces box_faces INR]. lra.
Qed.
Print Assumptions C131_plain_inertia.
Print Assumptions C132_shell_inertia.
