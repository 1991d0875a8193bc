(** The command line. C77: order of operations; C78: names and formats of files; C92: conversion. *)
From Coq Require Import Ascii String Reals List Arith NArith ZArith Bool Lia Lra.
From Verif Require Import M_base P_base M_merge S_merge M_rotations S_rotations P_rotations M_plane S_plane P_plane M_mesh S_mesh P_mesh T_mesh M_inertia M_geometry M_connectivity M_cache S_cache M_clipper S_clipper
  M_hydro S_hydro P_barge P_afloat S_report S_equil T_equil M_text S_text P_text P_mmio P_columns P_formats M_mmio M_formats S_formats P_dispatch T_mmio T_formats M_cli S_cli P_planes P_cli P_motions T_planes.
Import ListNotations.
Local Open Scope R_scope.

(** ** C77 *)
(** The mesh that is written, for any options: the operations are done in this order on meshes without any cache. The first
    that fails gives the exception. *)
Theorem C77_order : forall dbl other_load argsort order d o, processed dbl other_load argsort order d o =
  do m <- read dbl argsort other_load d o;
  do m <- in_order (optional (o_merge o) (fun w m => do tol <- to_real dbl w; merge_duplicates argsort tol m)) m;
  do planes <- planes_of dbl o;
  do m <- in_order (operations dbl argsort order planes o) m;
  positioned dbl argsort o m.
Proof. intros. apply processed_order. Qed.
(** --heal-normals is nothing more when --heal-mesh is given. *)
Definition with_heal_normals (b : bool) (o : options) : options :=
  mkOptions (o_infile o) (o_outfile o) (o_ifmt o) (o_ofmt o) (o_concat o) (o_merge o) (o_planes o) (o_mirror o) (o_sym o) (o_heal_mesh o) b
    (o_translate o) (o_tx o) (o_ty o) (o_tz o) (o_rotate o) (o_rx o) (o_ry o) (o_rz o) (o_scale o) (o_sx o) (o_sy o) (o_sz o)
    (o_flip o) (o_triangulate o) (o_clip o) (o_hydrostatics o) (o_disp o) (o_cog o) (o_zcog o) (o_rho o) (o_grav o) (o_report o).
Theorem C77_heal_normals_ignored : forall dbl other_load argsort order d o b, o_heal_mesh o = true ->
  processed dbl other_load argsort order d (with_heal_normals b o) = processed dbl other_load argsort order d o.
Proof.
  intros dbl ol argsort order d o b H. rewrite !C77_order. destruct o. cbn in *. subst. unfold with_heal_normals, operations, motions. cbn. rewrite !andb_false_r. reflexivity.
Qed.
(** Without any operation the mesh is the one of the file, with healed triangles. *)
Theorem C77_nothing : forall dbl other_load argsort order d o, no_operation o -> no_motion o ->
  processed dbl other_load argsort order d o = do m <- read dbl argsort other_load d o; Ok (m, None).
Proof.
  intros dbl ol argsort order d o (A & B & C & D & E & F & G & H & I & J & K) M. rewrite C77_order. unfold planes_of, operations, positioned. rewrite B, C, D, E, F, G, H, I, J, K. cbn [optional many only andb negb app mapM bind in_order].
  destruct (read dbl argsort ol d o) as [m|e]; cbn [bind]; [|reflexivity]. rewrite app_nil_r, no_motion_ok by auto. auto.
Qed.
(** Translations, then rotations about the origin, then scalings *)
Theorem C77_moved : forall dbl other_load argsort order d o, no_operation o ->
  (positive_scales o -> processed dbl other_load argsort order d o =
     do m <- read dbl argsort other_load d o; Ok (mkMesh (map (moved_to o) (verts m)) (faces m), None)) /\
  (~ positive_scales o -> processed dbl other_load argsort order d o = do m <- read dbl argsort other_load d o; Raise AssertionError).
Proof.
  intros dbl ol argsort order d o (A & B & C & D & E & F & G & H & I & J & K). rewrite C77_order. unfold planes_of, operations, positioned. rewrite B, C, D, E, F, G, H, I, J, K. cbn [optional many only andb negb app mapM bind in_order].
  destruct (read dbl argsort ol d o) as [m|e]; cbn [bind]; [|auto]. rewrite app_nil_r. destruct (motions_ok o m) as [P N]. split; intros S; [rewrite (P S)|rewrite (N S)]; auto.
Qed.
(** Mirroring comes before: the plane is in the initial frame. *)
Theorem C77_mirrored_then_moved : forall dbl other_load argsort order d o ws n c m, no_operation (mkOptions (o_infile o) (o_outfile o) (o_ifmt o) (o_ofmt o) (o_concat o) (o_merge o) (o_planes o) None (o_sym o) (o_heal_mesh o) (o_heal_normals o)
    (o_translate o) (o_tx o) (o_ty o) (o_tz o) (o_rotate o) (o_rx o) (o_ry o) (o_rz o) (o_scale o) (o_sx o) (o_sy o) (o_sz o)
    (o_flip o) (o_triangulate o) (o_clip o) (o_hydrostatics o) (o_disp o) (o_cog o) (o_zcog o) (o_rho o) (o_grav o) (o_report o)) ->
  o_mirror o = Some ws -> four dbl ws n c -> n <> vzero -> positive_scales o -> read dbl argsort other_load d o = Ok m ->
  exists vs, Forall2 (mirror_image (vscale (/ norm n) n) c) (verts m) vs /\
    processed dbl other_load argsort order d o = Ok (mkMesh (map (moved_to o) vs) (map flip_face (faces m)), None).
Proof.
  intros dbl ol argsort order d o ws n c m (A & B & C & D & E & F & G & H & I & J & K) MI W NZ S RD. cbn in A, B, C, E, F, G, H, I, J, K.
  destruct (C91_chosen_by_four dbl [] ws n c W) as [CH _]. destruct (CH NZ) as (p & CP & _ & PN & PS).
  exists (map (reflect p) (verts m)). split.
  - assert (U : dot (p_normal p) (p_normal p) = 1). { rewrite PN. pose proof (norm_pos n NZ). replace (dot (vscale (/ norm n) n) (vscale (/ norm n) n)) with (/ norm n * / norm n * dot n n) by vring. rewrite <- norm_sqr. field. lra. }
    destruct (C10_mirror_vertices p m U) as [M _]. rewrite PN, PS in M. exact M.
  - rewrite C77_order, RD. unfold planes_of, operations, positioned. rewrite B, C, E, F, G, H, I, J, K, MI. cbn [optional many only andb negb app mapM bind in_order]. rewrite CP. cbn [bind]. rewrite app_nil_r.
    destruct (motions_ok o (mirror p m)) as [P _]. rewrite (P S). auto.
Qed.

(** *** The position found for the hydrostatics *)
(** The mesh is turned and moved up or down, as the data of the report say. *)
Theorem C77_position : forall dbl argsort o m m' h, positioned dbl argsort o m = Ok (m', Some h) ->
  exists z rot cog, is_rotation rot /\ m' = placed_mesh rot z m /\ compute_hydrostatics argsort m cog (o_rho o) (o_grav o) rot z true None false = Ok h /\
    (o_cog o = None -> rot = mid) /\ (o_cog o = None -> o_disp o = None -> z = 0 /\ m' = m).
Proof.
  intros dbl argsort o m m' h E. unfold positioned in E. destruct (o_hydrostatics o); [|discriminate].
  destruct (hydrostatics dbl argsort o m) as [[[h0 z] rot]|] eqn:HS; [|discriminate]. cbn [bind] in E. injection E as <- <-.
  assert (PL : translate_z z (rotate_matrix rot m) = placed_mesh rot z m). { unfold translate_z, rotate_matrix, placed_mesh, placed. cbn [verts faces]. rewrite map_map. auto. }
  assert (ID : z = 0 -> rot = mid -> placed_mesh rot z m = m). { intros -> ->. destruct m as [vs fs]. unfold placed_mesh, placed. cbn [verts faces]. f_equal. rewrite <- (map_id vs) at 2. apply map_ext. intros v. rewrite mvec_id. apply vec_eq; cbn; ring. }
  unfold hydrostatics in HS. destruct (o_cog o) as [[[a b] c]|].
  - destruct (to_vec dbl a b c) as [cog|]; [|discriminate]. cbn [bind] in HS. destruct (match o_disp o with Some disp => Ok disp | None => _ end) as [disp|]; [|discriminate]. cbn [bind] in HS.
    destruct (full_equilibrium argsort m cog disp (o_rho o) (o_grav o) cli_reltol) as [[z1 rot1]|] eqn:FE; [|discriminate]. cbn [bind] in HS.
    destruct (compute_hydrostatics argsort m cog (o_rho o) (o_grav o) rot1 z1 true None false) as [h1|] eqn:CH; [|discriminate]. cbn [bind] in HS. injection HS as <- <- <-.
    exists z1, rot1, cog. split; [apply (C67_rotation _ _ _ _ _ _ _ _ _ FE)|]. split; auto. split; auto. split; discriminate.
  - destruct (o_disp o) as [disp|], (o_zcog o) as [zcog|]; try discriminate.
    + destruct (displacement_equilibrium argsort m disp (o_rho o) (o_grav o) vzero cli_reltol) as [z1|]; [|discriminate]. cbn [bind] in HS.
      destruct (compute_hydrostatics argsort m vzero (o_rho o) (o_grav o) mid z1 false None false) as [h1|]; [|discriminate]. cbn [bind] in HS.
      destruct (compute_hydrostatics argsort m _ (o_rho o) (o_grav o) mid z1 true None false) as [h2|] eqn:CH; [|discriminate]. cbn [bind] in HS. injection HS as <- <- <-.
      do 3 eexists. split; [apply mid_rotation|]. split; [exact PL|]. split; [exact CH|]. split; [auto|discriminate].
    + destruct (compute_hydrostatics argsort m vzero (o_rho o) (o_grav o) mid 0 false None false) as [h1|]; [|discriminate]. cbn [bind] in HS.
      destruct (compute_hydrostatics argsort m _ (o_rho o) (o_grav o) mid 0 true None false) as [h2|] eqn:CH; [|discriminate]. cbn [bind] in HS. injection HS as <- <- <-.
      do 3 eexists. split; [apply mid_rotation|]. split; [exact PL|]. split; [exact CH|]. split; [auto|]. intros _ _. split; auto. rewrite PL. apply ID; auto.
Qed.
(** With a displacement and no centre of gravity, the mesh written has that displacement, or the search has used up its steps. *)
Theorem C77_displacement : forall dbl argsort o m m' h tons H V, sorting argsort -> positioned dbl argsort o m = Ok (m', Some h) ->
  o_cog o = None -> o_disp o = Some tons -> mesh_height m H -> floats_well m' -> is_immersed_integral (fun _ => 1) m' V ->
  Rabs (o_rho o * V - tons * 1000) < 1 / 1000000 * Rabs (tons * 1000) \/
  exists z, m' = placed_mesh mid z m /\
    reach (heave_step (heaved argsort m vzero (o_rho o) (o_grav o)) (tons * 1000) (o_rho o) (1 / 1000000) (H / 5)) 99 0 z.
Proof.
  intros dbl argsort o m m' h tons H V SA E CG DI HH FW IV. unfold positioned in E. destruct (o_hydrostatics o); [|discriminate].
  destruct (hydrostatics dbl argsort o m) as [[[h0 z] rot]|] eqn:HS; [|discriminate]. cbn [bind] in E. injection E as <- _.
  assert (PL : translate_z z (rotate_matrix rot m) = placed_mesh rot z m). { unfold translate_z, rotate_matrix, placed_mesh, placed. cbn [verts faces]. rewrite map_map. auto. }
  rewrite PL in *. clear PL. unfold hydrostatics in HS. rewrite CG, DI in HS. destruct (o_zcog o) as [zcog|]; [|discriminate].
  destruct (displacement_equilibrium argsort m tons (o_rho o) (o_grav o) vzero cli_reltol) as [z1|] eqn:DE; [|discriminate]. cbn [bind] in HS.
  destruct (compute_hydrostatics argsort m vzero (o_rho o) (o_grav o) mid z1 false None false) as [h1|]; [|discriminate]. cbn [bind] in HS.
  destruct (compute_hydrostatics argsort m _ (o_rho o) (o_grav o) mid z1 true None false) as [h2|] eqn:CH; [|discriminate]. cbn [bind] in HS. injection HS as <- <- <-.
  destruct (C65_honest argsort m tons (o_rho o) (o_grav o) vzero cli_reltol H z1 V SA HH DE FW IV) as [L|R]; [left; exact L|right]. exists z1. auto.
Qed.
(** The centre of gravity of the report: the one given, or the one at the height given on the vertical of the centre of
    buoyancy of the same report. *)
Lemma report_data : forall argsort m cog rho grav rot z c h, compute_hydrostatics argsort m cog rho grav rot z c None false = Ok h ->
  exists k i, mesh_clipper argsort water vicinity_tol true (translate_z z (rotate_matrix rot m)) = Ok k /\ eval_plain_mesh_inertias rho (clipped k) = Ok i /\
    h_buoyancy_center h = mvec (mtrans rot) (V3 (vx (rb_cog i)) (vy (rb_cog i)) (vz (rb_cog i) - z)) /\ h_disp_volume h = rb_mass i / rho /\
    h_cog h = cog /\ h_rho_water h = rho /\ h_grav h = grav /\ h_disp_mass h = rho * h_disp_volume h.
Proof.
  intros argsort m cog rho grav rot z c h E. unfold compute_hydrostatics in E.
  destruct (mesh_clipper argsort water vicinity_tol true _) as [k|]; [|discriminate]. cbn [bind] in E.
  destruct (faces_properties (clipped k)) as [props|]; [|discriminate]. cbn [bind] in E.
  destruct (existsb _ _); [discriminate|]. destruct (eval_plain_mesh_inertias rho (clipped k)) as [i|] eqn:I; [|discriminate]. cbn [bind] in E.
  exists k, i. split; auto. split; auto.
  repeat match type of E with
  | bind ?x _ = _ => destruct x as [?|]; [|discriminate]; cbn [bind] in E
  | (let (_, _) := ?p in _) = _ => destruct p
  | (if ?b then _ else _) = _ => destruct b; [discriminate|]
  end.
  injection E as <-. cbn. repeat split; auto.
Qed.
Lemma same_buoyancy : forall argsort m cog cog' rho grav rot z c c' h h',
  compute_hydrostatics argsort m cog rho grav rot z c None false = Ok h -> compute_hydrostatics argsort m cog' rho grav rot z c' None false = Ok h' ->
  h_buoyancy_center h = h_buoyancy_center h' /\ h_disp_volume h = h_disp_volume h'.
Proof.
  intros argsort m cog cog' rho grav rot z c c' h h' E E'. apply report_data in E as (k & i & K & I & B & V & _). apply report_data in E' as (k' & i' & K' & I' & B' & V' & _).
  rewrite K in K'. injection K' as <-. rewrite I in I'. injection I' as <-. rewrite B, B', V, V'. auto.
Qed.
Theorem C77_gravity : forall dbl argsort o m m' h, positioned dbl argsort o m = Ok (m', Some h) ->
  h_rho_water h = o_rho o /\ h_grav h = o_grav o /\
  (forall a b c, o_cog o = Some (a, b, c) -> number dbl a (vx (h_cog h)) /\ number dbl b (vy (h_cog h)) /\ number dbl c (vz (h_cog h))) /\
  (o_cog o = None -> exists zcog, o_zcog o = Some zcog /\ h_cog h = V3 (vx (h_buoyancy_center h)) (vy (h_buoyancy_center h)) zcog).
Proof.
  intros dbl argsort o m m' h E. unfold positioned in E. destruct (o_hydrostatics o); [|discriminate].
  destruct (hydrostatics dbl argsort o m) as [[[h0 z] rot]|] eqn:HS; [|discriminate]. cbn [bind] in E. injection E as <- <-.
  unfold hydrostatics in HS. destruct (o_cog o) as [[[a b] c]|].
  - destruct (to_vec dbl a b c) as [cog|] eqn:TV; [|discriminate]. cbn [bind] in HS. destruct (match o_disp o with Some disp => Ok disp | None => _ end) as [disp|]; [|discriminate]. cbn [bind] in HS.
    destruct (full_equilibrium argsort m _ disp (o_rho o) (o_grav o) cli_reltol) as [[z1 rot1]|] eqn:FE; [|discriminate]. cbn [bind] in HS.
    destruct (compute_hydrostatics argsort m _ (o_rho o) (o_grav o) rot1 z1 true None false) as [h1|] eqn:CH; [|discriminate]. cbn [bind] in HS. injection HS as <- <- <-.
    apply report_data in CH as (k & i & _ & _ & _ & _ & C & R & G & _). split; auto. split; auto. split; [|discriminate].
    intros a' b' c' A. injection A as <- <- <-. rewrite C. clear - TV. unfold to_vec in TV. destruct (to_real dbl a) as [x|] eqn:X; [|discriminate]. destruct (to_real dbl b) as [y|] eqn:Y; [|discriminate].
    destruct (to_real dbl c) as [z|] eqn:Z; [|discriminate]. cbn [bind] in TV. injection TV as <-. cbn [vx vy vz]. rewrite !number_real. auto.
  - assert (X : forall z cog h1 h2 zcog, compute_hydrostatics argsort m cog (o_rho o) (o_grav o) mid z false None false = Ok h1 ->
      compute_hydrostatics argsort m (V3 (vx (h_buoyancy_center h1)) (vy (h_buoyancy_center h1)) zcog) (o_rho o) (o_grav o) mid z true None false = Ok h2 ->
      h_rho_water h2 = o_rho o /\ h_grav h2 = o_grav o /\ h_cog h2 = V3 (vx (h_buoyancy_center h2)) (vy (h_buoyancy_center h2)) zcog).
    { intros z1 cog h1 h2 zcog A B. destruct (same_buoyancy _ _ _ _ _ _ _ _ _ _ _ _ A B) as [Q _]. apply report_data in B as (k & i & _ & _ & _ & _ & C & R & G & _). rewrite C, Q. auto. }
    destruct (o_disp o) as [disp|], (o_zcog o) as [zcog|]; try discriminate.
    + destruct (displacement_equilibrium argsort m disp (o_rho o) (o_grav o) vzero cli_reltol) as [z1|]; [|discriminate]. cbn [bind] in HS.
      destruct (compute_hydrostatics argsort m vzero (o_rho o) (o_grav o) mid z1 false None false) as [h1|] eqn:C1; [|discriminate]. cbn [bind] in HS.
      destruct (compute_hydrostatics argsort m _ (o_rho o) (o_grav o) mid z1 true None false) as [h2|] eqn:CH; [|discriminate]. cbn [bind] in HS. injection HS as <- <- <-.
      destruct (X _ _ _ _ _ C1 CH) as (A & B & C). split; auto. split; auto. split; [discriminate|]. intros _. exists zcog. auto.
    + destruct (compute_hydrostatics argsort m vzero (o_rho o) (o_grav o) mid 0 false None false) as [h1|] eqn:C1; [|discriminate]. cbn [bind] in HS.
      destruct (compute_hydrostatics argsort m _ (o_rho o) (o_grav o) mid 0 true None false) as [h2|] eqn:CH; [|discriminate]. cbn [bind] in HS. injection HS as <- <- <-.
      destruct (X _ _ _ _ _ C1 CH) as (A & B & C). split; auto. split; auto. split; [discriminate|]. intros _. exists zcog. auto.
Qed.
(** With a centre of gravity, the mesh written is balanced, its displacement being the one given or, by default, that of the
    mesh before the search; or the search has used up its steps. *)
Theorem C77_balanced : forall dbl argsort o m m' h H tons, positioned dbl argsort o m = Ok (m', Some h) -> o_cog o <> None -> mesh_height m H -> 0 < tons -> 0 < o_grav o ->
  (o_disp o = Some tons \/ o_disp o = None /\ exists h0, posed argsort m vzero (o_rho o) (o_grav o) mid 0 = Ok h0 /\ tons * 1000 = o_rho o * h_disp_volume h0) ->
  exists z rot, m' = placed_mesh rot z m /\
  ((let b := placed rot z (h_buoyancy_center h) in let g := placed rot z (h_cog h) in
     Rabs (o_rho o * h_disp_volume h - tons * 1000) < 1 / 1000000 * (tons * 1000) /\
     exists hs, posed argsort m (h_cog h) (o_rho o) (o_grav o) rot z = Ok hs /\
       Rabs (vy b - vy g) <= 1 / 1000000 * (Rabs (h_breadth hs) + Rabs (vy b)) /\
       Rabs (vx b - vx g) <= 1 / 1000000 * (Rabs (h_length_at_waterline hs) + Rabs (vx b))) \/
   exists z0, displacement_equilibrium argsort m tons (o_rho o) (o_grav o) vzero (1 / 1000000) = Ok z0 /\
     reach (shift_turn (posed argsort m (h_cog h) (o_rho o) (o_grav o)) (h_cog h) (o_rho o * o_grav o) (tons * 1000 * o_grav o) (1 / 1000000) (H / 5)) 99 (z0, mid) (z, rot)).
Proof.
  intros dbl argsort o m m' h H tons E CG HH T G D. unfold positioned in E. destruct (o_hydrostatics o); [|discriminate].
  destruct (hydrostatics dbl argsort o m) as [[[h0 z] rot]|] eqn:HS; [|discriminate]. cbn [bind] in E. injection E as <- <-.
  assert (PL : translate_z z (rotate_matrix rot m) = placed_mesh rot z m). { unfold translate_z, rotate_matrix, placed_mesh, placed. cbn [verts faces]. rewrite map_map. auto. }
  unfold hydrostatics in HS. destruct (o_cog o) as [[[a b] c]|]; [|congruence]. clear CG.
  destruct (to_vec dbl a b c) as [cog|] eqn:TV; [|discriminate]. cbn [bind] in HS.
  assert (DI : match o_disp o with Some disp => Ok disp | None => do h <- compute_hydrostatics argsort m vzero (o_rho o) (o_grav o) mid 0 false None false; Ok (h_disp_mass h / 1000) end = Ok tons).
  { destruct D as [->|(-> & h1 & P & V)]; auto. unfold posed in P. rewrite P. cbn [bind]. f_equal. apply report_data in P as (k & i & _ & _ & _ & _ & _ & _ & _ & M). rewrite M, <- V. field. }
  rewrite DI in HS. cbn [bind] in HS.
  destruct (full_equilibrium argsort m cog tons (o_rho o) (o_grav o) cli_reltol) as [[z1 rot1]|] eqn:FE; [|discriminate]. cbn [bind] in HS.
  destruct (compute_hydrostatics argsort m cog (o_rho o) (o_grav o) rot1 z1 true None false) as [h1|] eqn:CH; [|discriminate]. cbn [bind] in HS. injection HS as <- <- <-.
  exists z1, rot1. split; auto. assert (C : h_cog h1 = cog) by (apply report_data in CH as (k & i & _ & _ & _ & _ & C & _); auto). rewrite C.
  destruct (C67_honest argsort m cog tons (o_rho o) (o_grav o) cli_reltol H z1 rot1 HH T G FE) as [(hs & P & A & B1 & B2)|R]; [left|right; exact R].
  destruct (same_buoyancy _ _ _ _ _ _ _ _ _ _ _ _ P CH) as [Q V]. rewrite <- Q, <- V. split; auto. exists hs. auto.
Qed.

(** ** C78 *)
(** The name of the file to write, when only a format is given *)
Theorem C78_name : forall o f base ext, o_outfile o = None -> o_ofmt o = Some f -> extension (o_infile o) base ext -> output o = Some (base ++ s "." ++ f, f).
Proof.
  intros o f base ext O F E. unfold output. rewrite O, F. destruct (extension_unique _ _ _ _ _ E (splitext_ok (o_infile o))) as [-> _]. auto.
Qed.
(** It is the file that was read exactly when its extension is that format. *)
Theorem C78_same_file : forall o f base ext, o_outfile o = None -> o_ofmt o = Some f -> extension (o_infile o) base ext ->
  ((exists k, output o = Some (o_infile o, k)) <-> ext = s "." ++ f).
Proof.
  intros o f base ext O F E. rewrite (C78_name o f base ext O F E). destruct E as [E _]. split.
  - intros (k & H). injection H as H _. rewrite E in H. apply app_inv_head in H. auto.
  - intros ->. exists f. rewrite E at 1. auto.
Qed.
(** The format of the file to write: as given, or the extension of its name in small letters. *)
Theorem C78_named : forall o name, o_outfile o = Some name ->
  (forall f, o_ofmt o = Some f -> output o = Some (name, f)) /\
  (forall base e, o_ofmt o = None -> extension name base ("."%char :: e) -> output o = Some (name, lower e)) /\
  (o_ofmt o = None -> extension name name [] -> output o = Some (name, [])).
Proof.
  intros o name O. unfold output. rewrite O. split; [|split].
  - intros f ->. auto.
  - intros base e -> E. destruct (extension_unique _ _ _ _ _ E (splitext_ok name)) as [_ <-]. auto.
  - intros -> E. destruct (extension_unique _ _ _ _ _ E (splitext_ok name)) as [_ <-]. auto.
Qed.
(** The format of the file to read *)
Theorem C78_input_format : forall o,
  (forall f, o_ifmt o = Some f -> input_format o = Ok f) /\
  (forall base e, o_ifmt o = None -> extension (o_infile o) base ("."%char :: e) -> e <> [] -> input_format o = Ok (lower e)) /\
  (forall base ext, o_ifmt o = None -> extension (o_infile o) base ext -> ext = [] \/ ext = s "." -> input_format o = Raise IOError).
Proof.
  intros o. unfold input_format. split; [|split].
  - intros f ->. auto.
  - intros base e -> E N. destruct (extension_unique _ _ _ _ _ E (splitext_ok (o_infile o))) as [_ <-]. cbn [skipn]. destruct e; [contradiction|]. auto.
  - intros base ext -> E N. destruct (extension_unique _ _ _ _ _ E (splitext_ok (o_infile o))) as [_ <-]. destruct N as [->| ->]; auto.
Qed.
(** Capital letters in an extension make no difference; in an explicit format they make it unknown (C75_capitals). *)
Theorem C78_extension_case : forall e e', same_but_case e e' -> lower e = lower e'.
Proof.
  unfold same_but_case, lower. intros e e' H. induction H as [|c c' e e' C H IH]; auto. cbn. rewrite IH. f_equal.
  destruct C as [->|[C|C]]; auto; cbn in C; repeat (destruct C as [C|C]; [injection C as <- <-; reflexivity|]); contradiction.
Qed.
Section Main.
  Variable dbl : N -> Z -> N * positive.
  Variable other_load : fmt -> text -> res (array num * array Z).
  Variable argsort : list R -> list nat.
  Variable order : list nat -> list nat.
  Variable other_write : fmt -> list vertex -> list face -> res text.
  Variable date : text.
  Variable normal_text : vertex -> vertex -> vertex -> text.
  Variable unfinished : fmt -> list vertex -> list face -> text.
  Variable double : R -> num.
  Variable report : hydro -> text.
  Notation main := (main dbl other_load argsort order other_write date normal_text unfinished double report).
  Notation processed := (processed dbl other_load argsort order).

  (** Diodore .dat files cannot be read or written with the format deduced from the extension. *)
  Theorem C78_dat : forall d o base e, same_but_case e (s "dat") ->
    (o_ifmt o = None -> extension (o_infile o) base ("."%char :: e) -> main o d = (Raise IOError, d)) /\
    (forall name m, o_outfile o = Some name -> o_ofmt o = None -> extension name base ("."%char :: e) -> o_hydrostatics o = false -> processed d o = Ok (m, None) -> main o d = (Raise IOError, d)).
  Proof.
    intros d o base e S. pose proof (C78_extension_case e (s "dat") S) as L. change (lower (s "dat")) with (s "dat") in L. split.
    - intros F E. assert (NE : e <> []) by (intros ->; inversion S). unfold M_cli.main. rewrite C77_order. unfold read. destruct (C78_input_format o) as (_ & H & _). rewrite (H base e F E NE), L. cbn [bind]. unfold read_healed.
      destruct (C75_unknown (s "dat") C75_dat_unknown) as [U _]. rewrite U. auto.
    - intros name m O F E HY P. unfold M_cli.main. rewrite P. destruct (C78_named o name O) as (_ & H & _). rewrite (H base e F E), L.
      destruct (C75_unknown (s "dat") C75_dat_unknown) as [_ U]. rewrite U. auto.
  Qed.
  (** Nothing is written when an operation fails. *)
  Theorem C78_failure : forall d o e, processed d o = Raise e -> main o d = (Raise e, d).
  Proof. intros d o e E. unfold M_cli.main. rewrite E. auto. Qed.
  (** Without -o and -ofmt no mesh is written. *)
  Theorem C78_not_asked : forall d o, o_outfile o = None -> o_ofmt o = None -> o_hydrostatics o = false \/ o_report o = None -> snd (main o d) = d.
  Proof.
    intros d o O F HR. unfold M_cli.main. destruct (processed d o) as [[m h]|e] eqn:E; [|auto]. unfold output. rewrite O, F. destruct HR as [H|H].
    - rewrite C77_order in E. unfold positioned in E. rewrite H in E. destruct h; auto. exfalso.
      destruct (read _ _ _ _ _); [|discriminate]. cbn [bind] in E. destruct (in_order _ _); [|discriminate]. cbn [bind] in E. destruct (planes_of _ _); [|discriminate]. cbn [bind] in E. destruct (in_order _ _); discriminate.
    - rewrite H. destruct h; auto.
  Qed.
  (** Only the output file and the report change. *)
  Theorem C78_other_files : forall d o n, (forall name k f place, output o = Some (name, k) -> In k (keywords f) -> written_at f name place -> n <> place) -> o_report o <> Some n -> snd (main o d) n = d n.
  Proof.
    intros d o n O RE. unfold M_cli.main. destruct (processed d o) as [[m h]|e]; [|auto].
    assert (RP : forall h, (match h, o_report o with Some h, Some name => put name (report h) d | _, _ => d end) n = d n).
    { intros [h0|]; [|auto]. destruct (o_report o) as [name|]; auto. unfold put. destruct (list_eq_dec ascii_dec n name); congruence. }
    destruct (output o) as [[name k]|]; [|apply RP]. specialize (O name k). unfold write_mesh. destruct (lookup k extension_dict) as [[r w]|] eqn:L; [|apply RP].
    destruct (not_written w); [apply RP|]. assert (NP : n <> target w name).
    { apply lookup_some in L. pose proof (dict_diagonal k r w L). subst r. apply keyword_in_dict in L. apply (O w (target w name) eq_refl L). apply target_ok. auto. }
    destruct (writer _ _ _ _ _ _ _); cbn [snd]; unfold put at 1; (destruct (list_eq_dec ascii_dec n (target w name)); [contradiction|apply RP]).
  Qed.
  (** What is written. In particular when the file is the one that was read, its text is replaced. *)
  Theorem C78_written : forall d o m name k f, processed d o = Ok (m, None) -> output o = Some (name, k) -> In k (keywords f) -> ~ read_only f ->
    exists place r d' t, main o d = (r, d') /\ written_at f name place /\ (forall n, n <> place -> d' n = d n) /\ d' place <> None /\
      file_text other_write date normal_text f name (map (fun v => (double (vx v), double (vy v), double (vz v))) (verts m)) (faces m) t /\
      match t with Ok t => r = Ok tt /\ d' place = Some t | Raise e => r = Raise e end.
  Proof.
    intros d o m name k f P O K R. unfold M_cli.main. rewrite P, O. apply (C75_writes other_write date normal_text unfinished name _ (faces m) k d f K R).
  Qed.
  (** With -ofmt diodore-dat and no -o, the name of the file is that of the input file with the extension .DIODORE-DAT. *)
  Theorem C78_dat_name : forall d o m base ext, processed d o = Ok (m, None) -> o_outfile o = None -> o_ofmt o = Some (s "diodore-dat") -> extension (o_infile o) base ext -> ext <> [] ->
    exists d', main o d = (Ok tt, d') /\ d' (base ++ s ".DIODORE-DAT") <> None /\ forall n, n <> base ++ s ".DIODORE-DAT" -> d' n = d n.
  Proof.
    intros d o m base ext P O F X NE. pose proof (C78_name o (s "diodore-dat") base ext O F X) as OUT.
    assert (W : written_at DAT (base ++ s "." ++ s "diodore-dat") (base ++ s ".DIODORE-DAT")).
    { exists base, (s ".diodore-dat"), (s ".DIODORE-DAT"). split; [|split; [apply upper_capitals|]; reflexivity].
      destruct X as [E (dir & name & PA & PE & H)]. destruct H as [(stem & e & -> & -> & ND & c & I & N)|[-> H]]; [|contradiction].
      split; auto. exists dir, (stem ++ s ".diodore-dat"). split; [|split; [rewrite <- app_assoc; auto|]].
      - destruct PA as [PA1 PA2]. split; auto. intros SL. apply PA1. rewrite E in PE. rewrite <- app_assoc in PE. apply app_inv_head in PE. rewrite <- PE. apply in_or_app. apply in_app_or in SL as [SL|SL]; auto.
        exfalso. cbn in SL. intuition discriminate.
      - left. exists stem, (s "diodore-dat"). split; auto. split; auto. split; [cbn; intuition discriminate|]. eauto. }
    destruct (C78_written d o m _ _ DAT P OUT) as (place & r & d' & t & M & A & N & S & T & H); [cbn; auto|intros R; cbn in R; intuition discriminate|].
    apply target_ok in A, W. rewrite <- W in A. subst place. destruct T as (b & e & c & _ & _ & ->). destruct H as [-> _]. exists d'. auto.
  Qed.
  Theorem C78_unknown_format : forall d o m name k, processed d o = Ok (m, None) -> output o = Some (name, k) -> (forall f, ~ In k (keywords f)) -> main o d = (Raise IOError, d).
  Proof. intros d o m name k P O U. unfold M_cli.main. rewrite P, O. destruct (C75_unknown k U) as [_ W]. apply W. Qed.
  Theorem C78_cannot_be_written : forall d o m name k f, processed d o = Ok (m, None) -> output o = Some (name, k) -> In k (keywords f) -> read_only f -> main o d = (Raise NotImplementedError, d).
  Proof. intros d o m name k f P O K R. unfold M_cli.main. rewrite P, O. eapply C75_read_only; eauto. Qed.

  (** ** C92 *)
  Definition vec_of (v : vertex) : vec := let '(x, y, z) := v in V3 (real x) (real y) (real z).
  Lemma mesh_of_rows : forall vs fs, mesh_of (Arr2 (map coordinates vs), Arr2 (map face_row fs)) = Ok (mkMesh (map vec_of vs) fs).
  Proof.
    intros vs fs. unfold mesh_of. assert (V : mapM row3 (map coordinates vs) = Ok (map vec_of vs)).
    { induction vs as [|[[x y] z] vs IH]; auto. cbn [map mapM]. rewrite IH. reflexivity. }
    assert (IX : forall n, index (Z.of_nat n) = Ok n). { intros n. unfold index. destruct (Z.ltb_spec (Z.of_nat n) 0); [lia|]. rewrite Nat2Z.id. auto. }
    assert (F : mapM row4 (map face_row fs) = Ok fs).
    { induction fs as [|[a b c e] fs IH]; auto. cbn [map mapM]. rewrite IH. unfold face_row, row4. cbn [map corners f0 f1 f2 f3]. rewrite !IX. reflexivity. }
    rewrite V. cbn [bind]. rewrite F. auto.
  Qed.
  (** A face with triangles written the usual way *)
  Definition healed_face (f g : face) : Prop := In g (rotations f) /\ (is_triangle g = true <-> repeated f) /\ (is_triangle f = true -> g = f).
  Theorem C92_conversion : forall d o name k k' f vs fs, no_operation o -> no_motion o ->
    input_format o = Ok k -> load_mesh dbl other_load d (o_infile o) k = Ok (Arr2 (map coordinates vs), Arr2 (map face_row fs)) ->
    (forall v x, In v vs -> In x (coordinates v) -> double (real x) = x) ->
    output o = Some (name, k') -> In k' (keywords f) -> ~ read_only f ->
    exists fs' place r d' t, Forall2 healed_face fs fs' /\ main o d = (r, d') /\ written_at f name place /\ (forall n, n <> place -> d' n = d n) /\
      file_text other_write date normal_text f name vs fs' t /\
      match t with Ok t => r = Ok tt /\ d' place = Some t | Raise e => r = Raise e end.
  Proof.
    intros d o name k k' f vs fs NO NM IF LD DB OUT K RO. set (m := mkMesh (map vec_of vs) fs).
    assert (P : processed d o = Ok (heal_triangles m, None)).
    { rewrite C77_nothing by auto. unfold read, read_healed. rewrite IF. cbn [bind]. rewrite LD. cbn [bind]. rewrite mesh_of_rows. cbn [bind]. destruct NO as (-> & _). auto. }
    destruct (C07_heal_triangles m) as (HV & HF & _). cbn [faces verts m] in HF, HV.
    destruct (C78_written d o _ name k' f P OUT K RO) as (place & r & d' & t & M & A & N & _ & W & H).
    assert (EV : map (fun v => (double (vx v), double (vy v), double (vz v))) (verts (heal_triangles m)) = vs).
    { rewrite HV. unfold m. cbn [verts]. rewrite map_map. rewrite <- (map_id vs) at 2. apply map_ext_in. intros [[x y] z] I. cbn [vec_of vx vy vz]. rewrite !(DB _ _ I) by (cbn; auto). auto. }
    rewrite EV in W. exists (faces (heal_triangles m)), place, r, d', t. split; auto.
  Qed.
  (** From .mar to .nem: when the numbers read are doubles, and none is a zero with a minus sign (the model takes the
      coordinates of meshes as real numbers), the file is the one that would have been written from the first mesh. *)
  Theorem C92_mar_to_nem : forall d o name k k' vs fs, doubles dbl -> vs <> [] -> fs <> [] -> in_columns 8 vs -> readable_ids fs ->
    no_operation o -> no_motion o -> input_format o = Ok k -> In k (keywords MAR) -> d (o_infile o) = Some (write_MAR vs fs) ->
    (forall v x y, In v vs -> In x (coordinates v) -> saved_fixed dbl 6 x y -> double (real y) = y) ->
    output o = Some (name, k') -> In k' (keywords NEM) ->
    exists fs' d', Forall2 healed_face fs fs' /\ main o d = (Ok tt, d') /\ (forall n, n <> name -> d' n = d n) /\ d' name = Some (write_NEM vs fs').
  Proof.
    intros d o name k k' vs fs D V F C I NO NM IF K DI DB OUT K'. destruct (C68_round_trip dbl vs fs V F C I) as (rows & L & S).
    assert (RW : exists vs', rows = map coordinates vs' /\ Forall2 (same_text (fixed_point 6)) vs vs' /\ (forall v x, In v vs' -> In x (coordinates v) -> double (real x) = x)).
    { clear -S D C DB. induction S as [|v row vs rows SV S IH]; [exists []; split; [reflexivity|split; [constructor|intros v x []]]|].
      destruct IH as (vs' & -> & ST & NB); [intros v0 x V0 X0; apply (C v0 x); [right; auto|auto]|intros v0 x y V0 X0; apply (DB v0 x y); [right; auto|auto]|].
      destruct v as [[x y] z]. unfold saved_vertex in SV. cbn [coordinates] in SV. inversion SV as [|? x' ? ? X SV1]; subst. inversion SV1 as [|? y' ? ? Y SV2]; subst. inversion SV2 as [|? z' ? ? Z SV3]; subst. inversion SV3; subst.
      assert (Q : forall a b, In a [x; y; z] -> saved_fixed dbl 6 a b -> fixed_point 6 b = fixed_point 6 a /\ double (real b) = b).
      { intros a b A SB. split.
        - apply (C73_idempotent dbl 6 a b D); [lia| |apply C73_read; auto]. apply (room_stable 6 8); [lia|]. apply (C (x, y, z)); [left; auto|auto].
        - apply (DB (x, y, z) a b); [left; auto|auto|auto]. }
      destruct (Q x x') as [QX NX]; [cbn; auto|auto|]. destruct (Q y y') as [QY NY]; [cbn; auto|auto|]. destruct (Q z z') as [QZ NZ]; [cbn; auto|auto|].
      exists ((x', y', z') :: vs'). split; [reflexivity|]. split.
      - constructor; auto. unfold same_text. cbn. rewrite QX, QY, QZ. auto.
      - intros v0 a [<-|V0] A; [|apply (NB v0 a V0 A)]. cbn in A. destruct A as [<-|[<-|[<-|[]]]]; auto. }
    destruct RW as (vs' & -> & ST & NB).
    assert (LD : load_mesh dbl other_load d (o_infile o) k = Ok (Arr2 (map coordinates vs'), Arr2 (map face_row fs))) by (rewrite (C75_loads dbl other_load d _ _ k MAR DI K); exact L).
    destruct (C92_conversion d o name k k' NEM vs' fs NO NM IF LD NB OUT K') as (fs' & place & r & d' & t & HF & M & A & N & W & H); [intros R0; cbn in R0; intuition discriminate|].
    cbn in A, W. subst place t. destruct H as [-> W].
    exists fs', d'. split; auto. split; auto. split; auto. rewrite W. f_equal. symmetry. apply write_NEM_same. auto.
  Qed.
End Main.

(** ** Examples *)
Definition convert (infile : text) (outfile ofmt : option text) : options :=
  mkOptions infile outfile None ofmt None None None None None false false None None None None None None None None None None None None
    false false None false None None None 1025 (981 / 100) None.
Example convert_nothing : forall i o f, no_operation (convert i o f) /\ no_motion (convert i o f).
Proof. intros. repeat split. Qed.
(** The file that is read is overwritten. *)
Example overwritten : output (convert (s "hull.mar") None (Some (s "mar"))) = Some (s "hull.mar", s "mar") /\
  output (convert (s "hull.MAR") None (Some (s "mar"))) = Some (s "hull.mar", s "mar") /\
  output (convert (s "a.b/hull") None (Some (s "nem"))) = Some (s "a.b/hull.nem", s "nem") /\
  output (convert (s "hull.mar") (Some (s "x.NEM")) None) = Some (s "x.NEM", s "nem").
Proof. repeat split. Qed.
Example overwritten_extension : extension (s "hull.mar") (s "hull") (s "." ++ s "mar").
Proof. exact (splitext_ok (s "hull.mar")). Qed.

(** A triangle and a square, from .mar to .nem *)
Definition q (n : N) (p : positive) : num := Num false n p.
Definition sail_vs : list vertex := [(q 0 1, q 0 1, q 0 1); (q 1 1, q 0 1, q 0 1); (q 1 1, q 1 3, q 0 1); (q 0 1, q 1 3, q 0 1); (q 0 1, q 2 3, q 7 2)].
Definition sail_fs : list face := [F4 0 1 2 3; F4 3 3 2 4].
Fixpoint pick (l : list num) (r : R) : num := match l with [] => Num false 0 1 | x :: l' => if Req_EM_T r (real x) then x else pick l' r end.
Definition sail_doubles : list num := map (fun n => q n 1000000) [0%N; 1000000%N; 333333%N; 666667%N; 3500000%N].
Lemma real_q : forall n m, real (q n 1000000) = real (q m 1000000) -> n = m.
Proof.
  intros n m E. unfold real, q in E. cbn [neg top bot] in E. unfold Q2R in E. cbn [QArith_base.Qnum QArith_base.Qden] in E. apply Rmult_eq_reg_r in E.
  - apply eq_IZR in E. lia.
  - apply Rinv_neq_0_compat. apply IZR_neq. lia.
Qed.
Lemma sail_pick : forall v x y, In v sail_vs -> In x (coordinates v) -> saved_fixed exact_dbl 6 x y -> pick sail_doubles (real y) = y.
Proof.
  intros v x y V X S. apply saved_fixed_unique in S. subst y.
  assert (I : exists n, In n [0%N; 1000000%N; 333333%N; 666667%N; 3500000%N] /\ rd_fixed exact_dbl 6 x = q n 1000000).
  { cbn in V. repeat (destruct V as [<-|V]; [cbn in X; repeat (destruct X as [<-|X]; [eexists; (split; [|vm_compute; reflexivity]); cbn; tauto|]); contradiction|]). contradiction. }
  destruct I as (n & I & ->). unfold sail_doubles. revert I. generalize [0%N; 1000000%N; 333333%N; 666667%N; 3500000%N]. intros l. induction l as [|a l IH]; intros I; [contradiction|].
  cbn [map pick]. destruct (Req_EM_T (real (q n 1000000)) (real (q a 1000000))) as [E|E]; [apply real_q in E; congruence|]. apply IH. destruct I as [->|I]; [contradiction|auto].
Qed.
Definition sail_disk : disk := put (s "sail.mar") (write_MAR sail_vs sail_fs) no_disk.
Example sail_converted : forall ol argsort order ow dt nt un report, exists fs' d', Forall2 healed_face sail_fs fs' /\
  main exact_dbl ol argsort order ow dt nt un (pick sail_doubles) report (convert (s "sail.mar") None (Some (s "nem"))) sail_disk = (Ok tt, d') /\
  d' (s "sail.mar") = Some (write_MAR sail_vs sail_fs) /\ d' (s "sail.nem") = Some (write_NEM sail_vs fs').
Proof.
  intros.
  assert (C : in_columns 8 sail_vs).
  { intros v x V X. apply fixed_point_length; [lia|]. apply Nat.leb_le. cbn in V. repeat (destruct V as [<-|V]; [cbn in X; repeat (destruct X as [<-|X]; [vm_compute; reflexivity|]); contradiction|]). contradiction. }
  assert (I : readable_ids sail_fs) by (repeat constructor; vm_compute; reflexivity).
  assert (V : sail_vs <> []) by discriminate. assert (F : sail_fs <> []) by discriminate.
  assert (IF : input_format (convert (s "sail.mar") None (Some (s "nem"))) = Ok (s "mar")) by reflexivity.
  assert (K : In (s "mar") (keywords MAR)) by (cbn; auto). assert (K' : In (s "nem") (keywords NEM)) by (cbn; auto).
  assert (OUT : output (convert (s "sail.mar") None (Some (s "nem"))) = Some (s "sail.nem", s "nem")) by reflexivity.
  assert (DI : sail_disk (o_infile (convert (s "sail.mar") None (Some (s "nem")))) = Some (write_MAR sail_vs sail_fs)).
  { unfold sail_disk, put. destruct (list_eq_dec ascii_dec _ _) as [_|E]; [reflexivity|]. destruct E. reflexivity. }
  destruct (C92_mar_to_nem exact_dbl ol argsort order ow dt nt un (pick sail_doubles) report sail_disk (convert (s "sail.mar") None (Some (s "nem"))) (s "sail.nem") (s "mar") (s "nem") sail_vs sail_fs
    exact_doubles V F C I (proj1 (convert_nothing _ _ _)) (proj2 (convert_nothing _ _ _)) IF K DI sail_pick OUT K') as (fs' & d' & H & M & N & W).
  exists fs', d'. split; [exact H|]. split; [exact M|]. split; [|exact W]. rewrite N by discriminate. exact DI.
Qed.
(** Translation by 1 along x, then a quarter turn, then twice as large *)
Definition moved_options : options :=
  mkOptions (s "hull.mar") None None None None None None None None false false None (Some 1) None None None None None (Some 90) (Some 2) None None None
    false false None false None None None 1025 (981 / 100) None.
Example moved_case : no_operation moved_options /\ positive_scales moved_options /\ moved_to moved_options (V3 0 0 0) = V3 0 2 0.
Proof.
  split; [repeat split|]. split; [unfold positive_scales; cbn; lra|]. unfold moved_to, shifted, turned_by, sized. cbn [moved_options o_translate o_tx o_ty o_tz o_rotate o_rx o_ry o_rz o_scale o_sx o_sy o_sz or_zero or_one].
  rewrite !mvec_mul, about_zero, !mvec_id. unfold radians. replace (0 * PI / 180) with 0 by field. replace (90 * PI / 180) with (PI / 2) by field. unfold cardan_to_rotmat. rewrite !cos_0, !sin_0, cos_PI2, sin_PI2. apply vec_eq; vunfold; cbn; ring.
Qed.

(** A box in water with its centre of gravity on the vertical of its centre of buoyancy, with and without a displacement *)
Definition floating (disp : option R) (cog : option (text * text * text)) (zcog : option R) : options :=
  mkOptions (s "box.mar") None None None None None None None None false false None None None None None None None None None None None None
    false false None true disp cog zcog 1025 (981 / 100) None.
Lemma to_vec_case : to_vec exact_dbl (s "2") (s "1") (s "0.5") = Ok (V3 2 1 (1 / 2)).
Proof.
  unfold to_vec, to_real. cbn [bind].
  replace (to_float exact_dbl (s "2")) with (Ok (Num false 2 1)) by (vm_compute; reflexivity).
  replace (to_float exact_dbl (s "1")) with (Ok (Num false 1 1)) by (vm_compute; reflexivity).
  replace (to_float exact_dbl (s "0.5")) with (Ok (Num false 5 10)) by (vm_compute; reflexivity).
  cbn [bind]. f_equal. unfold real, Q2R. cbn. apply vec_eq; cbn; lra.
Qed.
Example floating_case : forall argsort disp, sorting argsort -> disp = None \/ disp = Some 12 -> exists m' h,
  positioned exact_dbl argsort (floating disp (Some (s "2", s "1", s "0.5")) None) (afloat 0) = Ok (m', Some h).
Proof.
  intros argsort disp SA D.
  assert (F : exists tons, match disp with Some disp => Ok disp | None => do h <- compute_hydrostatics argsort (afloat 0) vzero 1025 (981 / 100) mid 0 false None false; Ok (h_disp_mass h / 1000) end = Ok tons /\
    8 * 1025 * (1 / 100) < tons * 1000 < 8 * 1025 * (3 - 1 / 100)).
  { destruct D as [->| ->]; [|exists 12; split; auto; lra]. assert (Z : -2 + 1 / 500 < 0 < 1 - 1 / 500) by lra.
    destruct (box_ok argsort 0 1025 (981 / 100) vzero false None false SA Z) as (h & E); try lra. rewrite E. cbn [bind]. eexists. split; [reflexivity|].
    destruct (report_data _ _ _ _ _ _ _ _ _ E) as (k & i & _ & _ & _ & _ & _ & _ & _ & M). rewrite M, (box_volume argsort 0 1025 (981 / 100) vzero false None false SA Z h E). lra. }
  destruct F as (tons & F & T). destruct (box_at_rest argsort tons 1025 (981 / 100) (1 / 2) (1 / 1000000) SA) as (z & E & M); try lra.
  assert (Z : -2 + 1 / 500 < z < 1 - 1 / 500) by (clear - M T; apply Rabs_def2 in M; lra).
  destruct (box_ok argsort z 1025 (981 / 100) (V3 2 1 (1 / 2)) true None false SA Z) as (h & EH); try lra.
  eexists _, h. unfold positioned, hydrostatics, floating. cbn [o_hydrostatics o_cog o_disp o_rho o_grav]. rewrite to_vec_case. cbn [bind]. rewrite F. cbn [bind]. change cli_reltol with (1 / 1000000). rewrite E. cbn [bind]. rewrite EH. reflexivity.
Qed.

Print Assumptions C77_gravity. Print Assumptions C77_balanced.
Print Assumptions C77_order. Print Assumptions C77_heal_normals_ignored. Print Assumptions C77_nothing. Print Assumptions C77_moved. Print Assumptions C77_mirrored_then_moved. Print Assumptions C77_position. Print Assumptions C77_displacement.
Print Assumptions C78_name. Print Assumptions C78_same_file. Print Assumptions C78_named. Print Assumptions C78_input_format. Print Assumptions C78_extension_case. Print Assumptions C78_dat. Print Assumptions C78_failure.
Print Assumptions C78_not_asked. Print Assumptions C78_other_files. Print Assumptions C78_written. Print Assumptions C78_dat_name. Print Assumptions C78_unknown_format. Print Assumptions C78_cannot_be_written.
Print Assumptions C92_conversion. Print Assumptions C92_mar_to_nem.
