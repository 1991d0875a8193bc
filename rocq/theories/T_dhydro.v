(** Property C127: the position of a body, its wetted surface, its displaced volume and its displaced mass in double precision. *)
From Coq Require Import Reals Lra Lia List Arith Bool Psatz ZArith.
From Flocq Require Import Core.
From Verif Require Import M_base P_base M_merge P_merge S_merge M_rotations S_rotations M_plane M_mesh S_mesh P_mesh S_integral P_integral S_geometry M_geometry P_geometry S_connectivity M_connectivity M_clipper S_clipper P_cut P_clipper P_curves P_hull
  P_sharp P_archimedes M_inertia M_hydro S_hydro P_hydro P_hydro2 P_wetted P_extent P_cones P_immersed P_barge P_report T_hydro P_hsbox M_double S_double P_double P_double2 P_double3 P_double4 M_dgeom P_dgeom S_dgeom P_dgeom4 P_dgeom5
  M_dclip S_dclip P_dclip P_dclip4 M_dhydro P_dvol P_dhydro P_dhydro2.
Import ListNotations.
Open Scope R_scope.

(** ** C127 *)
(** The body in its position: each vertex at its place up to a few roundings, the faces as they were. *)
Theorem C127_place : forall fdots rot z L m, (forall i j, computes_dot (fdots i j)) -> smallest <= L -> Rabs z <= L ->
  bounded 1 (row0 rot) -> bounded 1 (row1 rot) -> bounded 1 (row2 rot) ->
  Forall (bounded L) (verts m) ->
  faces (place_double fdots rot z m) = faces m /\
  Forall2 (near_point (23 * (u * L))) (verts (placed_mesh rot z m)) (verts (place_double fdots rot z m)).
Proof. intros. apply place_near; auto. Qed.

(** A body in its position, in double precision, with coordinates up to [L] and vertices at the sea level or at [g] of it: whatever the order of
    the sums and of the sorts, the three numbers of the report are those of the immersed part of that body, up to roundings: of the order of [n u] for
    the sums over the [n] faces, and of [n d / L] for the displacements [d] of the vertices of the waterline. *)
Theorem C127_displacement : forall argsort argsort' fdots fdot fsum fsum' farea ftotal rho L g M k dir,
  sorting argsort -> sorting argsort' -> (forall j, computes_dot (fdots j)) -> computes_dot fdot -> (forall j, adds (fsum j)) -> (forall j, adds (fsum' j)) ->
  adds farea -> adds ftotal ->
  1 / 1000 <= L <= 10000000000 -> 1 / 900 <= g -> let d := 190 * (u * (L * L) / g) in d <= 1 / 400000000 -> / 1000000 <= Rabs rho ->
  floats_well M -> strict_mesh M -> Forall (bounded L) (verts M) -> Forall (firm sea_level close (24 * (u * L)) g) (verts M) ->
  well_spread (1 / 50000) (cut_point sea_level close M) ->
  mesh_clipper argsort water vicinity_tol true M = Ok k -> faces (clipped k) <> [] ->
  let n := INR (length (faces (clipped k))) in n <= 100000000000000 ->
  Forall (fun f => 1010 * (u * (L * L)) + 100 * (L * d) <= face_area (verts (clipped k)) f) (faces (clipped k)) ->
  (forall f, In f (faces M) -> S_geometry.unit (dir f) /\ turns_along (dir f) (outline (verts M) f)) ->
  let A := Rsum (map (fun f => fan_area (dir f) (immersed_fan sea_level close (outline (verts M) f))) (faces M)) in
  exists wet vol mass V, displacement_double argsort' fdots fdot fsum fsum' farea ftotal rho M = Ok (wet, vol, mass) /\
    is_immersed_integral (fun _ => 1) M V /\
    Rabs (wet - A) <= n * (u * (3 * A + 400 * (L * L)) + 36 * (L * d)) /\
    Rabs (vol - V) <= n * (u * L * (11 * A + 1500 * (L * L)) + 270 * (L * L * d)) /\
    Rabs (mass - rho * V) <= Rabs rho * (n * (u * L * (13 * A + 1600 * (L * L)) + 280 * (L * L * d))).
Proof.
  intros argsort argsort' fdots fdot fsum fsum' farea ftotal rho L g M k dir SA SA' DS DT A1 A2 A3 A4 [L1 L2] G d D1 RH FW SM BV FV WS CL NE n FEW WD DIR A.
  exact (displacement_near argsort argsort' fdots fdot fsum fsum' farea ftotal rho L g M k dir SA SA' DS DT A1 A2 A3 A4 L1 L2 G D1 RH FW SM BV FV WS CL NE FEW WD DIR).
Qed.

(** ** The box of C85, half of its depth in the water, whatever the roundings *)
Section Box.
  Variables (argsort : list R -> list nat) (k : clipper).
  Hypothesis SA : sorting argsort.
  Let z := -1 / 2.
  Let Z : -2 + 1 / 500 < z < 1 - 1 / 500. Proof. unfold z. lra. Qed.
  Hypothesis CL : mesh_clipper argsort water vicinity_tol true (afloat z) = Ok k.
  Definition box_dir (f : face) : vec :=
    match f0 f, f1 f with 0, 3 => V3 0 0 (-1) | 4, _ => V3 0 0 1 | 0, _ => V3 0 (-1) 0 | 1, _ => V3 1 0 0 | 2, _ => V3 0 1 0 | _, _ => V3 (-1) 0 0 end%nat.
  Lemma box_dirs : forall f, In f (faces (afloat z)) -> S_geometry.unit (box_dir f) /\ turns_along (box_dir f) (outline (verts (afloat z)) f).
  Proof.
    assert (D : forall u a b c, 0 <= dot u (triangle_normal a b c) -> triangle_normal a b c = vscale (dot u (triangle_normal a b c)) u -> along u (triangle_normal a b c)) by (intros v a b c H E'; exists (dot v (triangle_normal a b c)); auto).
    intros f I. cbn in I. repeat (destruct I as [<-|I]; [split; [unfold box_dir, S_geometry.unit; cbn; vunfold; field|];
        unfold box_dir; cbn; repeat split; (apply D; [|apply vec_eq]; unfold triangle_normal; vunfold; lra)|]). contradiction.
  Qed.
  Lemma box_wet : Rsum (map (fun f => fan_area (box_dir f) (immersed_fan sea_level close (outline (verts (afloat z)) f))) (faces (afloat z))) = 26.
  Proof.
    unfold afloat, box_faces. cbn [faces verts map]. unfold immersed_fan, immersed_border, box_dir. cbn.
    unfold face_waterline, touching, entering, leaving. cbn. unfold z. sides. cbn [Datatypes.app map fst snd].
    assert (S : forall a b, meet sea_level (V3 a b (-1 / 2 - 1)) (V3 a b (-1 / 2 + 2)) = V3 a b 0)
      by (intros; apply sea_meet; rewrite ?sea_height; cbn [vz]; try lra; unfold vscale, vadd; cbn [vx vy vz]; f_equal; lra).
    assert (S' : forall a b, meet sea_level (V3 a b (-1 / 2 + 2)) (V3 a b (-1 / 2 - 1)) = V3 a b 0)
      by (intros; apply sea_meet; rewrite ?sea_height; cbn [vz]; try lra; unfold vscale, vadd; cbn [vx vy vz]; f_equal; lra).
    rewrite ?S, ?S'. unfold Rsum, fan_area, triangle_normal. cbv [Datatypes.app map fold_right fst snd Rsum]. vunfold. field.
  Qed.
  Lemma box_faces_wide : Forall (fun f => 1 / 8 <= face_area (verts (clipped k)) f) (faces (clipped k)).
  Proof.
    destruct (clip_wetted argsort SA (afloat z) k (af_floats z Z) CL) as (WT & _ & PM). specialize (PM (af_strict z)). pose proof (wt_valid _ _ WT) as VC.
    destruct (clipper_lined_ok sea_level close close_pos argsort SA true (afloat z) k (af_valid z) (af_settled z Z) (af_convex z) (af_unpinched z Z) CL)
      as (direct & inv & name & low & cr & LI & _). assert (LR : Forall (cut_point sea_level close (afloat z)) (verts (clipped k))) by (destruct LI; assumption).
    rewrite Forall_forall. intros f IF. pose proof (valid_in _ f VC IF) as (V0 & V1 & V2 & V3').
    assert (HZ : half z) by (exists (-1)%Z; unfold z; reflexivity).
    assert (HP : forall i, (i < length (verts (clipped k)))%nat -> half_point (point (verts (clipped k)) i)).
    { intros i Hi. apply (box_half z HZ). apply (af_points z). rewrite Forall_forall in LR. apply LR. apply nth_In. auto. }
    unfold proper_mesh in PM. rewrite Forall_forall in PM. specialize (PM f IF). unfold proper_face in PM.
    assert (BG : forall i j l, (i < length (verts (clipped k)))%nat -> (j < length (verts (clipped k)))%nat -> (l < length (verts (clipped k)))%nat ->
      let vs := verts (clipped k) in triangle_normal (point vs i) (point vs j) (point vs l) <> vzero -> 1 / 8 <= triangle_area (point vs i) (point vs j) (point vs l)).
    { intros i j l Hi Hj Hl vs N. unfold triangle_area. pose proof (half_normal _ _ _ (HP _ Hi) (HP _ Hj) (HP _ Hl) N) as H. unfold triangle_normal. fold vs in H. lra. }
    assert (PO : forall a b c, 0 <= triangle_area a b c) by (intros a b c; unfold triangle_area; pose proof (P_dgeom.norm_pos (triangle_normal a b c)); lra).
    unfold face_area. destruct (Nat.eq_dec (f0 f) (f3 f)) as [T|T].
    - exact (BG _ _ _ V0 V1 V2 PM).
    - destruct PM as (_ & [P|P]).
      + pose proof (BG _ _ _ V0 V1 V2 P) as B. cbv zeta in B. pose proof (PO (point (verts (clipped k)) (f0 f)) (point (verts (clipped k)) (f2 f)) (point (verts (clipped k)) (f3 f))). lra.
      + pose proof (BG _ _ _ V0 V2 V3' P) as B. cbv zeta in B. pose proof (PO (point (verts (clipped k)) (f0 f)) (point (verts (clipped k)) (f1 f)) (point (verts (clipped k)) (f2 f))). lra.
  Qed.
  Lemma box_count : INR (length (faces (clipped k))) <= 208.
  Proof.
    destruct (clip_wetted argsort SA (afloat z) k (af_floats z Z) CL) as (WT & _ & _). pose proof (wt_valid _ _ WT) as VC.
    pose proof (wet_area argsort SA (afloat z) (af_floats z Z) k CL _ box_dir (faces_properties_ok _ VC) box_dirs) as W. rewrite box_wet, map_map in W.
    assert (K : forall fs, Forall (fun f => 1 / 8 <= face_area (verts (clipped k)) f) fs -> INR (length fs) * (1 / 8) <= Rsum (map (fun f => fp_area (props_of (verts (clipped k)) f)) fs)).
    { intros fs F. induction F as [|f fs H F IH]; [cbn; lra|]. cbn [length map]. rewrite S_INR. unfold Rsum in *. cbn [fold_right]. rewrite props_area. lra. }
    specialize (K _ box_faces_wide). lra.
  Qed.
  Lemma box_some : faces (clipped k) <> [].
  Proof. intros E. pose proof (af_volume z Z argsort SA k CL) as V. unfold signed_volume, surface_sum, mesh_triangles in V. rewrite E in V. cbn in V. unfold z in V. lra. Qed.
  Lemma box_spread : well_spread (1 / 50000) (cut_point sea_level close (afloat z)).
  Proof.
    intros x y X Y. apply (af_points z) in X as (X1 & X2 & X3). apply (af_points z) in Y as (Y1 & Y2 & Y3). unfold z in *.
    split; [|split].
    - destruct X1 as [-> | ->], Y1 as [-> | ->]; unfold apart_or_same, Rabs; destruct (Rcase_abs _); lra.
    - destruct X2 as [-> | ->], Y2 as [-> | ->]; unfold apart_or_same, Rabs; destruct (Rcase_abs _); lra.
    - destruct X3 as [-> | [-> | ->]], Y3 as [-> | [-> | ->]]; unfold apart_or_same, Rabs; destruct (Rcase_abs _); lra.
  Qed.
  Lemma box_firm : Forall (firm sea_level close (24 * (u * 4)) 1) (verts (afloat z)).
  Proof.
    pose proof ulp1_small as U. unfold afloat, z. cbn [verts].
    repeat (apply Forall_cons; [right; rewrite sea_height; cbn [vz]; unfold close, Rabs; destruct (Rcase_abs _); lra|]). apply Forall_nil.
  Qed.
  Lemma box_bounded : Forall (bounded 4) (verts (afloat z)).
  Proof. unfold afloat, z. cbn [verts]. repeat (apply Forall_cons; [unfold bounded; cbn [vx vy vz]; split; [|split]; apply Rabs_le; lra|]). apply Forall_nil. Qed.
End Box.
(** Half a ton per cubic meter in sea water: the report says 26 square meters wet, 12 cubic meters and 12300 kg, up to a part in a million. *)
Example C127_case : forall argsort fdots fdot fsum fsum' farea ftotal, sorting argsort -> (forall j, computes_dot (fdots j)) -> computes_dot fdot ->
  (forall j, adds (fsum j)) -> (forall j, adds (fsum' j)) -> adds farea -> adds ftotal ->
  exists wet vol mass, displacement_double argsort fdots fdot fsum fsum' farea ftotal 1025 (afloat (-1 / 2)) = Ok (wet, vol, mass) /\
    Rabs (wet - 26) <= 1 / 1000000 /\ Rabs (vol - 12) <= 1 / 1000000 /\ Rabs (mass - 12300) <= 1 / 1000.
Proof.
  intros argsort fdots fdot fsum fsum' farea ftotal SA DS DT A1 A2 A3 A4.
  assert (Z : -2 + 1 / 500 < -1 / 2 < 1 - 1 / 500) by lra.
  destruct (floats_clip argsort SA _ (af_floats _ Z)) as (k & CL). pose proof ulp1_small as US. pose proof ulp1_pos as U.
  pose proof (box_count argsort k SA CL) as C. pose proof (pos_INR (length (faces (clipped k)))) as C0.
  destruct (C127_displacement argsort argsort fdots fdot fsum fsum' farea ftotal 1025 4 1 (afloat (-1 / 2)) k box_dir) as (wet & vol & mass & V & E & IV & B1 & B2 & B3);
    auto using af_floats, af_strict, box_firm, box_spread, box_bounded, box_dirs; try lra.
  - rewrite Rabs_right; lra.
  - apply (box_some argsort); auto.
  - eapply Forall_impl; [|apply (box_faces_wide argsort k SA CL)]. intros f. cbv beta. lra.
  - exists wet, vol, mass. split; auto. rewrite box_wet in *.
    assert (VE : V = 12).
    { pose proof (clip_volume argsort SA _ (af_floats _ Z) k CL) as CV. rewrite (af_volume _ Z argsort SA k CL) in CV.
      replace 12 with (8 * (1 - -1 / 2)) by lra. rewrite CV. eapply cones_unique; [exact IV|]. apply cones_exact, cone0_exact. }
    rewrite VE in *. rewrite (Rabs_right 1025) in B3 by lra.
    set (n := INR (length (faces (clipped k)))) in *.
    assert (Q : forall x, 0 <= x -> n * (u * x) <= 208 * (/ 9000000000000000 * x)).
    { intros x X. apply Rmult_le_compat; [lra|apply Rmult_le_pos; lra|auto|]. apply Rmult_le_compat_r; [auto|apply ulp1_le_9]. }
    split; [|split].
    + eapply Rle_trans; [exact B1|]. pose proof (Q (3 * 26 + 400 * (4 * 4) + 36 * (4 * (190 * (4 * 4)))) ltac:(lra)). lra.
    + eapply Rle_trans; [exact B2|]. pose proof (Q (4 * (11 * 26 + 1500 * (4 * 4)) + 270 * (4 * 4 * (190 * (4 * 4)))) ltac:(lra)). lra.
    + replace (1025 * 12) with 12300 in B3 by lra. eapply Rle_trans; [exact B3|]. pose proof (Q (4 * (13 * 26 + 1600 * (4 * 4)) + 280 * (4 * 4 * (190 * (4 * 4)))) ltac:(lra)). lra.
Qed.
(** Its position: a quarter turn about the vertical, then one half downwards. *)
Example C127_place_case : forall fdots, (forall i j, computes_dot (fdots i j)) ->
  let rot := M3 0 (-1) 0 1 0 0 0 0 1 in exists v, nth_error (verts (place_double fdots rot (-1 / 2) (afloat 0))) 6 = Some v /\ near_point (1 / 10000000000000) (V3 (-2) 4 (3 / 2)) v.
Proof.
  intros fdots D rot. pose proof ulp1_small as U. pose proof smallest_small as S.
  destruct (C127_place fdots rot (-1 / 2) 4 (afloat 0) D) as (_ & F).
  - lra.
  - unfold Rabs; destruct (Rcase_abs _); lra.
  - unfold bounded, row0, rot; cbn; repeat split; apply Rabs_le; lra.
  - unfold bounded, row1, rot; cbn; repeat split; apply Rabs_le; lra.
  - unfold bounded, row2, rot; cbn; repeat split; apply Rabs_le; lra.
  - unfold afloat. cbn [verts]. repeat (apply Forall_cons; [unfold bounded; cbn [vx vy vz]; split; [|split]; apply Rabs_le; lra|]). apply Forall_nil.
  - assert (N : forall l l' (v : vec) i, Forall2 (near_point (23 * (u * 4))) l l' -> nth_error l i = Some v -> exists v', nth_error l' i = Some v' /\ near_point (23 * (u * 4)) v v').
    { intros l l' v i H. revert i. induction H as [|a b l l' H HH IH]; intros [|i] E; cbn in E; try discriminate; [injection E as <-; exists b; auto|apply IH; auto]. }
    destruct (N _ _ (V3 (-2) 4 (3 / 2)) 6%nat F) as (v & E & (H1 & H2 & H3)).
    + unfold placed_mesh, afloat, placed, rot. cbn. f_equal. apply vec_eq; cbn; lra.
    + exists v. split; auto. unfold near_point. lra.
Qed.

Print Assumptions C127_place.
Print Assumptions C127_displacement.
