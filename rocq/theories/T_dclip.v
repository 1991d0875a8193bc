(** Property C126: clipping in double precision. *)
From Coq Require Import Reals List Arith Bool ZArith Lia Lra Sorting.Permutation.
From Flocq Require Import Core.
From Verif Require Import M_base M_merge S_merge P_merge M_plane M_mesh S_mesh S_geometry P_geometry S_connectivity M_connectivity M_clipper S_clipper P_parts P_curves
  M_double S_double P_double P_double2 P_double3 M_dgeom P_dgeom5 M_dclip S_dclip P_dclip P_dclip2 P_dclip3 P_dclip4 P_dclip5 T_clipper.
Import ListNotations.
Open Scope R_scope.

(** ** C126 *)
(** Coordinates up to [L], [g] at least the tolerance: no vertex within rounding of the tolerance, the other ones at the plane or at [g] of it,
    and coordinates of the points which are the same or further apart than the merging distance. Whatever the order of the sums and the sorts, the
    faces are classified in the same way and the clipped meshes and the boundaries are the same, with another numbering of the
    vertices and vertices moved by less than [190 u L^2 / g]. *)
Theorem C126_clip : forall p L tol g argsort argsort' fdots fdot m assert_closed k,
  smallest <= L -> bounded 1 (p_normal p) -> Rabs (p_scalar p) <= L -> double (p_scalar p) -> 40 * (u * L) <= tol -> tol <= g ->
  190 * (u * (L * L) / g) <= 1 / 400000000 -> sorting argsort -> sorting argsort' -> (forall j, computes_dot (fdots j)) -> computes_dot fdot ->
  valid m -> Forall (bounded L) (verts m) -> Forall (firm p tol (23 * (u * L)) g) (verts m) -> well_spread (1 / 50000) (cut_point p tol m) ->
  mesh_clipper argsort p tol assert_closed m = Ok k ->
  exists k' rc r, mesh_clipper_double argsort' fdots fdot p tol assert_closed m = Ok k' /\
    above_ids (k_partition k') = above_ids (k_partition k) /\ crown_ids (k_partition k') = crown_ids (k_partition k) /\
    below_ids (k_partition k') = below_ids (k_partition k) /\
    pt_mesh (upper (k_partition k')) = pt_mesh (upper (k_partition k)) /\ pt_mesh (crown (k_partition k')) = pt_mesh (crown (k_partition k)) /\
    pt_mesh (lower (k_partition k')) = pt_mesh (lower (k_partition k)) /\
    alike (190 * (u * (L * L) / g)) rc (clipped_crown k) (clipped_crown k') /\
    polygons k' = map (map rc) (polygons k) /\ lines k' = map (map rc) (lines k) /\
    alike (190 * (u * (L * L) / g)) r (clipped k) (clipped k').
Proof. intros. apply (clipper_double p L tol g) with (argsort := argsort); auto. Qed.

(** Clipping in double precision raises the same exceptions. *)
Theorem C126_raised : forall p L tol g argsort argsort' fdots fdot m assert_closed e,
  smallest <= L -> bounded 1 (p_normal p) -> Rabs (p_scalar p) <= L -> double (p_scalar p) -> 40 * (u * L) <= tol -> tol <= g ->
  190 * (u * (L * L) / g) <= 1 / 400000000 -> sorting argsort -> sorting argsort' -> (forall j, computes_dot (fdots j)) -> computes_dot fdot ->
  valid m -> Forall (bounded L) (verts m) -> Forall (firm p tol (23 * (u * L)) g) (verts m) -> well_spread (1 / 50000) (cut_point p tol m) ->
  mesh_clipper argsort p tol assert_closed m = Raise e -> mesh_clipper_double argsort' fdots fdot p tol assert_closed m = Raise e.
Proof. intros. apply (clipper_raise p L tol g) with (argsort := argsort); auto. Qed.

(** A closed mesh of convex faces crossed by the plane: in double precision too there are closed polygons only, which follow the waterline. *)
Theorem C126_closed : forall p L tol g argsort fdots fdot m,
  smallest <= L -> bounded 1 (p_normal p) -> Rabs (p_scalar p) <= L -> double (p_scalar p) -> 40 * (u * L) <= tol -> tol <= g ->
  190 * (u * (L * L) / g) <= 1 / 400000000 -> sorting argsort -> (forall j, computes_dot (fdots j)) -> computes_dot fdot ->
  valid m -> Forall (bounded L) (verts m) -> Forall (firm p tol (23 * (u * L)) g) (verts m) -> well_spread (1 / 50000) (cut_point p tol m) ->
  ~ Forall (is_above p tol) (verts m) -> ~ Forall (is_below p tol) (verts m) ->
  Forall (fun f => ~ three_near p tol (outline (verts m) f)) (faces m) -> straddling p tol m ->
  Forall (fun f => convex_outline (outline (verts m) f)) (faces m) -> Forall (fun f => ~ pinched p tol (outline (verts m) f)) (faces m) ->
  closed_surface (faces m) -> NoDup (map fst (waterline p tol m)) ->
  exists k, (forall closed, mesh_clipper_double argsort fdots fdot p tol closed m = Ok k) /\ lines k = [] /\
    Forall (fun b => (2 <= length b)%nat /\ hd 0%nat b = last b 0%nat) (polygons k) /\
    exists edges, Permutation edges (flat_map pairs (polygons k)) /\
      Forall2 (fun s e => exists x y, nth_error (verts (clipped_crown k)) (fst e) = Some x /\ nth_error (verts (clipped_crown k)) (snd e) = Some y /\
          near_point (190 * (u * (L * L) / g)) (fst s) x /\ near_point (190 * (u * (L * L) / g)) (snd s) y)
        (waterline p tol m) edges.
Proof.
  intros p L tol g argsort fdots fdot m HL HN HS HD HT HG HE SA C1 C2 V B F W NA NB NT ST CV NP CS ND.
  assert (SE : settled p tol m).
  { apply Forall_forall. intros f HF. unfold valid in V. rewrite Forall_forall in V.
    apply (proj2 (face_proper p L tol g HL (verts m) F f (V f HF))). }
  assert (SP : spread (1 / 100000) (cut_point p tol m)).
  { intros x y X Y (N1 & N2 & N3). apply (spread_within (1 / 50000) (cut_point p tol m) x y (1 / 100000)); auto; [lra|].
    intros c I. cbn in I. destruct I as [<-|[<-|[<-|[]]]]; auto. }
  assert (T0 : 0 <= tol) by (pose proof (uQ_pos L HL); lra).
  destruct (C84_polygons p tol insertion_argsort m T0 insertion_sorting V SE NA NB NT ST CV NP CS SP ND) as (k & E & LI & PO & edges & PE & FE).
  assert (CL : forall closed, exists k' rc, mesh_clipper_double argsort fdots fdot p tol closed m = Ok k' /\
    alike (190 * (u * (L * L) / g)) rc (clipped_crown k) (clipped_crown k') /\ polygons k' = map (map rc) (polygons k) /\ lines k' = map (map rc) (lines k)).
  { intros closed. destruct (C126_clip p L tol g insertion_argsort argsort fdots fdot m closed k) as (k' & rc & r & E' & _ & _ & _ & _ & _ & _ & A & P & Q & _); auto using insertion_sorting.
    exists k', rc. auto. }
  destruct (CL true) as (k' & rc & E' & A & P & Q). exists k'. split; [|split; [|split]].
  - intros [|]; auto. destruct (CL false) as (k2 & rc2 & E2 & A2 & P2 & Q2).
    clear - E' E2. unfold mesh_clipper_double in *. destruct (refused tol (distances_double fdots p m)); [discriminate|].
    destruct (partition_double fdots p tol m) as [part|]; cbn [bind] in *; [|discriminate]. unfold clip_crown_double in *.
    destruct (clip_faces_double _ _ _ _ _ _) as [st|]; cbn [bind] in *; [|discriminate]. destruct (faces_array _) as [fs|]; cbn [bind] in *; [|discriminate].
    destruct (merge_index_double _ _ _) as [[mm ids]|]; cbn [bind] in *; [|discriminate]. destruct (renumber_dict ids (cs_direct st)) as [dd|]; cbn [bind] in *; [|discriminate].
    destruct (renumber_dict ids (cs_inv st)) as [dv|]; cbn [bind] in *; [|discriminate]. destruct (curves (length dd) dv dd) as [cl op].
    cbn [andb] in *. destruct (negb (length op =? 0)%nat); cbn [bind] in *; [discriminate|]. exact E'.
  - rewrite Q, LI. reflexivity.
  - rewrite P. rewrite Forall_map. eapply Forall_impl; [|exact PO]. intros b (H1 & H2). rewrite map_length. split; auto.
    destruct b as [|x b]; [cbn in H1; lia|]. rewrite (last_map rc (al_injective _ _ _ _ A)). cbn [hd map] in *. rewrite <- H2. reflexivity.
  - exists (map (rn rc) edges). split.
    + rewrite P. replace (flat_map pairs (map (map rc) (polygons k))) with (map (rn rc) (flat_map pairs (polygons k))); [apply Permutation_map; auto|].
      clear. induction (polygons k) as [|b l IH]; cbn [flat_map map]; auto. rewrite map_app, IH. f_equal.
      clear. induction b as [|x b IHb]; auto. destruct b as [|y b]; auto. cbn [map pairs] in *. f_equal. exact IHb.
    + clear - FE A. induction FE as [|s e ss es [H1 H2] F IH]; cbn [map]; constructor; auto.
      destruct (al_verts _ _ _ _ A _ _ H1) as (x & X & NX). destruct (al_verts _ _ _ _ A _ _ H2) as (y & Y & NY). exists x, y. auto.
Qed.

(** The barge, whatever the roundings: a rectangle at the sea level. *)
Lemma u_tiny : u <= 1 / 1000000000000000. Proof. pose proof ulp1_small as H. change ulp1 with u in H. lra. Qed.
Lemma barge_firm : Forall (firm sea usual (23 * (u * 4)) 1) (verts barge).
Proof.
  pose proof u_tiny. pose proof ulp1_pos as U. change ulp1 with u in U.
  cbn [barge verts]. repeat (apply Forall_cons; [right; rewrite sea_height; cbn [vz]; unfold usual, Rabs; destruct (Rcase_abs _); lra|]). apply Forall_nil.
Qed.
Lemma barge_well_spread : well_spread (1 / 50000) (cut_point sea usual barge).
Proof.
  intros x y X Y. apply barge_whole in X as (a & b & c & ->). apply barge_whole in Y as (a' & b' & c' & ->). cbn [vx vy vz].
  assert (K : forall i j : Z, apart_or_same (1 / 50000) (IZR i) (IZR j)).
  { intros i j. destruct (Z.eq_dec i j) as [->|N]; [left; auto|right]. rewrite <- minus_IZR, <- abs_IZR.
    apply Rlt_le_trans with 1; [lra|]. apply IZR_le. lia. }
  auto.
Qed.
Example C126_case : forall argsort fdots fdot, sorting argsort -> (forall j, computes_dot (fdots j)) -> computes_dot fdot ->
  exists k, (forall closed, mesh_clipper_double argsort fdots fdot sea usual closed barge = Ok k) /\ lines k = [] /\
    exists edges, Permutation edges (flat_map pairs (polygons k)) /\
      Forall2 (fun s e => exists x y, nth_error (verts (clipped_crown k)) (fst e) = Some x /\ nth_error (verts (clipped_crown k)) (snd e) = Some y /\
          near_point (3040 * u) (fst s) x /\ near_point (3040 * u) (snd s) y)
        [(wl1, wl2); (wl2, wl3); (wl3, wl4); (wl4, wl1)] edges.
Proof.
  intros argsort fdots fdot SA C1 C2. pose proof u_tiny as UT. pose proof ulp1_pos as U. change ulp1 with u in U. pose proof smallest_small.
  replace (3040 * u) with (190 * (u * (4 * 4) / 1)) by lra.
  destruct (C126_closed sea 4 usual 1 argsort fdots fdot barge) as (k & E & LI & _ & edges & PE & FE);
    auto using barge_valid, barge_not_above, barge_not_below, barge_not_three, barge_straddles, barge_convex, barge_unpinched, barge_closed, barge_firm, barge_well_spread.
  - lra.
  - unfold bounded, sea. cbn [p_normal vx vy vz]. rewrite Rabs_R0, Rabs_R1. lra.
  - cbn [sea p_scalar]. rewrite Rabs_R0. lra.
  - cbn [sea p_scalar]. exists 0%Z, 0%Z. split; [reflexivity|]. split; [lia|]. simpl. ring.
  - unfold usual. lra.
  - unfold usual. lra.
  - lra.
  - cbn [barge verts]. repeat (apply Forall_cons; [unfold bounded; cbn [vx vy vz]; unfold Rabs; repeat destruct (Rcase_abs _); lra|]). apply Forall_nil.
  - rewrite barge_line. cbn [map fst]. unfold wl1, wl2, wl3, wl4. repeat (apply NoDup_cons; [intros H0; simpl in H0; repeat (destruct H0 as [H0|H0]; [injection H0; intros; lra|]); exact H0|]). apply NoDup_nil.
  - rewrite barge_line in FE. exists k. eauto 10.
Qed.
Print Assumptions C126_clip.
Print Assumptions C126_raised.
Print Assumptions C126_closed.
