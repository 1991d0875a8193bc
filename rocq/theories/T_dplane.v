(** Property C134: the waterplane in double precision. *)
From Coq Require Import Reals Lra Lia List Arith Bool Psatz ZArith.
From Flocq Require Import Core.
From Verif Require Import M_base P_base M_merge P_merge S_merge M_rotations S_rotations M_plane M_mesh S_mesh P_mesh S_integral P_integral S_geometry M_geometry P_geometry S_connectivity M_connectivity M_clipper S_clipper P_cut P_clipper P_curves P_hull
  P_sharp P_archimedes P_contour M_inertia S_hydro P_hydro P_hydro2 P_wetted P_extent P_cones P_immersed P_barge S_report P_report T_hydro P_hsbox M_double S_double P_double P_double2 P_double3 P_double4 M_dgeom P_dgeom S_dgeom P_dgeom4 P_dgeom5
  M_dclip S_dclip P_dclip P_dclip4 M_dhydro P_dvol P_dhydro P_dhydro2 T_dhydro M_hydro M_dplane P_dplane P_dplane2.
Import ListNotations.
Open Scope R_scope.

Lemma shift_near : forall (at_cog : bool) b L d v v', 1 / 1000 <= L -> 0 <= d -> 1000 * d <= L -> bounded L b -> bounded L v -> near_point d v v' ->
  let o := if at_cog then b else vzero in
  inside (if at_cog then 2 * L else L) (shifted (vx o) (vy o) v) /\ beside (if at_cog then d + 5 * (u * L) else d) (shifted (vx o) (vy o) v) (polyverts_double at_cog b v').
Proof.
  intros at_cog b L d v v' HL d0 Hd (B1 & B2 & B3) (V1 & V2 & V3) (N1 & N2 & N3) o. pose proof ulp1_pos as U.
  assert (UL : 0 < u * L) by (apply Rmult_lt_0_compat; lra).
  destruct at_cog; unfold o, inside, beside, shifted, polyverts_double; cbn [fst snd vzero vx vy vz].
  - assert (T : tiny <= u * L).
    { rewrite tiny_smallest. apply Rmult_le_compat_l; [lra|]. pose proof smallest_small. lra. }
    assert (K : forall x x' c, Rabs c <= L -> Rabs x <= L -> Rabs (x' - x) <= d -> Rabs (x - c) <= 2 * L /\ Rabs (fsub x' c - (x - c)) <= d + 5 * (u * L)).
    { intros x x' c C X N. apply Rabs_le_inv in C, X. pose proof (Rabs_le_inv _ _ N) as N'. split; [apply Rabs_le; lra|].
      unfold fsub. pose proof (fl_error (x' - c)) as E. assert (A : Rabs (x' - c) <= 3 * L) by (apply Rabs_le; lra).
      assert (u * Rabs (x' - c) <= u * (3 * L)) by (apply Rmult_le_compat_l; lra).
      replace (fl (x' - c) - (x - c)) with ((fl (x' - c) - (x' - c)) + (x' - x)) by ring. eapply Rle_trans; [apply Rabs_triang|]. lra. }
    assert (N1' : Rabs (vx v' - vx v) <= d) by (rewrite Rabs_minus_sym; auto). assert (N2' : Rabs (vy v' - vy v) <= d) by (rewrite Rabs_minus_sym; auto).
    destruct (K (vx v) (vx v') (vx b)), (K (vy v) (vy v') (vy b)); auto.
  - rewrite !Rminus_0_r. split; auto. split; [rewrite Rabs_minus_sym; auto|rewrite Rabs_minus_sym; auto].
Qed.

(** ** C134 *)
(** A body in its position, as in C127, and anything that fills its waterline. The integrals over it that the code computes, about the point [b] if
    at_cog or else about the origin, and the extents of the waterline are right up to roundings. The errors grow with the number [n] of sides of the
    waterline and with the displacements [d] of its vertices. The integral of the product of the coordinates misses the term of C61. *)
Theorem C134_waterplane : forall argsort argsort' fdots fdot L g M (at_cog : bool) b ts,
  sorting argsort -> sorting argsort' -> (forall j, computes_dot (fdots j)) -> computes_dot fdot ->
  1 / 1000 <= L <= 10000000000 -> 1 / 900 <= g -> let d := 190 * (u * (L * L) / g) in d <= 1 / 400000000 ->
  floats_well M -> Forall (bounded L) (verts M) -> Forall (firm sea_level close (24 * (u * L)) g) (verts M) ->
  well_spread (1 / 50000) (cut_point sea_level close M) ->
  let W := waterline sea_level close M in W <> [] -> let n := INR (length W) in n <= 100000000000000 ->
  bounded L b -> fills ts W ->
  let o := if at_cog then b else vzero in let l := if at_cog then 2 * L else L in let D := if at_cog then d + 5 * (u * L) else d in
  exists w, waterplane_double argsort' fdots fdot at_cog b M = Ok w /\
    (forall I, is_flat_integral (fun _ => 1) ts I -> Rabs (g0 (w_sums w) - I) <= n * ((5 * n + 22) * (u * l ^ 2) + 7 * (l * D))) /\
    (forall I, is_flat_integral (fun v => vx v - vx o) ts I -> Rabs (g1 (w_sums w) - I) <= n * ((4 * n + 29) * (u * l ^ 3) + 8 * (l ^ 2 * D))) /\
    (forall I, is_flat_integral (fun v => vy v - vy o) ts I -> Rabs (g2 (w_sums w) - I) <= n * ((4 * n + 29) * (u * l ^ 3) + 8 * (l ^ 2 * D))) /\
    (forall I, is_flat_integral (fun v => (vx v - vx o) * (vy v - vy o)) ts I ->
      Rabs (g3 (w_sums w) - (I - product_gap o W / 24)) <= n * ((2 * n + 21) * (u * l ^ 4) + 6 * (l ^ 3 * D))) /\
    (forall I, is_flat_integral (fun v => (vx v - vx o) * (vx v - vx o)) ts I -> Rabs (g4 (w_sums w) - I) <= n * ((2 * n + 16) * (u * l ^ 4) + 5 * (l ^ 3 * D))) /\
    (forall I, is_flat_integral (fun v => (vy v - vy o) * (vy v - vy o)) ts I -> Rabs (g5 (w_sums w) - I) <= n * ((2 * n + 16) * (u * l ^ 4) + 5 * (l ^ 3 * D))) /\
    (forall x, is_min x (map (fun s => vx (fst s)) W) -> Rabs (w_minx w - (x - vx o)) <= D) /\
    (forall x, is_max x (map (fun s => vx (fst s)) W) -> Rabs (w_maxx w - (x - vx o)) <= D) /\
    (forall y, is_min y (map (fun s => vy (fst s)) W) -> Rabs (w_miny w - (y - vy o)) <= D) /\
    (forall y, is_max y (map (fun s => vy (fst s)) W) -> Rabs (w_maxy w - (y - vy o)) <= D).
Proof.
  intros argsort argsort' fdots fdot L g M at_cog b ts SA SA' DS DT [L1 L2] G1 d D1 FW BV FV WS W WN n FEW BB F o l D.
  pose proof (moved_pos L g L1 G1) as d0. fold d in d0. pose proof ulp1_pos as U. pose proof ulp1_small as US.
  assert (UL : 0 < u * L) by (apply Rmult_lt_0_compat; lra). assert (UL' : u * L <= / 1000000000000000 * L) by (apply Rmult_le_compat_r; lra).
  destruct (plane_near argsort argsort' fdots fdot L g M SA SA' DS DT L1 L2 G1 D1 FW BV FV WS WN FEW at_cog b (vx o) (vy o) l D) as (w & E & P0 & P1 & P2 & P3 & P4 & P5 & PE).
  - unfold l. destruct at_cog; lra.
  - unfold D. destruct at_cog; lra.
  - unfold l, D. destruct at_cog; lra.
  - intros v v' V N. apply shift_near; auto. lra.
  - exists w. split; auto. fold W in P0, P1, P2, P3, P4, P5. fold n in P0, P1, P2, P3, P4, P5.
    split; [intros I HI; rewrite (flat_unique _ _ _ _ HI (exact0 (vx o) (vy o) ts W F)); exact P0|].
    split; [intros I HI; rewrite (flat_unique _ _ _ _ HI (exact1 (vx o) (vy o) ts W F)); exact P1|].
    split; [intros I HI; rewrite (flat_unique _ _ _ _ HI (exact2 (vx o) (vy o) ts W F)); exact P2|].
    split.
    { intros I HI. rewrite (flat_unique _ _ _ _ HI (exact3 (vx o) (vy o) ts W F)).
      replace (run (side3 (vx o) (vy o)) W / 24 + run (missing (vx o) (vy o)) W / 24 - product_gap o W / 24) with (run (side3 (vx o) (vy o)) W / 24); [exact P3|].
      replace (product_gap o W) with (run (missing (vx o) (vy o)) W); [ring|]. reflexivity. }
    split; [intros I HI; rewrite (flat_unique _ _ _ _ HI (exact4 (vx o) (vy o) ts W F)); exact P4|].
    split; [intros I HI; rewrite (flat_unique _ _ _ _ HI (exact5 (vx o) (vy o) ts W F)); exact P5|].
    exact PE.
Qed.

(** The box of C127, 4 by 2 meters: about the middle of its waterplane, the code finds 8 square meters, the second moments 32/3 and 8/3 and the extents
    of the waterline, and about a corner it finds the first moments 16 and 8. *)
Example C134_case : forall argsort fdots fdot, sorting argsort -> (forall j, computes_dot (fdots j)) -> computes_dot fdot ->
  (exists w, waterplane_double argsort fdots fdot true (V3 2 1 (-3 / 4)) (afloat (-1 / 2)) = Ok w /\
    Rabs (g0 (w_sums w) - 8) <= 1 / 100000000 /\ Rabs (g3 (w_sums w)) <= 1 / 100000000 /\
    Rabs (g4 (w_sums w) - 32 / 3) <= 1 / 100000000 /\ Rabs (g5 (w_sums w) - 8 / 3) <= 1 / 100000000 /\
    Rabs (w_minx w - - 2) <= 1 / 100000000 /\ Rabs (w_maxy w - 1) <= 1 / 100000000) /\
  (exists w, waterplane_double argsort fdots fdot false (V3 2 1 (-3 / 4)) (afloat (-1 / 2)) = Ok w /\
    Rabs (g1 (w_sums w) - 16) <= 1 / 100000000 /\ Rabs (g2 (w_sums w) - 8) <= 1 / 100000000 /\
    Rabs (w_maxx w - 4) <= 1 / 100000000 /\ Rabs (w_miny w - 0) <= 1 / 100000000).
Proof.
  intros argsort fdots fdot SA DS DT. assert (Z : -2 + 1 / 500 < -1 / 2 < 1 - 1 / 500) by lra. pose proof ulp1_le_9 as US. pose proof ulp1_pos as U.
  set (W := [(w1, w2); (w2, w3); (w3, w4); (w4, w1)]). pose proof (af_line _ Z) as AF. fold W in AF.
  assert (F : fills lid W). { intros psi A. unfold W, lid, run, around. cbn. unfold Rsum. cbn [fold_right]. rewrite (A w3 w1). ring. }
  assert (NW : INR (length W) = 4) by (unfold W; cbn; ring).
  assert (P : forall at_cog : bool, _) by (intros at_cog; refine (C134_waterplane argsort argsort fdots fdot 4 1 (afloat (-1 / 2)) at_cog (V3 2 1 (-3 / 4)) lid SA SA DS DT _ _ _ (af_floats _ Z) box_bounded box_firm box_spread _ _ _ _);
    [lra|lra|lra|rewrite AF; discriminate|rewrite AF, NW; lra|unfold bounded; cbn; repeat split; apply Rabs_le; lra|rewrite AF; exact F]).
  cbv zeta in P. rewrite AF, NW in P.
  assert (MI : forall (q : vec -> R) x s, In s W -> x = q (fst s) -> (forall t, In t W -> x <= q (fst t)) -> is_min x (map (fun s => q (fst s)) W)).
  { intros q x s I -> H. split; [apply (in_map (fun s => q (fst s))); auto|]. intros y Y. apply in_map_iff in Y as (t & <- & T). auto. }
  assert (MA : forall (q : vec -> R) x s, In s W -> x = q (fst s) -> (forall t, In t W -> q (fst t) <= x) -> is_max x (map (fun s => q (fst s)) W)).
  { intros q x s I -> H. split; [apply (in_map (fun s => q (fst s))); auto|]. intros y Y. apply in_map_iff in Y as (t & <- & T). auto. }
  assert (ALL : forall t, In t W -> 0 <= vx (fst t) <= 4 /\ 0 <= vy (fst t) <= 2).
  { intros t T. unfold W in T. cbn in T. repeat (destruct T as [<-|T]; [cbn; lra|]). contradiction. }
  assert (W1 : In (w1, w2) W) by (unfold W; cbn; auto). assert (W3 : In (w3, w4) W) by (unfold W; cbn; auto).
  split.
  - destruct (P true) as (w & E & P0 & _ & _ & P3 & P4 & P5 & PM & _ & _ & PY). exists w. split; auto. cbn [vx vy] in *.
    assert (I0 : is_flat_integral (fun _ => 1) lid 8). { eapply eq_ind; [exact (exact0 2 1 lid W F)|]. unfold W, run, Rsum, side0, w1, w2, w3, w4. cbn. field. }
    assert (I3 : is_flat_integral (fun v => (vx v - 2) * (vy v - 1)) lid 0). { eapply eq_ind; [exact (exact3 2 1 lid W F)|]. unfold W, run, Rsum, side3, missing, w1, w2, w3, w4. cbn. field. }
    assert (I4 : is_flat_integral (fun v => (vx v - 2) * (vx v - 2)) lid (32 / 3)). { eapply eq_ind; [exact (exact4 2 1 lid W F)|]. unfold W, run, Rsum, side4, w1, w2, w3, w4. cbn. field. }
    assert (I5 : is_flat_integral (fun v => (vy v - 1) * (vy v - 1)) lid (8 / 3)). { eapply eq_ind; [exact (exact5 2 1 lid W F)|]. unfold W, run, Rsum, side5, w1, w2, w3, w4. cbn. field. }
    assert (PG : product_gap (V3 2 1 (-3 / 4)) W = 0) by (unfold product_gap, W, run, Rsum, w1, w2, w3, w4; cbn; ring).
    specialize (P0 8 I0). specialize (P3 0 I3). specialize (P4 _ I4). specialize (P5 _ I5). rewrite PG in P3. replace (g3 (w_sums w) - (0 - 0 / 24)) with (g3 (w_sums w)) in P3 by field.
    assert (X0 : is_min 0 (map (fun s => vx (fst s)) W)) by (apply (MI vx 0 (w1, w2)); auto; apply ALL).
    assert (Y1 : is_max 2 (map (fun s => vy (fst s)) W)) by (apply (MA vy 2 (w3, w4)); auto; apply ALL).
    specialize (PM 0 X0). specialize (PY 2 Y1). replace (0 - 2) with (-2) in PM by ring. replace (2 - 1) with 1 in PY by ring.
    repeat split; eapply Rle_trans; try eassumption; lra.
  - destruct (P false) as (w & E & _ & P1 & P2 & _ & _ & _ & _ & PM & PY & _). exists w. split; auto. cbn [vzero vx vy] in *.
    assert (I1 : is_flat_integral (fun v => vx v - 0) lid 16). { eapply eq_ind; [exact (exact1 0 0 lid W F)|]. unfold W, run, Rsum, side1, w1, w2, w3, w4. cbn. field. }
    assert (I2 : is_flat_integral (fun v => vy v - 0) lid 8). { eapply eq_ind; [exact (exact2 0 0 lid W F)|]. unfold W, run, Rsum, side2, w1, w2, w3, w4. cbn. field. }
    specialize (P1 _ I1). specialize (P2 _ I2).
    assert (X1 : is_max 4 (map (fun s => vx (fst s)) W)) by (apply (MA vx 4 (w3, w4)); auto; apply ALL).
    assert (Y0 : is_min 0 (map (fun s => vy (fst s)) W)) by (apply (MI vy 0 (w1, w2)); auto; apply ALL).
    specialize (PM 4 X1). specialize (PY 0 Y0). replace (4 - 0) with 4 in PM by ring. replace (0 - 0) with 0 in PY by ring.
    repeat split; eapply Rle_trans; try eassumption; lra.
Qed.

Print Assumptions C134_waterplane.
Print Assumptions C134_case.
