(** Proofs about hydrostatics in double precision: the wetted surface and the displaced volume. *)
From Coq Require Import Reals Lra Lia List Arith Bool Psatz ZArith.
From Flocq Require Import Core.
From Verif Require Import M_base P_base M_merge P_merge S_merge M_rotations S_rotations M_plane M_mesh S_mesh P_mesh S_geometry M_geometry P_geometry S_connectivity M_connectivity M_clipper S_clipper P_cut P_clipper P_curves
  P_sharp P_archimedes M_inertia M_hydro S_hydro P_hydro P_hydro2 P_wetted P_extent P_immersed M_double S_double P_double P_double2 P_double3 P_double4 M_dgeom P_dgeom S_dgeom P_dgeom4 P_dgeom5
  M_dclip S_dclip P_dclip P_dclip4 M_dhydro P_dvol P_dhydro.
Import ListNotations.
Open Scope R_scope.

Lemma volume_size : forall L m, 0 <= L -> Forall (bounded L) (verts m) -> Rabs (signed_volume vzero m) <= L * surface_area m.
Proof.
  intros L m L0 B. unfold signed_volume, surface_sum, surface_area, mesh_triangles.
  assert (T : forall a b c, bounded L a -> bounded L b -> bounded L c -> Rabs (tetra vzero a b c) <= L * triangle_area a b c).
  { intros a b c (A1 & A2 & A3) (B1 & B2 & B3) (C1 & C2 & C3). replace (tetra vzero a b c) with (third a b c * / 3) by (rewrite third_tetra; field).
    unfold third, triangle_area, Rdiv. rewrite !Rabs_mult, (Rabs_right (/ 6)), (Rabs_right (/ 3)) by lra.
    pose proof (cauchy_abs (triangle_normal a b c) (vadd (vadd a b) c)) as C.
    assert (N : norm (vadd (vadd a b) c) <= 2 * (3 * L)).
    { apply norm_bounded. unfold bounded, vadd. cbn [vx vy vz].
      assert (Q : forall p q t, Rabs p <= L -> Rabs q <= L -> Rabs t <= L -> Rabs (p + q + t) <= 3 * L) by (intros p q t; unfold Rabs; repeat destruct Rcase_abs; lra). auto. }
    pose proof (P_dgeom.norm_pos (triangle_normal a b c)) as P.
    assert (norm (triangle_normal a b c) * norm (vadd (vadd a b) c) <= norm (triangle_normal a b c) * (2 * (3 * L))) by (apply Rmult_le_compat_l; auto).
    assert (0 <= norm (triangle_normal a b c) * L) by (apply Rmult_le_pos; auto). lra. }
  assert (PB : forall i, bounded L (point (verts m) i)).
  { intros i. unfold point. destruct (nth_in_or_default i (verts m) vzero) as [I|E].
    - rewrite Forall_forall in B. auto.
    - rewrite E. unfold bounded, vzero. cbn [vx vy vz]. rewrite Rabs_R0. lra. }
  induction (faces m) as [|f fs IH]; [cbn; rewrite Rabs_R0; lra|]. cbn [flat_map map]. rewrite map_app, Rsum_app.
  unfold Rsum at 3. cbn [fold_right]. fold (Rsum (map (face_area (verts m)) fs)).
  eapply Rle_trans; [apply Rabs_triang|]. rewrite Rmult_plus_distr_l. apply Rplus_le_compat; auto.
  unfold face_triangles, face_area. destruct (Nat.eq_dec (f0 f) (f3 f)); unfold Rsum; cbn [map fold_right].
  - rewrite Rplus_0_r. auto.
  - rewrite Rplus_0_r. eapply Rle_trans; [apply Rabs_triang|]. rewrite Rmult_plus_distr_l. apply Rplus_le_compat; auto.
Qed.

(** Multiplied by the density, then divided by it *)
Lemma mass_back : forall rho v L, 1 / 1000 <= L -> / 1000000 <= Rabs rho ->
  Rabs (fdiv (fmul rho v) rho - v) <= 3 * u * Rabs v + 3 * (u * (L * (L * L))).
Proof.
  intros rho v L HL HR. unfold fdiv, fmul. pose proof ulp1_pos as U. pose proof ulp1_small as US. pose proof tiny_pos as T0.
  assert (R0 : rho <> 0) by (intros ->; rewrite Rabs_R0 in HR; lra).
  pose proof (fl_error (rho * v)) as E1. set (w := fl (rho * v)) in *.
  assert (E2 : Rabs (w / rho - v) <= u * Rabs v + tiny * / Rabs rho).
  { replace (w / rho - v) with ((w - rho * v) * / rho) by (field; auto). rewrite Rabs_mult, Rabs_inv.
    apply Rle_trans with ((u * Rabs (rho * v) + tiny) * / Rabs rho); [apply Rmult_le_compat_r; auto; apply Rlt_le, Rinv_0_lt_compat; lra|].
    rewrite Rabs_mult. apply Req_le. field. lra. }
  assert (TR : tiny * / Rabs rho <= tiny * 1000000).
  { apply Rmult_le_compat_l; [lra|]. replace 1000000 with (/ / 1000000) by (rewrite Rinv_inv; lra). apply Rinv_le_contravar; lra. }
  assert (TS : tiny * 1000000 <= u * (1 / 1000 * (1 / 1000 * (1 / 1000)))).
  { rewrite tiny_smallest. pose proof smallest_small. assert (u * smallest <= u * / 1000000000000000) by (apply Rmult_le_compat_l; lra). lra. }
  assert (LL : 1 / 1000 * (1 / 1000 * (1 / 1000)) <= L * (L * L)).
  { apply Rmult_le_compat; [lra|lra|lra|]. apply Rmult_le_compat; lra. }
  assert (UL : u * (1 / 1000 * (1 / 1000 * (1 / 1000))) <= u * (L * (L * L))) by (apply Rmult_le_compat_l; lra).
  pose proof (fl_error (w / rho)) as E3. set (x := w / rho) in *.
  assert (X : Rabs x <= Rabs v + Rabs (x - v)). { replace x with (v + (x - v)) at 1 by ring. apply Rabs_triang. }
  assert (Rabs (fl x - v) <= Rabs (fl x - x) + Rabs (x - v)). { replace (fl x - v) with (fl x - x + (x - v)) by ring. apply Rabs_triang. }
  pose proof (Rabs_pos v) as V0. set (D := u * Rabs v) in *. assert (D0 : 0 <= D) by (apply Rmult_le_pos; lra).
  set (Z := u * (L * (L * L))) in *.
  assert (UX : u * Rabs x <= D + u * (D + Z)).
  { apply Rle_trans with (u * (Rabs v + (D + Z))); [apply Rmult_le_compat_l; lra|]. unfold D. lra. }
  assert (u * (D + Z) <= / 1000000000000000 * (D + Z)) by (apply Rmult_le_compat_r; lra).
  replace (3 * u * Rabs v) with (3 * D) by (unfold D; ring). lra.
Qed.

Section Report.
  Variables (L d n A : R).
  Hypothesis HL : 1 / 1000 <= L.
  Hypothesis Hd0 : 0 <= d.
  Hypothesis Hd : 1000 * d <= L.
  Hypothesis Hn : 1 <= n.
  Hypothesis Hn' : n <= 100000000000000.
  Hypothesis A0 : 0 <= A.
  Let U := ulp1_pos.
  Let U9 := ulp1_le_9.
  Let nu : n * u <= / 80.
  Proof. assert (n * u <= 100000000000000 * / 9000000000000000) by (apply Rmult_le_compat; [lra|apply Rlt_le, U|auto|apply U9]). lra. Qed.
  Let LL0 : 0 < L * L. Proof. apply Rmult_lt_0_compat; lra. Qed.
  Let sq : (L + d) * (L + d) <= 1003 / 1000 * (L * L).
  Proof. assert ((L + d) * (L + d) <= (1001 / 1000 * L) * (1001 / 1000 * L)) by (apply Rmult_le_compat; lra). lra. Qed.
  Let Ld0 : 0 <= L * d. Proof. apply Rmult_le_pos; lra. Qed.
  Let LLd0 : 0 <= L * L * d. Proof. apply Rmult_le_pos; lra. Qed.

  Lemma area_total : forall A' a, 0 <= A' -> A' <= A + n * (34 * (L * d)) -> Rabs (A' - A) <= n * (34 * (L * d)) ->
    Rabs (a - A') <= n * (u * (2 * A' + 380 * ((L + d) * (L + d)))) -> Rabs (a - A) <= n * (u * (3 * A + 400 * (L * L)) + 36 * (L * d)).
  Proof.
    intros A' a P H1 H2 H3. replace (a - A) with ((a - A') + (A' - A)) by ring. eapply Rle_trans; [apply Rabs_triang|].
    assert (K : n * (u * (2 * A' + 380 * ((L + d) * (L + d)))) <= n * (u * (3 * A + 400 * (L * L)) + 2 * (L * d))).
    { apply Rmult_le_compat_l; [lra|].
      assert (B : 2 * A' + 380 * ((L + d) * (L + d)) <= 2 * A + 382 * (L * L) + 68 * n * (L * d)) by lra.
      apply Rmult_le_compat_l with (r := u) in B; [|apply Rlt_le, U].
      assert (E : (n * u) * (68 * (L * d)) <= / 80 * (68 * (L * d))) by (apply Rmult_le_compat_r; [lra|exact nu]).
      assert (u * A >= 0) by (apply Rle_ge, Rmult_le_pos; [apply Rlt_le, U|auto]). assert (u * (L * L) >= 0) by (apply Rle_ge, Rmult_le_pos; [apply Rlt_le, U|lra]). lra. }
    lra.
  Qed.
  Lemma volume_total : forall A' V V' v, 0 <= A' -> A' <= A + n * (34 * (L * d)) -> Rabs (V' - V) <= n * (260 * (L * L * d)) ->
    Rabs (v - V') <= n * (u * (L + d) * (6 * A' + 1400 * ((L + d) * (L + d)))) -> Rabs (v - V) <= n * (u * L * (7 * A + 1450 * (L * L)) + 263 * (L * L * d)).
  Proof.
    intros A' V V' v P H1 H2 H3. replace (v - V) with ((v - V') + (V' - V)) by ring. eapply Rle_trans; [apply Rabs_triang|].
    assert (K : n * (u * (L + d) * (6 * A' + 1400 * ((L + d) * (L + d)))) <= n * (u * L * (7 * A + 1450 * (L * L)) + 3 * (L * L * d))).
    { apply Rmult_le_compat_l; [lra|].
      assert (B : 6 * A' + 1400 * ((L + d) * (L + d)) <= 6 * A + 1405 * (L * L) + 204 * n * (L * d)) by lra.
      assert (B0 : 0 <= 6 * A' + 1400 * ((L + d) * (L + d))) by (assert (0 <= (L + d) * (L + d)) by (apply Rmult_le_pos; lra); lra).
      assert (C : u * (L + d) <= 1001 / 1000 * (u * L)).
      { replace (1001 / 1000 * (u * L)) with (u * (1001 / 1000 * L)) by ring. apply Rmult_le_compat_l; [apply Rlt_le, U|lra]. }
      assert (UL : 0 <= u * L) by (apply Rmult_le_pos; [apply Rlt_le, U|lra]).
      assert (C0 : 0 <= u * (L + d)) by (apply Rmult_le_pos; [apply Rlt_le, U|lra]).
      pose proof (Rmult_le_compat _ _ _ _ C0 B0 C B) as M. eapply Rle_trans; [exact M|].
      assert (E : (n * u) * (205 * (L * L * d)) <= / 80 * (205 * (L * L * d))) by (apply Rmult_le_compat_r; [lra|exact nu]).
      assert (u * L * A >= 0) by (apply Rle_ge, Rmult_le_pos; auto). assert (u * L * (L * L) >= 0) by (apply Rle_ge, Rmult_le_pos; lra).
      assert (0 <= n * u * (L * L * d)) by (apply Rmult_le_pos; [apply Rmult_le_pos; [lra|apply Rlt_le, U]|auto]). lra. }
    lra.
  Qed.
  Lemma mass_total : forall rho V v, / 1000000 <= Rabs rho -> Rabs V <= L * A -> Rabs (v - V) <= n * (u * L * (7 * A + 1450 * (L * L)) + 263 * (L * L * d)) ->
    let w := fdiv (fmul rho v) rho in Rabs (w - V) <= n * (u * L * (11 * A + 1500 * (L * L)) + 270 * (L * L * d)) /\
    Rabs (fmul rho w - rho * V) <= Rabs rho * (n * (u * L * (13 * A + 1600 * (L * L)) + 280 * (L * L * d))).
  Proof.
    intros rho V v HR HV HD w. pose proof (mass_back rho v L HL HR) as MB. fold w in MB.
    pose proof ulp1_small as US. assert (UL : 0 <= u * L) by (apply Rmult_le_pos; [apply Rlt_le, U|lra]).
    assert (S : forall x, Rabs x <= Rabs V + Rabs (x - V)) by (intros x; replace x with (V + (x - V)) at 1 by ring; apply Rabs_triang).
    set (X := u * L * A) in *. set (Y := u * L * (L * L)) in *. set (Z := L * L * d) in *.
    assert (X0 : 0 <= X) by (apply Rmult_le_pos; auto). assert (Y0 : 0 <= Y) by (apply Rmult_le_pos; [auto|lra]).
    assert (EQ : forall p q t, n * (u * L * (p * A + q * (L * L)) + t * (L * L * d)) = p * (n * X) + q * (n * Y) + t * (n * Z)) by (intros; unfold X, Y, Z; ring).
    change (263 * Z) with (263 * (L * L * d)) in HD. rewrite EQ in HD. rewrite !EQ.
    assert (GX : X <= n * X) by (rewrite <- (Rmult_1_l X) at 1; apply Rmult_le_compat_r; auto).
    assert (GY : Y <= n * Y) by (rewrite <- (Rmult_1_l Y) at 1; apply Rmult_le_compat_r; auto).
    assert (GZ : Z <= n * Z) by (rewrite <- (Rmult_1_l Z) at 1; apply Rmult_le_compat_r; auto).
    set (nX := n * X) in *. set (nY := n * Y) in *. set (nZ := n * Z) in *.
    assert (UV : u * Rabs V <= X). { apply Rle_trans with (u * (L * A)); [apply Rmult_le_compat_l; [apply Rlt_le, U|auto]|unfold X; lra]. }
    assert (UB : forall B, 0 <= B -> u * B <= / 1000000000000000 * B) by (intros B HB; apply Rmult_le_compat_r; auto).
    assert (Uv : u * Rabs v <= X + / 1000000000000000 * (7 * nX + 1450 * nY + 263 * nZ)).
    { apply Rle_trans with (u * (Rabs V + (7 * nX + 1450 * nY + 263 * nZ))).
      - apply Rmult_le_compat_l; [apply Rlt_le, U|]. pose proof (S v). lra.
      - rewrite Rmult_plus_distr_l. pose proof (UB (7 * nX + 1450 * nY + 263 * nZ) ltac:(lra)). lra. }
    assert (YE : u * (L * (L * L)) = Y) by (unfold Y; ring). rewrite YE in MB.
    assert (W : Rabs (w - V) <= 11 * nX + 1500 * nY + 270 * nZ).
    { replace (w - V) with ((w - v) + (v - V)) by ring. eapply Rle_trans; [apply Rabs_triang|]. lra. }
    split; [exact W|].
    unfold fmul. pose proof (fl_error (rho * w)) as FE.
    replace (fl (rho * w) - rho * V) with ((fl (rho * w) - rho * w) + rho * (w - V)) by ring. eapply Rle_trans; [apply Rabs_triang|].
    rewrite Rabs_mult. rewrite Rabs_mult in FE.
    assert (Uw : u * Rabs w <= X + / 1000000000000000 * (11 * nX + 1500 * nY + 270 * nZ)).
    { apply Rle_trans with (u * (Rabs V + (11 * nX + 1500 * nY + 270 * nZ))).
      - apply Rmult_le_compat_l; [apply Rlt_le, U|]. pose proof (S w). lra.
      - rewrite Rmult_plus_distr_l. pose proof (UB (11 * nX + 1500 * nY + 270 * nZ) ltac:(lra)). lra. }
    assert (TY : tiny <= Rabs rho * Y).
    { apply Rle_trans with (/ 1000000 * (u * (1 / 1000 * (1 / 1000 * (1 / 1000))))).
      - rewrite tiny_smallest. assert (SM : smallest <= / 1000000000000000) by apply smallest_small.
        assert (u * smallest <= u * / 1000000000000000) by (apply Rmult_le_compat_l; [apply Rlt_le, U|auto]). lra.
      - apply Rmult_le_compat; [lra| |auto|].
        + apply Rmult_le_pos; [apply Rlt_le, U|lra].
        + rewrite <- YE. apply Rmult_le_compat_l; [apply Rlt_le, U|]. apply Rmult_le_compat; [lra|lra|lra|]. apply Rmult_le_compat; lra. }
    apply Rle_trans with (Rabs rho * (u * Rabs w + Y + (11 * nX + 1500 * nY + 270 * nZ))).
    - assert (Rabs rho * Rabs (w - V) <= Rabs rho * (11 * nX + 1500 * nY + 270 * nZ)) by (apply Rmult_le_compat_l; [apply Rabs_pos|auto]). lra.
    - apply Rmult_le_compat_l; [apply Rabs_pos|]. lra.
  Qed.
End Report.

Section Displacement.
  Variables (argsort argsort' : list R -> list nat) (fdots : nat -> vec -> vec -> R) (fdot : vec -> vec -> R) (fsum fsum' : nat -> list R -> R)
    (farea ftotal : list R -> R) (rho L g : R) (M : mesh) (k : clipper) (dir : face -> vec).
  Hypothesis SA : sorting argsort.
  Hypothesis SA' : sorting argsort'.
  Hypothesis DS : forall j, computes_dot (fdots j).
  Hypothesis DT : computes_dot fdot.
  Hypothesis A1 : forall j, adds (fsum j).
  Hypothesis A2 : forall j, adds (fsum' j).
  Hypothesis A3 : adds farea.
  Hypothesis A4 : adds ftotal.
  Hypothesis L1 : 1 / 1000 <= L.
  Hypothesis L2 : L <= 10000000000.
  Hypothesis G1 : 1 / 900 <= g.
  Let d := 190 * (u * (L * L) / g).
  Hypothesis D1 : d <= 1 / 400000000.
  Hypothesis RH : / 1000000 <= Rabs rho.
  Hypothesis FW : floats_well M.
  Hypothesis SM : strict_mesh M.
  Hypothesis BV : Forall (bounded L) (verts M).
  Hypothesis FV : Forall (firm sea_level close (24 * (u * L)) g) (verts M).
  Hypothesis WS : well_spread (1 / 50000) (cut_point sea_level close M).
  Hypothesis CL : mesh_clipper argsort water vicinity_tol true M = Ok k.
  Hypothesis NE : faces (clipped k) <> [].
  Let n := INR (length (faces (clipped k))).
  Hypothesis FEW : n <= 100000000000000.
  Hypothesis WD : Forall (fun f => 1010 * (u * (L * L)) + 100 * (L * d) <= face_area (verts (clipped k)) f) (faces (clipped k)).
  Hypothesis DIR : forall f, In f (faces M) -> S_geometry.unit (dir f) /\ turns_along (dir f) (outline (verts M) f).
  Let A := Rsum (map (fun f => fan_area (dir f) (immersed_fan sea_level close (outline (verts M) f))) (faces M)).

  Let U := ulp1_pos.
  Let d0 : 0 <= d.
  Proof. unfold d, Rdiv. apply Rmult_le_pos; [lra|]. apply Rmult_le_pos; [apply Rmult_le_pos; [apply Rlt_le, U|apply Rmult_le_pos; lra]|apply Rlt_le, Rinv_0_lt_compat; lra]. Qed.
  Let dL : 1000 * d <= L. Proof. lra. Qed.
  Let uL : u * L <= / 100000.
  Proof. assert (u * L <= / 1000000000000000 * 10000000000) by (apply Rmult_le_compat; [apply Rlt_le, U|lra|apply ulp1_small|auto]). lra. Qed.
  Let uL0 : 0 < u * L. Proof. apply Rmult_lt_0_compat; [apply U|lra]. Qed.
  Let VN : Rabs (vicinity_tol_double - vicinity_tol) <= / 1000000.
  Proof.
    eapply Rle_trans; [apply vicinity_near|]. assert (u * (1 / 1000) <= / 1000000000000000 * (1 / 1000)) by (apply Rmult_le_compat_r; [lra|apply ulp1_small]). lra.
  Qed.
  Let VM : valid M. Proof. apply (fw_valid _ FW). Qed.
  Let CW := clip_wetted argsort SA M k FW CL.
  Let VK : valid (clipped k). Proof. apply (wt_valid _ _ (proj1 CW)). Qed.
  Let FK : flat_mesh (clipped k). Proof. apply (proj1 (proj2 CW)). apply (proj2 (proj2 CW)). exact SM. Qed.
  Let BK : Forall (bounded L) (verts (clipped k)). Proof. exact (clipped_bounded argsort L M k SA FW BV CL). Qed.

  Let double_clip : exists k' r, mesh_clipper_double argsort' fdots fdot water vicinity_tol_double true M = Ok k' /\ alike d r (clipped k) (clipped k').
  Proof.
    assert (CL' : mesh_clipper argsort water vicinity_tol_double true M = Ok k) by (rewrite <- (clipper_sides vicinity_tol); auto; eapply firm_sides; eauto).
    apply Rabs_le_inv in VN. unfold vicinity_tol in VN.
    destruct (clipper_double water L vicinity_tol_double g) with (argsort := argsort) (argsort' := argsort') (fdots := fdots) (fdot := fdot) (m := M) (ac := true) (k := k)
      as (k' & rc & r & E & _ & _ & _ & _ & _ & _ & _ & _ & _ & AL); auto.
    - pose proof smallest_small. lra.
    - unfold bounded, water, ez. cbn [p_normal vx vy vz]. rewrite Rabs_R0, Rabs_R1. lra.
    - unfold water. cbn [p_scalar]. rewrite Rabs_R0. lra.
    - unfold water. cbn [p_scalar]. exists 0%Z, 0%Z. cbn. repeat split; try lia. ring.
    - lra.
    - lra.
    - eapply firm_double; eauto.
    - intros x y X Y. apply WS; eapply firm_cut; eauto.
    - exists k', r. auto.
  Qed.

  Lemma area_clipped : surface_area (clipped k) = A.
  Proof.
    destruct (faces_properties (clipped k)) as [props|e] eqn:FP.
    - unfold A. rewrite <- (wet_area argsort SA M FW k CL props dir FP DIR). rewrite faces_properties_ok in FP by auto. injection FP as <-.
      rewrite map_map. unfold surface_area. apply Rsum_map_ext. intros. symmetry. apply props_area.
    - rewrite faces_properties_ok in FP by auto. discriminate.
  Qed.
  Lemma clip_many : 1 <= n.
  Proof. unfold n. destruct (faces (clipped k)) as [|f fs]; [congruence|]. cbn [length]. rewrite S_INR. pose proof (pos_INR (length fs)). lra. Qed.

  (** The clipped mesh in double precision *)
  Lemma clip_wide : exists k' r, mesh_clipper_double argsort' fdots fdot water vicinity_tol_double true M = Ok k' /\ alike d r (clipped k) (clipped k') /\
    length (faces (clipped k')) = length (faces (clipped k)) /\ valid (clipped k') /\ faces (clipped k') <> [] /\ extent (L + d) (clipped k') /\
    Forall (wide (L + d) (verts (clipped k'))) (faces (clipped k')).
  Proof.
    destruct double_clip as (k' & r & EK & AL). set (m := clipped k) in *. set (m' := clipped k') in *.
    assert (LN : length (faces m') = length (faces m)) by (rewrite (al_faces _ _ _ _ AL); apply map_length).
    assert (V' : valid m') by (eapply alike_valid; eauto).
    assert (NE' : faces m' <> []) by (intros Z; rewrite Z in LN; destruct (faces m); [congruence|discriminate]).
    assert (EX : extent (L + d) m').
    { split; [|eapply extent_moved; eauto]. assert (powerRZ 2 (-200) <= u) by (rewrite ulp1_bpow, <- (bpow_powerRZ radix2); apply bpow_le; lia).
      pose proof ulp1_small. lra. }
    assert (FEW' : INR (length (faces m')) <= 100000000000000) by (rewrite LN; exact FEW).
    assert (LD : 0 <= L * d) by (apply Rmult_le_pos; lra).
    assert (LL : 0 < L * L) by (apply Rmult_lt_0_compat; lra).
    assert (UL2 : 0 <= u * (L * L)) by (apply Rmult_le_pos; [apply Rlt_le, U|lra]).
    assert (WD' : Forall (wide (L + d) (verts m')) (faces m')).
    { rewrite (al_faces _ _ _ _ AL), Forall_map. rewrite Forall_forall in WD |- *. intros f If. specialize (WD f If). cbv beta in WD.
      pose proof (face_area_moved L d r m m' d0 dL AL BK VK f If) as FA. apply Rabs_le_inv in FA.
      assert (FF : flat_face (verts m) f). { unfold flat_mesh in FK. rewrite Forall_forall in FK. apply FK; auto. }
      pose proof (across_size L d r m m' d0 dL AL BK VK f If FF) as AS.
      assert (Q : (L + d) * (L + d) <= 1003 / 1000 * (L * L)).
      { assert ((L + d) * (L + d) <= (1001 / 1000 * L) * (1001 / 1000 * L)) by (apply Rmult_le_compat; lra). lra. }
      assert (UQ : u * ((L + d) * (L + d)) <= u * (1003 / 1000 * (L * L))) by (apply Rmult_le_compat_l; [apply Rlt_le, U|auto]).
      split; lra. }
    exists k', r. auto 10.
  Qed.

  Lemma displacement_near : exists wet vol mass V, displacement_double argsort' fdots fdot fsum fsum' farea ftotal rho M = Ok (wet, vol, mass) /\
    is_immersed_integral (fun _ => 1) M V /\
    Rabs (wet - A) <= n * (u * (3 * A + 400 * (L * L)) + 36 * (L * d)) /\
    Rabs (vol - V) <= n * (u * L * (11 * A + 1500 * (L * L)) + 270 * (L * L * d)) /\
    Rabs (mass - rho * V) <= Rabs rho * (n * (u * L * (13 * A + 1600 * (L * L)) + 280 * (L * L * d))).
  Proof.
    pose proof area_clipped as AC. destruct clip_wide as (k' & r & EK & AL & LN & V' & NE' & EX & WD'). set (m := clipped k) in *. set (m' := clipped k') in *.
    assert (FEW' : INR (length (faces m')) <= 100000000000000) by (rewrite LN; exact FEW).
    assert (LL : 0 < L * L) by (apply Rmult_lt_0_compat; lra).
    assert (UL2 : 0 <= u * (L * L)) by (apply Rmult_le_pos; [apply Rlt_le, U|lra]).
    destruct (area_near_total (L + d) m' EX V' NE' FEW' fsum farea A1 A3) as (wet & EA & NA).
    destruct (volume_near (L + d) m' EX V' NE' FEW' fsum' fsum ftotal A2 A1 A4 WD') as (v & W & EV & EW & NV).
    destruct (volume_moved L d r m m' d0 dL AL BK VK FK) as (W' & EW' & NW).
    { eapply Forall_impl; [|exact WD]. intros f. cbv beta. lra. }
    rewrite EW in EW'. injection EW' as <-.
    pose proof (surface_area_moved L d r m m' d0 dL AL BK VK) as NS.
    pose proof (surface_area_pos m') as P'. pose proof (surface_area_pos m) as P.
    change (INR (length (faces m))) with n in NW, NS. rewrite LN in NA, NV. change (INR (length (faces m))) with n in NA, NV.
    rewrite AC in NS, P. pose proof (Rabs_le_inv _ _ NS) as NS'.
    set (V := signed_volume vzero m) in *.
    assert (VS : Rabs V <= L * A) by (rewrite <- AC; apply volume_size; auto; lra).
    pose proof (volume_total L d n A L1 d0 dL clip_many FEW P (surface_area m') V W v P' ltac:(lra) NW NV) as TV.
    destruct (mass_total L d n A L1 d0 clip_many P rho V v RH VS TV) as (T1 & T2).
    exists wet, (fdiv (fmul rho v) rho), (fmul rho (fdiv (fmul rho v) rho)), V. split; [|split; [|split; [|split]]]; auto.
    - unfold displacement_double. rewrite EK. cbn [bind]. fold m'. rewrite EA. cbn [bind]. rewrite EV. cbn [bind].
      destruct (Reqb rho 0) eqn:R0; auto. apply Reqb_true in R0. rewrite R0, Rabs_R0 in RH. lra.
    - unfold V, m. rewrite (clip_volume argsort SA M FW k CL). apply cones_exact, cone0_exact.
    - eapply (area_total L d n A) with (A' := surface_area m'); auto using clip_many. lra.
  Qed.
End Displacement.
