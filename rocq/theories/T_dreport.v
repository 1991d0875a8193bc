(** Property C135: flotation center, metacentric radii and heights, stiffness and lengths at the waterline in double precision. *)
From Coq Require Import Reals Lra Lia List Arith Bool Psatz ZArith.
From Flocq Require Import Core.
From Verif Require Import M_base P_base M_merge P_merge S_merge M_rotations S_rotations M_plane M_mesh S_mesh P_mesh S_integral P_integral S_geometry M_geometry P_geometry S_connectivity M_connectivity M_clipper S_clipper P_cut P_clipper P_curves P_hull
  P_sharp P_archimedes P_contour M_inertia S_hydro P_hydro P_hydro2 P_wetted P_extent P_cones P_immersed P_barge S_report P_report T_hydro P_hsbox M_double S_double P_double P_double2 P_double3 P_double4 M_dgeom P_dgeom S_dgeom P_dgeom4 P_dgeom5
  M_dclip S_dclip P_dclip P_dclip4 M_dhydro P_dvol P_dhydro P_dhydro2 T_dhydro M_dinertia M_dbuoy T_dbuoy M_hydro M_dplane P_dplane P_dplane2 T_dplane M_dreport S_dreport P_dreport.
Import ListNotations.
Open Scope R_scope.

(** ** C135 *)
(** A waterplane of area [A] with its center at ([X], [Y]) from the point of reduction, the integrals [P], [S4] and [S5] of the product and the squares,
    a displaced volume [V], and the heights [zg] and [zb] of the centers of gravity and buoyancy. The code has them up to errors, as C127, C133 and C134 say.
    What it derives from them is right up to these errors, each with its weight, and a few roundings. Coefficients of the stiffness under
    1e-4 can be set to 0 (see [coefficient]). *)
Theorem C135_stability : forall rho grav w vol zcog b (at_cog : bool) A X Y P S4 S5 V zg zb x0 x1 y0 y1 e0 e1 e2 e3 e4 e5 eV eg eb D,
  let G := rho * grav in / 1000000 <= G ->
  0 < A -> 0 < V -> e0 <= / 5 * A -> eV <= / 4 * V -> u * u <= e0 -> u * u <= e1 -> u * u <= e2 -> u * u <= e3 -> u * u <= eV ->
  Rabs (g0 (w_sums w) - A) <= e0 -> Rabs (g1 (w_sums w) - A * X) <= e1 -> Rabs (g2 (w_sums w) - A * Y) <= e2 -> Rabs (g3 (w_sums w) - P) <= e3 ->
  Rabs (g4 (w_sums w) - S4) <= e4 -> Rabs (g5 (w_sums w) - S5) <= e5 -> Rabs (vol - V) <= eV -> Rabs (zcog - zg) <= eg -> Rabs (vz b - zb) <= eb ->
  Rabs (w_minx w - x0) <= D -> Rabs (w_maxx w - x1) <= D -> Rabs (w_miny w - y0) <= D -> Rabs (w_maxy w - y1) <= D ->
  let ox := if at_cog then vx b else 0 in let oy := if at_cog then vy b else 0 in
  let rt := S5 / V in let rl := S4 / V in
  let et := 2 * ((e5 + Rabs rt * eV) / V) + u * Rabs rt + tiny in let el := 2 * ((e4 + Rabs rl * eV) / V) + u * Rabs rl + tiny in
  let ht := rt - (zg - zb) in let hl := rl - (zg - zb) in
  let dt := 2 * (et + eg + eb + u * (Rabs (zg - zb) + Rabs ht) + tiny) in let dl := 2 * (el + eg + eb + u * (Rabs (zg - zb) + Rabs hl) + tiny) in
  let weighted e x := G * (101 / 100 * e + 4 * (u * Rabs x)) in
  exists t, stability_double rho grav w vol zcog b at_cog = Ok t /\
    t_area t = g0 (w_sums w) /\
    Rabs (t_xf t - (X + ox)) <= 2 * (2 * ((e1 + Rabs X * e0) / A) + 12 * (u * Rabs X) + tiny) + u * Rabs (X + ox) + tiny /\
    Rabs (t_yf t - (Y + oy)) <= 2 * (2 * ((e2 + Rabs Y * e0) / A) + 12 * (u * Rabs Y) + tiny) + u * Rabs (Y + oy) + tiny /\
    Rabs (t_transversal_radius t - rt) <= et /\ Rabs (t_longitudinal_radius t - rl) <= el /\
    Rabs (t_transversal_height t - ht) <= dt /\ Rabs (t_longitudinal_height t - hl) <= dl /\
    (let k := t_stiffness t in
     coefficient (weighted e0 A) (G * A) (m00 k) /\
     coefficient (weighted e2 (A * Y)) (G * (A * Y)) (m01 k) /\ m10 k = m01 k /\
     coefficient (weighted e1 (A * X)) (- G * (A * X)) (m02 k) /\ m20 k = m02 k /\
     coefficient (weighted e3 P) (- G * P) (m12 k) /\ m21 k = m12 k /\
     coefficient (G * (2 * V * dt + Rabs ht * (2 * eV + 8 * (u * V))) + tiny) (G * V * ht) (m11 k) /\
     coefficient (G * (2 * V * dl + Rabs hl * (2 * eV + 8 * (u * V))) + tiny) (G * V * hl) (m22 k)) /\
    Rabs (t_length t - (x1 - x0)) <= (1 + u) * (D + D) + u * Rabs (x1 - x0) + tiny /\
    Rabs (t_breadth t - (y1 - y0)) <= (1 + u) * (D + D) + u * Rabs (y1 - y0) + tiny /\
    Rabs (t_forward t - (x1 + vx b)) <= (1 + u) * D + u * Rabs (x1 + vx b) + tiny.
Proof.
  intros rho grav w vol zcog b at_cog A X Y P S4 S5 V zg zb x0 x1 y0 y1 e0 e1 e2 e3 e4 e5 eV eg eb D G G6 A0 V0 E0 EV F0 F1 F2 F3 FV
    H0 H1 H2 H3 H4 H5 HV HG HB M0 M1 N0 N1 ox oy rt rl et el ht hl dt dl weighted.
  pose proof (plane_positive rho grav G6 A (g0 (w_sums w)) e0 A0 H0 E0 F0) as P33.
  assert (PV : vol <> 0). { intros ->. pose proof (Rabs_le_inv _ _ HV). lra. }
  unfold stability_double. unfold Reqb at 1. destruct (Req_EM_T vol 0) as [Q|_]; [contradiction|].
  unfold Reqb. destruct (Req_EM_T (fmul (fmul rho grav) (g0 (w_sums w))) 0) as [Q|_]; [lra|].
  eexists. split; [reflexivity|]. cbn [t_area t_xf t_yf t_transversal_radius t_longitudinal_radius t_transversal_height t_longitudinal_height t_stiffness t_length t_breadth t_forward
    m00 m01 m02 m10 m11 m12 m20 m21 m22].
  pose proof (Rabs_pos_eq G ltac:(lra)) as GP. assert (GN : Rabs (- G) = G) by (rewrite Rabs_Ropp; auto).
  pose proof (coefficient_near rho grav G6 _ G _ _ _ (weight_near rho grav G6) GP H0 F0) as C33.
  pose proof (coefficient_near rho grav G6 _ G _ _ _ (weight_near rho grav G6) GP H2 F2) as C34.
  pose proof (coefficient_near rho grav G6 _ (- G) _ _ _ (weight_down rho grav G6) GN H1 F1) as C35.
  pose proof (coefficient_near rho grav G6 _ (- G) _ _ _ (weight_down rho grav G6) GN H3 F3) as C45.
  split; [reflexivity|].
  split. { apply (center_shifted A e0 X e1 (vx b) at_cog). apply (center_near rho grav G6 A (g0 (w_sums w)) e0 (g1 (w_sums w)) X e1 A0 H0 E0 F0 H1). fold G.
    replace (- fmul (- fmul rho grav) (g1 (w_sums w)) - G * (A * X)) with (- (fmul (- fmul rho grav) (g1 (w_sums w)) - - G * (A * X))) by ring. rewrite Rabs_Ropp. exact C35. }
  split. { apply (center_shifted A e0 Y e2 (vy b) at_cog). apply (center_near rho grav G6 A (g0 (w_sums w)) e0 (g2 (w_sums w)) Y e2 A0 H0 E0 F0 H2). exact C34. }
  split. { apply (radius_near V eV vol V0 HV EV _ _ _ H5). }
  split. { apply (radius_near V eV vol V0 HV EV _ _ _ H4). }
  split. { apply (height_near V eV vol V0 HV EV _ _ _ _ _ _ _ _ _ H5 HG HB). }
  split. { apply (height_near V eV vol V0 HV EV _ _ _ _ _ _ _ _ _ H4 HG HB). }
  split. { cbv zeta. split; [apply zeroed; exact C33|]. split; [apply zeroed; exact C34|]. split; [reflexivity|]. split; [apply zeroed; exact C35|]. split; [reflexivity|].
    split; [apply zeroed; exact C45|]. split; [reflexivity|].
    split; apply zeroed; [apply (moment_near rho grav G6 V eV vol V0 HV EV FV _ _ _ _ _ _ _ _ _ H5 HG HB)|apply (moment_near rho grav G6 V eV vol V0 HV EV FV _ _ _ _ _ _ _ _ _ H4 HG HB)]. }
  split; [apply sub_near; auto|]. split; [apply sub_near; auto|].
  replace ((1 + u) * D) with ((1 + u) * (D + 0)) by ring. apply add_near; auto. replace (vx b - vx b) with 0 by ring. rewrite Rabs_R0. lra.
Qed.

(** The center of flotation in the frame of the mesh, for a height [z] in double precision: if the code has it up to [e] in the position, at the level of
    the sea, then it reports the point [c] of the body that is there, up to roundings and to the errors [h] of the rotation matrix. *)
Theorem C135_center : forall fdots rot z L e h c xf yf, (forall i, computes_dot (fdots i)) -> fl z = z -> smallest <= L -> Rabs z <= L -> bounded L (V3 xf yf 0) -> bounded L c ->
  near_point e (placed rot z c) (V3 xf yf 0) ->
  bounded 1 (row0 (mtrans rot)) -> bounded 1 (row1 (mtrans rot)) -> bounded 1 (row2 (mtrans rot)) ->
  (forall x, bounded 1 x -> bounded h (vsub (mvec (mmul (mtrans rot) rot) x) x)) ->
  near_point (54 * (u * L) + 3 * e + h * L) c (plane_center_double fdots rot z xf yf).
Proof.
  intros fdots rot z L e h c xf yf C Z S ZL BB BC N R0 R1 R2 H.
  replace (plane_center_double fdots rot z xf yf) with (to_initial_double fdots rot z (V3 xf yf 0)); [apply C133_initial; auto|].
  unfold to_initial_double, plane_center_double. cbn [vx vy vz]. replace (fsub 0 z) with (- z); [reflexivity|].
  unfold fsub. rewrite Rminus_0_l. rewrite <- Z at 1. symmetry. unfold fl. apply round_NE_opp.
Qed.
(** The box of [C135_case], afloat at -1/2: its flotation center is at half a meter in its own frame. *)
Example C135_center_case : forall fdots xf yf, (forall i, computes_dot (fdots i)) -> Rabs (xf - 2) <= 1 / 100000 -> Rabs (yf - 1) <= 1 / 100000 ->
  near_point (1 / 10000) (V3 2 1 (1 / 2)) (plane_center_double fdots mid (-1 / 2) xf yf).
Proof.
  intros fdots xf yf C X Y. pose proof ulp1_le_9 as US. pose proof ulp1_pos as U. apply Rabs_le_inv in X, Y.
  assert (K : near_point (54 * (u * 4) + 3 * (1 / 100000) + 0 * 4) (V3 2 1 (1 / 2)) (plane_center_double fdots mid (-1 / 2) xf yf)).
  { apply C135_center; auto.
    - apply round_generic; [apply valid_rnd_N|]. apply generic_format_FLT. exists (Float radix2 (-1) (-1)); cbn; try lia. unfold F2R; cbn. lra.
    - pose proof smallest_small. lra.
    - apply Rabs_le. lra.
    - unfold bounded; cbn; repeat split; apply Rabs_le; lra.
    - unfold bounded; cbn; repeat split; apply Rabs_le; lra.
    - unfold near_point, placed, mid. cbn. repeat split; apply Rabs_le; lra.
    - unfold bounded, row0, mid; cbn; repeat split; apply Rabs_le; lra.
    - unfold bounded, row1, mid; cbn; repeat split; apply Rabs_le; lra.
    - unfold bounded, row2, mid; cbn; repeat split; apply Rabs_le; lra.
    - intros x _. destruct x. unfold bounded, mid. cbn. repeat split; apply Rabs_le; lra. }
  destruct K as (K1 & K2 & K3). repeat split; lra.
Qed.

(** The box of C127 again, its center of gravity at its center of buoyancy and g = 10: from clipping to the report, whatever the roundings. *)
Example C135_case : forall argsort fdots fdot fsum fsum' farea ftotal f6 f9 f12, sorting argsort -> (forall j, computes_dot (fdots j)) -> computes_dot fdot ->
  (forall j, adds (fsum j)) -> (forall j, adds (fsum' j)) -> adds farea -> adds ftotal -> (forall j, adds (f6 j)) ->
  exists wet vol mass b w t, let M := afloat (-1 / 2) in
    displacement_double argsort fdots fdot fsum fsum' farea ftotal 1025 M = Ok (wet, vol, mass) /\
    buoyancy_double argsort fdots fdot fsum fsum' ftotal f6 f9 f12 1025 M = Ok b /\
    waterplane_double argsort fdots fdot true b M = Ok w /\
    stability_double 1025 10 w vol (-3 / 4) b true = Ok t /\
    Rabs (t_xf t - 2) <= 1 / 100000 /\ Rabs (t_yf t - 1) <= 1 / 100000 /\
    Rabs (t_transversal_radius t - 2 / 9) <= 1 / 100000 /\ Rabs (t_longitudinal_radius t - 8 / 9) <= 1 / 100000 /\
    Rabs (t_transversal_height t - 2 / 9) <= 1 / 100000 /\ Rabs (m00 (t_stiffness t) - 82000) <= 1 / 1000 /\ Rabs (m11 (t_stiffness t) - 82000 / 3) <= 2 /\
    Rabs (t_length t - 4) <= 1 / 100000 /\ Rabs (t_breadth t - 2) <= 1 / 100000 /\ Rabs (t_forward t - 4) <= 1 / 100000.
Proof.
  intros argsort fdots fdot fsum fsum' farea ftotal f6 f9 f12 SA DS DT A1 A2 A3 A4 A6.
  destruct (C127_case argsort fdots fdot fsum fsum' farea ftotal SA DS DT A1 A2 A3 A4) as (wet & vol & mass & E1 & _ & HV & _).
  destruct (C133_case argsort fdots fdots fdot fsum fsum' ftotal f6 f9 f12 SA DS DS DT A1 A2 A4 A6) as (b & E2 & (B1 & B2 & B3) & _). cbn [vx vy vz] in B1, B2, B3.
  exists wet, vol, mass, b.
  assert (Z : -2 + 1 / 500 < -1 / 2 < 1 - 1 / 500) by lra. pose proof ulp1_le_9 as US. pose proof ulp1_pos as U.
  set (W := [(w1, w2); (w2, w3); (w3, w4); (w4, w1)]). pose proof (af_line _ Z) as AF. fold W in AF.
  assert (F : fills lid W). { intros psi A. unfold W, lid, run, around. cbn. unfold Rsum. cbn [fold_right]. rewrite (A w3 w1). ring. }
  assert (NW : INR (length W) = 4) by (unfold W; cbn; ring).
  apply Rabs_le_inv in B1, B2, B3.
  assert (Q : _) by (refine (C134_waterplane argsort argsort fdots fdot 4 1 (afloat (-1 / 2)) true b lid SA SA DS DT _ _ _ (af_floats _ Z) box_bounded box_firm box_spread _ _ _ _);
    [lra|lra|lra|rewrite AF; discriminate|rewrite AF, NW; lra|unfold bounded; repeat split; apply Rabs_le; lra|rewrite AF; exact F]).
  cbv zeta in Q. rewrite AF, NW in Q. destruct Q as (w & E & P0 & P1 & P2 & P3 & P4 & P5 & PX0 & PX1 & PY0 & PY1). exists w.
  assert (I0 : is_flat_integral (fun _ => 1) lid 8). { eapply eq_ind; [exact (exact0 2 1 lid W F)|]. unfold W, run, Rsum, side0, w1, w2, w3, w4. cbn. field. }
  assert (I1 : is_flat_integral (fun v => vx v - vx b) lid (8 * (2 - vx b))). { eapply eq_ind; [exact (exact1 (vx b) (vy b) lid W F)|]. unfold W, run, Rsum, side1, w1, w2, w3, w4. cbn. field. }
  assert (I2 : is_flat_integral (fun v => vy v - vy b) lid (8 * (1 - vy b))). { eapply eq_ind; [exact (exact2 (vx b) (vy b) lid W F)|]. unfold W, run, Rsum, side2, w1, w2, w3, w4. cbn. field. }
  pose proof (exact3 (vx b) (vy b) lid W F) as I3.
  assert (I4 : is_flat_integral (fun v => (vx v - vx b) * (vx v - vx b)) lid (32 / 3 + 8 * (2 - vx b) ^ 2)).
  { eapply eq_ind; [exact (exact4 (vx b) (vy b) lid W F)|]. unfold W, run, Rsum, side4, w1, w2, w3, w4. cbn. field. }
  assert (I5 : is_flat_integral (fun v => (vy v - vy b) * (vy v - vy b)) lid (8 / 3 + 8 * (1 - vy b) ^ 2)).
  { eapply eq_ind; [exact (exact5 (vx b) (vy b) lid W F)|]. unfold W, run, Rsum, side5, w1, w2, w3, w4. cbn. field. }
  specialize (P0 _ I0). specialize (P1 _ I1). specialize (P2 _ I2). specialize (P3 _ I3). specialize (P4 _ I4). specialize (P5 _ I5).
  assert (MI : forall (q : vec -> R) x s, In s W -> x = q (fst s) -> (forall t, In t W -> x <= q (fst t)) -> is_min x (map (fun s => q (fst s)) W)).
  { intros q x s I -> H. split; [apply (in_map (fun s => q (fst s))); auto|]. intros y Y. apply in_map_iff in Y as (t & <- & T). auto. }
  assert (MA : forall (q : vec -> R) x s, In s W -> x = q (fst s) -> (forall t, In t W -> q (fst t) <= x) -> is_max x (map (fun s => q (fst s)) W)).
  { intros q x s I -> H. split; [apply (in_map (fun s => q (fst s))); auto|]. intros y Y. apply in_map_iff in Y as (t & <- & T). auto. }
  assert (ALL : forall t, In t W -> 0 <= vx (fst t) <= 4 /\ 0 <= vy (fst t) <= 2).
  { intros t T. unfold W in T. cbn in T. repeat (destruct T as [<-|T]; [cbn; lra|]). contradiction. }
  assert (W1 : In (w1, w2) W) by (unfold W; cbn; auto). assert (W3 : In (w3, w4) W) by (unfold W; cbn; auto).
  specialize (PX0 0 ltac:(apply (MI vx 0 (w1, w2)); auto; apply ALL)). specialize (PX1 4 ltac:(apply (MA vx 4 (w3, w4)); auto; apply ALL)).
  specialize (PY0 0 ltac:(apply (MI vy 0 (w1, w2)); auto; apply ALL)). specialize (PY1 2 ltac:(apply (MA vy 2 (w3, w4)); auto; apply ALL)).
  assert (UU : u * u <= 1 / 100000000) by (assert (u * u <= 1 * u) by (apply Rmult_le_compat_r; lra); lra).
  assert (T0 : tiny <= 1 / 100000000).
  { pose proof tiny_cube as T. assert (u * u * (u * u) <= 1 * 1) by (apply Rmult_le_compat; try lra; apply Rmult_le_pos; lra).
    assert (u * (u * u * (u * u)) <= u * 1) by (apply Rmult_le_compat_l; lra). lra. }
  pose proof tiny_pos as T1.
  set (S3 := _ - _ / 24) in P3.
  assert (SQ : forall x, - (1 / 1000000) <= x <= 1 / 1000000 -> 0 <= x ^ 2 <= 1 / 1000000000000) by (intros x X; split; nra).
  pose proof (SQ (2 - vx b) ltac:(lra)) as SX. pose proof (SQ (1 - vy b) ltac:(lra)) as SY.
  destruct (C135_stability 1025 10 w vol (-3 / 4) b true 8 (2 - vx b) (1 - vy b) S3 (32 / 3 + 8 * (2 - vx b) ^ 2) (8 / 3 + 8 * (1 - vy b) ^ 2) 12 (-3 / 4) (-3 / 4)
    (0 - vx b) (4 - vx b) (0 - vy b) (2 - vy b) (1 / 100000000) (1 / 100000000) (1 / 100000000) (1 / 100000000) (1 / 100000000) (1 / 100000000) (1 / 1000000) 0 (1 / 1000000) (1 / 100000000))
    as (t & ET & _ & XF & YF & RT & RL & HT & _ & (K0 & _ & _ & _ & _ & _ & _ & K1 & _) & TL & TB & TF); try lra;
    try (eapply Rle_trans; [eassumption|lra]).
  { apply Rabs_le. lra. }
  { apply Rabs_le. lra. }
  exists t. split; auto. split; auto. split; auto. split; auto.
  set (sx := (2 - vx b) ^ 2) in *. set (sy := (1 - vy b) ^ 2) in *.
  rewrite (Rabs_pos_eq ((8 / 3 + 8 * sy) / 12)) in * by lra. rewrite (Rabs_pos_eq ((32 / 3 + 8 * sx) / 12)) in * by lra.
  replace (-3 / 4 - -3 / 4) with 0 in * by ring. rewrite Rabs_R0 in *. rewrite Rminus_0_r in *. rewrite (Rabs_pos_eq ((8 / 3 + 8 * sy) / 12)) in * by lra.
  assert (UY : 0 <= u * sy <= u * 1) by (split; [apply Rmult_le_pos|apply Rmult_le_compat_l]; lra). assert (UX : 0 <= u * sx <= u * 1) by (split; [apply Rmult_le_pos|apply Rmult_le_compat_l]; lra).
  replace (2 - vx b + vx b) with 2 in XF by ring. replace (1 - vy b + vy b) with 1 in YF by ring. replace (4 - vx b - (0 - vx b)) with 4 in TL by ring.
  replace (2 - vy b - (0 - vy b)) with 2 in TB by ring. replace (4 - vx b + vx b) with 4 in TF by ring.
  assert (AX : Rabs (2 - vx b) <= 1 / 1000000) by (apply Rabs_le; lra). assert (AY : Rabs (1 - vy b) <= 1 / 1000000) by (apply Rabs_le; lra).
  pose proof (Rabs_pos (2 - vx b)). pose proof (Rabs_pos (1 - vy b)).
  assert (u * Rabs (2 - vx b) <= u * 1) by (apply Rmult_le_compat_l; lra). assert (u * Rabs (1 - vy b) <= u * 1) by (apply Rmult_le_compat_l; lra).
  rewrite (Rabs_pos_eq 2) in XF, TB by lra. rewrite (Rabs_pos_eq 1) in YF by lra. rewrite (Rabs_pos_eq 4) in TL, TF by lra.
  split; [lra|]. split; [lra|].
  apply Rabs_le_inv in RT, RL, HT.
  split; [apply Rabs_le; lra|]. split; [apply Rabs_le; lra|]. split; [apply Rabs_le; lra|].
  split. { destruct K0 as [[K0 _]|[_ K0]]; [|rewrite !Rabs_pos_eq in K0 by lra; lra]. rewrite (Rabs_pos_eq 8) in K0 by lra. apply Rabs_le_inv in K0. apply Rabs_le. lra. }
  split. { assert (SS : sy * sy <= 1 * 1) by (apply Rmult_le_compat; lra). assert (0 <= sy * sy) by (apply Rmult_le_pos; lra).
    assert (USS : 0 <= u * (sy * sy) <= u * 1) by (split; [apply Rmult_le_pos|apply Rmult_le_compat_l]; lra).
    destruct K1 as [[K1 _]|[_ K1]]; [|rewrite (Rabs_pos_eq (1025 * 10 * 12 * _)) in K1 by lra; exfalso; lra]. apply Rabs_le_inv in K1. apply Rabs_le. lra. }
  split; [lra|]. split; lra.
Qed.
Print Assumptions C135_stability.
Print Assumptions C135_center.
Print Assumptions C135_center_case.
Print Assumptions C135_case.
