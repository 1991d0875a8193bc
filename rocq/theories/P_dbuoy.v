(** Proofs about the center of buoyancy in double precision. *)
From Coq Require Import Reals Lra Lia List Arith Bool Psatz ZArith.
From Flocq Require Import Core.
From Verif Require Import M_base P_base M_merge P_merge S_merge M_rotations S_rotations M_plane M_mesh S_mesh P_mesh S_geometry M_geometry P_geometry S_connectivity M_connectivity M_clipper S_clipper P_cut P_clipper P_curves
  P_sharp P_archimedes P_contour M_inertia M_hydro S_hydro P_hydro P_hydro2 P_wetted P_extent P_cones P_immersed M_double S_double P_double P_double2 P_double3 P_double4 M_dgeom P_dgeom P_dgeom2 S_dgeom P_dgeom4 P_dgeom5
  M_dclip S_dclip P_dclip P_dclip4 M_dinertia P_dinertia P_dinertia2 P_dinertia3 M_dhydro P_dvol P_dhydro P_dhydro2 P_dcenter M_dbuoy.
Import ListNotations.
Open Scope R_scope.

(** ** Numbers *)
Section Numbers.
  Variables (L d n A V : R).
  Hypothesis HL : 1 / 1000 <= L.
  Hypothesis Hd0 : 0 <= d.
  Hypothesis Hd : 1000 * d <= L.
  Hypothesis Hn : 1 <= n.
  Hypothesis Hn' : n <= 100000000000000.
  Hypothesis A0 : 0 <= A.
  Let U := ulp1_pos.
  Let U9 := ulp1_le_9.
  Let nu : n * u <= / 80.
  Proof. assert (n * u <= 100000000000000 * / 9000000000000000) by (apply Rmult_le_compat; [lra|apply Rlt_le, U|auto|apply U9]). lra. Qed.
  Let LL0 : 0 < L * L. Proof. apply Rmult_lt_0_compat; lra. Qed.
  Let sized : powerRZ 2 (-200) <= L.
  Proof. assert (powerRZ 2 (-200) <= u) by (rewrite ulp1_bpow, <- (bpow_powerRZ radix2); apply bpow_le; lia). pose proof ulp1_small. lra. Qed.
  Let sq : (L + d) ^ 2 <= 1003 / 1000 * L ^ 2.
  Proof. cbn. rewrite !Rmult_1_r. assert ((L + d) * (L + d) <= (1001 / 1000 * L) * (1001 / 1000 * L)) by (apply Rmult_le_compat; lra). lra. Qed.
  Let sq4 : (L + d) ^ 4 <= 1008 / 1000 * L ^ 4.
  Proof.
    replace ((L + d) ^ 4) with ((L + d) ^ 2 * (L + d) ^ 2) by ring. replace (1008 / 1000 * L ^ 4) with (1008 / 1000 * (L ^ 2 * L ^ 2)) by ring.
    assert (0 <= (L + d) ^ 2) by (apply pow_le; lra). assert (0 <= L ^ 2 * L ^ 2) by (apply Rmult_le_pos; apply pow_le; lra).
    assert ((L + d) ^ 2 * (L + d) ^ 2 <= (1003 / 1000 * L ^ 2) * (1003 / 1000 * L ^ 2)) by (apply Rmult_le_compat; auto). lra.
  Qed.

  (** The sum of a coordinate *)
  Lemma flux_total : forall A' X X' x, 0 <= A' -> A' <= A + n * (34 * (L * d)) -> Rabs (X' - X) <= n * (380 * (L * (L * L) * d)) ->
    Rabs (x - X') <= n * (u * (2 * (A' * (L + d) ^ 2) + 1532 * (L + d) ^ 4)) -> Rabs (x - X) <= n * (u * (3 * (A * L ^ 2) + 1545 * L ^ 4) + 381 * (L ^ 3 * d)).
  Proof.
    intros A' X X' x P H1 H2 H3. replace (x - X) with ((x - X') + (X' - X)) by ring. eapply Rle_trans; [apply Rabs_triang|].
    assert (L3 : 0 <= L ^ 3 * d) by (apply Rmult_le_pos; [apply pow_le; lra|auto]).
    assert (L2 : 0 <= L ^ 2) by (apply pow_le; lra). assert (L4 : 0 <= L ^ 4) by (apply pow_le; lra).
    assert (K : n * (u * (2 * (A' * (L + d) ^ 2) + 1532 * (L + d) ^ 4)) <= n * (u * (3 * (A * L ^ 2) + 1545 * L ^ 4) + L ^ 3 * d)).
    { apply Rmult_le_compat_l; [lra|].
      assert (B1 : A' * (L + d) ^ 2 <= (A + n * (34 * (L * d))) * (1003 / 1000 * L ^ 2)) by (apply Rmult_le_compat; auto; apply pow_le; lra).
      assert (B : 2 * (A' * (L + d) ^ 2) + 1532 * (L + d) ^ 4 <= 3 * (A * L ^ 2) + 1545 * L ^ 4 + 69 * n * (L ^ 3 * d)).
      { assert (0 <= A * L ^ 2) by (apply Rmult_le_pos; auto). assert (0 <= n * (L ^ 3 * d)) by (apply Rmult_le_pos; lra).
        replace ((A + n * (34 * (L * d))) * (1003 / 1000 * L ^ 2)) with (1003 / 1000 * (A * L ^ 2) + 34 * (1003 / 1000) * (n * (L ^ 3 * d))) in B1 by (cbn; ring). lra. }
      apply Rmult_le_compat_l with (r := u) in B; [|apply Rlt_le, U].
      assert (E : (n * u) * (69 * (L ^ 3 * d)) <= / 80 * (69 * (L ^ 3 * d))) by (apply Rmult_le_compat_r; [lra|exact nu]). lra. }
    replace (L * (L * L) * d) with (L ^ 3 * d) in H2 by (cbn; ring). lra.
  Qed.

  (** The quotient of the two sums *)
  Lemma center_total : forall v x X, Rabs (v - V) <= n * (u * L * (7 * A + 1450 * (L * L)) + 263 * (L * L * d)) -> Rabs V <= L * A -> 0 < V ->
    2 * (n * (u * L * (17 * A + 2905 * (L * L)) + 527 * (L * L * d))) <= V ->
    Rabs (x - X) <= n * (u * (3 * (A * L ^ 2) + 1545 * L ^ 4) + 381 * (L ^ 3 * d)) -> Rabs X <= A * L ^ 2 ->
    let q := L * A / V in let p := L ^ 3 / V in let t := L ^ 2 * d / V in
    Rabs (fdiv x (fmul 2 v) - X / (2 * V)) <= n * (L * (u * (1 + 3 * q + 1032 * p + q * (6 * q + 970 * p)) + (255 + 176 * q) * t)).
  Proof.
    intros v x X EV HV V0 BIG E H q p t. pose proof ulp1_pos as U0. pose proof u_small as U1.
    assert (Q0 : 0 <= q) by (apply Rle_mult_inv_pos; auto; apply Rmult_le_pos; lra).
    assert (P0 : 0 <= p) by (apply Rle_mult_inv_pos; auto; apply pow_le; lra).
    assert (T0 : 0 <= t) by (apply Rle_mult_inv_pos; auto; apply Rmult_le_pos; auto; apply pow_le; lra).
    assert (F : Rabs (fmul 2 v - 2 * V) <= n * (u * L * (17 * A + 2905 * (L * L)) + 527 * (L * L * d))).
    { assert (T2 : tiny <= u * (Rabs 2 * L ^ 3)).
      { rewrite (Rabs_pos_eq 2) by lra. apply Rle_trans with (u * L ^ 3); [apply tiny_uQ, pow_large; auto; lia|].
        apply Rmult_le_compat_l; [lra|]. assert (0 <= L ^ 3) by (apply pow_le; lra). lra. }
      apply Rle_trans with (1 := fmul_near 2 v V _ _ (L ^ 3) EV HV T2).
      rewrite (Rabs_pos_eq 2) by lra. replace (L ^ 3) with (L * (L * L)) by (cbn; ring).
      set (h := L * A). set (w := L * (L * L)). set (y := L * L * d).
      assert (H0 : 0 <= h) by (apply Rmult_le_pos; lra). assert (W0 : 0 <= w) by (repeat apply Rmult_le_pos; lra). assert (Y0 : 0 <= y) by (apply Rmult_le_pos; lra).
      replace (u * L * (7 * A + 1450 * (L * L))) with (7 * (u * h) + 1450 * (u * w)) by (unfold h, w; ring).
      replace (u * L * (17 * A + 2905 * (L * L))) with (17 * (u * h) + 2905 * (u * w)) by (unfold h, w; ring).
      assert (0 <= u * h) by (apply Rmult_le_pos; lra). assert (0 <= u * w) by (apply Rmult_le_pos; lra).
      assert (u * h <= n * (u * h)) by nra. assert (u * w <= n * (u * w)) by nra. assert (0 <= n * y) by (apply Rmult_le_pos; lra). lra. }
    assert (R : Rabs X <= (L * q / 2) * (2 * V)).
    { replace (L * q / 2 * (2 * V)) with (A * L ^ 2) by (unfold q; cbn; field; lra). exact H. }
    pose proof (quotient_near x X (fmul 2 v) (2 * V) _ _ _ E F ltac:(lra) ltac:(lra) R) as D.
    assert (D' : Rabs (x / fmul 2 v - X / (2 * V)) <= n * (L * (u * (2 * q + 1030 * p + q * (17 / 3 * q + 2905 / 3 * p)) + (254 + 527 / 3 * q) * t))).
    { apply Rle_trans with (1 := D).
      replace (4 / 3 * ((n * (u * (3 * (A * L ^ 2) + 1545 * L ^ 4) + 381 * (L ^ 3 * d)) + L * q / 2 * (n * (u * L * (17 * A + 2905 * (L * L)) + 527 * (L * L * d)))) / (2 * V)))
        with (n * (L * (u * (2 * q + 1030 * p + q * (17 / 3 * q + 2905 / 3 * p)) + (254 + 527 / 3 * q) * t))) by (unfold q, p, t; cbn; field; lra).
      apply Rle_refl. }
    pose proof (rounded_near _ _ _ D') as B. fold (fdiv x (fmul 2 v)) in B. apply Rle_trans with (1 := B).
    assert (XV : Rabs (X / (2 * V)) <= L * q / 2).
    { unfold Rdiv. rewrite Rabs_mult, (Rabs_pos_eq (/ (2 * V))) by (apply Rlt_le, Rinv_0_lt_compat; lra).
      apply Rmult_le_reg_r with (2 * V); [lra|]. rewrite Rmult_assoc, Rinv_l by lra. unfold Rdiv in R. lra. }
    assert (T : tiny <= u * L) by (replace L with (L ^ 1) by (cbn; ring); apply tiny_uQ, pow_large; auto; lia).
    assert (QP : 0 <= q * p) by (apply Rmult_le_pos; auto). assert (QQ : 0 <= q * q) by (apply Rmult_le_pos; auto). assert (QT : 0 <= q * t) by (apply Rmult_le_pos; auto).
    set (b := 2 * q + 1030 * p + q * (17 / 3 * q + 2905 / 3 * p)) in *. set (c := (254 + 527 / 3 * q) * t) in *.
    assert (b0 : 0 <= b) by (unfold b; lra). assert (c0 : 0 <= c) by (unfold c; apply Rmult_le_pos; lra).
    assert (UB0 : 0 <= u * b) by (apply Rmult_le_pos; lra).
    assert (NB : 0 <= n * (L * (u * b + c))) by (apply Rmult_le_pos; [lra|apply Rmult_le_pos; lra]).
    assert (X1 : u * Rabs (X / (2 * V)) <= u * (L * q / 2)) by (apply Rmult_le_compat_l; lra).
    assert (X2 : u * (n * (L * (u * b + c))) <= / 1000 * (n * (L * (u * b + c)))) by (apply Rmult_le_compat_r; lra).
    apply Rle_trans with (n * (L * (1001 / 1000 * (u * b + c))) + L * (u * (q / 2 + 1))); [lra|].
    assert (X3 : L * (u * (q / 2 + 1)) <= n * (L * (u * (q / 2 + 1)))).
    { assert (0 <= L * (u * (q / 2 + 1))) by (apply Rmult_le_pos; [lra|apply Rmult_le_pos; lra]). nra. }
    apply Rle_trans with (n * (L * (1001 / 1000 * (u * b + c) + u * (q / 2 + 1)))); [lra|].
    apply Rmult_le_compat_l; [lra|]. apply Rmult_le_compat_l; [lra|].
    apply Rle_trans with (u * (1001 / 1000 * b + (q / 2 + 1)) + 1001 / 1000 * c); [lra|].
    apply Rplus_le_compat; [|unfold c; lra]. apply Rmult_le_compat_l; [lra|]. unfold b. lra.
  Qed.
End Numbers.

(** ** The sums of the exact clipped mesh *)
Lemma flux_immersed : forall argsort M k p I, sorting argsort -> floats_well M -> strict_mesh M -> mesh_clipper argsort water vicinity_tol true M = Ok k ->
  coordinate p -> is_immersed_integral p M I -> flux_sum p (clipped k) = 2 * I.
Proof.
  intros argsort M k p I SA FW SM CL P H. destruct (clip_wetted argsort SA M k FW CL) as (WT & FL & PM).
  specialize (FL (PM SM)). unfold flux_sum. rewrite <- flux_coords by auto. rewrite flux_tsum by (auto; unfold selection; auto).
  rewrite (tsum_split i6 _ _ (clipped k) (or_intror (or_introl eq_refl)) (wetted_rings _ _ WT) tflux6). rewrite coord_scale by auto. f_equal.
  assert (E : p (tsum (fun a b c => V3 (cone1 vx a b c) (cone1 vy a b c) (cone1 vz a b c)) (clipped k)) = surface_sum (cone1 p) (verts (clipped k)) (faces (clipped k)))
    by (destruct P as [-> | [-> | ->]]; reflexivity).
  rewrite E. rewrite (total_sum argsort SA M FW k CL (cone1 p)) by (apply cone1_additive; exact P).
  eapply cones_unique; [|exact H]. apply cones_exact. intros. apply cone1_exact. exact P.
Qed.

Section Buoyancy.
  Variables (argsort argsort' : list R -> list nat) (fdots : nat -> vec -> vec -> R) (fdot : vec -> vec -> R) (fsum fsum' : nat -> list R -> R)
    (ftotal : list R -> R) (f6 f9 f12 : nat -> list R -> R) (rho L g : R) (M : mesh) (k : clipper) (dir : face -> vec) (V : R) (B : vec).
  Hypothesis SA : sorting argsort.
  Hypothesis SA' : sorting argsort'.
  Hypothesis DS : forall j, computes_dot (fdots j).
  Hypothesis DT : computes_dot fdot.
  Hypothesis A1 : forall j, adds (fsum j).
  Hypothesis A2 : forall j, adds (fsum' j).
  Hypothesis A4 : adds ftotal.
  Hypothesis A6 : forall j, adds (f6 j).
  Hypothesis L1 : 1 / 1000 <= L.
  Hypothesis L2 : L <= 10000000000.
  Hypothesis G1 : 1 / 900 <= g.
  Let d := 190 * (u * (L * L) / g).
  Hypothesis D1 : d <= 1 / 400000000.
  Hypothesis FW : floats_well M.
  Hypothesis SM : strict_mesh M.
  Hypothesis BV : Forall (bounded L) (verts M).
  Hypothesis FV : Forall (firm sea_level close (24 * (u * L)) g) (verts M).
  Hypothesis WS : well_spread (1 / 50000) (cut_point sea_level close M).
  Hypothesis CL : mesh_clipper argsort water vicinity_tol true M = Ok k.
  Hypothesis NE : faces (clipped k) <> [].
  Let n := INR (length (faces (clipped k))).
  Hypothesis FEW : n <= 100000000000000.
  Hypothesis WD : Forall (fun f => 1010 * (u * (L * L)) + 100 * (L * d) <= face_area (verts (clipped k)) f) (faces (clipped k)).
  Hypothesis DIR : forall f, In f (faces M) -> S_geometry.unit (dir f) /\ turns_along (dir f) (outline (verts M) f).
  Let A := Rsum (map (fun f => fan_area (dir f) (immersed_fan sea_level close (outline (verts M) f))) (faces M)).
  Hypothesis IV : is_immersed_integral (fun _ => 1) M V.
  Hypothesis IX : is_immersed_integral vx M (V * vx B).
  Hypothesis IY : is_immersed_integral vy M (V * vy B).
  Hypothesis IZ : is_immersed_integral vz M (V * vz B).
  Hypothesis V0 : 0 < V.
  Hypothesis BIG : 2 * (n * (u * L * (17 * A + 2905 * (L * L)) + 527 * (L * L * d))) <= V.
  Let q := L * A / V.
  Let p := L ^ 3 / V.
  Let t := L ^ 2 * d / V.

  Lemma buoyancy_near : exists b, buoyancy_double argsort' fdots fdot fsum fsum' ftotal f6 f9 f12 rho M = Ok b /\
    near_point (n * (L * (u * (1 + 3 * q + 1032 * p + q * (6 * q + 970 * p)) + (255 + 176 * q) * t))) B b.
  Proof.
    pose proof ulp1_pos as U.
    assert (d0 : 0 <= d).
    { unfold d, Rdiv. apply Rmult_le_pos; [lra|]. apply Rmult_le_pos; [apply Rmult_le_pos; [lra|apply Rmult_le_pos; lra]|apply Rlt_le, Rinv_0_lt_compat; lra]. }
    assert (dL : 1000 * d <= L) by lra.
    destruct (clip_wetted argsort SA M k FW CL) as (WT & FL & PM). specialize (FL (PM SM)). pose proof (wt_valid _ _ WT) as VK.
    pose proof (clipped_bounded argsort L M k SA FW BV CL) as BK.
    pose proof (area_clipped argsort M k dir SA FW CL DIR) as AC. fold A in AC.
    pose proof (clip_many L g k NE FEW WD) as n1. fold n in n1.
    destruct (clip_wide argsort argsort' fdots fdot L g M k SA SA' DS DT L1 L2 G1 D1 FW SM BV FV WS CL NE FEW WD) as (k' & r & EK & AL & LN & V' & NE' & EX & WD').
    fold d in AL, EX, WD'.
    assert (FI : forall pr, coordinate pr -> is_immersed_integral pr M (V * pr B) -> flux_sum pr (clipped k) = 2 * (V * pr B))
      by (intros pr PR HI; apply (flux_immersed argsort M k pr _ SA FW SM CL PR HI)).
    assert (EV0 : signed_volume vzero (clipped k) = V).
    { rewrite (clip_volume argsort SA M FW k CL). eapply cones_unique; [|exact IV]. apply cones_exact, cone0_exact. }
    set (m := clipped k) in *. set (m' := clipped k') in *.
    assert (FEW' : INR (length (faces m')) <= 100000000000000) by (rewrite LN; exact FEW).
    assert (WDd : Forall (fun f => 100 * (L * d) <= face_area (verts m) f) (faces m)).
    { assert (0 <= u * (L * L)) by (apply Rmult_le_pos; [lra|apply Rmult_le_pos; lra]). eapply Forall_impl; [|exact WD]. intros f. cbv beta. lra. }
    assert (Ld0 : 0 <= L * d) by (apply Rmult_le_pos; lra).
    assert (EXm : extent L m).
    { split; auto. assert (powerRZ 2 (-200) <= u) by (rewrite ulp1_bpow, <- (bpow_powerRZ radix2); apply bpow_le; lia). pose proof ulp1_small. lra. }
    assert (WDm : Forall (wide L (verts m)) (faces m)).
    { unfold flat_mesh in FL. rewrite Forall_forall in WD, FL |- *. intros f If. apply flat_wide; auto. specialize (WD f If). cbv beta in WD.
      assert (0 <= u * (L * L)) by (apply Rmult_le_pos; [lra|apply Rmult_le_pos; lra]). lra. }
    destruct (volume_near (L + d) m' EX V' NE' FEW' fsum' fsum ftotal A2 A1 A4 WD') as (v & W & EV & EW & NV).
    destruct (volume_moved L d r m m' d0 dL AL BK VK FL WDd) as (W' & EW' & NW).
    rewrite EW in EW'. injection EW' as <-.
    pose proof (surface_area_moved L d r m m' d0 dL AL BK VK) as NS.
    pose proof (surface_area_pos m') as P'. pose proof (surface_area_pos m) as PA.
    change (INR (length (faces m))) with n in NW, NS. rewrite LN in NV. change (INR (length (faces m))) with n in NV.
    rewrite AC in NS, PA. pose proof (Rabs_le_inv _ _ NS) as NS'.
    rewrite EV0 in NW.
    assert (VS : Rabs V <= L * A) by (rewrite <- AC, <- EV0; apply P_dhydro2.volume_size; auto; lra).
    pose proof (volume_total L d n A L1 d0 dL n1 FEW PA (surface_area m') V W v P' ltac:(lra) NW NV) as TV.
    unfold buoyancy_double, plain_inertia_double. rewrite EK. cbn [bind]. fold m'. rewrite EV, (ints_double_ok fsum' m' V'), (props_double_ok fsum m' V'). cbn [bind].
    eexists. split; [reflexivity|]. unfold rigid_new. cbn [rb_cog].
    set (x := flux_double f6 i6 _ _).
    assert (K : forall pr, coordinate pr -> is_immersed_integral pr M (V * pr B) ->
      Rabs (fdiv (pr x) (fmul 2 v) - pr B) <= n * (L * (u * (1 + 3 * q + 1032 * p + q * (6 * q + 970 * p)) + (255 + 176 * q) * t))).
    { intros pr PR HI.
      destruct (flux_double_near (L + d) m' EX NE' FEW' fsum' fsum A2 A1 WD' f6 i6 2 (graded6 (L + d) (proj1 EX)) A6 pr PR) as [FN _].
      fold x in FN. rewrite flux_coords in FN by auto. rewrite LN in FN. change (INR (length (faces m))) with n in FN. change (2 + 2)%nat with 4%nat in FN.
      fold (flux_sum pr m') in FN.
      pose proof (flux_sum_moved L d r pr m m' d0 dL AL BK VK PR FL WDd) as FM. change (INR (length (faces m))) with n in FM.
      pose proof (flux_total L d n A L1 d0 dL n1 FEW PA (surface_area m') (flux_sum pr m) (flux_sum pr m') (pr x) P' ltac:(lra) FM FN) as TX.
      destruct (flux_near L m EXm NE FEW i6 2 fsum' fsum ftotal pr (graded6 L (proj1 EXm)) A2 A1 A4 PR WDm) as [_ XS].
      fold (flux_sum pr m) in XS. rewrite AC in XS.
      pose proof (center_total L d n A V L1 d0 n1 PA v (pr x) (flux_sum pr m) TV VS V0 BIG TX XS) as CT. cbv zeta in CT.
      rewrite (FI pr PR HI) in CT. replace (2 * (V * pr B) / (2 * V)) with (pr B) in CT by (field; lra). exact CT. }
    unfold near_point, vdiv_double. cbn [vx vy vz].
    split; [|split]; rewrite Rabs_minus_sym; [apply (K vx)|apply (K vy)|apply (K vz)]; unfold coordinate; auto.
  Qed.
End Buoyancy.

(** ** In the initial frame *)
Lemma initial_near : forall fdots rot z L e B b, (forall i, computes_dot (fdots i)) -> smallest <= L -> Rabs z <= L -> bounded L b -> near_point e B b ->
  bounded 1 (row0 (mtrans rot)) -> bounded 1 (row1 (mtrans rot)) -> bounded 1 (row2 (mtrans rot)) ->
  near_point (54 * (u * L) + 3 * e) (mvec (mtrans rot) (V3 (vx B) (vy B) (vz B - z))) (to_initial_double fdots rot z b).
Proof.
  intros fdots rot z L e B b C S Z BB (N1 & N2 & N3) R0 R1 R2. pose proof ulp1_pos as U. pose proof u_small as U1. pose proof (uQ_pos L S) as W. pose proof (Q_pos L S) as L0. pose proof (tiny_uQ L S) as T.
  destruct BB as (B1 & B2 & B3).
  set (c := V3 (vx b) (vy b) (fsub (vz b) z)).
  assert (FZ : Rabs (fsub (vz b) z - (vz b - z)) <= 3 * (u * L)).
  { unfold fsub. pose proof (fl_error (vz b - z)) as FE. assert (Rabs (vz b - z) <= 2 * L) by (revert B3 Z; unfold Rabs; repeat destruct Rcase_abs; lra).
    assert (u * Rabs (vz b - z) <= u * (2 * L)) by (apply Rmult_le_compat_l; lra). lra. }
  assert (UL : u * L <= / 1000 * L) by (apply Rmult_le_compat_r; lra).
  assert (CB : bounded (3 * L) c).
  { unfold c, bounded. cbn [vx vy vz]. split; [lra|]. split; [lra|]. revert FZ B3 Z. unfold Rabs. repeat destruct Rcase_abs; lra. }
  assert (S3 : smallest <= 3 * L) by lra.
  assert (K : forall i row, bounded 1 row -> Rabs (dot row (V3 (vx B) (vy B) (vz B - z)) - fdots i c row) <= 54 * (u * L) + 3 * e).
  { intros i row RB. destruct (dot_app (fdots i) (3 * L) row (C i) S3 RB c CB) as [D _]. destruct RB as (Q1 & Q2 & Q3).
    assert (X : Rabs (dot row (V3 (vx B) (vy B) (vz B - z)) - dot c row) <= 3 * e + 3 * (u * L)).
    { replace (dot row (V3 (vx B) (vy B) (vz B - z)) - dot c row)
        with (vx row * (vx B - vx b) + vy row * (vy B - vy b) + vz row * ((vz B - vz b) - (fsub (vz b) z - (vz b - z)))) by (unfold dot, c; cbn [vx vy vz]; ring).
      assert (M1 : forall p x y, Rabs p <= 1 -> Rabs x <= y -> Rabs (p * x) <= y).
      { intros p x y HP HX. rewrite Rabs_mult. assert (Rabs p * Rabs x <= 1 * Rabs x) by (apply Rmult_le_compat_r; auto using Rabs_pos). lra. }
      pose proof (M1 _ _ _ Q1 N1). pose proof (M1 _ _ _ Q2 N2).
      assert (X3 : Rabs ((vz B - vz b) - (fsub (vz b) z - (vz b - z))) <= e + 3 * (u * L)).
      { unfold Rminus at 1. eapply Rle_trans; [apply Rabs_triang|]. rewrite Rabs_Ropp. lra. }
      pose proof (M1 _ _ _ Q3 X3).
      eapply Rle_trans; [apply Rabs_triang|]. eapply Rle_trans; [apply Rplus_le_compat_r, Rabs_triang|]. lra. }
    rewrite Rabs_minus_sym in D.
    replace (dot row (V3 (vx B) (vy B) (vz B - z)) - fdots i c row) with ((dot row (V3 (vx B) (vy B) (vz B - z)) - dot c row) + (dot c row - fdots i c row)) by ring.
    eapply Rle_trans; [apply Rabs_triang|]. lra. }
  unfold near_point, to_initial_double. fold c. cbn [vx vy vz mvec mtrans row0 row1 row2 m00 m01 m02 m10 m11 m12 m20 m21 m22] in *.
  split; [exact (K 0%nat _ R0)|]. split; [exact (K 1%nat _ R1)|exact (K 2%nat _ R2)].
Qed.
