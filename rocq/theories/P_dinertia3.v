(** Proofs about double precision: mass, center of gravity and moments of full and of hollow bodies. *)
From Coq Require Import Reals Lra Lia List Arith Bool ZArith Psatz.
From Flocq Require Import Core.
From Verif Require Import M_base M_merge M_plane M_mesh M_geometry S_merge S_mesh S_geometry P_base P_merge P_mesh P_geometry M_inertia M_double S_double P_double P_double2 P_double3 P_double4
  M_dgeom P_dgeom P_dgeom2 P_dgeom3 S_dgeom P_dgeom4 P_dgeom5 M_dinertia P_dinertia P_dinertia2.
Import ListNotations.
Open Scope R_scope.

Lemma u_small : u <= / 1000.
Proof. pose proof ulp1_le_9. lra. Qed.
Lemma times_near : forall rho x X e, Rabs (x - X) <= e -> Rabs (rho * x - rho * X) <= Rabs rho * e.
Proof. intros. rewrite <- Rmult_minus_distr_l, Rabs_mult. apply Rmult_le_compat_l; auto using Rabs_pos. Qed.
(** rho * x *)
Lemma fmul_near : forall rho x X e H Q, Rabs (x - X) <= e -> Rabs X <= H -> tiny <= u * (Rabs rho * Q) ->
  Rabs (fmul rho x - rho * X) <= Rabs rho * (1001 / 1000 * e + u * H + u * Q).
Proof.
  intros rho x X e H Q E HX T. pose proof ulp1_pos as U0. pose proof u_small as U1. pose proof (Rabs_pos rho) as R0. pose proof (Rabs_pos (x - X)) as E0.
  pose proof (rounded_near _ _ _ (times_near rho x X e E)) as B. fold (fmul rho x) in B. apply Rle_trans with (1 := B).
  rewrite (Rabs_mult rho X).
  assert (Rabs rho * Rabs X <= Rabs rho * H) by (apply Rmult_le_compat_l; auto).
  assert (0 <= Rabs rho * e) by (apply Rmult_le_pos; lra).
  assert (u * (Rabs rho * Rabs X) <= u * (Rabs rho * H)) by (apply Rmult_le_compat_l; lra).
  assert (u * (Rabs rho * e) <= / 1000 * (Rabs rho * e)) by (apply Rmult_le_compat_r; lra). lra.
Qed.
(** rho * x / d *)
Lemma share_near : forall rho x X e H Q d, 1 <= d -> Rabs (x - X) <= e -> Rabs X <= H -> tiny <= u * (Rabs rho * Q) -> 0 <= Q ->
  Rabs (fdiv (fmul rho x) d - rho * X / d) <= Rabs rho * ((1003 / 1000 * e + 2002 / 1000 * (u * H) + 1002 / 1000 * (u * Q)) / d + u * Q).
Proof.
  intros rho x X e H Q d D E HX T Q0. pose proof ulp1_pos as U0. pose proof u_small as U1. pose proof (Rabs_pos rho) as R0. pose proof (Rabs_pos (x - X)) as E0.
  pose proof (Rabs_pos X) as X0. pose proof (fmul_near rho x X e H Q E HX T) as F. set (b := 1001 / 1000 * e + u * H + u * Q) in *.
  assert (I0 : 0 < / d) by (apply Rinv_0_lt_compat; lra).
  assert (G : Rabs (fmul rho x / d - rho * X / d) <= Rabs rho * b * / d).
  { replace (fmul rho x / d - rho * X / d) with ((fmul rho x - rho * X) * / d) by (unfold Rdiv; ring). rewrite Rabs_mult, (Rabs_pos_eq (/ d)) by lra. apply Rmult_le_compat_r; lra. }
  pose proof (rounded_near _ _ _ G) as B. fold (fdiv (fmul rho x) d) in B. apply Rle_trans with (1 := B).
  assert (XD : Rabs (rho * X / d) <= Rabs rho * H * / d).
  { unfold Rdiv. rewrite !Rabs_mult, (Rabs_pos_eq (/ d)) by lra. apply Rmult_le_compat_r; [lra|]. apply Rmult_le_compat_l; auto. }
  assert (UH : 0 <= u * H) by (apply Rmult_le_pos; lra). assert (UQ : 0 <= u * Q) by (apply Rmult_le_pos; lra).
  assert (b0 : 0 <= b) by (unfold b; lra).
  assert (rb : 0 <= Rabs rho * b * / d) by (apply Rmult_le_pos; [apply Rmult_le_pos; auto|lra]).
  assert (X1 : u * Rabs (rho * X / d) <= u * (Rabs rho * H * / d)) by (apply Rmult_le_compat_l; lra).
  assert (X2 : u * (Rabs rho * b * / d) <= / 1000 * (Rabs rho * b * / d)) by (apply Rmult_le_compat_r; lra).
  apply Rle_trans with (Rabs rho * (1001 / 1000 * b * / d + u * H * / d + u * Q)); [lra|].
  apply Rmult_le_compat_l; auto.
  assert (Z : 1001 / 1000 * b + u * H <= 1003 / 1000 * e + 2002 / 1000 * (u * H) + 1002 / 1000 * (u * Q)) by (unfold b; lra).
  assert (Z' : (1001 / 1000 * b + u * H) * / d <= (1003 / 1000 * e + 2002 / 1000 * (u * H) + 1002 / 1000 * (u * Q)) * / d) by (apply Rmult_le_compat_r; lra).
  unfold Rdiv in *. lra.
Qed.
Lemma sum_near : forall x X y Y e H Q, Rabs (x - X) <= e -> Rabs (y - Y) <= e -> Rabs X <= H -> Rabs Y <= H -> tiny <= u * Q ->
  Rabs (fadd x y - (X + Y)) <= 2002 / 1000 * e + 2 * (u * H) + u * Q /\ Rabs (X + Y) <= 2 * H.
Proof.
  intros x X y Y e H Q E1 E2 H1 H2 T. pose proof ulp1_pos as U0. pose proof u_small as U1. pose proof (Rabs_pos (x - X)) as E0.
  assert (S : Rabs (X + Y) <= 2 * H) by (apply Rle_trans with (1 := Rabs_triang _ _); lra). split; auto.
  assert (E : Rabs (x + y - (X + Y)) <= 2 * e) by (replace (x + y - (X + Y)) with ((x - X) + (y - Y)) by ring; apply Rle_trans with (1 := Rabs_triang _ _); lra).
  pose proof (rounded_near _ _ _ E) as B. fold (fadd x y) in B. apply Rle_trans with (1 := B).
  assert (u * Rabs (X + Y) <= u * (2 * H)) by (apply Rmult_le_compat_l; lra).
  assert (u * (2 * e) <= / 1000 * (2 * e)) by (apply Rmult_le_compat_r; lra). lra.
Qed.

Section Body.
  Variables (L : R) (m : mesh).
  Hypothesis sized : extent L m.
  Hypothesis m_valid : valid m.
  Hypothesis some : faces m <> [].
  Hypothesis few : INR (length (faces m)) <= 100000000000000.
  Notation n := (INR (length (faces m))).
  Notation A := (surface_area m).
  Let S := proj1 sized.
  Let L0 := L_pos L S.
  Lemma n1 : 1 <= n.
  Proof. exact (n_one m some few). Qed.
  Lemma area_pos : 0 <= A.
  Proof.
    unfold surface_area. clear. induction (faces m) as [|f t IH]; [cbn; lra|]. change (0 <= face_area (verts m) f + Rsum (map (face_area (verts m)) t)).
    assert (0 <= face_area (verts m) f); [|lra]. clear IH. unfold face_area, triangle_area.
    pose proof (norm_pos (triangle_normal (point (verts m) (f0 f)) (point (verts m) (f1 f)) (point (verts m) (f2 f)))).
    pose proof (norm_pos (triangle_normal (point (verts m) (f0 f)) (point (verts m) (f2 f)) (point (verts m) (f3 f)))).
    destruct (Nat.eq_dec _ _); lra.
  Qed.
  (** Densities that are not too small *)
  Lemma tiny_rho : forall rho k, (k <= 5)%nat -> / 1000000 <= Rabs rho -> tiny <= u * (Rabs rho * L ^ k).
  Proof.
    intros rho k K R. pose proof ulp1_pos as U0.
    assert (P : powerRZ 2 (-1000) <= L ^ k) by (apply Rle_trans with (2 := pow_size L S k K); apply low_le; lia).
    assert (Q : powerRZ 2 (-20) * powerRZ 2 (-1000) <= Rabs rho * L ^ k).
    { apply Rmult_le_compat; auto using Rlt_le, low_pos. apply Rle_trans with (2 := R). replace (powerRZ 2 (-20)) with (/ 1048576); [lra|]. rewrite <- (bpow_powerRZ radix2). reflexivity. }
    apply Rle_trans with (u * (powerRZ 2 (-20) * powerRZ 2 (-1000))); [|apply Rmult_le_compat_l; lra].
    rewrite tiny_smallest. apply Rmult_le_compat_l; [lra|]. rewrite <- powerRZ_add by lra. unfold smallest. apply low_le. lia.
  Qed.

  Section Full.
    Variables (fsum fsum' : nat -> list R -> R) (ftotal : list R -> R) (f6 f9 f12 : nat -> list R -> R) (rho : R).
    Hypothesis a1 : forall j, adds (fsum j).
    Hypothesis a2 : forall j, adds (fsum' j).
    Hypothesis a3 : adds ftotal.
    Hypothesis a6 : forall j, adds (f6 j).
    Hypothesis a9 : forall j, adds (f9 j).
    Hypothesis a12 : forall j, adds (f12 j).
    Hypothesis dense : / 1000000 <= Rabs rho.
    Hypothesis all_wide : Forall (wide L (verts m)) (faces m).

    Let dints := map (fun jf => ints_double_of (fsum (fst jf)) (verts m) (snd jf)) (numbered (faces m)).
    Let dprops := map (fun jf => props_double_of (fsum' (fst jf)) (verts m) (snd jf)) (numbered (faces m)).
    Let ints := map (ints_of (verts m)) (faces m).
    Let props := map (props_of (verts m)) (faces m).
    Lemma flux_coords : forall sel p, coordinate p -> p (flux sel ints props) =
      Rsum (map (fun f => p (fp_normal (props_of (verts m) f)) * p (sel (ints_of (verts m) f))) (faces m)).
    Proof.
      intros sel p P. unfold flux, ints, props. rewrite combine_map, map_map. cbn [fst snd].
      generalize (faces m). intros l. induction l as [|f t IH]; [destruct P as [-> | [-> | ->]]; reflexivity|].
      destruct P as [-> | [-> | ->]]; cbn; f_equal; exact IH.
    Qed.
    Lemma flux_double_near : forall ft sel k, graded L sel k 208 8 1 -> (forall j, adds (ft j)) -> forall p, coordinate p ->
      Rabs (p (flux_double ft sel dints dprops) - p (flux sel ints props)) <= n * (u * (2 * (A * L ^ k) + 1532 * L ^ (2 + k))) /\ Rabs (p (flux sel ints props)) <= A * L ^ k.
    Proof.
      intros ft sel k G AT p P. rewrite flux_coords by auto.
      pose proof (fun j => flux_near L m sized some few sel k fsum fsum' (ft j) p G a1 a2 (AT j) P all_wide) as H.
      cbv zeta in H. destruct P as [-> | [-> | ->]]; [apply (H 0%nat)|apply (H 1%nat)|apply (H 2%nat)].
    Qed.

    Lemma moment_near : forall x X, Rabs (x - X) <= n * (u * (2 * (A * L ^ 3) + 1532 * L ^ 5)) -> Rabs X <= A * L ^ 3 ->
      Rabs (fdiv (fmul rho x) 2 - rho * X / 2) <= Rabs rho * (n * (u * (3 * (A * L ^ 3) + 800 * L ^ 5))).
    Proof.
      intros x X E H. pose proof n1 as N. pose proof area_pos as A0. pose proof ulp1_pos as U0.
      assert (P3 : 0 <= L ^ 3) by (apply pow_le; lra). assert (P5 : 0 <= L ^ 5) by (apply pow_le; lra).
      apply Rle_trans with (1 := share_near rho x X _ _ (L ^ 5) 2 ltac:(lra) E H (tiny_rho rho 5 ltac:(lia) dense) P5).
      apply Rmult_le_compat_l; [apply Rabs_pos|]. set (h := A * L ^ 3) in *. set (q := L ^ 5) in *.
      assert (0 <= u * h) by (apply Rmult_le_pos; [lra|apply Rmult_le_pos; auto]). assert (0 <= u * q) by (apply Rmult_le_pos; lra).
      assert (u * h <= n * (u * h)) by nra. assert (u * q <= n * (u * q)) by nra. lra.
    Qed.
    Lemma moments_near : forall x X y Y, Rabs (x - X) <= n * (u * (2 * (A * L ^ 3) + 1532 * L ^ 5)) -> Rabs X <= A * L ^ 3 ->
      Rabs (y - Y) <= n * (u * (2 * (A * L ^ 3) + 1532 * L ^ 5)) -> Rabs Y <= A * L ^ 3 ->
      Rabs (fdiv (fmul rho (fadd x y)) 3 - rho * (X + Y) / 3) <= Rabs rho * (n * (u * (4 * (A * L ^ 3) + 1040 * L ^ 5))).
    Proof.
      intros x X y Y E H E' H'. pose proof n1 as N. pose proof area_pos as A0. pose proof ulp1_pos as U0.
      assert (P3 : 0 <= L ^ 3) by (apply pow_le; lra). assert (P5 : 0 <= L ^ 5) by (apply pow_le; lra).
      destruct (sum_near x X y Y _ _ (L ^ 5) E E' H H' (tiny_uQ _ (pow_large L S 5 ltac:(lia)))) as [F G].
      apply Rle_trans with (1 := share_near rho _ _ _ _ (L ^ 5) 3 ltac:(lra) F G (tiny_rho rho 5 ltac:(lia) dense) P5).
      apply Rmult_le_compat_l; [apply Rabs_pos|]. set (h := A * L ^ 3) in *. set (q := L ^ 5) in *.
      assert (0 <= u * h) by (apply Rmult_le_pos; [lra|apply Rmult_le_pos; auto]). assert (0 <= u * q) by (apply Rmult_le_pos; lra).
      assert (u * h <= n * (u * h)) by nra. assert (u * q <= n * (u * q)) by nra. lra.
    Qed.
    Lemma mass_near : forall v V, Rabs (v - V) <= n * (u * L * (6 * A + 1400 * (L * L))) -> Rabs V <= 2 / 3 * (L * A) ->
      Rabs (fmul rho v - rho * V) <= Rabs rho * (n * (u * L * (8 * A + 1410 * (L * L)))).
    Proof.
      intros v V E H. pose proof n1 as N. pose proof area_pos as A0. pose proof ulp1_pos as U0.
      apply Rle_trans with (1 := fmul_near rho v V _ _ (L ^ 3) E H (tiny_rho rho 3 ltac:(lia) dense)).
      apply Rmult_le_compat_l; [apply Rabs_pos|]. replace (L ^ 3) with (L * (L * L)) by (cbn; ring).
      set (h := L * A). set (q := L * (L * L)).
      assert (H0 : 0 <= h) by (apply Rmult_le_pos; lra). assert (Q0 : 0 <= q) by (repeat apply Rmult_le_pos; lra).
      replace (u * L * (6 * A + 1400 * (L * L))) with (6 * (u * h) + 1400 * (u * q)) by (unfold h, q; ring).
      replace (u * L * (8 * A + 1410 * (L * L))) with (8 * (u * h) + 1410 * (u * q)) by (unfold h, q; ring).
      assert (0 <= u * h) by (apply Rmult_le_pos; lra). assert (0 <= u * q) by (apply Rmult_le_pos; lra).
      assert (u * h <= n * (u * h)) by nra. assert (u * q <= n * (u * q)) by nra. lra.
    Qed.
    (** Coordinates of the center of gravity *)
    Lemma center_near : forall v V x X, Rabs (v - V) <= n * (u * L * (6 * A + 1400 * (L * L))) -> Rabs V <= 2 / 3 * (L * A) -> 0 < V ->
      2 * (n * (u * L * (15 * A + 2810 * (L * L)))) <= V ->
      Rabs (x - X) <= n * (u * (2 * (A * L ^ 2) + 1532 * L ^ 4)) -> Rabs X <= A * L ^ 2 ->
      let q := L * A / V in let p := L ^ 3 / V in
      Rabs (fdiv x (fmul 2 v) - X / (2 * V)) <= n * (u * L * (1 + 2 * q + 1030 * p + q * (6 * q + 940 * p))).
    Proof.
      intros v V x X EV HV V0 BIG E H q p. pose proof n1 as N. pose proof area_pos as A0. pose proof ulp1_pos as U0. pose proof u_small as U1.
      assert (Q0 : 0 <= q) by (apply Rle_mult_inv_pos; auto; apply Rmult_le_pos; lra).
      assert (P0 : 0 <= p) by (apply Rle_mult_inv_pos; auto; apply pow_le; lra).
      assert (F : Rabs (fmul 2 v - 2 * V) <= n * (u * L * (15 * A + 2810 * (L * L)))).
      { assert (T2 : tiny <= u * (Rabs 2 * L ^ 3)).
        { apply tiny_rho; [lia|]. rewrite Rabs_pos_eq; lra. }
        apply Rle_trans with (1 := fmul_near 2 v V _ _ (L ^ 3) EV HV T2).
        rewrite (Rabs_pos_eq 2) by lra. replace (L ^ 3) with (L * (L * L)) by (cbn; ring).
        set (h := L * A). set (w := L * (L * L)).
        assert (H0 : 0 <= h) by (apply Rmult_le_pos; lra). assert (W0 : 0 <= w) by (repeat apply Rmult_le_pos; lra).
        replace (u * L * (6 * A + 1400 * (L * L))) with (6 * (u * h) + 1400 * (u * w)) by (unfold h, w; ring).
        replace (u * L * (15 * A + 2810 * (L * L))) with (15 * (u * h) + 2810 * (u * w)) by (unfold h, w; ring).
        assert (0 <= u * h) by (apply Rmult_le_pos; lra). assert (0 <= u * w) by (apply Rmult_le_pos; lra).
        assert (u * h <= n * (u * h)) by nra. assert (u * w <= n * (u * w)) by nra. lra. }
      assert (R : Rabs X <= (L * q / 2) * (2 * V)).
      { replace (L * q / 2 * (2 * V)) with (A * L ^ 2) by (unfold q; cbn; field; lra). exact H. }
      pose proof (quotient_near x X (fmul 2 v) (2 * V) _ _ _ E F ltac:(lra) ltac:(lra) R) as D.
      assert (D' : Rabs (x / fmul 2 v - X / (2 * V)) <= n * (u * L * (4 / 3 * q + 1022 * p + q * (5 * q + 937 * p)))).
      { apply Rle_trans with (1 := D).
        replace (4 / 3 * ((n * (u * (2 * (A * L ^ 2) + 1532 * L ^ 4)) + L * q / 2 * (n * (u * L * (15 * A + 2810 * (L * L))))) / (2 * V)))
          with (n * (u * L * (4 / 3 * q + 3064 / 3 * p + q * (5 * q + 2810 / 3 * p)))) by (unfold q, p; cbn; field; lra).
        apply Rmult_le_compat_l; [lra|]. apply Rmult_le_compat_l; [apply Rmult_le_pos; lra|].
        assert (0 <= q * p) by (apply Rmult_le_pos; auto). lra. }
      pose proof (rounded_near _ _ _ D') as B. fold (fdiv x (fmul 2 v)) in B. apply Rle_trans with (1 := B).
      assert (XV : Rabs (X / (2 * V)) <= L * q / 2).
      { unfold Rdiv. rewrite Rabs_mult, (Rabs_pos_eq (/ (2 * V))) by (apply Rlt_le, Rinv_0_lt_compat; lra).
        apply Rmult_le_reg_r with (2 * V); [lra|]. rewrite Rmult_assoc, Rinv_l by lra. unfold Rdiv in R. lra. }
      assert (T : tiny <= u * L) by (replace L with (L ^ 1) by (cbn; ring); apply tiny_uQ, pow_large; auto; lia).
      set (b := 4 / 3 * q + 1022 * p + q * (5 * q + 937 * p)) in *.
      assert (b0 : 0 <= b) by (unfold b; assert (0 <= q * p) by (apply Rmult_le_pos; auto); assert (0 <= q * q) by (apply Rmult_le_pos; auto); lra).
      assert (UL : 0 <= u * L) by (apply Rmult_le_pos; lra).
      assert (NB : 0 <= n * (u * L * b)) by (apply Rmult_le_pos; [lra|apply Rmult_le_pos; auto]).
      assert (X1 : u * Rabs (X / (2 * V)) <= u * (L * q / 2)) by (apply Rmult_le_compat_l; lra).
      assert (X2 : u * (n * (u * L * b)) <= / 1000 * (n * (u * L * b))) by (apply Rmult_le_compat_r; lra).
      apply Rle_trans with (n * (u * L * (1001 / 1000 * b)) + u * L * (q / 2 + 1)); [lra|].
      assert (X3 : u * L * (q / 2 + 1) <= n * (u * L * (q / 2 + 1))).
      { assert (0 <= u * L * (q / 2 + 1)) by (apply Rmult_le_pos; lra). nra. }
      apply Rle_trans with (n * (u * L * (1001 / 1000 * b + (q / 2 + 1)))); [lra|].
      apply Rmult_le_compat_l; [lra|]. apply Rmult_le_compat_l; [lra|]. unfold b.
      assert (0 <= q * p) by (apply Rmult_le_pos; auto). assert (0 <= q * q) by (apply Rmult_le_pos; auto). lra.
    Qed.

    (** Against exact arithmetic *)
    Lemma plain_near : forall V, volume m = Ok V -> 0 < V -> 2 * (n * (u * L * (15 * A + 2810 * (L * L)))) <= V ->
      exists d e, plain_inertia_double fsum fsum' ftotal f6 f9 f12 rho m = Ok d /\ eval_plain_mesh_inertias rho m = Ok e /\
        Rabs (rb_mass d - rb_mass e) <= Rabs rho * (n * (u * L * (8 * A + 1410 * (L * L)))) /\
        (let q := L * A / V in let p := L ^ 3 / V in bounded (n * (u * L * (1 + 2 * q + 1030 * p + q * (6 * q + 940 * p)))) (vsub (rb_cog d) (rb_cog e))) /\
        rb_point d = vzero /\
        Rabs (rb_xx d - rb_xx e) <= Rabs rho * (n * (u * (4 * (A * L ^ 3) + 1040 * L ^ 5))) /\
        Rabs (rb_yy d - rb_yy e) <= Rabs rho * (n * (u * (4 * (A * L ^ 3) + 1040 * L ^ 5))) /\
        Rabs (rb_zz d - rb_zz e) <= Rabs rho * (n * (u * (4 * (A * L ^ 3) + 1040 * L ^ 5))) /\
        Rabs (rb_yz d - rb_yz e) <= Rabs rho * (n * (u * (3 * (A * L ^ 3) + 800 * L ^ 5))) /\
        Rabs (rb_xz d - rb_xz e) <= Rabs rho * (n * (u * (3 * (A * L ^ 3) + 800 * L ^ 5))) /\
        Rabs (rb_xy d - rb_xy e) <= Rabs rho * (n * (u * (3 * (A * L ^ 3) + 800 * L ^ 5))) /\
        rb_mat d = mtrans (rb_mat d).
    Proof.
      intros V EV V0 BIG.
      destruct (volume_near L m sized m_valid some few fsum fsum' ftotal a1 a2 a3 all_wide) as (v & V' & Dv & EV' & NV).
      rewrite EV in EV'. injection EV' as <-.
      pose proof (volume_size L m sized m_valid V EV all_wide) as HV.
      unfold plain_inertia_double. rewrite Dv, (ints_double_ok fsum m m_valid), (props_double_ok fsum' m m_valid). cbn [bind]. fold dints dprops.
      unfold eval_plain_mesh_inertias. pose proof EV as EV2. unfold volume in EV2. rewrite faces_integrals_ok, faces_properties_ok in * by auto. cbn [bind] in *. fold ints props in EV2 |- *.
      unfold plain_inertia_with. rewrite EV2. cbn [bind].
      do 2 eexists. split; [reflexivity|]. split; [reflexivity|].
      pose proof (flux_double_near f6 i6 2 (graded6 L S) a6) as F6. pose proof (flux_double_near f9 i9 3 (graded9 L S) a9) as F9. pose proof (flux_double_near f12 i12 3 (graded12 L S) a12) as F12.
      set (d6 := flux_double f6 i6 dints dprops) in *. set (d9 := flux_double f9 i9 dints dprops) in *. set (d12 := flux_double f12 i12 dints dprops) in *.
      set (e6 := flux i6 ints props) in *. set (e9 := flux i9 ints props) in *. set (e12 := flux i12 ints props) in *. clearbody d6 d9 d12 e6 e9 e12.
      change (2 + 2)%nat with 4%nat in F6. change (2 + 3)%nat with 5%nat in F9, F12.
      assert (CX : coordinate vx) by (unfold coordinate; auto). assert (CY : coordinate vy) by (unfold coordinate; auto). assert (CZ : coordinate vz) by (unfold coordinate; auto).
      unfold rigid_new, rb_xx, rb_yy, rb_zz, rb_yz, rb_xz, rb_xy. cbn [rb_mass rb_cog rb_point rb_mat m00 m01 m02 m10 m11 m12 m20 m21 m22].
      assert (OP : forall a b c, Rabs (a - b) <= c -> Rabs (- - a - - - b) <= c) by (intros; rewrite !Ropp_involutive; auto).
      split; [apply mass_near; auto|]. split.
      { unfold bounded, vsub, vdiv_double, vdiv. cbn [vx vy vz]. repeat split; apply center_near; auto; apply F6; auto. }
      split; [reflexivity|].
      do 3 (split; [apply moments_near; apply F9; auto|]).
      do 3 (split; [apply OP, moment_near; apply F12; auto|]).
      reflexivity.
    Qed.
  End Full.

  Section Hollow.
    Variables (fsum fsum' : nat -> list R -> R) (farea : list R -> R) (g0 g3 g6 : nat -> list R -> R) (rho thickness : R).
    Hypothesis a1 : forall j, adds (fsum j).
    Hypothesis a2 : forall j, adds (fsum' j).
    Hypothesis a3 : adds farea.
    Hypothesis a0 : forall j, adds (g0 j).
    Hypothesis a3' : forall j, adds (g3 j).
    Hypothesis a6 : forall j, adds (g6 j).
    Notation sigma := (rho * thickness).
    Hypothesis dense : / 1000000 <= Rabs sigma.

    Let dints := map (fun jf => ints_double_of (fsum (fst jf)) (verts m) (snd jf)) (numbered (faces m)).
    Let ints := map (ints_of (verts m)) (faces m).
    Lemma vsum_coords : forall sel p, coordinate p -> p (vsum (map sel ints)) = Rsum (map (fun f => p (sel (ints_of (verts m) f))) (faces m)).
    Proof.
      intros sel p P. unfold ints. rewrite map_map. generalize (faces m). intros l.
      induction l as [|f t IH]; [destruct P as [-> | [-> | ->]]; reflexivity|].
      destruct P as [-> | [-> | ->]]; cbn; f_equal; exact IH.
    Qed.
    Lemma vsum_double_near : forall ft sel k K B c, graded L sel k K B c -> (forall j, adds (ft j)) -> forall p, coordinate p ->
      Rabs (p (vsum_double ft (map sel dints)) - p (vsum (map sel ints))) <= n * (u * (2 * c * (A * L ^ k) + (3 * K + 3 * B + 5) * L ^ (2 + k))) /\ Rabs (p (vsum (map sel ints))) <= c * (A * L ^ k).
    Proof.
      intros ft sel k K B c G AT p P. rewrite vsum_coords by auto.
      pose proof (fun j => plain_sum_near L m sized some few sel k K B c fsum (ft j) p G a1 (AT j) P) as H.
      cbv zeta in H. destruct P as [-> | [-> | ->]]; [apply (H 0%nat)|apply (H 1%nat)|apply (H 2%nat)].
    Qed.
    (** (rho * thickness) * x *)
    Lemma density_near : forall x X e H k, (k <= 5)%nat -> Rabs (x - X) <= e -> Rabs X <= H ->
      Rabs (fmul (fmul rho thickness) x - sigma * X) <= Rabs sigma * (1004 / 1000 * e + 3003 / 1000 * (u * H) + u * L ^ k).
    Proof.
      intros x X e H k K E HX. pose proof ulp1_pos as U0. pose proof u_small as U1. pose proof (Rabs_pos (x - X)) as E0. pose proof (Rabs_pos X) as X0.
      set (s := fmul rho thickness). pose proof (tiny_rho sigma 0 ltac:(lia) dense) as T0. cbn [pow] in T0. rewrite Rmult_1_r in T0.
      pose proof (tiny_rho sigma k K dense) as TK.
      assert (D : Rabs (s - sigma) <= 2 * (u * Rabs sigma)) by (unfold s, fmul; pose proof (fl_error sigma); lra).
      assert (G0 : 0 <= Rabs sigma) by apply Rabs_pos.
      assert (SS : Rabs s <= 1002 / 1000 * Rabs sigma).
      { replace s with (sigma + (s - sigma)) by ring. apply Rle_trans with (1 := Rabs_triang _ _).
        assert (u * Rabs sigma <= / 1000 * Rabs sigma) by (apply Rmult_le_compat_r; lra). lra. }
      assert (M : Rabs (s * x - sigma * X) <= Rabs sigma * (1002 / 1000 * e + 2 * (u * H))).
      { replace (s * x - sigma * X) with (s * (x - X) + (s - sigma) * X) by ring. apply Rle_trans with (1 := Rabs_triang _ _). rewrite (Rabs_mult s), (Rabs_mult (s - sigma)).
        assert (Rabs s * Rabs (x - X) <= 1002 / 1000 * Rabs sigma * e) by (apply Rmult_le_compat; auto using Rabs_pos).
        assert (Rabs (s - sigma) * Rabs X <= 2 * (u * Rabs sigma) * H) by (apply Rmult_le_compat; auto using Rabs_pos).
        lra. }
      pose proof (rounded_near _ _ _ M) as B. fold (fmul s x) in B. apply Rle_trans with (1 := B).
      assert (X1 : Rabs (sigma * X) <= Rabs sigma * H) by (rewrite (Rabs_mult sigma X); apply Rmult_le_compat_l; auto).
      assert (X2 : u * Rabs (sigma * X) <= u * (Rabs sigma * H)) by (apply Rmult_le_compat_l; lra).
      assert (UH : 0 <= u * H) by (apply Rmult_le_pos; lra).
      set (w := 1002 / 1000 * e + 2 * (u * H)) in *. assert (w0 : 0 <= Rabs sigma * w) by (apply Rmult_le_pos; auto; unfold w; lra).
      assert (X3 : u * (Rabs sigma * w) <= / 10000 * (Rabs sigma * w)) by (apply Rmult_le_compat_r; auto; pose proof ulp1_le_9; lra).
      apply Rle_trans with (Rabs sigma * (10001 / 10000 * w + u * H + u * L ^ k)); [lra|].
      apply Rmult_le_compat_l; auto. unfold w. lra.
    Qed.
    Lemma hollow_sum : forall h q, 0 <= h -> 0 <= q -> 0 <= u * h <= n * (u * h) /\ 0 <= u * q <= n * (u * q).
    Proof.
      intros h q H Q. pose proof n1. pose proof ulp1_pos. assert (0 <= u * h) by (apply Rmult_le_pos; lra). assert (0 <= u * q) by (apply Rmult_le_pos; lra). nra.
    Qed.
    (** Against exact arithmetic *)
    Lemma shell_near : 8 * (n * (u * (A + 190 * (L * L)))) <= A -> 0 < A ->
      exists d e, shell_inertia_double fsum fsum' farea g0 g3 g6 rho thickness m = Ok d /\ eval_shell_mesh_inertias rho thickness m = Ok e /\
        Rabs (rb_mass d - rb_mass e) <= Rabs sigma * (n * (u * (6 * A + 385 * L ^ 2))) /\
        bounded (n * (u * L * (8 + 1400 * (L ^ 2 / A)))) (vsub (rb_cog d) (rb_cog e)) /\
        rb_point d = vzero /\
        Rabs (rb_xx d - rb_xx e) <= Rabs sigma * (n * (u * (13 * (A * L ^ 2) + 1320 * L ^ 4))) /\
        Rabs (rb_yy d - rb_yy e) <= Rabs sigma * (n * (u * (13 * (A * L ^ 2) + 1320 * L ^ 4))) /\
        Rabs (rb_zz d - rb_zz e) <= Rabs sigma * (n * (u * (13 * (A * L ^ 2) + 1320 * L ^ 4))) /\
        Rabs (rb_yz d - rb_yz e) <= Rabs sigma * (n * (u * (16 * (A * L ^ 2) + 1760 * L ^ 4))) /\
        Rabs (rb_xz d - rb_xz e) <= Rabs sigma * (n * (u * (16 * (A * L ^ 2) + 1760 * L ^ 4))) /\
        Rabs (rb_xy d - rb_xy e) <= Rabs sigma * (n * (u * (16 * (A * L ^ 2) + 1760 * L ^ 4))) /\
        rb_mat d = mtrans (rb_mat d).
    Proof.
      intros BIG A0. pose proof n1 as N. pose proof ulp1_pos as U0. pose proof u_small as U1.
      assert (P2 : 0 <= L ^ 2) by (apply pow_le; lra). assert (P4 : 0 <= L ^ 4) by (apply pow_le; lra).
      assert (H0 : 0 <= A * L ^ 2) by (apply Rmult_le_pos; lra).
      destruct (area_near_total L m sized m_valid some few fsum' farea a2 a3) as (a & Da & NA).
      unfold shell_inertia_double. rewrite Da, (ints_double_ok fsum m m_valid). cbn [bind]. fold dints.
      unfold eval_shell_mesh_inertias. rewrite faces_integrals_ok, faces_properties_ok by auto. cbn [bind]. fold ints.
      unfold shell_inertia_with.
      assert (EA : Rsum (map fp_area (map (props_of (verts m)) (faces m))) = A).
      { unfold surface_area. rewrite map_map. f_equal. apply map_ext. intros. apply props_area. }
      rewrite EA. do 2 eexists. split; [reflexivity|]. split; [reflexivity|].
      pose proof (vsum_double_near g0 i0 1 208 8 1 (graded0 L S) a0) as F0. pose proof (vsum_double_near g3 i3 2 555 24 3 (graded3 L S) a3') as F3. pose proof (vsum_double_near g6 i6 2 208 8 1 (graded6 L S) a6) as F6.
      set (d0 := vsum_double g0 (map i0 dints)) in *. set (d3 := vsum_double g3 (map i3 dints)) in *. set (d6 := vsum_double g6 (map i6 dints)) in *.
      set (e0 := vsum (map i0 ints)) in *. set (e3 := vsum (map i3 ints)) in *. set (e6 := vsum (map i6 ints)) in *. clearbody d0 d3 d6 e0 e3 e6.
      change (2 + 2)%nat with 4%nat in F6, F3. change (2 + 1)%nat with 3%nat in F0.
      assert (CX : coordinate vx) by (unfold coordinate; auto). assert (CY : coordinate vy) by (unfold coordinate; auto). assert (CZ : coordinate vz) by (unfold coordinate; auto).
      unfold rigid_new, rb_xx, rb_yy, rb_zz, rb_yz, rb_xz, rb_xy. cbn [rb_mass rb_cog rb_point rb_mat m00 m01 m02 m10 m11 m12 m20 m21 m22].
      assert (OP : forall a b c, Rabs (a - b) <= c -> Rabs (- - a - - - b) <= c) by (intros; rewrite !Ropp_involutive; auto).
      assert (MO : forall x X y Y, Rabs (x - X) <= n * (u * (2 * 1 * (A * L ^ 2) + (3 * 208 + 3 * 8 + 5) * L ^ 4)) /\ Rabs X <= 1 * (A * L ^ 2) ->
        Rabs (y - Y) <= n * (u * (2 * 1 * (A * L ^ 2) + (3 * 208 + 3 * 8 + 5) * L ^ 4)) /\ Rabs Y <= 1 * (A * L ^ 2) ->
        Rabs (fmul (fmul rho thickness) (fadd x y) - sigma * (X + Y)) <= Rabs sigma * (n * (u * (13 * (A * L ^ 2) + 1320 * L ^ 4)))).
      { intros x X y Y [E H] [E' H']. destruct (sum_near x X y Y _ _ (L ^ 4) E E' H H' (tiny_uQ _ (pow_large L S 4 ltac:(lia)))) as [F G].
        apply Rle_trans with (1 := density_near _ _ _ _ 4 ltac:(lia) F G). apply Rmult_le_compat_l; [apply Rabs_pos|].
        destruct (hollow_sum (A * L ^ 2) (L ^ 4) H0 P4). lra. }
      assert (PR : forall x X, Rabs (x - X) <= n * (u * (2 * 3 * (A * L ^ 2) + (3 * 555 + 3 * 24 + 5) * L ^ 4)) /\ Rabs X <= 3 * (A * L ^ 2) ->
        Rabs (fmul (fmul rho thickness) x - sigma * X) <= Rabs sigma * (n * (u * (16 * (A * L ^ 2) + 1760 * L ^ 4)))).
      { intros x X [E H]. apply Rle_trans with (1 := density_near _ _ _ _ 4 ltac:(lia) E H). apply Rmult_le_compat_l; [apply Rabs_pos|].
        destruct (hollow_sum (A * L ^ 2) (L ^ 4) H0 P4). lra. }
      split.
      { assert (HA : Rabs A <= A) by (rewrite Rabs_pos_eq; lra).
        apply Rle_trans with (1 := density_near a A _ _ 2 ltac:(lia) NA HA). apply Rmult_le_compat_l; [apply Rabs_pos|].
        replace (L * L) with (L ^ 2) by (cbn; ring).
        destruct (hollow_sum A (L ^ 2) ltac:(lra) P2). lra. }
      split.
      { assert (CE : forall x X, Rabs (x - X) <= n * (u * (2 * 1 * (A * L ^ 1) + (3 * 208 + 3 * 8 + 5) * L ^ 3)) /\ Rabs X <= 1 * (A * L ^ 1) ->
          Rabs (fdiv x a - X / A) <= n * (u * L * (8 + 1400 * (L ^ 2 / A)))).
        { intros x X [E H]. set (t := L ^ 2 / A). assert (t0 : 0 <= t) by (apply Rle_mult_inv_pos; auto).
          assert (R : Rabs X <= L * A) by (cbn in H; lra).
          pose proof (quotient_near x X a A _ _ L E NA A0 ltac:(lra) R) as D.
          assert (D' : Rabs (x / a - X / A) <= n * (u * L * (16 / 3 + 1378 * t))).
          { apply Rle_trans with (1 := D). replace (4 / 3 * ((n * (u * (2 * 1 * (A * L ^ 1) + (3 * 208 + 3 * 8 + 5) * L ^ 3)) + L * (n * (u * (2 * A + 380 * (L * L))))) / A))
              with (n * (u * L * (16 / 3 + 4132 / 3 * t))) by (unfold t; cbn; field; lra).
            apply Rmult_le_compat_l; [lra|]. apply Rmult_le_compat_l; [apply Rmult_le_pos; lra|]. lra. }
          pose proof (rounded_near _ _ _ D') as B. fold (fdiv x a) in B. apply Rle_trans with (1 := B).
          assert (XV : Rabs (X / A) <= L).
          { unfold Rdiv. rewrite Rabs_mult, (Rabs_pos_eq (/ A)) by (apply Rlt_le, Rinv_0_lt_compat; lra).
            apply Rmult_le_reg_r with A; [lra|]. rewrite Rmult_assoc, Rinv_l by lra. lra. }
          assert (T : tiny <= u * L) by (replace L with (L ^ 1) by (cbn; ring); apply tiny_uQ, pow_large; auto; lia).
          set (b := 16 / 3 + 1378 * t) in *. assert (b0 : 0 <= b) by (unfold b; lra).
          assert (UL : 0 <= u * L) by (apply Rmult_le_pos; lra).
          assert (NB : 0 <= n * (u * L * b)) by (apply Rmult_le_pos; [lra|apply Rmult_le_pos; auto]).
          assert (X1 : u * Rabs (X / A) <= u * L) by (apply Rmult_le_compat_l; lra).
          assert (X2 : u * (n * (u * L * b)) <= / 1000 * (n * (u * L * b))) by (apply Rmult_le_compat_r; lra).
          assert (X3 : u * L <= n * (u * L)) by nra.
          apply Rle_trans with (n * (u * L * (1001 / 1000 * b + 2))); [lra|].
          apply Rmult_le_compat_l; [lra|]. apply Rmult_le_compat_l; [lra|]. unfold b. lra. }
        unfold bounded, vsub, vdiv_double, vdiv. cbn [vx vy vz]. repeat split; apply CE; apply F0; auto. }
      split; [reflexivity|].
      do 3 (split; [apply MO; apply F6; auto|]).
      do 3 (split; [apply OP, PR; apply F3; auto|]).
      reflexivity.
    Qed.
  End Hollow.
End Body.
