(** Proofs about the stability report in double precision. *)
From Coq Require Import Reals Lra Lia List Arith Bool ZArith Psatz.
From Flocq Require Import Core.
From Verif Require Import M_base P_base M_merge M_plane M_mesh S_geometry M_geometry P_geometry M_clipper M_inertia M_double S_double P_double P_double2 P_double3 P_double4 M_dgeom P_dgeom M_dclip M_dhydro P_dvol M_hydro M_dplane M_dreport S_dreport.
Import ListNotations.
Open Scope R_scope.

(** ** Single operations *)
Lemma fl_near : forall y Y e, Rabs (y - Y) <= e -> Rabs (fl y - Y) <= (1 + u) * e + u * Rabs Y + tiny.
Proof.
  intros y Y e H. pose proof (fl_error y) as F. pose proof ulp1_pos as U.
  assert (A : Rabs y <= Rabs Y + e). { replace y with (Y + (y - Y)) by ring. eapply Rle_trans; [apply Rabs_triang|]. lra. }
  assert (u * Rabs y <= u * (Rabs Y + e)) by (apply Rmult_le_compat_l; lra).
  replace (fl y - Y) with ((fl y - y) + (y - Y)) by ring. eapply Rle_trans; [apply Rabs_triang|]. lra.
Qed.
Lemma tiny_cube : tiny <= u * (u * u * (u * u)).
Proof.
  rewrite tiny_smallest. apply Rmult_le_compat_l; [apply Rlt_le, ulp1_pos|].
  assert (S : smallest <= bpow radix2 (-212)) by (unfold smallest; rewrite <- (bpow_powerRZ radix2); apply bpow_le; lia).
  eapply Rle_trans; [exact S|]. rewrite ulp1_bpow, <- !bpow_plus. apply bpow_le. lia.
Qed.
Lemma sub_near : forall x X y Y e f, Rabs (x - X) <= e -> Rabs (y - Y) <= f -> Rabs (fsub x y - (X - Y)) <= (1 + u) * (e + f) + u * Rabs (X - Y) + tiny.
Proof.
  intros x X y Y e f HX HY. unfold fsub. apply fl_near. replace (x - y - (X - Y)) with ((x - X) + - (y - Y)) by ring.
  eapply Rle_trans; [apply Rabs_triang|]. rewrite Rabs_Ropp. lra.
Qed.
Lemma add_near : forall x X y Y e f, Rabs (x - X) <= e -> Rabs (y - Y) <= f -> Rabs (fadd x y - (X + Y)) <= (1 + u) * (e + f) + u * Rabs (X + Y) + tiny.
Proof.
  intros x X y Y e f HX HY. unfold fadd. apply fl_near. replace (x + y - (X + Y)) with ((x - X) + (y - Y)) by ring.
  eapply Rle_trans; [apply Rabs_triang|]. lra.
Qed.
Lemma mul_near : forall x X y Y e f, Rabs (x - X) <= e -> Rabs (y - Y) <= f ->
  Rabs (fmul x y - X * Y) <= (1 + u) * ((Rabs X + e) * f + Rabs Y * e) + u * (Rabs X * Rabs Y) + tiny.
Proof.
  intros x X y Y e f HX HY. unfold fmul. rewrite <- Rabs_mult. apply fl_near. apply product_moved; auto; lra.
Qed.
Lemma quotient_rounded : forall x X y Y e f, Rabs (x - X) <= e -> Rabs (y - Y) <= f -> 0 < Y -> f <= / 4 * Y ->
  Rabs (fdiv x y - X / Y) <= 135 / 100 * ((e + Rabs (X / Y) * f) / Y) + u * Rabs (X / Y) + tiny.
Proof.
  intros x X y Y e f HX HY Y0 FY. pose proof ulp1_pos as U. pose proof ulp1_small as US.
  assert (R : Rabs X <= Rabs (X / Y) * Y).
  { apply Req_le. unfold Rdiv. rewrite Rabs_mult, Rabs_inv, (Rabs_pos_eq Y) by lra. field. lra. }
  pose proof (quotient_near _ _ _ _ _ _ _ HX HY Y0 FY R) as Q. pose proof (fl_near _ _ _ Q) as F. unfold fdiv. eapply Rle_trans; [exact F|].
  pose proof (Rabs_pos (x / y - X / Y)) as P. set (t := (e + Rabs (X / Y) * f) / Y) in *.
  assert (u * (4 / 3 * t) <= / 1000000000000000 * (4 / 3 * t)) by (apply Rmult_le_compat_r; lra). lra.
Qed.

(** ** The report *)
Lemma zeroed : forall e x y, Rabs (y - x) <= e -> coefficient e x (zero_tiny_double y).
Proof.
  intros e x y H. unfold zero_tiny_double, Rltb.
  pose proof (fl_error (1 / 10000)) as F. apply Rabs_le_inv in F. rewrite (Rabs_pos_eq (1 / 10000)) in F by lra. pose proof ulp1_pos as U. pose proof ulp1_small as US. pose proof tiny_cube as T.
  assert (C : u * (u * u * (u * u)) <= / 1000000000000000).
  { apply Rle_trans with (u * 1); [apply Rmult_le_compat_l; [lra|]|lra]. replace 1 with (1 * 1 * (1 * 1)) by ring.
    assert (u <= 1) by lra. assert (u * u <= 1 * 1) by (apply Rmult_le_compat; lra). assert (0 <= u * u) by (apply Rmult_le_pos; lra). apply Rmult_le_compat; lra. }
  destruct (Rlt_dec (Rabs y) (fl (1 / 10000))) as [Q|Q]; [right; split; auto|left; split; [auto|lra]].
  replace x with (y + - (y - x)) by ring. eapply Rle_trans; [apply Rabs_triang|]. rewrite Rabs_Ropp. lra.
Qed.

Section Report.
  Variables (rho grav : R).
  Let G := rho * grav.
  Hypothesis G6 : / 1000000 <= G.
  Let U := ulp1_pos.
  Let US := ulp1_small.
  Let floor : forall e, u * u <= e -> tiny <= G * (u * e).
  Proof.
    intros e E. assert (UU : 0 < u * u) by (apply Rmult_lt_0_compat; apply U). eapply Rle_trans; [apply tiny_cube|].
    assert (C : u * u <= / 1000000) by (assert (u * u <= / 1000000000000000 * / 1000000000000000) by (apply Rmult_le_compat; try apply Rlt_le, U; apply US); lra).
    assert (H : u * u * (u * u) <= G * e) by (apply Rmult_le_compat; lra).
    replace (G * (u * e)) with (u * (G * e)) by ring. apply Rmult_le_compat_l; [apply Rlt_le, U|auto].
  Qed.
  Lemma weight_near : Rabs (fmul rho grav - G) <= 2 * (u * G).
  Proof.
    unfold fmul. fold G. pose proof (fl_error G) as F. rewrite (Rabs_pos_eq G) in F by lra.
    assert (tiny <= G * (u * 1)). { apply floor. pose proof US. assert (u * u <= 1 * 1) by (apply Rmult_le_compat; try apply Rlt_le, U; lra). lra. } lra.
  Qed.
  Lemma coefficient_near : forall t H s S e, Rabs (t - H) <= 2 * (u * G) -> Rabs H = G -> Rabs (s - S) <= e -> u * u <= e ->
    Rabs (fmul t s - H * S) <= G * (101 / 100 * e + 4 * (u * Rabs S)).
  Proof.
    intros t H s S e HT HG HS HE. pose proof (mul_near _ _ _ _ _ _ HT HS) as M. rewrite HG in M. pose proof (floor e HE) as T. pose proof (Rabs_pos S) as S0.
    eapply Rle_trans; [exact M|]. pose proof U as U'. pose proof US as US'. assert (e0 : 0 <= e) by (pose proof (Rabs_pos (s - S)); lra).
    assert (UE : u * e <= / 1000000000000000 * e) by (apply Rmult_le_compat_r; auto).
    assert (UUE : u * (u * e) <= / 1000000000000000 * e). { assert (u * (u * e) <= 1 * (u * e)) by (apply Rmult_le_compat_r; [apply Rmult_le_pos|]; lra). lra. }
    assert (U0 : 0 <= u * Rabs S) by (apply Rmult_le_pos; lra).
    assert (UUS : u * (u * Rabs S) <= / 1000000000000000 * (u * Rabs S)) by (apply Rmult_le_compat_r; auto).
    replace ((1 + u) * ((G + 2 * (u * G)) * e + Rabs S * (2 * (u * G))) + u * (G * Rabs S) + tiny)
      with (G * (e + 3 * (u * e) + 2 * (u * (u * e)) + 3 * (u * Rabs S) + 2 * (u * (u * Rabs S))) + tiny) by ring.
    apply Rle_trans with (G * (e + 3 * (u * e) + 2 * (u * (u * e)) + 3 * (u * Rabs S) + 2 * (u * (u * Rabs S)) + u * e)); [lra|].
    apply Rmult_le_compat_l; lra.
  Qed.
  Lemma weight_down : Rabs (- fmul rho grav - - G) <= 2 * (u * G).
  Proof. replace (- fmul rho grav - - G) with (- (fmul rho grav - G)) by ring. rewrite Rabs_Ropp. apply weight_near. Qed.

  Section Heights.
    Variables (V eV vol : R).
    Hypothesis V0 : 0 < V.
    Hypothesis HV : Rabs (vol - V) <= eV.
    Hypothesis EV : eV <= / 4 * V.
    Hypothesis EV' : u * u <= eV.
    Variables (s S e zg zg' eg zb zb' eb : R).
    Hypothesis HS : Rabs (s - S) <= e.
    Hypothesis HG : Rabs (zg' - zg) <= eg.
    Hypothesis HB : Rabs (zb' - zb) <= eb.
    Let r := S / V.
    Definition radius_error : R := 2 * ((e + Rabs r * eV) / V) + u * Rabs r + tiny.
    Lemma radius_near : Rabs (fdiv s vol - r) <= radius_error.
    Proof.
      unfold radius_error. eapply Rle_trans; [apply (quotient_rounded _ _ _ _ _ _ HS HV V0 EV)|]. fold r.
      assert (0 <= (e + Rabs r * eV) / V).
      { apply Rmult_le_pos; [|apply Rlt_le, Rinv_0_lt_compat; auto]. pose proof (Rabs_pos (s - S)). pose proof (Rabs_pos (vol - V)). pose proof (Rabs_pos r).
        assert (0 <= Rabs r * eV) by (apply Rmult_le_pos; lra). lra. }
      lra.
    Qed.
    Let h := r - (zg - zb).
    Definition height_error : R := 2 * (radius_error + eg + eb + u * (Rabs (zg - zb) + Rabs h) + tiny).
    Let h' := fsub (fdiv s vol) (fsub zg' zb').
    Lemma height_near : Rabs (h' - h) <= height_error.
    Proof.
      unfold h', h, height_error. pose proof radius_near as N. pose proof (sub_near _ _ _ _ _ _ HG HB) as A. pose proof (sub_near _ _ _ _ _ _ N A) as F. fold h in F |- *.
      eapply Rle_trans; [exact F|]. pose proof (Rabs_pos (fdiv s vol - r)) as R0. pose proof (Rabs_pos (zg - zb)) as A0. pose proof (Rabs_pos h) as H0. pose proof tiny_pos as T.
      pose proof (Rabs_pos (zg' - zg)). pose proof (Rabs_pos (zb' - zb)).
      assert (W : forall x, 0 <= x -> 0 <= u * x /\ u * x <= / 1000000000000000 * x) by (intros x X; split; [apply Rmult_le_pos; [apply Rlt_le, U|auto]|apply Rmult_le_compat_r; [auto|apply US]]).
      pose proof (W radius_error ltac:(lra)). pose proof (W (eg + eb) ltac:(lra)). pose proof (W (u * (eg + eb)) ltac:(apply W; lra)).
      pose proof (W (Rabs (zg - zb)) A0). pose proof (W (u * Rabs (zg - zb)) ltac:(apply W; lra)). pose proof (W (Rabs h) H0). pose proof (W tiny ltac:(lra)).
      assert (RT : tiny <= radius_error).
      { unfold radius_error. pose proof (Rabs_pos r) as P. pose proof (W (Rabs r) P).
        assert (0 <= (e + Rabs r * eV) / V).
        { apply Rmult_le_pos; [|apply Rlt_le, Rinv_0_lt_compat; auto]. pose proof (Rabs_pos (s - S)). pose proof (Rabs_pos (vol - V)).
          assert (0 <= Rabs r * eV) by (apply Rmult_le_pos; lra). lra. }
        lra. }
      lra.
    Qed.
    Lemma moment_near : Rabs (fmul (fmul (fmul rho grav) vol) h' - G * V * h) <= G * (2 * V * height_error + Rabs h * (2 * eV + 8 * (u * V))) + tiny.
    Proof.
      pose proof (coefficient_near _ G _ _ _ weight_near (Rabs_pos_eq G ltac:(lra)) HV EV') as P. rewrite (Rabs_pos_eq V) in P by lra.
      pose proof height_near as N. pose proof (mul_near _ _ _ _ _ _ P N) as M. rewrite (Rabs_pos_eq (G * V)) in M by (apply Rmult_le_pos; lra).
      eapply Rle_trans; [exact M|]. apply Rplus_le_compat_r. pose proof (Rabs_pos (h' - h)) as E0. pose proof (Rabs_pos h) as H0. pose proof (Rabs_pos (vol - V)) as V1.
      set (eh := height_error) in *. pose proof U as U'. pose proof US as US'.
      assert (UV : u * V <= / 1000000000000000 * V) by (apply Rmult_le_compat_r; lra). assert (UV0 : 0 <= u * V) by (apply Rmult_le_pos; lra).
      assert (UE : u * eV <= / 1000000000000000 * eV) by (apply Rmult_le_compat_r; lra).
      assert (UUV : u * (u * V) <= / 1000000000000000 * (u * V)) by (apply Rmult_le_compat_r; lra).
      replace ((1 + u) * ((G * V + G * (101 / 100 * eV + 4 * (u * V))) * eh + Rabs h * (G * (101 / 100 * eV + 4 * (u * V)))) + u * (G * V * Rabs h))
        with (G * ((1 + u) * (V + 101 / 100 * eV + 4 * (u * V)) * eh + Rabs h * ((1 + u) * (101 / 100 * eV + 4 * (u * V)) + u * V))) by ring.
      apply Rmult_le_compat_l; [lra|]. apply Rplus_le_compat; [apply Rmult_le_compat_r; lra|apply Rmult_le_compat_l; lra].
    Qed.
  End Heights.

  Section Center.
    Variables (A s0 e0 s X e c : R).
    Hypothesis A0 : 0 < A.
    Hypothesis H0 : Rabs (s0 - A) <= e0.
    Hypothesis E0 : e0 <= / 5 * A.
    Hypothesis E0' : u * u <= e0.
    Hypothesis HS : Rabs (s - A * X) <= e.
    Hypothesis E' : u * u <= e.
    Let GA : 0 < G * A. Proof. apply Rmult_lt_0_compat; lra. Qed.
    Lemma plane_coefficient : Rabs (fmul (fmul rho grav) s0 - G * A) <= G * (101 / 100 * e0 + 4 * (u * A)).
    Proof. pose proof (coefficient_near _ G _ _ _ weight_near (Rabs_pos_eq G ltac:(lra)) H0 E0') as P. rewrite (Rabs_pos_eq A) in P by lra. exact P. Qed.
    Let UA : u * A <= / 1000000000000000 * A. Proof. apply Rmult_le_compat_r; [lra|apply US]. Qed.
    Let small : G * (101 / 100 * e0 + 4 * (u * A)) <= / 4 * (G * A).
    Proof. replace (/ 4 * (G * A)) with (G * (/ 4 * A)) by ring. apply Rmult_le_compat_l; lra. Qed.
    Lemma plane_positive : 0 < fmul (fmul rho grav) s0.
    Proof. pose proof plane_coefficient as P. apply Rabs_le_inv in P. lra. Qed.
    Definition center_error : R := 2 * ((e + Rabs X * e0) / A) + 12 * (u * Rabs X) + tiny.
    Lemma center_near : forall q, Rabs (q - G * (A * X)) <= G * (101 / 100 * e + 4 * (u * Rabs (A * X))) -> Rabs (fdiv q (fmul (fmul rho grav) s0) - X) <= center_error.
    Proof.
      intros q Q. pose proof (quotient_rounded _ _ _ _ _ _ Q plane_coefficient GA small) as N.
      replace (G * (A * X) / (G * A)) with X in N by (field; lra). rewrite Rabs_mult, (Rabs_pos_eq A) in N by lra.
      pose proof (Rabs_pos X) as X0. set (x := Rabs X) in *.
      replace ((G * (101 / 100 * e + 4 * (u * (A * x))) + x * (G * (101 / 100 * e0 + 4 * (u * A)))) / (G * A)) with (101 / 100 * ((e + x * e0) / A) + 8 * (u * x)) in N by (field; lra).
      unfold center_error. fold x. eapply Rle_trans; [exact N|].
      assert (0 <= u * x) by (apply Rmult_le_pos; [apply Rlt_le, U|auto]).
      assert (0 <= (e + x * e0) / A).
      { apply Rmult_le_pos; [|apply Rlt_le, Rinv_0_lt_compat; auto]. pose proof (Rabs_pos (s - A * X)). pose proof (Rabs_pos (s0 - A)).
        assert (0 <= x * e0) by (apply Rmult_le_pos; lra). lra. }
      lra.
    Qed.
    Lemma center_shifted : forall (at_cog : bool) q, Rabs (q - X) <= center_error ->
      Rabs ((if at_cog then fadd q c else q) - (X + if at_cog then c else 0)) <= 2 * center_error + u * Rabs (X + if at_cog then c else 0) + tiny.
    Proof.
      intros at_cog q Q. pose proof (Rabs_pos (q - X)) as P. pose proof tiny_pos as T. destruct at_cog.
      - eapply Rle_trans; [apply (add_near q X c c center_error 0); auto; replace (c - c) with 0 by ring; rewrite Rabs_R0; lra|]. rewrite Rplus_0_r.
        assert (u * center_error <= / 1000000000000000 * center_error) by (apply Rmult_le_compat_r; [lra|apply US]). lra.
      - rewrite Rplus_0_r. assert (0 <= u * Rabs X) by (apply Rmult_le_pos; [apply Rlt_le, U|apply Rabs_pos]). lra.
    Qed.
  End Center.
End Report.
