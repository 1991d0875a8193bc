(** Property C136: changes of the point of reduction of an inertia in double precision. *)
From Coq Require Import Reals Lra Lia List Arith Bool ZArith Psatz.
From Flocq Require Import Core.
From Verif Require Import M_base P_base M_merge M_plane M_mesh S_geometry M_geometry P_geometry M_inertia S_inertia M_double S_double P_double P_double2 P_double3 P_double4 M_dgeom P_dgeom P_dgeom2 P_dreport M_dbody S_dbody P_dbody.
Import ListNotations.
Open Scope R_scope.

Lemma added_near : forall L fdot m c p I, powerRZ 2 (-200) <= L -> computes_dot fdot -> bounded L c -> bounded L p -> forall mat0,
  entries_near (177 * (Rabs m * (u * (L * L))) + 3 * tiny) (madd I (point_mass_inertia m c p)) (madd_double I (huygens_double fdot (mkRigid m c p mat0))).
Proof.
  intros L fdot m c p I SL C (C1 & C2 & C3) (P1 & P2 & P3) mat0.
  pose proof (diff_app L SL _ _ C1 P1) as DX. pose proof (diff_app L SL _ _ C2 P2) as DY. pose proof (diff_app L SL _ _ C3 P3) as DZ.
  unfold entries_near, madd, madd_double, huygens_double, point_mass_inertia, vsub_double. cbn [m00 m01 m02 m10 m11 m12 m20 m21 m22 rb_mass rb_cog rb_point vx vy vz].
  assert (D : forall i a A T, app L 4 2 a A -> T = (vx c - vx p) * (vx c - vx p) + (vy c - vy p) * (vy c - vy p) + (vz c - vz p) * (vz c - vz p) - A * A ->
    Rabs (fadd i (fmul m (fsub (fmul (fdot (V3 (fsub (vx c) (vx p)) (fsub (vy c) (vy p)) (fsub (vz c) (vz p))) (V3 (fsub (vx c) (vx p)) (fsub (vy c) (vy p)) (fsub (vz c) (vz p)))) 1) (fmul a a))) - (i + m * T))
      <= u * Rabs (i + m * T) + (177 * (Rabs m * (u * (L * L))) + 3 * tiny)).
  { intros i a A T H ->. rewrite <- Rplus_assoc. apply (entry_near L SL). apply (diagonal_app L fdot SL C); auto. }
  assert (O : forall i a A b B n T, app L 4 2 a A -> app L 4 2 b B -> T = m * (A * B) ->
    Rabs (fadd i (fmul m (fsub (fmul n 0) (fmul a b))) - (i + - T)) <= u * Rabs (i + - T) + (177 * (Rabs m * (u * (L * L))) + 3 * tiny)).
  { intros i a A b B n T HA HB ->. rewrite <- Rplus_assoc. replace (- (m * (A * B))) with (m * - (A * B)) by ring. apply (entry_near L SL).
    replace (fmul n 0) with (fmul (fdot (V3 a a a) (V3 a a a)) 0) by (unfold fmul; rewrite !Rmult_0_r; reflexivity). apply (other_app L fdot SL); auto. }
  split; [apply (D _ _ _ _ DX); ring|]. split; [apply (O _ _ _ _ _ _ _ DX DY); ring|]. split; [apply (O _ _ _ _ _ _ _ DX DZ); ring|].
  split; [apply (O _ _ _ _ _ _ _ DY DX); ring|]. split; [apply (D _ _ _ _ DY); ring|]. split; [apply (O _ _ _ _ _ _ _ DY DZ); ring|].
  split; [apply (O _ _ _ _ _ _ _ DZ DX); ring|]. split; [apply (O _ _ _ _ _ _ _ DZ DY); ring|]. apply (D _ _ _ _ DZ); ring.
Qed.

(** ** C136 *)
(** An inertia at the center of gravity in double precision, moved to another point: the matrix is that of the body at this point by the theorem of
    parallel axes, up to one rounding per entry and to errors in proportion to the mass and the square of the size [L] of the coordinates. *)
Theorem C136_reduction_point : forall L fdot b p, powerRZ 2 (-200) <= L -> computes_dot fdot -> bounded L (rb_cog b) -> bounded L p ->
  rb_point b = rb_cog b -> all_entries double (rb_mat b) ->
  let b' := set_reduction_point_double fdot b p in
  rb_mass b' = rb_mass b /\ rb_cog b' = rb_cog b /\ rb_point b' = p /\
  entries_near (177 * (Rabs (rb_mass b) * (u * (L * L))) + 3 * tiny) (madd (rb_mat b) (point_mass_inertia (rb_mass b) (rb_cog b) p)) (rb_mat b').
Proof.
  intros L fdot b p SL C BC BP E (D0 & D1 & D2 & D3 & D4 & D5 & D6 & D7 & D8) b'. repeat (split; [reflexivity|]). unfold b', set_reduction_point_double. cbn [rb_mat rb_mass rb_cog rb_point shift_at_cog_double].
  rewrite (centered fdot b C E).
  assert (K : madd_double (rb_mat b) (M3 0 0 0 0 0 0 0 0 0) = rb_mat b).
  { destruct (rb_mat b) as [a0 a1 a2 a3 a4 a5 a6 a7 a8]. cbn in D0, D1, D2, D3, D4, D5, D6, D7, D8. unfold madd_double, fadd. cbn. rewrite !Rplus_0_r. rewrite !double_fl by auto. reflexivity. }
  rewrite K. apply added_near; auto.
Qed.
(** shift_at_cog, which compute_hydrostatics uses at its end, adds the same term for any points. That it should be subtracted is said by C56 in exact arithmetic. *)
Theorem C136_shift : forall L fdot b, powerRZ 2 (-200) <= L -> computes_dot fdot -> bounded L (rb_cog b) -> bounded L (rb_point b) ->
  let b' := shift_at_cog_double fdot b in
  rb_mass b' = rb_mass b /\ rb_cog b' = rb_cog b /\ rb_point b' = rb_cog b /\
  entries_near (177 * (Rabs (rb_mass b) * (u * (L * L))) + 3 * tiny) (madd (rb_mat b) (point_mass_inertia (rb_mass b) (rb_cog b) (rb_point b))) (rb_mat b').
Proof.
  intros L fdot b SL C BC BP b'. repeat (split; [reflexivity|]). unfold b', shift_at_cog_double. cbn [rb_mat]. destruct b as [m c p I]. cbn [rb_mass rb_cog rb_point rb_mat] in *.
  apply added_near; auto.
Qed.
(** Roundings do not break symmetry. An inertia that is at the center of gravity stays exactly as it is when it is shifted there. *)
Theorem C136_symmetric : forall fdot b p, symmetric (rb_mat b) ->
  symmetric (rb_mat (shift_at_cog_double fdot b)) /\ symmetric (rb_mat (set_reduction_point_double fdot b p)).
Proof.
  assert (X : forall x y, fmul x y = fmul y x) by (intros; unfold fmul; f_equal; ring).
  assert (H : forall fdot b, symmetric (huygens_double fdot b)).
  { intros fdot b. unfold symmetric, mtrans, huygens_double. cbn [m00 m01 m02 m10 m11 m12 m20 m21 m22]. generalize (vsub_double (rb_cog b) (rb_point b)). intros [x y z]. cbn [vx vy vz].
    rewrite (X y x), (X z x), (X z y). reflexivity. }
  assert (A : forall a b, symmetric a -> symmetric b -> symmetric (madd_double a b)).
  { intros [a0 a1 a2 a3 a4 a5 a6 a7 a8] [b0 b1 b2 b3 b4 b5 b6 b7 b8]. unfold symmetric, mtrans, madd_double. cbn [m00 m01 m02 m10 m11 m12 m20 m21 m22]. intros E F. injection E. injection F. intros. subst. reflexivity. }
  intros fdot b p S. assert (K : symmetric (rb_mat (shift_at_cog_double fdot b))) by (apply A; auto). split; auto. apply A; auto.
Qed.
Theorem C136_stays : forall fdot b, computes_dot fdot -> rb_point b = rb_cog b -> all_entries double (rb_mat b) -> shift_at_cog_double fdot b = b.
Proof.
  intros fdot b C E (D0 & D1 & D2 & D3 & D4 & D5 & D6 & D7 & D8). unfold shift_at_cog_double. rewrite (centered fdot b C E).
  destruct b as [m c p [a0 a1 a2 a3 a4 a5 a6 a7 a8]]. cbn in *. subst p. unfold madd_double, fadd. cbn. rewrite !Rplus_0_r. rewrite !double_fl by auto. reflexivity.
Qed.

(** A body of 12 kg with moments 13, 10 and 5 at its center (1/2, 1, 3/2), moved to the origin: 52, 40 and 20, and products -6, -9 and -18. *)
Example C136_case : forall fdot, computes_dot fdot ->
  let b := mkRigid 12 (V3 (1 / 2) 1 (3 / 2)) (V3 (1 / 2) 1 (3 / 2)) (M3 13 0 0 0 10 0 0 0 5) in
  let I := rb_mat (set_reduction_point_double fdot b (V3 0 0 0)) in
  shift_at_cog_double fdot b = b /\
  Rabs (m00 I - 52) <= 1 / 10000000000 /\ Rabs (m11 I - 40) <= 1 / 10000000000 /\ Rabs (m22 I - 20) <= 1 / 10000000000 /\
  Rabs (m01 I - - 6) <= 1 / 10000000000 /\ Rabs (m20 I - - 9) <= 1 / 10000000000 /\ Rabs (m12 I - - 18) <= 1 / 10000000000.
Proof.
  intros fdot C b I.
  assert (DB : all_entries double (rb_mat b)).
  { assert (Z : forall k : Z, (Z.abs k < 2 ^ 53)%Z -> double (IZR k)).
    { intros k K. apply double_format. apply generic_format_FLT. exists (Float radix2 k 0); cbn; try lia. unfold F2R; cbn. lra. }
    unfold b, all_entries. cbn. repeat split; apply Z; cbn; lia. }
  split; [apply C136_stays; auto|].
  assert (SL : powerRZ 2 (-200) <= 2).
  { apply Rle_trans with (bpow radix2 0); [rewrite <- (bpow_powerRZ radix2); apply bpow_le; lia|cbn; lra]. }
  destruct (C136_reduction_point 2 fdot b (V3 0 0 0) SL C) as (_ & _ & _ & N0 & N1 & N2 & N3 & N4 & N5 & N6 & N7 & N8); auto.
  - unfold b, bounded. cbn. repeat split; apply Rabs_le; lra.
  - unfold bounded. cbn. repeat split; apply Rabs_le; lra.
  - fold I in N0, N1, N4, N5, N6, N8. unfold point_mass_inertia, madd, b in N0, N1, N4, N5, N6, N8. cbn -[Rabs u tiny I] in N0, N1, N4, N5, N6, N8.
    pose proof ulp1_pos as U. pose proof ulp1_small as US. rewrite (Rabs_pos_eq 12) in * by lra.
    assert (T : tiny <= u * (2 * 2)) by (apply (tiny_uQ (2 * 2)), (L2_large 2 SL)).
    assert (K : forall x y Y, Rabs (x - y) <= u * Rabs y + (177 * (12 * (u * (2 * 2))) + 3 * tiny) -> y = Y -> Rabs Y <= 60 -> Rabs (x - Y) <= 1 / 10000000000).
    { intros x y Y H -> B. assert (u * Rabs Y <= u * 60) by (apply Rmult_le_compat_l; lra). lra. }
    repeat split; (eapply K; [eassumption|lra|apply Rabs_le; lra]).
Qed.

Print Assumptions C136_reduction_point.
Print Assumptions C136_shift.
Print Assumptions C136_symmetric.
Print Assumptions C136_stays.
Print Assumptions C136_case.
