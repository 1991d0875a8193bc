(** Proofs about small displacements of the vertices of a mesh: changes of its areas and of the volume computed by the code. *)
From Coq Require Import Reals Lra Lia List Arith Bool Psatz.
From Verif Require Import M_base M_merge M_plane M_mesh M_geometry S_mesh S_geometry P_base P_mesh P_geometry S_double M_dgeom P_dgeom S_dgeom P_dgeom4 P_dgeom5 S_dclip.
Import ListNotations.
Open Scope R_scope.

Lemma norm_add : forall a b, norm (vadd a b) <= norm a + norm b.
Proof.
  intros a b. pose proof (norm_diff (vadd a b) b) as H. replace (vsub (vadd a b) b) with a in H by vring.
  pose proof (Rle_abs (norm (vadd a b) - norm b)). lra.
Qed.
Lemma norm_swap : forall a b, norm (vsub a b) = norm (vsub b a).
Proof. intros. unfold norm, vsub. cbn [vx vy vz]. f_equal. ring. Qed.
Lemma norm_times : forall k v, norm (vscale k v) = Rabs k * norm v. Proof. exact P_base.norm_scale. Qed.
Lemma cauchy_abs : forall a b, Rabs (dot a b) <= norm a * norm b.
Proof.
  intros a b. apply Rabs_le. split; [|apply cauchy]. pose proof (cauchy (vscale (-1) a) b) as H. rewrite norm_times in H.
  replace (dot (vscale (-1) a) b) with (- dot a b) in H by vring. rewrite Rabs_left in H by lra. lra.
Qed.

(** Sizes of products *)
Lemma product_moved : forall p q p' q' P Q dp dq, Rabs p <= P -> Rabs q <= Q -> Rabs (p' - p) <= dp -> Rabs (q' - q) <= dq ->
  Rabs (p' * q' - p * q) <= (P + dp) * dq + Q * dp.
Proof.
  intros p q p' q' P Q dp dq HP HQ HDP HDQ. replace (p' * q' - p * q) with (p' * (q' - q) + q * (p' - p)) by ring.
  eapply Rle_trans; [apply Rabs_triang|]. rewrite !Rabs_mult.
  assert (Rabs p' <= P + dp). { replace p' with (p + (p' - p)) by ring. eapply Rle_trans; [apply Rabs_triang|]. lra. }
  apply Rplus_le_compat; apply Rmult_le_compat; auto using Rabs_pos.
Qed.

Section Moved.
  Variables (L d : R).
  Hypothesis d0 : 0 <= d.
  Hypothesis dL : 1000 * d <= L.
  Let L0 : 0 <= L. Proof. lra. Qed.
  Let Ld0 : 0 <= L * d. Proof. apply Rmult_le_pos; auto. Qed.
  Let dd : d * d <= / 1000 * (L * d). Proof. assert (1000 * d * d <= L * d) by (apply Rmult_le_compat_r; auto). lra. Qed.

  Definition moved (a a' : vec) : Prop := bounded L a /\ Rabs (vx a' - vx a) <= d /\ Rabs (vy a' - vy a) <= d /\ Rabs (vz a' - vz a) <= d.
  Lemma moved_bounded : forall a a', moved a a' -> bounded (L + d) a'.
  Proof.
    intros a a' [(X & Y & Z) (NX & NY & NZ)].
    unfold bounded. unfold Rabs in *. repeat destruct Rcase_abs; lra.
  Qed.
  Lemma cross_moved : forall a b c e a' b' c' e', moved a a' -> moved b b' -> moved c c' -> moved e e' ->
    bounded (17 * (L * d)) (vsub (cross (vsub a' b') (vsub c' e')) (cross (vsub a b) (vsub c e))).
  Proof.
    intros a b c e a' b' c' e' [(A1 & A2 & A3) (A4 & A5 & A6)] [(B1 & B2 & B3) (B4 & B5 & B6)] [(C1 & C2 & C3) (C4 & C5 & C6)] [(E1 & E2 & E3) (E4 & E5 & E6)].
    assert (S : forall x y, Rabs x <= L -> Rabs y <= L -> Rabs (x - y) <= 2 * L) by (intros x y; unfold Rabs; repeat destruct Rcase_abs; lra).
    assert (D : forall x y x' y', Rabs (x' - x) <= d -> Rabs (y' - y) <= d -> Rabs (x' - y' - (x - y)) <= 2 * d) by (intros x y x' y'; unfold Rabs; repeat destruct Rcase_abs; lra).
    assert (K : forall p q p' q', Rabs p <= 2 * L -> Rabs q <= 2 * L -> Rabs (p' - p) <= 2 * d -> Rabs (q' - q) <= 2 * d -> Rabs (p' * q' - p * q) <= 17 / 2 * (L * d)).
    { intros p q p' q' H1 H2 H3 H4. eapply Rle_trans; [apply (product_moved p q p' q' (2 * L) (2 * L) (2 * d) (2 * d)); auto|]. lra. }
    assert (T : forall p q r s p' q' r' s', Rabs (p' * q' - p * q) <= 17 / 2 * (L * d) -> Rabs (r' * s' - r * s) <= 17 / 2 * (L * d) ->
      Rabs (p' * q' - r' * s' - (p * q - r * s)) <= 17 * (L * d)).
    { intros p q r s p' q' r' s' H1 H2. replace (p' * q' - r' * s' - (p * q - r * s)) with (p' * q' - p * q + - (r' * s' - r * s)) by ring.
      eapply Rle_trans; [apply Rabs_triang|]. rewrite Rabs_Ropp. lra. }
    unfold bounded, vsub, cross. cbn [vx vy vz]. split; [|split]; apply T; apply K; auto.
  Qed.
  Lemma cross_moved_norm : forall a b c e a' b' c' e', moved a a' -> moved b b' -> moved c c' -> moved e e' ->
    norm (vsub (cross (vsub a' b') (vsub c' e')) (cross (vsub a b) (vsub c e))) <= 34 * (L * d).
  Proof. intros. eapply Rle_trans; [apply norm_bounded, cross_moved; eauto|]. lra. Qed.
  Lemma normal_moved : forall a b c a' b' c', moved a a' -> moved b b' -> moved c c' ->
    bounded (17 * (L * d)) (vsub (triangle_normal a' b' c') (triangle_normal a b c)) /\
    norm (vsub (triangle_normal a' b' c') (triangle_normal a b c)) <= 34 * (L * d).
  Proof. intros. split; [apply cross_moved|apply cross_moved_norm]; auto. Qed.
  Lemma area_moved : forall a b c a' b' c', moved a a' -> moved b b' -> moved c c' ->
    Rabs (triangle_area a' b' c' - triangle_area a b c) <= 17 * (L * d).
  Proof.
    intros a b c a' b' c' A B C. destruct (normal_moved a b c a' b' c' A B C) as [_ N].
    pose proof (norm_diff (triangle_normal a' b' c') (triangle_normal a b c)) as D. unfold triangle_area.
    revert D. unfold Rabs. repeat destruct Rcase_abs; lra.
  Qed.

  (** Three times the volume of the tetrahedron over a triangle *)
  Definition third (a b c : vec) : R := dot (triangle_normal a b c) (vadd (vadd a b) c) / 6.
  Lemma third_tetra : forall a b c, third a b c = 3 * tetra vzero a b c.
  Proof. intros. unfold third, tetra, triangle_normal. vunfold. field. Qed.
  Lemma third_moved : forall a b c a' b' c', moved a a' -> moved b b' -> moved c c' -> Rabs (third a' b' c' - third a b c) <= 38 * (L * L * d).
  Proof.
    intros a b c a' b' c' A B C. destruct (normal_moved a b c a' b' c' A B C) as [(N1 & N2 & N3) _].
    assert (NB : bounded (8 * (L * L)) (triangle_normal a b c)).
    { destruct A as [(A1 & A2 & A3) _], B as [(B1 & B2 & B3) _], C as [(C1 & C2 & C3) _].
      assert (S : forall x y, Rabs x <= L -> Rabs y <= L -> Rabs (x - y) <= 2 * L) by (intros x y; unfold Rabs; repeat destruct Rcase_abs; lra).
      assert (K : forall p q r s, Rabs p <= 2 * L -> Rabs q <= 2 * L -> Rabs r <= 2 * L -> Rabs s <= 2 * L -> Rabs (p * q - r * s) <= 8 * (L * L)).
      { intros p q r s H1 H2 H3 H4. unfold Rminus. eapply Rle_trans; [apply Rabs_triang|]. rewrite Rabs_Ropp, !Rabs_mult.
        assert (Rabs p * Rabs q <= 2 * L * (2 * L)) by (apply Rmult_le_compat; auto using Rabs_pos).
        assert (Rabs r * Rabs s <= 2 * L * (2 * L)) by (apply Rmult_le_compat; auto using Rabs_pos). lra. }
      unfold bounded, triangle_normal, cross, vsub. cbn [vx vy vz]. split; [|split]; apply K; auto. }
    destruct NB as (M1 & M2 & M3).
    assert (SB : bounded (3 * L) (vadd (vadd a b) c)).
    { destruct A as [(A1 & A2 & A3) _], B as [(B1 & B2 & B3) _], C as [(C1 & C2 & C3) _]. unfold bounded, vadd. cbn [vx vy vz].
      assert (S : forall x y z, Rabs x <= L -> Rabs y <= L -> Rabs z <= L -> Rabs (x + y + z) <= 3 * L) by (intros x y z; unfold Rabs; repeat destruct Rcase_abs; lra). auto. }
    assert (SM : bounded (3 * d) (vsub (vadd (vadd a' b') c') (vadd (vadd a b) c))).
    { destruct A as [_ (A1 & A2 & A3)], B as [_ (B1 & B2 & B3)], C as [_ (C1 & C2 & C3)]. unfold bounded, vadd, vsub. cbn [vx vy vz].
      assert (S : forall x y z x' y' z', Rabs (x' - x) <= d -> Rabs (y' - y) <= d -> Rabs (z' - z) <= d -> Rabs (x' + y' + z' - (x + y + z)) <= 3 * d)
        by (intros x y z x' y' z'; unfold Rabs; repeat destruct Rcase_abs; lra). auto. }
    destruct SB as (S1 & S2 & S3), SM as (S4 & S5 & S6).
    assert (LLd : 0 <= L * L * d) by (rewrite Rmult_assoc; apply Rmult_le_pos; auto).
    assert (Q : L * (d * d) <= / 1000 * (L * L * d)) by (assert (L * (d * d) <= L * (/ 1000 * (L * d))) by (apply Rmult_le_compat_l; auto); lra).
    unfold third. set (N' := triangle_normal a' b' c') in *. set (N := triangle_normal a b c) in *. set (s' := vadd (vadd a' b') c') in *. set (s := vadd (vadd a b) c) in *.
    assert (K : forall p q p' q', Rabs p <= 8 * (L * L) -> Rabs q <= 3 * L -> Rabs (p' - p) <= 17 * (L * d) -> Rabs (q' - q) <= 3 * d -> Rabs (p' * q' - p * q) <= 76 * (L * L * d)).
    { intros p q p' q' H1 H2 H3 H4. eapply Rle_trans; [apply (product_moved p q p' q' (8 * (L * L)) (3 * L) (17 * (L * d)) (3 * d)); auto|]. lra. }
    pose proof (K _ _ _ _ M1 S1 N1 S4) as K1. pose proof (K _ _ _ _ M2 S2 N2 S5) as K2. pose proof (K _ _ _ _ M3 S3 N3 S6) as K3.
    replace (dot N' s' / 6 - dot N s / 6) with ((vx N' * vx s' - vx N * vx s + (vy N' * vy s' - vy N * vy s) + (vz N' * vz s' - vz N * vz s)) / 6) by (unfold dot; field).
    unfold Rdiv. rewrite Rabs_mult, (Rabs_right (/ 6)) by lra.
    pose proof (Rabs_triang (vx N' * vx s' - vx N * vx s + (vy N' * vy s' - vy N * vy s)) (vz N' * vz s' - vz N * vz s)).
    pose proof (Rabs_triang (vx N' * vx s' - vx N * vx s) (vy N' * vy s' - vy N * vy s)). lra.
  Qed.
End Moved.

(** A quadrangle that was flat: the direction common to both halves is nearly that of each of them. *)
Lemma direction_near : forall w k1 k2 N1 N2 e, S_geometry.unit w -> 0 <= k1 -> 0 <= k2 -> 0 <= e ->
  norm (vsub N1 (vscale k1 w)) <= e -> norm (vsub N2 (vscale k2 w)) <= e -> 2 * e <= norm (vadd N1 N2) -> 0 < norm (vadd N1 N2) ->
  norm (vsub (vscale (norm N1) (vdiv (vadd N1 N2) (norm (vadd N1 N2)))) N1) <= 10 * e.
Proof.
  intros w k1 k2 N1 N2 e U K1 K2 E D1 D2 ME M0. set (N := vadd N1 N2) in *. set (M := norm N) in *.
  assert (NW : norm w = 1) by (apply norm_unit; exact U).
  assert (DN : norm (vsub N (vscale (k1 + k2) w)) <= 2 * e).
  { replace (vsub N (vscale (k1 + k2) w)) with (vadd (vsub N1 (vscale k1 w)) (vsub N2 (vscale k2 w))) by (unfold N; vring).
    eapply Rle_trans; [apply norm_add|]. lra. }
  assert (DM : Rabs (M - (k1 + k2)) <= 2 * e).
  { eapply Rle_trans; [|exact DN]. replace (k1 + k2) with (norm (vscale (k1 + k2) w)) at 1; [apply norm_diff|]. rewrite norm_times, NW, Rabs_right by lra. ring. }
  assert (D1' : Rabs (norm N1 - k1) <= e).
  { eapply Rle_trans; [|exact D1]. replace k1 with (norm (vscale k1 w)) at 1; [apply norm_diff|]. rewrite norm_times, NW, Rabs_right by lra. ring. }
  set (n := vdiv N M).
  assert (NN : norm n = 1).
  { unfold n. rewrite vdiv_scale, norm_times. fold M. rewrite Rabs_right by (apply Rle_ge, Rlt_le, Rinv_0_lt_compat; auto). field. lra. }
  assert (DW : k1 * norm (vsub n w) <= 8 * e).
  { replace (vsub n w) with (vscale (/ M) (vadd (vsub N (vscale (k1 + k2) w)) (vscale (k1 + k2 - M) w))).
    2: { unfold n. rewrite vdiv_scale. apply vec_eq; unfold vadd, vsub, vscale; cbn [vx vy vz]; field; lra. }
    rewrite norm_times, Rabs_right by (apply Rle_ge, Rlt_le, Rinv_0_lt_compat; auto).
    assert (X : norm (vadd (vsub N (vscale (k1 + k2) w)) (vscale (k1 + k2 - M) w)) <= 4 * e).
    { eapply Rle_trans; [apply norm_add|]. rewrite norm_times, NW, Rmult_1_r, Rabs_minus_sym. lra. }
    assert (KM : k1 * / M <= 2).
    { apply (Rmult_le_reg_r M); auto. rewrite Rmult_assoc, Rinv_l by lra. pose proof (Rle_abs (M - (k1 + k2))). revert DM. unfold Rabs. destruct Rcase_abs; lra. }
    rewrite <- Rmult_assoc. replace (8 * e) with (2 * (4 * e)) by ring.
    apply Rmult_le_compat; auto using P_dgeom.norm_pos. apply Rmult_le_pos; auto. apply Rlt_le, Rinv_0_lt_compat; auto. }
  replace (vsub (vscale (norm N1) n) N1) with (vadd (vadd (vscale (norm N1 - k1) n) (vscale k1 (vsub n w))) (vsub (vscale k1 w) N1)) by vring.
  eapply Rle_trans; [apply norm_add|]. rewrite norm_swap. apply Rle_trans with (Rabs (norm N1 - k1) * 1 + k1 * norm (vsub n w) + e); [|lra].
  apply Rplus_le_compat; auto. eapply Rle_trans; [apply norm_add|]. rewrite !norm_times, NN, (Rabs_right k1) by lra. lra.
Qed.

Section Faces.
  Variables (L d : R) (r : nat -> nat) (m m' : mesh).
  Hypothesis d0 : 0 <= d.
  Hypothesis dL : 1000 * d <= L.
  Hypothesis al : alike d r m m'.
  Hypothesis sized : Forall (bounded L) (verts m).
  Hypothesis ok : valid m.
  Let L0 : 0 <= L. Proof. lra. Qed.
  Let Ld0 : 0 <= L * d. Proof. apply Rmult_le_pos; auto. Qed.
  Let LLd : 0 <= L * L * d. Proof. rewrite Rmult_assoc. apply Rmult_le_pos; auto. Qed.

  Lemma point_moved : forall i, (i < length (verts m))%nat -> moved L d (point (verts m) i) (point (verts m') (r i)).
  Proof.
    intros i I. destruct (nth_error (verts m) i) as [v|] eqn:E; [|apply nth_error_None in E; lia].
    destruct (al_verts _ _ _ _ al _ _ E) as (v' & E' & N). unfold point. rewrite (nth_error_nth _ _ _ E), (nth_error_nth _ _ _ E').
    split; [rewrite Forall_forall in sized; apply sized; apply nth_error_In with (1 := E)|].
    destruct N as (N1 & N2 & N3). rewrite Rabs_minus_sym in N1, N2, N3. auto.
  Qed.
  Lemma alike_valid : valid m'.
  Proof.
    unfold valid. rewrite (al_faces _ _ _ _ al), Forall_map. rewrite Forall_forall. intros f F.
    assert (K : forall i, (i < length (verts m))%nat -> (r i < length (verts m'))%nat).
    { intros i I. destruct (nth_error (verts m) i) as [v|] eqn:E; [|apply nth_error_None in E; lia].
      destruct (al_verts _ _ _ _ al _ _ E) as (v' & E' & _). apply nth_error_Some. congruence. }
    pose proof (valid_in m f ok F) as (A & B & C & D). unfold valid_face, map_face. cbn [f0 f1 f2 f3]. auto.
  Qed.
  Section Face.
    Variable f : face.
    Hypothesis If : In f (faces m).
    Let A := point_moved (f0 f) (proj1 (valid_in m f ok If)).
    Let B := point_moved (f1 f) (proj1 (proj2 (valid_in m f ok If))).
    Let C := point_moved (f2 f) (proj1 (proj2 (proj2 (valid_in m f ok If)))).
    Let D := point_moved (f3 f) (proj2 (proj2 (proj2 (valid_in m f ok If)))).
    Lemma same_shape : forall (T : Type) (x y : T), (if Nat.eq_dec (f0 (map_face r f)) (f3 (map_face r f)) then x else y) = (if Nat.eq_dec (f0 f) (f3 f) then x else y).
    Proof.
      intros T x y. unfold map_face. cbn [f0 f3]. destruct (Nat.eq_dec (f0 f) (f3 f)) as [E|E], (Nat.eq_dec (r (f0 f)) (r (f3 f))) as [E'|E']; auto.
      - exfalso. apply E'. congruence.
      - exfalso. apply E. apply (al_injective _ _ _ _ al). auto.
    Qed.
    Lemma face_area_moved : Rabs (face_area (verts m') (map_face r f) - face_area (verts m) f) <= 34 * (L * d).
    Proof.
      unfold face_area. rewrite same_shape. unfold map_face. cbn [f0 f1 f2 f3].
      pose proof (area_moved L d d0 dL _ _ _ _ _ _ A B C) as H1. pose proof (area_moved L d d0 dL _ _ _ _ _ _ A C D) as H2.
      destruct (Nat.eq_dec (f0 f) (f3 f)); [lra|]. revert H1 H2. unfold Rabs. repeat destruct Rcase_abs; lra.
    Qed.
    Lemma across_moved : norm (vsub (across (verts m') (map_face r f)) (across (verts m) f)) <= 34 * (L * d).
    Proof.
      unfold across. rewrite same_shape. unfold map_face. cbn [f0 f1 f2 f3]. unfold triangle_normal.
      destruct (Nat.eq_dec (f0 f) (f3 f)); apply (cross_moved_norm L d d0 dL); auto.
    Qed.
    Lemma across_size : flat_face (verts m) f -> 2 * face_area (verts m) f - 34 * (L * d) <= norm (across (verts m') (map_face r f)).
    Proof.
      intros F. rewrite <- norm_across by auto. pose proof across_moved as H. pose proof (norm_diff (across (verts m') (map_face r f)) (across (verts m) f)) as N.
      revert N. unfold Rabs. destruct Rcase_abs; lra.
    Qed.
    (** The term of the volume of the code for the face, against three times the volume under it *)
    Definition under (vs : list vec) (f : face) : R :=
      let a := point vs (f0 f) in let b := point vs (f1 f) in let c := point vs (f2 f) in let e := point vs (f3 f) in
      if Nat.eq_dec (f0 f) (f3 f) then third a b c else third a b c + third a c e.
    Lemma term_moved : flat_face (verts m) f -> 100 * (L * d) <= face_area (verts m) f ->
      Rabs (dot (fp_normal (props_of (verts m') (map_face r f))) (i0 (ints_of (verts m') (map_face r f))) - under (verts m) f) <= 780 * (L * L * d).
    Proof.
      intros F W. pose proof (across_size F) as AS. rewrite props_normal. unfold ints_of. rewrite is_triangle_dec, same_shape.
      assert (AP : 0 < face_area (verts m) f).
      { assert (0 < norm (across (verts m) f)); [|rewrite norm_across in H by auto; lra].
        unfold across, flat_face in *. destruct (Nat.eq_dec (f0 f) (f3 f)).
        - apply P_base.norm_pos. auto.
        - rewrite normal_sum. destruct F as (w & k & l & U & K & K' & KL & -> & ->).
          replace (vadd (vscale k w) (vscale l w)) with (vscale (k + l) w) by vring. rewrite cross_norm_split by (auto; lra). auto. }
      assert (NP : 68 * (L * d) <= norm (across (verts m') (map_face r f)) /\ 0 < norm (across (verts m') (map_face r f))) by (split; lra).
      clear AS AP W. destruct NP as [NP NP0]. revert NP NP0.
      unfold across, under, tri_face_integrals, quad_face_integrals, cor, flat_face in *. rewrite !same_shape. unfold map_face. cbn [f0 f1 f2 f3 p0 p1 p2 p3].
      pose proof (third_moved L d d0 dL _ _ _ _ _ _ A B C) as H1. pose proof (third_moved L d d0 dL _ _ _ _ _ _ A C D) as H2.
      pose proof (normal_moved L d d0 dL _ _ _ _ _ _ A B C) as [_ N1]. pose proof (normal_moved L d d0 dL _ _ _ _ _ _ A C D) as [_ N2].
      pose proof (moved_bounded L d d0 dL _ _ A) as BA. pose proof (moved_bounded L d d0 dL _ _ B) as BB. pose proof (moved_bounded L d d0 dL _ _ C) as BC. pose proof (moved_bounded L d d0 dL _ _ D) as BD.
      set (a := point (verts m) (f0 f)) in *. set (b := point (verts m) (f1 f)) in *. set (c := point (verts m) (f2 f)) in *. set (e := point (verts m) (f3 f)) in *.
      set (a' := point (verts m') (r (f0 f))) in *. set (b' := point (verts m') (r (f1 f))) in *. set (c' := point (verts m') (r (f2 f))) in *. set (e' := point (verts m') (r (f3 f))) in *.
      clear A B C D. clearbody a b c e a' b' c' e'.
      destruct (Nat.eq_dec (f0 f) (f3 f)) as [T|T]; intros NP NP0.
      - apply Rle_trans with (38 * (L * L * d)); [|lra]. eapply Rle_trans; [|exact H1]. apply Req_le. f_equal. f_equal.
        unfold third, triangle_integrals. cbn [i0]. fold (triangle_normal a' b' c'). rewrite !vdiv_scale. unfold dot, vscale. cbn [vx vy vz]. field. lra.
      - destruct F as (w & k & l & U & K & K' & KL & E1 & E2). rewrite E1 in N1. rewrite E2 in N2.
        rewrite normal_sum in *. unfold triangle_integrals, add_integrals. cbn [i0]. fold (triangle_normal a' b' c') (triangle_normal a' c' e').
        set (X := triangle_normal a' b' c') in *. set (Y := triangle_normal a' c' e') in *. set (n := vdiv (vadd X Y) (norm (vadd X Y))).
        assert (DX : norm (vsub (vscale (norm X) n) X) <= 340 * (L * d)).
        { eapply Rle_trans; [apply (direction_near w k l X Y (34 * (L * d))); auto; lra|lra]. }
        assert (DY : norm (vsub (vscale (norm Y) n) Y) <= 340 * (L * d)).
        { assert (C' : vadd X Y = vadd Y X) by vring. unfold n. rewrite C' in *.
          eapply Rle_trans; [apply (direction_near w l k Y X (34 * (L * d))); auto; lra|lra]. }
        assert (SB : forall x y z, bounded (L + d) x -> bounded (L + d) y -> bounded (L + d) z -> norm (vadd (vadd x y) z) <= 6 * (L + d)).
        { intros x y z (X1 & X2 & X3) (Y1 & Y2 & Y3) (Z1 & Z2 & Z3). replace (6 * (L + d)) with (2 * (3 * (L + d))) by ring. apply norm_bounded.
          unfold bounded, vadd. cbn [vx vy vz].
          assert (Q : forall p q t, Rabs p <= L + d -> Rabs q <= L + d -> Rabs t <= L + d -> Rabs (p + q + t) <= 3 * (L + d)) by (intros p q t; unfold Rabs; repeat destruct Rcase_abs; lra). auto. }
        pose proof (SB _ _ _ BA BB BC) as S1. pose proof (SB _ _ _ BA BC BD) as S2.
        set (s1 := vadd (vadd a' b') c') in *. set (s2 := vadd (vadd a' c') e') in *.
        assert (ME : 340 * (L * d) * (6 * (L + d)) <= 2043 * (L * L * d)).
        { assert (L * d * (1000 * d) <= L * d * L) by (apply Rmult_le_compat_l; auto). lra. }
        assert (P1 : Rabs (dot (vsub (vscale (norm X) n) X) s1) <= 2043 * (L * L * d)).
        { eapply Rle_trans; [apply cauchy_abs|]. eapply Rle_trans; [|exact ME]. apply Rmult_le_compat; auto using P_dgeom.norm_pos. }
        assert (P2 : Rabs (dot (vsub (vscale (norm Y) n) Y) s2) <= 2043 * (L * L * d)).
        { eapply Rle_trans; [apply cauchy_abs|]. eapply Rle_trans; [|exact ME]. apply Rmult_le_compat; auto using P_dgeom.norm_pos. }
        replace (dot n (vadd (vdiv (vscale (norm X) s1) 6) (vdiv (vscale (norm Y) s2) 6)) - (third a b c + third a c e))
          with (dot (vsub (vscale (norm X) n) X) s1 / 6 + dot (vsub (vscale (norm Y) n) Y) s2 / 6 + ((third a' b' c' - third a b c) + (third a' c' e' - third a c e))).
        2: { unfold third. fold X Y s1 s2. rewrite E1, E2. unfold dot, vadd, vsub, vscale, vdiv. cbn [vx vy vz]. field. }
        eapply Rle_trans; [apply Rabs_triang|]. pose proof (Rabs_triang (third a' b' c' - third a b c) (third a' c' e' - third a c e)).
        eapply Rle_trans; [apply Rplus_le_compat; [apply Rabs_triang|apply Rle_refl]|]. unfold Rdiv. rewrite !Rabs_mult, (Rabs_right (/ 6)) by lra. lra.
    Qed.
  End Face.

  Lemma sum_moved : forall (g h : face -> R) e fs, (forall f, In f fs -> Rabs (g (map_face r f) - h f) <= e) ->
    Rabs (Rsum (map g (map (map_face r) fs)) - Rsum (map h fs)) <= INR (length fs) * e.
  Proof.
    intros g h e fs H. induction fs as [|f fs IH]; [cbn; rewrite Rminus_0_r, Rabs_R0; lra|].
    cbn [map length]. rewrite S_INR. unfold Rsum in *. cbn [fold_right].
    replace (g (map_face r f) + fold_right Rplus 0 (map g (map (map_face r) fs)) - (h f + fold_right Rplus 0 (map h fs)))
      with (g (map_face r f) - h f + (fold_right Rplus 0 (map g (map (map_face r) fs)) - fold_right Rplus 0 (map h fs))) by ring.
    eapply Rle_trans; [apply Rabs_triang|]. pose proof (H f (or_introl eq_refl)). assert (forall g, In g fs -> In g (f :: fs)) by (intros; right; auto). pose proof (IH (fun g I => H g (H1 g I))). lra.
  Qed.
  Lemma surface_area_moved : Rabs (surface_area m' - surface_area m) <= INR (length (faces m)) * (34 * (L * d)).
  Proof. unfold surface_area. rewrite (al_faces _ _ _ _ al). apply sum_moved. intros f F. apply face_area_moved; auto. Qed.
  Lemma under_sum : Rsum (map (under (verts m)) (faces m)) = 3 * signed_volume vzero m.
  Proof.
    unfold signed_volume, surface_sum, mesh_triangles. clear - r. induction (faces m) as [|f fs IH]; [cbn; ring|].
    cbn [map flat_map]. rewrite map_app, Rsum_app, Rmult_plus_distr_l, <- IH. unfold Rsum at 1. cbn [fold_right]. fold (Rsum (map (under (verts m)) fs)). f_equal.
    unfold under, face_triangles. destruct (Nat.eq_dec (f0 f) (f3 f)); unfold Rsum; cbn [map fold_right]; rewrite !third_tetra; ring.
  Qed.
  Lemma volume_moved : flat_mesh m -> Forall (fun f => 100 * (L * d) <= face_area (verts m) f) (faces m) ->
    exists V, volume m' = Ok V /\ Rabs (V - signed_volume vzero m) <= INR (length (faces m)) * (260 * (L * L * d)).
  Proof.
    intros F W. rewrite volume_ok by apply alike_valid. eexists. split; [reflexivity|]. rewrite (al_faces _ _ _ _ al).
    pose proof (sum_moved (fun f => dot (fp_normal (props_of (verts m') f)) (i0 (ints_of (verts m') f))) (under (verts m)) (780 * (L * L * d)) (faces m)) as H.
    rewrite under_sum in H. unfold flat_mesh in F. rewrite Forall_forall in F, W.
    match type of H with ?P -> _ => assert (X : P) by (intros f I; apply term_moved; auto) end. specialize (H X). clear X.
    match goal with |- Rabs (?s / 3 - ?v) <= _ => replace (s / 3 - v) with ((s - 3 * v) * / 3) by field end.
    rewrite Rabs_mult, (Rabs_right (/ 3)) by lra. lra.
  Qed.
  Lemma extent_moved : Forall (bounded (L + d)) (verts m').
  Proof.
    apply Forall_forall. intros x I. apply In_nth_error in I as (j & J).
    (* every vertex of m' is the image of one of m: injective map between lists of the same length *)
    assert (S : exists i, (i < length (verts m))%nat /\ r i = j).
    { assert (K : forall i, (i < length (verts m))%nat -> (r i < length (verts m))%nat).
      { intros i Hi. destruct (nth_error (verts m) i) as [v|] eqn:E; [|apply nth_error_None in E; lia].
        destruct (al_verts _ _ _ _ al _ _ E) as (v' & E' & _). rewrite <- (al_count _ _ _ _ al). apply nth_error_Some. congruence. }
      assert (Jl : (j < length (verts m))%nat) by (rewrite <- (al_count _ _ _ _ al); apply nth_error_Some; congruence).
      assert (IN : incl (seq 0 (length (verts m))) (map r (seq 0 (length (verts m))))).
      { apply NoDup_length_incl; [|rewrite map_length; auto|].
        - apply FinFun.Injective_map_NoDup; [intros p q; apply (al_injective _ _ _ _ al)|apply seq_NoDup].
        - intros p P. apply in_map_iff in P as (q & <- & Q). apply in_seq in Q. apply in_seq. split; [lia|]. apply K. lia. }
      specialize (IN j). rewrite in_seq in IN. specialize (IN (conj (Nat.le_0_l j) Jl)). apply in_map_iff in IN as (i & <- & Ii). exists i. split; auto. apply in_seq in Ii. lia. }
    destruct S as (i & Ii & <-). pose proof (moved_bounded L d d0 dL _ _ (point_moved i Ii)) as B. unfold point in B. rewrite (nth_error_nth _ _ _ J) in B. exact B.
  Qed.
End Faces.
