(** Proofs about double precision: meshes. *)
From Coq Require Import Reals Lra Lia List Arith Bool ZArith Sorting.Permutation Psatz.
From Flocq Require Import Core.
From Verif Require Import M_base M_merge M_plane M_mesh M_geometry S_merge S_mesh S_geometry P_base P_merge P_mesh P_geometry M_double S_double P_double P_double2 P_double3 P_double4
  M_dgeom P_dgeom P_dgeom2 P_dgeom3 S_dgeom.
Import ListNotations.
Open Scope R_scope.

Lemma is_triangle_dec : forall A (f : face) (x y : A), (if is_triangle f then x else y) = (if Nat.eq_dec (f0 f) (f3 f) then x else y).
Proof. intros A f x y. unfold is_triangle. destruct (Nat.eqb_spec (f0 f) (f3 f)), (Nat.eq_dec (f0 f) (f3 f)); auto; contradiction. Qed.

(** The exact area and normal of a face in terms of points. *)
Lemma second_half : forall a c d, norm (cross (vsub d a) (vsub c a)) = norm (triangle_normal a c d).
Proof. intros a c d. unfold norm, triangle_normal, cross, vsub. cbn [vx vy vz]. f_equal. ring. Qed.
Lemma props_area : forall vs f, fp_area (props_of vs f) = face_area vs f.
Proof.
  intros vs f. unfold props_of. rewrite is_triangle_dec. unfold face_area. destruct (Nat.eq_dec (f0 f) (f3 f)); [reflexivity|].
  unfold quad_props. cbn [fp_area p0 p1 p2 p3 cor]. rewrite (second_half (point vs (f0 f)) (point vs (f2 f)) (point vs (f3 f))). unfold triangle_area, triangle_normal. cbv zeta. lra.
Qed.
Lemma props_normal : forall vs f, fp_normal (props_of vs f) = vdiv (across vs f) (norm (across vs f)).
Proof.
  intros vs f. unfold props_of. rewrite is_triangle_dec. unfold across. destruct (Nat.eq_dec (f0 f) (f3 f)); reflexivity.
Qed.

(** What is computed for a face. *)
Definition props_double_of (fsum : list R -> R) (vs : list vec) (f : face) : fprops :=
  if is_triangle f then triangle_props_double fsum (cor vs f) else quad_props_double fsum (cor vs f).
Definition moments_double_of (fsum : list R -> R) (vs : list vec) (f : face) : vec :=
  let q := cor vs f in
  if is_triangle f then moments_double fsum (p0 q) (p1 q) (p2 q)
  else vadd_double (moments_double fsum (p0 q) (p1 q) (p2 q)) (moments_double fsum (p0 q) (p2 q) (p3 q)).

Section Face.
  Variable L : R.
  Hypothesis sized : powerRZ 2 (-200) <= L.
  Notation L1 := (L_large L sized).
  Notation L2 := (L2_large L sized).
  Notation L3 := (L3_large L sized).
  Notation W := (u * (L * L)).
  Notation W3 := (u * (L * L * L)).
  Variables (fsum fsum' : list R -> R) (vs : list vec) (f : face).
  Hypothesis sum_ok : adds fsum.
  Hypothesis sum_ok' : adds fsum'.
  Hypothesis vs_bounded : Forall (bounded L) vs.
  Lemma point_bounded : forall i, bounded L (point vs i).
  Proof.
    intros i. unfold point. destruct (nth_in_or_default i vs vzero) as [I|E].
    - rewrite Forall_forall in vs_bounded. auto.
    - rewrite E. pose proof (L_pos L sized). unfold bounded. cbn. rewrite Rabs_R0. lra.
  Qed.
  Lemma half_size : forall a b c d, bounded L a -> bounded L b -> bounded L c -> bounded L d ->
    app (L * L) 115 8 (fmul (norm_double fsum (cross_double (vsub_double a b) (vsub_double c d))) (1 / 2)) (norm (cross (vsub a b) (vsub c d)) / 2).
  Proof.
    intros a b c d A B C D. unfold fmul. replace (norm_double fsum (cross_double (vsub_double a b) (vsub_double c d)) * (1 / 2)) with
      (norm_double fsum (cross_double (vsub_double a b) (vsub_double c d)) / 2) by lra.
    eapply app_weaken; [exact L2|apply (half_app L sized 210 16); [sane|apply size_app; auto]| |]; lra.
  Qed.
  Lemma area_near : Rabs (fp_area (props_double_of fsum vs f) - face_area vs f) <= 250 * W.
  Proof.
    rewrite <- props_area. unfold props_double_of, props_of. pose proof (point_bounded) as PB. pose proof (W_pos L sized) as W0.
    destruct (is_triangle f).
    - unfold triangle_props_double, triangle_props. cbn [fp_area p0 p1 p2 cor].
      apply Rle_trans with (115 * W); [|lra]. eapply (app_weaken (L * L)); [exact L2|apply (half_app L sized 210 16); [sane|apply size_app; auto]| |apply Rle_refl]; lra.
    - unfold quad_props_double, quad_props. cbn [fp_area p0 p1 p2 p3 cor].
      apply Rle_trans with (248 * W); [|lra].
      replace (norm (cross (vsub (point vs (f1 f)) (point vs (f0 f))) (vsub (point vs (f2 f)) (point vs (f0 f)))) * (1 / 2)) with
        (norm (cross (vsub (point vs (f1 f)) (point vs (f0 f))) (vsub (point vs (f2 f)) (point vs (f0 f)))) / 2) by lra.
      replace (norm (cross (vsub (point vs (f3 f)) (point vs (f0 f))) (vsub (point vs (f2 f)) (point vs (f0 f)))) * (1 / 2)) with
        (norm (cross (vsub (point vs (f3 f)) (point vs (f0 f))) (vsub (point vs (f2 f)) (point vs (f0 f)))) / 2) by lra.
      unfold fadd. eapply (app_weaken (L * L)); [exact L2|apply (app_fl _ L2 (115 + 115) (8 + 8)); [sane|apply (app_add (L * L)); apply half_size; auto]| |apply Rle_refl]; lra.
  Qed.
  Lemma face_normal_near : 1000 * W <= norm (across vs f) ->
    bounded (400 * (W / norm (across vs f))) (vsub (fp_normal (props_double_of fsum vs f)) (fp_normal (props_of vs f))).
  Proof.
    rewrite props_normal. unfold props_double_of, across. rewrite is_triangle_dec. pose proof point_bounded as PB.
    destruct (Nat.eq_dec (f0 f) (f3 f)); intros H.
    - apply (normal_near L sized fsum (point vs (f1 f)) (point vs (f0 f)) (point vs (f2 f)) (point vs (f0 f))); auto.
    - apply (normal_near L sized fsum (point vs (f2 f)) (point vs (f0 f)) (point vs (f3 f)) (point vs (f1 f))); auto.
  Qed.
  Lemma triangle_center_near : is_triangle f = true ->
    bounded (9 * (u * L)) (vsub (fp_center (props_double_of fsum vs f)) (fp_center (props_of vs f))).
  Proof.
    intros T. unfold props_double_of, props_of. rewrite T. unfold triangle_props_double, triangle_props. cbn [fp_center p0 p1 p2 cor].
    unfold bounded, vdiv_double, vdiv, sum3_double, vadd. cbn [vx vy vz vsub].
    destruct (point_bounded (f0 f)) as (AX & AY & AZ), (point_bounded (f1 f)) as (BX & BY & BZ), (point_bounded (f2 f)) as (CX & CY & CZ).
    repeat split; apply (mean_app L sized); auto.
  Qed.
  Lemma quad_center_near : is_triangle f = false -> 1000 * W <= face_area vs f ->
    bounded (1500 * (W3 / face_area vs f)) (vsub (fp_center (props_double_of fsum vs f)) (fp_center (props_of vs f))).
  Proof.
    intros T. rewrite <- props_area. unfold props_double_of, props_of. rewrite T. unfold quad_props_double, quad_props. cbn [fp_center fp_area p0 p1 p2 p3 cor].
    set (a := point vs (f0 f)). set (b := point vs (f1 f)). set (c := point vs (f2 f)). set (d := point vs (f3 f)).
    assert (A : bounded L a) by apply point_bounded. assert (B : bounded L b) by apply point_bounded.
    assert (C : bounded L c) by apply point_bounded. assert (D : bounded L d) by apply point_bounded.
    pose proof (half_size b a c a B A C A) as H1. pose proof (half_size d a c a D A C A) as H2.
    replace (norm (cross (vsub b a) (vsub c a)) * (1 / 2)) with (norm (cross (vsub b a) (vsub c a)) / 2) by lra.
    replace (norm (cross (vsub d a) (vsub c a)) * (1 / 2)) with (norm (cross (vsub d a) (vsub c a)) / 2) by lra.
    pose proof (norm_pos (cross (vsub b a) (vsub c a))). pose proof (norm_pos (cross (vsub d a) (vsub c a))).
    set (n1 := norm (cross (vsub b a) (vsub c a)) / 2) in *. set (n2 := norm (cross (vsub d a) (vsub c a)) / 2) in *.
    set (m1 := fmul (norm_double fsum (cross_double (vsub_double b a) (vsub_double c a))) (1 / 2)) in *.
    set (m2 := fmul (norm_double fsum (cross_double (vsub_double d a) (vsub_double c a))) (1 / 2)) in *.
    assert (0 <= n1) by (unfold n1; lra). assert (0 <= n2) by (unfold n2; lra).
    intros S. destruct A as (AX & AY & AZ), B as (BX & BY & BZ), C as (CX & CY & CZ), D as (DX & DY & DZ).
    unfold bounded, vdiv_double, vdiv, sum3_double, sum2_double, vadd_double, vscale_double, vadd, vscale. cbn [vx vy vz vsub].
    repeat split; apply (weighted_near L sized); auto; solve [apply (mean_app L sized); auto | apply (mean2_app L sized); auto].
  Qed.

  (** The first integrals. *)
  Lemma face_moments_near : bounded (314 * W3) (vsub (moments_double_of fsum vs f) (i0 (ints_of vs f))).
  Proof.
    unfold moments_double_of, ints_of. cbn [p0 p1 p2 p3 cor]. pose proof (W3_pos L sized) as W0.
    set (a := point vs (f0 f)). set (b := point vs (f1 f)). set (c := point vs (f2 f)). set (d := point vs (f3 f)).
    assert (A : bounded L a) by apply point_bounded. assert (B : bounded L b) by apply point_bounded.
    assert (C : bounded L c) by apply point_bounded. assert (D : bounded L d) by apply point_bounded.
    pose proof (moments_app L sized fsum a b c sum_ok A B C) as (X & Y & Z). pose proof (moments_app L sized fsum a c d sum_ok A C D) as (X' & Y' & Z').
    destruct (is_triangle f).
    - unfold tri_face_integrals. cbn [p0 p1 p2 cor]. destruct X as [X _], Y as [Y _], Z as [Z _]. unfold bounded, vsub. cbn [vx vy vz]. fold a b c. lra.
    - unfold quad_face_integrals, add_integrals. cbn [p0 p1 p2 p3 cor i0]. fold a b c d.
      assert (P : forall x X y Y, app (L * L * L) 148 8 x X -> app (L * L * L) 148 8 y Y -> Rabs (fadd x y - (X + Y)) <= 314 * W3).
      { intros x0 X0 y0 Y0 H1 H2. unfold fadd. eapply (app_weaken (L * L * L)); [exact L3|apply (app_fl _ L3 (148 + 148) (8 + 8)); [sane|apply (app_add (L * L * L)); eauto]| |apply Rle_refl]; lra. }
      unfold bounded, vsub, vadd_double, vadd. cbn [vx vy vz]. repeat split; apply P; auto.
  Qed.
  Lemma face_moments_size : bounded (face_area vs f * L) (i0 (ints_of vs f)).
  Proof.
    unfold ints_of. rewrite is_triangle_dec. unfold face_area.
    set (a := point vs (f0 f)). set (b := point vs (f1 f)). set (c := point vs (f2 f)). set (d := point vs (f3 f)).
    assert (A : bounded L a) by apply point_bounded. assert (B : bounded L b) by apply point_bounded.
    assert (C : bounded L c) by apply point_bounded. assert (D : bounded L d) by apply point_bounded.
    pose proof (moments_size L a b c A B C) as M1. pose proof (moments_size L a c d A C D) as M2.
    destruct (Nat.eq_dec (f0 f) (f3 f)).
    - exact M1.
    - unfold quad_face_integrals, add_integrals, bounded. cbn [p0 p1 p2 p3 cor i0]. fold a b c d. unfold vadd. cbn [vx vy vz].
      destruct M1 as (X & Y & Z), M2 as (X' & Y' & Z'). unfold triangle_area, triangle_normal in *.
      repeat split; (apply Rle_trans with (1 := Rabs_triang _ _); lra).
  Qed.

  Hypothesis face_wide : wide L vs f.
  Lemma products_near :
    Forall2 (fun x X => Rabs (x - X) <= 900 * W3) (products (fp_normal (props_double_of fsum' vs f)) (moments_double_of fsum vs f))
      (products (fp_normal (props_of vs f)) (i0 (ints_of vs f))).
  Proof.
    destruct face_wide as [WA AN]. pose proof (L_pos L sized) as L0. pose proof (W_pos L sized) as W0.
    assert (NW : 1000 * W <= norm (across vs f)) by lra.
    pose proof face_moments_near as (MX & MY & MZ). pose proof face_moments_size as (SX & SY & SZ).
    assert (NN : bounded (400 * (W / norm (across vs f))) (vsub (fp_normal (props_double_of fsum' vs f)) (fp_normal (props_of vs f)))).
    { rewrite props_normal. unfold props_double_of, across in *. rewrite is_triangle_dec. pose proof point_bounded as PB.
      destruct (Nat.eq_dec (f0 f) (f3 f)).
      - apply (normal_near L sized fsum' (point vs (f1 f)) (point vs (f0 f)) (point vs (f2 f)) (point vs (f0 f))); auto.
      - apply (normal_near L sized fsum' (point vs (f2 f)) (point vs (f0 f)) (point vs (f3 f)) (point vs (f1 f))); auto. }
    destruct NN as (NX & NY & NZ).
    assert (U := unit_coords (across vs f) ltac:(lra)). rewrite <- props_normal in U. destruct U as (_ & UX & UY & UZ).
    assert (AL : face_area vs f * L <= norm (across vs f) * L) by (apply Rmult_le_compat_r; lra).
    cbn [vx vy vz vsub] in *.
    apply Forall2_cons; [|apply Forall2_cons; [|apply Forall2_cons; [|constructor]]];
      apply (term_near L sized _ _ _ _ (norm (across vs f))); auto; lra.
  Qed.
  Lemma products_size : total_abs (products (fp_normal (props_of vs f)) (i0 (ints_of vs f))) <= 2 * (face_area vs f * L).
  Proof.
    destruct face_wide as [WA AN]. pose proof (L_pos L sized) as L0. pose proof (W_pos L sized) as W0.
    pose proof face_moments_size as (SX & SY & SZ).
    assert (U := unit_coords (across vs f) ltac:(lra)). rewrite <- props_normal in U. destruct U as (US & _).
    cbn [products total_abs]. rewrite !Rabs_mult. set (N := fp_normal (props_of vs f)) in *. set (T := i0 (ints_of vs f)) in *.
    set (q := face_area vs f * L) in *.
    assert (Rabs (vx N) * Rabs (vx T) <= Rabs (vx N) * q) by (apply Rmult_le_compat_l; auto using Rabs_pos).
    assert (Rabs (vy N) * Rabs (vy T) <= Rabs (vy N) * q) by (apply Rmult_le_compat_l; auto using Rabs_pos).
    assert (Rabs (vz N) * Rabs (vz T) <= Rabs (vz N) * q) by (apply Rmult_le_compat_l; auto using Rabs_pos).
    assert (Q0 : 0 <= q) by (apply Rmult_le_pos; lra).
    assert ((Rabs (vx N) + Rabs (vy N) + Rabs (vz N)) * q <= 2 * q) by (apply Rmult_le_compat_r; auto). lra.
  Qed.
End Face.
