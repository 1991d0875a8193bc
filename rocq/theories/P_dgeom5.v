(** Proofs about double precision: areas and volumes of meshes. *)
From Coq Require Import Reals Lra Lia List Arith Bool ZArith Sorting.Permutation Psatz.
From Flocq Require Import Core.
From Verif Require Import M_base M_merge M_plane M_mesh M_geometry S_merge S_mesh S_geometry P_base P_merge P_mesh P_geometry M_double S_double P_double P_double2 P_double3 P_double4
  M_dgeom P_dgeom P_dgeom2 P_dgeom3 S_dgeom P_dgeom4.
Import ListNotations.
Open Scope R_scope.

Lemma numbered_snd : forall A (l : list A), map snd (numbered l) = l.
Proof.
  intros A l. unfold numbered. generalize 0%nat as k. induction l as [|a l IH]; intros k; cbn; [reflexivity|]. f_equal. apply IH.
Qed.
Lemma numbered_length : forall A (l : list A), length (numbered l) = length l.
Proof. intros A l. rewrite <- (map_length snd), numbered_snd. reflexivity. Qed.
Lemma numbered_in : forall A (l : list A) j a, In (j, a) (numbered l) -> In a l.
Proof. intros A l j a I. rewrite <- (numbered_snd A l). apply (in_map snd) in I. exact I. Qed.
Lemma numbered_nth : forall A (l : list A) i a, nth_error l i = Some a -> nth_error (numbered l) i = Some (i, a).
Proof.
  intros A l i a H. unfold numbered. replace i with (0 + i)%nat at 2 by lia. generalize 0%nat as k. revert i H.
  induction l as [|b l IH]; intros [|i] H k; try discriminate; cbn in *.
  - injection H as ->. do 2 f_equal. lia.
  - rewrite (IH i H (Datatypes.S k)). do 2 f_equal. lia.
Qed.

Lemma props_double_ok : forall fsum m, valid m ->
  faces_properties_double fsum m = Ok (map (fun jf => props_double_of (fsum (fst jf)) (verts m) (snd jf)) (numbered (faces m))).
Proof.
  intros fsum m V. apply mapM_total. intros [j f] I. apply numbered_in in I. cbn [fst snd]. unfold face_props_double.
  rewrite (face_corners_ok _ f (valid_in m f V I)). reflexivity.
Qed.
Lemma moments_double_ok : forall fsum m, valid m ->
  faces_moments_double fsum m = Ok (map (fun jf => moments_double_of (fsum (fst jf)) (verts m) (snd jf)) (numbered (faces m))).
Proof.
  intros fsum m V. apply mapM_total. intros [j f] I. apply numbered_in in I. cbn [fst snd]. unfold face_moments_double.
  rewrite (face_corners_ok _ f (valid_in m f V I)). reflexivity.
Qed.
Lemma volume_double_ok : forall fsum fsum' ftotal m, valid m ->
  volume_double fsum fsum' ftotal m = Ok (fdiv (ftotal (flat_map (fun jf =>
    products (fp_normal (props_double_of (fsum' (fst jf)) (verts m) (snd jf))) (moments_double_of (fsum (fst jf)) (verts m) (snd jf))) (numbered (faces m)))) 3).
Proof.
  intros fsum fsum' ftotal m V. unfold volume_double. rewrite moments_double_ok, props_double_ok by auto. cbn [bind].
  rewrite combine_map. do 3 f_equal. generalize (numbered (faces m)). induction l as [|a l IH]; [reflexivity|]. cbn [map flat_map fst snd]. f_equal. exact IH.
Qed.

Lemma Forall2_flat_map : forall A B C (P : B -> C -> Prop) (g : A -> list B) (h : A -> list C) l,
  (forall a, In a l -> Forall2 P (g a) (h a)) -> Forall2 P (flat_map g l) (flat_map h l).
Proof.
  induction l as [|a l IH]; intros H; cbn; [constructor|]. apply Forall2_app; [apply H; left; auto|]. apply IH. intros b I. apply H. right. auto.
Qed.
Lemma total_flat_map : forall A (g : A -> list R) l, total (flat_map g l) = Rsum (map (fun a => total (g a)) l).
Proof. induction l as [|a l IH]; cbn; [reflexivity|]. rewrite total_app, IH. reflexivity. Qed.
Lemma total_abs_flat_map : forall A (g : A -> list R) h l, (forall a, In a l -> total_abs (g a) <= h a) ->
  total_abs (flat_map g l) <= Rsum (map h l).
Proof.
  induction l as [|a l IH]; intros H; cbn; [lra|]. rewrite total_abs_app.
  pose proof (H a (or_introl eq_refl)). assert (total_abs (flat_map g l) <= Rsum (map h l)) by (apply IH; intros b I; apply H; right; auto).
  unfold Rsum in *. lra.
Qed.
Lemma Rsum_scale : forall A k (h : A -> R) l, Rsum (map (fun a => k * h a) l) = k * Rsum (map h l).
Proof. induction l as [|a l IH]; cbn; [lra|]. unfold Rsum in *. rewrite IH. lra. Qed.
Lemma flat_map_length3 : forall A B (g : A -> list B) l, (forall a, length (g a) = 3%nat) -> length (flat_map g l) = (3 * length l)%nat.
Proof. induction l as [|a l IH]; intros H; cbn; [reflexivity|]. rewrite app_length, H, IH by auto. lia. Qed.

Lemma face_area_pos : forall vs f, 0 <= face_area vs f.
Proof.
  intros vs f. unfold face_area, triangle_area. cbv zeta. pose proof (norm_pos (triangle_normal (point vs (f0 f)) (point vs (f1 f)) (point vs (f2 f)))).
  pose proof (norm_pos (triangle_normal (point vs (f0 f)) (point vs (f2 f)) (point vs (f3 f)))). destruct Nat.eq_dec; lra.
Qed.
Lemma surface_area_pos : forall m, 0 <= surface_area m.
Proof.
  intros m. unfold surface_area. induction (faces m) as [|f l IH]; cbn; [lra|]. pose proof (face_area_pos (verts m) f). unfold Rsum in IH. lra.
Qed.

Lemma ulp1_le_9 : u <= / 9000000000000000.
Proof. unfold ulp1. apply Rinv_le_contravar; [lra|]. cbn. lra. Qed.
Section Mesh.
  Variables (L : R) (m : mesh).
  Hypothesis sized : extent L m.
  Hypothesis m_valid : valid m.
  Hypothesis some : faces m <> [].
  Hypothesis few : INR (length (faces m)) <= 100000000000000.
  Notation n := (INR (length (faces m))).
  Notation L0 := (proj1 sized).
  Lemma n_one : 1 <= n.
  Proof. destruct (faces m) as [|f l]; [congruence|]. cbn [length]. rewrite S_INR. pose proof (pos_INR (length l)). lra. Qed.

  Lemma volume_near : forall fsum fsum' ftotal, (forall j, adds (fsum j)) -> (forall j, adds (fsum' j)) -> adds ftotal ->
    Forall (wide L (verts m)) (faces m) ->
    exists v V, volume_double fsum fsum' ftotal m = Ok v /\ volume m = Ok V /\
      Rabs (v - V) <= n * (u * L * (6 * surface_area m + 1400 * (L * L))).
  Proof.
    intros fsum fsum' ftotal A A' AT F. rewrite volume_double_ok, volume_ok by auto. do 2 eexists. split; [reflexivity|]. split; [reflexivity|].
    set (l := flat_map _ (numbered (faces m))).
    set (l' := flat_map (fun jf => products (fp_normal (props_of (verts m) (snd jf))) (i0 (ints_of (verts m) (snd jf)))) (numbered (faces m))).
    destruct sized as [S B].
    assert (WD : forall jf, In jf (numbered (faces m)) -> wide L (verts m) (snd jf)).
    { intros [j f] I. apply numbered_in in I. rewrite Forall_forall in F. auto. }
    assert (F2 : Forall2 (fun x X => Rabs (x - X) <= 900 * (u * (L * L * L))) l l').
    { apply Forall2_flat_map. intros jf I. apply products_near; auto. }
    assert (LN : length l = (3 * length (faces m))%nat) by (unfold l; rewrite flat_map_length3, numbered_length; auto).
    assert (LI : INR (length l) = 3 * n) by (rewrite LN, mult_INR; cbn; lra).
    pose proof n_one as N1.
    assert (LE : l <> []). { intros E. rewrite E in LI. cbn in LI. lra. }
    pose proof ulp1_pos as U0. pose proof ulp1_small as U1. pose proof (L_pos L S) as LP. pose proof (W3_pos L S) as W0.
    pose proof (tiny_uQ _ (L3_large L S)) as T1. pose proof tiny_pos as T0. set (W3 := u * (L * L * L)) in *.
    assert (SM : 4 * INR (length l) * u <= 1).
    { rewrite LI. apply Rle_trans with (4 * (3 * 100000000000000) * / 9000000000000000).
      - apply Rmult_le_compat; try lra. apply Rle_trans with (1 := ulp1_le_9). lra.
      - lra. }
    pose proof (long_sum l l' (ftotal l) _ (AT l LE) F2 SM) as E. rewrite LI in E.
    assert (TA : total_abs l' <= 2 * L * surface_area m).
    { apply Rle_trans with (Rsum (map (fun jf => 2 * L * face_area (verts m) (snd jf)) (numbered (faces m)))).
      - apply total_abs_flat_map. intros jf I. pose proof (products_size L S (verts m) (snd jf) B (WD jf I)). lra.
      - rewrite Rsum_scale. unfold surface_area. rewrite <- (numbered_snd _ (faces m)) at 2. rewrite map_map. lra. }
    assert (TT : total l' = Rsum (map (fun f => dot (fp_normal (props_of (verts m) f)) (i0 (ints_of (verts m) f))) (faces m))).
    { unfold l'. rewrite total_flat_map. rewrite <- (numbered_snd _ (faces m)) at 2. rewrite map_map. f_equal. apply map_ext. intros jf.
      unfold products, dot. cbn [total]. ring. }
    rewrite <- TT. set (V := total l') in *. set (r := ftotal l) in *. set (a := surface_area m) in *.
    pose proof (surface_area_pos m) as A0. fold a in A0.
    pose proof (total_abs_pos l') as TP. pose proof (total_le l') as TL. fold V in TL.
    assert (UA : u * total_abs l' <= 2 * (u * L * a)).
    { apply Rle_trans with (u * (2 * L * a)); [apply Rmult_le_compat_l; lra|lra]. }
    assert (ULA : 0 <= u * L * a) by (apply Rmult_le_pos; [apply Rmult_le_pos|]; lra).
    set (e := 2 * (u * total_abs l') + 3 / 2 * (900 * W3) + 3 / 2 * tiny) in *.
    assert (EE : e <= 4 * (u * L * a) + 1352 * W3) by (unfold e; lra).
    assert (E0 : 0 <= e) by (unfold e; pose proof (Rmult_le_pos u (total_abs l') (Rlt_le _ _ U0) TP); lra).
    assert (E1 : Rabs (r / 3 - V / 3) <= n * e).
    { replace (r / 3 - V / 3) with (/ 3 * (r - V)) by field. rewrite Rabs_mult, (Rabs_pos_eq (/ 3)) by lra. lra. }
    apply Rle_trans with (1 := rounded_near _ _ _ E1).
    assert (NE : n * e <= n * (4 * (u * L * a) + 1352 * W3)) by (apply Rmult_le_compat_l; lra).
    assert (NE0 : 0 <= n * e) by (apply Rmult_le_pos; lra).
    assert (V3 : Rabs (V / 3) <= L * a) by (unfold Rdiv; rewrite Rabs_mult, (Rabs_pos_eq (/ 3)) by lra; nra).
    assert (X1 : u * (Rabs (V / 3) + n * e) <= u * (L * a) + / 1000 * (n * e)).
    { rewrite Rmult_plus_distr_l. apply Rplus_le_compat; [apply Rmult_le_compat_l; lra|apply Rmult_le_compat_r; lra]. }
    assert (X2 : u * (L * a) <= / 2 * (n * (u * L * a)) + / 2 * (u * L * a)).
    { assert (1 * (u * L * a) <= n * (u * L * a)) by (apply Rmult_le_compat_r; lra). lra. }
    assert (X3 : W3 <= n * W3) by (rewrite <- (Rmult_1_l W3) at 1; apply Rmult_le_compat_r; lra).
    assert (X4 : u * L * a <= n * (u * L * a)) by (rewrite <- (Rmult_1_l (u * L * a)) at 1; apply Rmult_le_compat_r; lra).
    replace (n * (u * L * (6 * a + 1400 * (L * L)))) with (6 * (n * (u * L * a)) + 1400 * (n * W3)) by (unfold W3; ring).
    assert (0 <= n * (u * L * a)) by (apply Rmult_le_pos; lra). lra.
  Qed.

  Lemma area_near_total : forall fsum ftotal, (forall j, adds (fsum j)) -> adds ftotal ->
    exists a, total_area_double fsum ftotal m = Ok a /\ Rabs (a - surface_area m) <= n * (u * (2 * surface_area m + 380 * (L * L))).
  Proof.
    intros fsum ftotal A AT. unfold total_area_double. rewrite props_double_ok by auto. cbn [bind]. eexists. split; [reflexivity|]. rewrite map_map.
    set (l := map _ (numbered (faces m))). set (l' := map (fun jf => face_area (verts m) (snd jf)) (numbered (faces m))).
    destruct sized as [S B].
    assert (F2 : Forall2 (fun x X => Rabs (x - X) <= 250 * (u * (L * L))) l l').
    { unfold l, l'. induction (numbered (faces m)) as [|jf t IH]; cbn [map]; constructor; auto. apply area_near; auto. }
    assert (LI : INR (length l) = n) by (unfold l; rewrite map_length, numbered_length; auto).
    pose proof n_one as N1.
    assert (LE : l <> []). { intros E. rewrite E in LI. cbn in LI. lra. }
    pose proof ulp1_pos as U0. pose proof (W_pos L S) as W0.
    pose proof (tiny_uQ _ (L2_large L S)) as T1. pose proof tiny_pos as T0. set (W := u * (L * L)) in *.
    assert (SM : 4 * INR (length l) * u <= 1).
    { rewrite LI. apply Rle_trans with (4 * 100000000000000 * / 9000000000000000); [|lra]. apply Rmult_le_compat; try lra. apply ulp1_le_9. }
    pose proof (long_sum l l' (ftotal l) _ (AT l LE) F2 SM) as E. rewrite LI in E.
    assert (L'E : l' = map (face_area (verts m)) (faces m)).
    { unfold l'. rewrite <- (numbered_snd _ (faces m)) at 2. rewrite map_map. reflexivity. }
    assert (TT : total l' = surface_area m).
    { rewrite L'E. unfold surface_area. generalize (faces m). induction l0 as [|f t IH]; cbn; [reflexivity|]. unfold Rsum in IH. rewrite IH. reflexivity. }
    assert (TA : total_abs l' = surface_area m).
    { rewrite <- TT, L'E. generalize (faces m). induction l0 as [|f t IH]; cbn; [reflexivity|]. rewrite IH, Rabs_pos_eq; auto using face_area_pos. }
    rewrite TT, TA in E. apply Rle_trans with (1 := E). apply Rmult_le_compat_l; [lra|].
    replace (u * (2 * surface_area m + 380 * (L * L))) with (2 * (u * surface_area m) + 380 * W) by (unfold W; ring). lra.
  Qed.
End Mesh.

(** Planar convex quadrangles are not folded. *)
Lemma norm_scale : forall k v, 0 <= k -> norm (vscale k v) = k * norm v.
Proof.
  intros k v K. unfold norm, vscale. cbn [vx vy vz].
  replace (k * vx v * (k * vx v) + k * vy v * (k * vy v) + k * vz v * (k * vz v)) with (k * k * (vx v * vx v + vy v * vy v + vz v * vz v)) by ring.
  rewrite sqrt_mult; [rewrite sqrt_square by auto; reflexivity| |apply squares_pos]. apply Rmult_le_pos; auto.
Qed.
Lemma norm_across : forall vs f, flat_face vs f -> norm (across vs f) = 2 * face_area vs f.
Proof.
  intros vs f. unfold flat_face, across, face_area, triangle_area. cbv zeta. destruct (Nat.eq_dec (f0 f) (f3 f)); intros H; [lra|].
  rewrite normal_sum. destruct H as (w & k & l & U & K & LL & _ & -> & ->).
  assert (N : norm w = 1) by (unfold norm; unfold unit, dot in U; rewrite U; apply sqrt_1).
  replace (vadd (vscale k w) (vscale l w)) with (vscale (k + l) w) by (unfold vadd, vscale; cbn [vx vy vz]; f_equal; ring).
  rewrite !norm_scale by lra. rewrite N. lra.
Qed.
Lemma flat_wide : forall L vs f, flat_face vs f -> 1000 * (u * (L * L)) <= face_area vs f -> wide L vs f.
Proof. intros L vs f F A. split; auto. rewrite (norm_across vs f F). pose proof (face_area_pos vs f). lra. Qed.

Lemma plain_sum_adds : adds plain_sum.
Proof.
  intros [|x l] N; [congruence|]. clear N. cbn [plain_sum].
  assert (G : forall l l0 r, sums l0 r -> sums (l0 ++ l) (fold_left (fun s y => fadd s (fl y)) l r)).
  { induction l0 as [|y l0 IH]; intros l1 r S; [rewrite app_nil_r; exact S|]. cbn [fold_left].
    replace (l1 ++ y :: l0) with ((l1 ++ [y]) ++ l0) by (rewrite <- app_assoc; reflexivity). apply IH. unfold fadd.
    apply sums_add; [exact S|apply sums_term]. }
  apply (G l [x]). apply sums_term.
Qed.

Lemma triangle_area_le : forall L vs f, powerRZ 2 (-200) <= L -> Forall (bounded L) vs -> is_triangle f = true -> face_area vs f <= 8 * (L * L).
Proof.
  intros L vs f S B T. unfold is_triangle in T. apply Nat.eqb_eq in T. unfold face_area. cbv zeta. destruct (Nat.eq_dec (f0 f) (f3 f)); [|contradiction].
  unfold triangle_area, triangle_normal.
  destruct (size_app L S plain_sum (point vs (f1 f)) (point vs (f0 f)) (point vs (f2 f)) (point vs (f0 f))) as [_ Q];
    auto using plain_sum_adds; try (apply point_bounded; auto).
  pose proof (Rle_abs (norm (cross (vsub (point vs (f1 f)) (point vs (f0 f))) (vsub (point vs (f2 f)) (point vs (f0 f)))))). lra.
Qed.
