(** Proofs about double precision: sums of surface integrals over meshes. *)
From Coq Require Import Reals Lra Lia List Arith Bool ZArith Psatz.
From Flocq Require Import Core.
From Verif Require Import M_base M_merge M_plane M_mesh M_geometry S_merge S_mesh S_geometry P_base P_merge P_mesh P_geometry M_inertia M_double S_double P_double P_double2 P_double3 P_double4
  M_dgeom P_dgeom P_dgeom2 P_dgeom3 S_dgeom P_dgeom4 P_dgeom5 M_dinertia P_dinertia.
Import ListNotations.
Open Scope R_scope.

Definition ints_double_of (fsum : list R -> R) (vs : list vec) (f : face) : integrals :=
  let q := cor vs f in
  if is_triangle f then triangle_integrals_double fsum (p0 q) (p1 q) (p2 q)
  else add_integrals_double (triangle_integrals_double fsum (p0 q) (p1 q) (p2 q)) (triangle_integrals_double fsum (p0 q) (p2 q) (p3 q)).
Lemma ints_double_ok : forall fsum m, valid m ->
  faces_integrals_double fsum m = Ok (map (fun jf => ints_double_of (fsum (fst jf)) (verts m) (snd jf)) (numbered (faces m))).
Proof.
  intros fsum m V. apply mapM_total. intros [j f] I. apply numbered_in in I. cbn [fst snd]. unfold face_integrals_double.
  rewrite (face_corners_ok _ f (valid_in m f V I)). reflexivity.
Qed.
(** The first three integrals are those of the volume. *)
Lemma ints_moments : forall fsum vs f, i0 (ints_double_of fsum vs f) = moments_double_of fsum vs f.
Proof. intros fsum vs f. unfold ints_double_of, moments_double_of. destruct (is_triangle f); reflexivity. Qed.

(** What is needed of three integrals of degree [k]. *)
Record graded (L : R) (sel : integrals -> vec) (k : nat) (K B c : R) : Prop := {
  gd_degree : (2 + k <= 5)%nat;
  gd_err : 0 <= K <= 10000; gd_big : 0 <= B <= 100; gd_pos : 0 <= c;
  gd_add : forall x y, sel (add_integrals x y) = vadd (sel x) (sel y);
  gd_add_double : forall x y, sel (add_integrals_double x y) = vadd_double (sel x) (sel y);
  gd_app : forall fsum a b d, adds fsum -> bounded L a -> bounded L b -> bounded L d ->
    appv (L ^ (2 + k)) K B (sel (triangle_integrals_double fsum a b d)) (sel (triangle_integrals a b d));
  gd_size : forall a b d, bounded L a -> bounded L b -> bounded L d -> bounded (c * (norm (cross (vsub b a) (vsub d a)) / 2 * L ^ k)) (sel (triangle_integrals a b d)) }.
Lemma appv_weaken : forall Q k B k' B' v V, smallest <= Q -> appv Q k B v V -> k <= k' -> B <= B' -> appv Q k' B' v V.
Proof. intros Q k B k' B' v V HQ (X & Y & Z) K HB. split; [|split]; eapply app_weaken; eauto. Qed.
Lemma graded6 : forall L, powerRZ 2 (-200) <= L -> graded L i6 2 208 8 1.
Proof.
  intros L S. constructor; try reflexivity; try lra; try lia; intros.
  - eapply appv_weaken; [apply pow_large; auto; lia|apply i6_app; auto| |]; lra.
  - rewrite Rmult_1_l. apply (i6_size L S plain_sum); auto; apply plain_sum_adds.
Qed.
Lemma graded9 : forall L, powerRZ 2 (-200) <= L -> graded L i9 3 208 8 1.
Proof.
  intros L S. constructor; try reflexivity; try lra; try lia; intros.
  - eapply appv_weaken; [apply pow_large; auto; lia|apply i9_app; auto| |]; lra.
  - rewrite Rmult_1_l. apply (i9_size L S plain_sum); auto; apply plain_sum_adds.
Qed.
Lemma graded12 : forall L, powerRZ 2 (-200) <= L -> graded L i12 3 208 8 1.
Proof.
  intros L S. constructor; try reflexivity; try lra; try lia; intros.
  - apply i12_app; auto.
  - rewrite Rmult_1_l. apply (i12_size L S plain_sum); auto; apply plain_sum_adds.
Qed.
Lemma graded3 : forall L, powerRZ 2 (-200) <= L -> graded L i3 2 555 24 3.
Proof.
  intros L S. constructor; try reflexivity; try lra; try lia; intros.
  - apply i3_app; auto.
  - apply (i3_size L S plain_sum); auto; apply plain_sum_adds.
Qed.
Lemma graded0 : forall L, powerRZ 2 (-200) <= L -> graded L i0 1 208 8 1.
Proof.
  intros L S. constructor; try reflexivity; try lra; try lia; intros.
  - eapply appv_weaken; [apply pow_large; auto; lia| | |]; [replace (L ^ (2 + 1)) with (L * L * L) by (cbn; ring); apply (moments_app L S fsum a b d); auto|lra|lra].
  - rewrite Rmult_1_l. replace (L ^ 1) with L by (cbn; ring). apply moments_size; auto.
Qed.

Section Face.
  Variable L : R.
  Hypothesis sized : powerRZ 2 (-200) <= L.
  Variables (sel : integrals -> vec) (k : nat) (K B c : R).
  Hypothesis G : graded L sel k K B c.
  Notation W := (u * (L * L)).
  Notation Wk := (u * L ^ (2 + k)).
  Variables (fsum fsum' : list R -> R) (vs : list vec) (f : face).
  Hypothesis sum_ok : adds fsum.
  Hypothesis sum_ok' : adds fsum'.
  Hypothesis vs_bounded : Forall (bounded L) vs.
  Lemma Wk_pos : 0 < Wk.
  Proof. apply Rmult_lt_0_compat; [apply ulp1_pos|apply pow_lt, (L_pos L sized)]. Qed.
  Lemma face_ints_near : bounded ((2 * K + 2 * B + 2) * Wk) (vsub (sel (ints_double_of fsum vs f)) (sel (ints_of vs f))).
  Proof.
    pose proof Wk_pos as W0. pose proof (point_bounded L sized vs vs_bounded) as PB. unfold ints_double_of, ints_of. cbn [p0 p1 p2 p3 cor].
    set (a := point vs (f0 f)). set (b := point vs (f1 f)). set (d := point vs (f2 f)). set (e := point vs (f3 f)).
    destruct (gd_err _ _ _ _ _ _ G) as [K0 K1]. destruct (gd_big _ _ _ _ _ _ G) as [B0 B1].
    pose proof (gd_app _ _ _ _ _ _ G fsum a b d sum_ok (PB _) (PB _) (PB _)) as (X & Y & Z).
    pose proof (gd_app _ _ _ _ _ _ G fsum a d e sum_ok (PB _) (PB _) (PB _)) as (X' & Y' & Z').
    destruct (is_triangle f).
    - unfold tri_face_integrals. cbn [p0 p1 p2 cor]. fold a b d. destruct X as [X _], Y as [Y _], Z as [Z _].
      assert (K * Wk <= (2 * K + 2 * B + 2) * Wk) by (apply Rmult_le_compat_r; lra). unfold bounded, vsub. cbn [vx vy vz]. lra.
    - unfold quad_face_integrals. cbn [p0 p1 p2 p3 cor]. fold a b d e. rewrite (gd_add _ _ _ _ _ _ G), (gd_add_double _ _ _ _ _ _ G).
      assert (P : forall x X y Y, app (L ^ (2 + k)) K B x X -> app (L ^ (2 + k)) K B y Y -> Rabs (fadd x y - (X + Y)) <= (2 * K + 2 * B + 2) * Wk).
      { intros x0 X0 y0 Y0 H1 H2. destruct (add_app L sized (2 + k) K B K B x0 X0 y0 Y0 (gd_degree _ _ _ _ _ _ G) H1 H2 ltac:(sane)) as [E _].
        apply Rle_trans with (1 := E). apply Rmult_le_compat_r; lra. }
      unfold bounded, vsub, vadd_double, vadd. cbn [vx vy vz]. repeat split; apply P; auto.
  Qed.
  Lemma face_ints_size : bounded (c * (face_area vs f * L ^ k)) (sel (ints_of vs f)).
  Proof.
    pose proof (point_bounded L sized vs vs_bounded) as PB. unfold ints_of. rewrite is_triangle_dec. unfold face_area.
    set (a := point vs (f0 f)). set (b := point vs (f1 f)). set (d := point vs (f2 f)). set (e := point vs (f3 f)).
    pose proof (gd_size _ _ _ _ _ _ G a b d (PB _) (PB _) (PB _)) as M1. pose proof (gd_size _ _ _ _ _ _ G a d e (PB _) (PB _) (PB _)) as M2.
    destruct (Nat.eq_dec (f0 f) (f3 f)).
    - exact M1.
    - unfold quad_face_integrals. rewrite (gd_add _ _ _ _ _ _ G). cbn [p0 p1 p2 p3 cor]. fold a b d e. unfold bounded, vadd. cbn [vx vy vz].
      destruct M1 as (X & Y & Z), M2 as (X' & Y' & Z'). unfold triangle_area, triangle_normal in *.
      repeat split; (apply Rle_trans with (1 := Rabs_triang _ _); lra).
  Qed.

  Hypothesis face_wide : wide L vs f.
  Hypothesis plain : K = 208 /\ B = 8 /\ c = 1.
  Lemma term_near_k : forall n N s T D, Rabs (n - N) <= 400 * (W / D) -> Rabs N <= 1 -> Rabs (s - T) <= 434 * Wk -> Rabs T <= D * L ^ k ->
    1000 * W <= D -> Rabs (n * s - N * T) <= 1020 * Wk.
  Proof.
    intros n N s T D EN N1 ES ET WD. pose proof (W_pos L sized) as W0. pose proof Wk_pos as W30. pose proof (L_pos L sized) as L0.
    assert (D0 : 0 < D) by lra.
    assert (Q0 : 0 <= W / D) by (apply Rle_mult_inv_pos; lra).
    assert (Q1 : W / D <= / 1000) by (apply Rmult_le_reg_r with D; auto; unfold Rdiv; rewrite Rmult_assoc, Rinv_l; lra).
    replace (n * s - N * T) with ((n - N) * T + (N * (s - T) + (n - N) * (s - T))) by ring.
    apply Rle_trans with (1 := Rabs_triang _ _). pose proof (Rabs_triang (N * (s - T)) ((n - N) * (s - T))) as TR.
    rewrite !Rabs_mult in *.
    assert (E1 : Rabs (n - N) * Rabs T <= 400 * Wk).
    { replace (400 * Wk) with (400 * (W / D) * (D * L ^ k)) by (rewrite pow_add; field; lra). apply Rmult_le_compat; auto using Rabs_pos. }
    assert (E2 : Rabs N * Rabs (s - T) <= 1 * (434 * Wk)) by (apply Rmult_le_compat; auto using Rabs_pos).
    assert (E3 : Rabs (n - N) * Rabs (s - T) <= 4 / 10 * (434 * Wk)) by (apply Rmult_le_compat; auto using Rabs_pos; lra).
    lra.
  Qed.
  Lemma face_flux_near : forall p, coordinate p ->
    Rabs (p (fp_normal (props_double_of fsum' vs f)) * p (sel (ints_double_of fsum vs f)) - p (fp_normal (props_of vs f)) * p (sel (ints_of vs f))) <= 1020 * Wk /\
    Rabs (p (fp_normal (props_of vs f)) * p (sel (ints_of vs f))) <= face_area vs f * L ^ k.
  Proof.
    intros p P. destruct face_wide as [WA AN]. pose proof (L_pos L sized) as L0. pose proof (W_pos L sized) as W0. destruct plain as (EK & EB & EC).
    assert (NW : 1000 * W <= norm (across vs f)) by lra.
    pose proof face_ints_near as FN. pose proof face_ints_size as FS. rewrite EK, EB in FN. rewrite EC, Rmult_1_l in FS.
    replace (2 * 208 + 2 * 8 + 2) with 434 in FN by lra.
    pose proof (face_normal_near L sized fsum' vs f sum_ok' vs_bounded NW) as NN.
    assert (U := unit_coords (across vs f) ltac:(lra)). rewrite <- props_normal in U. destruct U as (_ & UX & UY & UZ).
    assert (LK : 0 <= L ^ k) by (apply pow_le; lra).
    assert (AL : face_area vs f * L ^ k <= norm (across vs f) * L ^ k) by (apply Rmult_le_compat_r; lra).
    assert (Z : Rabs (p (fp_normal (props_double_of fsum' vs f)) - p (fp_normal (props_of vs f))) <= 400 * (W / norm (across vs f)) /\ Rabs (p (fp_normal (props_of vs f))) <= 1 /\
      Rabs (p (sel (ints_double_of fsum vs f)) - p (sel (ints_of vs f))) <= 434 * Wk /\ Rabs (p (sel (ints_of vs f))) <= face_area vs f * L ^ k).
    { destruct NN as (NX & NY & NZ), FN as (MX & MY & MZ), FS as (SX & SY & SZ). cbn [vx vy vz vsub] in *. destruct P as [-> | [-> | ->]]; auto. }
    destruct Z as (Z1 & Z2 & Z3 & Z4). split.
    - apply (term_near_k _ _ _ _ (norm (across vs f))); auto. lra.
    - rewrite Rabs_mult. replace (face_area vs f * L ^ k) with (1 * (face_area vs f * L ^ k)) by ring. apply Rmult_le_compat; auto using Rabs_pos.
  Qed.
End Face.

Section Mesh.
  Variables (L : R) (m : mesh).
  Hypothesis sized : extent L m.
  Hypothesis m_valid : valid m.
  Hypothesis some : faces m <> [].
  Hypothesis few : INR (length (faces m)) <= 100000000000000.
  Notation n := (INR (length (faces m))).
  Notation A := (surface_area m).
  Let S := proj1 sized.
  Let BV := proj2 sized.
  (** A sum over the faces *)
  Lemma mesh_sum : forall ftotal (g : nat * face -> R) (h : face -> R) (Q E c q : R), adds ftotal -> smallest <= Q -> 0 <= E -> 0 <= c ->
    (forall j f, In f (faces m) -> Rabs (g (j, f) - h f) <= E * (u * Q)) -> (forall f, In f (faces m) -> Rabs (h f) <= c * (face_area (verts m) f * q)) ->
    Rabs (ftotal (map g (numbered (faces m))) - Rsum (map h (faces m))) <= n * (u * (2 * c * (A * q) + (3 / 2 * E + 3 / 2) * Q)) /\ Rabs (Rsum (map h (faces m))) <= c * (A * q).
  Proof.
    intros ftotal g h Q E c q AT HQ E0 C0 ER SZ. set (l := map g (numbered (faces m))). set (l' := map (fun jf => h (snd jf)) (numbered (faces m))).
    pose proof (n_one m some) as N1. pose proof ulp1_pos as U0. pose proof (tiny_uQ Q HQ) as T1. pose proof tiny_pos as T0. pose proof (uQ_pos Q HQ) as UQ.
    assert (F2 : Forall2 (fun x X => Rabs (x - X) <= E * (u * Q)) l l').
    { unfold l, l'. assert (I : forall jf, In jf (numbered (faces m)) -> In (snd jf) (faces m)) by (intros [j f]; apply numbered_in).
      revert I. generalize (numbered (faces m)). intros t I. induction t as [|[j f] t IH]; cbn [map]; constructor; auto.
      - apply (ER j f). apply (I (j, f)). left. reflexivity.
      - apply IH. intros jf J. apply I. right. exact J. }
    assert (LI : INR (length l) = n) by (unfold l; rewrite map_length, numbered_length; auto).
    assert (LE : l <> []). { intros Z. rewrite Z in LI. cbn in LI. lra. }
    assert (SM : 4 * INR (length l) * u <= 1).
    { rewrite LI. apply Rle_trans with (4 * 100000000000000 * / 9000000000000000); [|lra]. apply Rmult_le_compat; try lra. apply ulp1_le_9. }
    pose proof (long_sum l l' (ftotal l) _ (AT l LE) F2 SM) as LS. rewrite LI in LS.
    assert (L'E : l' = map h (faces m)).
    { unfold l'. rewrite <- (numbered_snd _ (faces m)) at 2. rewrite map_map. reflexivity. }
    assert (TT : total l' = Rsum (map h (faces m))).
    { rewrite L'E. generalize (map h (faces m)). induction l0 as [|x t IH]; cbn; [reflexivity|]. unfold Rsum in IH. rewrite IH. reflexivity. }
    assert (TA : total_abs l' <= c * (A * q)).
    { rewrite L'E. unfold surface_area. revert SZ. clear. induction (faces m) as [|f t IH]; intros SZ; cbn; [lra|].
      pose proof (SZ f (or_introl eq_refl)). assert (total_abs (map h t) <= c * (Rsum (map (face_area (verts m)) t) * q)) by (apply IH; intros; apply SZ; right; auto). unfold Rsum in *. lra. }
    rewrite <- TT. split; [|apply Rle_trans with (2 := TA), total_le].
    apply Rle_trans with (1 := LS). apply Rmult_le_compat_l; [lra|].
    assert (u * total_abs l' <= u * (c * (A * q))) by (apply Rmult_le_compat_l; lra). lra.
  Qed.
  (** Normals times integrals *)
  Lemma flux_near : forall sel k fsum fsum' ftotal p, graded L sel k 208 8 1 -> (forall j, adds (fsum j)) -> (forall j, adds (fsum' j)) -> adds ftotal -> coordinate p ->
    Forall (wide L (verts m)) (faces m) ->
    let x := ftotal (map (fun ip => p (fp_normal (snd ip)) * p (sel (fst ip))) (combine (map (fun jf => ints_double_of (fsum (fst jf)) (verts m) (snd jf)) (numbered (faces m)))
      (map (fun jf => props_double_of (fsum' (fst jf)) (verts m) (snd jf)) (numbered (faces m))))) in
    let X := Rsum (map (fun f => p (fp_normal (props_of (verts m) f)) * p (sel (ints_of (verts m) f))) (faces m)) in
    Rabs (x - X) <= n * (u * (2 * (A * L ^ k) + 1532 * L ^ (2 + k))) /\ Rabs X <= A * L ^ k.
  Proof.
    intros sel k fsum fsum' ftotal p G A1 A2 AT P WD x X. subst x. rewrite combine_map, map_map. cbn [fst snd].
    pose proof (uQ_pos _ (pow_large L S (2 + k) (gd_degree _ _ _ _ _ _ G))) as UQ. pose proof (n_one m some) as N1. rewrite Forall_forall in WD.
    assert (Z : Rabs (ftotal (map (fun jf => p (fp_normal (props_double_of (fsum' (fst jf)) (verts m) (snd jf))) * p (sel (ints_double_of (fsum (fst jf)) (verts m) (snd jf)))) (numbered (faces m))) - X)
      <= n * (u * (2 * 1 * (A * L ^ k) + (3 / 2 * 1020 + 3 / 2) * L ^ (2 + k))) /\ Rabs X <= 1 * (A * L ^ k)).
    { apply (mesh_sum ftotal _ (fun f => p (fp_normal (props_of (verts m) f)) * p (sel (ints_of (verts m) f))) (L ^ (2 + k)) 1020 1 (L ^ k)); auto; try lra.
      - apply pow_large; auto. apply (gd_degree _ _ _ _ _ _ G).
      - intros j f I. cbn [fst snd]. apply (face_flux_near L S sel k 208 8 1 G (fsum j) (fsum' j) (verts m) f); auto.
      - intros f I. rewrite Rmult_1_l. apply (face_flux_near L S sel k 208 8 1 G (fsum 0%nat) (fsum' 0%nat) (verts m) f); auto. }
    destruct Z as [Z1 Z2]. split; [|lra]. apply Rle_trans with (1 := Z1). apply Rmult_le_compat_l; [lra|]. lra.
  Qed.
  (** Integrals alone *)
  Lemma plain_sum_near : forall sel k K B c fsum ftotal p, graded L sel k K B c -> (forall j, adds (fsum j)) -> adds ftotal -> coordinate p ->
    let x := ftotal (map p (map sel (map (fun jf => ints_double_of (fsum (fst jf)) (verts m) (snd jf)) (numbered (faces m))))) in
    let X := Rsum (map (fun f => p (sel (ints_of (verts m) f))) (faces m)) in
    Rabs (x - X) <= n * (u * (2 * c * (A * L ^ k) + (3 * K + 3 * B + 5) * L ^ (2 + k))) /\ Rabs X <= c * (A * L ^ k).
  Proof.
    intros sel k K B c fsum ftotal p G A1 AT P x X. subst x. rewrite !map_map. cbn [fst snd].
    pose proof (uQ_pos _ (pow_large L S (2 + k) (gd_degree _ _ _ _ _ _ G))) as UQ. pose proof (n_one m some) as N1. pose proof (gd_err _ _ _ _ _ _ G). pose proof (gd_big _ _ _ _ _ _ G). pose proof (gd_pos _ _ _ _ _ _ G).
    assert (Z : Rabs (ftotal (map (fun jf => p (sel (ints_double_of (fsum (fst jf)) (verts m) (snd jf)))) (numbered (faces m))) - X)
      <= n * (u * (2 * c * (A * L ^ k) + (3 / 2 * (2 * K + 2 * B + 2) + 3 / 2) * L ^ (2 + k))) /\ Rabs X <= c * (A * L ^ k)).
    { apply (mesh_sum ftotal _ (fun f => p (sel (ints_of (verts m) f))) (L ^ (2 + k)) (2 * K + 2 * B + 2) c (L ^ k)); auto; try lra.
      - apply pow_large; auto. apply (gd_degree _ _ _ _ _ _ G).
      - intros j f I. cbn [fst snd]. destruct (face_ints_near L S sel k K B c G (fsum j) (verts m) f (A1 j) BV) as (E1 & E2 & E3). cbn [vx vy vz vsub] in *. destruct P as [-> | [-> | ->]]; auto.
      - intros f I. destruct (face_ints_size L S sel k K B c G (verts m) f BV) as (E1 & E2 & E3). destruct P as [-> | [-> | ->]]; auto. }
    destruct Z as [Z1 Z2]. split; [|lra]. apply Rle_trans with (1 := Z1). apply Rmult_le_compat_l; [lra|]. apply Rmult_le_compat_l; [pose proof ulp1_pos; lra|].
    assert (0 < L ^ (2 + k)) by (apply pow_lt, (L_pos L S)). nra.
  Qed.
  (** The size of the volume *)
  Lemma volume_size : forall V, volume m = Ok V -> Forall (wide L (verts m)) (faces m) -> Rabs V <= 2 / 3 * (L * A).
  Proof.
    intros V E WD. rewrite volume_ok in E by auto. injection E as <-. rewrite Forall_forall in WD.
    assert (Z : Rabs (Rsum (map (fun f => dot (fp_normal (props_of (verts m) f)) (i0 (ints_of (verts m) f))) (faces m))) <= 2 * (L * A)).
    { unfold surface_area. revert WD. generalize (faces m). intros l WD. induction l as [|f t IH]; cbn; [rewrite Rabs_R0; lra|].
      apply Rle_trans with (1 := Rabs_triang _ _).
      assert (H1 : Rabs (Rsum (map (fun f => dot (fp_normal (props_of (verts m) f)) (i0 (ints_of (verts m) f))) t)) <= 2 * (L * Rsum (map (face_area (verts m)) t))) by (apply IH; intros; apply WD; right; auto).
      pose proof (products_size L S (verts m) f BV (WD f (or_introl eq_refl))) as H2.
      pose proof (total_le (products (fp_normal (props_of (verts m) f)) (i0 (ints_of (verts m) f)))) as H3. cbn [products total] in H3.
      assert (H4 : Rabs (dot (fp_normal (props_of (verts m) f)) (i0 (ints_of (verts m) f))) <= 2 * (face_area (verts m) f * L)).
      { apply Rle_trans with (2 := H2). apply Rle_trans with (2 := H3). right. f_equal. unfold dot. ring. }
      unfold Rsum in *. lra. }
    unfold Rdiv. rewrite Rabs_mult, (Rabs_pos_eq (/ 3)) by lra. lra.
  Qed.
End Mesh.
