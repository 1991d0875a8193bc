(** Proofs about small displacements of the vertices of a mesh: changes of the sums that give its center. *)
From Coq Require Import Reals Lra Lia List Arith Bool Psatz ZArith.
From Flocq Require Import Core.
From Verif Require Import M_base M_merge M_plane M_mesh M_geometry S_mesh S_geometry P_base P_mesh P_geometry S_double M_dgeom P_dgeom S_dgeom P_dgeom4 P_dgeom5 S_dclip P_dvol.
Import ListNotations.
Open Scope R_scope.

(** The term of a triangle *)
Definition six (x y z : R) : R := x * x + y * y + z * z + x * y + y * z + x * z.
Definition second (p : vec -> R) (a b c : vec) : R := p (triangle_normal a b c) * six (p a) (p b) (p c) / 12.
Lemma six_i6 : forall p a b c, coordinate p -> p (i6 (triangle_integrals a b c)) = norm (triangle_normal a b c) * six (p a) (p b) (p c) / 12.
Proof.
  intros p [ax ay az] [bx by0 bz] [cx cy cz] P. unfold triangle_integrals, triangle_normal. set (n := norm _). clearbody n.
  destruct P as [-> | [-> | ->]]; unfold six; cbn; field.
Qed.
Lemma coord_bounded : forall p e v, coordinate p -> bounded e v -> Rabs (p v) <= e.
Proof. intros p e v [-> | [-> | ->]] (A & B & C); auto. Qed.
Lemma coord_sub : forall p a b, coordinate p -> p (vsub a b) = p a - p b.
Proof. intros p a b [-> | [-> | ->]]; reflexivity. Qed.
Lemma coord_scale : forall p k a, coordinate p -> p (vscale k a) = k * p a.
Proof. intros p k a [-> | [-> | ->]]; reflexivity. Qed.
Lemma coord_norm : forall p v, coordinate p -> Rabs (p v) <= norm v.
Proof.
  intros p v P. unfold norm. rewrite <- sqrt_Rsqr_abs. apply sqrt_le_1_alt. unfold Rsqr.
  pose proof (Rle_0_sqr (vx v)). pose proof (Rle_0_sqr (vy v)). pose proof (Rle_0_sqr (vz v)). unfold Rsqr in *. unfold dot.
  destruct P as [-> | [-> | ->]]; lra.
Qed.
Lemma six_bound : forall H x y z, Rabs x <= H -> Rabs y <= H -> Rabs z <= H -> Rabs (six x y z) <= 6 * (H * H).
Proof.
  intros H x y z X Y Z.
  assert (K : forall a b, Rabs a <= H -> Rabs b <= H -> - (H * H) <= a * b <= H * H).
  { intros a b A B. assert (Rabs (a * b) <= H * H) by (rewrite Rabs_mult; apply Rmult_le_compat; auto using Rabs_pos). apply Rabs_le_inv. auto. }
  pose proof (K x x X X). pose proof (K y y Y Y). pose proof (K z z Z Z). pose proof (K x y X Y). pose proof (K y z Y Z). pose proof (K x z X Z).
  apply Rabs_le. unfold six. lra.
Qed.

Section Moved.
  Variables (L d : R).
  Hypothesis d0 : 0 <= d.
  Hypothesis dL : 1000 * d <= L.
  Let L0 : 0 <= L. Proof. lra. Qed.
  Let Ld0 : 0 <= L * d. Proof. apply Rmult_le_pos; auto. Qed.
  Let dd : d * d <= / 1000 * (L * d). Proof. assert (1000 * d * d <= L * d) by (apply Rmult_le_compat_r; auto). lra. Qed.

  Lemma six_moved : forall x y z x' y' z', Rabs x <= L -> Rabs y <= L -> Rabs z <= L -> Rabs (x' - x) <= d -> Rabs (y' - y) <= d -> Rabs (z' - z) <= d ->
    Rabs (six x' y' z' - six x y z) <= 1201 / 100 * (L * d).
  Proof.
    intros x y z x' y' z' X Y Z X' Y' Z'.
    assert (K : forall a b a' b', Rabs a <= L -> Rabs b <= L -> Rabs (a' - a) <= d -> Rabs (b' - b) <= d -> - (2001 / 1000 * (L * d)) <= a' * b' - a * b <= 2001 / 1000 * (L * d)).
    { intros a b a' b' A B A' B'. pose proof (product_moved a b a' b' L L d d A B A' B') as H. apply Rabs_le_inv. lra. }
    pose proof (K x x x' x' X X X' X'). pose proof (K y y y' y' Y Y Y' Y'). pose proof (K z z z' z' Z Z Z' Z').
    pose proof (K x y x' y' X Y X' Y'). pose proof (K y z y' z' Y Z Y' Z'). pose proof (K x z x' z' X Z X' Z').
    apply Rabs_le. unfold six. lra.
  Qed.
  Lemma normal_bounded : forall a b c, bounded L a -> bounded L b -> bounded L c -> bounded (8 * (L * L)) (triangle_normal a b c).
  Proof.
    intros a b c (A1 & A2 & A3) (B1 & B2 & B3) (C1 & C2 & C3).
    assert (S : forall x y, Rabs x <= L -> Rabs y <= L -> Rabs (x - y) <= 2 * L) by (intros x y; unfold Rabs; repeat destruct Rcase_abs; lra).
    assert (K : forall p q r s, Rabs p <= 2 * L -> Rabs q <= 2 * L -> Rabs r <= 2 * L -> Rabs s <= 2 * L -> Rabs (p * q - r * s) <= 8 * (L * L)).
    { intros p q r s H1 H2 H3 H4. unfold Rminus. eapply Rle_trans; [apply Rabs_triang|]. rewrite Rabs_Ropp, !Rabs_mult.
      assert (Rabs p * Rabs q <= 2 * L * (2 * L)) by (apply Rmult_le_compat; auto using Rabs_pos).
      assert (Rabs r * Rabs s <= 2 * L * (2 * L)) by (apply Rmult_le_compat; auto using Rabs_pos). lra. }
    unfold bounded, triangle_normal, cross, vsub. cbn [vx vy vz]. split; [|split]; apply K; auto.
  Qed.
  Lemma moved_coord : forall p a a', coordinate p -> moved L d a a' -> Rabs (p a) <= L /\ Rabs (p a' - p a) <= d.
  Proof. intros p a a' [-> | [-> | ->]] [(A & B & C) (D & E & F)]; auto. Qed.
  Lemma second_moved : forall p a b c a' b' c', coordinate p -> moved L d a a' -> moved L d b b' -> moved L d c c' ->
    Rabs (second p a' b' c' - second p a b c) <= 17 * (L * (L * L) * d).
  Proof.
    intros p a b c a' b' c' P A B C.
    destruct (normal_moved L d d0 dL a b c a' b' c' A B C) as [N _]. apply (coord_bounded p) in N; auto. rewrite coord_sub in N by auto.
    pose proof (coord_bounded p _ _ P (normal_bounded a b c (proj1 A) (proj1 B) (proj1 C))) as NB.
    destruct (moved_coord p a a' P A) as [A1 A2], (moved_coord p b b' P B) as [B1 B2], (moved_coord p c c' P C) as [C1 C2].
    pose proof (six_moved _ _ _ _ _ _ A1 B1 C1 A2 B2 C2) as S. pose proof (six_bound L _ _ _ A1 B1 C1) as SB.
    pose proof (product_moved _ _ _ _ _ _ _ _ NB SB N S) as K. unfold second.
    replace (p (triangle_normal a' b' c') * six (p a') (p b') (p c') / 12 - p (triangle_normal a b c) * six (p a) (p b) (p c) / 12)
      with ((p (triangle_normal a' b' c') * six (p a') (p b') (p c') - p (triangle_normal a b c) * six (p a) (p b) (p c)) * / 12) by field.
    rewrite Rabs_mult, (Rabs_right (/ 12)) by lra.
    assert (LL : 0 <= L * L) by (apply Rmult_le_pos; auto).
    assert (Q : L * L * (d * d) <= L * L * (/ 1000 * (L * d))) by (apply Rmult_le_compat_l; auto). assert (Q0 : 0 <= L * (L * L) * d) by (repeat apply Rmult_le_pos; auto).
    lra.
  Qed.
End Moved.

Section Faces.
  Variables (L d : R) (r : nat -> nat) (m m' : mesh).
  Hypothesis d0 : 0 <= d.
  Hypothesis dL : 1000 * d <= L.
  Hypothesis al : alike d r m m'.
  Hypothesis sized : Forall (bounded L) (verts m).
  Hypothesis ok : valid m.
  Let L0 : 0 <= L. Proof. lra. Qed.
  Let Ld0 : 0 <= L * d. Proof. apply Rmult_le_pos; auto. Qed.
  Let LLLd : 0 <= L * (L * L) * d. Proof. repeat apply Rmult_le_pos; auto. Qed.
  Variable p : vec -> R.
  Hypothesis P : coordinate p.

  Definition under2 (vs : list vec) (f : face) : R :=
    let a := point vs (f0 f) in let b := point vs (f1 f) in let c := point vs (f2 f) in let e := point vs (f3 f) in
    if Nat.eq_dec (f0 f) (f3 f) then second p a b c else second p a b c + second p a c e.
  Lemma flux_term_moved : forall f, In f (faces m) -> flat_face (verts m) f -> 100 * (L * d) <= face_area (verts m) f ->
    Rabs (p (fp_normal (props_of (verts m') (map_face r f))) * p (i6 (ints_of (verts m') (map_face r f))) - under2 (verts m) f) <= 380 * (L * (L * L) * d).
  Proof.
    intros f If F W.
    pose proof (point_moved L d r m m' al sized (f0 f) (proj1 (valid_in m f ok If))) as A.
    pose proof (point_moved L d r m m' al sized (f1 f) (proj1 (proj2 (valid_in m f ok If)))) as B.
    pose proof (point_moved L d r m m' al sized (f2 f) (proj1 (proj2 (proj2 (valid_in m f ok If))))) as C.
    pose proof (point_moved L d r m m' al sized (f3 f) (proj2 (proj2 (proj2 (valid_in m f ok If))))) as D.
    pose proof (across_size L d r m m' d0 dL al sized ok f If F) as AS. rewrite props_normal. unfold ints_of. rewrite is_triangle_dec, (same_shape d r m m' al).
    assert (AP : 0 < face_area (verts m) f).
    { assert (0 < norm (across (verts m) f)); [|rewrite norm_across in H by auto; lra].
      unfold across, flat_face in *. destruct (Nat.eq_dec (f0 f) (f3 f)).
      - apply P_base.norm_pos. auto.
      - rewrite normal_sum. destruct F as (w & k & l & U & K & K' & KL & -> & ->).
        replace (vadd (vscale k w) (vscale l w)) with (vscale (k + l) w) by vring. rewrite cross_norm_split by (auto; lra). auto. }
    assert (NP : 68 * (L * d) <= norm (across (verts m') (map_face r f)) /\ 0 < norm (across (verts m') (map_face r f))) by (split; lra).
    clear AS AP W. destruct NP as [NP NP0]. revert NP NP0.
    unfold across, under2, tri_face_integrals, quad_face_integrals, cor, flat_face in *. rewrite !(same_shape d r m m' al). unfold map_face. cbn [f0 f1 f2 f3 p0 p1 p2 p3].
    pose proof (second_moved L d d0 dL p _ _ _ _ _ _ P A B C) as H1. pose proof (second_moved L d d0 dL p _ _ _ _ _ _ P A C D) as H2.
    pose proof (normal_moved L d d0 dL _ _ _ _ _ _ A B C) as [_ N1]. pose proof (normal_moved L d d0 dL _ _ _ _ _ _ A C D) as [_ N2].
    pose proof (coord_bounded p _ _ P (moved_bounded L d d0 dL _ _ A)) as BA. pose proof (coord_bounded p _ _ P (moved_bounded L d d0 dL _ _ B)) as BB.
    pose proof (coord_bounded p _ _ P (moved_bounded L d d0 dL _ _ C)) as BC. pose proof (coord_bounded p _ _ P (moved_bounded L d d0 dL _ _ D)) as BD.
    set (a := point (verts m) (f0 f)) in *. set (b := point (verts m) (f1 f)) in *. set (c := point (verts m) (f2 f)) in *. set (e := point (verts m) (f3 f)) in *.
    set (a' := point (verts m') (r (f0 f))) in *. set (b' := point (verts m') (r (f1 f))) in *. set (c' := point (verts m') (r (f2 f))) in *. set (e' := point (verts m') (r (f3 f))) in *.
    clear A B C D. clearbody a b c e a' b' c' e'.
    destruct (Nat.eq_dec (f0 f) (f3 f)) as [T|T]; intros NP NP0.
    - apply Rle_trans with (17 * (L * (L * L) * d)); [|lra]. eapply Rle_trans; [|exact H1]. apply Req_le. f_equal. f_equal.
      rewrite six_i6 by auto. unfold second. rewrite vdiv_scale, coord_scale by auto. field. lra.
    - destruct F as (w & k & l & U & K & K' & KL & E1 & E2). rewrite E1 in N1. rewrite E2 in N2.
      rewrite normal_sum in *.
      assert (AI : p (i6 (add_integrals (triangle_integrals a' b' c') (triangle_integrals a' c' e'))) = p (i6 (triangle_integrals a' b' c')) + p (i6 (triangle_integrals a' c' e')))
        by (destruct P as [-> | [-> | ->]]; reflexivity).
      rewrite AI, !six_i6 by auto. clear AI.
      set (X := triangle_normal a' b' c') in *. set (Y := triangle_normal a' c' e') in *. set (n := vdiv (vadd X Y) (norm (vadd X Y))).
      assert (DX : norm (vsub (vscale (norm X) n) X) <= 340 * (L * d)).
      { eapply Rle_trans; [apply (direction_near w k l X Y (34 * (L * d))); auto; lra|lra]. }
      assert (DY : norm (vsub (vscale (norm Y) n) Y) <= 340 * (L * d)).
      { assert (C' : vadd X Y = vadd Y X) by vring. unfold n. rewrite C' in *.
        eapply Rle_trans; [apply (direction_near w l k Y X (34 * (L * d))); auto; lra|lra]. }
      pose proof (Rle_trans _ _ _ (coord_norm p _ P) DX) as PX. pose proof (Rle_trans _ _ _ (coord_norm p _ P) DY) as PY.
      rewrite coord_sub, coord_scale in PX, PY by auto.
      pose proof (six_bound (L + d) _ _ _ BA BB BC) as S1. pose proof (six_bound (L + d) _ _ _ BA BC BD) as S2.
      set (s1 := six (p a') (p b') (p c')) in *. set (s2 := six (p a') (p c') (p e')) in *.
      assert (Q : (L + d) * (L + d) <= 1003 / 1000 * (L * L)).
      { assert ((L + d) * (L + d) <= (1001 / 1000 * L) * (1001 / 1000 * L)) by (apply Rmult_le_compat; lra). assert (0 <= L * L) by (apply Rmult_le_pos; auto). lra. }
      assert (PR : forall x s, Rabs x <= 340 * (L * d) -> Rabs s <= 6 * ((L + d) * (L + d)) -> Rabs (x * s) <= 2047 * (L * (L * L) * d)).
      { intros x s HX HS. rewrite Rabs_mult. apply Rle_trans with (340 * (L * d) * (6 * (1003 / 1000 * (L * L)))); [|lra].
        apply Rmult_le_compat; auto using Rabs_pos. lra. }
      pose proof (PR _ _ PX S1) as P1. pose proof (PR _ _ PY S2) as P2.
      replace (p n * (norm X * s1 / 12 + norm Y * s2 / 12) - (second p a b c + second p a c e))
        with ((norm X * p n - p X) * s1 / 12 + (norm Y * p n - p Y) * s2 / 12 + ((second p a' b' c' - second p a b c) + (second p a' c' e' - second p a c e))).
      2: { unfold second at 1 3. fold X Y s1 s2. field. }
      eapply Rle_trans; [apply Rabs_triang|]. pose proof (Rabs_triang (second p a' b' c' - second p a b c) (second p a' c' e' - second p a c e)).
      eapply Rle_trans; [apply Rplus_le_compat; [apply Rabs_triang|apply Rle_refl]|]. unfold Rdiv.
      rewrite (Rabs_mult (_ * s1)), (Rabs_mult (_ * s2)), (Rabs_right (/ 12)) by lra. lra.
  Qed.
End Faces.

Lemma alike_refl : forall m, alike 0 (fun i => i) m m.
Proof.
  intros m. constructor; auto.
  - rewrite <- (map_id (faces m)) at 1. apply map_ext. intros []. reflexivity.
  - intros i v E. exists v. split; auto. unfold near_point. unfold Rminus. rewrite !Rplus_opp_r, Rabs_R0. lra.
Qed.

(** The sums of the code over the two meshes *)
Definition flux_sum (p : vec -> R) (m : mesh) : R := Rsum (map (fun f => p (fp_normal (props_of (verts m) f)) * p (i6 (ints_of (verts m) f))) (faces m)).
Lemma flux_sum_under : forall L p m, 0 <= L -> coordinate p -> valid m -> flat_mesh m -> Forall (bounded L) (verts m) -> flux_sum p m = Rsum (map (under2 p (verts m)) (faces m)).
Proof.
  intros L p m L0 P V F B. unfold flux_sum. apply Rsum_map_ext_in || (f_equal; apply map_ext_in). intros f If.
  unfold flat_mesh in F. rewrite Forall_forall in F.
  assert (FA : 0 <= face_area (verts m) f).
  { unfold face_area, triangle_area. pose proof (P_dgeom.norm_pos (triangle_normal (point (verts m) (f0 f)) (point (verts m) (f1 f)) (point (verts m) (f2 f)))).
    pose proof (P_dgeom.norm_pos (triangle_normal (point (verts m) (f0 f)) (point (verts m) (f2 f)) (point (verts m) (f3 f)))). destruct (Nat.eq_dec _ _); lra. }
  pose proof (flux_term_moved L 0 (fun i => i) m m ltac:(lra) ltac:(lra) (alike_refl m) B V p P f If (F f If) ltac:(lra)) as H.
  assert (E : map_face (fun i => i) f = f) by (destruct f; reflexivity). rewrite E in H.
  rewrite !Rmult_0_r in H. pose proof (Rabs_pos (p (fp_normal (props_of (verts m) f)) * p (i6 (ints_of (verts m) f)) - under2 p (verts m) f)) as H0.
  apply Rminus_diag_uniq. destruct (Req_dec (p (fp_normal (props_of (verts m) f)) * p (i6 (ints_of (verts m) f)) - under2 p (verts m) f) 0) as [Z|Z]; auto.
  apply Rabs_pos_lt in Z. lra.
Qed.
Lemma flux_sum_moved : forall L d r p m m', 0 <= d -> 1000 * d <= L -> alike d r m m' -> Forall (bounded L) (verts m) -> valid m -> coordinate p -> flat_mesh m ->
  Forall (fun f => 100 * (L * d) <= face_area (verts m) f) (faces m) ->
  Rabs (flux_sum p m' - flux_sum p m) <= INR (length (faces m)) * (380 * (L * (L * L) * d)).
Proof.
  intros L d r p m m' d0 dL AL B V P F W. rewrite (flux_sum_under L p m); auto; [|lra]. unfold flux_sum. rewrite (al_faces _ _ _ _ AL).
  unfold flat_mesh in F. rewrite Forall_forall in F, W.
  apply (sum_moved r (fun f => p (fp_normal (props_of (verts m') f)) * p (i6 (ints_of (verts m') f))) (under2 p (verts m))). intros f If.
  apply (flux_term_moved L d r m m'); auto.
Qed.
