(** Sums over the immersed surface as sums over the borders of the immersed parts of the faces. *)
From Coq Require Import Reals List Arith Bool Lia Lra Psatz Permutation.
From Verif Require Import M_base P_base S_merge M_merge P_merge M_mesh S_mesh P_mesh S_integral P_integral S_geometry M_geometry P_geometry P_volume P_quantities
  S_connectivity M_plane M_inertia M_clipper S_clipper P_hull P_cut P_clipper P_crown P_parts P_clipped P_clip_mesh P_curves P_waterline P_sharp.
Import ListNotations.
Open Scope R_scope.

Definition piece_sum (g : vec -> vec -> vec -> R) (o : list vec) : R :=
  match o with [a; b; c; d] => g a b c + g a c d | _ => 0 end.
Lemma surface_pieces : forall g vs outs fs, Forall2 (fun o f => corners vs f o) outs fs ->
  (forall a b c d, In [a; b; c; d] outs -> g a c a = 0) ->
  surface_sum g vs fs = Rsum (map (piece_sum g) outs).
Proof.
  intros g vs outs fs F. induction F as [|o f outs fs (a & b & c & d & -> & A & B & C & D) F IH]; intros Z; auto.
  assert (P : forall i x, nth_error vs i = Some x -> point vs i = x) by (intros; apply nth_error_nth; auto).
  unfold surface_sum in *. unfold mesh_triangles in *. cbn [flat_map map]. rewrite map_app, Rsum_app, IH by (intros; eapply Z; simpl; eauto).
  unfold Rsum at 3. cbn [fold_right]. fold (Rsum (map (piece_sum g) outs)). f_equal. cbn [piece_sum].
  unfold face_triangles. destruct (Nat.eq_dec (f0 f) (f3 f)) as [E|E].
  - assert (d = a) by (rewrite <- E in D; congruence). subst d. rewrite (Z a b c a) by (simpl; auto).
    cbn. rewrite (P _ _ A), (P _ _ B), (P _ _ C). ring.
  - cbn. rewrite (P _ _ A), (P _ _ B), (P _ _ C), (P _ _ D). ring.
Qed.
Lemma hull_in : forall ps x, In x ps -> hull ps x.
Proof.
  intros ps x I. apply (hull_incl [x]); [intros y [<-|[]]; auto|]. exists [1]. cbn. repeat split; try lra; [constructor; [lra|constructor]|vring].
Qed.

Section Contour.
  Variables (p : plane) (tol : R).
  Hypothesis T0 : 0 <= tol.
  Variable argsort : list R -> list nat.
  Hypothesis SA : sorting argsort.
  Variables (closed : bool) (m : mesh) (k : clipper).
  Hypothesis V : valid m.
  Hypothesis S : settled p tol m.
  Hypothesis CV : Forall (fun f => convex_outline (outline (verts m) f)) (faces m).
  Hypothesis NP : Forall (fun f => ~ pinched p tol (outline (verts m) f)) (faces m).
  Hypothesis SP : spread clip_move (cut_point p tol m).
  Hypothesis CL : mesh_clipper argsort p tol closed m = Ok k.
  Variable g : vec -> vec -> vec -> R.
  Variable psi : face -> vec -> vec -> R.
  Hypothesis AN : forall f, In f (faces m) -> forall a b, psi f a b = - psi f b a.
  Hypothesis GR : forall f, In f (faces m) -> forall a b c, hull (outline (verts m) f) a -> hull (outline (verts m) f) b -> hull (outline (verts m) f) c ->
    (forall u, turns_along u (outline (verts m) f) -> along u (triangle_normal a b c)) -> g a b c = psi f a b + psi f b c + psi f c a.

  Definition contour (f : face) : R := run (psi f) (immersed_border p tol (outline (verts m) f)).
  Lemma contour_eq : forall f, In f (faces m) ->
    contour f = run (psi f) (flat_map (immersed_side p tol) (around (outline (verts m) f))) - run (psi f) (face_waterline p tol (outline (verts m) f)).
  Proof.
    intros f I. unfold contour, immersed_border. rewrite run_app. unfold Rminus. f_equal. generalize (face_waterline p tol (outline (verts m) f)). intros l.
    unfold run, Rsum. induction l as [|[a b] l IH]; cbn [map fold_right fst snd]; [ring|]. rewrite IH, (AN f I b a). ring.
  Qed.
  Lemma piece_run : forall f outs, In f (faces m) -> kept_part p tol (outline (verts m) f) outs ->
    Rsum (map (piece_sum g) outs) = run (psi f) (flat_map around outs) /\ forall a b c d, In [a; b; c; d] outs -> g a c a = 0.
  Proof.
    intros f outs I K.
    assert (H : forall a b c d x, In [a; b; c; d] outs -> In x [a; b; c; d] -> hull (outline (verts m) f) x).
    { intros a b c d x O X. eapply (kept_inside _ _ _ _ K); eauto using hull_in. }
    assert (OR : forall a b c d, In [a; b; c; d] outs -> (forall u, turns_along u (outline (verts m) f) -> along u (triangle_normal a b c)) /\
      (forall u, turns_along u (outline (verts m) f) -> along u (triangle_normal a c d))).
    { intros a b c d O. split; intros u T; destruct (kept_oriented _ _ _ _ K u a b c d T O); auto. }
    pose proof (kept_quads _ _ _ _ K) as Q. clear K. split.
    - induction outs as [|o outs IH]; auto. cbn [map flat_map]. rewrite run_app, <- IH; [|intros; eapply H; simpl; eauto|intros a b c d O; apply (OR a b c d); simpl; auto|intros; apply Q; simpl; auto].
      unfold Rsum at 1. cbn [fold_right]. fold (Rsum (map (piece_sum g) outs)). f_equal.
      assert (L : length o = 4%nat) by (apply Q; simpl; auto). destruct o as [|a [|b [|c [|d [|? ?]]]]]; try discriminate. rewrite around4. cbn [piece_sum].
      assert (HX : forall x, In x [a; b; c; d] -> hull (outline (verts m) f) x) by (intros; eapply H; simpl; eauto).
      destruct (OR a b c d (or_introl eq_refl)) as [O1 O2].
      rewrite (GR f I a b c), (GR f I a c d), (AN f I a c) by (auto; apply HX; simpl; tauto). ring.
    - intros a b c d O. rewrite (GR f I a c a); [|apply (H a b c d); auto; simpl; tauto|apply (H a b c d); auto; simpl; tauto|apply (H a b c d); auto; simpl; tauto|].
      + pose proof (AN f I a a). pose proof (AN f I a c). lra.
      + intros u _. exists 0. split; [lra|]. unfold triangle_normal. vring.
  Qed.
  Lemma ids_sum : forall h outs, Forall2 (left_of p tol m) (where_ h (faces m)) outs -> Forall2 (bordered p tol m) (where_ h (faces m)) outs ->
    Rsum (map (piece_sum g) (concat outs)) = Rsum (map contour (filter h (faces m))) /\ forall a b c d, In [a; b; c; d] (concat outs) -> g a c a = 0.
  Proof.
    intros h outs L B. pose proof (where_filter _ h (faces m)) as W. revert outs L B W.
    generalize (where_ h (faces m)) (filter h (faces m)). intros ids fs outs L. revert fs. induction L as [|id o ids outs (f & Hf & K) L IH]; intros fs B W.
    - inversion W; subst. split; [reflexivity|intros ? ? ? ? []].
    - inversion W as [|? f' ? fs' Hf' W']; subst. assert (f' = f) by congruence. subst f'. inversion B as [|? ? ? ? (f' & Hf'' & BO) B']; subst.
      assert (f' = f) by congruence. subst f'. destruct (piece_run f o (nth_error_In _ _ Hf) K) as [P1 P2]. destruct (IH fs' B' W') as [I1 I2].
      cbn [concat map]. split.
      + rewrite map_app, Rsum_app, I1, P1. unfold Rsum at 2. cbn [fold_right]. fold (Rsum (map contour fs')). rewrite Rplus_comm; symmetry; rewrite Rplus_comm; f_equal. rewrite contour_eq by (eapply nth_error_In; eauto).
        rewrite <- (BO (psi f)) by (apply AN; eapply nth_error_In; eauto). ring.
      + intros a b c d I. apply in_app_or in I as [I|I]; eauto.
  Qed.
  Lemma clipped_sum : surface_sum g (verts (clipped k)) (faces (clipped k)) = Rsum (map contour (faces m)).
  Proof.
    destruct (clipper_exact p tol T0 argsort SA closed m k V S CV NP SP CL) as (A & low & cr & L & C & BL & BC & F & _).
    assert (EP : partition_mesh p tol m = Ok (k_partition k)).
    { clear - CL. unfold mesh_clipper in CL. destruct (refused tol (distances p m)); [discriminate|].
      apply bind_ok in CL as (P & EP & E). apply bind_ok in E as ([[cc cl] op] & _ & E). apply bind_ok in E as (r & _ & E). injection E as <-. exact EP. }
    destruct (partition_ok p tol m V) as (P & EP' & IA & IC & IB & _). rewrite EP in EP'. injection EP' as EP'. subst P.
    rewrite IB in L, BL. rewrite IC in C, BC. destruct (ids_sum _ _ L BL) as [S1 Z1]. destruct (ids_sum _ _ C BC) as [S2 Z2].
    rewrite (surface_pieces _ _ _ _ F) by (intros a b c d I; apply in_app_or in I as [I|I]; eauto).
    rewrite map_app, Rsum_app, S1, S2.
    rewrite (split_run contour (upper_face p tol (verts m)) (lower_face p tol (verts m)) (faces m)).
    - change (fun f => negb (upper_face p tol (verts m) f) && negb (lower_face p tol (verts m) f)) with (crown_face p tol (verts m)).
      assert (Z : Rsum (map contour (filter (upper_face p tol (verts m)) (faces m))) = 0); [|rewrite Z; ring].
      assert (G : forall f, In f (filter (upper_face p tol (verts m)) (faces m)) -> contour f = 0).
      { intros f I. apply filter_In in I as [IF U]. rewrite contour_eq by auto. rewrite (trim_sides p tol T0).
        change (run (trim p tol (psi f)) (around (outline (verts m) f))) with (face_run (trim p tol (psi f)) (verts m) f).
        rewrite (upper_trim p tol T0) by auto. apply upper_iff in U.
        assert (E : face_waterline p tol (outline (verts m) f) = []); [|rewrite E; unfold run; cbn; ring].
        unfold face_waterline. destruct (touching p tol (outline (verts m) f)); auto.
        assert (E : flat_map (leaving p tol) (around (outline (verts m) f)) = []).
        { rewrite Forall_forall in U. assert (I : incl (map fst (around (outline (verts m) f))) (outline (verts m) f)).
          { pose proof (outline_length (verts m) f) as LO. destruct (outline (verts m) f) as [|a [|b [|c [|d [|? ?]]]]]; simpl in LO; try lia; intros x X; simpl in *; tauto. }
          induction (around (outline (verts m) f)) as [|[a b] l IH]; auto. cbn [flat_map]. rewrite IH by (intros x X; apply I; simpl; auto).
          unfold leaving. cbn [fst snd]. destruct (below_dec p tol a) as [B|B]; auto. exfalso. specialize (U a (I a (or_introl eq_refl))).
          unfold is_above, is_below in *. lra. }
        rewrite E. destruct (flat_map (entering p tol) (around (outline (verts m) f))) as [|? [|? ?]]; auto. }
      revert G. generalize (filter (upper_face p tol (verts m)) (faces m)). induction l as [|f l IH]; intros G; auto.
      unfold Rsum in *. cbn [map fold_right]. rewrite IH, G by (intros; try apply G; simpl; auto). ring.
    - intros f I U W. apply upper_iff in U. apply lower_iff in W. pose proof (outline_length (verts m) f) as LO.
      destruct (outline (verts m) f) as [|q l]; [simpl in LO; lia|]. inversion U; inversion W; subst. unfold is_above, is_below in *. lra.
  Qed.
End Contour.

(** ** Volume integrals *)
Lemma coplanar_triangle : forall o b c x y w, hull [o; b; c] x -> hull [o; b; c] y -> hull [o; b; c] w ->
  dot (vsub x o) (cross (vsub y o) (vsub w o)) = 0.
Proof.
  intros o b c x y w X Y W. rewrite hull3 in X, Y, W.
  destruct X as (u1 & v1 & w1 & _ & _ & _ & E1 & ->), Y as (u2 & v2 & w2 & _ & _ & _ & E2 & ->), W as (u3 & v3 & w3 & _ & _ & _ & E3 & ->).
  replace u1 with (1 - v1 - w1) by lra. replace u2 with (1 - v2 - w2) by lra. replace u3 with (1 - v3 - w3) by lra.
  unfold mix. cbn [map fst snd vsum fold_right]. vunfold. ring.
Qed.
Lemma coplanar_quad : forall a b c d x y w, convex_planar a b c d -> hull [a; b; c; d] x -> hull [a; b; c; d] y -> hull [a; b; c; d] w ->
  dot (vsub x a) (cross (vsub y a) (vsub w a)) = 0.
Proof.
  intros a b c d x y w (u & U & B & C & D & _) X Y W.
  assert (H : forall q, hull [a; b; c; d] q -> dot u (vsub q a) = 0).
  { intros q Q. rewrite hull4 in Q. destruct Q as (k & l & m & n & _ & _ & _ & _ & E & ->). replace k with (1 - l - m - n) by lra.
    unfold mix. cbn [map fst snd vsum fold_right].
    replace (vsub (vadd (vscale (1 - l - m - n) a) (vadd (vscale l b) (vadd (vscale m c) (vadd (vscale n d) vzero)))) a)
      with (vadd (vscale l (vsub b a)) (vadd (vscale m (vsub c a)) (vscale n (vsub d a)))) by vring.
    replace (dot u (vadd (vscale l (vsub b a)) (vadd (vscale m (vsub c a)) (vscale n (vsub d a)))))
      with (l * dot u (vsub b a) + m * dot u (vsub c a) + n * dot u (vsub d a)) by vring. rewrite B, C, D. ring. }
  rewrite (along_unit u (vsub y a) (vsub w a)) by auto.
  replace (dot (vsub x a) (vscale (dot u (cross (vsub y a) (vsub w a))) u)) with (dot u (cross (vsub y a) (vsub w a)) * dot u (vsub x a)) by vring.
  rewrite (H x X). ring.
Qed.
Lemma coplanar : forall ps x y w, convex_outline ps -> hull ps x -> hull ps y -> hull ps w ->
  dot (vsub x (hd vzero ps)) (cross (vsub y (hd vzero ps)) (vsub w (hd vzero ps))) = 0.
Proof.
  intros ps x y w C X Y W. destruct ps as [|a [|b [|c [|d [|? ?]]]]]; try destruct C; cbn [hd].
  - eapply coplanar_triangle; eauto.
  - eapply coplanar_quad; eauto. exists x0. auto.
Qed.
(** Adding up over a fan *)
Lemma fan_run : forall g p tol ps, run (g (hd vzero ps)) (immersed_border p tol ps) =
  Rsum (map (fun t => let '(a, b, c) := t in g a b c) (immersed_fan p tol ps)).
Proof. intros. unfold immersed_fan, run. rewrite map_map. apply Rsum_map_ext. intros [a b] _. reflexivity. Qed.
Definition additive (g : vec -> vec -> vec -> R) : Prop :=
  (forall o a b, g o a b = - g o b a) /\
  (forall o a b c, dot (vsub a o) (cross (vsub b o) (vsub c o)) = 0 -> g a b c = g o a b + g o b c + g o c a).
Lemma tetra_additive : additive (tetra vzero).
Proof.
  split; intros; unfold tetra; [vunfold; field|].
  apply Rminus_diag_uniq. transitivity (dot (vsub a o) (cross (vsub b o) (vsub c o)) / 6); [vunfold; field|rewrite H; field].
Qed.
Lemma cone1_additive : forall p, coordinate p -> additive (cone1 p).
Proof.
  intros p P. split; intros; unfold cone1; [vunfold; field|].
  apply Rminus_diag_uniq. transitivity (dot (vsub a o) (cross (vsub b o) (vsub c o)) * (p o + p a + p b + p c) / 24); [|rewrite H; field].
  destruct P as [-> | [-> | ->]]; vunfold; field.
Qed.
Lemma cone2_additive : forall p q, coordinate p -> coordinate q -> additive (cone2 p q).
Proof.
  intros p q P Q. split; intros; unfold cone2, tet2; [vunfold; field|].
  apply Rminus_diag_uniq. transitivity (dot (vsub a o) (cross (vsub b o) (vsub c o)) *
    (((p o + p a + p b + p c) * (q o + q a + q b + q c) + (p o * q o + p a * q a + p b * q b + p c * q c)) / 120)); [|rewrite H; field].
  destruct P as [-> | [-> | ->]], Q as [-> | [-> | ->]]; vunfold; field.
Qed.

Section Immersed.
  Variables (p : plane) (tol : R).
  Hypothesis T0 : 0 <= tol.
  Variable argsort : list R -> list nat.
  Hypothesis SA : sorting argsort.
  Variables (closed : bool) (m : mesh) (k : clipper).
  Hypothesis V : valid m.
  Hypothesis S : settled p tol m.
  Hypothesis CV : Forall (fun f => convex_outline (outline (verts m) f)) (faces m).
  Hypothesis NP : Forall (fun f => ~ pinched p tol (outline (verts m) f)) (faces m).
  Hypothesis SP : spread clip_move (cut_point p tol m).
  Hypothesis CL : mesh_clipper argsort p tol closed m = Ok k.

  Lemma clipped_additive : forall g, additive g -> surface_sum g (verts (clipped k)) (faces (clipped k)) =
    Rsum (map (fun t => let '(a, b, c) := t in g a b c) (immersed_triangles p tol m)).
  Proof.
    intros g [A1 A2].
    rewrite (clipped_sum p tol T0 argsort SA closed m k V S CV NP SP CL g (fun f => g (hd vzero (outline (verts m) f)))).
    - unfold immersed_triangles. generalize (faces m). intros l. induction l as [|f fs IH]; auto. cbn [map flat_map]. rewrite map_app, Rsum_app, <- IH.
      unfold Rsum at 1. cbn [fold_right]. f_equal. unfold contour. apply fan_run.
    - intros f _ a b. apply A1.
    - intros f I a b c HA HB HC _. apply A2. apply coplanar; auto. rewrite Forall_forall in CV. auto.
  Qed.
  Lemma clipped_area : forall u : face -> vec, (forall f, In f (faces m) -> unit (u f) /\ turns_along (u f) (outline (verts m) f)) ->
    surface_sum (surf e0) (verts (clipped k)) (faces (clipped k)) =
    Rsum (map (fun f => Rsum (map (fun t => let '(a, b, c) := t in dot (u f) (triangle_normal a b c) / 2) (immersed_fan p tol (outline (verts m) f)))) (faces m)).
  Proof.
    intros u U.
    rewrite (clipped_sum p tol T0 argsort SA closed m k V S CV NP SP CL (surf e0)
      (fun f a b => dot (u f) (triangle_normal (hd vzero (outline (verts m) f)) a b) / 2)).
    - apply Rsum_map_ext. intros f _. unfold contour. exact (fan_run (fun o a b => dot (u f) (triangle_normal o a b) / 2) p tol (outline (verts m) f)).
    - intros f _ a b. unfold triangle_normal. vunfold. field.
    - intros f I a b c _ _ _ H. destruct (U f I) as [UN T]. destruct (H (u f) T) as (l & L & E).
      unfold surf, e0. rewrite E, cross_norm_split by auto. set (o := hd vzero (outline (verts m) f)).
      transitivity (dot (u f) (triangle_normal a b c) / 2); [|unfold triangle_normal; vunfold; field].
      rewrite E. replace (dot (u f) (vscale l (u f))) with (l * dot (u f) (u f)) by vring. rewrite UN. field.
  Qed.
End Immersed.
