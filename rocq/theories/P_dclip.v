(** Proofs about clipping in double precision: positions of vertices, the partition and the cuts are those of exact arithmetic. *)
From Coq Require Import Reals List Arith Bool Lia Lra Psatz.
From Flocq Require Import Core.
From Verif Require Import M_base P_base M_merge P_merge M_plane M_mesh S_mesh P_mesh S_geometry P_geometry S_plane P_plane
  M_connectivity M_clipper S_clipper P_hull P_cut P_clipper P_crown P_parts P_curves P_waterline P_sharp
  M_double S_double P_double P_double2 P_double3 P_double4 M_dgeom P_dgeom5 M_dclip S_dclip.
Import ListNotations.
Open Scope R_scope.
Notation u := ulp1.

(** ** Equal positions *)
Definition same_class (tol d d' : R) : Prop := exists c, classed tol d c /\ classed tol d' c.
Lemma same_masks : forall tol d d', 0 <= tol -> same_class tol d d' ->
  above tol d = above tol d' /\ on tol d = on tol d' /\ below tol d = below tol d'.
Proof.
  intros tol d d' T (c & C & C'). destruct (classed_masks tol d c T C) as (-> & -> & ->). destruct (classed_masks tol d' c T C') as (-> & -> & ->). auto.
Qed.
Lemma Forall2_weaken : forall A B (P Q : A -> B -> Prop) l l', (forall a b, P a b -> Q a b) -> Forall2 P l l' -> Forall2 Q l l'.
Proof. intros A B P Q l l' H F. induction F; constructor; auto. Qed.
Lemma Forall2_nth2 : forall A B (P : A -> B -> Prop) l l', Forall2 P l l' -> forall i,
  match nth_error l i, nth_error l' i with Some a, Some b => P a b | None, None => True | _, _ => False end.
Proof. intros A B P l l' F. induction F; intros [|i]; cbn; auto. apply IHF. Qed.
Lemma forallb_ext2 : forall A B (f : A -> bool) (g : B -> bool) l l', Forall2 (fun x y => f x = g y) l l' -> forallb f l = forallb g l'.
Proof. intros A B f g l l' F. induction F; cbn; congruence. Qed.

Section Same.
  Variable tol : R.
  Hypothesis T0 : 0 <= tol.
  Variables ds ds' : list R.
  Hypothesis same : Forall2 (same_class tol) ds ds'.

  Lemma refused_same : refused tol ds' = refused tol ds.
  Proof.
    unfold refused. rewrite <- (forallb_ext2 _ _ (above tol) (above tol) ds ds'), <- (forallb_ext2 _ _ (below tol) (below tol) ds ds'); auto;
      eapply Forall2_weaken; try exact same; intros d d' S; apply same_masks; auto.
  Qed.
  Lemma count_same : forall (mask : R -> bool) f, (forall d d', same_class tol d d' -> mask d = mask d') ->
    count_corners mask ds' f = count_corners mask ds f.
  Proof.
    intros mask f M. unfold count_corners. induction (entries f) as [|i l IH]; [reflexivity|]. cbn [mapM bind].
    pose proof (Forall2_nth2 _ _ _ _ _ same i) as N. unfold get at 1 3. destruct (nth_error ds i) as [d|], (nth_error ds' i) as [d'|]; try contradiction; cbn [bind]; auto.
    destruct (mapM (get ds) l) as [x|e], (mapM (get ds') l) as [x'|e']; cbn [bind] in *; try congruence.
    cbn [filter]. rewrite <- (M d d' N). injection IH as IH. destruct (mask d); cbn [length]; congruence.
  Qed.
  Lemma partition_ids_same : forall fs, partition_ids tol ds' fs = partition_ids tol ds fs.
  Proof.
    intros fs. unfold partition_ids.
    assert (E : forall mask : R -> bool, (forall d d', same_class tol d d' -> mask d = mask d') -> mapM (count_corners mask ds') fs = mapM (count_corners mask ds) fs).
    { intros mask M. induction fs as [|f l IH]; [reflexivity|]. cbn [mapM]. rewrite count_same by auto. rewrite IH. reflexivity. }
    rewrite !E; [reflexivity| |]; intros d d' S; apply same_masks; auto.
  Qed.
  Definition same_part (q q' : part) : Prop := pt_mesh q' = pt_mesh q /\ pt_ids q' = pt_ids q /\ Forall2 (same_class tol) (pt_dist q) (pt_dist q').
  Lemma generate_same : forall m ids q, generate_mesh m ds ids = Ok q -> exists q', generate_mesh m ds' ids = Ok q' /\ same_part q q'.
  Proof.
    intros m ids q E. unfold generate_mesh in *. destruct (extract_faces m ids) as [[m' iv]|]; [|discriminate]. cbn [bind] in *.
    apply bind_ok in E as (d & D & E). injection E as <-.
    assert (K : exists d', mapM (get ds') iv = Ok d' /\ Forall2 (same_class tol) d d').
    { revert d D. induction iv as [|i l IH]; intros d D; cbn [mapM] in *; [injection D as <-; exists []; auto|].
      apply bind_ok in D as (x & X & D). apply bind_ok in D as (xs & XS & D). injection D as <-. destruct (IH xs XS) as (xs' & XS' & F).
      pose proof (Forall2_nth2 _ _ _ _ _ same i) as N. apply get_inv in X. rewrite X in N. destruct (nth_error ds' i) as [x'|] eqn:X'; [|contradiction].
      exists (x' :: xs'). rewrite (get_some _ _ _ _ X'). cbn [bind]. rewrite XS'. cbn [bind]. auto. }
    destruct K as (d' & D' & F). exists (mkPart m' iv d'). rewrite D'. cbn [bind]. split; [reflexivity|]. split; auto.
  Qed.
  (** The cut of a face depends on the positions only. *)
  Lemma clip_face_same : forall n l, (length l = 3 \/ length l = 4)%nat -> Forall (fun i => (i < length ds)%nat) l ->
    clip_face tol ds' n l = clip_face tol ds n l.
  Proof.
    intros n l L B.
    assert (K : exists ics, map fst ics = l /\ Forall (located tol ds) ics /\ Forall (located tol ds') ics).
    { clear L. induction l as [|i l IH]; [exists []; auto|]. inversion B as [|? ? I B']; subst. destruct (IH B') as (ics & M & F & F').
      pose proof (Forall2_nth2 _ _ _ _ _ same i) as N. destruct (nth_error_lt _ _ _ I) as [d D]. rewrite D in N.
      destruct (nth_error ds' i) as [d'|] eqn:D'; [|contradiction]. destruct N as (c & C & C').
      exists ((i, c) :: ics). cbn [map fst]. split; [congruence|]. split; constructor; auto; [exists d|exists d']; auto. }
    destruct K as (ics & M & F & F'). subst l. rewrite map_length in L. clear B.
    assert (R : forall dist, Forall (located tol dist) ics -> exists d, mapM (get dist) (map fst ics) = Ok d /\
      where_ (above tol) d = where_ isA (map snd ics) /\ where_ (on tol) d = where_ isO (map snd ics) /\ where_ (below tol) d = where_ isB (map snd ics)).
    { intros dist FL.
      destruct (mapM_ok _ _ (get dist) (map fst ics)) as (d & E & F2).
      { intros i I. apply in_map_iff in I as ((j & c) & <- & I). rewrite Forall_forall in FL. destruct (FL _ I) as (d & N & _). exists d. apply get_some. auto. }
      assert (W : forall f g, (forall d c, classed tol d c -> f d = g c) -> where_ f d = where_ g (map snd ics)).
      { intros f g H. apply where_ext2. clear - FL F2 H. revert d F2.
        induction FL as [|[i c] l (d & N & K) FL IH]; intros d0 F2; inversion F2 as [|? d' ? ? G]; subst; cbn; constructor; auto.
        cbn in *. apply get_some in N. rewrite N in G. injection G as <-. auto. }
      exists d. split; auto. split; [|split]; apply W; intros; apply classed_masks; auto. }
    assert (G : forall dist, Forall (located tol dist) ics -> forall i c, In (i, c) ics -> exists d, get dist i = Ok d /\ (c <> O -> Rltb d 0 = isB c)).
    { intros dist FL i c I. rewrite Forall_forall in FL. destruct (FL _ I) as (d & N & K). exists d. split; [apply get_some; auto|]. intros. eapply neg_sign; eauto. }
    unfold clip_face. destruct (R ds F) as (d & E1 & A1 & O1 & B1). destruct (R ds' F') as (d' & E2 & A2 & O2 & B2). rewrite E1, E2. cbn [bind]. rewrite A1, O1, B1, A2, O2, B2. clear E1 E2 A1 A2 O1 O2 B1 B2.
    specialize (G ds F) as G1. specialize (G ds' F') as G2. clear R G F F'.
    destruct ics as [|[a ca] [|[b cb] [|[c cc] [|[e ce] [|? ?]]]]]; cbn in L; try lia.
    - destruct (G1 a ca) as (da & GA & SA); [cbn; auto|]. destruct (G1 b cb) as (db & GB & SB); [cbn; auto|]. destruct (G1 c cc) as (dc & GC & SC); [cbn; auto|].
      destruct (G2 a ca) as (da' & GA' & SA'); [cbn; auto|]. destruct (G2 b cb) as (db' & GB' & SB'); [cbn; auto|]. destruct (G2 c cc) as (dc' & GC' & SC'); [cbn; auto|].
      clear G1 G2 L. destruct ca, cb, cc; cbn; rewrite ?GA, ?GB, ?GC, ?GA', ?GB', ?GC'; cbn; rewrite ?SA, ?SB, ?SC, ?SA', ?SB', ?SC' by discriminate; reflexivity.
    - destruct (G1 a ca) as (da & GA & SA); [cbn; auto|]. destruct (G1 b cb) as (db & GB & SB); [cbn; auto|]. destruct (G1 c cc) as (dc & GC & SC); [cbn; auto|]. destruct (G1 e ce) as (de & GE & SE); [cbn; auto 6|].
      destruct (G2 a ca) as (da' & GA' & SA'); [cbn; auto|]. destruct (G2 b cb) as (db' & GB' & SB'); [cbn; auto|]. destruct (G2 c cc) as (dc' & GC' & SC'); [cbn; auto|]. destruct (G2 e ce) as (de' & GE' & SE'); [cbn; auto 6|].
      clear G1 G2 L. destruct ca, cb, cc, ce; cbn; rewrite ?GA, ?GB, ?GC, ?GE, ?GA', ?GB', ?GC', ?GE'; cbn; rewrite ?SA, ?SB, ?SC, ?SE, ?SA', ?SB', ?SC', ?SE' by discriminate; reflexivity.
  Qed.
End Same.

(** ** Distances and intersections *)
Section Plane.
  Variables (p : plane) (L tol g : R).
  Hypothesis sized : smallest <= L.
  Hypothesis normal1 : bounded 1 (p_normal p).
  Hypothesis scalar1 : Rabs (p_scalar p) <= L.
  Hypothesis scalar_double : double (p_scalar p).
  Hypothesis tol_large : 40 * (u * L) <= tol.
  Notation e := (23 * (u * L)).

  Lemma T0 : 0 <= tol.
  Proof. pose proof (uQ_pos L sized). lra. Qed.
  Lemma dist_same : forall fdot v, computes_dot fdot -> bounded L v -> firm p tol e g v -> same_class tol (plane_dist p v) (plane_dist_double fdot p v).
  Proof.
    intros fdot v C B F. pose proof (plane_dist_error fdot p L v C sized normal1 scalar1 B) as E. apply Rabs_le_inv in E.
    pose proof (uQ_pos L sized) as W. rewrite height_dist in *. destruct F as [F|[F _]].
    - exists O. cbn. pose proof (Rabs_def2 _ _ (Rle_lt_trans _ _ _ (Rle_refl (Rabs (height p v))) (ltac:(lra) : Rabs (height p v) < tol - e))). lra.
    - destruct (Rle_dec 0 (height p v)).
      + rewrite Rabs_pos_eq in F by auto. exists A. cbn. lra.
      + rewrite Rabs_left in F by lra. exists P_clipper.B. cbn. lra.
  Qed.

  Lemma distances_same : forall fdots m, (forall j, computes_dot (fdots j)) -> Forall (bounded L) (verts m) -> Forall (firm p tol e g) (verts m) ->
    Forall2 (same_class tol) (distances p m) (distances_double fdots p m).
  Proof.
    intros fdots m C B F. unfold distances, distances_double. rewrite <- (numbered_snd _ (verts m)) at 1. rewrite map_map.
    assert (K : forall jv, In jv (numbered (verts m)) -> same_class tol (plane_dist p (snd jv)) (plane_dist_double (fdots (fst jv)) p (snd jv))).
    { intros [j v] I. apply numbered_in in I. rewrite Forall_forall in B, F. apply dist_same; auto. }
    induction (numbered (verts m)) as [|jv l IH]; cbn; constructor; [apply K; left; auto|]. apply IH. intros x X. apply K. right. auto.
  Qed.

  Notation delta := (190 * (u * (L * L) / g)).
  Lemma meet_near : forall fdot a b, computes_dot fdot -> bounded L a -> bounded L b -> 0 < g ->
    (17 * (u * L) < g) ->
    (g <= height p a /\ height p b <= - g \/ height p a <= - g /\ g <= height p b) ->
    intersection p a b = Ok (meet p a b) /\ exists x, intersection_double fdot p a b = Ok x /\ near_point delta (meet p a b) x.
  Proof.
    intros fdot a b C HA HB G0 G1 H. pose proof (uQ_pos L sized) as W.
    split.
    { destruct (edge_intersection_ok p a b) as (z & Z & _ & OP & SE & _).
      - rewrite !height_dist. destruct H; nra.
      - rewrite !on_plane_dist, !height_dist. lra.
      - unfold intersection. rewrite Z. cbn [bind]. f_equal. apply meet_ok; auto; [|lra]. apply on_plane_dist in OP. rewrite height_dist in OP. auto. }
    destruct (intersection_ok fdot p L a b C sized normal1 scalar1 scalar_double HA HB) as (t & x & E & T & M & D).
    { rewrite !height_dist. lra. }
    unfold intersection_double. rewrite E. cbn [bind]. exists x. split; [reflexivity|].
    rewrite height_dist in D. pose proof M as (MX & MY & MZ). cbn [vx vy vz vsub vadd vscale] in MX, MY, MZ.
    set (da := height p a) in *. set (db := height p b) in *.
    assert (HX : Rabs (da - t * (da - db)) <= 132 * (u * L)).
    { replace (da - t * (da - db)) with (height p x - dot (p_normal p) (vsub x (vadd (vscale (1 - t) a) (vscale t b)))).
      2: { unfold da, db, height, dot, vsub, vadd, vscale. cbn [vx vy vz]. ring. }
      assert (DB : Rabs (dot (p_normal p) (vsub x (vadd (vscale (1 - t) a) (vscale t b)))) <= 42 * (u * L)).
      { destruct normal1 as (NX & NY & NZ). unfold dot. cbn [vx vy vz vsub vadd vscale].
        assert (Q : forall n y, Rabs n <= 1 -> Rabs y <= 14 * (u * L) -> Rabs (n * y) <= 14 * (u * L)).
        { intros n y N Y. rewrite Rabs_mult. pose proof (Rabs_pos n). pose proof (Rabs_pos y).
          apply Rle_trans with (1 * (14 * (u * L))); [apply Rmult_le_compat; auto|lra]. }
        pose proof (Q _ _ NX MX) as Q1. pose proof (Q _ _ NY MY) as Q2. pose proof (Q _ _ NZ MZ) as Q3.
        eapply Rle_trans; [apply Rabs_triang|]. pose proof (Rabs_triang (vx (p_normal p) * (vx x - ((1 - t) * vx a + t * vx b))) (vy (p_normal p) * (vy x - ((1 - t) * vy a + t * vy b)))). lra. }
      eapply Rle_trans; [apply Rabs_triang|]. rewrite Rabs_Ropp. lra. }
    set (s := da / (da - db)).
    assert (DD : da - db <> 0) by lra.
    assert (GD : 2 * g <= Rabs (da - db)) by (destruct H; [rewrite Rabs_pos_eq|rewrite Rabs_left]; lra).
    assert (ST : Rabs (t - s) <= 66 * (u * L) / g).
    { assert (K : Rabs ((t - s) * (da - db)) <= 132 * (u * L)).
      { replace ((t - s) * (da - db)) with (- (da - t * (da - db))) by (unfold s; field; auto). rewrite Rabs_Ropp. exact HX. }
      rewrite Rabs_mult in K. pose proof (Rabs_pos (t - s)).
      assert (K2 : Rabs (t - s) * (2 * g) <= 132 * (u * L)) by (eapply Rle_trans; [apply Rmult_le_compat_l; [auto|exact GD]|exact K]).
      apply (Rmult_le_reg_r g); [auto|]. unfold Rdiv. rewrite Rmult_assoc, Rinv_l by lra. lra. }
    assert (GL : g <= 4 * L).
    { assert (LE : forall v, bounded L v -> Rabs (height p v) <= 4 * L).
      { intros v (VX & VY & VZ). destruct normal1 as (NX & NY & NZ). unfold height, dot.
        assert (Q : forall n y, Rabs n <= 1 -> Rabs y <= L -> Rabs (n * y) <= L).
        { intros n y N Y. rewrite Rabs_mult. pose proof (Rabs_pos n). pose proof (Rabs_pos y).
          apply Rle_trans with (1 * L); [apply Rmult_le_compat; auto|lra]. }
        pose proof (Q _ _ NX VX) as Q1. pose proof (Q _ _ NY VY) as Q2. pose proof (Q _ _ NZ VZ) as Q3. apply Rabs_le_inv in Q1, Q2, Q3, scalar1. apply Rabs_le. lra. }
      pose proof (LE a HA) as LA. fold da in LA. apply Rabs_le_inv in LA. lra. }
    pose proof ulp1_pos as U0. pose proof smallest_pos as S0. assert (L0 : 0 < L) by lra.
    set (k := u * L / g).
    assert (K0 : 0 < k) by (unfold k; apply Rmult_lt_0_compat; [lra|apply Rinv_0_lt_compat; auto]).
    assert (KL : u * L <= 4 * (k * L)).
    { apply (Rmult_le_reg_r g); [auto|]. replace (4 * (k * L) * g) with (u * L * (4 * L)) by (unfold k; field; lra). apply Rmult_le_compat_l; lra. }
    replace (190 * (u * (L * L) / g)) with (190 * (k * L)) by (unfold k; field; lra).
    replace (66 * (u * L) / g) with (66 * k) in ST by (unfold k; field; lra).
    assert (Q : forall xa xb y, Rabs xa <= L -> Rabs xb <= L -> Rabs (y - ((1 - t) * xa + t * xb)) <= 14 * (u * L) ->
      Rabs ((1 - s) * xa + s * xb - y) <= 190 * (k * L)).
    { intros xa xb y XA XB Y.
      replace ((1 - s) * xa + s * xb - y) with ((t - s) * (xa - xb) - (y - ((1 - t) * xa + t * xb))) by ring.
      eapply Rle_trans; [apply Rabs_triang|]. rewrite Rabs_Ropp, Rabs_mult.
      assert (XX : Rabs (xa - xb) <= 2 * L) by (eapply Rle_trans; [apply Rabs_triang|]; rewrite Rabs_Ropp; lra).
      assert (Rabs (t - s) * Rabs (xa - xb) <= 66 * k * (2 * L)) by (apply Rmult_le_compat; auto using Rabs_pos). lra. }
    destruct HA as (AX & AY & AZ), HB as (BX & BY & BZ).
    unfold near_point, meet. fold da db. fold s. cbn [vx vy vz vadd vscale]. split; [|split]; apply Q; auto.
  Qed.
End Plane.
