(** Proofs about clipping in double precision: the loop on the faces of the crown. *)
From Coq Require Import Reals List Arith Bool Lia Lra Psatz.
From Flocq Require Import Core.
From Verif Require Import M_base P_base M_merge P_merge M_plane M_mesh S_mesh P_mesh S_geometry P_geometry S_plane P_plane
  M_connectivity M_clipper S_clipper P_hull P_cut P_clipper P_crown P_parts P_curves P_waterline P_sharp
  M_double S_double P_double P_double2 P_double3 P_double4 M_dgeom P_dgeom5 M_dclip S_dclip P_dclip.
Import ListNotations.
Open Scope R_scope.

(** ** The edges that are cut are sides of faces *)
Definition ring {X} (l : list X) : list (X * X) := combine l (tl l ++ firstn 1 l).
Lemma ring_turned : forall X (l l' : list X) s, (length l = 3 \/ length l = 4)%nat -> turned l l' -> In s (ring l') -> In s (ring l).
Proof.
  intros X l l' s L [k ->] I. destruct l as [|a [|b [|c [|d [|? ?]]]]]; cbn in L; try lia;
    destruct k as [|[|[|[|k]]]]; unfold ring in *; cbn in *; rewrite ?skipn_nil, ?firstn_nil in *; cbn in *; tauto.
Qed.
Lemma outcome_sides : forall n ics cut, (length ics = 3 \/ length ics = 4)%nat -> outcome n ics (Ok cut) -> forall e, In e (q_edges cut) ->
  exists c c', (In ((fst e, c), (snd e, c')) (ring ics) \/ In ((snd e, c'), (fst e, c)) (ring ics)) /\ (c = A /\ c' = B \/ c = B /\ c' = A).
Proof.
  intros n ics cut LI H e I.
  assert (K : exists ics', turned ics ics' /\ exists c c', (In ((fst e, c), (snd e, c')) (ring ics') \/ In ((snd e, c'), (fst e, c)) (ring ics')) /\ (c = A /\ c' = B \/ c = B /\ c' = A)).
  { inversion H as [ics' c T C|ics' c T C|ics' c T C|]; subst; exists ics'; (split; [auto|]); clear - C I;
      destruct C; cbn in I; repeat destruct I as [<-|I]; try contradiction; cbn [fst snd];
      first [exists A, B; split; [cbn; tauto|tauto] | exists B, A; split; [cbn; tauto|tauto]]. }
  destruct K as (ics' & T & c & c' & D & E). exists c, c'. split; auto. destruct D as [D|D]; [left|right]; eapply ring_turned; eauto.
Qed.
Lemma ring_map : forall X Y (h : X -> Y) l, ring (map h l) = map (fun s => (h (fst s), h (snd s))) (ring l).
Proof.
  intros X Y h l. unfold ring. destruct l as [|x l]; [reflexivity|]. cbn [tl map firstn]. rewrite <- (map_app h l [x] : _ = map h l ++ [h x]).
  change (h x :: map h l) with (map h (x :: l)). generalize (l ++ [x]). generalize (x :: l). clear.
  induction l as [|y l IH]; intros [|z k]; cbn [map combine]; auto. f_equal. apply IH.
Qed.
Lemma ring_around : forall l, around l = ring l.
Proof. intros [|a l]; reflexivity. Qed.

Section Loop.
  Variables (p : plane) (L tol g : R).
  Hypothesis sized : smallest <= L.
  Hypothesis normal1 : bounded 1 (p_normal p).
  Hypothesis scalar1 : Rabs (p_scalar p) <= L.
  Hypothesis scalar_double : double (p_scalar p).
  Hypothesis tol_large : 40 * (u * L) <= tol.
  Hypothesis gap : tol <= g.
  Variables (fdot : vec -> vec -> R) (vs : list vec) (dist' : list R).
  Hypothesis dot_ok : computes_dot fdot.
  Hypothesis vs_bounded : Forall (bounded L) vs.
  Hypothesis vs_firm : Forall (firm p tol (23 * (u * L)) g) vs.
  Notation dist := (map (plane_dist p) vs).
  Hypothesis same : Forall2 (same_class tol) dist dist'.
  Notation delta := (190 * (u * (L * L) / g)).
  Let TP : 0 <= tol := T0 L tol sized tol_large.
  Lemma W0 : 0 < u * L. Proof. exact (uQ_pos L sized). Qed.

  Lemma firm_sorted : forall v, firm p tol (23 * (u * L)) g v -> sorted_out p tol v.
  Proof. intros v F. unfold sorted_out, firm in *. pose proof W0. lra. Qed.
  Lemma face_proper : forall f, valid_face (length vs) f -> P_crown.proper p tol vs f.
  Proof.
    intros f V. split; auto. rewrite outline_map. apply Forall_map, Forall_forall. intros i I. pose proof (face_w_valid vs f i V I) as B.
    apply firm_sorted. rewrite Forall_forall in vs_firm. apply vs_firm. unfold point. apply nth_In. auto.
  Qed.
  Lemma side_cut : forall f e c n, valid_face (length vs) f -> clip_face tol dist n (face_w f) = Ok c -> In e (q_edges c) ->
    exists a b x, nth_error vs (fst e) = Some a /\ nth_error vs (snd e) = Some b /\
      intersection p a b = Ok (meet p a b) /\ intersection_double fdot p a b = Ok x /\ near_point delta (meet p a b) x /\
      crosspoint p tol (outline vs f) (meet p a b).
  Proof.
    intros f e c n V E I. pose proof (face_proper f V) as P. pose proof (face_outcome p tol vs TP n f P) as OC. rewrite E in OC.
    destruct (outcome_sides _ _ _ (ics_length p tol vs f) OC e I) as (k & k' & S & K).
    assert (IN : forall s, In s (ring (ics_of p tol vs f)) -> exists i j, s = ((i, cls_of tol (height p (point vs i))), (j, cls_of tol (height p (point vs j)))) /\
      In i (face_w f) /\ In j (face_w f) /\ In (point vs i, point vs j) (around (outline vs f))).
    { intros s HS. unfold ics_of in HS. rewrite ring_map in HS. apply in_map_iff in HS as ((i & j) & <- & HS). cbn [fst snd]. exists i, j. split; auto.
      assert (X : In i (face_w f) /\ In j (face_w f)).
      { unfold ring in HS. split; [eapply in_combine_l; eauto|]. apply in_combine_r in HS. apply in_app_or in HS as [HS|HS].
        - destruct (face_w f); cbn in *; auto. - destruct (face_w f); cbn in *; tauto. }
      split; [apply X|]. split; [apply X|]. rewrite ring_around, outline_map, ring_map. apply (in_map (fun s => (point vs (fst s), point vs (snd s)))) in HS. exact HS. }
    assert (HH : forall i, In i (face_w f) -> (i < length vs)%nat) by (intros i HI; eapply face_w_valid; eauto).
    assert (CL : forall i, In i (face_w f) -> firm p tol (23 * (u * L)) g (point vs i) /\ bounded L (point vs i)).
    { intros i HI. rewrite Forall_forall in vs_firm, vs_bounded. split; [apply vs_firm|apply vs_bounded]; unfold point; apply nth_In; auto. }
    assert (KA : forall i, In i (face_w f) -> cls_of tol (height p (point vs i)) = A -> g <= height p (point vs i) /\ tol < height p (point vs i)).
    { intros i HI KK. unfold cls_of in KK. destruct (Rlt_dec tol (height p (point vs i))) as [LT|]; [|destruct (Rlt_dec _ (- tol)); discriminate].
      destruct (CL i HI) as [F _]. destruct F as [F|[_ F]]; rewrite Rabs_pos_eq in F by lra; pose proof W0; lra. }
    assert (KB : forall i, In i (face_w f) -> cls_of tol (height p (point vs i)) = B -> height p (point vs i) <= - g /\ height p (point vs i) < - tol).
    { intros i HI KK. unfold cls_of in KK. destruct (Rlt_dec tol (height p (point vs i))) as [LT|]; [discriminate|]. destruct (Rlt_dec (height p (point vs i)) (- tol)); [|discriminate].
      destruct (CL i HI) as [F _]. destruct F as [F|[_ F]]; rewrite Rabs_left in F by lra; pose proof W0; lra. }
    assert (M : exists i j, fst e = i /\ snd e = j /\ In i (face_w f) /\ In j (face_w f) /\
      (In (point vs i, point vs j) (around (outline vs f)) \/ In (point vs j, point vs i) (around (outline vs f))) /\
      k = cls_of tol (height p (point vs i)) /\ k' = cls_of tol (height p (point vs j))).
    { destruct S as [S|S]; destruct (IN _ S) as (i & j & Q & Q1 & Q2 & Q3); injection Q; intros; subst.
      - exists (fst e), (snd e). repeat (split; [auto; congruence|]). split; congruence.
      - exists (fst e), (snd e). repeat (split; [auto; congruence|]). split; congruence. }
    destruct M as (i & j & -> & -> & I1 & I2 & AR & K1 & K2).
    assert (HS : g <= height p (point vs i) /\ height p (point vs j) <= - g /\ tol < height p (point vs i) /\ height p (point vs j) < - tol \/
                 height p (point vs i) <= - g /\ g <= height p (point vs j) /\ height p (point vs i) < - tol /\ tol < height p (point vs j)).
    { destruct K as [[-> ->]|[-> ->]].
      - destruct (KA i I1 (eq_sym K1)). destruct (KB j I2 (eq_sym K2)). lra.
      - destruct (KB i I1 (eq_sym K1)). destruct (KA j I2 (eq_sym K2)). lra. }
    pose proof W0 as W0. pose proof TP.
    destruct (meet_near p L g sized normal1 scalar1 scalar_double fdot (point vs i) (point vs j) dot_ok) as (X1 & x & X2 & X3); try apply CL; auto; try lra.
    exists (point vs i), (point vs j), x. split; [apply nth_point; auto|]. split; [apply nth_point; auto|]. split; auto. split; auto. split; auto.
    destruct AR as [AR|AR].
    - exists (point vs i), (point vs j). split; auto. split; auto. unfold is_below, is_above. lra.
    - exists (point vs j), (point vs i). split; auto. split; [unfold is_below, is_above; lra|]. apply meet_sym. lra.
  Qed.

  Definition related (st st' : crown_state) : Prop :=
    cs_faces st' = cs_faces st /\ cs_direct st' = cs_direct st /\ cs_inv st' = cs_inv st /\ cs_index st' = cs_index st /\
    Forall2 (near_point delta) (cs_ints st) (cs_ints st').
  Lemma step_related : forall (Q : vec -> Prop) st st' f st1, valid_face (length vs) f -> (forall x, crosspoint p tol (outline vs f) x -> Q x) ->
    related st st' -> Forall Q (cs_ints st) -> clip_step p tol vs dist st f = Ok st1 ->
    exists st1', clip_step_double fdot p tol vs dist' st' f = Ok st1' /\ related st1 st1' /\ Forall Q (cs_ints st1).
  Proof.
    intros Q st st' f st1 V HQ (R1 & R2 & R3 & R4 & R5) HI E. unfold clip_step in E. unfold clip_step_double.
    apply bind_ok in E as (c & C & E). apply bind_ok in E as (xs & X & E).
    rewrite R4, (clip_face_same tol TP dist dist' same).
    2: { unfold face_w. destruct (is_triangle f); cbn; auto. }
    2: { apply Forall_forall. intros i I. rewrite map_length. eapply face_w_valid; eauto. }
    rewrite C. cbn [bind].
    assert (K : forall es ys, incl es (q_edges c) -> mapM (fun e => do a <- get vs (fst e); do b <- get vs (snd e); intersection p a b) es = Ok ys ->
      exists ys', mapM (fun e => do a <- get vs (fst e); do b <- get vs (snd e); intersection_double fdot p a b) es = Ok ys' /\
        Forall2 (near_point delta) ys ys' /\ Forall Q ys).
    { induction es as [|e es IH]; intros ys IC M; cbn [mapM] in *; [injection M as <-; exists []; auto|].
      apply bind_ok in M as (y & Y & M). apply bind_ok in M as (yt & YT & M). injection M as <-.
      destruct (IH yt) as (yt' & YT' & F & FQ); auto; [intros z Z; apply IC; right; auto|].
      destruct (side_cut f e c (cs_index st) V C) as (a & b & x & NA & NB & X1 & X2 & X3 & X4); [apply IC; left; auto|].
      rewrite (get_some _ _ _ _ NA), (get_some _ _ _ _ NB) in *. cbn [bind] in *. rewrite X1 in Y. injection Y as <-. rewrite X2. cbn [bind]. rewrite YT'. cbn [bind].
      exists (x :: yt'). auto. }
    destruct (K (q_edges c) xs (fun x H => H) X) as (xs' & -> & F & FQ). cbn [bind]. rewrite R1, R2, R3.
    destruct (q_bound c) as [[a b]|]; injection E as <-; eexists; (split; [reflexivity|]); (split; [|cbn [cs_ints]; apply Forall_app; auto]);
      unfold related; cbn; repeat (split; [reflexivity|]); apply Forall2_app; auto.
  Qed.
  Lemma loop_related : forall (Q : vec -> Prop) fs st st' st1, Forall (valid_face (length vs)) fs -> (forall f x, In f fs -> crosspoint p tol (outline vs f) x -> Q x) ->
    related st st' -> Forall Q (cs_ints st) -> foldM (clip_step p tol vs dist) fs st = Ok st1 ->
    exists st1', foldM (clip_step_double fdot p tol vs dist') fs st' = Ok st1' /\ related st1 st1' /\ Forall Q (cs_ints st1).
  Proof.
    induction fs as [|f fs IH]; intros st st' st1 V HQ R HI E; cbn [foldM] in *.
    - injection E as <-. exists st'. auto.
    - apply bind_ok in E as (s2 & E2 & E). inversion V; subst.
      destruct (step_related Q st st' f s2) as (s2' & E2' & R' & HI'); auto; [intros x X; apply (HQ f); auto; left; auto|].
      rewrite E2'. cbn [bind]. apply (IH s2); auto. intros f' x I. apply HQ. right. auto.
  Qed.
  Lemma clip_faces_related : forall (Q : vec -> Prop) fs st, Forall (valid_face (length vs)) fs -> (forall f x, In f fs -> crosspoint p tol (outline vs f) x -> Q x) ->
    clip_faces p tol vs dist fs = Ok st -> exists st', clip_faces_double fdot p tol vs dist' fs = Ok st' /\ related st st' /\ Forall Q (cs_ints st).
  Proof.
    intros Q fs st V HQ E. unfold clip_faces, clip_faces_double in *. eapply (loop_related Q fs _ _ st V HQ); eauto. { unfold related. cbn. repeat (split; [reflexivity|]). constructor. } constructor.
  Qed.
End Loop.
