(** Proofs about the clipping of a mesh: the faces and tolerances for which clipping goes wrong. *)
From Coq Require Import Reals List Arith Bool Lia Lra Psatz Permutation.
From Verif Require Import M_base P_base M_merge P_merge M_plane M_mesh S_merge S_mesh P_mesh S_geometry P_geometry S_plane P_plane
  M_connectivity M_clipper S_clipper P_hull P_cut P_clipper P_crown P_parts P_clipped P_clip_mesh P_curves.
Import ListNotations.
Open Scope R_scope.

(** ** Corners exactly at the tolerance *)
Definition exact (tol d : R) : bool := if Req_EM_T (Rabs d) tol then true else false.
Lemma masks_sum : forall tol ds, 0 <= tol ->
  (length (filter (above tol) ds) + length (filter (on tol) ds) + length (filter (below tol) ds) + length (filter (exact tol) ds) <= length ds)%nat.
Proof.
  intros tol ds T0. induction ds as [|d ds IH]; [simpl; lia|].
  assert (K : ((if above tol d then 1 else 0) + (if on tol d then 1 else 0) + (if below tol d then 1 else 0) + (if exact tol d then 1 else 0) <= 1)%nat).
  { unfold above, on, below, exact, Rltb. destruct (Req_EM_T (Rabs d) tol), (Rlt_dec tol d), (Rlt_dec (Rabs d) tol), (Rlt_dec d (- tol)); try lia;
      exfalso; unfold Rabs in *; destruct (Rcase_abs d); lra. }
  cbn [filter length]. destruct (above tol d), (on tol d), (below tol d), (exact tol d); cbn [length]; cbn iota in K; lia.
Qed.
Lemma where_length : forall X (h : X -> bool) l, length (where_ h l) = length (filter h l).
Proof. intros. apply (mapM_length _ _ _ _ _ (where_rows _ h l)) || (symmetry; apply (mapM_length _ _ _ _ _ (where_rows _ h l))). Qed.
Lemma clip_face_few : forall tol dist n face ds, mapM (get dist) face = Ok ds ->
  (length (filter (above tol) ds) + length (filter (on tol) ds) + length (filter (below tol) ds) <= 2)%nat ->
  clip_face tol dist n face = Raise PlainException.
Proof.
  intros tol dist n face ds E L. unfold clip_face. rewrite E. cbn [bind]. cbn zeta.
  assert (T : forall a o b, (3 <= a + o + b)%nat ->
    ((length (where_ (above tol) ds) =? a) && (length (where_ (on tol) ds) =? o) && (length (where_ (below tol) ds) =? b) = false)%nat).
  { intros a o b H. rewrite !where_length. destruct (Nat.eqb_spec (length (filter (above tol) ds)) a); auto.
    destruct (Nat.eqb_spec (length (filter (on tol) ds)) o); auto. destruct (Nat.eqb_spec (length (filter (below tol) ds)) b); auto. exfalso. lia. }
  rewrite !T by lia. reflexivity.
Qed.

Lemma filter_one : forall X (h : X -> bool) l x, In x l -> h x = true -> (1 <= length (filter h l))%nat.
Proof. intros. assert (I : In x (filter h l)) by (apply filter_In; auto). destruct (filter h l); simpl in *; [tauto|lia]. Qed.
Lemma filter_two : forall X (h : X -> bool) l i j x y, i <> j -> nth_error l i = Some x -> nth_error l j = Some y -> h x = true -> h y = true ->
  (2 <= length (filter h l))%nat.
Proof.
  induction l as [|a l IH]; intros i j x y N HI HJ HX HY; [destruct i; discriminate|].
  destruct i as [|i], j as [|j]; simpl in HI, HJ; try congruence; simpl.
  - injection HI as ->. rewrite HX. simpl. pose proof (filter_one _ h l y (nth_error_In _ _ HJ) HY). lia.
  - injection HJ as ->. rewrite HY. simpl. pose proof (filter_one _ h l x (nth_error_In _ _ HI) HX). lia.
  - pose proof (IH i j x y ltac:(congruence) HI HJ HX HY). destruct (h a); simpl; lia.
Qed.
Lemma exact_iff : forall p tol x, exact tol (plane_dist p x) = true <-> exactly_at p tol x.
Proof. intros. unfold exact, exactly_at. rewrite height_dist. destruct (Req_EM_T (Rabs (height p x)) tol); split; auto; discriminate. Qed.

Section Odd.
  Variables (p : plane) (tol : R) (argsort : list R -> list nat).
  Hypothesis T0 : 0 <= tol.
  Hypothesis SA : sorting argsort.

  Lemma face_dists : forall vs f, valid_face (length vs) f ->
    mapM (get (map (plane_dist p) vs)) (face_w f) = Ok (map (plane_dist p) (outline vs f)).
  Proof.
    intros vs f VF. rewrite outline_map. assert (K : forall i, In i (face_w f) -> (i < length vs)%nat) by (intros; eapply face_w_valid; eauto).
    induction (face_w f) as [|i l IH]; [reflexivity|]. cbn [mapM map]. rewrite (get_some _ _ i (plane_dist p (point vs i))).
    - cbn [bind]. rewrite IH by (intros; apply K; simpl; auto). reflexivity.
    - rewrite nth_error_map, nth_point by (apply K; simpl; auto). reflexivity.
  Qed.
  Lemma undecided_raises : forall vs f n, valid_face (length vs) f -> undecided p tol (outline vs f) ->
    clip_face tol (map (plane_dist p) vs) n (face_w f) = Raise PlainException.
  Proof.
    intros vs f n VF U. eapply clip_face_few; [apply face_dists; auto|]. pose proof (outline_length vs f) as OL.
    pose proof (masks_sum tol (map (plane_dist p) (outline vs f)) T0) as MS. rewrite map_length in MS.
    destruct OL as [OL|OL]; rewrite OL in MS.
    - assert (K : exists x, In x (outline vs f) /\ exactly_at p tol x) by (destruct (outline vs f) as [|? [|? [|? [|? ?]]]]; simpl in OL; try lia; exact U).
      destruct K as (x & I & X). pose proof (filter_one _ (exact tol) _ _ (in_map (plane_dist p) _ _ I) (proj2 (exact_iff p tol x) X)). lia.
    - assert (K : exists i j x y, i <> j /\ nth_error (outline vs f) i = Some x /\ nth_error (outline vs f) j = Some y /\ exactly_at p tol x /\ exactly_at p tol y)
        by (destruct (outline vs f) as [|? [|? [|? [|? ?]]]]; simpl in OL; try lia; exact U).
      destruct K as (i & j & x & y & N & HI & HJ & X & Y).
      pose proof (filter_two _ (exact tol) (map (plane_dist p) (outline vs f)) i j (plane_dist p x) (plane_dist p y) N) as FT.
      rewrite !nth_error_map, HI, HJ in FT. specialize (FT eq_refl eq_refl (proj2 (exact_iff p tol x) X) (proj2 (exact_iff p tol y) Y)). lia.
  Qed.
  Lemma foldM_raises : forall X Y (step : X -> Y -> res X) l a, Exists (fun y => forall x, exists e, step x y = Raise e) l ->
    exists e, foldM step l a = Raise e.
  Proof.
    intros X Y step l a H. revert a. induction H as [y l HY|y l H IH]; intros a; cbn [foldM].
    - destruct (HY a) as [e ->]. exists e. reflexivity.
    - destruct (step a y) as [x|e]; [apply IH|exists e; reflexivity].
  Qed.
  Lemma undecided_crown : forall vs f, undecided p tol (outline vs f) -> crown_face p tol vs f = true.
  Proof.
    intros vs f U. assert (K : exists x, In x (outline vs f) /\ exactly_at p tol x).
    { unfold undecided in U. destruct (outline vs f) as [|? [|? [|? [|? ?]]]]; auto;
        destruct U as (i & j & x & y & _ & HI & _ & X & _); exists x; split; auto; eapply nth_error_In; eauto. }
    destruct K as (x & I & X). apply crown_iff. rewrite !Forall_forall. unfold exactly_at, is_above, is_below, Rabs in *.
    split; intros H; specialize (H x I); cbv beta in H; destruct (Rcase_abs (height p x)); lra.
  Qed.
  Lemma clipper_undecided : forall closed m, valid m -> Exists (fun f => undecided p tol (outline (verts m) f)) (faces m) ->
    exists e, mesh_clipper argsort p tol closed m = Raise e.
  Proof.
    intros closed m V X. unfold mesh_clipper. destruct (refused tol (distances p m)); [exists RuntimeError; reflexivity|].
    destruct (partition_ok p tol m V) as (P & EP & IA & IC & IB & PU & PC & PL). rewrite EP. cbn [bind]. rewrite IC in PC.
    assert (R : exists e, clip_faces p tol (verts (pt_mesh (crown P))) (pt_dist (crown P)) (faces (pt_mesh (crown P))) = Raise e).
    { apply foldM_raises. apply Exists_exists in X as (f & I & U). apply In_nth_error in I as [id Hf].
      pose proof (part_faces p m _ _ V (where_bound _ _ _) PC) as F.
      assert (HI : In id (where_ (crown_face p tol (verts m)) (faces m))) by (apply in_where; exists f; split; auto; apply undecided_crown; auto).
      apply In_nth_error in HI as [k K]. destruct (Forall2_nth_error _ _ _ _ _ F k id K) as (f' & HF' & g & Hg & O & _).
      assert (g = f) by congruence. subst g. apply Exists_exists. exists f'. split; [eapply nth_error_In; eauto|].
      intros st. exists PlainException. unfold clip_step. rewrite (po_dist _ _ _ _ PC), undecided_raises; auto.
      - pose proof (po_valid _ _ _ _ PC) as VP. unfold valid in VP. rewrite Forall_forall in VP. apply VP. eapply nth_error_In; eauto.
      - rewrite O. auto. }
    destruct R as [e R]. exists e. unfold clip_crown. rewrite R. reflexivity.
  Qed.

  (** ** Corners of the clipped faces, whatever the faces *)
  Lemma turned_both : forall X (l a b : list X) (x y z w : X), a = [x; y; z; w] -> turned l a -> turned l b ->
    b = [x; y; z; w] \/ b = [y; z; w; x] \/ b = [z; w; x; y] \/ b = [w; x; y; z].
  Proof.
    intros X l a b x y z w -> T T'. pose proof (Permutation_length (turned_perm _ _ _ T)) as L. destruct T as [k T], T' as [k' ->].
    destruct l as [|q [|r [|s [|t [|? ?]]]]]; simpl in L; try lia.
    destruct k as [|[|[|[|k]]]]; simpl in T; rewrite ?skipn_nil, ?firstn_nil in T; simpl in T; injection T as -> -> -> ->;
      destruct k' as [|[|[|[|k']]]]; simpl; rewrite ?skipn_nil, ?firstn_nil; simpl; auto.
  Qed.
  Lemma Forall2_sym : forall X Y (P : X -> Y -> Prop) l m, Forall2 P l m -> Forall2 (fun y x => P x y) m l.
  Proof. intros. induction H; constructor; auto. Qed.
  (** The classes of four corners, and a turn of them *)
  Lemma seen_turn : forall V ics ps a b c d, Forall2 (seen p tol V) ics ps -> turned ps [a; b; c; d] ->
    exists i j k l, turned ics [i; j; k; l] /\ seen p tol V i a /\ seen p tol V j b /\ seen p tol V k c /\ seen p tol V l d.
  Proof.
    intros V ics ps a b c d S T. apply Forall2_sym in S. destruct (Forall2_turned _ _ _ _ _ _ S T) as (m & TM & F).
    inversion F as [|? i ? ? SI F1]; subst; clear F. inversion F1 as [|? j ? ? SJ F2]; subst; clear F1.
    inversion F2 as [|? k ? ? SK F3]; subst; clear F2. inversion F3 as [|? l ? ? SL F4]; subst; clear F3. inversion F4; subst.
    exists i, j, k, l. auto.
  Qed.
  Lemma seen_cls : forall V i x c, seen p tol V i x -> classed tol (height p x) c -> i = (fst i, c) /\ V (fst i) = Some x.
  Proof. intros V [i ci] x c [HV HC] H. simpl in *. split; auto. f_equal. apply (classed_dec tol (height p x)); auto. Qed.

  Lemma looks1 : forall V o a b c d x y z w, V a = Some x -> V b = Some y -> V c = Some z -> V d = Some w ->
    looks V [[a; b; c; d]] o -> o = [[x; y; z; w]].
  Proof.
    intros V o a b c d x y z w HA HB HC HD L. inversion L as [|? o1 ? ? L1 L2]; subst. inversion L2; subst.
    inversion L1 as [|? x' ? ? E1 M1]; subst; clear L1. inversion M1 as [|? y' ? ? E2 M2]; subst; clear M1.
    inversion M2 as [|? z' ? ? E3 M3]; subst; clear M2. inversion M3 as [|? w' ? ? E4 M4]; subst; clear M3. inversion M4; subst. congruence.
  Qed.
  Lemma face_pinched : forall vs V f t outs a b c d, proper p tol vs f -> (forall i, (i < length vs)%nat -> V i = Some (point vs i)) ->
    done p tol vs V f t -> looks V (q_faces (t_cut t)) outs -> turned (outline vs f) [a; b; c; d] -> is_above p tol a ->
    (is_below p tol b /\ is_near p tol c /\ is_near p tol d -> outs = [[b; c; d; b]]) /\
    (is_near p tol b /\ is_near p tol c /\ is_below p tol d -> outs = [[b; c; d; b]]).
  Proof.
    intros vs V f t outs a b c d P HV (OC & CT & NT) LK TO HA. pose proof (ics_seen p tol vs T0 V f P HV) as S.
    destruct (seen_turn V _ _ _ _ _ _ S TO) as (i & j & k & l & TI & SI & SJ & SK & SL).
    destruct (seen_cls _ _ _ A SI HA) as [EI VI].
    split; intros (HB & HC & HD).
    - destruct (seen_cls _ _ _ B SJ HB) as [EJ VJ]. destruct (seen_cls _ _ _ O SK HC) as [EK VK]. destruct (seen_cls _ _ _ O SL HD) as [EL VL].
      rewrite EI, EJ, EK, EL in TI. clear - OC TI LK VJ VK VL VI. remember (t_cut t) as cut. clear Heqcut.
      inversion OC as [ics' x T C|ics' x T C|ics' x T C|]; subst;
        destruct (turned_both _ _ _ _ _ _ _ _ eq_refl TI T) as [E|[E|[E|E]]]; subst ics'; inversion C; subst; simpl in *; try discriminate.
      eapply looks1; eauto.
    - destruct (seen_cls _ _ _ O SJ HB) as [EJ VJ]. destruct (seen_cls _ _ _ O SK HC) as [EK VK]. destruct (seen_cls _ _ _ B SL HD) as [EL VL].
      rewrite EI, EJ, EK, EL in TI. clear - OC TI LK VJ VK VL VI. remember (t_cut t) as cut. clear Heqcut.
      inversion OC as [ics' x T C|ics' x T C|ics' x T C|]; subst;
        destruct (turned_both _ _ _ _ _ _ _ _ eq_refl TI T) as [E|[E|[E|E]]]; subst ics'; inversion C; subst; simpl in *; try discriminate.
      eapply looks1; eauto.
  Qed.
  Lemma face_alternating : forall vs V f t outs, proper p tol vs f -> (forall i, (i < length vs)%nat -> V i = Some (point vs i)) ->
    done p tol vs V f t -> looks V (q_faces (t_cut t)) outs -> alternating p tol (outline vs f) ->
    exists o x, In o outs /\ In x o /\ In x (outline vs f) /\ is_above p tol x.
  Proof.
    intros vs V f t outs P HV (OC & CT & NT) LK (a & b & c & d & TO & HA & HB & HC & HD). pose proof (ics_seen p tol vs T0 V f P HV) as S.
    destruct (seen_turn V _ _ _ _ _ _ S TO) as (i & j & k & l & TI & SI & SJ & SK & SL).
    destruct (seen_cls _ _ _ A SI HA) as [EI VI]. destruct (seen_cls _ _ _ B SJ HB) as [EJ VJ].
    destruct (seen_cls _ _ _ A SK HC) as [EK VK]. destruct (seen_cls _ _ _ B SL HD) as [EL VL].
    assert (IA : In a (outline vs f)) by (apply (turned_in _ _ _ a TO); simpl; auto).
    assert (IC : In c (outline vs f)) by (apply (turned_in _ _ _ c TO); simpl; auto).
    rewrite EI, EJ, EK, EL in TI. clear - OC TI LK VJ VK VL VI IA IC HA HC CT NT. remember (t_cut t) as cut. clear Heqcut.
    assert (PICK : forall n q r s, q_faces cut = [[n; q; r; s]] -> (V q = Some a \/ V r = Some a \/ V q = Some c \/ V r = Some c) ->
      exists o x, In o outs /\ In x o /\ In x (outline vs f) /\ is_above p tol x).
    { intros n q r s E H. rewrite E in LK. inversion LK as [|? o ? ? L1 L2]; subst. exists o.
      inversion L1 as [|? x' ? ? E1 M1]; subst; clear L1. inversion M1 as [|? y' ? ? E2 M2]; subst; clear M1.
      inversion M2 as [|? z' ? ? E3 M3]; subst; clear M2.
      destruct H as [H|[H|[H|H]]]; [exists a|exists a|exists c|exists c]; (split; [simpl; auto|]); (split; [|auto]); simpl; intuition congruence. }
    inversion OC as [ics' x T C|ics' x T C|ics' x T C|R]; subst;
      try (destruct (turned_both _ _ _ _ _ _ _ _ eq_refl TI T) as [E|[E|[E|E]]]; subst ics'; inversion C; subst; simpl in *; try discriminate;
           (eapply PICK; [reflexivity|tauto])).
  Qed.

  (** All the faces are produced, whatever the shapes *)
  Lemma crown_looks : forall vs xs fs ts, Forall2 (done p tol vs (nth_error (vs ++ xs))) fs ts -> Forall (proper p tol vs) fs ->
    exists cr, Forall2 (looks (nth_error (vs ++ xs))) (map (fun t => q_faces (t_cut t)) ts) cr.
  Proof.
    intros vs xs fs ts D. induction D as [|f t fs ts D F IH]; intros P; [exists []; constructor|]. inversion P as [|? ? PF P']; subst.
    destruct (IH P') as [cr L].
    assert (K : forall l, In l (q_faces (t_cut t)) -> forall i, In i l -> (i < length (vs ++ xs))%nat).
    { intros l I i J. destruct (outcome_faces _ _ _ (proj1 D) l I) as [_ FA]. rewrite Forall_forall in FA. eapply known_bound; eauto. }
    assert (E : exists outs, looks (nth_error (vs ++ xs)) (q_faces (t_cut t)) outs).
    { revert K. generalize (q_faces (t_cut t)). induction l as [|l ls IHl]; intros K; [exists []; constructor|].
      destruct IHl as [outs H]; [intros; eapply K; simpl; eauto|].
      assert (E : exists o, Forall2 (fun i x => nth_error (vs ++ xs) i = Some x) l o).
      { assert (KL : forall i, In i l -> (i < length (vs ++ xs))%nat) by (intros; eapply K; simpl; eauto).
        clear - KL. induction l as [|i l IH]; [exists []; constructor|]. destruct IH as [o H]; [intros; apply KL; simpl; auto|].
        destruct (nth_error_lt _ _ _ (KL i (or_introl eq_refl))) as [x X]. exists (x :: o). constructor; auto. }
      destruct E as [o O']. exists (o :: outs). constructor; auto. }
    destruct E as [outs E]. exists (outs :: cr). constructor; auto.
  Qed.

  (** Everything known about the faces of the result, for any shapes *)
  Definition rough (m : mesh) (id : nat) (outs : list (list vec)) : Prop := exists f, nth_error (faces m) id = Some f /\
    (alternating p tol (outline (verts m) f) -> exists o x, In o outs /\ In x o /\ In x (outline (verts m) f) /\ is_above p tol x) /\
    (forall a b c d, turned (outline (verts m) f) [a; b; c; d] -> is_above p tol a ->
       is_below p tol b /\ is_near p tol c /\ is_near p tol d \/ is_near p tol b /\ is_near p tol c /\ is_below p tol d ->
       outs = [[b; c; d; b]]).
  Lemma clipper_rough : forall closed m k, valid m -> settled p tol m -> mesh_clipper argsort p tol closed m = Ok k ->
    exists low cr, length low = length (below_ids (k_partition k)) /\ Forall2 (rough m) (crown_ids (k_partition k)) cr /\
      Forall2 (near_face clip_move (verts (clipped k))) (low ++ concat cr) (faces (clipped k)).
  Proof.
    intros closed m k V S E. destruct (clipper_ok_inv p tol argsort T0 closed m k V S E) as (NA & NB & NT & ST).
    destruct (clipper_run p tol argsort T0 SA m V S NA NB NT ST) as (P & st & ts & fs4 & cc & new_id & direct & inv & r & RUN & EQ).
    rewrite EQ in E. destruct (curves (length direct) inv direct) as [cl op] eqn:EC.
    destruct (closed && negb (length op =? 0)%nat); [discriminate|]. injection E as <-. cbn [k_partition clipped].
    pose proof RUN as RUN'. destruct RUN as [EP IA IC IB PU PC PL PR CR EA].
    pose proof (cr_done _ _ _ _ _ _ _ _ _ _ _ _ CR) as D. destruct (crown_looks _ _ _ _ D PR) as [cr LC].
    pose proof (clip_run_near p tol argsort T0 SA m P st ts fs4 cc new_id direct inv r cr V ST RUN' LC) as NF. cbn zeta in NF.
    eexists. exists cr. split; [|split; [|exact NF]].
    { rewrite map_length. apply (restricts_count _ _ _ _ (po_restricts _ _ _ _ PL)). }
    assert (BC : Forall (fun i => (i < length (faces m))%nat) (crown_ids P)) by (rewrite IC; apply where_bound).
    pose proof (part_faces p m _ _ V BC PC) as FC.
    assert (K : Forall2 (fun f outs => (alternating p tol (outline (verts (pt_mesh (crown P))) f) ->
        exists o x, In o outs /\ In x o /\ In x (outline (verts (pt_mesh (crown P))) f) /\ is_above p tol x) /\
      (forall a b c d, turned (outline (verts (pt_mesh (crown P))) f) [a; b; c; d] -> is_above p tol a ->
         is_below p tol b /\ is_near p tol c /\ is_near p tol d \/ is_near p tol b /\ is_near p tol c /\ is_below p tol d ->
         outs = [[b; c; d; b]])) (faces (pt_mesh (crown P))) cr).
    { clear - D PR LC T0. revert cr LC. induction D as [|f t fs ts D F IH]; intros cr L; cbn [map] in L; inversion L as [|? outs ? cr' LO LR]; subst; constructor.
      - inversion PR; subst. split.
        + eapply face_alternating; eauto. intros i I. apply nth_app_point; auto.
        + intros a b c d T HA H. destruct (face_pinched (verts (pt_mesh (crown P))) (nth_error (verts (pt_mesh (crown P)) ++ cs_ints st)) f t outs a b c d) as [K1 K2]; auto.
          { intros i I. apply nth_app_point; auto. }
          destruct H; auto.
      - apply IH; auto. inversion PR; auto. }
    eapply Forall2_compose; [exact FC|exact K|]. intros id f' outs (f & Hf & O & _) H. rewrite O in H. exists f. auto.
  Qed.

  (** ** Vertices *)
  Lemma clipper_vertices : forall closed m k id f v, valid m -> settled p tol m -> mesh_clipper argsort p tol closed m = Ok k ->
    In id (crown_ids (k_partition k)) -> nth_error (faces m) id = Some f -> In v (outline (verts m) f) ->
    exists w, In w (verts (clipped k)) /\ near_point clip_move v w.
  Proof.
    intros closed m k id f v V S E ID Hf IV. destruct (clipper_ok_inv p tol argsort T0 closed m k V S E) as (NA & NB & NT & ST).
    destruct (clipper_run p tol argsort T0 SA m V S NA NB NT ST) as (P & st & ts & fs4 & cc & new_id & direct & inv & r & RUN & EQ).
    rewrite EQ in E. destruct (curves (length direct) inv direct) as [cl op] eqn:EC.
    destruct (closed && negb (length op =? 0)%nat); [discriminate|]. injection E as <-. cbn [k_partition clipped] in *.
    destruct RUN as [EP IA IC IB PU PC PL PR CR EA].
    assert (BC : Forall (fun i => (i < length (faces m))%nat) (crown_ids P)) by (rewrite IC; apply where_bound).
    pose proof (part_faces p m _ _ V BC PC) as FC. apply In_nth_error in ID as [n ID].
    destruct (Forall2_nth_error _ _ _ _ _ FC n id ID) as (f' & HF' & g & Hg & O & _). assert (g = f) by congruence. subst g.
    rewrite <- O in IV. apply outline_in in IV as (i & IE & ->). set (cv := verts (pt_mesh (crown P))) in *.
    pose proof (po_valid _ _ _ _ PC) as VP. unfold valid in VP. rewrite Forall_forall in VP.
    assert (BI : (i < length cv)%nat).
    { destruct (VP f' (nth_error_In _ _ HF')) as (H0 & H1 & H2 & H3). unfold entries in IE. simpl in IE. fold cv in H0, H1, H2, H3.
      repeat destruct IE as [<-|IE]; auto; contradiction. }
    assert (NV : verts (mkMesh (cv ++ cs_ints st) fs4) <> []).
    { simpl. intros Z. apply app_eq_nil in Z as [Z _]. rewrite Z in BI. simpl in BI. lia. }
    destruct (merge_mesh argsort crown_atol _ SA crown_atol_pos NV (cr_valid _ _ _ _ _ _ _ _ _ _ _ _ CR)) as (m' & ids & EM' & _ & VM & MM & _ & _).
    fold cv in EM', MM. rewrite (cr_merge _ _ _ _ _ _ _ _ _ _ _ _ CR) in EM'. injection EM' as <- <-.
    destruct (merged_close _ _ _ _ _ MM i (point cv i)) as (j & s & _ & HS & W1).
    { apply nth_app_point; auto. }
    set (cat := add_concat (pt_mesh (lower P)) cc) in *.
    assert (IS : In s (verts cat)) by (simpl; apply in_or_app; right; eapply nth_error_In; eauto).
    assert (NC : verts cat <> []) by (intros Z; rewrite Z in IS; destruct IS).
    destruct (merge_mesh argsort default_atol cat SA default_atol_pos NC (valid_add _ _ (po_valid _ _ _ _ PL) VM)) as (m2 & ids2 & _ & E2 & _ & M2 & _ & _).
    unfold add in EA. fold cat in EA. rewrite E2 in EA. injection EA as ->.
    apply In_nth_error in IS as [q IS]. destruct (merged_close _ _ _ _ _ M2 q s IS) as (q' & w & _ & HW & W2).
    exists w. split; [eapply nth_error_In; eauto|]. apply within_near in W1. apply within_near in W2.
    exact (near_trans _ _ _ _ _ W1 W2).
  Qed.

  (** ** Heights after merging *)
  Lemma height_near : forall t a b, near_point t a b ->
    Rabs (height p b - height p a) <= t * (Rabs (vx (p_normal p)) + Rabs (vy (p_normal p)) + Rabs (vz (p_normal p))).
  Proof.
    intros t a b (X & Y & Z). unfold height.
    replace (dot (p_normal p) b - p_scalar p - (dot (p_normal p) a - p_scalar p)) with
      (vx (p_normal p) * (vx b - vx a) + vy (p_normal p) * (vy b - vy a) + vz (p_normal p) * (vz b - vz a)) by (unfold dot; ring).
    eapply Rle_trans; [apply Rabs_triang|]. eapply Rle_trans; [apply Rplus_le_compat_r, Rabs_triang|]. rewrite !Rabs_mult.
    rewrite Rabs_minus_sym in X, Y, Z.
    pose proof (Rabs_pos (vx (p_normal p))). pose proof (Rabs_pos (vy (p_normal p))). pose proof (Rabs_pos (vz (p_normal p))). nra.
  Qed.
  Lemma unit_sum : forall n, unit n -> Rabs (vx n) + Rabs (vy n) + Rabs (vz n) <= 174 / 100.
  Proof.
    intros n U. unfold unit, dot in U.
    assert (SQ : forall a, Rabs a * Rabs a = a * a) by (intros; unfold Rabs; destruct (Rcase_abs a); ring).
    pose proof (SQ (vx n)). pose proof (SQ (vy n)). pose proof (SQ (vz n)).
    pose proof (Rabs_pos (vx n)). pose proof (Rabs_pos (vy n)). pose proof (Rabs_pos (vz n)).
    revert H H0 H1 H2 H3 H4. generalize (Rabs (vx n)) (Rabs (vy n)) (Rabs (vz n)). intros a b c Ha Hb Hc Pa Pb Pc.
    assert (Q : (a + b + c) * (a + b + c) <= 3).
    { pose proof (Rle_0_sqr (a - b)). pose proof (Rle_0_sqr (b - c)). pose proof (Rle_0_sqr (a - c)). unfold Rsqr in *. nra. }
    destruct (Rle_lt_dec (a + b + c) (174 / 100)) as [L|L]; auto. exfalso. nra.
  Qed.
  Lemma hull_corner : forall ps x, In x ps -> hull ps x.
  Proof. intros. apply hull_cone, cone_in; auto. Qed.
  Lemma clipper_under : forall closed m k, unit (p_normal p) -> valid m -> settled p tol m ->
    Forall (fun f => convex_outline (outline (verts m) f)) (faces m) -> Forall (fun f => ~ pinched p tol (outline (verts m) f)) (faces m) ->
    mesh_clipper argsort p tol closed m = Ok k ->
    Forall (fun f => valid_face (length (verts (clipped k))) f /\ Forall (fun x => height p x <= tol + 2 / 100000) (outline (verts (clipped k)) f)) (faces (clipped k)).
  Proof.
    intros closed m k U V S CV NP E. destruct (clipper_kept p tol argsort T0 SA closed m k V S CV NP E) as (_ & low & cr & KL & KC & NF).
    apply Forall_forall. intros f I. apply In_nth_error in I as [n HF]. destruct (Forall2_nth_error_r _ _ _ _ _ NF n f HF) as (o & HO & ps & CO & NE).
    split.
    { destruct CO as (a & b & c & d & -> & HA & HB & HC & HD). unfold valid_face.
      split; [eapply nth_error_bound; eauto|]. split; [eapply nth_error_bound; eauto|]. split; eapply nth_error_bound; eauto. }
    assert (HH : forall x, In x o -> height p x <= tol).
    { intros x IX. assert (IO : In o (concat low ++ concat cr)) by (eapply nth_error_In; eauto).
      assert (KK : exists id outs, In o outs /\ left_of p tol m id outs).
      { apply in_app_or in IO as [IO|IO]; apply in_concat in IO as (outs & I1 & I2); apply In_nth_error in I1 as [q I1];
          [destruct (Forall2_nth_error_r _ _ _ _ _ KL q outs I1) as (id & _ & LO)|destruct (Forall2_nth_error_r _ _ _ _ _ KC q outs I1) as (id & _ & LO)];
          exists id, outs; auto. }
      destruct KK as (id & outs & IO' & g & _ & KP). apply (kept_inside _ _ _ _ KP o x IO'). apply hull_corner; auto. }
    apply Forall_forall. intros y IY.
    assert (YP : In y ps).
    { destruct CO as (a & b & c & d & -> & HA & HB & HC & HD). apply outline_in in IY as (i & IE & ->). unfold entries in IE. unfold point.
      simpl in IE. destruct IE as [<-|[<-|[<-|[<-|[]]]]]; erewrite nth_error_nth by eassumption; simpl; auto. }
    apply In_nth_error in YP as [q YP]. destruct (Forall2_nth_error_r _ _ _ _ _ NE q y YP) as (x & HX & NX).
    pose proof (height_near _ _ _ NX) as HN. pose proof (HH x (nth_error_In _ _ HX)) as H0. pose proof (unit_sum _ U) as US.
    unfold clip_move in HN. apply Rabs_le_inv in HN || idtac.
    assert (height p y - height p x <= 2 / 100000); [|lra]. eapply Rle_trans; [apply Rle_abs|]. eapply Rle_trans; [exact HN|]. nra.
  Qed.
End Odd.
