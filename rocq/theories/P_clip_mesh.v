(** Proofs about the clipping of a mesh: the clipper as a whole. *)
From Coq Require Import Reals List Arith Bool Lia Lra Psatz Sorting.Sorted.
From Verif Require Import M_base P_base M_merge P_merge M_plane M_mesh S_merge S_mesh P_mesh S_geometry S_plane P_plane
  M_connectivity M_clipper S_clipper P_hull P_cut P_clipper P_crown P_parts P_clipped.
Import ListNotations.
Open Scope R_scope.

Lemma Forall2_nth_intro : forall X Y (P : X -> Y -> Prop) l m, length l = length m ->
  (forall k x, nth_error l k = Some x -> exists y, nth_error m k = Some y /\ P x y) -> Forall2 P l m.
Proof.
  induction l as [|x l IH]; intros [|y m] L H; simpl in L; try lia; constructor.
  - destruct (H 0%nat x eq_refl) as (y' & E & Q). simpl in E. congruence.
  - apply IH; [lia|]. intros k z K. exact (H (S k) z K).
Qed.

(** Faces of a part *)
Definition same_face (m : mesh) (q : part) (id : nat) (f' : face) : Prop :=
  exists f, nth_error (faces m) id = Some f /\ outline (verts (pt_mesh q)) f' = outline (verts m) f /\
    forall ps, corners (verts (pt_mesh q)) f' ps <-> corners (verts m) f ps.
Lemma part_faces : forall p m ids q, valid m -> Forall (fun i => (i < length (faces m))%nat) ids -> part_of p m ids q ->
  Forall2 (same_face m q) ids (faces (pt_mesh q)).
Proof.
  intros p m ids q V B [RS _ _]. apply Forall2_nth_intro; [symmetry; apply (restricts_count _ _ _ _ RS)|].
  intros k id K. rewrite Forall_forall in B. destruct (nth_error_lt _ _ _ (B id (nth_error_In _ _ K))) as [f Hf].
  destruct (part_face _ _ _ _ _ _ _ RS V K Hf) as (f' & Hf' & O & _ & C). exists f'. split; auto. exists f. auto.
Qed.

(** Corners of a face of a valid mesh *)
Lemma corners_of : forall vs f, valid_face (length vs) f -> corners vs f [point vs (f0 f); point vs (f1 f); point vs (f2 f); point vs (f3 f)].
Proof. intros vs f (H0 & H1 & H2 & H3). unfold corners. do 4 eexists. split; [reflexivity|]. repeat split; apply nth_point; auto. Qed.
Lemma corners_fun : forall vs f ps ps', corners vs f ps -> corners vs f ps' -> ps = ps'.
Proof. intros vs f ps ps' (a & b & c & d & -> & ? & ? & ? & ?) (a' & b' & c' & d' & -> & ? & ? & ? & ?). congruence. Qed.

Lemma outline_in : forall vs f x, In x (outline vs f) <-> exists i, In i (entries f) /\ x = point vs i.
Proof.
  intros vs f x. unfold outline, entries. split.
  - destruct (Nat.eq_dec (f0 f) (f3 f)); intros I; simpl in I; repeat destruct I as [<-|I]; try contradiction; eexists; (split; [|reflexivity]); simpl; tauto.
  - intros (i & I & ->). simpl in I. destruct (Nat.eq_dec (f0 f) (f3 f)) as [E|E]; repeat destruct I as [<-|I]; try contradiction; simpl; rewrite <- ?E; auto.
Qed.
Lemma upper_iff : forall p tol vs f, upper_face p tol vs f = true <-> Forall (is_above p tol) (outline vs f).
Proof.
  intros. unfold upper_face, four. rewrite forallb_forall, Forall_forall. split.
  - intros H x I. apply outline_in in I as (i & I & ->). apply above_iff; auto.
  - intros H i I. apply above_iff, H, outline_in. eauto.
Qed.
Lemma lower_iff : forall p tol vs f, lower_face p tol vs f = true <-> Forall (is_below p tol) (outline vs f).
Proof.
  intros. unfold lower_face, four. rewrite forallb_forall, Forall_forall. split.
  - intros H x I. apply outline_in in I as (i & I & ->). apply below_iff; auto.
  - intros H i I. apply below_iff, H, outline_in. eauto.
Qed.
Lemma crown_iff : forall p tol vs f, crown_face p tol vs f = true <->
  ~ Forall (is_above p tol) (outline vs f) /\ ~ Forall (is_below p tol) (outline vs f).
Proof.
  intros. unfold crown_face. rewrite <- upper_iff, <- lower_iff, andb_true_iff, !negb_true_iff, <- !Bool.not_true_iff_false. tauto.
Qed.

Lemma kept_above : forall p tol ps, 0 <= tol -> Forall (is_above p tol) ps -> kept_part p tol ps [].
Proof.
  intros p tol ps T F. apply kdrop; auto. intros q Q. rewrite Forall_forall in F. specialize (F q Q). unfold is_above in F. left; lra.
Qed.
Lemma kept_whole : forall p tol vs f, 0 <= tol -> Forall (is_below p tol) (outline vs f) ->
  kept_part p tol (outline vs f) [[point vs (f0 f); point vs (f1 f); point vs (f2 f); point vs (f3 f)]].
Proof.
  intros p tol vs f T F.
  assert (L : forall q, In q (outline vs f) -> height p q <= 0 \/ is_near p tol q).
  { intros q Q. rewrite Forall_forall in F. specialize (F q Q). unfold is_below in F. left; lra. }
  unfold outline in *. destruct (Nat.eq_dec (f0 f) (f3 f)) as [E|E].
  - rewrite <- E. apply kwhole3; auto.
  - apply kwhole4; auto.
Qed.

Section Whole.
  Variables (p : plane) (tol : R) (argsort : list R -> list nat).
  Hypothesis T0 : 0 <= tol.
  Hypothesis SA : sorting argsort.

  Lemma part_forall : forall m ids q (P : list vec -> Prop), valid m -> Forall (fun i => (i < length (faces m))%nat) ids -> part_of p m ids q ->
    (forall id f, In id ids -> nth_error (faces m) id = Some f -> P (outline (verts m) f)) ->
    Forall (fun f' => P (outline (verts (pt_mesh q)) f')) (faces (pt_mesh q)).
  Proof.
    intros m ids q P V B PO H. pose proof (part_faces p m ids q V B PO) as F. apply Forall_forall. intros f' I.
    apply In_nth_error in I as [k K]. destruct (Forall2_nth_error_r _ _ _ _ _ F k f' K) as (id & HI & f & Hf & O & _).
    rewrite O. apply (H id f); auto. eapply nth_error_In; eauto.
  Qed.
  Lemma part_proper : forall m ids q, valid m -> settled p tol m -> Forall (fun i => (i < length (faces m))%nat) ids -> part_of p m ids q ->
    Forall (proper p tol (verts (pt_mesh q))) (faces (pt_mesh q)).
  Proof.
    intros m ids q V S B PO. pose proof (part_forall m ids q (Forall (sorted_out p tol)) V B PO) as F.
    pose proof (po_valid _ _ _ _ PO) as VP. unfold valid in VP. rewrite Forall_forall in *. intros f I. split; [auto|]. apply F; auto.
    intros id g _ G. unfold settled in S. rewrite Forall_forall in S. apply S. eapply nth_error_In; eauto.
  Qed.

  Lemma crown_straddles : forall m ids q, valid m -> ids = where_ (crown_face p tol (verts m)) (faces m) -> part_of p m ids q ->
    (Exists (fun f => exists x, In x (outline (verts (pt_mesh q)) f) /\ is_below p tol x) (faces (pt_mesh q)) <-> straddling p tol m).
  Proof.
    intros m ids q V -> PO. pose proof (part_faces p m _ q V (where_bound _ _ _) PO) as F. split.
    - intros X. apply Exists_exists in X as (f' & I & x & IX & BX). apply In_nth_error in I as [k K].
      destruct (Forall2_nth_error_r _ _ _ _ _ F k f' K) as (id & HI & f & Hf & O & _). rewrite O in IX.
      apply nth_error_In in HI. apply in_where in HI as (f'' & Hf' & C). assert (f'' = f) by congruence. subst f''.
      apply crown_iff in C as [_ C]. exists f. split; [eapply nth_error_In; eauto|]. split; [eauto|].
      destruct (Forall_Exists_dec (is_below p tol) (fun x => Rlt_dec _ _) (outline (verts m) f)) as [Y|Y]; [contradiction|].
      apply Exists_exists in Y. exact Y.
    - intros (f & I & (x & IX & BX) & (y & IY & NY)). apply In_nth_error in I as [id Hf].
      assert (HI : In id (where_ (crown_face p tol (verts m)) (faces m))).
      { apply in_where. exists f. split; auto. apply crown_iff. rewrite !Forall_forall. split; intros H.
        - specialize (H x IX). unfold is_above, is_below in *. lra.
        - apply NY. auto. }
      apply In_nth_error in HI as [k K]. destruct (Forall2_nth_error _ _ _ _ _ F k id K) as (f' & HF' & g & Hg & O & _).
      assert (g = f) by congruence. subst g. apply Exists_exists. exists f'. split; [eapply nth_error_In; eauto|]. rewrite O. eauto.
  Qed.

  Lemma three_crown : forall vs f, three_near p tol (outline vs f) -> crown_face p tol vs f = true.
  Proof.
    intros vs f (a & b & c & d & T & HA & _). apply crown_iff. rewrite !Forall_forall.
    assert (I : In a (outline vs f)) by (apply (turned_in _ _ _ a T); simpl; auto).
    unfold is_near, is_above, is_below in *. split; intros H; specialize (H a I); lra.
  Qed.

  (** Outcome of the clipper, in all cases *)
  Lemma clipper_refused : forall closed m, Forall (is_above p tol) (verts m) \/ Forall (is_below p tol) (verts m) ->
    mesh_clipper argsort p tol closed m = Raise RuntimeError.
  Proof.
    intros closed m H. unfold mesh_clipper. destruct (refused tol (distances p m)) eqn:E; auto. exfalso.
    assert (A : ~ Forall (is_above p tol) (verts m)) by (intros A; apply refused_above in A; congruence).
    destruct H as [H|H]; auto. assert (Z : refused tol (distances p m) = Some AllBelow) by (apply refused_below; auto). congruence.
  Qed.
  Lemma not_refused : forall m, ~ Forall (is_above p tol) (verts m) -> ~ Forall (is_below p tol) (verts m) ->
    refused tol (distances p m) = None.
  Proof.
    intros m A B. destruct (refused tol (distances p m)) as [[]|] eqn:E; auto; exfalso.
    - apply refused_above in E. auto.
    - apply refused_below in E. tauto.
  Qed.

  Lemma crown_three : forall m q, valid m -> part_of p m (where_ (crown_face p tol (verts m)) (faces m)) q ->
    (Forall (fun f => ~ three_near p tol (outline (verts m) f)) (faces m) ->
      Forall (fun f => ~ three_near p tol (outline (verts (pt_mesh q)) f)) (faces (pt_mesh q))) /\
    (Exists (fun f => three_near p tol (outline (verts m) f)) (faces m) ->
      Exists (fun f => three_near p tol (outline (verts (pt_mesh q)) f)) (faces (pt_mesh q))).
  Proof.
    intros m q V PO. pose proof (part_faces p m _ q V (where_bound _ _ _) PO) as F. split; intros H.
    - apply (part_forall m _ q (fun ps => ~ three_near p tol ps) V (where_bound _ _ _) PO). intros id f _ Hf.
      rewrite Forall_forall in H. apply H. eapply nth_error_In; eauto.
    - apply Exists_exists in H as (f & I & TN). apply In_nth_error in I as [id Hf].
      assert (HI : In id (where_ (crown_face p tol (verts m)) (faces m))) by (apply in_where; exists f; split; auto; apply three_crown; auto).
      apply In_nth_error in HI as [k K]. destruct (Forall2_nth_error _ _ _ _ _ F k id K) as (f' & HF' & g & Hg & O & _).
      assert (g = f) by congruence. subst g. apply Exists_exists. exists f'. split; [eapply nth_error_In; eauto|]. rewrite O. auto.
  Qed.

  Lemma clipper_three : forall closed m, valid m -> settled p tol m -> ~ Forall (is_above p tol) (verts m) -> ~ Forall (is_below p tol) (verts m) ->
    Exists (fun f => three_near p tol (outline (verts m) f)) (faces m) -> mesh_clipper argsort p tol closed m = Raise PlainException.
  Proof.
    intros closed m V S NA NB X. unfold mesh_clipper. rewrite not_refused by auto.
    destruct (partition_ok p tol m V) as (P & EP & IA & IC & IB & PU & PC & PL). rewrite EP. cbn [bind].
    rewrite IC in PC. pose proof (part_proper m _ _ V S (where_bound _ _ _) PC) as PR.
    pose proof (proj2 (crown_three m _ V PC) X) as X'.
    unfold clip_crown. cbn zeta. rewrite (po_dist _ _ _ _ PC). unfold clip_faces. rewrite loop_raise; auto.
    apply Exists_exists in X' as (f & I & TN). apply Exists_exists. exists f. split; auto.
    rewrite Forall_forall in PR. apply three_near_O; auto.
  Qed.
  Lemma clipper_dropped : forall closed m, valid m -> settled p tol m -> ~ Forall (is_above p tol) (verts m) -> ~ Forall (is_below p tol) (verts m) ->
    Forall (fun f => ~ three_near p tol (outline (verts m) f)) (faces m) -> ~ straddling p tol m ->
    mesh_clipper argsort p tol closed m = Raise IndexError.
  Proof.
    intros closed m V S NA NB X NS. unfold mesh_clipper. rewrite not_refused by auto.
    destruct (partition_ok p tol m V) as (P & EP & IA & IC & IB & PU & PC & PL). rewrite EP. cbn [bind].
    rewrite IC in PC. pose proof (part_proper m _ _ V S (where_bound _ _ _) PC) as PR.
    destruct (crown_dropped p tol T0 (verts (pt_mesh (crown P))) (faces (pt_mesh (crown P))) PR) as (st & E & Z).
    { exact (proj1 (crown_three m _ V PC) X). }
    { rewrite (crown_straddles m _ _ V eq_refl PC). auto. }
    unfold clip_crown. cbn zeta. rewrite (po_dist _ _ _ _ PC), E. cbn [bind]. rewrite Z. reflexivity.
  Qed.

  (** Everything about a run that reaches the end *)
  Record clip_run (m : mesh) (P : partition) (st : crown_state) (ts : list turn_of) (fs4 : list face) (cc : mesh) (new_id : list nat)
      (direct inv : list (nat * nat)) (r : mesh) : Prop := {
    ru_partition : partition_mesh p tol m = Ok P;
    ru_above : above_ids P = where_ (upper_face p tol (verts m)) (faces m);
    ru_crown : crown_ids P = where_ (crown_face p tol (verts m)) (faces m);
    ru_below : below_ids P = where_ (lower_face p tol (verts m)) (faces m);
    ru_upper_part : part_of p m (above_ids P) (upper P);
    ru_crown_part : part_of p m (crown_ids P) (crown P);
    ru_lower_part : part_of p m (below_ids P) (lower P);
    ru_proper : Forall (proper p tol (verts (pt_mesh (crown P)))) (faces (pt_mesh (crown P)));
    ru_crown_run : crown_run p tol argsort (verts (pt_mesh (crown P))) (faces (pt_mesh (crown P))) st ts fs4 cc new_id direct inv;
    ru_add : add argsort (pt_mesh (lower P)) cc = Ok r
  }.
  Lemma clipper_run : forall m, valid m -> settled p tol m -> ~ Forall (is_above p tol) (verts m) -> ~ Forall (is_below p tol) (verts m) ->
    Forall (fun f => ~ three_near p tol (outline (verts m) f)) (faces m) -> straddling p tol m ->
    exists P st ts fs4 cc new_id direct inv r, clip_run m P st ts fs4 cc new_id direct inv r /\
      forall closed, mesh_clipper argsort p tol closed m =
        let '(cl, op) := curves (length direct) inv direct in
        if closed && negb (length op =? 0)%nat then Raise RuntimeError else Ok (mkClipper P cc cl op r).
  Proof.
    intros m V S NA NB X ST. destruct (partition_ok p tol m V) as (P & EP & IA & IC & IB & PU & PC & PL).
    pose proof PC as PC'. rewrite IC in PC'. pose proof (part_proper m _ _ V S (where_bound _ _ _) PC') as PR.
    destruct (crown_total p tol T0 argsort (verts (pt_mesh (crown P))) (faces (pt_mesh (crown P))) SA PR) as
      (st & ts & fs4 & cc & new_id & direct & inv & RUN & EA).
    { exact (proj1 (crown_three m _ V PC') X). }
    { apply (crown_straddles m _ _ V eq_refl PC'). auto. }
    assert (NV : verts (mkMesh (verts (pt_mesh (crown P)) ++ cs_ints st) fs4) <> []).
    { intros Z. simpl in Z. apply app_eq_nil in Z as [Z _].
      pose proof (proj2 (crown_straddles m _ _ V eq_refl PC') ST) as Y. apply Exists_exists in Y as (f & I & _).
      rewrite Forall_forall in PR. destruct (PR f I) as [(H & _) _]. rewrite Z in H. simpl in H. lia. }
    destruct (merge_mesh argsort crown_atol _ SA crown_atol_pos NV (cr_valid _ _ _ _ _ _ _ _ _ _ _ _ RUN)) as (m' & ids & EM & _ & VM & MM & _ & _).
    rewrite (cr_merge _ _ _ _ _ _ _ _ _ _ _ _ RUN) in EM. injection EM as -> ->.
    assert (NR : verts (pt_mesh (lower P)) ++ verts m' <> []).
    { intros Z. apply app_eq_nil in Z as [_ Z]. destruct (verts (mkMesh (verts (pt_mesh (crown P)) ++ cs_ints st) fs4)) as [|v l] eqn:E; [auto|].
      destruct (merged_close _ _ _ _ _ MM 0%nat v eq_refl) as (k & s & _ & K & _). rewrite Z in K. destruct k; discriminate. }
    destruct (add_spec argsort (pt_mesh (lower P)) m' SA (po_valid _ _ _ _ PL) VM NR) as (r & ER & _).
    exists P, st, ts, fs4, m', ids, direct, inv, r. split; [split; auto|].
    intros closed. unfold mesh_clipper. rewrite not_refused by auto. rewrite EP. cbn [bind]. unfold clip_crown. cbn zeta.
    rewrite (po_dist _ _ _ _ PC), (cr_loop _ _ _ _ _ _ _ _ _ _ _ _ RUN). cbn [bind]. rewrite EA. cbn [bind].
    rewrite (cr_merge _ _ _ _ _ _ _ _ _ _ _ _ RUN). cbn [bind]. rewrite (cr_renumber _ _ _ _ _ _ _ _ _ _ _ _ RUN). cbn [bind].
    rewrite (cr_renumber_inv _ _ _ _ _ _ _ _ _ _ _ _ RUN). cbn [bind].
    destruct (curves (length direct) inv direct) as [cl op]. destruct (closed && negb (length op =? 0)%nat); [reflexivity|].
    cbn [bind]. rewrite ER. reflexivity.
  Qed.

  (** A successful run meets the conditions above *)
  Lemma clipper_ok_inv : forall closed m k, valid m -> settled p tol m -> mesh_clipper argsort p tol closed m = Ok k ->
    ~ Forall (is_above p tol) (verts m) /\ ~ Forall (is_below p tol) (verts m) /\
    Forall (fun f => ~ three_near p tol (outline (verts m) f)) (faces m) /\ straddling p tol m.
  Proof.
    intros closed m k V S E.
    assert (NA : ~ Forall (is_above p tol) (verts m)) by (intros H; rewrite clipper_refused in E by auto; discriminate).
    assert (NB : ~ Forall (is_below p tol) (verts m)) by (intros H; rewrite clipper_refused in E by auto; discriminate).
    split; [auto|]. split; [auto|].
    assert (NT : Forall (fun f => ~ three_near p tol (outline (verts m) f)) (faces m)).
    { apply Forall_forall. intros f I TN. rewrite clipper_three in E; auto; [discriminate|]. apply Exists_exists. eauto. }
    split; [auto|]. destruct (Classical_Prop.classic (straddling p tol m)) as [ST|ST]; auto. rewrite clipper_dropped in E by auto. discriminate.
  Qed.

  (** ** Geometry of the result *)
  Lemma near_trans : forall s t a b c, near_point s a b -> near_point t b c -> near_point (s + t) a c.
  Proof.
    assert (T : forall x y z s t, Rabs (x - y) <= s -> Rabs (y - z) <= t -> Rabs (x - z) <= s + t).
    { intros. replace (x - z) with ((x - y) + (y - z)) by ring. eapply Rle_trans; [apply Rabs_triang|]. lra. }
    intros s t a b c (A1 & A2 & A3) (B1 & B2 & B3). unfold near_point. repeat split; eapply T; eauto.
  Qed.
  Lemma near_weak : forall s t a b, s <= t -> near_point s a b -> near_point t a b.
  Proof. intros s t a b L (A1 & A2 & A3). unfold near_point. lra. Qed.
  Lemma Forall2_near_trans : forall s t a b c, Forall2 (near_point s) a b -> Forall2 (near_point t) b c -> Forall2 (near_point (s + t)) a c.
  Proof.
    intros s t a b c H. revert c. induction H; intros c K; inversion K; subst; constructor; eauto. eapply near_trans; eauto.
  Qed.

  Lemma concat_single : forall X (l : list X), concat (map (fun x => [x]) l) = l.
  Proof. induction l; simpl; congruence. Qed.
  Lemma looks_concat : forall V ls outs, Forall2 (looks V) ls outs -> looks V (concat ls) (concat outs).
  Proof. intros V ls outs F. induction F; simpl; [constructor|]. apply Forall2_app; auto. Qed.

  Lemma crown_kept : forall vs xs fs ts, Forall2 (done p tol vs (nth_error (vs ++ xs))) fs ts -> Forall (proper p tol vs) fs ->
    Forall (fun f => convex_outline (outline vs f)) fs -> Forall (fun f => ~ pinched p tol (outline vs f)) fs ->
    exists cr, Forall2 (fun f outs => kept_part p tol (outline vs f) outs) fs cr /\
      Forall2 (looks (nth_error (vs ++ xs))) (map (fun t => q_faces (t_cut t)) ts) cr.
  Proof.
    intros vs xs fs ts D. induction D as [|f t fs ts D F IH]; intros P C N.
    - exists []. split; constructor.
    - inversion P; inversion C; inversion N; subst. destruct IH as (cr & K & L); auto.
      destruct (face_kept p tol T0 vs (nth_error (vs ++ xs)) f t) as (outs & LO & KO); auto.
      { intros i I. apply nth_app_point; auto. }
      exists (outs :: cr). split; constructor; auto.
  Qed.
  Lemma Forall2_map_r : forall X Y Z (P : X -> Y -> Prop) (Q : X -> Z -> Prop) (g : Y -> Z) l m,
    (forall x y, In x l -> P x y -> Q x (g y)) -> Forall2 P l m -> Forall2 Q l (map g m).
  Proof. intros X Y Z P Q g l m H F. induction F; simpl; constructor; [apply H; simpl; auto|]. apply IHF. intros; apply H; simpl; auto. Qed.
  Lemma Forall2_compose : forall X Y Z (P : X -> Y -> Prop) (Q : Y -> Z -> Prop) (U : X -> Z -> Prop) l m n,
    Forall2 P l m -> Forall2 Q m n -> (forall x y z, P x y -> Q y z -> U x z) -> Forall2 U l n.
  Proof. intros X Y Z P Q U l m n F. revert n. induction F; intros n G HU; inversion G; subst; constructor; eauto. Qed.

  Lemma clip_run_near : forall m P st ts fs4 cc new_id direct inv r cr, valid m -> straddling p tol m ->
    clip_run m P st ts fs4 cc new_id direct inv r ->
    Forall2 (looks (nth_error (verts (pt_mesh (crown P)) ++ cs_ints st))) (map (fun t => q_faces (t_cut t)) ts) cr ->
    Forall2 (near_face clip_move (verts r))
      (map (fun f => let lv := verts (pt_mesh (lower P)) in [point lv (f0 f); point lv (f1 f); point lv (f2 f); point lv (f3 f)]) (faces (pt_mesh (lower P))) ++ concat cr)
      (faces r).
  Proof.
    intros m P st ts fs4 cc new_id direct inv r cr V ST [EP IA IC IB PU PC PL PR CR EA] LC. cbn zeta.
    set (lv := verts (pt_mesh (lower P))). set (lf := faces (pt_mesh (lower P))).
    set (pts := fun f => [point lv (f0 f); point lv (f1 f); point lv (f2 f); point lv (f3 f)]).
    set (cv := verts (pt_mesh (crown P))) in *. set (VV := nth_error (cv ++ cs_ints st)) in *.
    pose proof (cr_array _ _ _ _ _ _ _ _ _ _ _ _ CR) as AR. pose proof (cr_valid _ _ _ _ _ _ _ _ _ _ _ _ CR) as VC.
    pose proof (cr_merge _ _ _ _ _ _ _ _ _ _ _ _ CR) as EM. fold cv in VC, EM.
    assert (NV : verts (mkMesh (cv ++ cs_ints st) fs4) <> []).
    { intros Z. simpl in Z. apply app_eq_nil in Z as [Z _]. rewrite IC in PC.
      pose proof (proj2 (crown_straddles m _ _ V eq_refl PC) ST) as Y. apply Exists_exists in Y as (f & I & _).
      rewrite Forall_forall in PR. destruct (PR f I) as [(H & _) _]. rewrite Z in H. simpl in H. lia. }
    destruct (merge_mesh argsort crown_atol _ SA crown_atol_pos NV VC) as (m' & ids & EM' & _ & VM & MM & LM & FM).
    rewrite EM in EM'. injection EM' as -> ->.
    assert (NR : verts (pt_mesh (lower P)) ++ verts m' <> []).
    { intros Z. apply app_eq_nil in Z as [_ Z]. destruct (verts (mkMesh (cv ++ cs_ints st) fs4)) as [|v l] eqn:E; [auto|].
      destruct (merged_close _ _ _ _ _ MM 0%nat v eq_refl) as (k & s & _ & K & _). rewrite Z in K. destruct k; discriminate. }
    destruct (add_spec argsort (pt_mesh (lower P)) m' SA (po_valid _ _ _ _ PL) VM NR) as (r' & ER & VR & LR & P1 & P2).
    rewrite EA in ER. injection ER as ->. fold lf in LR, P1, P2.
    assert (L2 : looks VV (cs_faces st) (concat cr)).
    { rewrite (cr_faces _ _ _ _ _ _ _ _ _ _ _ _ CR). apply looks_concat. auto. }
    apply Forall2_nth_intro.
    - rewrite app_length, map_length, LR, LM. simpl faces. rewrite <- (Forall2_len _ _ _ _ _ AR), <- (Forall2_len _ _ _ _ _ L2). auto.
    - intros k o K. destruct (Nat.lt_ge_cases k (length lf)) as [KL|KL].
      -- rewrite nth_error_app1 in K by (rewrite map_length; auto). rewrite nth_error_map in K.
         destruct (nth_error lf k) as [f|] eqn:Hf; [|discriminate]. simpl in K. injection K as <-.
         destruct (P1 k (pts f)) as (ps' & (g & Hg & CG) & N).
         { exists f. split; auto. apply corners_of. pose proof (po_valid _ _ _ _ PL) as VL. unfold valid in VL. rewrite Forall_forall in VL.
           apply VL. eapply nth_error_In; eauto. }
         exists g. split; auto. exists ps'. split; auto. eapply Forall2_weaken; [|exact N]. intros a b. apply near_weak.
         unfold default_atol, clip_move. lra.
      -- rewrite nth_error_app2 in K by (rewrite map_length; auto). rewrite map_length in K.
         destruct (Forall2_nth_error_r _ _ _ _ _ L2 _ _ K) as (l & HL & LL).
         destruct (Forall2_nth_error _ _ _ _ _ AR _ _ HL) as (f & Hf & ->).
         assert (FP : face_points (mkMesh (cv ++ cs_ints st) fs4) (k - length lf) o).
         { exists f. split; auto. simpl. unfold entries in LL. inversion LL as [|? a ? ? HA L3]; subst; clear LL.
           inversion L3 as [|? b ? ? HB L4]; subst; clear L3. inversion L4 as [|? c ? ? HC L5]; subst; clear L4.
           inversion L5 as [|? d ? ? HD L6]; subst; clear L5. inversion L6; subst. exists a, b, c, d. auto. }
         destruct (merge_points crown_atol _ _ _ _ _ VC MM FM FP) as (ps' & FP' & N).
         destruct (P2 _ _ FP') as (ps'' & FP'' & N'). replace (length lf + (k - length lf))%nat with k in FP'' by lia.
         destruct FP'' as (g & Hg & CG). exists g. split; auto. exists ps''. split; auto.
         exact (Forall2_near_trans _ _ _ _ _ N N').
  Qed.
  Lemma clipper_kept : forall closed m k, valid m -> settled p tol m -> Forall (fun f => convex_outline (outline (verts m) f)) (faces m) ->
    Forall (fun f => ~ pinched p tol (outline (verts m) f)) (faces m) ->
    mesh_clipper argsort p tol closed m = Ok k ->
    (forall id, In id (above_ids (k_partition k)) -> left_of p tol m id []) /\
    exists low cr, Forall2 (left_of p tol m) (below_ids (k_partition k)) low /\ Forall2 (left_of p tol m) (crown_ids (k_partition k)) cr /\
      Forall2 (near_face clip_move (verts (clipped k))) (concat low ++ concat cr) (faces (clipped k)).
  Proof.
    intros closed m k V S CV NP E. destruct (clipper_ok_inv closed m k V S E) as (NA & NB & NT & ST).
    destruct (clipper_run m V S NA NB NT ST) as (P & st & ts & fs4 & cc & new_id & direct & inv & r & RUN & EQ).
    rewrite EQ in E. destruct (curves (length direct) inv direct) as [cl op].
    destruct (closed && negb (length op =? 0)%nat); [discriminate|]. injection E as <-. cbn [k_partition clipped].
    pose proof RUN as RUN'. destruct RUN as [EP IA IC IB PU PC PL PR CR EA]. split.
    - intros id I. rewrite IA in I. apply in_where in I as (f & Hf & U). exists f. split; auto. apply kept_above; auto. apply upper_iff; auto.
    - (* lower part: one face each, unchanged *)
      assert (BB : Forall (fun i => (i < length (faces m))%nat) (below_ids P)) by (rewrite IB; apply where_bound).
      assert (BC : Forall (fun i => (i < length (faces m))%nat) (crown_ids P)) by (rewrite IC; apply where_bound).
      set (lv := verts (pt_mesh (lower P))). set (lf := faces (pt_mesh (lower P))).
      set (pts := fun f => [point lv (f0 f); point lv (f1 f); point lv (f2 f); point lv (f3 f)]).
      exists (map (fun f => [pts f]) lf).
      pose proof (part_faces p m _ _ V BB PL) as FL. pose proof (part_faces p m _ _ V BC PC) as FC.
      (* crown *)
      set (cv := verts (pt_mesh (crown P))) in *. set (VV := nth_error (cv ++ cs_ints st)).
      assert (HC : exists cr, Forall2 (fun f outs => kept_part p tol (outline cv f) outs) (faces (pt_mesh (crown P))) cr /\
                    Forall2 (looks VV) (map (fun t => q_faces (t_cut t)) ts) cr).
      { pose proof (cr_done _ _ _ _ _ _ _ _ _ _ _ _ CR) as D.
        pose proof (part_forall m _ _ convex_outline V BC PC) as C1. pose proof (part_forall m _ _ (fun ps => ~ pinched p tol ps) V BC PC) as C2.
        fold cv in C1, C2. rewrite Forall_forall in CV, NP.
        specialize (C1 (fun id f _ Hf => CV f (nth_error_In _ _ Hf))). specialize (C2 (fun id f _ Hf => NP f (nth_error_In _ _ Hf))).
        exact (crown_kept cv (cs_ints st) _ ts D PR C1 C2). }
      destruct HC as (cr & KC & LC). exists cr. split; [|split].
      + (* lower faces are kept whole *)
        eapply Forall2_map_r; [|exact FL]. intros id f' HI (f & Hf & O & CO). exists f. split; auto.
        pose proof (kept_whole p tol lv f' T0) as KW. fold lv in O. rewrite O in KW. apply KW.
        rewrite IB in HI. apply in_where in HI as (g & Hg & LW). assert (g = f) by congruence. subst g. apply lower_iff; auto.
      + eapply Forall2_compose; [exact FC|exact KC|]. intros id f' outs (f & Hf & O & _) K. exists f. split; auto. rewrite <- O. exact K.
      + assert (E1 : concat (map (fun f => [pts f]) lf) = map pts lf) by (rewrite <- (concat_single _ (map pts lf)), map_map; auto).
        rewrite E1. exact (clip_run_near m P st ts fs4 cc new_id direct inv r cr V ST RUN' LC).
  Qed.
End Whole.
