(** Properties C48-C54, C81-C84: clipping of a mesh by a plane (meshmagick/mesh_clipper.py). *)
From Coq Require Import Reals List Arith Bool Lia Lra Psatz Permutation Sorting.Sorted.
From Verif Require Import M_base P_base M_merge P_merge M_plane M_mesh S_merge S_mesh P_mesh S_geometry P_geometry S_plane P_plane
  S_connectivity M_connectivity M_clipper S_clipper P_hull P_cut P_parts P_clipped P_clip_mesh P_curves P_waterline P_sharp P_odd P_checks.
Import ListNotations.
Open Scope R_scope.

(** ** A barge that floats: a box, its six sides cut by or away from the plane z = 0 *)
Definition sea : plane := mkPlane (V3 0 0 1) 0 mid.
Definition barge : mesh :=
  mkMesh [V3 0 0 (-1); V3 4 0 (-1); V3 4 2 (-1); V3 0 2 (-1); V3 0 0 2; V3 4 0 2; V3 4 2 2; V3 0 2 2]
         [F4 0 3 2 1; F4 4 5 6 7; F4 0 1 5 4; F4 1 2 6 5; F4 2 3 7 6; F4 3 0 4 7].
Definition usual : R := 1 / 1000.
Lemma usual_pos : 0 <= usual. Proof. unfold usual. lra. Qed.
Lemma sea_height : forall x, height sea x = vz x. Proof. intros. unfold height. vunfold. simpl. ring. Qed.
Lemma sea_unit : unit (p_normal sea). Proof. unfold unit. vunfold. simpl. ring. Qed.
Lemma barge_valid : valid barge. Proof. apply valid_check_ok. reflexivity. Qed.
Lemma barge_closed : closed_surface (faces barge). Proof. apply closed_check_ok. reflexivity. Qed.
Ltac corner := unfold sorted_out, is_above, is_below, is_near, exactly_at, usual; rewrite ?sea_height; cbn [vz]; intros;
  first [match goal with |- context [Rabs ?x] => unfold Rabs; destruct (Rcase_abs x); intros ?; lra end | lra | intros ?; lra].
Lemma barge_settled : settled sea usual barge.
Proof. unfold settled. repeat (apply Forall_cons; [cbn; repeat (apply Forall_cons; [corner|]); apply Forall_nil|]). apply Forall_nil. Qed.
Lemma barge_convex : Forall (fun f => convex_outline (outline (verts barge) f)) (faces barge).
Proof.
  repeat (apply Forall_cons; [cbn|]); [..|apply Forall_nil].
  - exists (V3 0 0 (-1)). unfold unit; vunfold; repeat split; lra.
  - exists (V3 0 0 1). unfold unit; vunfold; repeat split; lra.
  - exists (V3 0 (-1) 0). unfold unit; vunfold; repeat split; lra.
  - exists (V3 1 0 0). unfold unit; vunfold; repeat split; lra.
  - exists (V3 0 1 0). unfold unit; vunfold; repeat split; lra.
  - exists (V3 (-1) 0 0). unfold unit; vunfold; repeat split; lra.
Qed.
(** No vertex of the barge is within tolerance. *)
Lemma barge_far : forall f x, In f (faces barge) -> In x (outline (verts barge) f) -> ~ is_near sea usual x.
Proof.
  intros f x I J. cbn in I. repeat (destruct I as [<-|I]; [cbn in J; repeat (destruct J as [<-|J]; [corner|]); contradiction|]). contradiction.
Qed.
Lemma barge_unpinched : Forall (fun f => ~ pinched sea usual (outline (verts barge) f)) (faces barge).
Proof.
  apply Forall_forall. intros f I (a & b & c & d & T & A & _). apply (barge_far f a I); auto. apply (turned_in _ _ _ a T). simpl. auto.
Qed.
Lemma barge_not_three : Forall (fun f => ~ three_near sea usual (outline (verts barge) f)) (faces barge).
Proof.
  apply Forall_forall. intros f I (a & b & c & d & T & A & _). apply (barge_far f a I); auto. apply (turned_in _ _ _ a T). simpl. auto.
Qed.
Lemma barge_straddles : straddling sea usual barge.
Proof.
  exists (F4 0 1 5 4). split; [simpl; auto|]. split; [exists (V3 0 0 (-1))|exists (V3 0 0 2)]; (split; [cbn; auto|corner]).
Qed.
Lemma barge_not_above : ~ Forall (is_above sea usual) (verts barge).
Proof. intros H. inversion H as [|? ? X]; subst. revert X. corner. Qed.
Lemma barge_not_below : ~ Forall (is_below sea usual) (verts barge).
Proof. intros H. rewrite Forall_forall in H. assert (X : is_below sea usual (V3 0 0 2)) by (apply H; simpl; tauto). revert X. corner. Qed.

(** ** C51, C53: all the outcomes, when no corner is exactly at the tolerance *)
Theorem C51_outcomes : forall p tol argsort closed m, 0 <= tol -> sorting argsort -> valid m -> settled p tol m ->
  let out := mesh_clipper argsort p tol closed m in
  (Forall (is_above p tol) (verts m) \/ Forall (is_below p tol) (verts m) -> out = Raise RuntimeError) /\
  (~ Forall (is_above p tol) (verts m) -> ~ Forall (is_below p tol) (verts m) ->
   (Exists (fun f => three_near p tol (outline (verts m) f)) (faces m) -> out = Raise PlainException) /\
   (Forall (fun f => ~ three_near p tol (outline (verts m) f)) (faces m) ->
    (~ straddling p tol m -> out = Raise IndexError) /\
    (straddling p tol m -> exists k, mesh_clipper argsort p tol false m = Ok k /\
       out = if closed && negb (length (lines k) =? 0)%nat then Raise RuntimeError else Ok k))).
Proof.
  intros p tol argsort closed m T SA V S. cbn zeta. split; [apply clipper_refused|]. intros NA NB. split.
  - apply clipper_three; auto.
  - intros NT. split; [apply clipper_dropped; auto|]. intros ST.
    destruct (clipper_run p tol argsort T SA m V S NA NB NT ST) as (P & st & ts & fs4 & cc & new_id & direct & inv & r & _ & E).
    destruct (curves (length direct) inv direct) as [cl op]. exists (mkClipper P cc cl op r). rewrite !E. split; reflexivity.
Qed.
Lemma barge_clips : forall argsort, sorting argsort -> exists k, mesh_clipper argsort sea usual false barge = Ok k.
Proof.
  intros argsort SA. destruct (C51_outcomes sea usual argsort false barge usual_pos SA barge_valid barge_settled) as [_ H].
  destruct (H barge_not_above barge_not_below) as [_ H']. destruct (H' barge_not_three) as [_ H'']. destruct (H'' barge_straddles) as (k & E & _). eauto.
Qed.
(** A quadrangle with three corners in the plane and the fourth below aborts; so does any mesh containing it. *)
Definition lying : mesh := mkMesh (verts barge ++ [V3 9 0 0; V3 10 0 0; V3 10 1 0; V3 9 1 (-1)]) (faces barge ++ [F4 8 9 10 11]).
Example lying_aborts : forall argsort closed, sorting argsort -> mesh_clipper argsort sea usual closed lying = Raise PlainException.
Proof.
  intros argsort closed SA.
  assert (V : valid lying) by (apply valid_check_ok; reflexivity).
  assert (S : settled sea usual lying).
  { unfold settled. repeat (apply Forall_cons; [cbn; repeat (apply Forall_cons; [corner|]); apply Forall_nil|]). apply Forall_nil. }
  destruct (C51_outcomes sea usual argsort closed lying usual_pos SA V S) as [_ H]. apply H.
  - intros F. inversion F as [|? ? X]; subst. revert X. corner.
  - intros F. rewrite Forall_forall in F. assert (X : is_below sea usual (V3 0 0 2)) by (apply F; simpl; tauto). revert X. corner.
  - apply Exists_exists. exists (F4 8 9 10 11). split; [simpl; tauto|].
    exists (V3 9 0 0), (V3 10 0 0), (V3 10 1 0), (V3 9 1 (-1)). split; [exists 0%nat; reflexivity|]. repeat split; unfold is_near; rewrite ?sea_height; cbn [vz]; unfold usual; lra.
Qed.

(** A triangle with a corner exactly at the tolerance, or a quadrangle with two: clipping always fails. *)
Theorem C51_exact_tolerance : forall p tol argsort closed m, 0 <= tol -> valid m ->
  Exists (fun f => undecided p tol (outline (verts m) f)) (faces m) -> exists e, mesh_clipper argsort p tol closed m = Raise e.
Proof. intros p tol argsort closed m T. apply clipper_undecided; auto. Qed.
(** With a zero tolerance, any triangle with a corner in the plane is in that case. *)
Example touching_fails : forall argsort closed,
  exists e, mesh_clipper argsort sea 0 closed (mkMesh (verts barge ++ [V3 5 0 0; V3 6 0 (-1); V3 6 1 (-1)]) (faces barge ++ [F4 8 9 10 8])) = Raise e.
Proof.
  intros. apply C51_exact_tolerance; [lra|apply valid_check_ok; reflexivity|]. apply Exists_exists. exists (F4 8 9 10 8).
  split; [simpl; tauto|]. exists (V3 5 0 0). split; [cbn; auto|]. unfold exactly_at. rewrite sea_height. cbn. apply Rabs_R0.
Qed.

(** ** C53 *)
Theorem C53_no_crossing_face : forall p tol argsort closed m, 0 <= tol -> sorting argsort -> valid m -> settled p tol m ->
  ~ Forall (is_above p tol) (verts m) -> ~ Forall (is_below p tol) (verts m) ->
  Forall (fun f => Forall (is_above p tol) (outline (verts m) f) \/ Forall (is_below p tol) (outline (verts m) f)) (faces m) ->
  mesh_clipper argsort p tol closed m = Raise IndexError.
Proof.
  intros p tol argsort closed m T SA V S NA NB F. destruct (C51_outcomes p tol argsort closed m T SA V S) as [_ H].
  destruct (H NA NB) as [_ H']. rewrite Forall_forall in F. apply H'.
  - apply Forall_forall. intros f I TN. pose proof (three_crown p tol (verts m) f TN) as C. apply crown_iff in C as [C1 C2]. destruct (F f I); auto.
  - intros (f & I & (x & IX & BX) & (y & IY & NY)). destruct (F f I) as [U|L].
    + rewrite Forall_forall in U. specialize (U x IX). unfold is_above, is_below in *. lra.
    + rewrite Forall_forall in L. auto.
Qed.
(** Two triangles, one on each side. *)
Definition apart : mesh := mkMesh [V3 0 0 1; V3 1 0 1; V3 0 1 1; V3 0 0 (-1); V3 0 1 (-1); V3 1 0 (-1)] [F4 0 1 2 0; F4 3 4 5 3].
Example apart_fails : forall argsort closed, sorting argsort -> mesh_clipper argsort sea usual closed apart = Raise IndexError.
Proof.
  intros argsort closed SA. apply C53_no_crossing_face; auto.
  - apply usual_pos.
  - apply valid_check_ok. reflexivity.
  - unfold settled. repeat (apply Forall_cons; [cbn; repeat (apply Forall_cons; [corner|]); apply Forall_nil|]). apply Forall_nil.
  - intros H. rewrite Forall_forall in H. assert (X : is_above sea usual (V3 0 0 (-1))) by (apply H; simpl; tauto). revert X. corner.
  - intros H. inversion H as [|? ? X]; subst. revert X. corner.
  - apply Forall_cons; [left|apply Forall_cons; [right|apply Forall_nil]]; cbn; repeat (apply Forall_cons; [corner|]); apply Forall_nil.
Qed.

(** ** C48 *)
Lemma where_three : forall X (u l : X -> bool) fs, (forall f, In f fs -> u f = true -> l f = true -> False) ->
  Permutation (where_ u fs ++ where_ (fun f => negb (u f) && negb (l f)) fs ++ where_ l fs) (seq 0 (length fs)).
Proof.
  intros X u l fs D. apply NoDup_Permutation.
  - assert (ND : forall (h : X -> bool), NoDup (where_ h fs)) by (intros; apply sorted_NoDup, where_sorted).
    assert (APP : forall a b : list nat, NoDup a -> NoDup b -> (forall x, In x a -> ~ In x b) -> NoDup (a ++ b)).
    { clear. induction a as [|x a IH]; intros b NA NB H; [auto|]. simpl. inversion NA; subst. constructor.
      - intros I. apply in_app_or in I as [I|I]; [auto|]. apply (H x); simpl; auto.
      - apply IH; auto. intros y I. apply H. simpl; auto. }
    apply APP; auto; [apply APP; auto|].
    + intros i I J. apply in_where in I as (f & E & F). apply in_where in J as (g & E' & G). assert (g = f) by congruence. subst g.
      rewrite G in F. rewrite andb_false_r in F. discriminate.
    + intros i I J. apply in_where in I as (f & E & F). apply in_app_or in J as [J|J]; apply in_where in J as (g & E' & G); assert (g = f) by congruence; subst g.
      * rewrite F in G. discriminate.
      * eapply D; eauto. eapply nth_error_In; eauto.
  - apply seq_NoDup.
  - intros i. rewrite !in_app_iff, !in_where, in_seq. split.
    + intros [(f & E & _)|[(f & E & _)|(f & E & _)]]; apply nth_error_bound in E; lia.
    + intros [_ H]. simpl in H. destruct (nth_error_lt _ _ _ H) as [f E]. destruct (u f) eqn:U; [left; eauto|].
      right. destruct (l f) eqn:L; [right; eauto|left; exists f; rewrite U, L; auto].
Qed.
Theorem C48_partition : forall p tol m, 0 <= tol -> valid m -> exists P, partition_mesh p tol m = Ok P /\
  Permutation (above_ids P ++ crown_ids P ++ below_ids P) (seq 0 (length (faces m))) /\
  (forall id f, nth_error (faces m) id = Some f ->
     (In id (above_ids P) <-> Forall (is_above p tol) (outline (verts m) f)) /\
     (In id (below_ids P) <-> Forall (is_below p tol) (outline (verts m) f))) /\
  (forall ids q, In (ids, q) [(above_ids P, upper P); (crown_ids P, crown P); (below_ids P, lower P)] ->
     StronglySorted lt ids /\ restricts m ids (pt_mesh q) (pt_ids q) /\ valid (pt_mesh q) /\
     pt_dist q = map (height p) (verts (pt_mesh q))).
Proof.
  intros p tol m T V. destruct (partition_ok p tol m V) as (P & EP & IA & IC & IB & PU & PC & PL). exists P. split; auto.
  assert (PO : forall ids q, part_of p m ids q -> restricts m ids (pt_mesh q) (pt_ids q) /\ valid (pt_mesh q) /\ pt_dist q = map (height p) (verts (pt_mesh q))).
  { intros ids q [A B C]. split; auto. split; auto. rewrite C. apply map_ext. apply height_dist. }
  split; [|split].
  - rewrite IA, IB, IC. apply where_three. intros f I U L. apply upper_iff in U. apply lower_iff in L.
    assert (LO : In (point (verts m) (f0 f)) (outline (verts m) f)) by (apply outline_in; exists (f0 f); split; auto; simpl; auto).
    rewrite Forall_forall in U, L. specialize (U _ LO). specialize (L _ LO). unfold is_above, is_below in *. lra.
  - intros id f E. rewrite <- upper_iff, <- lower_iff, IA, IB, !in_where. split; split.
    + intros (g & E' & H). congruence. + eauto. + intros (g & E' & H). congruence. + eauto.
  - intros ids q [H|[H|[H|[]]]]; injection H as <- <-; (split; [rewrite ?IA, ?IB, ?IC; apply where_sorted|]); auto.
Qed.
Theorem C48_refused : forall p tol argsort closed m,
  Forall (is_above p tol) (verts m) \/ Forall (is_below p tol) (verts m) -> mesh_clipper argsort p tol closed m = Raise RuntimeError.
Proof. intros. apply clipper_refused; auto. Qed.
Theorem C48_of_clipper : forall p tol argsort closed m k, mesh_clipper argsort p tol closed m = Ok k ->
  partition_mesh p tol m = Ok (k_partition k).
Proof.
  intros p tol argsort closed m k E. unfold mesh_clipper in E. destruct (refused tol (distances p m)); [discriminate|].
  apply bind_ok in E as (P & EP & E). apply bind_ok in E as ([[cc cl] op] & _ & E). apply bind_ok in E as (r & _ & E). injection E as <-. exact EP.
Qed.
Example barge_partition : exists P, partition_mesh sea usual barge = Ok P /\ In 0%nat (below_ids P) /\ In 1%nat (above_ids P) /\ In 2%nat (crown_ids P).
Proof.
  destruct (C48_partition sea usual barge usual_pos barge_valid) as (P & E & PE & C & _). exists P. split; auto.
  assert (C0 := C 0%nat _ eq_refl). assert (C1 := C 1%nat _ eq_refl). assert (C2 := C 2%nat _ eq_refl).
  split; [|split].
  - apply C0. cbn. repeat (apply Forall_cons; [corner|]). apply Forall_nil.
  - apply C1. cbn. repeat (apply Forall_cons; [corner|]). apply Forall_nil.
  - assert (I : In 2%nat (above_ids P ++ crown_ids P ++ below_ids P)) by (apply (Permutation_in _ (Permutation_sym PE)); simpl; auto).
    apply in_app_or in I as [I|I]; [|apply in_app_or in I as [I|I]; auto]; exfalso.
    + apply C2 in I. cbn in I. inversion I as [|? ? X]; subst. revert X. corner.
    + apply C2 in I. cbn in I. rewrite Forall_forall in I. assert (X : is_below sea usual (V3 4 0 2)) by (apply I; simpl; tauto). revert X. corner.
Qed.

(** ** C49 *)
Theorem C49_under : forall p tol argsort closed m k, 0 <= tol -> sorting argsort -> unit (p_normal p) -> valid m -> settled p tol m ->
  Forall (fun f => convex_outline (outline (verts m) f)) (faces m) -> Forall (fun f => ~ pinched p tol (outline (verts m) f)) (faces m) ->
  mesh_clipper argsort p tol closed m = Ok k ->
  Forall (fun f => valid_face (length (verts (clipped k))) f /\
                   Forall (fun x => height p x <= tol + 2 / 100000) (outline (verts (clipped k)) f)) (faces (clipped k)).
Proof. intros p tol argsort closed m k T SA. apply clipper_under; auto. Qed.
(** A quadrangle with two opposite corners above and the two others below keeps a corner above. *)
Theorem C49_alternating_kept_above : forall p tol argsort closed m k f, 0 <= tol -> sorting argsort -> valid m -> settled p tol m ->
  mesh_clipper argsort p tol closed m = Ok k -> In f (faces m) -> alternating p tol (outline (verts m) f) ->
  exists g x y, In g (faces (clipped k)) /\ In x (outline (verts m) f) /\ is_above p tol x /\
    In y (map (point (verts (clipped k))) (entries g)) /\ near_point clip_move x y.
Proof.
  intros p tol argsort closed m k f T SA V S E I AL. destruct (clipper_rough p tol argsort T SA closed m k V S E) as (low & cr & _ & R & NF).
  apply In_nth_error in I as [id Hf].
  assert (ID : In id (crown_ids (k_partition k))).
  { destruct (partition_ok p tol m V) as (P & EP & IA & IC & IB & _). rewrite (C48_of_clipper _ _ _ _ _ _ E) in EP. injection EP as EP. rewrite EP, IC.
    apply in_where. exists f. split; auto. apply crown_iff. destruct AL as (a & b & c & d & TU & HA & HB & _ & _).
    assert (IA' : In a (outline (verts m) f)) by (apply (turned_in _ _ _ a TU); simpl; auto).
    assert (IB' : In b (outline (verts m) f)) by (apply (turned_in _ _ _ b TU); simpl; auto).
    rewrite !Forall_forall. unfold is_above, is_below in *. split; intros H; [specialize (H b IB')|specialize (H a IA')]; lra. }
  apply In_nth_error in ID as [n ID]. destruct (Forall2_nth_error _ _ _ _ _ R n id ID) as (outs & HO & g & Hg & AL' & _).
  assert (g = f) by congruence. subst g. destruct (AL' AL) as (o & x & IO & IX & IF & AX).
  assert (IC : In o (low ++ concat cr)) by (apply in_or_app; right; apply in_concat; exists outs; split; auto; eapply nth_error_In; eauto).
  apply In_nth_error in IC as [q IC]. destruct (Forall2_nth_error _ _ _ _ _ NF q o IC) as (g & Hg' & ps & CO & NE).
  apply In_nth_error in IX as [j IX]. destruct (Forall2_nth_error _ _ _ _ _ NE j x IX) as (y & HY & NY).
  exists g, x, y. split; [eapply nth_error_In; eauto|]. split; auto. split; auto. split; auto.
  destruct CO as (a & b & c & d & -> & HA & HB & HC & HD). apply nth_error_In in HY. unfold entries. cbn [map].
  unfold point. rewrite (nth_error_nth _ _ _ HA), (nth_error_nth _ _ _ HB), (nth_error_nth _ _ _ HC), (nth_error_nth _ _ _ HD). exact HY.
Qed.
(** Such a quadrangle, clipped without any error. *)
Definition saddle_mesh : mesh := mkMesh [V3 0 0 1; V3 1 0 (-1); V3 1 1 1; V3 0 1 (-1)] [F4 0 1 2 3].
Example saddle_clips : forall argsort, sorting argsort ->
  alternating sea usual (outline (verts saddle_mesh) (F4 0 1 2 3)) /\ exists k, mesh_clipper argsort sea usual false saddle_mesh = Ok k.
Proof.
  intros argsort SA. assert (V : valid saddle_mesh) by (apply valid_check_ok; reflexivity).
  assert (S : settled sea usual saddle_mesh).
  { unfold settled. repeat (apply Forall_cons; [cbn; repeat (apply Forall_cons; [corner|]); apply Forall_nil|]). apply Forall_nil. }
  split.
  - exists (V3 0 0 1), (V3 1 0 (-1)), (V3 1 1 1), (V3 0 1 (-1)). split; [exists 0%nat; reflexivity|]. split; [corner|]. split; [corner|]. split; corner.
  - destruct (C51_outcomes sea usual argsort false saddle_mesh usual_pos SA V S) as [_ H]. destruct H as [_ H].
    + intros F. rewrite Forall_forall in F. assert (X : is_above sea usual (V3 1 0 (-1))) by (apply F; simpl; tauto). revert X. corner.
    + intros F. inversion F as [|? ? X]; subst. revert X. corner.
    + destruct H as [_ H].
      * apply Forall_cons; [|apply Forall_nil]. intros (a & b & c & d & TU & HA & _).
        assert (I : In a (outline (verts saddle_mesh) (F4 0 1 2 3))) by (apply (turned_in _ _ _ a TU); simpl; auto).
        cbn in I. repeat (destruct I as [<-|I]; [revert HA; corner|]). contradiction.
      * destruct H as (k & E & _); [|eauto]. exists (F4 0 1 2 3). split; [simpl; auto|].
        split; [exists (V3 1 0 (-1))|exists (V3 0 0 1)]; (split; [cbn; auto|corner]).
Qed.

(** ** C50 *)
Theorem C50_region : forall p tol argsort closed m k, 0 <= tol -> sorting argsort -> valid m -> settled p tol m ->
  Forall (fun f => convex_outline (outline (verts m) f)) (faces m) -> Forall (fun f => ~ pinched p tol (outline (verts m) f)) (faces m) ->
  mesh_clipper argsort p tol closed m = Ok k ->
  (forall id, In id (above_ids (k_partition k)) -> left_of p tol m id []) /\
  exists low cr, Forall2 (left_of p tol m) (below_ids (k_partition k)) low /\ Forall2 (left_of p tol m) (crown_ids (k_partition k)) cr /\
    Forall2 (near_face clip_move (verts (clipped k))) (concat low ++ concat cr) (faces (clipped k)).
Proof. intros p tol argsort closed m k T SA. apply clipper_kept; auto. Qed.
(** The barge meets all the hypotheses; the point (0, 1, -1/2) of its side is kept, the point (0, 1, 1) is not. *)
Example barge_region : forall argsort k, sorting argsort -> mesh_clipper argsort sea usual false barge = Ok k ->
  exists outs, left_of sea usual barge 5 outs /\ (exists o, In o outs /\ hull o (V3 0 1 (-1/2))) /\ forall o, In o outs -> ~ hull o (V3 0 1 1).
Proof.
  intros argsort k SA E. destruct (C50_region sea usual argsort false barge k usual_pos SA barge_valid barge_settled barge_convex barge_unpinched E) as (_ & low & cr & _ & FC & _).
  assert (ID : In 5%nat (crown_ids (k_partition k))).
  { destruct (C48_partition sea usual barge usual_pos barge_valid) as (P & EP & PE & C & _). rewrite (C48_of_clipper _ _ _ _ _ _ E) in EP. injection EP as ->.
    assert (I : In 5%nat (above_ids P ++ crown_ids P ++ below_ids P)) by (apply (Permutation_in _ (Permutation_sym PE)); simpl; tauto).
    assert (C5 := C 5%nat _ eq_refl). apply in_app_or in I as [I|I]; [|apply in_app_or in I as [I|I]; auto]; exfalso.
    - apply C5 in I. cbn in I. inversion I as [|? ? X]; subst. revert X. corner.
    - apply C5 in I. cbn in I. rewrite Forall_forall in I. assert (X : is_below sea usual (V3 0 0 2)) by (apply I; simpl; tauto). revert X. corner. }
  apply In_nth_error in ID as [n ID]. destruct (Forall2_nth_error _ _ _ _ _ FC n 5%nat ID) as (outs & _ & LO). exists outs. split; auto.
  destruct LO as (f & Hf & KP). injection Hf as <-. split.
  - apply (kept_below _ _ _ _ KP).
    + exists [5/12; 5/12; 1/12; 1/12]. cbn. split; auto. split; [repeat (apply Forall_cons; [lra|]); apply Forall_nil|]. split; [unfold Rsum; simpl; lra|].
      unfold vsum. vunfold. cbn. f_equal; lra.
    + rewrite sea_height. cbn. unfold usual. lra.
  - intros o IO H. destruct (kept_inside _ _ _ _ KP o _ IO H) as [_ X]. rewrite sea_height in X. cbn in X. unfold usual in X. lra.
Qed.

(** ** C52 *)
Theorem C52_ordered : forall inv edges, NoDup (map fst edges) ->
  ordered inv edges (fst (curves (length edges) inv edges)) (snd (curves (length edges) inv edges)).
Proof. intros inv edges N. destruct (curves (length edges) inv edges) eqn:E. eapply curves_ordered; eauto. Qed.
Theorem C52_clipper : forall p tol argsort closed m k, 0 <= tol -> sorting argsort -> valid m -> settled p tol m ->
  mesh_clipper argsort p tol closed m = Ok k ->
  exists edges inv, NoDup (map fst edges) /\ ordered inv edges (polygons k) (lines k).
Proof. intros p tol argsort closed m k T SA. apply clipper_lines; auto. Qed.
(** If each vertex ends as many edges as it starts, all the lines are closed. *)
Theorem C52_closed : forall inv edges, NoDup (map fst edges) -> Permutation (map fst edges) (map snd edges) ->
  snd (curves (length edges) inv edges) = [].
Proof. intros. apply curves_cycles; auto. Qed.
(** Two loops and an open line found from its middle. *)
Example curves_example : curves 8 [(2, 1); (3, 2); (1, 3); (6, 5); (7, 6); (8, 7); (10, 9); (9, 10)]%nat
    [(5, 6); (1, 2); (2, 3); (3, 1); (9, 10); (10, 9); (7, 8); (6, 7)]%nat =
  ([[10; 9; 10]; [3; 1; 2; 3]]%nat, [[5; 6; 7; 8]%nat]).
Proof. reflexivity. Qed.

(** ** C54 *)
Theorem C54_vertices_above : forall p tol argsort closed m k id f v, 0 <= tol -> sorting argsort -> valid m -> settled p tol m ->
  mesh_clipper argsort p tol closed m = Ok k ->
  In id (crown_ids (k_partition k)) -> nth_error (faces m) id = Some f -> In v (outline (verts m) f) ->
  exists w, In w (verts (clipped k)) /\ near_point clip_move v w.
Proof. intros p tol argsort closed m k id f v T SA. apply clipper_vertices; auto. Qed.
(** The clipped barge has a vertex about two meters above the sea, used by no face. *)
Example barge_vertex_above : forall argsort k, sorting argsort -> mesh_clipper argsort sea usual false barge = Ok k ->
  exists w, In w (verts (clipped k)) /\ 199 / 100 < vz w /\
    forall f, In f (faces (clipped k)) -> ~ In w (outline (verts (clipped k)) f).
Proof.
  intros argsort k SA E. pose proof E as E'.
  assert (ID : In 5%nat (crown_ids (k_partition k))).
  { destruct (C48_partition sea usual barge usual_pos barge_valid) as (P & EP & PE & C & _). rewrite (C48_of_clipper _ _ _ _ _ _ E) in EP. injection EP as ->.
    assert (I : In 5%nat (above_ids P ++ crown_ids P ++ below_ids P)) by (apply (Permutation_in _ (Permutation_sym PE)); simpl; tauto).
    assert (C5 := C 5%nat _ eq_refl). apply in_app_or in I as [I|I]; [|apply in_app_or in I as [I|I]; auto]; exfalso.
    - apply C5 in I. cbn in I. inversion I as [|? ? X]; subst. revert X. corner.
    - apply C5 in I. cbn in I. rewrite Forall_forall in I. assert (X : is_below sea usual (V3 0 0 2)) by (apply I; simpl; tauto). revert X. corner. }
  destruct (C54_vertices_above sea usual argsort false barge k 5 _ (V3 0 0 2) usual_pos SA barge_valid barge_settled E ID eq_refl) as (w & IW & (_ & _ & NZ)); [cbn; auto|].
  exists w. split; auto. assert (H : 199 / 100 < vz w).
  { unfold clip_move in NZ. cbn [vz] in NZ. unfold Rabs in NZ. destruct (Rcase_abs (2 - vz w)); lra. }
  split; auto. intros f I J.
  pose proof (C49_under sea usual argsort false barge k usual_pos SA sea_unit barge_valid barge_settled barge_convex barge_unpinched E) as U.
  rewrite Forall_forall in U. destruct (U f I) as [_ UF]. rewrite Forall_forall in UF. specialize (UF w J). cbv beta in UF. rewrite sea_height in UF. unfold usual in UF. lra.
Qed.

(** ** C81: two consecutive corners within tolerance, one above, one below *)
Theorem C81_pinched_loses : forall p tol argsort closed m k, 0 <= tol -> sorting argsort -> valid m -> settled p tol m ->
  mesh_clipper argsort p tol closed m = Ok k ->
  exists low cr, length low = length (below_ids (k_partition k)) /\
    Forall2 (fun id outs => exists f, nth_error (faces m) id = Some f /\
       forall a b c d, turned (outline (verts m) f) [a; b; c; d] -> is_above p tol a ->
         is_below p tol b /\ is_near p tol c /\ is_near p tol d \/ is_near p tol b /\ is_near p tol c /\ is_below p tol d ->
         outs = [[b; c; d; b]]) (crown_ids (k_partition k)) cr /\
    Forall2 (near_face clip_move (verts (clipped k))) (low ++ concat cr) (faces (clipped k)).
Proof.
  intros p tol argsort closed m k T SA V S E. destruct (clipper_rough p tol argsort T SA closed m k V S E) as (low & cr & L & R & NF).
  exists low, cr. split; auto. split; auto. eapply Forall2_weaken; [|exact R]. intros id outs (f & Hf & _ & H). exists f. auto.
Qed.
(** A planar convex quadrangle with a point half a meter under the sea that does not belong to the face kept. *)
Definition kite : list vec := [V3 0 0 1; V3 0 0 (-1); V3 10 0 (-1/2000); V3 10 0 (1/2000)].
Example kite_loses : convex_outline kite /\ pinched sea usual kite /\
  turned kite [V3 0 0 1; V3 0 0 (-1); V3 10 0 (-1/2000); V3 10 0 (1/2000)] /\ hull kite (V3 1 0 (-1/2)) /\
  ~ hull [V3 0 0 (-1); V3 10 0 (-1/2000); V3 10 0 (1/2000); V3 0 0 (-1)] (V3 1 0 (-1/2)).
Proof.
  split; [exists (V3 0 (-1) 0); unfold unit; vunfold; repeat split; lra|]. split.
  { exists (V3 10 0 (-1/2000)), (V3 10 0 (1/2000)), (V3 0 0 1), (V3 0 0 (-1)). split; [exists 2%nat; reflexivity|].
    split; [unfold is_near; rewrite sea_height; cbn; unfold usual; lra|]. split; [unfold is_near; rewrite sea_height; cbn; unfold usual; lra|].
    left. split; corner. }
  split; [exists 0%nat; reflexivity|]. split.
  - exists [1/5; 7/10; 1/20; 1/20]. cbn. split; auto. split; [repeat (apply Forall_cons; [lra|]); apply Forall_nil|]. split; [unfold Rsum; simpl; lra|].
    unfold vsum. vunfold. cbn. f_equal; lra.
  - intros (ws & L & F & S & E). destruct ws as [|a [|b [|c [|d [|? ?]]]]]; cbn in L; try discriminate. unfold Rsum in S. cbn in S.
    rewrite Forall_forall in F. assert (Ha := F a ltac:(simpl; auto)). assert (Hb := F b ltac:(simpl; auto)).
    assert (Hc := F c ltac:(simpl; auto)). assert (Hd := F d ltac:(simpl; auto)). cbv beta in *.
    pose proof (f_equal vx E) as EX. pose proof (f_equal vz E) as EZ. unfold vsum in EX, EZ. cbn in EX, EZ. lra.
Qed.

Example kite_clips : forall argsort, sorting argsort -> outline kite (F4 0 1 2 3) = kite /\ settled sea usual (mkMesh kite [F4 0 1 2 3]) /\
  exists k, mesh_clipper argsort sea usual false (mkMesh kite [F4 0 1 2 3]) = Ok k.
Proof.
  intros argsort SA. split; [reflexivity|]. assert (V : valid (mkMesh kite [F4 0 1 2 3])) by (apply valid_check_ok; reflexivity).
  assert (S : settled sea usual (mkMesh kite [F4 0 1 2 3])).
  { unfold settled. repeat (apply Forall_cons; [cbn; repeat (apply Forall_cons; [corner|]); apply Forall_nil|]). apply Forall_nil. }
  split; auto.
  destruct (C51_outcomes sea usual argsort false _ usual_pos SA V S) as [_ H]. destruct H as [_ H].
  - intros F. rewrite Forall_forall in F. assert (X : is_above sea usual (V3 0 0 (-1))) by (apply F; simpl; tauto). revert X. corner.
  - intros F. inversion F as [|? ? X]; subst. revert X. corner.
  - destruct H as [_ H].
    + apply Forall_cons; [|apply Forall_nil]. intros (a & b & c & d & [i TU] & HA & HB & HC & _). cbn in TU.
      destruct i as [|[|[|[|[|i]]]]]; cbn in TU; injection TU as -> -> -> ->;
        first [revert HA; corner|revert HB; corner|revert HC; corner].
    + destruct H as (k & E & _); [|eauto]. exists (F4 0 1 2 3). split; [simpl; auto|].
      split; [exists (V3 0 0 (-1))|exists (V3 0 0 1)]; (split; [cbn; auto|corner]).
Qed.

(** ** C82: the border of what is kept of a closed mesh is the waterline *)
Theorem C82_waterline : forall p tol argsort closed m k, 0 <= tol -> sorting argsort -> valid m -> settled p tol m ->
  Forall (fun f => convex_outline (outline (verts m) f)) (faces m) -> Forall (fun f => ~ pinched p tol (outline (verts m) f)) (faces m) ->
  closed_surface (faces m) -> mesh_clipper argsort p tol closed m = Ok k ->
  exists outs edges inv, let bs := waterline p tol m in
    Forall2 (near_face clip_move (verts (clipped k))) outs (faces (clipped k)) /\
    cancels (flat_map around outs ++ bs) /\
    Forall (fun s => at_waterline p tol (fst s) /\ at_waterline p tol (snd s)) bs /\
    NoDup (map fst edges) /\ ordered inv edges (polygons k) (lines k) /\
    (forall e, In e edges -> exists s, In s bs /\ near_edge (1 / 100000) (verts (clipped_crown k)) s e) /\
    (forall u v, In (v, u) inv -> exists s, In s bs /\ near_edge (1 / 100000) (verts (clipped_crown k)) s (u, v)) /\
    (forall s, In s bs -> exists e x, In e edges /\ nth_error (verts (clipped_crown k)) (fst e) = Some x /\ near_point (1 / 100000) (fst s) x).
Proof. intros p tol argsort closed m k T SA. apply clipper_closed; auto. Qed.
(** As many segments of the waterline start from a point as end there. *)
Theorem C82_balanced : forall p tol argsort closed m k, 0 <= tol -> sorting argsort -> valid m -> settled p tol m ->
  Forall (fun f => convex_outline (outline (verts m) f)) (faces m) -> Forall (fun f => ~ pinched p tol (outline (verts m) f)) (faces m) ->
  closed_surface (faces m) -> mesh_clipper argsort p tol closed m = Ok k ->
  Permutation (map fst (waterline p tol m)) (map snd (waterline p tol m)).
Proof.
  intros p tol argsort closed m k T SA V S CV NP CS E.
  destruct (C82_waterline p tol argsort closed m k T SA V S CV NP CS E) as (outs & edges & inv & NF & CA & _).
  apply balanced_perm. intros g. eapply cancels_balanced; eauto. eapply near_quads; eauto.
Qed.
(** The waterline of the barge: a rectangle, run along anticlockwise when seen from above. *)
Definition wl1 : vec := V3 0 0 0. Definition wl2 : vec := V3 4 0 0. Definition wl3 : vec := V3 4 2 0. Definition wl4 : vec := V3 0 2 0.
Ltac sides := repeat match goal with
  | |- context [below_dec ?p ?t ?x] => first [let H := fresh in destruct (below_dec p t x) as [H|H]; [|exfalso; apply H; clear H; corner]
                                             |let H := fresh in destruct (below_dec p t x) as [H|H]; [exfalso; revert H; corner|]]
  | |- context [above_dec ?p ?t ?x] => first [let H := fresh in destruct (above_dec p t x) as [H|H]; [|exfalso; apply H; clear H; corner]
                                             |let H := fresh in destruct (above_dec p t x) as [H|H]; [exfalso; revert H; corner|]]
  end.
Lemma sea_meet : forall a b c, height sea a <> height sea b -> height sea c = 0 -> height sea a - height sea b <> 0 ->
  vscale (height sea a - height sea b) c = vadd (vscale (- height sea b) a) (vscale (height sea a) b) -> meet sea a b = c.
Proof.
  intros [a1 a2 a3] [b1 b2 b3] [c1 c2 c3]. rewrite !sea_height. unfold meet. rewrite !sea_height. vunfold. cbn [vz]. intros N C D H. injection H as H1 H2 H3.
  f_equal; apply (Rmult_eq_reg_l (a3 - b3)); auto; [rewrite H1|rewrite H2|rewrite H3]; field; auto.
Qed.
Lemma barge_line : waterline sea usual barge = [(wl1, wl2); (wl2, wl3); (wl3, wl4); (wl4, wl1)].
Proof.
  unfold waterline, barge. cbn [faces verts flat_map]. unfold face_waterline, touching. cbn [outline f0 f1 f2 f3 Nat.eq_dec nat_rec nat_rect point nth].
  cbn. unfold touching, entering, leaving. cbn [filter fst snd flat_map app]. sides. cbn [app].
  repeat f_equal; apply sea_meet; rewrite ?sea_height; unfold wl1, wl2, wl3, wl4; vunfold; cbn [vz]; try lra; f_equal; lra.
Qed.
Example barge_waterline : forall argsort, sorting argsort -> exists k, mesh_clipper argsort sea usual false barge = Ok k /\
  exists outs, Forall2 (near_face clip_move (verts (clipped k))) outs (faces (clipped k)) /\
    cancels (flat_map around outs ++ [(wl1, wl2); (wl2, wl3); (wl3, wl4); (wl4, wl1)]).
Proof.
  intros argsort SA. destruct (barge_clips argsort SA) as [k E]. exists k. split; auto.
  destruct (C82_waterline sea usual argsort false barge k usual_pos SA barge_valid barge_settled barge_convex barge_unpinched barge_closed E) as (outs & edges & inv & A & B & _).
  cbn zeta in B. rewrite barge_line in B. exists outs. auto.
Qed.

(** ** C83: nothing moves when different points are further apart than the merging distances *)
Theorem C83_exact : forall p tol argsort closed m k, 0 <= tol -> sorting argsort -> valid m -> settled p tol m ->
  Forall (fun f => convex_outline (outline (verts m) f)) (faces m) -> Forall (fun f => ~ pinched p tol (outline (verts m) f)) (faces m) ->
  spread clip_move (cut_point p tol m) -> mesh_clipper argsort p tol closed m = Ok k ->
  (forall id, In id (above_ids (k_partition k)) -> left_of p tol m id []) /\
  exists low cr, Forall2 (left_of p tol m) (below_ids (k_partition k)) low /\ Forall2 (left_of p tol m) (crown_ids (k_partition k)) cr /\
    Forall2 (bordered p tol m) (below_ids (k_partition k)) low /\ Forall2 (bordered p tol m) (crown_ids (k_partition k)) cr /\
    Forall2 (fun o f => corners (verts (clipped k)) f o) (concat low ++ concat cr) (faces (clipped k)) /\
    (closed_surface (faces m) -> cancels (flat_map around (concat low ++ concat cr) ++ waterline p tol m)).
Proof.
  intros p tol argsort closed m k T SA V S CV NP SP E.
  destruct (clipper_exact p tol T argsort SA closed m k V S CV NP SP E) as (A & low & cr & L & C & BL & BC & F & RR). split; auto.
  exists low, cr. do 5 (split; auto). intros CS phi AP. rewrite run_app, RR by auto. apply closed_run; auto. apply trim_anti; auto.
Qed.
(** The points of the barge have whole coordinates: no two of them are closer than a merging distance. *)
Definition whole (x : vec) : Prop := exists a b c : Z, x = V3 (IZR a) (IZR b) (IZR c).
Lemma whole_spread : forall t x y, t < 1 -> whole x -> whole y -> near_point t x y -> x = y.
Proof.
  assert (H : forall t a b, t < 1 -> Rabs (IZR a - IZR b) <= t -> a = b).
  { intros t a b T H. rewrite <- minus_IZR, <- abs_IZR in H. assert (L : IZR (Z.abs (a - b)) < 1) by lra. apply lt_IZR in L. lia. }
  intros t x y T (a & b & c & ->) (d & e & f & ->) (N1 & N2 & N3). simpl in *. f_equal; f_equal; eapply H; eauto.
Qed.
Lemma barge_whole : forall x, cut_point sea usual barge x -> whole x.
Proof.
  intros x [I|(f & a & b & I & J & H & ->)].
  - cbn in I. repeat (destruct I as [<-|I]; [do 3 eexists; reflexivity|]). contradiction.
  - assert (K : exists c, meet sea a b = c /\ whole c).
    { cbn in I. repeat (destruct I as [<-|I]; [cbn in J; repeat (destruct J as [J|J]; [injection J as <- <-|]); try contradiction;
        first [exfalso; revert H; unfold is_above, is_below, usual; rewrite !sea_height; cbn [vz]; lra
              |match goal with |- context [meet sea (V3 ?x ?y ?z) _] => exists (V3 x y 0); split; [apply sea_meet; rewrite ?sea_height; vunfold; cbn [vz]; try lra; f_equal; lra|do 3 eexists; reflexivity] end]|]).
      contradiction. }
    destruct K as (c & -> & W). exact W.
Qed.
Lemma barge_spread : forall t, t < 1 -> spread t (cut_point sea usual barge).
Proof. intros t T x y X Y N. eapply whole_spread; eauto using barge_whole. Qed.
(** The wetted faces of the barge and the rectangle enclose its immersed part: the fluxes cancel exactly. *)
Example barge_exact : forall argsort, sorting argsort -> exists k, mesh_clipper argsort sea usual false barge = Ok k /\
  exists outs, Forall2 (fun o f => corners (verts (clipped k)) f o) outs (faces (clipped k)) /\
    cancels (flat_map around outs ++ [(wl1, wl2); (wl2, wl3); (wl3, wl4); (wl4, wl1)]).
Proof.
  intros argsort SA. destruct (barge_clips argsort SA) as [k E]. exists k. split; auto.
  destruct (C83_exact sea usual argsort false barge k usual_pos SA barge_valid barge_settled barge_convex barge_unpinched) as (_ & low & cr & _ & _ & _ & _ & F & C); auto.
  { apply barge_spread. unfold clip_move. lra. }
  specialize (C barge_closed). rewrite barge_line in C. eauto.
Qed.

(** ** C84: a closed mesh gives closed polygons only, which are the waterline *)
Theorem C84_polygons : forall p tol argsort m, 0 <= tol -> sorting argsort -> valid m -> settled p tol m ->
  ~ Forall (is_above p tol) (verts m) -> ~ Forall (is_below p tol) (verts m) ->
  Forall (fun f => ~ three_near p tol (outline (verts m) f)) (faces m) -> straddling p tol m ->
  Forall (fun f => convex_outline (outline (verts m) f)) (faces m) -> Forall (fun f => ~ pinched p tol (outline (verts m) f)) (faces m) ->
  closed_surface (faces m) -> spread (1 / 100000) (cut_point p tol m) -> NoDup (map fst (waterline p tol m)) ->
  exists k, (forall closed, mesh_clipper argsort p tol closed m = Ok k) /\ lines k = [] /\
    Forall (fun b => (2 <= length b)%nat /\ hd 0%nat b = last b 0%nat) (polygons k) /\
    exists edges, Permutation edges (flat_map pairs (polygons k)) /\
      Forall2 (fun s e => nth_error (verts (clipped_crown k)) (fst e) = Some (fst s) /\ nth_error (verts (clipped_crown k)) (snd e) = Some (snd s))
        (waterline p tol m) edges.
Proof. intros. apply clipper_polygons; auto. Qed.
Example barge_polygon : forall argsort, sorting argsort -> exists k, mesh_clipper argsort sea usual true barge = Ok k /\ lines k = [] /\
  exists edges, Permutation edges (flat_map pairs (polygons k)) /\
    Forall2 (fun s e => nth_error (verts (clipped_crown k)) (fst e) = Some (fst s) /\ nth_error (verts (clipped_crown k)) (snd e) = Some (snd s))
      [(wl1, wl2); (wl2, wl3); (wl3, wl4); (wl4, wl1)] edges.
Proof.
  intros argsort SA.
  destruct (C84_polygons sea usual argsort barge usual_pos SA barge_valid barge_settled barge_not_above barge_not_below barge_not_three barge_straddles barge_convex barge_unpinched barge_closed) as (k & E & L & _ & edges & P & F).
  { apply barge_spread. lra. }
  { rewrite barge_line. cbn [map fst]. unfold wl1, wl2, wl3, wl4. repeat (apply NoDup_cons; [intros H; simpl in H; repeat (destruct H as [H|H]; [injection H; intros; lra|]); exact H|]). apply NoDup_nil. }
  rewrite barge_line in F. exists k. eauto 10.
Qed.

Print Assumptions C48_partition.
Print Assumptions C49_under.
Print Assumptions C49_alternating_kept_above.
Print Assumptions C50_region.
Print Assumptions C51_outcomes.
Print Assumptions C51_exact_tolerance.
Print Assumptions C52_clipper.
Print Assumptions C53_no_crossing_face.
Print Assumptions C54_vertices_above.
Print Assumptions C81_pinched_loses.
Print Assumptions C82_waterline.
Print Assumptions C83_exact.
Print Assumptions C84_polygons.
