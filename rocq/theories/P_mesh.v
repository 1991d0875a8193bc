(** Proofs about the restructuring operations on meshes. *)
From Coq Require Import Reals List Arith Bool Lia Lra ZArith Sorting.Permutation Sorting.Sorted.
From Verif Require Import M_base P_base M_merge S_merge P_merge M_plane M_rotations M_mesh S_mesh.
Import ListNotations.

(** ** Arrays *)
Lemma get_some : forall A (l : list A) i a, nth_error l i = Some a -> get l i = Ok a.
Proof. intros. unfold get. rewrite H. auto. Qed.
Lemma get_inv : forall A (l : list A) i a, get l i = Ok a -> nth_error l i = Some a.
Proof. intros. unfold get in H. destruct (nth_error l i); congruence. Qed.
Lemma nth_error_lt : forall A (l : list A) i, (i < length l)%nat -> exists a, nth_error l i = Some a.
Proof. intros. apply nth_error_Some in H. destruct (nth_error l i); [eauto|congruence]. Qed.
Lemma nth_error_bound : forall A (l : list A) i a, nth_error l i = Some a -> (i < length l)%nat.
Proof. intros. apply nth_error_Some. congruence. Qed.

Lemma renumber_ok : forall ids f, valid_face (length ids) f ->
  exists f', renumber ids f = Ok f' /\
    nth_error ids (f0 f) = Some (f0 f') /\ nth_error ids (f1 f) = Some (f1 f') /\
    nth_error ids (f2 f) = Some (f2 f') /\ nth_error ids (f3 f) = Some (f3 f').
Proof.
  intros ids f (H0 & H1 & H2 & H3). unfold renumber.
  destruct (nth_error_lt _ _ _ H0) as [a A]. destruct (nth_error_lt _ _ _ H1) as [b B].
  destruct (nth_error_lt _ _ _ H2) as [c C]. destruct (nth_error_lt _ _ _ H3) as [d D].
  rewrite (get_some _ _ _ _ A), (get_some _ _ _ _ B), (get_some _ _ _ _ C), (get_some _ _ _ _ D). simpl.
  eexists. split; [reflexivity|]. simpl. auto.
Qed.
Lemma renumber_inv : forall ids f f', renumber ids f = Ok f' ->
    nth_error ids (f0 f) = Some (f0 f') /\ nth_error ids (f1 f) = Some (f1 f') /\
    nth_error ids (f2 f) = Some (f2 f') /\ nth_error ids (f3 f) = Some (f3 f').
Proof.
  intros ids f f' H. unfold renumber in H.
  destruct (get ids (f0 f)) eqn:A; [|discriminate]. destruct (get ids (f1 f)) eqn:B; [|discriminate].
  destruct (get ids (f2 f)) eqn:C; [|discriminate]. destruct (get ids (f3 f)) eqn:D; [|discriminate].
  simpl in H. injection H as <-. simpl. auto using get_inv.
Qed.

Lemma in_where : forall A (p : A -> bool) l i,
  In i (where_ p l) <-> exists a, nth_error l i = Some a /\ p a = true.
Proof.
  intros. unfold where_. rewrite filter_In, in_seq. split.
  - intros [B H]. destruct (nth_error l i); [eauto|discriminate].
  - intros (a & E & P). rewrite E. split; [|auto]. apply nth_error_bound in E. lia.
Qed.
Lemma filter_sorted : forall A (R : A -> A -> Prop) p l, StronglySorted R l -> StronglySorted R (filter p l).
Proof.
  induction 1; simpl; [constructor|]. destruct (p a); auto. constructor; auto.
  rewrite Forall_forall in *. intros x Hx. apply filter_In in Hx. apply H0. tauto.
Qed.
Lemma seq_sorted : forall n s, StronglySorted lt (seq s n).
Proof.
  induction n; simpl; constructor; auto. apply Forall_forall. intros x Hx. apply in_seq in Hx. lia.
Qed.
Lemma where_sorted : forall A (p : A -> bool) l, StronglySorted lt (where_ p l).
Proof. intros. apply filter_sorted, seq_sorted. Qed.
Lemma sorted_NoDup : forall l, StronglySorted lt l -> NoDup l.
Proof.
  induction 1; constructor; auto. intros H1. rewrite Forall_forall in H0. specialize (H0 _ H1). lia.
Qed.

Lemma set_mask_ok : forall nv idx, Forall (fun i => (i < nv)%nat) idx ->
  exists mask, set_mask (repeat false nv) idx = Ok mask /\ length mask = nv /\
    forall i, nth_error mask i = Some true <-> In i idx.
Proof.
  intros nv idx H. unfold set_mask. rewrite repeat_length.
  replace (forallb (fun i => i <? nv) idx) with true.
  2:{ symmetry. apply forallb_forall. intros x Hx. rewrite Forall_forall in H. apply Nat.ltb_lt. auto. }
  eexists. split; [reflexivity|]. split; [rewrite set_all_length, repeat_length; auto|].
  intros i. split; intros I.
  - destruct (in_dec Nat.eq_dec i idx); auto. rewrite set_all_other in I by auto.
    exfalso. apply nth_error_In in I. apply repeat_spec in I. discriminate.
  - apply set_all_same; auto. rewrite repeat_length. rewrite Forall_forall in H. auto.
Qed.

Lemma set_arange_other : forall idx l n i, ~ In i idx -> nth_error (set_arange l idx n) i = nth_error l i.
Proof.
  induction idx; simpl; intros; auto. rewrite IHidx by tauto. apply set_nth_other. tauto.
Qed.
Lemma set_arange_length : forall idx l n, length (set_arange l idx n) = length l.
Proof. induction idx; simpl; intros; auto. rewrite IHidx, set_nth_length. auto. Qed.
Lemma set_arange_at : forall idx l n k i, NoDup idx -> nth_error idx k = Some i -> (i < length l)%nat ->
  nth_error (set_arange l idx n) i = Some (n + k)%nat.
Proof.
  induction idx; intros l n k i D K L; [destruct k; discriminate|]. inversion D; subst. destruct k; simpl in *.
  - injection K as ->. rewrite set_arange_other by auto. rewrite set_nth_same by auto. f_equal; lia.
  - rewrite (IHidx _ (S n) k i); auto; [f_equal; lia|]. rewrite set_nth_length; auto.
Qed.

Lemma mapM_length : forall A B (f : A -> res B) l bs, mapM f l = Ok bs -> length bs = length l.
Proof. intros. symmetry. eapply Forall2_len. apply mapM_Forall2. eauto. Qed.

Lemma in_entries : forall f i, In i (entries f) <-> f0 f = i \/ f1 f = i \/ f2 f = i \/ f3 f = i.
Proof. intros. unfold entries. simpl. tauto. Qed.
Lemma uses_entries : forall fs i, uses fs i <-> In i (flat_map entries fs).
Proof.
  intros. unfold uses. rewrite in_flat_map. split; intros (f & H & I); exists f; split; auto; apply in_entries; auto.
Qed.
Lemma valid_entries : forall m i, valid m -> In i (flat_map entries (faces m)) -> (i < length (verts m))%nat.
Proof.
  intros m i V H. apply in_flat_map in H as (f & Hf & Hi). unfold valid in V. rewrite Forall_forall in V.
  destruct (V f Hf) as (A & B & C & D). apply in_entries in Hi. intuition subst; auto.
Qed.

(** The common part of extract_faces and remove_unused_vertices. *)
Lemma restrict_core : forall m fs nv mask, nv = length (verts m) ->
  (forall f, In f fs -> valid_face nv f) ->
  set_mask (repeat false nv) (flat_map entries fs) = Ok mask ->
  length mask = nv -> (forall i, nth_error mask i = Some true <-> In i (flat_map entries fs)) ->
  let id_v := where_ (fun b : bool => b) mask in
  let new_id := set_arange (seq 0 nv) id_v 0 in
  (forall i, In i id_v <-> In i (flat_map entries fs)) /\
  (exists vs, mapM (get (verts m)) id_v = Ok vs /\ length vs = length id_v /\
     forall k i, nth_error id_v k = Some i -> nth_error vs k = nth_error (verts m) i) /\
  (exists fs', mapM (renumber new_id) fs = Ok fs' /\ length fs' = length fs /\
     forall k f, nth_error fs k = Some f -> exists f', nth_error fs' k = Some f' /\
      nth_error id_v (f0 f') = Some (f0 f) /\ nth_error id_v (f1 f') = Some (f1 f) /\
      nth_error id_v (f2 f') = Some (f2 f) /\ nth_error id_v (f3 f') = Some (f3 f)).
Proof.
  intros m fs nv mask Env V _ L M id_v new_id.
  assert (I : forall i, In i id_v <-> In i (flat_map entries fs)).
  { intros i. unfold id_v. rewrite in_where, <- M. split.
    - intros (a & E & ->). auto.
    - intros E. exists true. auto. }
  assert (B : forall i, In i id_v -> (i < nv)%nat).
  { intros i Hi. apply I, M in Hi. apply nth_error_bound in Hi. lia. }
  split; [exact I|]. split.
  - destruct (mapM_ok _ _ (get (verts m)) id_v) as (vs & E & F).
    { intros i Hi. apply B in Hi. rewrite Env in Hi. destruct (nth_error_lt _ _ _ Hi) as [a A].
      exists a. apply get_some. auto. }
    exists vs. split; [auto|]. split; [symmetry; eapply Forall2_len; eauto|].
    intros k i K. destruct (Forall2_nth_error _ _ _ _ _ F k i K) as (v & Kv & G). apply get_inv in G. congruence.
  - assert (NL : length new_id = nv) by (unfold new_id; rewrite set_arange_length, seq_length; auto).
    destruct (mapM_ok _ _ (renumber new_id) fs) as (fs' & E & F).
    { intros f Hf. destruct (renumber_ok new_id f) as (f' & R & _); [rewrite NL; auto|eauto]. }
    exists fs'. split; [auto|]. split; [symmetry; eapply Forall2_len; eauto|].
    intros k f K. destruct (Forall2_nth_error _ _ _ _ _ F k f K) as (f' & K' & R). exists f'. split; [auto|].
    apply renumber_inv in R.
    assert (Z : forall i j, In i (entries f) -> nth_error new_id i = Some j -> nth_error id_v j = Some i).
    { intros i j Hi Hj.
      assert (Iv : In i id_v) by (apply I; apply in_flat_map; exists f; split; auto; eapply nth_error_In; eauto).
      destruct (In_nth_error _ _ Iv) as [q Q].
      unfold new_id in Hj. rewrite (set_arange_at id_v (seq 0 nv) 0 q i) in Hj.
      - injection Hj as <-. auto.
      - apply sorted_NoDup, where_sorted.
      - auto.
      - rewrite seq_length. auto. }
    destruct R as (R0 & R1 & R2 & R3).
    repeat split; apply Z; auto; unfold entries; simpl; auto.
Qed.

Lemma extract_restricts : forall m ids, valid m -> Forall (fun i => (i < length (faces m))%nat) ids ->
  exists m' id_v, extract_faces m ids = Ok (m', id_v) /\ restricts m ids m' id_v.
Proof.
  intros m ids V L. unfold extract_faces.
  destruct (mapM_ok _ _ (get (faces m)) ids) as (fs & E & F).
  { intros i Hi. rewrite Forall_forall in L. destruct (nth_error_lt _ _ _ (L i Hi)) as [f Hf].
    exists f. apply get_some; auto. }
  rewrite E. simpl.
  assert (IN : forall f, In f fs <-> exists id, In id ids /\ nth_error (faces m) id = Some f).
  { intros f. split.
    - intros Hf. apply In_nth_error in Hf as [k Hk].
      destruct (Forall2_nth_error_r _ _ _ _ _ F k f Hk) as (id & Hid & G). apply get_inv in G.
      exists id. split; auto. eapply nth_error_In; eauto.
    - intros (id & Hid & G). apply In_nth_error in Hid as [k Hk].
      destruct (Forall2_nth_error _ _ _ _ _ F k id Hk) as (f' & Hf & G'). apply get_inv in G'.
      assert (f = f') by congruence. subst. eapply nth_error_In; eauto. }
  assert (VF : forall f, In f fs -> valid_face (length (verts m)) f).
  { intros f Hf. apply IN in Hf as (id & _ & G). unfold valid in V. rewrite Forall_forall in V.
    apply V. eapply nth_error_In; eauto. }
  destruct (set_mask_ok (length (verts m)) (flat_map entries fs)) as (mask & S & SL & SM).
  { apply Forall_forall. intros i Hi. apply in_flat_map in Hi as (f & Hf & Hi). destruct (VF f Hf) as (A & B & C & D).
    apply in_entries in Hi. intuition subst; auto. }
  rewrite S. simpl.
  destruct (restrict_core m fs (length (verts m)) mask eq_refl VF S SL SM) as (I & (vs & EV & LV & PV) & (fs' & EF & LF & PF)).
  rewrite EV. simpl. rewrite EF. simpl. eexists _, _. split; [reflexivity|]. constructor; simpl.
  - rewrite LF. symmetry. eapply Forall2_len; eauto.
  - intros k id f K G. destruct (Forall2_nth_error _ _ _ _ _ F k id K) as (f' & Hf & G'). apply get_inv in G'.
    assert (f' = f) by congruence. subst. apply PF; auto.
  - intros i. rewrite I, in_flat_map. split.
    + intros (f & Hf & Hi). apply IN in Hf as (id & Hid & G). exists id, f. split; [auto|]. split; [auto|].
      exists f. split; [left; auto|]. apply in_entries; auto.
    + intros (id & f & Hid & G & (f' & [<-|[]] & U)). exists f. split; [apply IN; eauto|]. apply in_entries; auto.
  - apply where_sorted.
  - split; auto.
Qed.

Lemma sorted_full : forall l n, StronglySorted lt l -> (forall i, In i l -> (i < n)%nat) -> (n <= length l)%nat ->
  l = seq 0 n.
Proof.
  intros l n S B L.
  assert (G : forall l s n, StronglySorted lt l -> (forall i, In i l -> (s <= i < s + n)%nat) -> (n <= length l)%nat ->
            l = seq s n).
  { clear. induction l as [|a l IH]; intros s n S B L.
    - simpl in L. assert (n = 0)%nat by lia. subst. reflexivity.
    - inversion S; subst. rewrite Forall_forall in H2.
      assert (NB : (length l <= s + n - (a + 1))%nat).
      { clear - H1 H2 B. assert (X : forall l a, StronglySorted lt l -> (forall x, In x l -> (a < x < s + n)%nat) -> (length l <= s + n - (a + 1))%nat).
        { clear. induction l; intros b S B; simpl; [lia|]. inversion S; subst. rewrite Forall_forall in H2.
          pose proof (B a (or_introl eq_refl)).
          assert (length l <= s + n - (a + 1))%nat by (apply IHl; auto; intros x Hx; pose proof (H2 x Hx); pose proof (B x (or_intror Hx)); lia).
          lia. }
        apply X; auto. intros x Hx. pose proof (H2 x Hx). pose proof (B x (or_intror Hx)). lia. }
      pose proof (B a (or_introl eq_refl)) as Ba. simpl in L.
      assert (a = s) by lia. subst a. destruct n; [lia|]. simpl. f_equal. apply IH; auto.
      + intros i Hi. pose proof (H2 i Hi). pose proof (B i (or_intror Hi)). lia.
      + lia. }
  apply G; auto. intros i Hi. pose proof (B i Hi). lia.
Qed.

Lemma remove_unused_restricts : forall m, valid m ->
  exists m' id_v, remove_unused_vertices m = Ok m' /\ restricts m (seq 0 (length (faces m))) m' id_v.
Proof.
  intros m V. unfold remove_unused_vertices.
  assert (VF : forall f, In f (faces m) -> valid_face (length (verts m)) f).
  { intros f Hf. unfold valid in V. rewrite Forall_forall in V. auto. }
  destruct (set_mask_ok (length (verts m)) (flat_map entries (faces m))) as (mask & S & SL & SM).
  { apply Forall_forall. intros i Hi. apply valid_entries; auto. }
  rewrite S. simpl.
  destruct (restrict_core m (faces m) (length (verts m)) mask eq_refl VF S SL SM) as (I & (vs & EV & LV & PV) & (fs' & EF & LF & PF)).
  set (id_v := where_ (fun b : bool => b) mask) in *.
  assert (K0 : forall k id f, nth_error (seq 0 (length (faces m))) k = Some id -> nth_error (faces m) id = Some f -> k = id).
  { intros k id f K G. pose proof (nth_error_bound _ _ _ _ K) as B. rewrite seq_length in B.
    rewrite nth_error_seq in K by auto. simpl in K. congruence. }
  assert (U : forall i, In i (flat_map entries (faces m)) <->
     exists id f, In id (seq 0 (length (faces m))) /\ nth_error (faces m) id = Some f /\ uses [f] i).
  { intros i. rewrite in_flat_map. split.
    - intros (f & Hf & Hi). apply In_nth_error in Hf as [id Hid]. exists id, f. split.
      + apply in_seq. pose proof (nth_error_bound _ _ _ _ Hid). lia.
      + split; [auto|]. exists f. split; [left; auto|]. apply in_entries; auto.
    - intros (id & f & _ & G & (f' & [<-|[]] & Us)). exists f. split; [eapply nth_error_In; eauto|].
      apply in_entries; auto. }
  destruct (Nat.ltb_spec (length id_v) (length (verts m))) as [Lt|Ge].
  - rewrite EF, EV. simpl. eexists _, id_v. split; [reflexivity|]. constructor; simpl.
    + rewrite LF, seq_length. auto.
    + intros k id f K G. rewrite (K0 k id f K G) in *. apply PF; auto.
    + intros i. rewrite I. apply U.
    + apply where_sorted.
    + split; auto.
  - assert (Eid : id_v = seq 0 (length (verts m))).
    { apply sorted_full; auto. apply where_sorted. intros i Hi. apply I in Hi. apply valid_entries; auto. }
    exists m, id_v. split; [reflexivity|]. rewrite Eid in *. constructor; simpl.
    + rewrite seq_length. auto.
    + intros k id f K G. rewrite (K0 k id f K G) in *. exists f. split; [auto|].
      destruct (VF f) as (A & B & C & D); [eapply nth_error_In; eauto|].
      rewrite !nth_error_seq by auto. auto.
    + intros i. rewrite I. apply U.
    + apply seq_sorted.
    + split; [rewrite seq_length; auto|]. intros k i K. pose proof (nth_error_bound _ _ _ _ K) as B.
      rewrite seq_length in B. rewrite nth_error_seq in K by auto. simpl in K. injection K as ->. auto.
Qed.

Lemma restricts_valid : forall m ids m' id_v, restricts m ids m' id_v ->
  Forall (fun i => (i < length (faces m))%nat) ids -> valid m'.
Proof.
  intros m ids m' id_v [RC RE RU RS [RL RV]] L. unfold valid. apply Forall_forall. intros f' Hf'.
  apply In_nth_error in Hf' as [k Hk]. pose proof (nth_error_bound _ _ _ _ Hk) as B. rewrite RC in B.
  destruct (nth_error_lt _ _ _ B) as [id Hid]. rewrite Forall_forall in L.
  destruct (nth_error_lt _ _ _ (L id (nth_error_In _ _ Hid))) as [f Hf].
  destruct (RE k id f Hid Hf) as (f'' & Hk' & E0 & E1 & E2 & E3). assert (f'' = f') by congruence. subst f''.
  unfold valid_face. rewrite RL. repeat split; eapply nth_error_bound; eauto.
Qed.

Lemma restricts_points : forall m ids m' id_v k id ps, restricts m ids m' id_v -> valid m ->
  nth_error ids k = Some id -> (id < length (faces m))%nat -> (face_points m' k ps <-> face_points m id ps).
Proof.
  intros m ids m' id_v k id ps [RC RE RU RS [RL RV]] V K B.
  destruct (nth_error_lt _ _ _ B) as [f Hf]. destruct (RE k id f K Hf) as (f' & Hk & E0 & E1 & E2 & E3).
  unfold face_points, corners. split.
  - intros (g & Hg & a & b & c & d & -> & A0 & A1 & A2 & A3). assert (g = f') by congruence. subst g.
    exists f. split; [auto|]. exists a, b, c, d. split; [auto|].
    rewrite (RV _ _ E0) in A0. rewrite (RV _ _ E1) in A1. rewrite (RV _ _ E2) in A2. rewrite (RV _ _ E3) in A3. auto.
  - intros (g & Hg & a & b & c & d & -> & A0 & A1 & A2 & A3). assert (g = f) by congruence. subst g.
    exists f'. split; [auto|]. exists a, b, c, d. split; [auto|].
    rewrite (RV _ _ E0). rewrite (RV _ _ E1). rewrite (RV _ _ E2). rewrite (RV _ _ E3). auto.
Qed.

(** Faces of a valid mesh have corners. *)
Lemma valid_corners : forall m k f, valid m -> nth_error (faces m) k = Some f -> exists ps, corners (verts m) f ps.
Proof.
  intros m k f V H. unfold valid in V. rewrite Forall_forall in V.
  destruct (V f (nth_error_In _ _ H)) as (A & B & C & D).
  destruct (nth_error_lt _ _ _ A) as [a Ha]. destruct (nth_error_lt _ _ _ B) as [b Hb].
  destruct (nth_error_lt _ _ _ C) as [c Hc]. destruct (nth_error_lt _ _ _ D) as [d Hd].
  exists [a; b; c; d]. exists a, b, c, d. auto.
Qed.

Lemma remove_unused_full : forall m, valid m -> (forall i, (i < length (verts m))%nat -> uses (faces m) i) ->
  remove_unused_vertices m = Ok m.
Proof.
  intros m V U. unfold remove_unused_vertices.
  destruct (set_mask_ok (length (verts m)) (flat_map entries (faces m))) as (mask & S & SL & SM).
  { apply Forall_forall. intros i Hi. apply valid_entries; auto. }
  rewrite S. simpl. 
  destruct (Nat.ltb_spec (length (where_ (fun b : bool => b) mask)) (length (verts m))) as [Lt|Ge]; auto.
  exfalso. assert (E : incl (seq 0 (length (verts m))) (where_ (fun b : bool => b) mask)).
  { intros i Hi. apply in_seq in Hi. apply in_where. exists true. split; auto. apply SM. apply uses_entries. apply U. lia. }
  apply NoDup_incl_length in E; [|apply seq_NoDup]. rewrite seq_length in E. lia.
Qed.

Lemma remove_unused_idempotent : forall m m', valid m -> remove_unused_vertices m = Ok m' ->
  remove_unused_vertices m' = Ok m'.
Proof.
  intros m m' V E. destruct (remove_unused_restricts m V) as (m'' & id_v & E' & R). rewrite E in E'. injection E' as <-.
  assert (LL : Forall (fun i => (i < length (faces m))%nat) (seq 0 (length (faces m)))).
  { apply Forall_forall. intros i Hi. apply in_seq in Hi. lia. }
  pose proof (restricts_valid _ _ _ _ R LL) as V'. apply remove_unused_full; auto.
  destruct R as [RC RE RU RS [RL RV]]. intros i Hi. rewrite RL in Hi.
  destruct (nth_error_lt _ _ _ Hi) as [j Hj].
  assert (In j id_v) by (eapply nth_error_In; eauto). apply RU in H as (id & f & Hid & Hf & (g & [<-|[]] & U)).
  apply In_nth_error in Hid as [k Hk]. destruct (RE k id f Hk Hf) as (f' & Hk' & E0 & E1 & E2 & E3).
  exists f'. split; [eapply nth_error_In; eauto|].
  assert (ND : NoDup id_v) by (apply sorted_NoDup; auto). rewrite NoDup_nth_error in ND.
  assert (Q : forall x, nth_error id_v x = Some j -> x = i).
  { intros x Hx. apply ND; [eapply nth_error_bound; eauto|congruence]. }
  destruct U as [<-|[<-|[<-|<-]]]; auto 6.
Qed.

(** ** Merging the vertices of a mesh *)
Lemma within_near : forall t a b, within coords t a b <-> near_point t a b.
Proof.
  intros. unfold within, near_point, coords. split.
  - intros H. split; [|split]; apply H; simpl; auto.
  - intros (A & B & C) c Hc. simpl in Hc. intuition subst; auto.
Qed.

Lemma merge_mesh : forall argsort atol m, sorting argsort -> (0 <= atol)%R -> verts m <> [] -> valid m ->
  exists m' ids, merge_duplicates_index argsort atol m = Ok (m', ids) /\
    merge_duplicates argsort atol m = Ok m' /\ valid m' /\
    merged coords atol (verts m) (verts m') ids /\
    length (faces m') = length (faces m) /\
    (forall k f, nth_error (faces m) k = Some f -> exists f', nth_error (faces m') k = Some f' /\
       nth_error ids (f0 f) = Some (f0 f') /\ nth_error ids (f1 f) = Some (f1 f') /\
       nth_error ids (f2 f) = Some (f2 f') /\ nth_error ids (f3 f) = Some (f3 f')).
Proof.
  intros argsort atol m Hs Ha Hne V. unfold merge_duplicates, merge_duplicates_index.
  destruct (merge_merged argsort Hs atol Ha vec coords (verts m) Hne) as (u & ids & E & MM). rewrite E. simpl.
  destruct (mapM_ok _ _ (renumber ids) (faces m)) as (fs & EF & F).
  { intros f Hf. unfold valid in V. rewrite Forall_forall in V.
    destruct (renumber_ok ids f) as (f' & R & _); [rewrite (merged_ids _ _ _ _ _ MM); auto|eauto]. }
  rewrite EF. simpl. exists (mkMesh u fs), ids. split; [auto|]. split; [auto|]. split; [|split; [auto|split]]; simpl.
  - unfold valid. simpl. apply Forall_forall. intros f' Hf'. apply In_nth_error in Hf' as [k Hk].
    destruct (Forall2_nth_error_r _ _ _ _ _ F k f' Hk) as (f & Hf & R). apply renumber_inv in R as (A & B & C & D).
    unfold valid in V. rewrite Forall_forall in V. destruct (V f (nth_error_In _ _ Hf)) as (A' & B' & C' & D').
    assert (X : forall i j, (i < length (verts m))%nat -> nth_error ids i = Some j -> (j < length u)%nat).
    { intros i j Hi Hj. destruct (nth_error_lt _ _ _ Hi) as [r Hr].
      destruct (merged_close _ _ _ _ _ MM i r Hr) as (k' & s & K & U & _). assert (k' = j) by congruence. subst.
      eapply nth_error_bound; eauto. }
    unfold valid_face. eauto 10.
  - symmetry. eapply Forall2_len; eauto.
  - intros k f K. destruct (Forall2_nth_error _ _ _ _ _ F k f K) as (f' & K' & R). apply renumber_inv in R. eauto.
Qed.

Lemma merge_points : forall atol m m' ids k ps, valid m ->
  merged coords atol (verts m) (verts m') ids ->
  (forall k f, nth_error (faces m) k = Some f -> exists f', nth_error (faces m') k = Some f' /\
       nth_error ids (f0 f) = Some (f0 f') /\ nth_error ids (f1 f) = Some (f1 f') /\
       nth_error ids (f2 f) = Some (f2 f') /\ nth_error ids (f3 f) = Some (f3 f')) ->
  face_points m k ps -> exists ps', face_points m' k ps' /\ Forall2 (near_point atol) ps ps'.
Proof.
  intros atol m m' ids k ps V MM FF (f & Hf & a & b & c & d & -> & A & B & C & D).
  destruct (FF k f Hf) as (f' & Hf' & E0 & E1 & E2 & E3).
  assert (X : forall i j r, nth_error (verts m) i = Some r -> nth_error ids i = Some j ->
            exists s, nth_error (verts m') j = Some s /\ near_point atol r s).
  { intros i j r Hr Hj. destruct (merged_close _ _ _ _ _ MM i r Hr) as (k' & s & K & U & W).
    assert (k' = j) by congruence. subst. exists s. split; auto. apply within_near. auto. }
  destruct (X _ _ _ A E0) as (a' & A' & WA). destruct (X _ _ _ B E1) as (b' & B' & WB).
  destruct (X _ _ _ C E2) as (c' & C' & WC). destruct (X _ _ _ D E3) as (d' & D' & WD).
  exists [a'; b'; c'; d']. split; [|auto]. exists f'. split; auto. exists a', b', c', d'. auto.
Qed.

Lemma merge_mesh_unchanged : forall argsort atol m m' ids, sorting argsort -> (0 <= atol)%R -> verts m <> [] -> valid m ->
  merge_duplicates_index argsort atol m = Ok (m', ids) -> length (verts m') = length (verts m) ->
  m' = m /\ ids = seq 0 (length (verts m)).
Proof.
  intros argsort atol m m' ids Hs Ha Hne V E L. unfold merge_duplicates_index in E.
  destruct (merge_duplicate_rows argsort atol coords (verts m)) as [[u d]|] eqn:M; [|discriminate]. simpl in E.
  destruct (mapM (renumber d) (faces m)) as [fs|] eqn:R; [|discriminate]. simpl in E. injection E as <- <-.
  simpl in L. destruct (merge_unchanged argsort Hs atol Ha vec coords (verts m) Hne u d M L) as [-> ->].
  split; auto. destruct m as [vs fs0]. simpl in *. f_equal. apply mapM_Forall2 in R. unfold valid in V. simpl in V.
  clear M L. induction R; auto. inversion V; subst. f_equal; auto. apply renumber_inv in H as (A & B & C & D).
  destruct H2 as (a & b & c & e). rewrite nth_error_seq in A, B, C, D by auto. simpl in *.
  destruct x, y; simpl in *. congruence.
Qed.

Lemma merge_mesh_empty : forall argsort atol fs, merge_duplicates argsort atol (mkMesh [] fs) = Raise IndexError.
Proof. intros. unfold merge_duplicates, merge_duplicates_index. cbn [verts]. rewrite merge_empty. reflexivity. Qed.

(** ** Concatenation *)
Lemma face_points_left : forall m1 vs fs k ps, valid m1 -> face_points m1 k ps ->
  face_points (mkMesh (verts m1 ++ vs) (faces m1 ++ fs)) k ps.
Proof.
  intros m1 vs fs k ps V (f & Hf & a & b & c & d & -> & A & B & C & D).
  exists f. simpl. split; [rewrite nth_error_app1; auto; eapply nth_error_bound; eauto|].
  exists a, b, c, d. split; auto.
  rewrite !nth_error_app1; auto; eapply nth_error_bound; eauto.
Qed.
Lemma face_points_right : forall m2 vs fs k ps, valid m2 -> face_points m2 k ps ->
  face_points (mkMesh (vs ++ verts m2) (fs ++ map (shift_face (length vs)) (faces m2))) (length fs + k) ps.
Proof.
  intros m2 vs fs k ps V (f & Hf & a & b & c & d & -> & A & B & C & D).
  exists (shift_face (length vs) f). simpl. split.
  - rewrite nth_error_app2 by lia. replace (length fs + k - length fs)%nat with k by lia.
    rewrite nth_error_map, Hf. auto.
  - exists a, b, c, d. split; auto. cbn [shift_face f0 f1 f2 f3].
    rewrite !nth_error_app2 by lia. rewrite !Nat.add_sub. auto.
Qed.
Lemma valid_shift : forall n nv f, valid_face nv f -> valid_face (n + nv) (shift_face n f).
Proof. intros n nv f (A & B & C & D). unfold valid_face; simpl. lia. Qed.
Lemma valid_more : forall n nv f, valid_face nv f -> valid_face (nv + n) f.
Proof. intros n nv f (A & B & C & D). unfold valid_face; simpl. lia. Qed.
Lemma valid_flip : forall nv f, valid_face nv f -> valid_face nv (flip_face f).
Proof. intros nv f (A & B & C & D). unfold valid_face; simpl. lia. Qed.

Lemma valid_add : forall m1 m2, valid m1 -> valid m2 -> valid (add_concat m1 m2).
Proof.
  intros m1 m2 V1 V2. unfold valid, add_concat in *. simpl. rewrite app_length. apply Forall_app. split.
  - eapply Forall_impl; [|exact V1]. intros; apply valid_more; auto.
  - rewrite Forall_map. eapply Forall_impl; [|exact V2]. intros; apply valid_shift; auto.
Qed.
Lemma valid_symmetrize : forall p m, valid m -> valid (symmetrize_concat p m).
Proof.
  intros p m V. unfold valid, symmetrize_concat in *. simpl. rewrite app_length, map_length. apply Forall_app. split.
  - eapply Forall_impl; [|exact V]. intros; apply valid_more; auto.
  - rewrite Forall_map. eapply Forall_impl; [|exact V]. intros; apply valid_flip, valid_shift; auto.
Qed.

Lemma default_atol_pos : (0 <= default_atol)%R.
Proof. unfold default_atol. lra. Qed.

Lemma add_spec : forall argsort m1 m2, sorting argsort -> valid m1 -> valid m2 -> verts m1 ++ verts m2 <> [] ->
  exists m', add argsort m1 m2 = Ok m' /\ valid m' /\
    length (faces m') = (length (faces m1) + length (faces m2))%nat /\
    (forall k ps, face_points m1 k ps -> exists ps', face_points m' k ps' /\ Forall2 (near_point default_atol) ps ps') /\
    (forall k ps, face_points m2 k ps ->
       exists ps', face_points m' (length (faces m1) + k) ps' /\ Forall2 (near_point default_atol) ps ps').
Proof.
  intros argsort m1 m2 Hs V1 V2 Hne.
  pose proof (valid_add _ _ V1 V2) as V.
  destruct (merge_mesh argsort default_atol (add_concat m1 m2) Hs default_atol_pos Hne V)
    as (m' & ids & _ & E & V' & MM & L & FF).
  exists m'. split; [exact E|]. split; [auto|]. split.
  - rewrite L. simpl. rewrite app_length, map_length. auto.
  - split; intros k ps P.
    + eapply (merge_points default_atol (add_concat m1 m2)); eauto. apply face_points_left; auto.
    + eapply (merge_points default_atol (add_concat m1 m2)); eauto. apply face_points_right; auto.
Qed.

Lemma face_points_flip : forall vs fs k ps, face_points (mkMesh vs fs) k ps <-> face_points (mkMesh vs (map flip_face fs)) k (rev ps).
Proof.
  intros. unfold face_points, corners. simpl. split.
  - intros (f & Hf & a & b & c & d & -> & A & B & C & D). exists (flip_face f).
    split; [rewrite nth_error_map, Hf; auto|]. exists d, c, b, a. simpl. auto 10.
  - intros (f & Hf & a & b & c & d & E & A & B & C & D). rewrite nth_error_map in Hf.
    destruct (nth_error fs k) as [g|]; [|discriminate]. simpl in Hf. injection Hf as <-. exists g. split; auto.
    simpl in *. exists d, c, b, a. split; auto. rewrite <- (rev_involutive ps), E. reflexivity.
Qed.

Lemma symmetrize_points : forall p m k ps, valid m -> face_points m k ps ->
  face_points (symmetrize_concat p m) k ps /\
  face_points (symmetrize_concat p m) (length (faces m) + k) (rev (map (reflect p) ps)).
Proof.
  intros p m k ps V P. split; [apply face_points_left; auto|].
  destruct P as (f & Hf & a & b & c & d & -> & A & B & C & D).
  exists (flip_face (shift_face (length (verts m)) f)). simpl. split.
  - rewrite nth_error_app2 by lia. replace (length (faces m) + k - length (faces m))%nat with k by lia.
    rewrite nth_error_map, Hf. auto.
  - exists (reflect p d), (reflect p c), (reflect p b), (reflect p a). split; auto. cbn [flip_face shift_face f0 f1 f2 f3].
    rewrite !nth_error_app2 by lia. rewrite !Nat.add_sub. rewrite !nth_error_map.
    rewrite A, B, C, D. auto.
Qed.

Lemma symmetrize_spec : forall argsort p m, sorting argsort -> valid m -> verts m <> [] ->
  exists m', symmetrize argsort p m = Ok m' /\ valid m' /\
    length (faces m') = (2 * length (faces m))%nat /\
    (forall k ps, face_points m k ps ->
       (exists ps', face_points m' k ps' /\ Forall2 (near_point default_atol) ps ps') /\
       (exists ps', face_points m' (length (faces m) + k) ps' /\
                    Forall2 (near_point default_atol) (rev (map (reflect p) ps)) ps')).
Proof.
  intros argsort p m Hs V Hne.
  pose proof (valid_symmetrize p _ V) as V1.
  destruct (merge_mesh argsort default_atol (symmetrize_concat p m) Hs default_atol_pos) as (m' & ids & _ & E & V' & MM & L & FF); auto.
  { simpl. destruct (verts m); [congruence|discriminate]. }
  exists m'. split; [exact E|]. split; [auto|]. split.
  - rewrite L. simpl. rewrite app_length, map_length. lia.
  - intros k ps P. destruct (symmetrize_points p m k ps V P) as [P1 P2].
    split; eapply (merge_points default_atol (symmetrize_concat p m)); eauto.
Qed.

(** ** Reflections *)
Lemma reflect_image : forall p v, dot (p_normal p) (p_normal p) = 1%R ->
  mirror_image (p_normal p) (p_scalar p) v (reflect p v).
Proof.
  intros p v H. unfold mirror_image, reflect. split.
  - exists (-2 * (dot v (p_normal p) - p_scalar p))%R. vring.
  - set (n := p_normal p) in *. set (c := p_scalar p).
    transitivity ((dot v n + (dot v n - 2 * (dot v n - c) * dot n n)) / 2)%R.
    + vunfold. field.
    + rewrite H. field.
Qed.
Lemma mirror_image_unique : forall n c v a b, dot n n = 1%R ->
  mirror_image n c v a -> mirror_image n c v b -> a = b.
Proof.
  intros n c v a b H [[k K] Mk] [[l L] Ml].
  assert (A : a = vadd v (vscale k n)) by (rewrite <- K; vring).
  assert (B : b = vadd v (vscale l n)) by (rewrite <- L; vring). subst a b.
  assert (E1 : (dot v n + k / 2 * dot n n = c)%R) by (rewrite <- Mk; vunfold; field).
  assert (E2 : (dot v n + l / 2 * dot n n = c)%R) by (rewrite <- Ml; vunfold; field).
  rewrite H in E1, E2. replace l with k by lra. reflexivity.
Qed.
Lemma mirror_image_sym : forall n c a b, mirror_image n c a b -> mirror_image n c b a.
Proof.
  intros n c a b [[k K] M]. split.
  - exists (- k)%R. transitivity (vscale (-1) (vsub b a)); [vring|]. rewrite K. vring.
  - rewrite <- M. vunfold. ring.
Qed.
Lemma reflect_involutive : forall p v, dot (p_normal p) (p_normal p) = 1%R -> reflect p (reflect p v) = v.
Proof.
  intros p v H. eapply (mirror_image_unique _ _ (reflect p v)); eauto.
  - apply reflect_image; auto.
  - apply mirror_image_sym, reflect_image; auto.
Qed.
Lemma reflect_dot : forall p a b c d, dot (p_normal p) (p_normal p) = 1%R ->
  dot (vsub (reflect p a) (reflect p b)) (vsub (reflect p c) (reflect p d)) = dot (vsub a b) (vsub c d).
Proof.
  intros p a b c d H. unfold reflect. set (n := p_normal p) in *. set (s := p_scalar p).
  transitivity (dot (vsub a b) (vsub c d) - 4 * dot (vsub a b) n * dot (vsub c d) n
                + 4 * dot (vsub a b) n * dot (vsub c d) n * dot n n)%R.
  - vunfold. ring.
  - rewrite H. ring.
Qed.
Lemma reflect_distance : forall p a b, dot (p_normal p) (p_normal p) = 1%R ->
  norm (vsub (reflect p a) (reflect p b)) = norm (vsub a b).
Proof. intros. rewrite !norm_dot, reflect_dot; auto. Qed.

Lemma map_involutive : forall A (f : A -> A) l, (forall a, f (f a) = a) -> map f (map f l) = l.
Proof. intros. rewrite map_map. rewrite <- (map_id l) at 2. apply map_ext. auto. Qed.
Lemma flip_flip : forall f, flip_face (flip_face f) = f.
Proof. intros []; reflexivity. Qed.
Lemma flip_involutive : forall m, flip_normals (flip_normals m) = m.
Proof. intros [vs fs]. unfold flip_normals. simpl. rewrite map_involutive; auto using flip_flip. Qed.
Lemma mirror_involutive : forall p m, dot (p_normal p) (p_normal p) = 1%R -> mirror p (mirror p m) = m.
Proof.
  intros p [vs fs] H. unfold mirror, flip_normals. simpl.
  rewrite !map_involutive; auto using flip_flip. intros. apply reflect_involutive; auto.
Qed.
Lemma mirror_points : forall p m k ps, face_points m k ps -> face_points (mirror p m) k (rev (map (reflect p) ps)).
Proof.
  intros p [vs fs] k ps (f & Hf & a & b & c & d & -> & A & B & C & D). simpl in *. unfold mirror, flip_normals. simpl.
  exists (flip_face f). simpl. split; [rewrite nth_error_map, Hf; auto|].
  exists (reflect p d), (reflect p c), (reflect p b), (reflect p a). split; auto. simpl.
  rewrite !nth_error_map, A, B, C, D. auto.
Qed.

(** ** heal_triangles *)
Definition heal_face (f : face) : face :=
  let p f := if is_triangle f then f else roll1 f in p (p (p f)).
Lemma heal_faces : forall m, faces (heal_triangles m) = map heal_face (faces m).
Proof.
  intros. unfold heal_triangles, roll_quads, heal_face. simpl. rewrite !map_map. reflexivity.
Qed.
Ltac tri_cases := repeat match goal with
  | |- context [Nat.eqb ?a ?b] => is_var a; is_var b; destruct (Nat.eqb_spec a b); cbn [f0 f1 f2 f3 roll1] end.
Lemma heal_face_rotation : forall f, In (heal_face f) (rotations f).
Proof.
  intros [a b c d]. unfold heal_face, is_triangle, rotations, roll1. cbn [f0 f1 f2 f3]. tri_cases; simpl; auto.
Qed.
Lemma heal_face_triangle : forall f, is_triangle (heal_face f) = true <-> repeated f.
Proof.
  intros [a b c d]. unfold heal_face, is_triangle, repeated. cbn [f0 f1 f2 f3 roll1].
  tri_cases; cbn [f0 f1 f2 f3 roll1]; (split; intros X; [try discriminate|]); auto; try tauto;
    try (exfalso; intuition congruence).
Qed.
Lemma heal_face_same : forall f, is_triangle f = true -> heal_face f = f.
Proof. intros f H. unfold heal_face. rewrite !H. auto. Qed.
Lemma heal_face_quad : forall f, ~ repeated f -> heal_face f = F4 (f1 f) (f2 f) (f3 f) (f0 f).
Proof.
  intros [a b c d]. unfold heal_face, is_triangle, repeated. cbn [f0 f1 f2 f3 roll1].
  tri_cases; cbn [f0 f1 f2 f3 roll1]; intuition congruence.
Qed.
Lemma repeated_rotation : forall f g, In g (rotations f) -> (repeated g <-> repeated f).
Proof.
  intros f g H. unfold rotations in H. simpl in H. unfold repeated.
  intuition (subst; simpl in *; intuition congruence).
Qed.
Lemma heal_face_twice : forall f, is_triangle (heal_face (heal_face f)) = is_triangle (heal_face f).
Proof.
  intros f. pose proof (heal_face_triangle (heal_face f)) as A. pose proof (heal_face_triangle f) as B.
  pose proof (repeated_rotation f _ (heal_face_rotation f)) as C.
  destruct (is_triangle (heal_face (heal_face f))), (is_triangle (heal_face f)); intuition.
Qed.

(** ** Boundaries *)
Definition fnet (f : face) (i j : nat) : Z :=
  (Z.of_nat (count_occ edge_eq_dec (face_edges f) (i, j)) - Z.of_nat (count_occ edge_eq_dec (face_edges f) (j, i)))%Z.
Lemma net_nil : forall i j, net_edge [] i j = 0%Z. Proof. reflexivity. Qed.
Lemma net_app : forall a b i j, net_edge (a ++ b) i j = (net_edge a i j + net_edge b i j)%Z.
Proof. intros. unfold net_edge, mesh_edges. rewrite flat_map_app, !count_occ_app. lia. Qed.
Lemma net_cons : forall f b i j, net_edge (f :: b) i j = (fnet f i j + net_edge b i j)%Z.
Proof.
  intros. change (f :: b) with ([f] ++ b). rewrite net_app. f_equal.
Qed.
(** Indicator of a directed edge minus its reverse. *)
Definition e1 (a b i j : nat) : Z :=
  ((if edge_eq_dec (a, b) (i, j) then 1 else 0) - (if edge_eq_dec (a, b) (j, i) then 1 else 0))%Z.
Lemma count_cons : forall x l y, Z.of_nat (count_occ edge_eq_dec (x :: l) y) =
  ((if edge_eq_dec x y then 1 else 0) + Z.of_nat (count_occ edge_eq_dec l y))%Z.
Proof. intros. simpl. destruct (edge_eq_dec x y); lia. Qed.
Lemma fnet_e1 : forall f i j, fnet f i j = (e1 (f0 f) (f1 f) i j + e1 (f1 f) (f2 f) i j + e1 (f2 f) (f3 f) i j + e1 (f3 f) (f0 f) i j)%Z.
Proof.
  intros f i j. unfold fnet, face_edges, e1. rewrite !count_cons. simpl (count_occ edge_eq_dec [] _).
  generalize (if edge_eq_dec (f0 f, f1 f) (i, j) then 1 else 0)%Z, (if edge_eq_dec (f1 f, f2 f) (i, j) then 1 else 0)%Z,
    (if edge_eq_dec (f2 f, f3 f) (i, j) then 1 else 0)%Z, (if edge_eq_dec (f3 f, f0 f) (i, j) then 1 else 0)%Z. lia.
Qed.
Lemma e1_opp : forall a b i j, e1 b a i j = (- e1 a b i j)%Z.
Proof.
  intros. unfold e1.
  repeat match goal with |- context [if ?x then _ else _] => destruct x end; try lia; congruence.
Qed.
Lemma e1_null : forall a i j, e1 a a i j = 0%Z.
Proof. intros. pose proof (e1_opp a a i j). lia. Qed.

Lemma net_flip : forall fs i j, net_edge (map flip_face fs) i j = (- net_edge fs i j)%Z.
Proof.
  induction fs; intros; simpl map; [reflexivity|]. rewrite !net_cons, IHfs, !fnet_e1. simpl.
  rewrite (e1_opp (f2 a) (f3 a)), (e1_opp (f1 a) (f2 a)), (e1_opp (f0 a) (f1 a)), (e1_opp (f3 a) (f0 a)). lia.
Qed.
Lemma fnet_rotation : forall f g i j, In g (rotations f) -> fnet g i j = fnet f i j.
Proof.
  intros f g i j H. rewrite !fnet_e1. unfold rotations in H. simpl in H.
  intuition (subst; simpl; lia).
Qed.

(** ** Triangulation *)
Definition cut_face (f : face) : face := if is_triangle f then f else F4 (f0 f) (f2 f) (f3 f) (f0 f).
Definition half_face (f : face) : face := F4 (f0 f) (f1 f) (f2 f) (f0 f).
Lemma mapM_map : forall A B C (g : A -> B) (h : B -> res C) l, mapM h (map g l) = mapM (fun a => h (g a)) l.
Proof. induction l; simpl; auto. rewrite IHl. auto. Qed.

Lemma where_cons : forall A (p : A -> bool) a l,
  where_ p (a :: l) = (if p a then [0%nat] else []) ++ map S (where_ p l).
Proof.
  intros. unfold where_. simpl length. simpl seq. simpl filter.
  assert (E : filter (fun i => match nth_error (a :: l) i with Some x => p x | None => false end) (seq 1 (length l)) =
              map S (filter (fun i => match nth_error l i with Some x => p x | None => false end) (seq 0 (length l)))).
  { rewrite <- seq_shift. generalize (seq 0 (length l)). induction l0; simpl; auto.
    rewrite IHl0. destruct (match nth_error l a0 with Some x => p x | None => false end); auto. }
  rewrite E. destruct (p a); auto.
Qed.
Lemma where_rows : forall A (p : A -> bool) l, mapM (get l) (where_ p l) = Ok (filter p l).
Proof.
  induction l; [reflexivity|]. rewrite where_cons. simpl filter.
  assert (E : mapM (get (a :: l)) (map S (where_ p l)) = Ok (filter p l)).
  { rewrite mapM_map. rewrite <- IHl. f_equal. }
  destruct (p a); cbn [app mapM]; [|exact E]. rewrite E. reflexivity.
Qed.

Lemma fold_set_length : forall (q : list nat) (fs l : list face) h,
  length (fold_left (fun l i => match nth_error fs i with Some f => set_nth l i (h f) | None => l end) q l) = length l.
Proof.
  induction q; simpl; intros; auto. rewrite IHq. destruct (nth_error fs a); auto. apply set_nth_length.
Qed.
Lemma fold_set_nth : forall (q : list nat) (fs l : list face) h k, length l = length fs ->
  nth_error (fold_left (fun l i => match nth_error fs i with Some f => set_nth l i (h f) | None => l end) q l) k =
  if in_dec Nat.eq_dec k q then option_map h (nth_error fs k) else nth_error l k.
Proof.
  induction q; simpl; intros; auto.
  rewrite IHq by (destruct (nth_error fs a); rewrite ?set_nth_length; auto).
  destruct (Nat.eq_dec a k) as [->|N]; destruct (in_dec Nat.eq_dec k q) as [I|I]; simpl; auto.
  - destruct (nth_error fs k) eqn:E; simpl.
    + apply set_nth_same. rewrite H. eapply nth_error_bound; eauto.
    + apply nth_error_None. rewrite H. apply nth_error_None. auto.
  - destruct (nth_error fs a); auto. apply set_nth_other; auto.
Qed.

Lemma nth_error_ext : forall A (l m : list A), (forall k, nth_error l k = nth_error m k) -> l = m.
Proof.
  induction l; intros [|b m] H; auto.
  - specialize (H 0%nat). discriminate.
  - specialize (H 0%nat). discriminate.
  - f_equal.
    + specialize (H 0%nat). simpl in H. congruence.
    + apply IHl. intros k. apply (H (S k)).
Qed.

Lemma triangulate_faces : forall m, triangulate_quadrangles m =
  Ok (mkMesh (verts m) (map cut_face (faces m) ++ map half_face (filter (fun f => negb (is_triangle f)) (faces m)))).
Proof.
  intros m. unfold triangulate_quadrangles, triangulate_with, quadrangles_ids. rewrite where_rows. simpl.
  do 3 f_equal. apply nth_error_ext. intros k.
  rewrite (fold_set_nth _ (faces m) (faces m) (fun f => F4 (f0 f) (f2 f) (f3 f) (f0 f))) by auto.
  rewrite nth_error_map. unfold cut_face.
  destruct (in_dec Nat.eq_dec k (where_ (fun f => negb (is_triangle f)) (faces m))) as [I|I].
  - apply in_where in I as (f & Hf & Hp). rewrite Hf. simpl. destruct (is_triangle f); [discriminate|auto].
  - destruct (nth_error (faces m) k) eqn:E; auto. simpl. destruct (is_triangle f) eqn:T; auto.
    exfalso. apply I. apply in_where. exists f. rewrite T. auto.
Qed.

Lemma is_triangle_true : forall f, is_triangle f = true <-> f0 f = f3 f.
Proof. intros. unfold is_triangle. apply Nat.eqb_eq. Qed.
Lemma is_triangle_false : forall f, is_triangle f = false <-> f0 f <> f3 f.
Proof. intros. unfold is_triangle. apply Nat.eqb_neq. Qed.

Lemma triangles_app : forall a b, mesh_triangles (a ++ b) = mesh_triangles a ++ mesh_triangles b.
Proof. intros. apply flat_map_app. Qed.
Lemma triangulate_triangles : forall fs,
  Permutation (mesh_triangles (map cut_face fs ++ map half_face (filter (fun f => negb (is_triangle f)) fs)))
              (mesh_triangles fs).
Proof.
  intros. rewrite triangles_app. induction fs as [|f fs IH]; simpl; auto.
  unfold mesh_triangles in *. unfold cut_face at 1. destruct (is_triangle f) eqn:T; simpl.
  - rewrite <- app_assoc. apply Permutation_app; auto.
  - pose proof (proj1 (is_triangle_false f) T) as N. 
    assert (T1 : face_triangles (F4 (f0 f) (f2 f) (f3 f) (f0 f)) = [(f0 f, f2 f, f3 f)]).
    { unfold face_triangles. simpl. destruct (Nat.eq_dec (f0 f) (f0 f)); [auto|congruence]. }
    assert (T2 : face_triangles (half_face f) = [(f0 f, f1 f, f2 f)]).
    { unfold face_triangles. simpl. destruct (Nat.eq_dec (f0 f) (f0 f)); [auto|congruence]. }
    assert (T3 : face_triangles f = [(f0 f, f1 f, f2 f); (f0 f, f2 f, f3 f)]).
    { unfold face_triangles. destruct (Nat.eq_dec (f0 f) (f3 f)); [congruence|auto]. }
    rewrite T1, T2, T3. simpl. rewrite <- IH. etransitivity; [|apply perm_swap].
    apply perm_skip. symmetry. apply Permutation_middle.
Qed.

Lemma Rsum_perm : forall l m, Permutation l m -> Rsum l = Rsum m.
Proof. induction 1; simpl; unfold Rsum in *; simpl; try lra. Qed.

Lemma net_cut : forall fs i j,
  net_edge (map cut_face fs ++ map half_face (filter (fun f => negb (is_triangle f)) fs)) i j = net_edge fs i j.
Proof.
  intros. rewrite net_app. induction fs as [|f fs IH]; simpl; auto.
  rewrite !net_cons. unfold cut_face at 1. destruct (is_triangle f) eqn:T; simpl.
  - lia.
  - rewrite net_cons, !fnet_e1. simpl. rewrite !e1_null. rewrite (e1_opp (f0 f) (f2 f)). lia.
Qed.

(** A decision procedure for examples. *)
Definition closed_check (fs : list face) : bool :=
  forallb (fun e => Nat.eqb (count_occ edge_eq_dec (mesh_edges fs) e)
                            (count_occ edge_eq_dec (mesh_edges fs) (snd e, fst e))) (mesh_edges fs).
Lemma closed_check_ok : forall fs, closed_check fs = true -> closed_surface fs.
Proof.
  intros fs H i j. unfold closed_check in H. rewrite forallb_forall in H. unfold net_edge.
  destruct (in_dec edge_eq_dec (i, j) (mesh_edges fs)) as [I|I].
  - apply H, Nat.eqb_eq in I. simpl in I. lia.
  - destruct (in_dec edge_eq_dec (j, i) (mesh_edges fs)) as [J|J].
    + apply H, Nat.eqb_eq in J. simpl in J. lia.
    + rewrite !(proj1 (count_occ_not_In edge_eq_dec _ _)); auto.
Qed.
