(** Proofs about connectivity. *)
From Coq Require Import List Arith Bool Lia Permutation.
From Verif Require Import M_base M_merge P_merge M_mesh S_mesh P_mesh M_connectivity S_connectivity.
Import ListNotations.
Open Scope nat_scope.

(** ** Sets *)
Lemma mem_true : forall x l, mem x l = true <-> In x l.
Proof.
  unfold mem. intros. rewrite existsb_exists. split.
  - intros (y & I & E). apply Nat.eqb_eq in E. subst. auto.
  - intros I. exists x. split; auto. apply Nat.eqb_refl.
Qed.
Lemma mem_false : forall x l, mem x l = false <-> ~ In x l.
Proof. intros. rewrite <- mem_true. destruct (mem x l); split; intros; try congruence; tauto. Qed.
Lemma in_set_add : forall x y l, In y (set_add x l) <-> y = x \/ In y l.
Proof.
  intros. unfold set_add. destruct (mem x l) eqn:E.
  - apply mem_true in E. split; auto. intros [->|]; auto.
  - rewrite in_app_iff. simpl. intuition.
Qed.
Lemma nodup_set_add : forall x l, NoDup l -> NoDup (set_add x l).
Proof.
  intros. unfold set_add. destruct (mem x l) eqn:E; auto. apply mem_false in E.
  apply NoDup_rev in H. rewrite <- (rev_involutive (l ++ [x])). apply NoDup_rev. rewrite rev_app_distr. simpl.
  constructor; auto. rewrite <- in_rev. auto.
Qed.
Lemma in_inter : forall x l m, In x (inter l m) <-> In x l /\ In x m.
Proof. intros. unfold inter. rewrite filter_In, mem_true. tauto. Qed.
Lemma nodup_inter : forall l m, NoDup l -> NoDup (inter l m).
Proof. intros. apply NoDup_filter; auto. Qed.

(** ** Dictionaries of sets *)
Definition add1 (d : list (list nat)) (e : nat * nat) : list (list nat) :=
  set_nth d (fst e) (set_add (snd e) (nth (fst e) d [])).
Definition adds (d : list (list nat)) (evs : list (nat * nat)) : list (list nat) := fold_left add1 evs d.

Lemma dget_ok : forall A (d : list A) k a, nth_error d k = Some a -> dget d k = Ok a.
Proof. intros. unfold dget. rewrite H. auto. Qed.
Lemma dget_nth : forall A (d : list A) k x, k < length d -> dget d k = Ok (nth k d x).
Proof. intros. unfold dget. rewrite (nth_error_nth' d x H). auto. Qed.
Lemma dadd_ok : forall d k x, k < length d -> dadd d k x = Ok (add1 d (k, x)).
Proof. intros. unfold dadd. rewrite (dget_nth _ d k [] H). reflexivity. Qed.
Lemma add1_length : forall d e, length (add1 d e) = length d.
Proof. intros. apply set_nth_length. Qed.
Lemma adds_length : forall evs d, length (adds d evs) = length d.
Proof. induction evs; intros; simpl; auto. rewrite IHevs. apply add1_length. Qed.
Lemma adds_app : forall a b d, adds d (a ++ b) = adds (adds d a) b.
Proof. intros. apply fold_left_app. Qed.

Lemma add1_in : forall d e k x, k < length d ->
  (In x (nth k (add1 d e) []) <-> In x (nth k d []) \/ e = (k, x)).
Proof.
  intros d [k' y] k x L. unfold add1. cbn [fst snd]. destruct (Nat.eq_dec k' k) as [->|N].
  - erewrite nth_error_nth by (apply set_nth_same; auto). rewrite in_set_add.
    intuition congruence.
  - pose proof (set_nth_other _ d k' k (set_add y (nth k' d [])) N) as E.
    destruct (nth_error_lt _ d k L) as [a A]. rewrite A in E.
    rewrite (nth_error_nth _ _ _ E), (nth_error_nth _ _ _ A). intuition congruence.
Qed.
Lemma adds_in : forall evs d k x, k < length d ->
  (In x (nth k (adds d evs) []) <-> In x (nth k d []) \/ In (k, x) evs).
Proof.
  induction evs as [|e evs IH]; intros; simpl; [tauto|]. rewrite IH by (rewrite add1_length; auto).
  rewrite add1_in by auto. tauto.
Qed.
Lemma add1_nodup : forall d e, Forall (@NoDup nat) d -> Forall (@NoDup nat) (add1 d e).
Proof.
  intros d [k x] F. unfold add1. cbn [fst snd].
  assert (N : NoDup (set_add x (nth k d []))).
  { apply nodup_set_add. destruct (lt_dec k (length d)).
    - rewrite Forall_forall in F. apply F. apply nth_In; auto.
    - rewrite nth_overflow by lia. constructor. }
  revert N. generalize (set_add x (nth k d [])). intros s N. revert k. induction F; intros [|k]; simpl; constructor; auto.
Qed.
Lemma adds_nodup : forall evs d, Forall (@NoDup nat) d -> Forall (@NoDup nat) (adds d evs).
Proof. induction evs; intros; simpl; auto. apply IHevs. apply add1_nodup. auto. Qed.

Lemma repeat_nth : forall n k, nth k (repeat (@nil nat) n) [] = [].
Proof. induction n; intros [|k]; simpl; auto. Qed.
Lemma repeat_nodup : forall n, Forall (@NoDup nat) (repeat [] n).
Proof. induction n; simpl; constructor; auto. constructor. Qed.
Lemma set_nth_nodup : forall (d : list (list nat)) k, Forall (@NoDup nat) d -> NoDup (nth k d []).
Proof.
  intros. destruct (lt_dec k (length d)).
  - rewrite Forall_forall in H. apply H. apply nth_In; auto.
  - rewrite nth_overflow by lia. constructor.
Qed.

(** ** The tables of vertices *)
Lemma foldM_fold : forall A B (f : B -> A -> res B) (g : B -> A -> B) (P : B -> Prop) l b,
  (forall b a, In a l -> P b -> f b a = Ok (g b a) /\ P (g b a)) -> P b ->
  foldM f l b = Ok (fold_left g l b) /\ P (fold_left g l b).
Proof.
  induction l as [|a l IH]; intros b H Pb; simpl; auto.
  destruct (H b a (or_introl eq_refl) Pb) as [E P']. rewrite E. simpl. apply IH; auto. intros; apply H; auto. right; auto.
Qed.

Definition vf_events (i : nat) (f : face) : list (nat * nat) := map (fun e => (snd e, i)) (steps (face_w f)).
Definition vv_events (f : face) : list (nat * nat) := flat_map (fun e => [(fst e, snd e); (snd e, fst e)]) (steps (face_w f)).

Lemma steps_cycle : forall f, Permutation (steps (face_w f)) (cycle_edges f).
Proof.
  intros [a b c d]. unfold face_w, cycle_edges, is_triangle. cbn [f0 f1 f2 f3 entries].
  destruct (Nat.eqb_spec a d); destruct (Nat.eq_dec a d); try congruence; unfold steps; cbn.
  - change ((c, a) :: [(a, b); (b, c)]) with ([(c, a)] ++ [(a, b); (b, c)]). apply Permutation_app_comm.
  - change ((d, a) :: [(a, b); (b, c); (c, d)]) with ([(d, a)] ++ [(a, b); (b, c); (c, d)]). apply Permutation_app_comm.
Qed.
Lemma in_steps : forall f e, In e (steps (face_w f)) <-> In e (cycle_edges f).
Proof.
  intros. split; intros H; [eapply Permutation_in; [apply steps_cycle|auto] |
    eapply Permutation_in; [apply Permutation_sym, steps_cycle|auto]].
Qed.
Lemma cycle_uses : forall f u v, In (u, v) (cycle_edges f) -> uses [f] u /\ uses [f] v.
Proof.
  intros [a b c d] u v. unfold cycle_edges, uses. cbn [f0 f1 f2 f3].
  destruct (Nat.eq_dec a d) as [<-|]; simpl; intros H; split; exists (F4 a b c d) || exists (F4 a b c a);
    (split; [left; reflexivity|]); cbn; intuition congruence.
Qed.
Lemma uses_cycle : forall f v, uses [f] v -> exists u, In (u, v) (cycle_edges f).
Proof.
  intros [a b c d] v (g & [<-|[]] & H). cbn [f0 f1 f2 f3] in H. unfold cycle_edges. cbn [f0 f1 f2 f3].
  destruct (Nat.eq_dec a d) as [<-|]; simpl.
  - destruct H as [<-|[<-|[<-|<-]]]; [exists c|exists a|exists b|exists c]; auto.
  - destruct H as [<-|[<-|[<-|<-]]]; [exists d|exists a|exists b|exists c]; auto.
Qed.
Lemma valid_uses : forall nv f v, valid_face nv f -> uses [f] v -> v < nv.
Proof. intros nv f v (A & B & C & D) (g & [<-|[]] & H). intuition congruence. Qed.

Lemma add_steps : forall i nv l vv vf, (forall p c, In (p, c) l -> p < nv /\ c < nv) -> length vv = nv -> length vf = nv ->
  foldM (add_step i) l (vv, vf) =
  Ok (adds vv (flat_map (fun e => [(fst e, snd e); (snd e, fst e)]) l), adds vf (map (fun e => (snd e, i)) l)).
Proof.
  induction l as [|[p c] l IH]; intros vv vf H Lv Lf; auto. destruct (H p c (or_introl eq_refl)).
  cbn [foldM add_step]. rewrite dadd_ok by lia. cbn [bind]. rewrite dadd_ok by lia. cbn [bind].
  rewrite dadd_ok by (rewrite add1_length; lia). cbn [bind]. rewrite IH; auto.
  - intros; apply H; right; auto.
  - rewrite !add1_length; auto.
  - rewrite add1_length; auto.
Qed.

Lemma enumerate_nth : forall A (l : list A) s k a, In (k, a) (combine (seq s (length l)) l) <-> s <= k /\ nth_error l (k - s) = Some a.
Proof.
  induction l as [|x l IH]; intros s k a; simpl.
  - split; [tauto|]. intros [_ H]. destruct (k - s); discriminate.
  - rewrite IH. split.
    + intros [E|[L N]]; [injection E as <- <-; rewrite Nat.sub_diag; auto|].
      split; [lia|]. replace (k - s) with (S (k - S s)) by lia. auto.
    + intros [L N]. destruct (Nat.eq_dec k s) as [->|].
      * rewrite Nat.sub_diag in N. injection N as ->. auto.
      * right. replace (k - s) with (S (k - S s)) in N by lia. simpl in N. split; auto; lia.
Qed.
Lemma in_enumerate : forall A (l : list A) k a, In (k, a) (enumerate l) <-> nth_error l k = Some a.
Proof. intros. unfold enumerate. rewrite enumerate_nth, Nat.sub_0_r. split; [tauto|]. split; auto; lia. Qed.

Lemma vertex_tables_ok : forall nv fs, Forall (valid_face nv) fs ->
  vertex_tables nv fs = Ok (adds (repeat [] nv) (flat_map (fun e => vv_events (snd e)) (enumerate fs)),
                            adds (repeat [] nv) (flat_map (fun e => vf_events (fst e) (snd e)) (enumerate fs))).
Proof.
  intros nv fs V. unfold vertex_tables.
  assert (F : forall l vv vf, (forall k f, In (k, f) l -> valid_face nv f) -> length vv = nv -> length vf = nv ->
    foldM (fun st (e : nat * face) => foldM (add_step (fst e)) (steps (face_w (snd e))) st) l (vv, vf) =
    Ok (adds vv (flat_map (fun e => vv_events (snd e)) l), adds vf (flat_map (fun e => vf_events (fst e) (snd e)) l))).
  { induction l as [|[k f] l IH]; intros vv vf H Lv Lf; auto. cbn [foldM fst snd flat_map].
    rewrite (add_steps k nv); auto.
    - cbn [bind]. rewrite IH; rewrite ?adds_length; auto; [|intros; eapply H; right; eauto]. rewrite !adds_app. auto.
    - intros p c I. apply in_steps, cycle_uses in I. specialize (H k f (or_introl eq_refl)).
      split; eapply valid_uses; try apply I; eauto. }
  apply F; rewrite ?repeat_length; auto. intros k f I. apply in_enumerate, nth_error_In in I.
  rewrite Forall_forall in V. auto.
Qed.

Record vertex_tables_spec (nv : nat) (fs : list face) (vv vf : list (list nat)) : Prop := {
  vt_lengths : length vv = nv /\ length vf = nv;
  vt_nodup : Forall (@NoDup nat) vv /\ Forall (@NoDup nat) vf;
  vt_vv : forall u v, u < nv -> (In v (nth u vv []) <-> linked fs u v);
  vt_vf : forall v k, v < nv -> (In k (nth v vf []) <-> face_at fs k v)
}.
Lemma linked_sym : forall fs u v, linked fs u v -> linked fs v u.
Proof. intros fs u v (f & I & H). exists f. tauto. Qed.
Lemma vertex_tables_sound : forall nv fs, Forall (valid_face nv) fs ->
  exists vv vf, vertex_tables nv fs = Ok (vv, vf) /\ vertex_tables_spec nv fs vv vf.
Proof.
  intros nv fs V. do 2 eexists. split; [apply vertex_tables_ok; auto|]. split.
  - rewrite !adds_length, repeat_length. auto.
  - split; apply adds_nodup, repeat_nodup.
  - intros u v L. rewrite adds_in, repeat_nth by (rewrite repeat_length; auto). rewrite in_flat_map. split.
    + intros [[]|([k f] & I & E)]. apply in_enumerate, nth_error_In in I. exists f. split; auto.
      unfold vv_events in E. apply in_flat_map in E. destruct E as ([p c] & J & E). apply in_steps in J.
      cbn in E. destruct E as [E|[E|[]]]; injection E as -> ->; auto.
    + intros (f & I & H). right. apply In_nth_error in I. destruct I as [k I]. exists (k, f).
      split; [apply in_enumerate; auto|]. unfold vv_events. apply in_flat_map. cbn [snd].
      destruct H as [H|H]; apply in_steps in H; eexists; (split; [exact H|]); cbn; auto.
  - intros v k L. rewrite adds_in, repeat_nth by (rewrite repeat_length; auto). rewrite in_flat_map. split.
    + intros [[]|([k' f] & I & E)]. apply in_enumerate in I. unfold vf_events in E. apply in_map_iff in E.
      destruct E as ([p c] & E & J). cbn in E. injection E as -> ->. exists f. split; auto.
      apply in_steps, cycle_uses in J. tauto.
    + intros (f & I & H). right. exists (k, f). split; [apply in_enumerate; auto|]. unfold vf_events. cbn [fst snd].
      apply uses_cycle in H. destruct H as [u H]. apply in_map_iff. exists (u, v). split; auto. apply in_steps. auto.
Qed.

(** ** Border edge of a simple face *)
Lemma where_app_cons : forall (p : nat -> bool) a l, where_ p (a :: l) = (if p a then [0] else []) ++ map S (where_ p l).
Proof. intros. rewrite where_cons. destruct (p a); auto. Qed.
Lemma border_edge_ok : forall f u v, simple_face f -> In (u, v) (cycle_edges f) ->
  border_edge f u v = Ok (v, u) /\ border_edge f v u = Ok (v, u).
Proof.
  intros [a b c d] u v. unfold simple_face, cycle_edges, border_edge, face_w, is_triangle, positions. cbn [f0 f1 f2 f3 entries].
  destruct (Nat.eq_dec a d) as [<-|N].
  - rewrite Nat.eqb_refl. intros D H. inversion D as [|? ? Da D']; subst. inversion D' as [|? ? Db _]; subst. simpl in Da, Db.
    assert (a <> b /\ a <> c /\ b <> c) as (X & Y & Z) by (repeat split; intros ->; tauto).
    simpl in H. cbv zeta. unfold entries. cbn [f0 f1 f2 f3]. rewrite !where_app_cons.
    destruct H as [E|[E|[E|[]]]]; injection E as <- <-;
      repeat rewrite Nat.eqb_refl; repeat (rewrite (proj2 (Nat.eqb_neq _ _)) by auto); cbn; auto.
  - rewrite (proj2 (Nat.eqb_neq a d)) by auto. intros D H.
    inversion D as [|? ? Da D']; subst. inversion D' as [|? ? Db D'']; subst. inversion D'' as [|? ? Dc _]; subst. simpl in Da, Db, Dc.
    assert (a <> b /\ a <> c /\ b <> c /\ b <> d /\ c <> d) as (X & Y & Z & U & W) by (repeat split; intros ->; tauto).
    simpl in H. cbv zeta. unfold entries. cbn [f0 f1 f2 f3]. rewrite !where_app_cons.
    destruct H as [E|[E|[E|[E|[]]]]]; injection E as <- <-;
      repeat rewrite Nat.eqb_refl; repeat (rewrite (proj2 (Nat.eqb_neq _ _)) by auto); cbn; auto.
Qed.

(** ** Insertion ordered dictionaries *)
Definition puts (d : list (nat * nat)) (evs : list (nat * nat)) : list (nat * nat) :=
  fold_left (fun d e => od_set d (fst e) (snd e)) evs d.
Lemma puts_app : forall a b d, puts d (a ++ b) = puts (puts d a) b.
Proof. intros. apply fold_left_app. Qed.
Lemma od_set_keys : forall d k v x, In x (map fst (od_set d k v)) <-> x = k \/ In x (map fst d).
Proof.
  induction d as [|[k' v'] d IH]; intros; simpl; [intuition|]. destruct (Nat.eqb_spec k k') as [<-|]; simpl; [intuition|].
  rewrite IH. intuition.
Qed.
Lemma od_set_nodup : forall d k v, NoDup (map fst d) -> NoDup (map fst (od_set d k v)).
Proof.
  induction d as [|[k' v'] d IH]; intros k v N; simpl; [constructor; auto|]. inversion N; subst.
  destruct (Nat.eqb_spec k k') as [<-|]; simpl; constructor; auto.
  intros I. apply od_set_keys in I. destruct I; congruence.
Qed.
Lemma od_set_in : forall d k v e, In e (od_set d k v) -> e = (k, v) \/ In e d.
Proof.
  induction d as [|[k' v'] d IH]; intros k v e; simpl; [intuition|]. destruct (Nat.eqb_spec k k') as [<-|]; simpl.
  - intuition.
  - intros [<-|I]; auto. apply IH in I. intuition.
Qed.
Lemma puts_keys : forall evs d x, In x (map fst (puts d evs)) <-> In x (map fst evs) \/ In x (map fst d).
Proof.
  induction evs as [|[k v] evs IH]; intros; simpl; [tauto|]. rewrite IH, od_set_keys. intuition.
Qed.
Lemma puts_nodup : forall evs d, NoDup (map fst d) -> NoDup (map fst (puts d evs)).
Proof. induction evs; intros; simpl; auto. apply IHevs, od_set_nodup. auto. Qed.
Lemma puts_in : forall evs d e, In e (puts d evs) -> In e evs \/ In e d.
Proof.
  induction evs as [|[k v] evs IH]; intros d e; simpl; auto. intros I. apply IH in I. destruct I as [|I]; auto.
  apply od_set_in in I. intuition.
Qed.

(** ** The loop over the edges *)
Lemma foldM_app : forall A B (f : B -> A -> res B) l m b, foldM f (l ++ m) b = bind (foldM f l b) (foldM f m).
Proof.
  induction l as [|a l IH]; intros; simpl; auto. destruct (f b a); simpl; auto.
Qed.
Lemma foldM_map : forall A B C (g : C -> A) (f : B -> A -> res B) l b, foldM f (map g l) b = foldM (fun b c => f b (g c)) l b.
Proof. induction l as [|a l IH]; intros; simpl; auto. destruct (f b (g a)); simpl; auto. Qed.

Section Edges.
  Variable order : list nat -> list nat.
  Hypothesis Horder : iteration order.
  Variable nv : nat.
  Variable fs : list face.
  Hypothesis Hvalid : Forall (valid_face nv) fs.
  Hypothesis Hsimple : Forall simple_face fs.
  Variables vv vf : list (list nat).
  Hypothesis T : vertex_tables_spec nv fs vv vf.

  Definition both (p : nat * nat) : list nat := inter (nth (fst p) vf []) (nth (snd p) vf []).
  Definition ff_ev (p : nat * nat) : list (nat * nat) :=
    match both p with [f; g] => [(f, g); (g, f)] | _ => [] end.
  Definition be_ev (p : nat * nat) : list (nat * nat) :=
    match both p with
    | [k] => match nth_error fs k with
             | Some f => match border_edge f (fst p) (snd p) with Ok e => [e] | Raise _ => [] end
             | None => [] end
    | _ => [] end.

  Lemma linked_lt : forall u v, linked fs u v -> u < nv /\ v < nv.
  Proof.
    intros u v (f & I & H). rewrite Forall_forall in Hvalid. specialize (Hvalid f I).
    destruct H as [H|H]; apply cycle_uses in H; destruct H; split; eapply valid_uses; eauto.
  Qed.
  Lemma both_spec : forall u v k, linked fs u v -> (In k (both (u, v)) <-> holds_both fs u v k).
  Proof.
    intros u v k L. destruct (linked_lt u v L). unfold both. cbn [fst snd]. rewrite in_inter.
    rewrite !(vt_vf _ _ _ _ T) by auto. reflexivity.
  Qed.
  Lemma both_nodup : forall p, NoDup (both p).
  Proof. intros. apply nodup_inter. apply set_nth_nodup. apply (vt_nodup _ _ _ _ T). Qed.
  Lemma linked_holds : forall u v, linked fs u v -> exists k f, nth_error fs k = Some f /\ holds_both fs u v k /\
    (In (u, v) (cycle_edges f) \/ In (v, u) (cycle_edges f)).
  Proof.
    intros u v (f & I & H). apply In_nth_error in I. destruct I as [k I]. exists k, f. split; auto.
    split; auto. destruct H as [H|H]; apply cycle_uses in H; destruct H; split; exists f; auto.
  Qed.
  Lemma both_nonempty : forall u v, linked fs u v -> both (u, v) <> [].
  Proof.
    intros u v L E. destruct (linked_holds u v L) as (k & f & _ & H & _). apply both_spec in H; auto. rewrite E in H. auto.
  Qed.
  Lemma face_bound : forall u v k, holds_both fs u v k -> k < length fs.
  Proof. intros u v k ((f & H & _) & _). eapply nth_error_bound; eauto. Qed.

  (** A single face: the border edge. *)
  Lemma single_border : forall u v k, linked fs u v -> both (u, v) = [k] ->
    exists f o t, nth_error fs k = Some f /\ border_edge f u v = Ok (o, t) /\ In (t, o) (cycle_edges f) /\
      (u = o /\ v = t \/ u = t /\ v = o).
  Proof.
    intros u v k L E. destruct (linked_holds u v L) as (k' & f & N & H & C).
    apply (both_spec u v k' L) in H. rewrite E in H. destruct H as [<-|[]].
    assert (S : simple_face f) by (rewrite Forall_forall in Hsimple; apply Hsimple; eapply nth_error_In; eauto).
    exists f. destruct C as [C|C]; [exists v, u|exists u, v]; destruct (border_edge_ok _ _ _ S C); auto 8.
  Qed.

  Lemma edge_step_ok : forall u v ff be, linked fs u v -> length (both (u, v)) <= 2 -> length ff = length fs ->
    edge_step fs vf u (ff, be) v = Ok (adds ff (ff_ev (u, v)), puts be (be_ev (u, v))).
  Proof.
    intros u v ff be L H2 Lf. destruct (linked_lt u v L) as [Lu Lv]. unfold edge_step.
    rewrite (dget_nth _ vf u []), (dget_nth _ vf v []) by (rewrite (proj2 (vt_lengths _ _ _ _ T)); auto). cbn [bind].
    pose proof (both_nonempty u v L) as NE. pose proof (single_border u v) as SB. pose proof (both_spec u v) as BS.
    unfold ff_ev, be_ev. unfold both in *. cbn [fst snd] in *.
    destruct (inter (nth u vf []) (nth v vf [])) as [|f [|g [|h l]]] eqn:E; [congruence| | |simpl in H2; lia].
    - destruct (SB f L eq_refl) as (fc & o & t & N & B & _). rewrite N. rewrite (get_some _ _ _ _ N). cbn [bind]. rewrite B. reflexivity.
    - assert (f < length fs) by (apply (face_bound u v), BS; simpl; auto).
      assert (g < length fs) by (apply (face_bound u v), BS; simpl; auto).
      rewrite dadd_ok by lia. cbn [bind]. rewrite dadd_ok by (rewrite add1_length; lia). reflexivity.
  Qed.
  Lemma edge_step_error : forall u v ff be, linked fs u v -> 2 < length (both (u, v)) ->
    edge_step fs vf u (ff, be) v = Raise RuntimeError.
  Proof.
    intros u v ff be L H2. destruct (linked_lt u v L) as [Lu Lv]. unfold edge_step.
    rewrite (dget_nth _ vf u []), (dget_nth _ vf v []) by (rewrite (proj2 (vt_lengths _ _ _ _ T)); auto). cbn [bind].
    unfold both in *. cbn [fst snd] in *.
    destruct (inter (nth u vf []) (nth v vf [])) as [|f [|g [|h l]]]; simpl in H2; try lia. reflexivity.
  Qed.

  Definition visited : list (nat * nat) := flat_map (fun u => map (pair u) (order (nth u vv []))) (seq 0 nv).
  Lemma in_visited : forall u v, In (u, v) visited <-> linked fs u v.
  Proof.
    intros u v. unfold visited. rewrite in_flat_map. split.
    - intros (u' & I & E). apply in_seq in I. apply in_map_iff in E. destruct E as (v' & E & J). injection E as -> ->.
      apply (Permutation_in _ (Horder _)) in J. apply (vt_vv _ _ _ _ T) in J; auto. lia.
    - intros L. destruct (linked_lt u v L). exists u. split; [apply in_seq; lia|]. apply in_map.
      apply (Permutation_in _ (Permutation_sym (Horder _))). apply (vt_vv _ _ _ _ T); auto.
  Qed.
  Lemma edge_tables_flat : edge_tables order fs nv vv vf =
    foldM (fun st p => edge_step fs vf (fst p) st (snd p)) visited (repeat [] (length fs), []).
  Proof.
    unfold edge_tables, visited. generalize (repeat (@nil nat) (length fs), @nil (nat * nat)). 
    assert (B : forall u, In u (seq 0 nv) -> u < length vv).
    { intros u I. apply in_seq in I. rewrite (proj1 (vt_lengths _ _ _ _ T)). lia. }
    revert B. generalize (seq 0 nv). induction l as [|u l IH]; intros B st; auto.
    cbn [foldM flat_map]. rewrite (dget_nth _ vv u []) by (apply B; left; auto). cbn [bind].
    rewrite foldM_app, foldM_map. cbn [fst snd].
    destruct (foldM (edge_step fs vf u) (order (nth u vv [])) st) as [st'|e] eqn:E.
    - replace (foldM (fun b c => edge_step fs vf u b c) (order (nth u vv [])) st) with (Ok st') by (symmetry; exact E).
      cbn [bind]. apply IH. intros; apply B; right; auto.
    - replace (foldM (fun b c => edge_step fs vf u b c) (order (nth u vv [])) st) with (@Raise estate e) by (symmetry; exact E).
      reflexivity.
  Qed.

  Definition ff_table : list (list nat) := adds (repeat [] (length fs)) (flat_map ff_ev visited).
  Definition be_table : list (nat * nat) := puts [] (flat_map be_ev visited).
  Definition manifold : Prop := forall u v, linked fs u v -> length (both (u, v)) <= 2.

  Lemma edges_run : forall l ff be, (forall u v, In (u, v) l -> linked fs u v) -> length ff = length fs ->
    (forall u v, In (u, v) l -> length (both (u, v)) <= 2) ->
    foldM (fun st p => edge_step fs vf (fst p) st (snd p)) l (ff, be) = Ok (adds ff (flat_map ff_ev l), puts be (flat_map be_ev l)).
  Proof.
    induction l as [|[u v] l IH]; intros ff be L Lf M; auto. cbn [foldM fst snd flat_map].
    rewrite edge_step_ok by (try apply L; try apply M; try left; auto). cbn [bind].
    rewrite IH by (rewrite ?adds_length; auto; intros; try apply L; try apply M; right; auto).
    rewrite adds_app, puts_app. auto.
  Qed.
  Lemma edge_tables_ok : manifold -> edge_tables order fs nv vv vf = Ok (ff_table, be_table).
  Proof.
    intros M. rewrite edge_tables_flat. apply edges_run; [|apply repeat_length|]; intros u v I; apply in_visited in I; auto.
  Qed.
  Lemma edge_tables_error : ~ manifold -> edge_tables order fs nv vv vf = Raise RuntimeError.
  Proof.
    intros M. rewrite edge_tables_flat.
    assert (D : Forall (fun p => length (both p) <= 2) visited \/ Exists (fun p => ~ length (both p) <= 2) visited).
    { destruct (Forall_Exists_dec (fun p => length (both p) <= 2) (fun p => le_dec (length (both p)) 2) visited); auto. }
    destruct D as [D|D].
    - exfalso. apply M. intros u v L. apply in_visited in L. rewrite Forall_forall in D. apply (D _ L).
    - clear M. assert (L : forall u v, In (u, v) visited -> linked fs u v) by (intros; apply in_visited; auto).
      revert D L. assert (F : length (repeat (@nil nat) (length fs)) = length fs) by apply repeat_length. revert F.
      generalize (repeat (@nil nat) (length fs)), (@nil (nat * nat)). induction visited as [|[u v] l IH]; intros ff be F D L.
      + inversion D.
      + cbn [foldM fst snd]. destruct (le_dec (length (both (u, v))) 2) as [H|H].
        * rewrite edge_step_ok by (try apply L; try left; auto). cbn [bind]. apply IH; auto.
          -- rewrite adds_length; auto.
          -- inversion D; subst; auto. contradiction.
          -- intros; apply L; right; auto.
        * rewrite edge_step_error by (try apply L; try left; auto; lia). reflexivity.
  Qed.

  (** f_f *)
  Lemma ff_table_spec : forall f g, f < length fs -> (In g (nth f ff_table []) <-> adjacent fs f g).
  Proof.
    intros f g Lf. unfold ff_table. rewrite adds_in, repeat_nth by (rewrite repeat_length; auto). rewrite in_flat_map. split.
    - intros [[]|([u v] & I & E)]. apply in_visited in I. pose proof (both_nodup (u, v)) as N. pose proof (both_spec u v) as BS.
      unfold ff_ev in E. destruct (both (u, v)) as [|x [|y [|z l]]]; try (exfalso; exact E).
      inversion N as [|? ? Nx]; subst. simpl in Nx. destruct E as [E|[E|[]]]; injection E as <- <-.
      + split; [intros ->; tauto|]. exists u, v. split; auto. intros k. rewrite <- BS by auto. simpl. intuition.
      + split; [intros ->; tauto|]. exists u, v. split; auto. intros k. rewrite <- BS by auto. simpl. intuition.
    - intros (NE & u & v & L & H). right. exists (u, v). split; [apply in_visited; auto|].
      pose proof (both_nodup (u, v)) as N. pose proof (both_spec u v) as BS. unfold ff_ev.
      assert (Hf : In f (both (u, v))) by (apply BS; auto; apply H; auto).
      assert (Hg : In g (both (u, v))) by (apply BS; auto; apply H; auto).
      assert (Hk : forall k, In k (both (u, v)) -> k = f \/ k = g) by (intros; apply H, BS; auto).
      clear BS. destruct (both (u, v)) as [|x [|y [|z l]]]; simpl in *; try tauto.
      + destruct Hf as [->|[]]. destruct Hg as [->|[]]. congruence.
      + destruct (Hk x), (Hk y); subst; auto; inversion N as [|? ? Nx]; subst; simpl in Nx; tauto.
      + exfalso. inversion N as [|? ? Nx N']; subst. inversion N' as [|? ? Ny N'']; subst. simpl in Nx, Ny.
        destruct (Hk x), (Hk y), (Hk z); subst; auto; tauto.
  Qed.
  Lemma ff_table_shape : length ff_table = length fs /\ Forall (@NoDup nat) ff_table.
  Proof. unfold ff_table. rewrite adds_length, repeat_length. split; auto. apply adds_nodup, repeat_nodup. Qed.

  (** boundary_edges *)
  Lemma be_nodup : NoDup (map fst be_table).
  Proof. apply puts_nodup. constructor. Qed.
  Lemma be_sound : forall o t, In (o, t) be_table -> border fs t o.
  Proof.
    intros o t I. apply puts_in in I. destruct I as [I|[]]. apply in_flat_map in I. destruct I as ([u v] & V & E).
    apply in_visited in V. unfold be_ev in E. pose proof (single_border u v) as SB. pose proof (both_spec u v) as BS.
    destruct (both (u, v)) as [|k [|y l]]; try (exfalso; exact E).
    destruct (SB k V eq_refl) as (f & o' & t' & N & B & C & W). rewrite N in E. cbn [fst snd] in E. rewrite B in E.
    destruct E as [E|[]]. injection E as -> ->. exists k, f. split; auto. split; auto. intros k' H.
    destruct W as [[-> ->]|[-> ->]]; [apply and_comm in H|]; apply BS in H; auto; destruct H as [|[]]; auto.
  Qed.
  Lemma border_linked : forall t o, border fs t o -> linked fs t o.
  Proof. intros t o (k & f & N & C & _). exists f. split; auto. eapply nth_error_In; eauto. Qed.
  Lemma be_complete : forall t o, border fs t o -> In o (map fst be_table).
  Proof.
    intros t o B. pose proof (border_linked _ _ B) as L. destruct B as (k & f & N & C & U).
    apply puts_keys. left. apply in_map_iff. exists (o, t). split; auto. apply in_flat_map. exists (t, o).
    split; [apply in_visited; auto|]. pose proof (both_spec t o) as BS. pose proof (both_nodup (t, o)) as ND.
    assert (I : In k (both (t, o))).
    { apply BS; auto. apply cycle_uses in C. destruct C. split; exists f; auto. }
    assert (Hk : forall x, In x (both (t, o)) -> x = k) by (intros; apply U, BS; auto).
    unfold be_ev. clear BS. destruct (both (t, o)) as [|x [|y l]]; simpl in *; [tauto| |].
    - rewrite (Hk x) by auto. rewrite N.
      assert (S : simple_face f) by (rewrite Forall_forall in Hsimple; apply Hsimple; eapply nth_error_In; eauto).
      rewrite (proj1 (border_edge_ok _ _ _ S C)). left. auto.
    - exfalso. inversion ND as [|? ? Nx _]; subst. rewrite (Hk x), (Hk y) in Nx by auto. simpl in Nx. tauto.
  Qed.
End Edges.

(** ** Chains *)
Lemma od_get_in : forall d k v, od_get d k = Some v -> In (k, v) d.
Proof.
  induction d as [|[k' v'] d IH]; intros k v; simpl; [discriminate|]. destruct (Nat.eqb_spec k k') as [<-|]; auto.
  intros E. injection E as ->. auto.
Qed.
Lemma od_get_none : forall d k, od_get d k = None <-> ~ In k (map fst d).
Proof.
  induction d as [|[k' v'] d IH]; intros k; simpl; [split; auto|]. destruct (Nat.eqb_spec k k') as [<-|].
  - split; [discriminate|]. tauto.
  - rewrite IH. intuition congruence.
Qed.
Lemma od_del_absent : forall d k, ~ In k (map fst d) -> od_del d k = d.
Proof.
  induction d as [|[k' v'] d IH]; intros k H; simpl; auto. simpl in H. destruct (Nat.eqb_spec k k') as [<-|]; [tauto|].
  simpl. rewrite IH; auto.
Qed.
Lemma od_del_perm : forall d k v, NoDup (map fst d) -> od_get d k = Some v -> Permutation d ((k, v) :: od_del d k).
Proof.
  induction d as [|[k' v'] d IH]; intros k v N H; simpl in *; [discriminate|]. inversion N; subst.
  destruct (Nat.eqb_spec k k') as [<-|]; simpl.
  - injection H as ->. rewrite od_del_absent by auto. auto.
  - rewrite perm_swap. constructor. apply IH; auto.
Qed.
Lemma od_del_nodup : forall d k, NoDup (map fst d) -> NoDup (map fst (od_del d k)).
Proof.
  induction d as [|[k' v'] d IH]; intros k N; simpl in *; auto. inversion N as [|? ? Nk N']; subst.
  destruct (k =? k'); simpl; auto. constructor; auto. intros I. apply Nk.
  apply in_map_iff in I. destruct I as ([a b] & <- & I). apply filter_In in I. apply in_map_iff. exists (a, b). tauto.
Qed.

(** What a chain uses and leaves. *)
Lemma chain_spec : forall fuel d cur l d', NoDup (map fst d) -> length d <= fuel -> chain fuel d cur = (l, d') ->
  Permutation d (pairs (cur :: l) ++ d') /\ ~ In (last (cur :: l) 0) (map fst d') /\ NoDup (map fst d').
Proof.
  induction fuel as [|n IH]; intros d cur l d' N L E; cbn [chain] in E.
  - injection E as <- <-. destruct d; simpl in L; [|lia]. cbn. auto.
  - destruct (od_get d cur) as [v|] eqn:G.
    + destruct (chain n (od_del d cur) v) as [l2 d2] eqn:C. injection E as <- <-.
      pose proof (od_del_perm _ _ _ N G) as P.
      apply IH in C as (P2 & La & Nd); [|apply od_del_nodup; auto|].
      * split; [|split; auto]. change (pairs (cur :: v :: l2)) with ((cur, v) :: pairs (v :: l2)).
        rewrite P, P2. auto.
      * apply Permutation_length in P. simpl in P. lia.
    + injection E as <- <-. cbn. split; auto. split; auto. apply od_get_none. auto.
Qed.

Lemma perm_nodup_fst : forall (d e : list (nat * nat)), Permutation d e -> NoDup (map fst d) -> NoDup (map fst e).
Proof. intros d e P N. eapply Permutation_NoDup; [|exact N]. apply Permutation_map; auto. Qed.
Lemma nodup_app_r : forall A (a b : list A), NoDup (a ++ b) -> NoDup b.
Proof. induction a; intros; simpl in *; auto. inversion H; auto. Qed.

Lemma nodup_app_l : forall A (a b : list A), NoDup (a ++ b) -> NoDup a.
Proof. induction a; intros; [constructor|]. inversion H; subst. constructor; eauto. intros I. apply H2, in_or_app. auto. Qed.
Lemma nodup_map_in : forall A B (f : A -> B) l, NoDup l -> (forall x y, In x l -> In y l -> f x = f y -> x = y) -> NoDup (map f l).
Proof.
  induction l as [|a l IH]; intros N H; simpl; constructor; inversion N; subst.
  - intros I. apply in_map_iff in I. destruct I as (x & E & I). rewrite (H x a) in I; simpl; auto.
  - apply IH; auto. intros; apply H; simpl; auto.
Qed.

Lemma chains_step : forall (d : list (nat * nat)) o t r, NoDup (map fst d) -> rev d = (o, t) :: r ->
  Permutation d ((o, t) :: rev r) /\ NoDup (map fst (rev r)) /\ length (rev r) <= length d.
Proof.
  intros d o t r N E. assert (D : d = rev r ++ [(o, t)]) by (rewrite <- (rev_involutive d), E; auto).
  assert (P : Permutation d ((o, t) :: rev r)) by (rewrite D, Permutation_app_comm; auto).
  split; auto. apply (perm_nodup_fst _ _ P) in N. inversion N; subst. split; auto.
  apply Permutation_length in P. simpl in P. lia.
Qed.

(** All reported boundaries together use edges of the dictionary, each at most once. *)
Lemma chains_use : forall fuel d, NoDup (map fst d) -> length d <= fuel ->
  exists rest, Permutation d (flat_map pairs (chains fuel d) ++ rest) /\
  Forall (fun b => 2 <= length b /\ hd 0 b = last b 0) (chains fuel d).
Proof.
  induction fuel as [|n IH]; intros d N L; cbn [chains].
  - exists d. auto.
  - destruct (rev d) as [|[o t] r] eqn:E.
    + exists d. auto.
    + destruct (chains_step d o t r N E) as (P & N' & L').
      destruct (chain (length d) (rev r) t) as [l d'] eqn:C.
      destruct (chain_spec _ _ _ _ _ N' L' C) as (P2 & La & Nd).
      assert (L2 : length d' <= n).
      { apply Permutation_length in P, P2. rewrite app_length in P2. simpl in P. lia. }
      destruct (IH d' Nd L2) as (rest & P3 & F).
      assert (PP : Permutation d (pairs (o :: t :: l) ++ d')).
      { change (pairs (o :: t :: l)) with ((o, t) :: pairs (t :: l)). rewrite P, P2. auto. }
      destruct (Nat.eqb_spec o (last (o :: t :: l) 0)) as [Eo|].
      * exists rest. cbn [flat_map]. split.
        -- rewrite PP. rewrite <- app_assoc. apply Permutation_app_head. auto.
        -- constructor; auto. split; [simpl; lia|]. exact Eo.
      * exists (pairs (o :: t :: l) ++ rest). split; auto.
        rewrite PP. rewrite P3 at 1. rewrite !app_assoc. apply Permutation_app_tail. apply Permutation_app_comm.
Qed.

(** When the edges form cycles, every chain is closed and nothing is left. *)
Lemma pairs_balance : forall l a, Permutation (map fst (pairs (a :: l)) ++ [last (a :: l) 0]) (a :: map snd (pairs (a :: l))).
Proof.
  induction l as [|b l IH]; intros a; [reflexivity|]. change (pairs (a :: b :: l)) with ((a, b) :: pairs (b :: l)).
  change (last (a :: b :: l) 0) with (last (b :: l) 0). cbn [map fst snd app]. constructor. apply IH.
Qed.
Lemma chains_cycles : forall fuel d, NoDup (map fst d) -> length d <= fuel -> Permutation (map fst d) (map snd d) ->
  Permutation d (flat_map pairs (chains fuel d)).
Proof.
  induction fuel as [|n IH]; intros d N L Q; cbn [chains].
  - destruct d; simpl in L; [auto|lia].
  - destruct (rev d) as [|[o t] r] eqn:E.
    + rewrite <- (rev_involutive d), E. simpl. auto.
    + destruct (chains_step d o t r N E) as (P & N' & L').
      destruct (chain (length d) (rev r) t) as [l d'] eqn:C.
      destruct (chain_spec _ _ _ _ _ N' L' C) as (P2 & La & Nd).
      assert (PP : Permutation d (pairs (o :: t :: l) ++ d')).
      { change (pairs (o :: t :: l)) with ((o, t) :: pairs (t :: l)). rewrite P, P2. auto. }
      assert (B : Permutation (last (o :: t :: l) 0 :: map snd d') (o :: map fst d')).
      { pose proof (Permutation_map fst PP) as PF. pose proof (Permutation_map snd PP) as PS. rewrite map_app in PF, PS.
        pose proof (pairs_balance (t :: l) o) as PB.
        set (F := map fst (pairs (o :: t :: l))) in *. set (S' := map snd (pairs (o :: t :: l))) in *.
        set (z := last (o :: t :: l) 0) in *. clearbody F S' z.
        apply (Permutation_app_inv_l F).
        transitivity ((F ++ [z]) ++ map snd d'); [rewrite <- app_assoc; reflexivity|]. rewrite PB. simpl.
        transitivity (o :: F ++ map fst d'); [|apply Permutation_middle].
        constructor. rewrite <- PS, <- PF. symmetry. auto. }
      assert (Eo : last (o :: t :: l) 0 = o).
      { assert (I : In (last (o :: t :: l) 0) (o :: map fst d')) by (eapply Permutation_in; [exact B|left; auto]).
        destruct I as [I|I]; auto. exfalso. apply La. exact I. }
      rewrite Eo, Nat.eqb_refl in *. cbn [flat_map]. rewrite PP at 1. apply Permutation_app_head.
      apply IH; auto.
      * apply Permutation_length in P, P2. rewrite app_length in P2. simpl in P. lia.
      * symmetry. eapply Permutation_cons_inv; eauto.
Qed.

(** ** The whole function *)
Lemma crowded_manifold : forall nv fs vv vf, Forall (valid_face nv) fs -> vertex_tables_spec nv fs vv vf ->
  (~ crowded fs <-> manifold fs vf).
Proof.
  intros nv fs vv vf V T. split.
  - intros C u v L. destruct (le_dec (length (both vf (u, v))) 2) as [|H]; auto. exfalso. apply C.
    pose proof (both_spec nv fs V vv vf T u v) as BS. pose proof (both_nodup nv fs vv vf T (u, v)) as N.
    destruct (both vf (u, v)) as [|a [|b [|c l]]]; simpl in H; try lia.
    exists u, v, a, b, c. inversion N as [|? ? Na N1]; subst. inversion N1 as [|? ? Nb N2]; subst. simpl in Na, Nb.
    split; auto. repeat split; try (apply BS; simpl; auto); intros ->; tauto.
  - intros M (u & v & a & b & c & L & Ha & Hb & Hc & D1 & D2 & D3). specialize (M u v L).
    pose proof (both_spec nv fs V vv vf T u v) as BS. apply BS in Ha, Hb, Hc; auto. clear BS.
    destruct (both vf (u, v)) as [|x [|y [|z l]]]; simpl in *; try lia; intuition congruence.
Qed.

Section Whole.
  Variable order : list nat -> list nat.
  Hypothesis Horder : iteration order.
  Variable nv : nat.
  Variable fs : list face.
  Hypothesis Hvalid : Forall (valid_face nv) fs.
  Hypothesis Hsimple : Forall simple_face fs.

  Lemma connectivity_error : crowded fs -> connectivity_of order nv fs = Raise RuntimeError.
  Proof.
    intros C. destruct (vertex_tables_sound nv fs Hvalid) as (vv & vf & E & T).
    unfold connectivity_of. rewrite E. cbn [bind]. rewrite edge_tables_error; auto.
    intros M. apply (crowded_manifold nv fs vv vf) in M; auto.
  Qed.

  Record connectivity_spec (c : connectivity) (be : list (nat * nat)) : Prop := {
    cs_tables : vertex_tables_spec nv fs (c_vv c) (c_vf c);
    cs_ff_length : length (c_ff c) = length fs;
    cs_ff_nodup : Forall (@NoDup nat) (c_ff c);
    cs_ff : forall f g, f < length fs -> (In g (nth f (c_ff c) []) <-> adjacent fs f g);
    cs_keys : NoDup (map fst be);
    cs_border : forall o t, In (o, t) be -> border fs t o;
    cs_complete : forall t o, border fs t o -> In o (map fst be);
    cs_bounds : c_bounds c = chains (length be) be }.

  Lemma connectivity_sound : ~ crowded fs -> exists c be, connectivity_of order nv fs = Ok c /\ connectivity_spec c be.
  Proof.
    intros C. destruct (vertex_tables_sound nv fs Hvalid) as (vv & vf & E & T).
    unfold connectivity_of. rewrite E. cbn [bind].
    rewrite (edge_tables_ok order Horder nv fs Hvalid Hsimple vv vf T) by (apply (crowded_manifold nv fs vv vf); auto). cbn [bind].
    eexists. exists (be_table order nv fs vv vf). split; [reflexivity|].
    constructor; cbn [c_vv c_vf c_ff c_bounds].
    - auto.
    - eapply ff_table_shape; eauto.
    - eapply ff_table_shape; eauto.
    - eapply ff_table_spec; eauto.
    - apply be_nodup.
    - eapply be_sound; eauto.
    - eapply be_complete; eauto.
    - reflexivity.
  Qed.
  Lemma connectivity_inv : forall c, connectivity_of order nv fs = Ok c -> ~ crowded fs /\ exists be, connectivity_spec c be.
  Proof.
    intros c E. assert (C : ~ crowded fs) by (intros C; rewrite connectivity_error in E; auto; discriminate). split; auto.
    destruct (connectivity_sound C) as (c' & be & E' & S). rewrite E' in E. injection E as <-. eauto.
  Qed.

  Lemma bounds_chains : forall c be, connectivity_spec c be ->
    Forall (fun b => 2 <= length b /\ hd 0 b = last b 0 /\ forall u v, In (u, v) (pairs b) -> border fs v u) (c_bounds c) /\
    NoDup (flat_map pairs (c_bounds c)).
  Proof.
    intros c be S. rewrite (cs_bounds _ _ S). destruct (chains_use (length be) be (cs_keys _ _ S) (le_n _)) as (rest & P & F).
    set (l := chains (length be) be) in *. split.
    - rewrite Forall_forall in *. intros b I. destruct (F b I). split; auto. split; auto.
      intros u v J. apply (cs_border _ _ S). apply (Permutation_in _ (Permutation_sym P)). apply in_or_app. left.
      apply in_flat_map. exists b. auto.
    - pose proof (perm_nodup_fst _ _ P (cs_keys _ _ S)) as N. apply NoDup_map_inv in N.
      eapply nodup_app_l; eauto.
  Qed.
  Lemma bounds_circular : forall c be, connectivity_spec c be -> circular_border fs ->
    forall u v, In (u, v) (flat_map pairs (c_bounds c)) <-> border fs v u.
  Proof.
    intros c be S (Out & In_ & Eq) u v. rewrite (cs_bounds _ _ S).
    assert (B : forall o t, In (o, t) be <-> border fs t o).
    { intros o t. split; [apply (cs_border _ _ S)|]. intros H. pose proof (cs_complete _ _ S _ _ H) as K.
      apply in_map_iff in K. destruct K as ([o' t'] & <- & I). cbn [fst] in *. pose proof (cs_border _ _ S _ _ I) as H'.
      rewrite (In_ _ _ _ H H'). auto. }
    assert (P : Permutation be (flat_map pairs (chains (length be) be))).
    { apply chains_cycles; auto; [apply (cs_keys _ _ S)|].
      assert (NS : NoDup (map snd be)).
      { pose proof (NoDup_map_inv _ _ (cs_keys _ _ S)) as ND.
        apply nodup_map_in; auto.
        intros [o t] [o' t'] I I' E. cbn [snd] in E. subst t'. apply B in I, I'. rewrite (Out _ _ _ I I'). auto. }
      apply NoDup_Permutation; auto; [apply (cs_keys _ _ S)|].
      intros x. rewrite !in_map_iff. split.
      - intros ([o t] & <- & I). cbn [fst]. apply B in I. destruct (proj2 (Eq o)) as [w W]; eauto.
        exists (w, o). split; auto. apply B. auto.
      - intros ([o t] & <- & I). cbn [snd]. apply B in I. destruct (proj1 (Eq t)) as [w W]; eauto.
        exists (t, w). split; auto. apply B. auto. }
    rewrite <- B. split; intros I; [apply (Permutation_in _ (Permutation_sym P)); auto|apply (Permutation_in _ P); auto].
  Qed.
  Lemma bounds_closed : forall c be, connectivity_spec c be -> (forall u v, ~ border fs u v) -> c_bounds c = [].
  Proof.
    intros c be S N. rewrite (cs_bounds _ _ S). destruct be as [|[o t] be]; auto.
    exfalso. apply (N t o). apply (cs_border _ _ S). left. auto.
  Qed.
  Lemma bounds_empty : forall c be, connectivity_spec c be -> circular_border fs -> c_bounds c = [] -> forall u v, ~ border fs u v.
  Proof.
    intros c be S C E u v B. apply (bounds_circular c be S C) in B. rewrite E in B. auto.
  Qed.
End Whole.

(** ** Adjacency is symmetric *)
Lemma adjacent_sym : forall fs f g, adjacent fs f g -> adjacent fs g f.
Proof. intros fs f g (N & u & v & L & H). split; auto. exists u, v. split; auto. intros k. rewrite H. tauto. Qed.
