(** Proofs about the clipping of a mesh: the faces of the crown one by one. *)
From Coq Require Import Reals List Arith Bool Lia Lra Psatz.
From Verif Require Import M_base P_base M_merge P_merge M_plane M_mesh S_mesh P_mesh S_geometry S_plane P_plane
  M_connectivity M_clipper S_clipper P_hull P_cut.
Import ListNotations.
Open Scope R_scope.

(** ** Position of a corner *)
Inductive cls := A | O | B.
Definition classed (tol d : R) (c : cls) : Prop :=
  match c with A => tol < d | O => - tol < d < tol | B => d < - tol end.
Definition isA c := match c with A => true | _ => false end.
Definition isO c := match c with O => true | _ => false end.
Definition isB c := match c with B => true | _ => false end.

Lemma Rltb_t : forall a b, a < b -> Rltb a b = true.
Proof. intros. unfold Rltb. destruct (Rlt_dec a b); auto; lra. Qed.
Lemma Rltb_f : forall a b, b <= a -> Rltb a b = false.
Proof. intros. unfold Rltb. destruct (Rlt_dec a b); auto; lra. Qed.

Lemma classed_masks : forall tol d c, 0 <= tol -> classed tol d c ->
  above tol d = isA c /\ on tol d = isO c /\ below tol d = isB c.
Proof.
  intros tol d c T H. unfold above, on, below. destruct c; simpl in H |- *.
  - rewrite Rltb_t, !Rltb_f; auto; try lra. rewrite Rabs_right; lra.
  - rewrite (Rltb_f tol d), (Rltb_t (Rabs d)), (Rltb_f d); auto; try lra. apply Rabs_def1; lra.
  - rewrite (Rltb_f tol d), (Rltb_f (Rabs d)), (Rltb_t d); auto; try lra. rewrite Rabs_left; lra.
Qed.
Lemma classed_ex : forall tol d, Rabs d <> tol -> exists c, classed tol d c.
Proof.
  intros tol d N. destruct (Rlt_dec tol d); [exists A; auto|]. destruct (Rlt_dec d (- tol)); [exists B; auto|].
  exists O. simpl. destruct (Req_dec d tol) as [E|E]; [|destruct (Req_dec d (- tol)) as [E'|E']; [|lra]]; exfalso; apply N.
  - rewrite E. apply Rabs_right. lra.
  - rewrite E', Rabs_Ropp. apply Rabs_right. lra.
Qed.
Lemma classed_dec : forall tol d c c', 0 <= tol -> classed tol d c -> classed tol d c' -> c = c'.
Proof. intros tol d [] [] T H H'; auto; simpl in *; lra. Qed.

Lemma where_map : forall X Y (g : Y -> bool) (h : X -> Y) l, where_ g (map h l) = where_ (fun x => g (h x)) l.
Proof.
  intros. unfold where_. rewrite map_length. apply filter_ext. intros i. rewrite nth_error_map.
  destruct (nth_error l i); auto.
Qed.
Lemma where_ext2 : forall X Y (f : X -> bool) (g : Y -> bool) l l', Forall2 (fun x y => f x = g y) l l' -> where_ f l = where_ g l'.
Proof.
  intros X Y f g l l' F. unfold where_. rewrite (Forall2_len _ _ _ _ _ F). apply filter_ext. intros i.
  revert i. induction F; intros [|i]; simpl; auto.
Qed.

(** ** Outcome of one face *)
(** Exactly three corners within tolerance, and one out of it *)
Definition threeO (cs : list cls) : bool := (length cs =? 4)%nat && (length (filter isO cs) =? 3)%nat.

Inductive canon (n : nat) : list (nat * cls) -> cutting -> Prop :=
| c202 a b c d : canon n [(a, A); (b, B); (c, B); (d, A)] (Cut [(a, b); (c, d)] [[n; b; c; n + 1]] (Some (n, n + 1)) 2)%nat
| c301 a b c d : canon n [(a, B); (b, A); (c, A); (d, A)] (Cut [(a, d); (a, b)] [[n; a; n + 1; n]] (Some (n, n + 1)) 2)%nat
| c103 a b c d : canon n [(a, A); (b, B); (c, B); (d, B)] (Cut [(a, b); (a, d)] [[n; b; d; n + 1]; [b; c; d; b]] (Some (n, n + 1)) 2)%nat
| c102 a b c : canon n [(a, A); (b, B); (c, B)] (Cut [(a, b); (a, c)] [[n; b; c; n + 1]] (Some (n, n + 1)) 2)%nat
| c201 a b c : canon n [(a, B); (b, A); (c, A)] (Cut [(a, c); (a, b)] [[n; a; n + 1; n]] (Some (n, n + 1)) 2)%nat
| c211l a b c d : canon n [(a, O); (b, B); (c, A); (d, A)] (Cut [(b, c)] [[a; b; n; a]] (Some (a, n)) 1)%nat
| c211r a b c d : canon n [(a, O); (b, A); (c, A); (d, B)] (Cut [(c, d)] [[n; d; a; n]] (Some (n, a)) 1)%nat
| c112l a b c d : canon n [(a, O); (b, B); (c, B); (d, A)] (Cut [(c, d)] [[a; b; c; n]] (Some (a, n)) 1)%nat
| c112r a b c d : canon n [(a, O); (b, A); (c, B); (d, B)] (Cut [(b, c)] [[n; c; d; a]] (Some (n, a)) 1)%nat
| c111l a b c : canon n [(a, O); (b, B); (c, A)] (Cut [(b, c)] [[a; b; n; a]] (Some (a, n)) 1)%nat
| c111r a b c : canon n [(a, O); (b, A); (c, B)] (Cut [(b, c)] [[n; c; a; n]] (Some (n, a)) 1)%nat
| c021 a b c : canon n [(a, B); (b, O); (c, O)] (Cut [] [[a; b; c; a]] (Some (c, b)) 0)%nat
| c022 a b c d : canon n [(a, O); (b, B); (c, B); (d, O)] (Cut [] [[a; b; c; d]] (Some (a, d)) 0)%nat
| c121 a b c d : canon n [(a, A); (b, O); (c, B); (d, O)] (Cut [] [[b; c; d; b]] (Some (b, d)) 0)%nat
| ckeep4 a b c d ca cb cc cd : forallb (fun x => negb (isA x)) [ca; cb; cc; cd] = true ->
    (length (filter isO [ca; cb; cc; cd]) <= 1)%nat ->
    canon n [(a, ca); (b, cb); (c, cc); (d, cd)] (Cut [] [[a; b; c; d]] None 0)%nat
| ckeep3 a b c ca cb cc : forallb (fun x => negb (isA x)) [ca; cb; cc] = true ->
    (length (filter isO [ca; cb; cc]) <= 1)%nat ->
    canon n [(a, ca); (b, cb); (c, cc)] (Cut [] [[a; b; c; a]] None 0)%nat
| cdrop l : forallb (fun x => negb (isB x)) (map snd l) = true -> threeO (map snd l) = false -> canon n l (Cut [] [] None 0)%nat.

(** Alternating patterns, which a planar convex quadrangle cannot have *)
Inductive saddle (n : nat) : list (nat * cls) -> cutting -> Prop :=
| s202 a b c d : saddle n [(a, A); (b, B); (c, A); (d, B)] (Cut [(a, b); (c, d)] [[n; b; c; n + 1]] (Some (n, n + 1)) 2)%nat
| s202' a b c d : saddle n [(a, B); (b, A); (c, B); (d, A)] (Cut [(a, b); (c, d)] [[n; b; c; n + 1]] (Some (n, n + 1)) 2)%nat
| s211 a b c d : saddle n [(a, O); (b, A); (c, B); (d, A)] (Cut [(c, d)] [[n; d; a; n]] (Some (n, a)) 1)%nat
| s112 a b c d : saddle n [(a, O); (b, B); (c, A); (d, B)] (Cut [(c, d)] [[a; b; c; n]] (Some (a, n)) 1)%nat
| s022 a b c d : saddle n [(a, O); (b, B); (c, O); (d, B)] (Cut [] [[a; b; c; d]] (Some (a, d)) 0)%nat
| s022' a b c d : saddle n [(a, B); (b, O); (c, B); (d, O)] (Cut [] [[a; b; c; d]] (Some (a, d)) 0)%nat.
(** The two corners within tolerance follow each other *)
Inductive pinch (n : nat) : list (nat * cls) -> cutting -> Prop :=
| p121 a b c d : pinch n [(a, A); (b, B); (c, O); (d, O)] (Cut [] [[b; c; d; b]] (Some (b, d)) 0)%nat
| p121' a b c d : pinch n [(a, A); (b, O); (c, O); (d, B)] (Cut [] [[b; c; d; b]] (Some (b, d)) 0)%nat.

Definition located (tol : R) (dist : list R) (ic : nat * cls) : Prop :=
  exists d, nth_error dist (fst ic) = Some d /\ classed tol d (snd ic).

Inductive outcome (n : nat) (ics : list (nat * cls)) : res cutting -> Prop :=
| out_canon ics' c : turned ics ics' -> canon n ics' c -> outcome n ics (Ok c)
| out_saddle ics' c : turned ics ics' -> saddle n ics' c -> outcome n ics (Ok c)
| out_pinch ics' c : turned ics ics' -> pinch n ics' c -> outcome n ics (Ok c)
| out_raise : threeO (map snd ics) = true -> outcome n ics (Raise PlainException).

Lemma neg_sign : forall tol d c, 0 <= tol -> classed tol d c -> c <> O -> Rltb d 0 = isB c.
Proof.
  intros tol d [] T H N; simpl in *; [apply Rltb_f; lra|congruence|apply Rltb_t; lra].
Qed.

Ltac turn k := exists k; reflexivity.
Ltac solve_out :=
  first
  [ apply out_raise; reflexivity
  | eapply out_canon; [turn 0%nat|first [apply cdrop; [reflexivity|reflexivity] | apply ckeep4; [reflexivity|cbn; lia] | apply ckeep3; [reflexivity|cbn; lia]]]
  | eapply out_canon; [turn 0%nat|constructor]
  | eapply out_canon; [turn 1%nat|constructor]
  | eapply out_canon; [turn 2%nat|constructor]
  | eapply out_canon; [turn 3%nat|constructor]
  | eapply out_saddle; [turn 0%nat|constructor]
  | eapply out_saddle; [turn 1%nat|constructor]
  | eapply out_saddle; [turn 2%nat|constructor]
  | eapply out_saddle; [turn 3%nat|constructor]
  | eapply out_pinch; [turn 0%nat|constructor]
  | eapply out_pinch; [turn 1%nat|constructor]
  | eapply out_pinch; [turn 2%nat|constructor]
  | eapply out_pinch; [turn 3%nat|constructor] ].

Lemma clip_face_outcome : forall tol dist n ics, 0 <= tol -> Forall (located tol dist) ics ->
  (length ics = 3 \/ length ics = 4)%nat -> outcome n ics (clip_face tol dist n (map fst ics)).
Proof.
  intros tol dist n ics T F L.
  destruct (mapM_ok _ _ (get dist) (map fst ics)) as (ds & E & F2).
  { intros i I. apply in_map_iff in I as ((j & c) & <- & I). rewrite Forall_forall in F.
    destruct (F _ I) as (d & N & _). exists d. apply get_some. auto. }
  assert (W : forall f g, (forall d c, classed tol d c -> f d = g c) -> where_ f ds = where_ g (map snd ics)).
  { intros f g H. apply where_ext2. clear - F F2 H. revert ds F2.
    induction F as [|[i c] l (d & N & K) F IH]; intros ds F2; inversion F2 as [|? d' ? ? G]; subst; simpl; constructor; auto.
    simpl in *. apply get_some in N. rewrite N in G. injection G as <-. auto. }
  unfold clip_face. rewrite E. cbn [bind].
  rewrite (W (above tol) isA) by (intros; apply classed_masks; auto).
  rewrite (W (on tol) isO) by (intros; apply classed_masks; auto).
  rewrite (W (below tol) isB) by (intros; apply classed_masks; auto). clear W E F2 ds.
  assert (G : forall i c, In (i, c) ics -> exists d, get dist i = Ok d /\ (c <> O -> Rltb d 0 = isB c)).
  { intros i c I. rewrite Forall_forall in F. destruct (F _ I) as (d & N & K). exists d. split; [apply get_some; auto|].
    intros. eapply neg_sign; eauto. }
  clear F.
  destruct ics as [|[a ca] [|[b cb] [|[c cc] [|[d cd] [|? ?]]]]]; simpl in L; try lia.
  - destruct (G a ca) as (da & GA & SA); [simpl; auto|]. destruct (G b cb) as (db & GB & SB); [simpl; auto|].
    destruct (G c cc) as (dc & GC & SC); [simpl; auto|]. clear G L.
    destruct ca, cb, cc; cbn; rewrite ?GA, ?GB, ?GC; cbn; rewrite ?SA, ?SB, ?SC by discriminate; cbn; solve_out.
  - destruct (G a ca) as (da & GA & SA); [simpl; auto|]. destruct (G b cb) as (db & GB & SB); [simpl; auto|].
    destruct (G c cc) as (dc & GC & SC); [simpl; auto|]. destruct (G d cd) as (dd & GD & SD); [simpl; auto 6|]. clear G L.
    destruct ca, cb, cc, cd; cbn; rewrite ?GA, ?GB, ?GC, ?GD; cbn; rewrite ?SA, ?SB, ?SC, ?SD by discriminate; cbn; solve_out.
Qed.

(** ** From indices to points *)
Section Points.
  Variables (p : plane) (tol : R).
  Hypothesis T0 : 0 <= tol.

  Definition seen (V : nat -> option vec) (ic : nat * cls) (x : vec) : Prop :=
    V (fst ic) = Some x /\ classed tol (height p x) (snd ic).
  Definition cuts (V : nat -> option vec) (e : nat * nat) (x : vec) : Prop :=
    exists a b, V (fst e) = Some a /\ V (snd e) = Some b /\ on_segment a b x /\ height p x = 0.
  Definition crosses (ps : list vec) : Prop := match ps with [a; b; c; d] => crossing a b c d | _ => True end.
  Definition looks (V : nat -> option vec) (ls : list (list nat)) (outs : list (list vec)) : Prop :=
    Forall2 (Forall2 (fun i x => V i = Some x)) ls outs.

  Lemma cuts_inv : forall V a b x pa pb, V a = Some pa -> V b = Some pb -> cuts V (a, b) x ->
    on_segment pa pb x /\ height p x = 0.
  Proof. intros V a b x pa pb HA HB (a' & b' & HA' & HB' & S & Z). simpl in *. assert (a' = pa) by congruence. assert (b' = pb) by congruence. subst. auto. Qed.

  Ltac inv2 := repeat match goal with
    | H : Forall2 _ (_ :: _) _ |- _ => inversion H; clear H; subst
    | H : Forall2 _ [] _ |- _ => inversion H; clear H; subst
    end.
  Ltac facts := repeat match goal with
    | H : seen _ (_, _) _ |- _ => let X := fresh "V" in let Y := fresh "C" in destruct H as [X Y]; cbn [fst snd] in X; simpl in Y
    end;
    repeat match goal with
    | H : cuts ?V (?a, ?b) ?x, HA : ?V ?a = Some ?pa, HB : ?V ?b = Some ?pb |- _ =>
        let S := fresh "S" in let Z := fresh "Z" in destruct (cuts_inv V a b x pa pb HA HB H) as [S Z]; clear H
    end.
  Ltac look := repeat (constructor; [repeat (constructor; [first [eassumption]|]); constructor|]); constructor.

  Lemma canon_kept : forall V n ics cut pts xs, canon n ics cut -> Forall2 (seen V) ics pts -> crosses pts ->
    Forall2 (cuts V) (q_edges cut) xs -> (forall k x, nth_error xs k = Some x -> V (n + k)%nat = Some x) ->
    exists outs, looks V (q_faces cut) outs /\ kept_part p tol pts outs.
  Proof.
    intros V n ics cut pts xs C S X E N.
    destruct C; cbn [q_edges q_faces] in *.
    17: { exists []. split; [constructor|]. apply kdrop; auto. intros q Q. apply In_nth_error in Q as [k Q].
          destruct (Forall2_nth_error_r _ _ _ _ _ S k q Q) as ((i & c) & I & _ & K). cbn [snd] in K.
          rewrite forallb_forall in H. assert (HC : In c (map snd l)) by (apply in_map_iff; exists (i, c); split; auto; eapply nth_error_In; eauto).
          specialize (H c HC). destruct c; try discriminate; simpl in K; [left; lra|right; auto]. }
    all: inv2; facts; cbn [crosses] in *;
      try match type of N with forall k x, nth_error [?i; ?j] k = _ -> _ =>
        pose proof (N 0%nat i eq_refl) as N0; pose proof (N 1%nat j eq_refl) as N1; rewrite Nat.add_0_r in N0 end;
      try match type of N with forall k x, nth_error [?i] k = _ -> _ =>
        pose proof (N 0%nat i eq_refl) as N0; rewrite Nat.add_0_r in N0 end.
    - eexists; split; [look|]. apply k202; auto; lra.
    - eexists; split; [look|]. eapply k301; eauto; lra.
    - eexists; split; [look|]. eapply k103; eauto; lra.
    - eexists; split; [look|]. eapply k102; eauto; lra.
    - eexists; split; [look|]. eapply k201; eauto; lra.
    - eexists; split; [look|]. eapply k211l; eauto; lra.
    - eexists; split; [look|]. eapply k211r; eauto; lra.
    - eexists; split; [look|]. eapply k112l; eauto; lra.
    - eexists; split; [look|]. eapply k112r; eauto; lra.
    - eexists; split; [look|]. eapply k111l; eauto; lra.
    - eexists; split; [look|]. eapply k111r; eauto; lra.
    - eexists; split; [look|]. apply kwhole3; auto. intros q [<-|[<-|[<-|[]]]]; [left; lra|right; auto|right; auto].
    - eexists; split; [look|]. apply kwhole4; auto. intros q [<-|[<-|[<-|[<-|[]]]]]; [right; auto|left; lra|left; lra|right; auto].
    - eexists; split; [look|]. eapply k121; eauto; lra.
    - eexists; split; [look|]. simpl in H. rewrite !andb_true_r in H.
      apply andb_true_iff in H as [Ha H]. apply andb_true_iff in H as [Hb H]. apply andb_true_iff in H as [Hc Hd].
      apply kwhole4; auto. intros q [<-|[<-|[<-|[<-|[]]]]];
      [destruct ca|destruct cb|destruct cc|destruct cd]; try discriminate; simpl in *; (left; lra) || (right; auto).
    - eexists; split; [look|]. simpl in H. rewrite !andb_true_r in H.
      apply andb_true_iff in H as [Ha H]. apply andb_true_iff in H as [Hb Hc].
      apply kwhole3; auto. intros q [<-|[<-|[<-|[]]]];
      [destruct ca|destruct cb|destruct cc]; try discriminate; simpl in *; (left; lra) || (right; auto).
  Qed.

  (** Comparison at the point where the diagonals meet. *)
  Lemma crossing_heights : forall a b c d k, crossing a b c d -> k < height p a -> k < height p c ->
    height p b < k -> height p d < k -> False.
  Proof.
    intros a b c d k (w & x & y & z & W & X & Y & Z & E & P & EQ) HA HC HB HD. unfold height in *.
    assert (Q : w * dot (p_normal p) a + x * dot (p_normal p) c = y * dot (p_normal p) b + z * dot (p_normal p) d).
    { replace (w * dot (p_normal p) a + x * dot (p_normal p) c) with (dot (p_normal p) (vadd (vscale w a) (vscale x c))) by vring.
      rewrite EQ. vring. }
    assert (w * (dot (p_normal p) a - p_scalar p - k) + x * (dot (p_normal p) c - p_scalar p - k) =
            y * (dot (p_normal p) b - p_scalar p - k) + z * (dot (p_normal p) d - p_scalar p - k)) by nra.
    assert (0 <= w * (dot (p_normal p) a - p_scalar p - k)) by nra.
    assert (0 <= x * (dot (p_normal p) c - p_scalar p - k)) by nra.
    assert (y * (dot (p_normal p) b - p_scalar p - k) <= 0) by nra.
    assert (z * (dot (p_normal p) d - p_scalar p - k) <= 0) by nra.
    destruct (Rle_lt_or_eq_dec 0 w W) as [PW|<-]; [nra|]. destruct (Rle_lt_or_eq_dec 0 x X) as [PX|<-]; nra.
  Qed.

  Lemma saddle_impossible : forall V n ics cut pts, saddle n ics cut -> Forall2 (seen V) ics pts -> crosses pts -> False.
  Proof.
    intros V n ics cut pts S F X. destruct S; inv2; facts; cbn [crosses] in X.
    - eapply (crossing_heights _ _ _ _ 0 X); lra.
    - apply crossing_turn in X. eapply (crossing_heights _ _ _ _ 0 X); lra.
    - apply crossing_turn in X. eapply (crossing_heights _ _ _ _ tol X); lra.
    - eapply (crossing_heights _ _ _ _ (- tol) X); lra.
    - eapply (crossing_heights _ _ _ _ (- tol) X); lra.
    - apply crossing_turn in X. eapply (crossing_heights _ _ _ _ (- tol) X); lra.
  Qed.

  (** The edges to be cut join both sides, whatever the pattern. *)
  Lemma outcome_edges : forall n ics cut, outcome n ics (Ok cut) -> forall e, In e (q_edges cut) ->
    exists c c', In (fst e, c) ics /\ In (snd e, c') ics /\ (c = A /\ c' = B \/ c = B /\ c' = A).
  Proof.
    intros n ics cut H e I.
    assert (K : exists ics', turned ics ics' /\ exists c c', In (fst e, c) ics' /\ In (snd e, c') ics' /\ (c = A /\ c' = B \/ c = B /\ c' = A)).
    { inversion H as [ics' c T C|ics' c T C|ics' c T C|]; subst; exists ics'; (split; [auto|]); clear - C I;
        destruct C; simpl in I; repeat destruct I as [<-|I]; try contradiction; cbn [fst snd];
        first [exists A, B; split; [simpl; tauto|split; [simpl; tauto|tauto]] | exists B, A; split; [simpl; tauto|split; [simpl; tauto|tauto]]]. }
    destruct K as (ics' & [k ->] & c & c' & I1 & I2 & D). exists c, c'.
    assert (P : forall y, In y (skipn k ics ++ firstn k ics) -> In y ics).
    { intros y Y. rewrite <- (firstn_skipn k ics). apply in_app_or in Y. apply in_or_app. tauto. }
    auto.
  Qed.
End Points.
