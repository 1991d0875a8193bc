(** Proofs about the clipping of a mesh: the loop on the faces of the crown. *)
From Coq Require Import Reals List Arith Bool Lia Lra Psatz.
From Verif Require Import M_base P_base M_merge P_merge M_plane M_mesh S_mesh P_mesh S_geometry S_plane P_plane
  M_connectivity M_clipper S_clipper P_hull P_cut P_clipper.
Import ListNotations.
Open Scope R_scope.

Definition cls_of (tol d : R) : cls := if Rlt_dec tol d then A else if Rlt_dec d (- tol) then B else O.
Lemma cls_of_ok : forall tol d, 0 <= tol -> Rabs d <> tol -> classed tol d (cls_of tol d).
Proof.
  intros tol d T N. destruct (classed_ex tol d N) as [c C]. unfold cls_of.
  destruct (Rlt_dec tol d); auto. destruct (Rlt_dec d (- tol)); auto. destruct c; simpl in *; lra.
Qed.

Lemma turned_map : forall X Y (f : X -> Y) l l', turned l l' -> turned (map f l) (map f l').
Proof. intros X Y f l l' [k ->]. exists k. rewrite map_app, skipn_map, firstn_map. auto. Qed.
Lemma Forall2_impl' : forall X Y (P Q : X -> Y -> Prop) l m, (forall x y, In x l -> P x y -> Q x y) -> Forall2 P l m -> Forall2 Q l m.
Proof. intros X Y P Q l m H F. induction F; constructor; [apply H; simpl; auto|]. apply IHF. intros; apply H; simpl; auto. Qed.
Lemma Forall2_skipn : forall X Y (P : X -> Y -> Prop) k l m, Forall2 P l m -> Forall2 P (skipn k l) (skipn k m).
Proof. induction k; intros l m F; simpl; auto. destruct F; auto. Qed.
Lemma Forall2_firstn : forall X Y (P : X -> Y -> Prop) k l m, Forall2 P l m -> Forall2 P (firstn k l) (firstn k m).
Proof. induction k; intros l m F; simpl; auto. destruct F; constructor; auto. Qed.
Lemma Forall2_turned : forall X Y (P : X -> Y -> Prop) l m l', Forall2 P l m -> turned l l' -> exists m', turned m m' /\ Forall2 P l' m'.
Proof.
  intros X Y P l m l' F [k ->]. exists (skipn k m ++ firstn k m). split; [exists k; auto|].
  apply Forall2_app; [apply Forall2_skipn|apply Forall2_firstn]; auto.
Qed.
Lemma crosses_turned : forall ps ps', turned ps ps' -> crosses ps -> crosses ps'.
Proof.
  intros ps ps' [k ->] C. destruct ps as [|x [|y [|z [|w [|? ?]]]]];
    try (destruct k as [|[|[|[|k]]]]; simpl; rewrite ?skipn_nil, ?firstn_nil; simpl; auto; fail).
  - destruct k as [|[|[|[|k]]]]; simpl; rewrite ?skipn_nil, ?firstn_nil; simpl in *; auto.
    + apply crossing_turn; auto.
    + do 2 apply crossing_turn; auto.
    + do 3 apply crossing_turn; auto.
  - assert (L : length (skipn k (x :: y :: z :: w :: v :: l) ++ firstn k (x :: y :: z :: w :: v :: l)) = length (x :: y :: z :: w :: v :: l)).
    { rewrite app_length, skipn_length, firstn_length. lia. }
    destruct (skipn k (x :: y :: z :: w :: v :: l) ++ firstn k (x :: y :: z :: w :: v :: l)) as [|? [|? [|? [|? [|? ?]]]]]; simpl in *; auto; lia.
Qed.
Lemma turned_perm : forall X (l l' : list X), turned l l' -> Permutation.Permutation l l'.
Proof.
  intros X l l' [k ->]. rewrite <- (firstn_skipn k l) at 1. apply Permutation.Permutation_app_comm.
Qed.
Lemma filter_perm_len : forall X (f : X -> bool) l l', Permutation.Permutation l l' -> length (filter f l) = length (filter f l').
Proof.
  induction 1; simpl; auto; [destruct (f x); simpl; auto|destruct (f x), (f y); simpl; auto|congruence].
Qed.
Lemma threeO_turned : forall l l', turned l l' -> threeO l' = threeO l.
Proof.
  intros l l' T. apply turned_perm in T. unfold threeO. rewrite (Permutation.Permutation_length T), (filter_perm_len _ isO _ _ T). auto.
Qed.

Section Loop.
  Variables (p : plane) (tol : R) (vs : list vec).
  Hypothesis T0 : 0 <= tol.
  Let dist := map (plane_dist p) vs.

  Definition ics_of (f : face) : list (nat * cls) := map (fun i => (i, cls_of tol (height p (point vs i)))) (face_w f).
  Definition proper (f : face) : Prop := valid_face (length vs) f /\ Forall (sorted_out p tol) (outline vs f).

  Lemma face_w_fst : forall f, map fst (ics_of f) = face_w f.
  Proof. intros. unfold ics_of. rewrite map_map. apply map_id. Qed.
  Lemma outline_map : forall f, outline vs f = map (point vs) (face_w f).
  Proof.
    intros. unfold outline, face_w, is_triangle. destruct (Nat.eq_dec (f0 f) (f3 f)) as [E|E].
    - rewrite E, Nat.eqb_refl. rewrite <- E. reflexivity.
    - apply Nat.eqb_neq in E. rewrite E. reflexivity.
  Qed.
  Lemma ics_length : forall f, (length (ics_of f) = 3 \/ length (ics_of f) = 4)%nat.
  Proof. intros. unfold ics_of. rewrite map_length. unfold face_w. destruct (is_triangle f); simpl; auto. Qed.
  Lemma outline_length : forall f, (length (outline vs f) = 3 \/ length (outline vs f) = 4)%nat.
  Proof. intros. rewrite outline_map, map_length. unfold face_w. destruct (is_triangle f); simpl; auto. Qed.
  Lemma face_w_valid : forall f i, valid_face (length vs) f -> In i (face_w f) -> (i < length vs)%nat.
  Proof.
    intros f i (H0 & H1 & H2 & H3) I. unfold face_w in I. destruct (is_triangle f); simpl in I;
      repeat destruct I as [<-|I]; auto; contradiction.
  Qed.
  Lemma nth_point : forall i, (i < length vs)%nat -> nth_error vs i = Some (point vs i).
  Proof. intros. unfold point. apply nth_error_nth'. auto. Qed.
  Lemma ics_seen : forall V f, proper f -> (forall i, (i < length vs)%nat -> V i = Some (point vs i)) ->
    Forall2 (seen p tol V) (ics_of f) (outline vs f).
  Proof.
    intros V f [VF SO] HV. rewrite outline_map in *. unfold ics_of.
    assert (K : forall i, In i (face_w f) -> (i < length vs)%nat) by (intros; eapply face_w_valid; eauto).
    clear VF. induction (face_w f) as [|i l IH]; simpl in *; constructor.
    - split; simpl; auto. inversion SO; subst. apply cls_of_ok; auto.
    - apply IH; auto. inversion SO; auto.
  Qed.
  Lemma ics_located : forall f, proper f -> Forall (located tol dist) (ics_of f).
  Proof.
    intros f P. pose proof (ics_seen (nth_error vs) f P nth_point) as S. apply Forall_forall. intros ic I.
    apply In_nth_error in I as [k K]. destruct (Forall2_nth_error _ _ _ _ _ S k ic K) as (x & X & V & C).
    exists (height p x). split; auto. unfold dist. rewrite nth_error_map, V. simpl. rewrite height_dist. auto.
  Qed.
  Lemma face_outcome : forall n f, proper f -> outcome n (ics_of f) (clip_face tol dist n (face_w f)).
  Proof. intros. rewrite <- face_w_fst. apply clip_face_outcome; auto. apply ics_located; auto. apply ics_length. Qed.

  Lemma outcome_shift : forall n ics cut, outcome n ics (Ok cut) -> q_shift cut = length (q_edges cut).
  Proof. intros n ics cut H. inversion H as [? ? ? C|? ? ? C|? ? ? C|]; subst; destruct C; reflexivity. Qed.
  Lemma outcome_three : forall n ics cut, outcome n ics (Ok cut) -> threeO (map snd ics) = false.
  Proof.
    intros n ics cut H. inversion H as [ics' ? T C|ics' ? T C|ics' ? T C|]; subst;
      rewrite <- (threeO_turned _ _ (turned_map _ _ snd _ _ T)); destruct C; try reflexivity; auto.
    - unfold threeO. simpl map. destruct (length (filter isO [ca; cb; cc; cd]) =? 3)%nat eqn:E; [apply Nat.eqb_eq in E; lia|apply andb_false_r].
  Qed.

  (** Intersections of the requested edges *)
  Lemma edges_cut : forall n f cut, proper f -> outcome n (ics_of f) (Ok cut) ->
    exists xs, mapM (fun e => do a <- get vs (fst e); do b <- get vs (snd e); intersection p a b) (q_edges cut) = Ok xs /\
      Forall2 (cuts p (nth_error vs)) (q_edges cut) xs.
  Proof.
    intros n f cut P H. pose proof (outcome_edges n _ _ H) as OE.
    pose proof (ics_seen (nth_error vs) f P nth_point) as S.
    destruct (mapM_ok _ _ (fun e => do a <- get vs (fst e); do b <- get vs (snd e); intersection p a b) (q_edges cut)) as (xs & E & F).
    - intros e I. destruct (OE e I) as (c & c' & I1 & I2 & D).
      apply In_nth_error in I1 as [k1 I1]. apply In_nth_error in I2 as [k2 I2].
      destruct (Forall2_nth_error _ _ _ _ _ S _ _ I1) as (x & _ & V & C). destruct (Forall2_nth_error _ _ _ _ _ S _ _ I2) as (y & _ & V' & C').
      simpl in V, C, V', C'. rewrite (get_some _ _ _ _ V). cbn [bind]. rewrite (get_some _ _ _ _ V'). cbn [bind].
      destruct (edge_intersection_ok p x y) as (z & Z & _).
      + rewrite !height_dist. destruct D as [[-> ->]|[-> ->]]; simpl in C, C'; nra.
      + rewrite !on_plane_dist, !height_dist. destruct D as [[-> ->]|[-> ->]]; simpl in C, C'; lra.
      + exists z. unfold intersection. rewrite Z. reflexivity.
    - exists xs. split; auto. eapply Forall2_impl'; [|exact F]. intros e x I H'. simpl in H'.
      destruct (OE e I) as (c & c' & I1 & I2 & D).
      apply In_nth_error in I1 as [k1 I1]. apply In_nth_error in I2 as [k2 I2].
      destruct (Forall2_nth_error _ _ _ _ _ S _ _ I1) as (y & _ & V & C). destruct (Forall2_nth_error _ _ _ _ _ S _ _ I2) as (y' & _ & V' & C').
      simpl in V, C, V', C'. rewrite (get_some _ _ _ _ V) in H'. cbn [bind] in H'. rewrite (get_some _ _ _ _ V') in H'. cbn [bind] in H'.
      destruct (edge_intersection_ok p y y') as (z & Z & _ & OP & SE & _).
      + rewrite !height_dist. destruct D as [[-> ->]|[-> ->]]; simpl in C, C'; nra.
      + rewrite !on_plane_dist, !height_dist. destruct D as [[-> ->]|[-> ->]]; simpl in C, C'; lra.
      + unfold intersection in H'. rewrite Z in H'. injection H' as <-. exists y, y'. repeat split; auto.
        apply on_plane_dist in OP. rewrite height_dist in OP. auto.
  Qed.

  (** One turn *)
  Definition set_bound (b : option (nat * nat)) (d : list (nat * nat)) : list (nat * nat) :=
    match b with Some (x, y) => od_set d x y | None => d end.
  Definition set_inv (b : option (nat * nat)) (d : list (nat * nat)) : list (nat * nat) :=
    match b with Some (x, y) => od_set d y x | None => d end.
  Definition after (st : crown_state) (cut : cutting) (xs : list vec) : crown_state :=
    mkCrown (cs_ints st ++ xs) (cs_faces st ++ q_faces cut) (set_bound (q_bound cut) (cs_direct st))
            (set_inv (q_bound cut) (cs_inv st)) (cs_index st + q_shift cut).
  Lemma step_ok : forall st f, proper f -> threeO (map snd (ics_of f)) = false ->
    exists cut xs, outcome (cs_index st) (ics_of f) (Ok cut) /\ Forall2 (cuts p (nth_error vs)) (q_edges cut) xs /\
      clip_step p tol vs dist st f = Ok (after st cut xs).
  Proof.
    intros st f P T. pose proof (face_outcome (cs_index st) f P) as H. unfold clip_step.
    destruct (clip_face tol dist (cs_index st) (face_w f)) as [cut|e] eqn:E.
    - destruct (edges_cut _ _ _ P H) as (xs & EX & F). exists cut, xs. split; auto. split; auto.
      cbn [bind]. rewrite EX. cbn [bind]. unfold after, set_bound, set_inv. destruct (q_bound cut) as [[? ?]|]; reflexivity.
    - inversion H. congruence.
  Qed.
  Lemma step_raise : forall st f, proper f -> threeO (map snd (ics_of f)) = true ->
    clip_step p tol vs dist st f = Raise PlainException.
  Proof.
    intros st f P T. pose proof (face_outcome (cs_index st) f P) as H. unfold clip_step.
    destruct (clip_face tol dist (cs_index st) (face_w f)) as [cut|e] eqn:E.
    - apply outcome_three in H. congruence.
    - inversion H. reflexivity.
  Qed.

  (** The whole loop *)
  Record turn_of := mkTurn { t_index : nat; t_cut : cutting; t_ints : list vec }.
  Definition done (V : nat -> option vec) (f : face) (t : turn_of) : Prop :=
    outcome (t_index t) (ics_of f) (Ok (t_cut t)) /\ Forall2 (cuts p V) (q_edges (t_cut t)) (t_ints t) /\
    (forall k x, nth_error (t_ints t) k = Some x -> V (t_index t + k)%nat = Some x).
  Lemma loop_ok : forall fs st, Forall proper fs -> Forall (fun f => threeO (map snd (ics_of f)) = false) fs ->
    cs_index st = (length vs + length (cs_ints st))%nat ->
    exists ts, let st' := mkCrown (cs_ints st ++ concat (map t_ints ts)) (cs_faces st ++ concat (map (fun t => q_faces (t_cut t)) ts))
                (fold_left (fun d b => set_bound b d) (map (fun t => q_bound (t_cut t)) ts) (cs_direct st))
                (fold_left (fun d b => set_inv b d) (map (fun t => q_bound (t_cut t)) ts) (cs_inv st))
                (length vs + length (cs_ints st ++ concat (map t_ints ts)))%nat in
      foldM (clip_step p tol vs dist) fs st = Ok st' /\
      Forall2 (done (nth_error (vs ++ cs_ints st'))) fs ts.
  Proof.
    induction fs as [|f fs IH]; intros st P T I.
    - exists []. simpl. rewrite !app_nil_r. split; [|constructor]. destruct st; simpl in *; subst; auto.
    - inversion P as [|? ? Pf P']; inversion T as [|? ? Tf T']; subst.
      destruct (step_ok st f Pf Tf) as (cut & xs & O & C & E).
      destruct (IH (after st cut xs)) as (ts & EF & F); auto.
      { simpl. rewrite (outcome_shift _ _ _ O), (Forall2_len _ _ _ _ _ C), app_length. lia. }
      simpl in EF, F. exists (mkTurn (cs_index st) cut xs :: ts). cbn zeta. cbn [map concat t_ints t_cut foldM].
      rewrite E. cbn [bind]. rewrite EF, <- !app_assoc. split; [reflexivity|].
      cbn [cs_ints]. rewrite <- app_assoc in F. constructor; auto. split; [exact O|]. cbn [t_ints t_cut t_index].
      split.
      + eapply Forall2_impl'; [|exact C]. intros e x _ (a & b & HA & HB & S & Z). exists a, b. repeat split; auto;
          (rewrite nth_error_app1; [auto|eapply nth_error_bound; eauto]).
      + intros k x K. rewrite nth_error_app2 by lia. replace (cs_index st + k - length vs)%nat with (length (cs_ints st) + k)%nat by lia.
        rewrite nth_error_app2 by lia. replace (length (cs_ints st) + k - length (cs_ints st))%nat with k by lia.
        rewrite nth_error_app1; [auto|eapply nth_error_bound; eauto].
  Qed.
  Lemma loop_raise : forall fs st, Forall proper fs -> Exists (fun f => threeO (map snd (ics_of f)) = true) fs ->
    foldM (clip_step p tol vs dist) fs st = Raise PlainException.
  Proof.
    induction fs as [|f fs IH]; intros st P X; [inversion X|]. inversion P; subst. simpl.
    destruct (threeO (map snd (ics_of f))) eqn:E.
    - rewrite step_raise; auto.
    - destruct (step_ok st f H1 E) as (cut & xs & _ & _ & ES). rewrite ES. cbn [bind]. apply IH; auto.
      inversion X; subst; auto. congruence.
  Qed.
End Loop.
