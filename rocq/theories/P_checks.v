(** Checks that concrete meshes meet the hypotheses of the theorems on connectivity. *)
From Coq Require Import List Arith Bool Lia Permutation.
From Verif Require Import M_base M_merge P_merge M_mesh S_mesh P_mesh M_connectivity S_connectivity P_connectivity P_heal P_healed.
Import ListNotations.
Open Scope nat_scope.

Lemma iteration_id : iteration (fun l => l).
Proof. intros l. apply Permutation_refl. Qed.
Lemma iteration_rev : iteration (@rev nat).
Proof. intros l. apply Permutation_sym, Permutation_rev. Qed.

Definition neighbours_check (f g : face) : bool :=
  existsb (fun e : nat * nat => let (u, v) := e in negb (u =? v) &&
    forallb (fun x => Bool.eqb (mem x (entries f) && mem x (entries g)) ((x =? u) || (x =? v))) (u :: v :: entries f) &&
    (has_edge (u, v) g || has_edge (v, u) g)) (cycle_edges f).
Lemma neighbours_check_ok : forall f g, neighbours_check f g = true -> edge_neighbours f g.
Proof.
  intros f g H. apply existsb_exists in H. destruct H as ([u v] & I & H). apply andb_true_iff in H. destruct H as [H1 H3].
  apply andb_true_iff in H1. destruct H1 as [H1 H2]. exists u, v. split; [|split; [|split]].
  - intros ->. rewrite Nat.eqb_refl in H1. discriminate.
  - rewrite forallb_forall in H2.
    assert (K : forall x, In x (u :: v :: entries f) -> (In x (entries f) /\ In x (entries g) <-> x = u \/ x = v)).
    { intros x X. specialize (H2 x X). apply eqb_prop in H2.
      rewrite <- !mem_true, <- andb_true_iff, H2, orb_true_iff, !Nat.eqb_eq. reflexivity. }
    intros x. rewrite !in_dec_entries. split.
    + intros [A B]. apply K; [right; right; auto|auto].
    + intros X. apply K; auto. destruct X as [->| ->]; [left; auto|right; left; auto].
  - auto.
  - apply orb_true_iff in H3. rewrite !has_edge_true in H3. auto.
Qed.
Definition consistent_check (f g : face) : bool := forallb (fun e => negb (has_edge e g)) (cycle_edges f).
Lemma consistent_check_ok : forall f g, consistent_check f g = true -> consistent f g.
Proof.
  intros f g H u v A B. unfold consistent_check in H. rewrite forallb_forall in H. specialize (H _ A).
  apply has_edge_true in B. rewrite B in H. discriminate.
Qed.

Definition valid_check (nv : nat) (fs : list face) : bool := forallb (fun f => forallb (fun i => i <? nv) (entries f)) fs.
Lemma valid_check_ok : forall nv fs, valid_check nv fs = true -> Forall (valid_face nv) fs.
Proof.
  intros nv fs H. apply Forall_forall. intros f I. unfold valid_check in H. rewrite forallb_forall in H. specialize (H f I).
  cbn [entries forallb] in H. rewrite !andb_true_iff, !Nat.ltb_lt in H. unfold valid_face. tauto.
Qed.
Definition nodup_check (l : list nat) : bool := length (nodup Nat.eq_dec l) =? length l.
Lemma nodup_check_ok : forall l, nodup_check l = true -> NoDup l.
Proof.
  intros l H. apply Nat.eqb_eq in H. apply (NoDup_incl_NoDup (NoDup_nodup Nat.eq_dec l)); [lia|].
  intros x X. apply nodup_In in X. auto.
Qed.
Definition simple_check (fs : list face) : bool :=
  forallb (fun f => if Nat.eq_dec (f0 f) (f3 f) then nodup_check [f0 f; f1 f; f2 f] else nodup_check (entries f)) fs.
Lemma simple_check_ok : forall fs, simple_check fs = true -> Forall simple_face fs.
Proof.
  intros fs H. apply Forall_forall. intros f I. unfold simple_check in H. rewrite forallb_forall in H. specialize (H f I).
  cbn beta in H. unfold simple_face. destruct (Nat.eq_dec (f0 f) (f3 f)); apply nodup_check_ok; auto.
Qed.

(** Two faces by numbers, through the table of adjacent faces. *)
Definition pairs_check (p : face -> face -> bool) (ff : list (list nat)) (fs : list face) : bool :=
  forallb (fun i => forallb (fun j => match nth_error fs i, nth_error fs j with Some f, Some g => p f g | _, _ => true end) (nth i ff []))
          (seq 0 (length fs)).
Lemma pairs_check_ok : forall p nv fs c, Forall (valid_face nv) fs -> Forall simple_face fs ->
  connectivity_of (fun l => l) nv fs = Ok c -> pairs_check p (c_ff c) fs = true ->
  forall i j f g, adjacent fs i j -> nth_error fs i = Some f -> nth_error fs j = Some g -> p f g = true.
Proof.
  intros p nv fs c V S E H i j f g A Ef Eg. destruct (connectivity_inv _ iteration_id _ _ V S c E) as (_ & be & CS).
  unfold pairs_check in H. rewrite forallb_forall in H. pose proof (nth_error_bound _ _ _ _ Ef) as L.
  specialize (H i). rewrite in_seq in H. specialize (H (conj (Nat.le_0_l _) L)). rewrite forallb_forall in H.
  specialize (H j). rewrite Ef, Eg in H. apply H. apply (cs_ff _ _ _ _ CS); auto.
Qed.

Record checked (m : mesh) (ff : list (list nat)) (bs : list (list nat)) : Prop := {
  ck_valid : valid m;
  ck_simple : simple m;
  ck_crowd : ~ crowded (faces m);
  ck_share : share_edges (faces m);
  ck_conn : exists c, mesh_connectivity (fun l => l) m = Ok c /\ c_ff c = ff /\ c_bounds c = bs }.
Definition full_check (nv : nat) (fs : list face) (ff bs : list (list nat)) : bool :=
  valid_check nv fs && simple_check fs &&
  match connectivity_of (fun l => l) nv fs with
  | Ok c => (if list_eq_dec (list_eq_dec Nat.eq_dec) (c_ff c) ff then true else false) &&
            (if list_eq_dec (list_eq_dec Nat.eq_dec) (c_bounds c) bs then true else false) &&
            pairs_check neighbours_check ff fs
  | Raise _ => false
  end.
Lemma full_check_ok : forall m ff bs, full_check (length (verts m)) (faces m) ff bs = true -> checked m ff bs.
Proof.
  intros m ff bs H. unfold full_check in H. apply andb_true_iff in H. destruct H as [H1 H]. apply andb_true_iff in H1. destruct H1 as [V S].
  apply valid_check_ok in V. apply simple_check_ok in S.
  destruct (connectivity_of (fun l => l) (length (verts m)) (faces m)) as [c|] eqn:E; [|discriminate].
  apply andb_true_iff in H. destruct H as [H P]. apply andb_true_iff in H. destruct H as [F B].
  destruct (list_eq_dec _ (c_ff c) ff); [|discriminate]. destruct (list_eq_dec _ (c_bounds c) bs); [|discriminate].
  destruct (connectivity_inv _ iteration_id _ _ V S c E) as (NC & be & CS).
  split; auto.
  - intros i j f g A Ef Eg. apply neighbours_check_ok. subst ff.
    apply (pairs_check_ok _ _ _ _ V S E P i j f g A Ef Eg).
  - exists c. auto.
Qed.
Lemma oriented_check_ok : forall m ff bs, checked m ff bs -> pairs_check consistent_check ff (faces m) = true -> oriented (faces m).
Proof.
  intros m ff bs K H i j f g A Ef Eg. destruct (ck_conn _ _ _ K) as (c & E & <- & _). apply consistent_check_ok.
  apply (pairs_check_ok _ _ _ _ (ck_valid _ _ _ K) (ck_simple _ _ _ K) E H i j f g A Ef Eg).
Qed.
(** Orientable: give the reversals. *)
Definition flip_by (s : list bool) (fs : list face) : list face := map (fun e => flip_if (fst e) (snd e)) (combine s fs).
Lemma flip_by_reverses : forall s fs, length s = length fs -> reversed_by (fun k => nth k s false) fs (flip_by s fs).
Proof.
  intros s fs L. unfold flip_by. split; [rewrite map_length, combine_length; lia|].
  revert s L. induction fs as [|a fs IH]; intros [|b s] L k f E; simpl in L; try lia.
  - destruct k; discriminate.
  - destruct k; cbn in E.
    + injection E as ->. reflexivity.
    + cbn. apply IH; auto.
Qed.

(** Border edges, computed. *)
Definition holds_b (u v : nat) (f : face) : bool := mem u (entries f) && mem v (entries f).
Definition border_list (fs : list face) : list (nat * nat) :=
  flat_map (fun e => filter (fun p => Nat.eqb (length (filter (holds_b (fst p) (snd p)) fs)) 1) (cycle_edges (snd e))) (enumerate fs).
Lemma holds_b_uses : forall u v f, holds_b u v f = true <-> uses [f] u /\ uses [f] v.
Proof.
  intros u v f. unfold holds_b. rewrite andb_true_iff, !mem_true, !in_dec_entries. tauto.
Qed.
Lemma filter_one : forall (A : Type) (p : A -> bool) l, length (filter p l) = 1 <->
  exists k a, nth_error l k = Some a /\ p a = true /\ forall k' a', nth_error l k' = Some a' -> p a' = true -> k' = k.
Proof.
  intros A p l. induction l as [|x l IH]; simpl.
  - split; [lia|]. intros (k & a & E & _). destruct k; discriminate.
  - destruct (p x) eqn:P; simpl.
    + split.
      * intros H. assert (N : filter p l = []) by (destruct (filter p l); simpl in *; [auto|lia]).
        exists 0, x. repeat split; auto. intros [|k'] a' E H'; auto. simpl in E. exfalso.
        assert (I : In a' (filter p l)) by (apply filter_In; split; eauto using nth_error_In). rewrite N in I. auto.
      * intros (k & a & E & Pa & U). assert (k = 0) by (symmetry; apply (U 0 x); auto). subst.
        replace (filter p l) with (@nil A); auto. destruct (filter p l) as [|y t] eqn:F; auto. exfalso.
        assert (I : In y (filter p l)) by (rewrite F; simpl; auto). apply filter_In in I. destruct I as [I Py].
        apply In_nth_error in I. destruct I as [j J]. specialize (U (S j) y J Py). lia.
    + rewrite IH. split; intros (k & a & E & Pa & U).
      * exists (S k), a. repeat split; auto. intros [|k'] a' E' H'; [simpl in E'; congruence|]. f_equal. eapply U; eauto.
      * destruct k as [|k]; [simpl in E; congruence|]. exists k, a. repeat split; auto.
        intros k' a' E' H'. specialize (U (S k') a' E' H'). lia.
Qed.
Lemma border_list_spec : forall fs u v, In (u, v) (border_list fs) <-> border fs u v.
Proof.
  intros fs u v. unfold border_list. rewrite in_flat_map. split.
  - intros ([k f] & I & J). apply in_enumerate in I. apply filter_In in J. destruct J as [J L]. cbn [fst snd] in *.
    apply Nat.eqb_eq in L. exists k, f. split; auto. split; auto. intros k' [(f1 & E1 & U1) (f2 & E2 & U2)].
    rewrite E1 in E2. injection E2 as <-. apply filter_one in L. destruct L as (k0 & a & Ea & Pa & U).
    rewrite (U k' f1 E1) by (apply holds_b_uses; auto). symmetry. apply (U k f I). apply holds_b_uses. apply cycle_uses. auto.
  - intros (k & f & E & J & U). exists (k, f). split; [apply in_enumerate; auto|]. apply filter_In. split; auto. cbn [fst snd].
    apply Nat.eqb_eq. apply filter_one. exists k, f. split; auto. split; [apply holds_b_uses, cycle_uses; auto|].
    intros k' f' E' H. apply holds_b_uses in H. apply U. split; exists f'; tauto.
Qed.
Lemma no_border_check : forall fs, border_list fs = [] -> forall u v, ~ border fs u v.
Proof. intros fs E u v B. apply border_list_spec in B. rewrite E in B. auto. Qed.
Definition circular_check (l : list (nat * nat)) : bool :=
  nodup_check (map fst l) && nodup_check (map snd l) && forallb (fun x => mem x (map snd l)) (map fst l) &&
  forallb (fun x => mem x (map fst l)) (map snd l).
Lemma fst_unique : forall (l : list (nat * nat)) a b c, NoDup (map fst l) -> In (a, b) l -> In (a, c) l -> b = c.
Proof.
  induction l as [|[x y] l IH]; intros a b c N B C; [destruct B|]. simpl in *. inversion N; subst.
  destruct B as [B|B], C as [C|C]; try (injection B as -> ->); try (injection C as -> ->); eauto.
  - congruence.
  - exfalso. apply H1. apply (in_map fst) in C. auto.
  - exfalso. apply H1. apply (in_map fst) in B. auto.
Qed.
Lemma snd_unique : forall (l : list (nat * nat)) a b c, NoDup (map snd l) -> In (b, a) l -> In (c, a) l -> b = c.
Proof.
  induction l as [|[x y] l IH]; intros a b c N B C; [destruct B|]. simpl in *. inversion N; subst.
  destruct B as [B|B], C as [C|C]; try (injection B as -> ->); try (injection C as -> ->); eauto.
  - congruence.
  - exfalso. apply H1. apply (in_map snd) in C. auto.
  - exfalso. apply H1. apply (in_map snd) in B. auto.
Qed.
Lemma circular_check_ok : forall fs, circular_check (border_list fs) = true -> circular_border fs.
Proof.
  intros fs H. unfold circular_check in H. apply andb_true_iff in H. destruct H as [H F2]. apply andb_true_iff in H. destruct H as [H F1].
  apply andb_true_iff in H. destruct H as [N1 N2]. apply nodup_check_ok in N1. apply nodup_check_ok in N2.
  rewrite forallb_forall in F1, F2. split; [|split].
  - intros a b c B C. apply border_list_spec in B. apply border_list_spec in C. eapply fst_unique; eauto.
  - intros a b c B C. apply border_list_spec in B. apply border_list_spec in C. eapply snd_unique; eauto.
  - intros a. split; intros [b B]; apply border_list_spec in B.
    + apply (in_map fst) in B. apply F1 in B. apply mem_true in B. apply in_map_iff in B. destruct B as ([x y] & Y & I).
      cbn in Y. subst y. exists x. apply border_list_spec. auto.
    + apply (in_map snd) in B. apply F2 in B. apply mem_true in B. apply in_map_iff in B. destruct B as ([x y] & Y & I).
      cbn in Y. subst x. exists y. apply border_list_spec. auto.
Qed.
