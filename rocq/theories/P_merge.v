(** Proofs about vertex merging. *)
From Coq Require Import Reals List Arith Bool Lia Lra Sorting.Permutation Sorting.Sorted.
From Verif Require Import M_base P_base M_merge S_merge.
Import ListNotations.
Open Scope R_scope.

(** ** Lists *)
Lemma set_nth_length : forall A (l : list A) i v, length (set_nth l i v) = length l.
Proof. induction l; destruct i; simpl; intros; auto. Qed.
Lemma set_nth_same : forall A (l : list A) i v, (i < length l)%nat -> nth_error (set_nth l i v) i = Some v.
Proof. induction l; destruct i; simpl; intros; try lia; auto. apply IHl; lia. Qed.
Lemma set_nth_other : forall A (l : list A) i j v, i <> j -> nth_error (set_nth l i v) j = nth_error l j.
Proof. induction l; destruct i, j; simpl; intros; try congruence; auto. Qed.
Lemma set_all_length : forall A idx (l : list A) v, length (set_all l idx v) = length l.
Proof. unfold set_all. induction idx; simpl; intros; auto. rewrite IHidx, set_nth_length. auto. Qed.
Lemma set_all_other : forall A idx (l : list A) j v, ~ In j idx -> nth_error (set_all l idx v) j = nth_error l j.
Proof.
  unfold set_all. induction idx; simpl; intros; auto. rewrite IHidx by tauto. apply set_nth_other. tauto.
Qed.
Lemma set_all_same : forall A idx (l : list A) j v, In j idx -> (j < length l)%nat ->
  nth_error (set_all l idx v) j = Some v.
Proof.
  unfold set_all. induction idx; simpl; intros; [tauto|].
  destruct (in_dec Nat.eq_dec j idx).
  - apply IHidx; auto. rewrite set_nth_length; auto.
  - destruct H; [|tauto]. subst a.
    change (nth_error (set_all (set_nth l j v) idx v) j = Some v).
    rewrite set_all_other by auto. apply set_nth_same; auto.
Qed.

Lemma mapM_ok : forall A B (f : A -> res B) l, (forall a, In a l -> exists b, f a = Ok b) ->
  exists bs, mapM f l = Ok bs /\ Forall2 (fun a b => f a = Ok b) l bs.
Proof.
  induction l; intros H; simpl.
  - exists []. auto.
  - destruct (H a (or_introl eq_refl)) as [b Hb]. rewrite Hb. simpl.
    destruct IHl as (bs & E & F); [intros; apply H; right; auto|]. rewrite E. simpl. eexists. split; eauto.
Qed.
Lemma mapM_Forall2 : forall A B (f : A -> res B) l bs, mapM f l = Ok bs -> Forall2 (fun a b => f a = Ok b) l bs.
Proof.
  induction l; simpl; intros bs H.
  - injection H as <-. constructor.
  - destruct (f a) as [b|] eqn:E; [|discriminate]. simpl in H.
    destruct (mapM f l) as [bs'|] eqn:E'; [|discriminate]. simpl in H. injection H as <-. constructor; auto.
Qed.
Lemma Forall2_nth_error : forall A B (P : A -> B -> Prop) l m, Forall2 P l m ->
  forall i a, nth_error l i = Some a -> exists b, nth_error m i = Some b /\ P a b.
Proof.
  induction 1; destruct i; simpl; intros; try discriminate.
  - injection H1 as <-. eauto.
  - eauto.
Qed.
Lemma Forall2_nth_error_r : forall A B (P : A -> B -> Prop) l m, Forall2 P l m ->
  forall i b, nth_error m i = Some b -> exists a, nth_error l i = Some a /\ P a b.
Proof.
  induction 1; destruct i; simpl; intros; try discriminate.
  - injection H1 as <-. eauto.
  - eauto.
Qed.
Lemma Forall2_weaken : forall A B (P Q : A -> B -> Prop) l m, (forall a b, P a b -> Q a b) -> Forall2 P l m -> Forall2 Q l m.
Proof. induction 2; constructor; auto. Qed.
Lemma Forall2_len : forall A B (P : A -> B -> Prop) l m, Forall2 P l m -> length l = length m.
Proof. induction 1; simpl; auto. Qed.

Lemma nth_error_seq : forall n s i, (i < n)%nat -> nth_error (seq s n) i = Some (s + i)%nat.
Proof.
  induction n; intros; [lia|]. destruct i; simpl.
  - f_equal; lia.
  - rewrite IHn by lia. f_equal; lia.
Qed.

Lemma map_nth_seq : forall A (g : list A) d, map (fun i => nth i g d) (seq 0 (length g)) = g.
Proof.
  induction g; simpl; intros; auto. f_equal. rewrite <- seq_shift, map_map. apply IHg.
Qed.

Section Sorting.
  Variable argsort : list R -> list nat.
  Hypothesis Hs : sorting argsort.
  Variable atol : R.
  Hypothesis Ha : 0 <= atol.

  Lemma sort_level_perm : forall key g, Permutation (sort_level argsort key g) g.
  Proof.
    intros. unfold sort_level. destruct (Hs (map key g)) as [P _]. rewrite map_length in P.
    rewrite (Permutation_map (fun i => nth i g O) P). rewrite map_nth_seq. reflexivity.
  Qed.

  Lemma sort_level_sorted : forall key g, StronglySorted (fun i j => key i <= key j) (sort_level argsort key g).
  Proof.
    intros. unfold sort_level. destruct (Hs (map key g)) as [P S].
    assert (V : forall i, In i (argsort (map key g)) -> (i < length g)%nat).
    { intros i Hi. eapply Permutation_in in Hi; [|exact P]. rewrite map_length in Hi. apply in_seq in Hi. lia. }
    revert V S. generalize (argsort (map key g)). induction l; simpl; intros V S; constructor.
    - apply IHl; auto. inversion S; auto.
    - inversion S; subst. rewrite Forall_map. rewrite Forall_map in H2.
      rewrite Forall_forall in *. intros x Hx. specialize (H2 x Hx). cbn beta in H2.
      assert (E : forall y, (y < length g)%nat -> nth y (map key g) 0 = key (nth y g O)).
      { intros. rewrite (nth_indep _ 0 (key O)) by (rewrite map_length; auto). apply map_nth. }
      rewrite !E in H2; auto.
  Qed.

  Lemma far_false : forall a b, far atol a b = false <-> Rabs (a - b) <= atol.
  Proof. intros. unfold far. apply Rltb_false. Qed.
  Lemma far_refl : forall a, far atol a a = false.
  Proof. intros. apply far_false. replace (a - a) with 0 by ring. rewrite Rabs_R0. auto. Qed.

  Lemma cut_perm : forall key l vref g gs, cut atol key vref l = (g, gs) -> g ++ concat gs = l.
  Proof.
    induction l; simpl; intros vref g gs H.
    - injection H as <- <-. reflexivity.
    - destruct (far atol (key a) vref).
      + destruct (cut atol key (key a) l) as [g1 gs1] eqn:E. injection H as <- <-. simpl. f_equal. eauto.
      + destruct (cut atol key vref l) as [g1 gs1] eqn:E. injection H as <- <-. simpl. f_equal. eauto.
  Qed.

  Lemma cut_nonempty : forall key l vref g gs, cut atol key vref l = (g, gs) -> Forall (fun h => h <> []) gs.
  Proof.
    induction l; simpl; intros vref g gs H.
    - injection H as <- <-. constructor.
    - destruct (far atol (key a) vref).
      + destruct (cut atol key (key a) l) as [g1 gs1] eqn:E. injection H as <- <-. constructor; [discriminate|eauto].
      + destruct (cut atol key vref l) as [g1 gs1] eqn:E. injection H as <- <-. eauto.
  Qed.

  (** Every level lies in an interval of width atol. *)
  Lemma cut_interval : forall key l vref g gs, cut atol key vref l = (g, gs) ->
    StronglySorted (fun i j => key i <= key j) l -> Forall (fun i => vref <= key i) l ->
    Forall (fun i => vref <= key i <= vref + atol) g /\
    Forall (fun h => exists r, Forall (fun i => r <= key i <= r + atol) h) gs.
  Proof.
    induction l; simpl; intros vref g gs H S F.
    - injection H as <- <-. split; constructor.
    - inversion S as [|? ? S1 S2]; subst. inversion F as [|? ? F1 F2]; subst.
      destruct (far atol (key a) vref) eqn:D.
      + destruct (cut atol key (key a) l) as [g1 gs1] eqn:E. injection H as <- <-.
        destruct (IHl _ _ _ E S1 S2) as [G GS]. split; [constructor|].
        constructor; [|exact GS]. exists (key a). constructor; [lra|exact G].
      + destruct (cut atol key vref l) as [g1 gs1] eqn:E. injection H as <- <-.
        destruct (IHl _ _ _ E S1 F2) as [G GS]. split; [|exact GS].
        constructor; [|exact G]. apply far_false in D. unfold Rabs in D. destruct (Rcase_abs (key a - vref)); lra.
  Qed.

  (** Values near the reference are not separated from it. *)
  Lemma cut_near_head : forall key l vref g gs j, cut atol key vref l = (g, gs) ->
    StronglySorted (fun i j => key i <= key j) l -> Forall (fun i => vref <= key i) l ->
    In j l -> far atol (key j) vref = false -> In j g.
  Proof.
    induction l; simpl; intros vref g gs j H S F J D; [tauto|].
    inversion S as [|? ? S1 S2]; subst. inversion F as [|? ? F1 F2]; subst.
    assert (E : far atol (key a) vref = false).
    { destruct J as [->|J]; auto. rewrite Forall_forall in S2, F2. specialize (S2 _ J). specialize (F2 _ J).
      apply far_false in D. apply far_false. rewrite Rabs_right in * by lra. lra. }
    rewrite E in H. destruct (cut atol key vref l) as [g1 gs1] eqn:C. injection H as <- <-.
    destruct J as [->|J]; [left; auto|right]. eapply IHl; eauto.
  Qed.

  Definition together (i j : nat) (gs : list (list nat)) := exists g, In g gs /\ In i g /\ In j g.

  (** Relations between the rows that the scan cannot separate: equality of values, and nearness when it is
      transitive. *)
  Variable nv : nat.
  Variable E : (nat -> R) -> nat -> nat -> Prop.
  Definition good (key : nat -> R) : Prop :=
    (forall i j, E key i j -> E key j i) /\
    (forall i j v, (v < nv)%nat -> E key i j -> far atol (key i) (key v) = false -> far atol (key j) (key v) = false).

  Lemma cut_together : forall key l v g gs i j, good key -> cut atol key (key v) l = (g, gs) ->
    StronglySorted (fun i j => key i <= key j) l -> Forall (fun i => key v <= key i) l ->
    (v < nv)%nat -> Forall (fun i => (i < nv)%nat) l ->
    In i l -> In j l -> E key i j -> together i j (g :: gs).
  Proof.
    intros key l v g gs i j [Sy Se]. revert v g gs i j.
    induction l; simpl; intros v g gs i j H S B V LV I J K; [tauto|].
    inversion S as [|? ? S1 S2]; subst. inversion LV as [|? ? V1 V2]; subst. inversion B as [|? ? B1 B2]; subst.
    destruct (far atol (key a) (key v)) eqn:D.
    - destruct (cut atol key (key a) l) as [g1 gs1] eqn:C. injection H as <- <-.
      assert (Hd : forall m, In m l -> E key a m -> In m g1).
      { intros m M1 M2. eapply cut_near_head; [exact C|exact S1|exact S2|exact M1|].
        eapply Se; eauto. apply far_refl. }
      destruct I as [<-|I], J as [<-|J].
      + exists (a :: g1). split; [right; left; auto|]. split; left; auto.
      + exists (a :: g1). split; [right; left; auto|]. split; [left; auto|right; auto].
      + exists (a :: g1). split; [right; left; auto|]. split; [right; auto|left; auto].
      + destruct (IHl _ _ _ i j C S1 S2 V1 V2 I J K) as (h & Hh & X & Y). destruct Hh as [<-|Hh].
        * exists (a :: g1). split; [right; left; auto|]. split; right; auto.
        * exists h. split; [right; right; auto|auto].
    - destruct (cut atol key (key v) l) as [g1 gs1] eqn:C. injection H as <- <-.
      assert (Hd : forall m, In m l -> E key a m -> In m g1).
      { intros m M1 M2. eapply cut_near_head; [exact C|exact S1|exact B2|exact M1|].
        eapply Se; eauto. }
      destruct I as [<-|I], J as [<-|J].
      + exists (a :: g1). split; [left; auto|]. split; left; auto.
      + exists (a :: g1). split; [left; auto|]. split; [left; auto|right; auto].
      + exists (a :: g1). split; [left; auto|]. split; [right; auto|left; auto].
      + destruct (IHl _ _ _ i j C S1 B2 V V2 I J K) as (h & Hh & X & Y). destruct Hh as [<-|Hh].
        * exists (a :: g1). split; [left; auto|]. split; right; auto.
        * exists h. split; [right; auto|auto].
  Qed.

  (** One level *)
  Definition close (key : nat -> R) (g : list nat) := forall i j, In i g -> In j g -> Rabs (key i - key j) <= atol.

  Lemma refine_level_spec : forall key g, g <> [] -> Forall (fun i => (i < nv)%nat) g ->
    Permutation (concat (refine_level argsort atol key g)) g /\
    Forall (fun h => h <> []) (refine_level argsort atol key g) /\
    Forall (close key) (refine_level argsort atol key g) /\
    (good key -> forall i j, In i g -> In j g -> E key i j -> together i j (refine_level argsort atol key g)).
  Proof.
    intros key g Hg HV. unfold refine_level. destruct (Nat.leb_spec (length g) 1) as [L|L].
    - destruct g as [|a [|b t]]; simpl in L; [congruence| |lia]. simpl. split; [auto|]. split.
      + constructor; [discriminate|constructor].
      + split.
        * constructor; [|constructor]. intros i j [<-|[]] [<-|[]]. unfold Rminus. rewrite Rplus_opp_r, Rabs_R0. auto.
        * intros _ i j I J _. exists [a]. simpl. auto.
    - pose proof (sort_level_perm key g) as P. pose proof (sort_level_sorted key g) as S.
      destruct (sort_level argsort key g) as [|i0 s] eqn:ES.
      { apply Permutation_nil in P. subst. simpl in L. lia. }
      destruct (cut atol key (key i0) (i0 :: s)) as [g0 gs] eqn:C.
      assert (F : Forall (fun i => key i0 <= key i) (i0 :: s)).
      { inversion S; subst. constructor; [lra|auto]. }
      split; [simpl; rewrite (cut_perm _ _ _ _ _ C); exact P|].
      assert (N0 : g0 <> []).
      { pose proof C as C'. simpl in C'. rewrite far_refl in C'.
        destruct (cut atol key (key i0) s) as [a b]. injection C' as <- <-. discriminate. }
      split; [constructor; [auto|eapply cut_nonempty; eauto]|].
      destruct (cut_interval _ _ _ _ _ C S F) as [I IS].
      split.
      + assert (G : forall h r, Forall (fun i => r <= key i <= r + atol) h -> close key h).
        { intros h r Fh i j Hi Hj. rewrite Forall_forall in Fh. pose proof (Fh _ Hi). pose proof (Fh _ Hj).
          unfold Rabs. destruct (Rcase_abs (key i - key j)); lra. }
        constructor; [eapply G; exact I|]. eapply Forall_impl; [|exact IS]. intros h [r Hr]. eapply G; exact Hr.
      + intros Gk i j Hi Hj K.
        assert (LV : Forall (fun i => (i < nv)%nat) (i0 :: s)).
        { eapply Permutation_Forall; [apply Permutation_sym; exact P|exact HV]. }
        eapply cut_together; [exact Gk|exact C|exact S|exact F| |exact LV| | |exact K].
        * inversion LV; auto.
        * eapply Permutation_in; [apply Permutation_sym; exact P|exact Hi].
        * eapply Permutation_in; [apply Permutation_sym; exact P|exact Hj].
  Qed.

  (** Invariant of the refinement. *)
  Record inv (done : list (nat -> R)) (levels : list (list nat)) : Prop := {
    inv_perm : Permutation (concat levels) (seq 0 nv);
    inv_ne : Forall (fun h => h <> []) levels;
    inv_close : forall key, In key done -> Forall (close key) levels;
    inv_equal : forall i j, (i < nv)%nat -> (j < nv)%nat -> Forall good done ->
                (forall key, In key done -> E key i j) -> together i j levels
  }.

  Lemma flat_map_spec : forall done levels key, inv done levels ->
    inv (key :: done) (flat_map (refine_level argsort atol key) levels).
  Proof.
    intros done levels key [P N C Q].
    assert (V : forall g, In g levels -> Forall (fun i => (i < nv)%nat) g).
    { intros g Hg. apply Forall_forall. intros i Hi. assert (In i (seq 0 nv)); [|apply in_seq in H; lia].
      eapply Permutation_in; [exact P|]. apply in_concat. eauto. }
    rewrite Forall_forall in N.
    assert (R1 : Permutation (concat (flat_map (refine_level argsort atol key) levels)) (concat levels)).
    { clear P C Q. induction levels; simpl; auto. rewrite concat_app.
      apply Permutation_app.
      - apply refine_level_spec; [apply N|apply V]; left; auto.
      - apply IHlevels; intros; [apply N|apply V]; right; auto. }
    constructor.
    - etransitivity; eauto.
    - apply Forall_forall. intros h Hh. apply in_flat_map in Hh as (g & Hg & Hh).
      destruct (refine_level_spec key g (N g Hg) (V g Hg)) as (_ & X & _). rewrite Forall_forall in X. auto.
    - intros k [<-|Hk].
      + apply Forall_forall. intros h Hh. apply in_flat_map in Hh as (g & Hg & Hh).
        destruct (refine_level_spec key g (N g Hg) (V g Hg)) as (_ & _ & X & _). rewrite Forall_forall in X. auto.
      + apply Forall_forall. intros h Hh. apply in_flat_map in Hh as (g & Hg & Hh).
        specialize (C k Hk). rewrite Forall_forall in C. specialize (C g Hg).
        destruct (refine_level_spec key g (N g Hg) (V g Hg)) as (Pg & _).
        assert (Sub : forall i, In i h -> In i g).
        { intros i Hi. eapply Permutation_in; [exact Pg|]. apply in_concat. eauto. }
        intros i j Hi Hj. apply C; auto.
    - intros i j Hi Hj Gd Hk. inversion Gd; subst.
      destruct (Q i j Hi Hj) as (g & Hg & Ig & Jg); [auto|intros; apply Hk; right; auto|].
      destruct (refine_level_spec key g (N g Hg) (V g Hg)) as (_ & _ & _ & X).
      destruct (X H1 i j Ig Jg) as (h & Hh & Ih & Jh); [apply Hk; left; auto|].
      exists h. split; auto. apply in_flat_map. eauto.
  Qed.

  Lemma inv_start : (0 < nv)%nat -> inv [] [seq 0 nv].
  Proof.
    intros H. constructor.
    - simpl. rewrite app_nil_r. auto.
    - constructor; [|constructor]. destruct nv; [lia|discriminate].
    - intros ? [].
    - intros i j Hi Hj _ _. exists (seq 0 nv). simpl. split; [auto|]. split; apply in_seq; lia.
  Qed.

  (** Number of levels. *)
  Lemma levels_le : forall levels : list (list nat), Forall (fun h => h <> []) levels ->
    (length levels <= length (concat levels))%nat.
  Proof.
    induction 1; simpl; [lia|]. rewrite app_length. destruct x; [congruence|]. simpl. lia.
  Qed.
  Lemma levels_full : forall levels : list (list nat), Forall (fun h => h <> []) levels ->
    length levels = length (concat levels) -> Forall (fun h => length h = 1%nat) levels.
  Proof.
    induction 1; simpl; intros L; constructor.
    - rewrite app_length in L. pose proof (levels_le l H0). destruct x; [congruence|]. simpl in *. lia.
    - rewrite app_length in L. pose proof (levels_le l H0). destruct x; [congruence|]. simpl in *.
      apply IHForall. lia.
  Qed.

  Lemma refine_spec : forall keys done levels, inv done levels ->
    match refine argsort atol keys nv levels with
    | Some l => inv (rev keys ++ done) l
    | None => forall i j, (i < nv)%nat -> (j < nv)%nat -> Forall good (keys ++ done) ->
                (forall key, In key (keys ++ done) -> E key i j) -> i = j
    end.
  Proof.
    intros keys. induction keys as [|k ks IH]; intros done levels H; simpl; auto.
    pose proof (flat_map_spec _ _ k H) as H'.
    destruct (Nat.eqb_spec (length (flat_map (refine_level argsort atol k) levels)) nv) as [L|L].
    - intros i j Hi Hj Gd K. destruct H' as [P N C Q].
      inversion Gd as [|? ? G1 G2]; subst. apply Forall_app in G2 as [G2 G3].
      destruct (Q i j Hi Hj) as (g & Hg & Ig & Jg).
      { constructor; auto. }
      { intros key [<-|Hk]; apply K; [left; auto|]. right. apply in_or_app. auto. }
      pose proof (Permutation_length P) as PL. rewrite seq_length in PL.
      pose proof (levels_full _ N) as F. rewrite L, PL in F. specialize (F eq_refl).
      rewrite Forall_forall in F. specialize (F _ Hg). destruct g as [|x [|y t]]; try discriminate.
      destruct Ig as [<-|[]], Jg as [<-|[]]. reflexivity.
    - specialize (IH (k :: done) _ H').
      destruct (refine argsort atol ks nv (flat_map (refine_level argsort atol k) levels)) as [l|].
      * rewrite <- app_assoc. exact IH.
      * intros i j Hi Hj Gd K. apply IH; auto.
        { inversion Gd as [|? ? G1 G2]; subst. apply Forall_app in G2 as [G2 G3].
          apply Forall_app. split; auto. }
        intros key Hk. apply K.
        apply in_app_or in Hk as [Hk|[<-|Hk]]; [right; apply in_or_app; auto|left; auto|right; apply in_or_app; auto].
  Qed.
End Sorting.

Section Merging.
  Variable argsort : list R -> list nat.
  Hypothesis Hs : sorting argsort.
  Variable atol : R.
  Hypothesis Ha : 0 <= atol.

  Lemma refine_full : forall nv keys levels l, refine argsort atol keys nv levels = Some l ->
    length l = nv -> keys = [] /\ l = levels.
  Proof.
    intros nv. induction keys as [|k ks IH]; simpl; intros levels l H L.
    - injection H as <-. auto.
    - destruct (Nat.eqb_spec (length (flat_map (refine_level argsort atol k) levels)) nv) as [E|E]; [discriminate|].
      destruct (IH _ _ H L) as [_ ->]. congruence.
  Qed.

  Lemma number_length : forall levels n ids, length (number n levels ids) = length ids.
  Proof. induction levels; simpl; intros; auto. rewrite IHlevels, set_all_length. auto. Qed.
  Lemma number_other : forall levels n ids i, ~ In i (concat levels) ->
    nth_error (number n levels ids) i = nth_error ids i.
  Proof.
    induction levels; simpl; intros; auto. rewrite in_app_iff in H.
    rewrite IHlevels by tauto. apply set_all_other. tauto.
  Qed.
  Lemma NoDup_app_l : forall (a b : list nat), NoDup (a ++ b) -> NoDup b /\ forall x, In x a -> ~ In x b.
  Proof.
    induction a; simpl; intros b H; [auto|]. inversion H; subst. destruct (IHa _ H3) as [X Y]. split; auto.
    intros x [<-|Hx]; auto. rewrite in_app_iff in H2. tauto.
  Qed.
  Lemma number_spec : forall levels n ids k g i, NoDup (concat levels) ->
    nth_error levels k = Some g -> In i g -> (i < length ids)%nat ->
    nth_error (number n levels ids) i = Some (n + k)%nat.
  Proof.
    induction levels as [|h hs IH]; intros n ids k g i D K I L; [destruct k; discriminate|].
    simpl in D. destruct (NoDup_app_l _ _ D) as [D1 D2]. destruct k; simpl in K |- *.
    - injection K as ->. rewrite number_other by auto. rewrite set_all_same by auto. f_equal; lia.
    - rewrite (IH (S n) _ k g i); auto; [f_equal; lia|]. rewrite set_all_length. auto.
  Qed.

  (** The relation used for exact duplicates. *)
  Definition same_key (key : nat -> R) (i j : nat) := key i = key j.
  Lemma same_key_good : forall nv key, good atol nv same_key key.
  Proof. unfold good, same_key. split; intros; congruence. Qed.
  (** The relation used for near rows. *)
  Definition near_key nv (key : nat -> R) (i j : nat) :=
    (i < nv)%nat /\ (j < nv)%nat /\ Rabs (key i - key j) <= atol.

  Section Rows.
    Variable A : Type.
    Variable cols : list (A -> R).
    Variable arr : list A.
    Hypothesis Hne : arr <> [].
    Let nv := length arr.
    Let keys := map (column arr) cols.

    Lemma nv_pos : (0 < nv)%nat.
    Proof. unfold nv. destruct arr; [congruence|simpl; lia]. Qed.

    Lemma column_at : forall c i r, nth_error arr i = Some r -> column arr c i = c r.
    Proof. intros. unfold column. rewrite H. auto. Qed.

    (** The two outcomes of merging. *)
    Lemma merge_cases_gen : forall E,
      (merge_duplicate_rows argsort atol cols arr = Ok (arr, seq 0 nv) /\
       (forall i j, (i < nv)%nat -> (j < nv)%nat -> Forall (good atol nv E) keys ->
          (forall key, In key keys -> E key i j) -> i = j))
      \/
      (exists levels uniq, inv atol nv E (rev keys) levels /\
       Forall2 (fun g s => exists i, nth_error g 0 = Some i /\ nth_error arr i = Some s) levels uniq /\
       merge_duplicate_rows argsort atol cols arr = Ok (uniq, number 0 levels (seq 0 nv)) /\
       (length levels = nv -> levels = [seq 0 nv])).
    Proof.
      intros E. unfold merge_duplicate_rows. fold nv. fold keys.
      pose proof (refine_spec argsort Hs atol Ha nv E keys [] [seq 0 nv] (inv_start atol nv E nv_pos)) as H.
      pose proof (refine_full nv keys [seq 0 nv]) as FU.
      destruct (refine argsort atol keys nv [seq 0 nv]) as [levels|].
      - right. rewrite app_nil_r in H.
        destruct (mapM_ok _ _ (fun g => do i <- get g 0; get arr i) levels) as (uniq & M & F).
        { intros g Hg. destruct H as [P N _ _]. rewrite Forall_forall in N. specialize (N g Hg).
          destruct g as [|i t]; [congruence|]. simpl.
          assert (I : (i < nv)%nat).
          { assert (In i (seq 0 nv)); [|apply in_seq in H; lia].
            eapply Permutation_in; [exact P|]. apply in_concat. exists (i :: t). split; auto. left; auto. }
          unfold get. apply nth_error_Some in I. destruct (nth_error arr i); [eauto|congruence]. }
        rewrite M. simpl. exists levels, uniq. split; [auto|]. split; [|split; [auto|]].
        + eapply Forall2_weaken; [|exact F]. cbn beta. intros g s Hg. destruct g as [|i t]; [discriminate|].
          simpl in Hg. exists i. split; [auto|]. unfold get in Hg. destruct (nth_error arr i); congruence.
        + intros L. destruct (FU levels eq_refl L) as [_ ?]. auto.
      - left. split; auto. rewrite app_nil_r in H. auto.
    Qed.

    Lemma merge_cases :
      (merge_duplicate_rows argsort atol cols arr = Ok (arr, seq 0 nv))
      \/
      (exists levels uniq, inv atol nv same_key (rev keys) levels /\
       Forall2 (fun g s => exists i, nth_error g 0 = Some i /\ nth_error arr i = Some s) levels uniq /\
       merge_duplicate_rows argsort atol cols arr = Ok (uniq, number 0 levels (seq 0 nv)) /\
       (length levels = nv -> levels = [seq 0 nv])).
    Proof. destruct (merge_cases_gen same_key) as [[? _]|]; auto. Qed.

    (** Related rows get the same id. *)
    Lemma merge_related : forall E uniq ids i j, Forall (good atol nv E) keys ->
      merge_duplicate_rows argsort atol cols arr = Ok (uniq, ids) ->
      (i < nv)%nat -> (j < nv)%nat -> (forall key, In key keys -> E key i j) ->
      nth_error ids i = nth_error ids j.
    Proof.
      intros E uniq ids i j Gd M Hi Hj K.
      destruct (merge_cases_gen E) as [[M' D]|(levels & uniq' & I & F & M' & _)]; rewrite M' in M; injection M as <- <-.
      - rewrite (D i j); auto.
      - destruct I as [P N C Q].
        destruct (Q i j Hi Hj) as (g & Hg & Ig & Jg).
        + rewrite Forall_forall in *. intros key Hk. apply Gd. apply in_rev. auto.
        + intros key Hk. apply K. apply in_rev. auto.
        + apply In_nth_error in Hg as [k Hk].
          assert (D : NoDup (concat levels)) by (eapply Permutation_NoDup; [apply Permutation_sym; exact P|apply seq_NoDup]).
          rewrite (number_spec levels 0 (seq 0 nv) k g i), (number_spec levels 0 (seq 0 nv) k g j); auto;
            rewrite seq_length; auto.
    Qed.

    Lemma within_refl : forall r, within cols atol r r.
    Proof. intros r c Hc. replace (c r - c r) with 0 by ring. rewrite Rabs_R0. auto. Qed.

    Lemma inv_level : forall levels i, inv atol nv same_key (rev keys) levels -> (i < nv)%nat ->
      exists k g, nth_error levels k = Some g /\ In i g /\
                  nth_error (number 0 levels (seq 0 nv)) i = Some k.
    Proof.
      intros levels i H Hi. destruct H as [P N C E].
      assert (I : In i (concat levels)).
      { eapply Permutation_in; [apply Permutation_sym; exact P|]. apply in_seq. lia. }
      apply in_concat in I as (g & Hg & I). apply In_nth_error in Hg as [k Hk].
      exists k, g. split; [auto|]. split; [auto|].
      rewrite (number_spec levels 0 (seq 0 nv) k g i); auto.
      - eapply Permutation_NoDup; [apply Permutation_sym; exact P|apply seq_NoDup].
      - rewrite seq_length. auto.
    Qed.

    Lemma inv_within : forall levels g i j r s, inv atol nv same_key (rev keys) levels -> In g levels -> In i g -> In j g ->
      nth_error arr i = Some r -> nth_error arr j = Some s -> within cols atol r s.
    Proof.
      intros levels g i j r s [P N C E] Hg Hi Hj R S c Hc.
      assert (K : In (column arr c) (rev keys)) by (apply -> in_rev; unfold keys; apply in_map; auto).
      specialize (C _ K). rewrite Forall_forall in C. specialize (C _ Hg i j Hi Hj).
      rewrite (column_at c i r R), (column_at c j s S) in C. auto.
    Qed.

    Lemma merge_merged : exists uniq ids,
      merge_duplicate_rows argsort atol cols arr = Ok (uniq, ids) /\ merged cols atol arr uniq ids.
    Proof.
      destruct merge_cases as [E|(levels & uniq & I & F & E & _)].
      - exists arr, (seq 0 nv). split; [auto|]. constructor.
        + apply seq_length.
        + auto.
        + intros i r Hi. exists i, r. split; [|split; [auto|apply within_refl]].
          rewrite nth_error_seq; auto. apply nth_error_Some. unfold nv in *. congruence.
        + intros k s Hk. exists k. split; [auto|]. rewrite nth_error_seq; auto.
          apply nth_error_Some. unfold nv in *. congruence.
        + intros i j r s k Hi Hj Ki Kj.
          assert (i < nv)%nat by (apply nth_error_Some; congruence).
          assert (j < nv)%nat by (apply nth_error_Some; congruence).
          rewrite nth_error_seq in Ki, Kj by auto. simpl in *.
          assert (r = s) by congruence. subst. apply within_refl.
      - exists uniq, (number 0 levels (seq 0 nv)). split; [auto|].
        assert (LV : forall i r, nth_error arr i = Some r -> exists k g, nth_error levels k = Some g /\ In i g /\
                  nth_error (number 0 levels (seq 0 nv)) i = Some k).
        { intros i r Hi. apply inv_level; auto. apply nth_error_Some. congruence. }
        constructor.
        + rewrite number_length. apply seq_length.
        + rewrite <- (Forall2_len _ _ _ _ _ F). destruct I as [P N _ _].
          etransitivity; [apply (levels_le _ N)|]. rewrite (Permutation_length P), seq_length. auto.
        + intros i r Hi. destruct (LV i r Hi) as (k & g & Kg & Ig & Ek).
          destruct (Forall2_nth_error _ _ _ _ _ F k g Kg) as (s & Ks & (i0 & G0 & S0)).
          exists k, s. split; [auto|]. split; [auto|].
          eapply (inv_within levels g i i0); eauto using nth_error_In.
        + intros k s Hk. destruct (Forall2_nth_error_r _ _ _ _ _ F k s Hk) as (g & Kg & (i0 & G0 & S0)).
          exists i0. split; [auto|]. destruct I as [P N _ _].
          rewrite (number_spec levels 0 (seq 0 nv) k g i0); auto.
          * eapply Permutation_NoDup; [apply Permutation_sym; exact P|apply seq_NoDup].
          * eapply nth_error_In; eauto.
          * rewrite seq_length. apply nth_error_Some. congruence.
        + intros i j r s k Hi Hj Ki Kj.
          destruct (LV i r Hi) as (k1 & g1 & Kg1 & Ig1 & Ek1).
          destruct (LV j s Hj) as (k2 & g2 & Kg2 & Ig2 & Ek2).
          assert (k1 = k) by congruence. assert (k2 = k) by congruence. subst.
          assert (g1 = g2) by congruence. subst.
          eapply (inv_within levels g2 i j); eauto using nth_error_In.
    Qed.

    Lemma merge_same : forall uniq ids i j r s,
      merge_duplicate_rows argsort atol cols arr = Ok (uniq, ids) ->
      nth_error arr i = Some r -> nth_error arr j = Some s -> same_row cols r s ->
      nth_error ids i = nth_error ids j.
    Proof.
      intros uniq ids i j r s M Hi Hj S.
      apply (merge_related same_key uniq ids i j); auto.
      - apply Forall_forall. intros. apply same_key_good.
      - apply nth_error_Some. congruence.
      - apply nth_error_Some. congruence.
      - intros key Hk. apply in_map_iff in Hk as (c & <- & Hc). unfold same_key.
        rewrite (column_at c i r Hi), (column_at c j s Hj). auto.
    Qed.

    (** When nearness is transitive on each column, rows are merged exactly when they are near. *)
    Lemma merge_separated : forall uniq ids i j r s,
      (forall c a b d, In c cols -> In a arr -> In b arr -> In d arr ->
         Rabs (c a - c b) <= atol -> Rabs (c b - c d) <= atol -> Rabs (c a - c d) <= atol) ->
      merge_duplicate_rows argsort atol cols arr = Ok (uniq, ids) ->
      nth_error arr i = Some r -> nth_error arr j = Some s -> within cols atol r s ->
      nth_error ids i = nth_error ids j.
    Proof.
      intros uniq ids i j r s T M Hi Hj W.
      apply (merge_related (near_key nv) uniq ids i j); auto.
      - apply Forall_forall. intros key Hk. apply in_map_iff in Hk as (c & <- & Hc).
        split; unfold near_key.
        + intros x y (X & Y & Z). rewrite Rabs_minus_sym. auto.
        + intros x y v V (X & Y & Z) F. apply far_false in F; auto. apply far_false; auto.
          apply nth_error_Some in X. apply nth_error_Some in Y. apply nth_error_Some in V.
          destruct (nth_error arr x) as [a|] eqn:Ea; [|congruence].
          destruct (nth_error arr y) as [b|] eqn:Eb; [|congruence].
          destruct (nth_error arr v) as [d|] eqn:Ed; [|congruence].
          rewrite (column_at c x a Ea) in *. rewrite (column_at c y b Eb) in *. rewrite (column_at c v d Ed) in *.
          apply (T c b a d); eauto using nth_error_In. rewrite Rabs_minus_sym. auto.
      - apply nth_error_Some. congruence.
      - apply nth_error_Some. congruence.
      - intros key Hk. apply in_map_iff in Hk as (c & <- & Hc). unfold near_key.
        rewrite (column_at c i r Hi), (column_at c j s Hj).
        split; [apply nth_error_Some; congruence|]. split; [apply nth_error_Some; congruence|auto].
    Qed.

    Lemma merge_distinct : forall uniq ids k l s t,
      merge_duplicate_rows argsort atol cols arr = Ok (uniq, ids) ->
      nth_error uniq k = Some s -> nth_error uniq l = Some t -> same_row cols s t -> k = l.
    Proof.
      intros uniq ids k l s t M Hk Hl S.
      destruct merge_merged as (u & d & M' & MM). rewrite M in M'. injection M' as <- <-.
      destruct (merged_origin _ _ _ _ _ MM _ _ Hk) as (i & Ai & Ii).
      destruct (merged_origin _ _ _ _ _ MM _ _ Hl) as (j & Aj & Ij).
      pose proof (merge_same _ _ i j s t M Ai Aj S). congruence.
    Qed.

    Lemma merge_unchanged : forall uniq ids,
      merge_duplicate_rows argsort atol cols arr = Ok (uniq, ids) -> length uniq = nv ->
      uniq = arr /\ ids = seq 0 nv.
    Proof.
      intros uniq ids M L.
      destruct merge_cases as [E|(levels & uniq' & I & F & E & U)]; rewrite E in M; injection M as <- <-; auto.
      pose proof (Forall2_len _ _ _ _ _ F) as FL. specialize (U (eq_trans FL L)). subst levels.
      simpl in FL. rewrite L in FL. destruct nv as [|[|]] eqn:V; try discriminate.
      inversion F as [|? ? ? ? (i & G & Ai) F']; subst. inversion F'; subst.
      simpl in G. injection G as <-. clear E. unfold nv in V. destruct arr as [|a [|]]; try discriminate.
      simpl in Ai. injection Ai as ->. simpl. auto.
    Qed.
  End Rows.
End Merging.

(** Tolerance zero. *)
Lemma within_zero : forall A (cols : list (A -> R)) r s, within cols 0 r s -> same_row cols r s.
Proof.
  intros A cols r s W c Hc. specialize (W c Hc). pose proof (Rabs_pos (c r - c s)).
  assert (c r - c s = 0); [|lra]. destruct (Req_dec (c r - c s) 0); auto.
  pose proof (Rabs_pos_lt _ H0). lra.
Qed.

Lemma merge_zero_iff : forall argsort A (cols : list (A -> R)) arr uniq ids i j r s, sorting argsort ->
  merge_duplicate_rows argsort 0 cols arr = Ok (uniq, ids) ->
  nth_error arr i = Some r -> nth_error arr j = Some s ->
  (nth_error ids i = nth_error ids j <-> same_row cols r s).
Proof.
  intros argsort A cols arr uniq ids i j r s Hs M Hi Hj.
  assert (Hne : arr <> []) by (intros ->; destruct i; discriminate).
  split.
  - intros E. destruct (merge_merged argsort Hs 0 (Rle_refl 0) A cols arr Hne) as (u & d & M' & MM).
    rewrite M in M'. injection M' as <- <-.
    destruct (merged_close _ _ _ _ _ MM i r Hi) as (k & ? & K & _).
    apply within_zero. eapply (merged_pairs _ _ _ _ _ MM i j); eauto. congruence.
  - intros S. eapply merge_same; eauto. lra.
Qed.

(** Rows that are all different come back unchanged (tolerance zero). *)
Lemma merge_nodup : forall argsort A (cols : list (A -> R)) arr, sorting argsort -> arr <> [] ->
  (forall i j r s, nth_error arr i = Some r -> nth_error arr j = Some s -> same_row cols r s -> i = j) ->
  merge_duplicate_rows argsort 0 cols arr = Ok (arr, seq 0 (length arr)).
Proof.
  intros argsort A cols arr Hs Hne D.
  destruct (merge_merged argsort Hs 0 (Rle_refl 0) A cols arr Hne) as (u & d & M & MM).
  destruct (merge_unchanged argsort Hs 0 (Rle_refl 0) A cols arr Hne u d M) as [-> ->]; auto.
  apply Nat.le_antisymm; [apply MM|].
  (* distinct ids: arr injects into uniq *)
  assert (ND : NoDup d).
  { apply NoDup_nth_error. intros i j Hi E. rewrite (merged_ids _ _ _ _ _ MM) in Hi.
    assert (Hj : (j < length arr)%nat).
    { rewrite <- (merged_ids _ _ _ _ _ MM). apply nth_error_Some. rewrite <- E. apply nth_error_Some.
      rewrite (merged_ids _ _ _ _ _ MM). auto. }
    apply nth_error_Some in Hi. apply nth_error_Some in Hj.
    destruct (nth_error arr i) as [r|] eqn:Ei; [|congruence].
    destruct (nth_error arr j) as [s|] eqn:Ej; [|congruence].
    eapply D; eauto. eapply merge_zero_iff; eauto. }
  rewrite <- (merged_ids _ _ _ _ _ MM). rewrite <- (seq_length (length u) 0).
  apply NoDup_incl_length; auto. intros k Hk. apply In_nth_error in Hk as [i Hi].
  assert (Hl : (i < length arr)%nat).
  { rewrite <- (merged_ids _ _ _ _ _ MM). apply nth_error_Some. congruence. }
  apply nth_error_Some in Hl. destruct (nth_error arr i) as [r|] eqn:Ei; [|congruence].
  destruct (merged_close _ _ _ _ _ MM i r Ei) as (k' & s & K & U & _).
  assert (k' = k) by congruence. subst. apply in_seq. split; [lia|]. simpl. apply nth_error_Some. congruence.
Qed.

Lemma merge_empty : forall argsort atol A (cols : list (A -> R)), 
  merge_duplicate_rows argsort atol cols [] = Raise IndexError.
Proof.
  intros. unfold merge_duplicate_rows. cbn [length seq].
  assert (E : forall keys, refine argsort atol keys 0 [[]] = Some [[]]).
  { induction keys; simpl; auto. }
  rewrite E. reflexivity.
Qed.

(** Idempotence at tolerance zero. *)
Lemma merge_zero_idempotent : forall argsort A (cols : list (A -> R)) arr uniq ids, sorting argsort -> arr <> [] ->
  merge_duplicate_rows argsort 0 cols arr = Ok (uniq, ids) ->
  merge_duplicate_rows argsort 0 cols uniq = Ok (uniq, seq 0 (length uniq)).
Proof.
  intros argsort A cols arr uniq ids Hs Hne M. apply merge_nodup; auto.
  - intros ->. destruct (merge_merged argsort Hs 0 (Rle_refl 0) A cols arr Hne) as (u & d & M' & MM).
    rewrite M in M'. injection M' as <- <-. destruct arr as [|a t]; [congruence|].
    destruct (merged_close _ _ _ _ _ MM 0 a eq_refl) as (k & s & _ & U & _). destruct k; discriminate.
  - intros. eapply (merge_distinct argsort Hs 0 (Rle_refl 0)); eauto.
Qed.

(** ** The insertion sort is a sorting function. *)
Lemma insert_by_perm : forall key i l, Permutation (insert_by key i l) (i :: l).
Proof.
  induction l; simpl; auto. destruct (Rleb (key i) (key a)); auto.
  rewrite IHl. apply perm_swap.
Qed.
Lemma insert_by_sorted : forall key i l, StronglySorted Rle (map key l) ->
  StronglySorted Rle (map key (insert_by key i l)).
Proof.
  induction l; simpl; intros S.
  - repeat constructor.
  - destruct (Rleb (key i) (key a)) eqn:D.
    + apply Rleb_true in D. simpl. constructor; auto. inversion S; subst. constructor; auto.
      eapply Forall_impl; [|exact H2]. cbn beta; intros; lra.
    + apply Rleb_false in D. inversion S; subst. simpl. constructor; auto.
      eapply Permutation_Forall.
      * apply Permutation_map. apply Permutation_sym. apply insert_by_perm.
      * simpl. constructor; [lra|auto].
Qed.
Lemma insertion_sorting : sorting insertion_argsort.
Proof.
  intros l. unfold insertion_argsort. generalize (seq 0 (length l)). intros n. split.
  - induction n; simpl; auto. rewrite insert_by_perm. auto.
  - induction n; simpl; [constructor|]. apply insert_by_sorted. auto.
Qed.

(** ** Concrete runs: a sort of different values has one outcome. *)
Lemma sorted_unique : forall (key : nat -> R) p a, Permutation a p ->
  StronglySorted Rle (map key a) -> StronglySorted Rlt (map key p) -> a = p.
Proof.
  intros key. induction p as [|x p IH]; intros a P Sa Sp.
  - apply Permutation_sym, Permutation_nil in P. auto.
  - destruct a as [|y a]; [apply Permutation_nil in P; discriminate|].
    simpl in Sa, Sp. inversion Sa as [|? ? Sa1 Sa2]; subst. inversion Sp as [|? ? Sp1 Sp2]; subst.
    assert (y = x).
    { destruct (Nat.eq_dec y x) as [|N]; auto. exfalso.
      assert (Hy : In y p).
      { assert (H : In y (x :: p)) by (eapply Permutation_in; [exact P|left; auto]). destruct H; congruence. }
      assert (Hx : In x a).
      { assert (H : In x (y :: a)) by (eapply Permutation_in; [apply Permutation_sym; exact P|left; auto]).
        destruct H; congruence. }
      rewrite Forall_forall in Sa2, Sp2.
      specialize (Sa2 (key x) (in_map _ _ _ Hx)). specialize (Sp2 (key y) (in_map _ _ _ Hy)). lra. }
    subst. f_equal. apply IH; auto. eapply Permutation_cons_inv; eauto.
Qed.
Lemma sort_level_unique : forall argsort key g s, sorting argsort ->
  Permutation g s -> StronglySorted Rlt (map key s) -> sort_level argsort key g = s.
Proof.
  intros argsort key g s Hs P S. apply (sorted_unique key); auto.
  - etransitivity; [apply sort_level_perm; auto|exact P].
  - pose proof (sort_level_sorted argsort Hs key g) as H.
    induction H; simpl; constructor; auto. rewrite Forall_map. auto.
Qed.

(** Rows of the counterexample to separation. *)
Definition chained : list vec := [V3 0 1 (1/10); V3 (8/10) 0 0; V3 (12/10) 0 0].
Definition xyz : list (vec -> R) := [vx; vy; vz].

Ltac eval_far := unfold far;
  repeat match goal with |- context [Rltb ?a (Rabs ?x)] =>
    first [ rewrite (proj2 (Rltb_false a (Rabs x))) by (apply Rabs_le; lra)
          | rewrite (proj2 (Rltb_true a (Rabs x))) by (unfold Rabs; destruct (Rcase_abs x); lra) ] end.
Ltac level_as key g s H :=
  unfold refine_level at 1;
  rewrite (sort_level_unique _ key g s H);
  [ | first [reflexivity | apply perm_swap] | unfold column, chained; simpl; repeat constructor; lra ];
  cbn [length Nat.leb cut]; unfold column, chained; cbn [nth_error vx vy vz]; eval_far.

Lemma level_single : forall argsort atol key i, refine_level argsort atol key [i] = [[i]].
Proof. reflexivity. Qed.

Lemma chained_merge : forall argsort, sorting argsort ->
  merge_duplicate_rows argsort 1 xyz chained = Ok ([V3 (8/10) 0 0; V3 (12/10) 0 0], [0; 0; 1]%nat).
Proof.
  intros argsort Hs. unfold merge_duplicate_rows, xyz. cbn [map length seq refine flat_map app chained].
  fold chained.
  assert (L1 : refine_level argsort 1 (column chained vx) [0; 1; 2]%nat = [[0; 1]; [2]]%nat).
  { level_as (column chained vx) [0; 1; 2]%nat [0; 1; 2]%nat Hs. reflexivity. }
  assert (L2 : refine_level argsort 1 (column chained vy) [0; 1]%nat = [[1; 0]]%nat).
  { level_as (column chained vy) [0; 1]%nat [1; 0]%nat Hs. reflexivity. }
  assert (L3 : refine_level argsort 1 (column chained vz) [1; 0]%nat = [[1; 0]]%nat).
  { level_as (column chained vz) [1; 0]%nat [1; 0]%nat Hs. reflexivity. }
  rewrite L1. cbn [app length Nat.eqb flat_map]. rewrite L2, level_single. cbn [app length Nat.eqb flat_map].
  rewrite L3, level_single. reflexivity.
Qed.

Lemma chained_again : forall argsort, sorting argsort ->
  exists ids u, merge_duplicate_rows argsort 1 xyz [V3 (8/10) 0 0; V3 (12/10) 0 0] = Ok (u, ids) /\ length u = 1%nat.
Proof.
  intros argsort Hs.
  destruct (merge_merged argsort Hs 1 ltac:(lra) vec xyz [V3 (8/10) 0 0; V3 (12/10) 0 0]) as (u & d & M & MM);
    [discriminate|].
  exists d, u. split; auto.
  assert (EQ : nth_error d 0 = nth_error d 1).
  { eapply (merge_separated argsort Hs 1 ltac:(lra) vec xyz); try exact M; try reflexivity; try discriminate.
    - intros c a b e Hc Hal Hb He. simpl in *.
      decompose [or] Hc; decompose [or] Hal; decompose [or] He; subst; try tauto; intros;
        cbn [vx vy vz]; apply Rabs_le; lra.
    - intros c Hc. simpl in Hc. decompose [or] Hc; subst; try tauto; cbn [vx vy vz]; apply Rabs_le; lra. }
  assert (SUR : forall k s, nth_error u k = Some s -> nth_error d 0 = Some k).
  { intros k s K. destruct (merged_origin _ _ _ _ _ MM k s K) as (i & Hi & Di).
    destruct i as [|[|i]]; [auto|congruence|]. destruct i; discriminate. }
  destruct (merged_close _ _ _ _ _ MM 0 _ eq_refl) as (k & s & K & U & _).
  destruct u as [|a [|b t]]; [destruct k; discriminate|reflexivity|].
  pose proof (SUR 0%nat a eq_refl). pose proof (SUR 1%nat b eq_refl). congruence.
Qed.
