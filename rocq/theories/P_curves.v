(** Proofs about the clipping of a mesh: ordering the boundary edges in lines. *)
From Coq Require Import Reals List Arith Bool Lia Permutation.
From Verif Require Import M_base P_base M_merge P_merge M_mesh S_merge S_mesh P_mesh S_connectivity M_connectivity P_connectivity
  M_plane S_plane S_geometry M_clipper S_clipper P_hull P_cut P_clipper P_crown P_parts P_clipped P_clip_mesh.
Import ListNotations.
Open Scope nat_scope.

Lemma bind_ok : forall X Y (r : res X) (f : X -> res Y) y, bind r f = Ok y -> exists x, r = Ok x /\ f x = Ok y.
Proof. intros X Y [x|e] f y E; simpl in E; [eauto|discriminate]. Qed.

(** ** What the queue takes *)
Lemma queue_spec : forall fuel inv d v q d', NoDup (map fst d) -> length d <= fuel -> queue fuel inv d v = (q, d') ->
  (exists taken, Permutation d (taken ++ d') /\ Permutation (map fst taken) q) /\ NoDup (map fst d') /\
  (forall a b, In (a, b) (pairs (q ++ [v])) -> In (b, a) inv) /\
  ((forall a b x, od_get inv a = Some b -> In (b, x) d -> x = a) -> Permutation d (pairs (q ++ [v]) ++ d')).
Proof.
  induction fuel as [|n IH]; intros inv d v q d' N L E; cbn [queue] in E.
  - injection E as <- <-. split; [exists []; split; [reflexivity|constructor]|]. split; auto. split; [cbn; tauto|]. cbn. auto.
  - assert (STOP : ([], d) = (q, d') -> (exists taken, Permutation d (taken ++ d') /\ Permutation (map fst taken) q) /\ NoDup (map fst d') /\
      (forall a b, In (a, b) (pairs (q ++ [v])) -> In (b, a) inv) /\
      ((forall a b x, od_get inv a = Some b -> In (b, x) d -> x = a) -> Permutation d (pairs (q ++ [v]) ++ d'))).
    { intros Z. injection Z as <- <-. split; [exists []; split; [reflexivity|constructor]|]. split; auto. split; [cbn; tauto|]. cbn. auto. }
    destruct (od_get inv v) as [w|] eqn:G; [|apply STOP; auto].
    destruct (od_get d w) as [x|] eqn:D; [|apply STOP; auto]. clear STOP.
    destruct (queue n inv (od_del d w) w) as [l d2] eqn:Q. injection E as <- <-.
    pose proof (od_del_perm _ _ _ N D) as P.
    assert (SUB : forall e, In e (od_del d w) -> In e d) by (intros e I; apply (Permutation_in _ (Permutation_sym P)); simpl; auto).
    apply IH in Q as ((tk & P2 & PT) & N2 & IN & CO); [|apply od_del_nodup; auto|apply Permutation_length in P; simpl in P; lia].
    assert (SP : pairs ((l ++ [w]) ++ [v]) = pairs (l ++ [w]) ++ [(w, v)]).
    { clear. rewrite <- app_assoc. simpl. induction l as [|a [|b l] IH]; [reflexivity|reflexivity|].
      change (pairs ((a :: b :: l) ++ [w; v])) with ((a, b) :: pairs ((b :: l) ++ [w; v])). rewrite IH. reflexivity. }
    split.
    { exists ((w, x) :: tk). split; [rewrite P; simpl; constructor; auto|]. simpl. rewrite PT. apply Permutation_cons_append. }
    split; auto. rewrite SP. split.
    + intros a b I. apply in_app_or in I as [I|[I|[]]]; auto. injection I as <- <-. apply od_get_in; auto.
    + intros C. assert (x = v) by (apply (C v w x); auto; apply od_get_in; auto). subst x. rewrite P.
      rewrite CO by (intros a b x G' I'; apply (C a b x); auto). rewrite <- app_assoc. simpl. rewrite Permutation_middle. reflexivity.
Qed.

Lemma pairs_join : forall q a l, pairs (q ++ a :: l) = pairs (q ++ [a]) ++ pairs (a :: l).
Proof.
  induction q as [|x q IH]; intros a l; [reflexivity|]. destruct q as [|y q]; [reflexivity|].
  change (pairs ((x :: y :: q) ++ a :: l)) with ((x, y) :: pairs ((y :: q) ++ a :: l)). rewrite IH. reflexivity.
Qed.
Lemma pairs_starts : forall l a, map fst (pairs (a :: l)) = removelast (a :: l).
Proof. induction l as [|b l IH]; intros a; [reflexivity|]. change (pairs (a :: b :: l)) with ((a, b) :: pairs (b :: l)). cbn [map fst]. rewrite IH. reflexivity. Qed.
Lemma removelast_join : forall (q : list nat) a l, removelast (q ++ a :: l) = q ++ removelast (a :: l).
Proof. intros. apply removelast_app. discriminate. Qed.
Lemma last_join : forall (q : list nat) a l, last (q ++ a :: l) 0 = last (a :: l) 0.
Proof. induction q as [|x q IH]; intros; [reflexivity|]. simpl app. rewrite <- (IH a l). destruct (q ++ a :: l) eqn:E; [destruct q; discriminate|reflexivity]. Qed.

(** ** The lines *)
Lemma flat_map_insert : forall X Y (g : X -> list Y) a c b, Permutation (flat_map g (a ++ c :: b)) (g c ++ flat_map g (a ++ b)).
Proof.
  intros. rewrite !flat_map_app. simpl. rewrite !app_assoc. apply Permutation_app_tail. apply Permutation_app_comm.
Qed.

Lemma curves_ordered : forall fuel inv d cl op, NoDup (map fst d) -> length d <= fuel -> curves fuel inv d = (cl, op) -> ordered inv d cl op.
Proof.
  induction fuel as [|n IH]; intros inv d cl op N L E; cbn [curves] in E.
  - injection E as <- <-. destruct d; simpl in L; [|lia]. split; simpl; auto.
  - destruct (rev d) as [|[o t] r] eqn:ER.
    + injection E as <- <-. assert (d = []) by (rewrite <- (rev_involutive d), ER; auto). subst d. split; simpl; auto.
    + destruct (chains_step d o t r N ER) as (P & N' & L').
      destruct (chain (length d) (rev r) t) as [l d'] eqn:C.
      destruct (chain_spec _ _ _ _ _ N' L' C) as (P2 & La & Nd).
      assert (PP : Permutation d (pairs (o :: t :: l) ++ d')).
      { change (pairs (o :: t :: l)) with ((o, t) :: pairs (t :: l)). rewrite P, P2. auto. }
      assert (LD : length d' <= n). { apply Permutation_length in P, P2. rewrite app_length in P2. simpl in P. lia. }
      assert (SUB : incl (pairs (o :: t :: l)) d) by (intros e I; apply (Permutation_in _ (Permutation_sym PP)), in_or_app; auto).
      assert (SUB' : incl d' d) by (intros e I; apply (Permutation_in _ (Permutation_sym PP)), in_or_app; auto).
      destruct (Nat.eqb_spec o (last (o :: t :: l) 0)) as [Eo|Eo].
      * destruct (curves n inv d') as [c2 op2] eqn:EC. injection E as <- <-.
        apply IH in EC as [RC RO RS RE]; auto. split.
        -- constructor; [split; [simpl; lia|split; [exact Eo|exact SUB]]|].
           eapply Forall_impl; [|exact RC]. intros b (B1 & B2 & B3). split; [auto|]. split; [auto|]. intros e I. apply SUB', B3, I.
        -- eapply Forall_impl; [|exact RO]. intros b (B1 & B2 & B3). split; [auto|]. split; [auto|]. intros u v I. destruct (B3 u v I); auto.
        -- rewrite (Permutation_map fst PP), map_app, pairs_starts. cbn [app flat_map]. apply Permutation_app_head. auto.
        -- intros H. rewrite PP at 1. cbn [app flat_map]. apply Permutation_app_head. apply RE. intros a b x G I. apply (H a b x); auto.
      * destruct (queue (length d) inv d' o) as [q d2] eqn:EQ. destruct (curves n inv d2) as [c2 op2] eqn:EC. injection E as <- <-.
        apply queue_spec in EQ as ((tk & PT & PK) & N2 & IN & CO); [|auto|apply Permutation_length in PP; rewrite app_length in PP; lia].
        assert (L2 : length d2 <= n) by (apply Permutation_length in PT; rewrite app_length in PT; lia).
        assert (SUB2 : incl d2 d) by (intros e I; apply SUB', (Permutation_in _ (Permutation_sym PT)), in_or_app; auto).
        apply IH in EC as [RC RO RS RE]; auto. split.
        -- eapply Forall_impl; [|exact RC]. intros b (B1 & B2 & B3). split; [auto|]. split; [auto|]. intros e I. apply SUB2, B3, I.
        -- constructor.
           ++ split; [rewrite app_length; simpl; lia|]. split.
              ** rewrite last_join. destruct q as [|w q]; [exact Eo|]. simpl hd. intros Z. apply La. change (last (t :: l) 0) with (last (o :: t :: l) 0).
                 rewrite <- Z. assert (I : In w (map fst tk)) by (apply (Permutation_in _ (Permutation_sym PK)); simpl; auto).
                 apply (Permutation_in _ (Permutation_map fst (Permutation_sym PT))). rewrite map_app. apply in_or_app. auto.
              ** intros u v I. rewrite pairs_join in I. apply in_app_or in I as [I|I]; [right; apply IN; auto|left; apply SUB; auto].
           ++ eapply Forall_impl; [|exact RO]. intros b (B1 & B2 & B3). split; [auto|]. split; [auto|]. intros u v I. destruct (B3 u v I); auto.
        -- rewrite flat_map_insert, removelast_join, <- pairs_starts, <- app_assoc.
           rewrite (Permutation_map fst PP), (Permutation_app_comm q), map_app, <- app_assoc. apply Permutation_app_head.
           rewrite (Permutation_map fst PT), map_app, PK, RS. apply Permutation_app_comm.
        -- intros H. rewrite flat_map_insert, pairs_join. rewrite PP at 1. rewrite CO by (intros a b x G I; apply (H a b x); auto; apply od_get_in; auto).
           rewrite !app_assoc. rewrite RE by (intros a b x G I; apply (H a b x); auto). apply Permutation_app_tail, Permutation_app_comm.
Qed.

(** When the edges go around, every line is closed. *)
Lemma curves_cycles : forall fuel inv d, NoDup (map fst d) -> length d <= fuel -> Permutation (map fst d) (map snd d) ->
  snd (curves fuel inv d) = [].
Proof.
  induction fuel as [|n IH]; intros inv d N L Q; cbn [curves]; [reflexivity|].
  destruct (rev d) as [|[o t] r] eqn:E; [reflexivity|].
  destruct (chains_step d o t r N E) as (P & N' & L').
  destruct (chain (length d) (rev r) t) as [l d'] eqn:C.
  destruct (chain_spec _ _ _ _ _ N' L' C) as (P2 & La & Nd).
  assert (PP : Permutation d (pairs (o :: t :: l) ++ d')).
  { change (pairs (o :: t :: l)) with ((o, t) :: pairs (t :: l)). rewrite P, P2. auto. }
  assert (B : Permutation (last (o :: t :: l) 0 :: map snd d') (o :: map fst d')).
  { pose proof (Permutation_map fst PP) as PF. pose proof (Permutation_map snd PP) as PS. rewrite map_app in PF, PS.
    pose proof (pairs_balance (t :: l) o) as PB.
    set (F := map fst (pairs (o :: t :: l))) in *. set (S' := map snd (pairs (o :: t :: l))) in *.
    set (z := last (o :: t :: l) 0) in *. clearbody F S' z.
    apply (Permutation_app_inv_l F).
    transitivity ((F ++ [z]) ++ map snd d'); [rewrite <- app_assoc; reflexivity|]. rewrite PB. simpl.
    transitivity (o :: F ++ map fst d'); [|apply Permutation_middle].
    constructor. rewrite <- PS, <- PF. symmetry. auto. }
  assert (Eo : last (o :: t :: l) 0 = o).
  { assert (I : In (last (o :: t :: l) 0) (o :: map fst d')) by (eapply Permutation_in; [exact B|left; auto]).
    destruct I as [I|I]; [auto|]. exfalso. apply La. exact I. }
  rewrite <- Eo, Nat.eqb_refl. rewrite Eo in B. apply Permutation_cons_inv in B.
  specialize (IH inv d' Nd). rewrite <- (IH); [destruct (curves n inv d'); reflexivity| |symmetry; auto].
  apply Permutation_length in P, P2. rewrite app_length in P2. simpl in P. lia.
Qed.

(** ** The dictionaries *)
Lemma od_set_keys : forall d a b, NoDup (map fst d) -> NoDup (map fst (od_set d a b)).
Proof.
  assert (K : forall d a b x, In x (map fst (od_set d a b)) -> x = a \/ In x (map fst d)).
  { intros d a b x I. apply in_map_iff in I as (e & <- & I). apply od_set_in in I as [->|I]; auto. right. apply in_map; auto. }
  induction d as [|[k v] d IH]; intros a b N; simpl.
  - repeat constructor. intros [].
  - inversion N as [|? ? NI ND]; subst. destruct (a =? k)%nat eqn:E; simpl; constructor; auto.
    + apply Nat.eqb_eq in E. subst. auto.
    + intros I. apply K in I as [->|I]; auto. rewrite Nat.eqb_refl in E. discriminate.
Qed.
Lemma renumber_keys : forall ids d d', renumber_dict ids d = Ok d' -> NoDup (map fst d').
Proof.
  intros ids d d' E. unfold renumber_dict in E. apply bind_ok in E as (l & _ & E). injection E as <-.
  assert (K : forall l d, NoDup (map fst d) -> NoDup (map fst (fold_left (fun d e => od_set d (fst e) (snd e)) l d))).
  { clear. induction l as [|e l IH]; simpl; intros d N; auto. apply IH, od_set_keys; auto. }
  apply K. constructor.
Qed.
Lemma renumber_from : forall ids d d' u v, renumber_dict ids d = Ok d' -> In (u, v) d' ->
  exists x y, In (x, y) d /\ nth_error ids x = Some u /\ nth_error ids y = Some v.
Proof.
  intros ids d d' u v E I. unfold renumber_dict in E. apply bind_ok in E as (l & EL & E). injection E as <-.
  assert (K : forall l d, In (u, v) (fold_left (fun d e => od_set d (fst e) (snd e)) l d) -> In (u, v) l \/ In (u, v) d).
  { clear. induction l as [|[a b] l IH]; simpl; intros d I; auto. apply IH in I as [I|I]; auto. apply od_set_in in I as [I|I]; auto. }
  apply K in I as [I|[]]. apply In_nth_error in I as [k K'].
  apply mapM_Forall2 in EL. destruct (Forall2_nth_error_r _ _ _ _ _ EL k (u, v) K') as ([x y] & HX & H). cbn [fst snd] in H.
  apply bind_ok in H as (a & HA & H). apply bind_ok in H as (b & HB & H). injection H as <- <-.
  exists x, y. split; [eapply nth_error_In; eauto|]. split; apply get_inv; auto.
Qed.
