(** Proofs about clipping in double precision: merging points moved a little, and renaming in the curves. *)
From Coq Require Import Reals List Arith Bool Lia Lra FinFun.
From Flocq Require Import Core.
From Verif Require Import M_base P_base M_merge S_merge P_merge T_merge M_plane M_mesh S_mesh P_mesh
  M_connectivity M_clipper P_curves M_double S_double P_double P_double2 M_dgeom M_dclip S_dclip.
Import ListNotations.
Open Scope R_scope.

Definition injective (r : nat -> nat) : Prop := forall i j, r i = r j -> i = j.
(** The points [vs'] are the points [vs], numbered by [r] and moved by at most [t]. *)
Record alike_points (t : R) (r : nat -> nat) (vs vs' : list vec) : Prop := {
  ap_count : length vs' = length vs;
  ap_injective : injective r;
  ap_verts : forall i v, nth_error vs i = Some v -> exists v', nth_error vs' (r i) = Some v' /\ near_point t v v'
}.
Lemma alike_onto : forall t r vs vs', alike_points t r vs vs' -> forall j, (j < length vs')%nat -> exists i, (i < length vs)%nat /\ r i = j.
Proof.
  intros t r vs vs' [C I V] j J. rewrite C in J.
  assert (BF : bFun (length vs) r).
  { intros i HI. destruct (nth_error_lt _ _ _ HI) as [v HV]. destruct (V i v HV) as (v' & HV' & _). rewrite <- C. apply nth_error_Some. congruence. }
  assert (BI : bInjective (length vs) r) by (intros x y _ _; apply I).
  apply (proj1 (bInjective_bSurjective BF)) in BI. destruct (BI j J) as (i & HI & E). exists i. auto.
Qed.

(** ** Positions of values in a list *)
Fixpoint index_of (k : nat) (l : list nat) : nat := match l with [] => 0 | x :: t => if (k =? x)%nat then 0%nat else Datatypes.S (index_of k t) end.
Lemma index_of_nth : forall k l i, nth_error l i = Some k -> nth_error l (index_of k l) = Some k.
Proof.
  induction l as [|x l IH]; intros i H; [destruct i; discriminate|]. cbn. destruct (Nat.eqb_spec k x) as [->|N]; auto.
  destruct i; cbn in H; [congruence|]. cbn. eapply IH; eauto.
Qed.

Section Merging.
  Variables argsort argsort' : list R -> list nat.
  Hypothesis sorts : sorting argsort.
  Hypothesis sorts' : sorting argsort'.
  Variables (d a a' T : R).
  Hypothesis a0 : 0 <= a.
  Hypothesis aT : a <= T.
  Hypothesis small : 2 * d <= a'.
  Hypothesis large : a' + 2 * d <= T.
  Hypothesis d0 : 0 <= d.

  Lemma spread_within : forall Q x y t, well_spread T Q -> Q x -> Q y -> t <= T -> within coords t x y -> x = y.
  Proof.
    intros Q x y t W X Y LT H. destruct (W x y X Y) as (WX & WY & WZ).
    pose proof (H vx ltac:(cbn; auto)). pose proof (H vy ltac:(cbn; auto)). pose proof (H vz ltac:(cbn; auto)).
    destruct x as [x1 x2 x3], y as [y1 y2 y3]. unfold apart_or_same in *. cbn [vx vy vz] in *. f_equal; lra.
  Qed.
  Lemma near_within : forall x x' y', near_point d x x' -> near_point d x y' -> within coords a' x' y'.
  Proof.
    intros x x' y' (N1 & N2 & N3) (M1 & M2 & M3) c I. apply Rabs_le_inv in N1, N2, N3, M1, M2, M3.
    cbn in I. destruct I as [<-|[<-|[<-|[]]]]; apply Rabs_le; lra.
  Qed.
  Lemma far_near : forall Q x y x' y' t, well_spread T Q -> Q x -> Q y -> near_point d x x' -> near_point d y y' -> t + 2 * d <= T -> within coords t x' y' -> x = y.
  Proof.
    intros Q x y x' y' t W X Y N M LT H. apply (spread_within Q x y T); auto; [lra|]. destruct N as (N1 & N2 & N3), M as (M1 & M2 & M3).
    apply Rabs_le_inv in N1, N2, N3, M1, M2, M3.
    intros c I. pose proof (H c I) as HC. apply Rabs_le_inv in HC. cbn in I. destruct I as [<-|[<-|[<-|[]]]]; apply Rabs_le; lra.
  Qed.
  Lemma far_near1 : forall Q (c : vec -> R) x y x' y', In c coords -> well_spread T Q -> Q x -> Q y -> near_point d x x' -> near_point d y y' ->
    (Rabs (c x' - c y') <= a' <-> c x = c y).
  Proof.
    intros Q c x y x' y' I W X Y (N1 & N2 & N3) (M1 & M2 & M3). destruct (W x y X Y) as (WX & WY & WZ). apply Rabs_le_inv in N1, N2, N3, M1, M2, M3.
    unfold apart_or_same in *.
    assert (K : forall r s r' s', r = s \/ T < Rabs (r - s) -> - d <= r - r' <= d -> - d <= s - s' <= d -> (Rabs (r' - s') <= a' <-> r = s)).
    { intros r s r' s' D E F. split; intros H.
      - destruct D as [D|D]; auto. exfalso. apply Rabs_le_inv in H. apply (Rlt_not_le _ _ D). apply Rabs_le. lra.
      - subst. apply Rabs_le. lra. }
    cbn in I. destruct I as [<-|[<-|[<-|[]]]]; apply K; auto.
  Qed.

  Lemma merge_alike : forall r vs vs' uq ids, alike_points d r vs vs' -> well_spread T (fun x => In x vs) ->
    merge_duplicate_rows argsort a coords vs = Ok (uq, ids) ->
    exists uq' ids' ren, merge_duplicate_rows argsort' a' coords vs' = Ok (uq', ids') /\ alike_points d ren uq uq' /\
      (forall i k, nth_error ids i = Some k -> nth_error ids' (r i) = Some (ren k)).
  Proof.
    intros r vs vs' uq ids AP W E. pose proof AP as [C I V].
    assert (NE : vs <> []) by (intros ->; cbn in E; discriminate).
    assert (NE' : vs' <> []) by (intros ->; destruct vs; [auto|discriminate]).
    assert (A0 : 0 <= a') by lra.
    destruct (merge_merged argsort sorts a a0 vec coords vs NE) as (u1 & i1 & E1 & M). rewrite E in E1. injection E1 as <- <-.
    destruct (merge_merged argsort' sorts' a' A0 vec coords vs' NE') as (uq' & ids' & E' & M').
    (* rows of vs' and of vs *)
    assert (BACK : forall j v', nth_error vs' j = Some v' -> exists i v, r i = j /\ nth_error vs i = Some v /\ near_point d v v').
    { intros j v' J. destruct (alike_onto _ _ _ _ AP j) as (i & HI & RI); [apply nth_error_Some; congruence|].
      destruct (nth_error_lt _ _ _ HI) as [v HV]. destruct (V i v HV) as (w & HW & N). exists i, v. split; auto. split; auto.
      rewrite RI in HW. replace v' with w by congruence. auto. }
    assert (IFF' : forall i j x y x' y', nth_error vs i = Some x -> nth_error vs j = Some y -> nth_error vs' (r i) = Some x' -> nth_error vs' (r j) = Some y' ->
      near_point d x x' -> near_point d y y' -> (nth_error ids' (r i) = nth_error ids' (r j) <-> x = y)).
    { intros i j x y x' y' HX HY HX' HY' NX NY. split.
      - intros K. pose proof (nth_error_In _ _ HX). pose proof (nth_error_In _ _ HY).
        destruct (merged_close _ _ _ _ _ M' _ _ HX') as (k & s & K1 & _). rewrite K1 in K. symmetry in K.
        apply (far_near (fun x => In x vs) x y x' y' a'); auto. eapply (merged_pairs _ _ _ _ _ M'); eauto.
      - intros <-. apply (proj2 (C01_clusters_merged_exactly argsort' a' vec coords vs' uq' ids' (r i) (r j) x' y' sorts' A0
          ltac:(intros c p q s IC P Q S H1 H2;
            apply In_nth_error in P as [p0 P]; apply In_nth_error in Q as [q0 Q]; apply In_nth_error in S as [s0 S];
            destruct (BACK _ _ P) as (p1 & pv & _ & P1 & P2); destruct (BACK _ _ Q) as (q1 & qv & _ & Q1 & Q2); destruct (BACK _ _ S) as (s1 & sv & _ & S1 & S2);
            apply nth_error_In in P1, Q1, S1;
            apply (far_near1 (fun x => In x vs) c pv qv p q IC W P1 Q1 P2 Q2) in H1; apply (far_near1 (fun x => In x vs) c qv sv q s IC W Q1 S1 Q2 S2) in H2;
            apply (far_near1 (fun x => In x vs) c pv sv p s IC W P1 S1 P2 S2); congruence) E' HX' HY')).
        apply (near_within x); auto. }
    assert (IFF : forall i j x y, nth_error vs i = Some x -> nth_error vs j = Some y -> (nth_error ids i = nth_error ids j <-> x = y)).
    { intros i j x y HX HY. split.
      - intros K. pose proof (nth_error_In _ _ HX). pose proof (nth_error_In _ _ HY).
        destruct (merged_close _ _ _ _ _ M _ _ HX) as (k & s & K1 & _). rewrite K1 in K. symmetry in K.
        apply (spread_within (fun x => In x vs) x y a); auto. eapply (merged_pairs _ _ _ _ _ M); eauto.
      - intros <-. eapply (C02_duplicates_merged argsort a vec coords vs uq ids); eauto. intros c _. reflexivity. }
    set (ren := fun k => if (k <? length uq)%nat then nth (r (index_of k ids)) ids' 0%nat else k).
    assert (LI : length ids = length vs) by apply (merged_ids _ _ _ _ _ M).
    assert (LI' : length ids' = length vs') by apply (merged_ids _ _ _ _ _ M').
    assert (REN : forall i k, nth_error ids i = Some k -> nth_error ids' (r i) = Some (ren k)).
    { intros i k HI. pose proof (index_of_nth _ _ _ HI) as HJ.
      assert (Li : (i < length vs)%nat) by (rewrite <- LI; apply nth_error_Some; congruence).
      assert (Lj : (index_of k ids < length vs)%nat) by (rewrite <- LI; apply nth_error_Some; congruence).
      destruct (nth_error_lt _ _ _ Li) as [x X]. destruct (nth_error_lt _ _ _ Lj) as [y Y].
      destruct (V _ _ X) as (x' & X' & NX). destruct (V _ _ Y) as (y' & Y' & NY).
      assert (EQ : x = y) by (apply (IFF i (index_of k ids) x y X Y); congruence).
      apply (IFF' i (index_of k ids) x y x' y' X Y X' Y' NX NY) in EQ. rewrite EQ.
      assert (Lk : (k < length uq)%nat).
      { destruct (merged_close _ _ _ _ _ M _ _ X) as (k0 & s & K1 & K2 & _). assert (k0 = k) by congruence. subst. apply nth_error_Some. congruence. }
      unfold ren. destruct (Nat.ltb_spec k (length uq)); [|lia]. apply nth_error_nth'. rewrite LI'. apply nth_error_Some. congruence. }
    assert (SRC : forall k, (k < length uq)%nat -> exists i s s', nth_error vs i = Some s /\ nth_error ids i = Some k /\ nth_error uq k = Some s /\
      nth_error ids' (r i) = Some (ren k) /\ nth_error uq' (ren k) = Some s' /\ near_point d s s').
    { intros k K. destruct (nth_error_lt _ _ _ K) as [s S]. destruct (merged_origin _ _ _ _ _ M _ _ S) as (i & HI & HK).
      pose proof (REN _ _ HK) as HR. destruct (V _ _ HI) as (x' & X' & NX).
      destruct (merged_close _ _ _ _ _ M' _ _ X') as (k' & s' & K1 & K2 & _). assert (k' = ren k) by congruence. subst k'.
      exists i, s, s'. do 5 (split; [auto|]).
      destruct (merged_origin _ _ _ _ _ M' _ _ K2) as (j' & HJ & HKJ). destruct (BACK _ _ HJ) as (j & v & <- & J1 & J2).
      assert (s = v) by (apply (IFF' i j s v x' s'); auto; congruence). subst. auto. }
    assert (INJ0 : forall k l, (k < length uq)%nat -> (l < length uq)%nat -> ren k = ren l -> k = l).
    { intros k l K L EQ. destruct (SRC k K) as (i & s & s' & A1 & A2 & A3 & A4 & A5 & A6). destruct (SRC l L) as (j & t & t' & B1 & B2 & B3 & B4 & B5 & B6).
      destruct (V _ _ A1) as (x' & X' & NX). destruct (V _ _ B1) as (y' & Y' & NY).
      assert (ST : s = t) by (apply (IFF' i j s t x' y'); auto; congruence).
      apply (IFF i j s t A1 B1) in ST. congruence. }
    assert (BND : forall k, (k < length uq)%nat -> (ren k < length uq')%nat).
    { intros k K. destruct (SRC k K) as (i & s & s' & A1 & A2 & A3 & A4 & A5 & A6). apply nth_error_Some. congruence. }
    assert (ONTO : forall k', (k' < length uq')%nat -> exists k, (k < length uq)%nat /\ ren k = k').
    { intros k' K. destruct (nth_error_lt _ _ _ K) as [s' S]. destruct (merged_origin _ _ _ _ _ M' _ _ S) as (j' & HJ & HK).
      destruct (BACK _ _ HJ) as (j & v & <- & J1 & J2). destruct (merged_close _ _ _ _ _ M _ _ J1) as (k & s & K1 & K2 & _).
      exists k. split; [apply nth_error_Some; congruence|]. pose proof (REN _ _ K1). congruence. }
    assert (LEN : length uq' = length uq).
    { assert (P1 : (length (seq 0 (length uq')) <= length (map ren (seq 0 (length uq))))%nat).
      { apply NoDup_incl_length; [apply seq_NoDup|]. intros k' HK. apply in_seq in HK. destruct (ONTO k') as (k & K & <-); [lia|]. apply in_map, in_seq. lia. }
      assert (P2 : (length (map ren (seq 0 (length uq))) <= length (seq 0 (length uq')))%nat).
      { apply NoDup_incl_length.
        - assert (ND : forall l, NoDup l -> (forall k, In k l -> (k < length uq)%nat) -> NoDup (map ren l)).
          { clear - INJ0. induction l as [|x l IH]; intros N B; cbn; constructor.
            - inversion N; subst. intros H. apply in_map_iff in H as (y & E & Y). apply INJ0 in E; [subst; auto|apply B; right; auto|apply B; left; auto].
            - inversion N; subst. apply IH; auto. intros k K. apply B. right. auto. }
          apply ND; [apply seq_NoDup|]. intros k K. apply in_seq in K. lia.
        - intros k' HK. apply in_map_iff in HK as (k & <- & K). apply in_seq in K. apply in_seq. pose proof (BND k ltac:(lia)). lia. }
      rewrite map_length, !seq_length in P1, P2. lia. }
    exists uq', ids', ren. split; auto. split; [split; auto|auto].
    - intros k l EQ. destruct (Nat.lt_ge_cases k (length uq)) as [K|K], (Nat.lt_ge_cases l (length uq)) as [L|L]; auto.
      + exfalso. pose proof (BND k K). assert (ren l = l) by (unfold ren; destruct (Nat.ltb_spec l (length uq)); [lia|auto]). lia.
      + exfalso. pose proof (BND l L). assert (ren k = k) by (unfold ren; destruct (Nat.ltb_spec k (length uq)); [lia|auto]). lia.
      + unfold ren in EQ. destruct (Nat.ltb_spec k (length uq)); [lia|]. destruct (Nat.ltb_spec l (length uq)); [lia|]. auto.
    - intros k s S. assert (K : (k < length uq)%nat) by (apply nth_error_Some; congruence).
      destruct (SRC k K) as (i & s1 & s' & A1 & A2 & A3 & A4 & A5 & A6). assert (s1 = s) by congruence. subst. exists s'. auto.
  Qed.

  Lemma renumber_alike : forall r ren ids ids' f g, (forall i k, nth_error ids i = Some k -> nth_error ids' (r i) = Some (ren k)) ->
    renumber ids f = Ok g -> renumber ids' (map_face r f) = Ok (map_face ren g).
  Proof.
    intros r ren ids ids' f g H E. unfold renumber in *. cbn [map_face f0 f1 f2 f3].
    assert (K : forall i k, get ids i = Ok k -> get ids' (r i) = Ok (ren k)).
    { intros i k G. unfold get in *. destruct (nth_error ids i) eqn:N; [|discriminate]. injection G as <-. rewrite (H _ _ N). auto. }
    apply bind_ok in E as (x0 & E0 & E). apply bind_ok in E as (x1 & E1 & E). apply bind_ok in E as (x2 & E2 & E). apply bind_ok in E as (x3 & E3 & E). injection E as <-.
    rewrite (K _ _ E0), (K _ _ E1), (K _ _ E2), (K _ _ E3). reflexivity.
  Qed.
  Lemma renumber_all_alike : forall r ren ids ids' fs gs, (forall i k, nth_error ids i = Some k -> nth_error ids' (r i) = Some (ren k)) ->
    mapM (renumber ids) fs = Ok gs -> mapM (renumber ids') (map (map_face r) fs) = Ok (map (map_face ren) gs).
  Proof.
    intros r ren ids ids' fs gs H. revert gs. induction fs as [|f fs IH]; intros gs E; cbn [mapM map] in *; [injection E as <-; auto|].
    apply bind_ok in E as (g & G & E). apply bind_ok in E as (gt & GT & E). injection E as <-.
    rewrite (renumber_alike _ _ _ _ _ _ H G). cbn [bind]. rewrite (IH _ GT). reflexivity.
  Qed.
End Merging.

(** ** Renaming in dictionaries and curves *)
Section Renaming.
  Variable r : nat -> nat.
  Hypothesis inj : injective r.
  Definition rn (e : nat * nat) : nat * nat := (r (fst e), r (snd e)).
  Lemma rn_eqb : forall i j, (r i =? r j)%nat = (i =? j)%nat.
  Proof. intros i j. destruct (Nat.eqb_spec i j) as [->|N]; [apply Nat.eqb_refl|]. apply Nat.eqb_neq. intros E. apply N, inj, E. Qed.
  Lemma od_get_rn : forall d k, od_get (map rn d) (r k) = option_map r (od_get d k).
  Proof. induction d as [|[a b] d IH]; intros k; cbn; auto. rewrite rn_eqb. destruct (k =? a)%nat; auto. Qed.
  Lemma od_set_rn : forall d k v, od_set (map rn d) (r k) (r v) = map rn (od_set d k v).
  Proof. induction d as [|[a b] d IH]; intros k v; cbn; auto. rewrite rn_eqb. destruct (k =? a)%nat; cbn; auto. rewrite IH. auto. Qed.
  Lemma od_del_rn : forall d k, od_del (map rn d) (r k) = map rn (od_del d k).
  Proof. unfold od_del. induction d as [|[a b] d IH]; intros k; cbn; auto. rewrite rn_eqb. destruct (k =? a)%nat; cbn; rewrite IH; auto. Qed.
  Lemma chain_rn : forall n d v, chain n (map rn d) (r v) = (map r (fst (chain n d v)), map rn (snd (chain n d v))).
  Proof.
    induction n as [|n IH]; intros d v; cbn [chain]; auto. rewrite od_get_rn. destruct (od_get d v) as [w|]; cbn [option_map]; auto.
    rewrite od_del_rn, IH. destruct (chain n (od_del d v) w). reflexivity.
  Qed.
  Lemma queue_rn : forall n inv d v, queue n (map rn inv) (map rn d) (r v) = (map r (fst (queue n inv d v)), map rn (snd (queue n inv d v))).
  Proof.
    induction n as [|n IH]; intros inv d v; cbn [queue]; auto. rewrite od_get_rn. destruct (od_get inv v) as [w|]; cbn [option_map]; auto.
    rewrite od_get_rn. destruct (od_get d w) as [x|]; cbn [option_map]; auto.
    rewrite od_del_rn, IH. destruct (queue n inv (od_del d w) w). cbn [fst snd]. rewrite map_app. reflexivity.
  Qed.
  Lemma last_map : forall l a, last (map r (a :: l)) 0%nat = r (last (a :: l) 0%nat).
  Proof. induction l as [|b l IH]; intros a; auto. apply (IH b). Qed.
  Lemma curves_rn : forall n inv d, curves n (map rn inv) (map rn d) = (map (map r) (fst (curves n inv d)), map (map r) (snd (curves n inv d))).
  Proof.
    induction n as [|n IH]; intros inv d; cbn [curves]; auto. rewrite <- map_rev. destruct (rev d) as [|[o t] rr]; cbn [map]; auto.
    unfold rn at 1; cbn [fst snd]. rewrite map_length, <- map_rev, chain_rn. destruct (chain (length d) (rev rr) t) as [l d']. cbn [fst snd].
    change (r o :: r t :: map r l) with (map r (o :: t :: l)). rewrite last_map, rn_eqb.
    destruct (o =? last (o :: t :: l) 0)%nat.
    - rewrite IH. destruct (curves n inv d'). reflexivity.
    - rewrite queue_rn. destruct (queue (length d) inv d' o) as [q d'']. cbn [fst snd]. rewrite IH. destruct (curves n inv d''). cbn [fst snd map]. rewrite map_app. reflexivity.
  Qed.
  Lemma renumber_dict_rn : forall ids ids' d dd, (forall i k, nth_error ids i = Some k -> nth_error ids' i = Some (r k)) ->
    renumber_dict ids d = Ok dd -> renumber_dict ids' d = Ok (map rn dd).
  Proof.
    intros ids ids' d dd H E. unfold renumber_dict in *. apply bind_ok in E as (l & M & E). injection E as <-.
    assert (K : forall d l, mapM (fun e => do a <- get ids (fst e); do b <- get ids (snd e); Ok (a, b)) d = Ok l ->
      mapM (fun e => do a <- get ids' (fst e); do b <- get ids' (snd e); Ok (a, b)) d = Ok (map rn l)).
    { clear - H. assert (G : forall i k, get ids i = Ok k -> get ids' i = Ok (r k)).
      { intros i k G. unfold get in *. destruct (nth_error ids i) eqn:N; [|discriminate]. injection G as <-. rewrite (H _ _ N). auto. }
      induction d as [|e d IH]; intros l M; cbn [mapM] in *; [injection M as <-; auto|].
      apply bind_ok in M as (y & Y & M). apply bind_ok in M as (yt & YT & M). injection M as <-.
      apply bind_ok in Y as (a & A & Y). apply bind_ok in Y as (b & B & Y). injection Y as <-.
      rewrite (G _ _ A), (G _ _ B). cbn [bind]. rewrite (IH _ YT). reflexivity. }
    rewrite (K _ _ M). cbn [bind]. f_equal. change (@nil (nat * nat)) with (map rn []) at 1. generalize (@nil (nat * nat)). clear - inj.
    induction l as [|e l IH]; intros acc; cbn [map fold_left]; auto. cbn [rn fst snd]. rewrite od_set_rn. apply IH.
  Qed.
End Renaming.
