(** Proofs about the viewer. *)
From Coq Require Import Reals List Arith Bool String Lia Lra Permutation.
From Verif Require Import M_base M_mesh M_vtk M_viewer S_viewer.
Import ListNotations.
Local Open Scope nat_scope.

Definition ids (g : list (nat * drawn)) : list nat := map fst g.
Definition kinds (g : list (nat * drawn)) : list drawn := map snd g.

(** ** Removing *)
Definition without (l : list nat) (g : list (nat * drawn)) : list (nat * drawn) := fold_left (fun g a => filter (fun p => negb (fst p =? a)) g) l g.
Lemma remove_all_props : forall l v, remove_all l v = mkViewer (without l (v_props v)) (v_next v) (v_normals v) (v_axes v) (v_oxy v) (v_planes v) (v_polydatas v) (v_saved v) (v_shot v) (v_open v).
Proof. induction l as [|a l IH]; intros v; cbn; [destruct v; reflexivity|]. unfold remove_all in IH. rewrite IH. reflexivity. Qed.
Lemma without_perm : forall l g g', Permutation g g' -> Permutation (without l g) (without l g').
Proof.
  induction l as [|a l IH]; intros g g' P; cbn; auto. apply IH. clear IH.
  induction P; cbn; auto.
  - destruct (negb _); auto.
  - destruct (negb (fst y =? a)), (negb (fst x =? a)); auto. apply perm_swap.
  - eapply perm_trans; eauto.
Qed.
Lemma without_app : forall l g h, without l (g ++ h) = without l g ++ without l h.
Proof. induction l as [|a l IH]; intros g h; cbn; auto. rewrite filter_app. apply IH. Qed.
Lemma without_none : forall l g, (forall a, In a l -> ~ In a (ids g)) -> without l g = g.
Proof.
  induction l as [|a l IH]; intros g H; cbn; auto. assert (E : filter (fun p => negb (fst p =? a)) g = g).
  { assert (N : ~ In a (ids g)) by (apply H; cbn; auto). clear -N. induction g as [|p g IH]; cbn; auto. cbn in N. destruct (Nat.eqb_spec (fst p) a); cbn; [tauto|]. rewrite IH; tauto. }
  rewrite E. apply IH. intros b B. apply H. cbn. auto.
Qed.
Lemma without_nil : forall l, without l [] = [].
Proof. induction l; cbn; auto. Qed.
Lemma without_self : forall l g, incl (ids g) l -> without l g = [].
Proof.
  induction l as [|a l IH]; intros g H; cbn; [destruct g as [|p g]; auto; exfalso; apply (H (fst p)); cbn; auto|].
  apply IH. intros b B. unfold ids in B. apply in_map_iff in B as (p & <- & I). apply filter_In in I as (I & N).
  assert (J : In (fst p) (a :: l)) by (apply H, in_map; auto). destruct J as [J|J]; auto. apply negb_true_iff, Nat.eqb_neq in N. congruence.
Qed.
Lemma NoDup_app_inv : forall A (l m : list A), NoDup (l ++ m) -> forall a, In a l -> In a m -> False.
Proof. intros A l m H a L M. induction l as [|b l IH]; [destruct L|]. cbn in H. apply NoDup_cons_iff in H as [N H]. destruct L as [->|L]; auto. apply N, in_or_app. auto. Qed.
(** A group of actors leaves the others. *)
Lemma group_removed : forall props A g, Permutation props (A ++ g) -> NoDup (ids props) -> Permutation (without (ids g) props) A.
Proof.
  intros props A g P N. eapply perm_trans; [apply without_perm; eauto|]. rewrite without_app, (without_self (ids g) g) by (intros x; auto). rewrite app_nil_r.
  rewrite without_none; auto. intros a G I. assert (N' : NoDup (ids A ++ ids g)).
  { unfold ids. rewrite <- map_app. eapply Permutation_NoDup; [|exact N]. apply Permutation_map. auto. }
  eapply NoDup_app_inv; eauto.
Qed.
Lemma without_incl : forall l g, incl (without l g) g.
Proof. induction l as [|a l IH]; intros g x I; cbn in I; auto. apply IH in I. apply filter_In in I. tauto. Qed.
Lemma filter_ids : forall (q : nat * drawn -> bool) g, NoDup (ids g) -> NoDup (ids (filter q g)).
Proof.
  intros q g N. induction g as [|p g IH]; cbn; auto. cbn in N. apply NoDup_cons_iff in N as [M N]. destruct (q p); auto. cbn. constructor; auto.
  intros I. apply M. unfold ids in *. apply in_map_iff in I as (x & <- & I). apply filter_In in I. apply in_map. tauto.
Qed.
Lemma without_ids : forall l g, NoDup (ids g) -> NoDup (ids (without l g)).
Proof. induction l as [|a l IH]; intros g N; cbn; auto. apply IH, filter_ids; auto. Qed.

(** ** The invariant of a session *)
Section Groups.
  Variables (base gn ga gh gg : list (nat * drawn)) (v : viewer).
  Record grouped : Prop := {
    gr_props : Permutation (v_props v) (base ++ gn ++ ga ++ gh ++ gg);
    gr_nodup : NoDup (ids (v_props v));
    gr_fresh : forall a, In a (ids (v_props v)) -> a < v_next v;
    gr_normals : v_normals v = NList (ids gn);
    gr_axes : v_axes v = ids ga;
    gr_oxy : v_oxy v = hd_error (ids gh) /\ List.length gh <= 1;
    gr_planes : v_planes v = match gg with [] => None | _ => Some (ids gg) end }.
End Groups.
Definition arrows_of (o : option (list dataset)) : list drawn := match o with Some os => map Arrows os | None => [] end.
Definition axes_of (o : option (list dataset)) : list drawn := match o with Some (d :: _) => [CubeAxes d] | _ => [] end.
Definition oxy_color : rgb := V3 0 (102 / 255) (204 / 255).
Definition oxy_of (o : option (list dataset)) : list drawn := match o with Some (d :: _) => [oxy_rectangle (points d) oxy_color] | _ => [] end.
Definition planes_of (o : option (list dataset)) : list drawn :=
  match o with Some (d :: _) => [oxy_rectangle (points d) (V3 0 0 255); oxz_rectangle (points d) (V3 255 0 0); oyz_rectangle (points d) white] | _ => [] end.
Record shows (past : list event) (v : viewer) : Prop := {
  sh_groups : exists base gn ga gh gg, grouped base gn ga gh gg v /\
    Permutation (kinds base) (Text 3 :: Text 1 :: flat_map fixed_of (rev past)) /\
    kinds gn = arrows_of (lit "n" past) /\ kinds ga = axes_of (lit "b" past) /\ kinds gh = oxy_of (lit "h" past) /\ kinds gg = planes_of (lit "g" past);
  sh_objects : v_polydatas v = objects (rev past) }.

Lemma new_shows : shows [] new_viewer.
Proof.
  constructor; auto. exists [(0, Text 3); (1, Text 1)], [], [], [], []. split; [|repeat split; auto].
  constructor; cbn; auto; [|intros a [<-|[<-|[]]]; lia]. repeat constructor; cbn; intuition lia.
Qed.

(** Drawing in a group *)
Lemma fresh_nodup : forall g n d, NoDup (ids g) -> (forall a, In a (ids g) -> a < n) -> NoDup (ids (g ++ [(n, d)])).
Proof.
  intros g n d N F. unfold ids in *. rewrite map_app. cbn. eapply Permutation_NoDup; [apply Permutation_cons_append|]. constructor; auto. intros I. apply F in I. lia.
Qed.
Lemma fresh_bound : forall g n (d : drawn), (forall a, In a (ids g) -> a < n) -> forall a, In a (ids (g ++ [(n, d)])) -> a < S n.
Proof. intros g n d F a I. unfold ids in *. rewrite map_app in I. apply in_app_or in I as [I|[<-|[]]]; cbn; [apply F in I|]; lia. Qed.
Lemma removed_fresh : forall l g n, (forall a, In a (ids g) -> a < n) -> forall a, In a (ids (without l g)) -> a < n.
Proof. intros l g n F a I. apply F. unfold ids in *. apply in_map_iff in I as (p & <- & I). apply in_map. eapply without_incl; eauto. Qed.

Lemma object_drawn : forall base gn ga gh gg v d, grouped base gn ga gh gg v -> grouped (base ++ [(v_next v, d)]) gn ga gh gg (draw d v).
Proof.
  intros base gn ga gh gg v d []. constructor; cbn; auto using fresh_nodup; try (intros ? ?; eapply fresh_bound; eauto; fail).
  rewrite <- app_assoc. eapply perm_trans; [apply Permutation_app_tail; exact gr_props0|]. rewrite <- app_assoc. apply Permutation_app_head. apply Permutation_app_comm.
Qed.
Lemma normal_drawn : forall base gn ga gh gg v d, grouped base gn ga gh gg v ->
  grouped base (gn ++ [(v_next v, d)]) ga gh gg (with_normals (NList (ids gn ++ [v_next v])) (draw d v)).
Proof.
  intros base gn ga gh gg v d []. constructor; cbn; auto using fresh_nodup; try (intros ? ?; eapply fresh_bound; eauto; fail).
  - eapply perm_trans; [apply Permutation_app_tail; exact gr_props0|]. rewrite <- !app_assoc. do 2 apply Permutation_app_head. rewrite (app_assoc gh), (app_assoc ga).
    eapply perm_trans; [|apply Permutation_app_comm]. rewrite <- !app_assoc. reflexivity.
  - unfold ids. rewrite map_app. reflexivity.
Qed.
Lemma normals_shown : forall ds base gn ga gh gg v, grouped base gn ga gh gg v -> exists gn' v', show_normals_of ds v = done v' /\
  grouped base gn' ga gh gg v' /\ kinds gn' = kinds gn ++ map Arrows ds /\ v_polydatas v' = v_polydatas v.
Proof.
  induction ds as [|d ds IH]; intros base gn ga gh gg v G; [exists gn, v; rewrite app_nil_r; auto|]. cbn.
  pose proof (gr_normals _ _ _ _ _ _ G) as N. rewrite N. pose proof (normal_drawn _ _ _ _ _ _ (Arrows d) G) as G'.
  destruct (IH _ _ _ _ _ _ G') as (gn' & v' & E & H & K & P). exists gn', v'. split; auto. split; auto. split; auto.
  rewrite K. unfold kinds. rewrite map_app. cbn. rewrite <- app_assoc. reflexivity.
Qed.

(** ** One call *)
Definition key_of (e : event) : option string := match e with Key k => Some k | _ => None end.
Lemma lit_other : forall k e past, key_of e <> Some k -> lit k (e :: past) = lit k past.
Proof. intros k e past H. destruct e; auto. cbn. destruct (String.eqb_spec key k) as [->|]; auto. cbn in H. congruence. Qed.
Lemma objects_snoc : forall past e, objects (rev (e :: past)) = objects (rev past) ++ object_of e.
Proof. intros. unfold objects. cbn [rev]. rewrite flat_map_app. cbn. rewrite app_nil_r. reflexivity. Qed.
Lemma fixed_snoc : forall past e, flat_map fixed_of (rev (e :: past)) = flat_map fixed_of (rev past) ++ fixed_of e.
Proof. intros. cbn [rev]. rewrite flat_map_app. cbn. rewrite app_nil_r. reflexivity. Qed.
Lemma lit_objects : forall k past os, lit k past = Some os -> os <> [].
Proof.
  induction past as [|e past IH]; intros os H; [discriminate|]. destruct e; cbn in H; try (eapply IH; eauto; fail).
  destruct (String.eqb key k); [|eapply IH; eauto]. destruct (lit k past); [discriminate|]. destruct (objects (rev past)); [discriminate|]. injection H as <-. discriminate.
Qed.
Lemma map_nil : forall A B (f : A -> B) l, map f l = [] -> l = [].
Proof. intros A B f [|]; auto; discriminate. Qed.

(** Things added *)
Lemma added : forall past v e (f : viewer -> viewer) d, shows past v -> key_of e = None -> fixed_of e = [d] ->
  (forall w, v_props (f w) = v_props w /\ v_next (f w) = v_next w /\ v_normals (f w) = v_normals w /\ v_axes (f w) = v_axes w /\ v_oxy (f w) = v_oxy w /\ v_planes (f w) = v_planes w) ->
  v_polydatas (f v) = v_polydatas v ++ object_of e -> shows (e :: past) (draw d (f v)).
Proof.
  intros past v e f d [(base & gn & ga & gh & gg & G & B & N & A & H & P) O] K F W PD.
  destruct (W v) as (W1 & W2 & W3 & W4 & W5 & W6).
  assert (G' : grouped base gn ga gh gg (f v)). { destruct G. constructor; rewrite ?W1, ?W2, ?W3, ?W4, ?W5, ?W6; auto. }
  constructor.
  - exists (base ++ [(v_next (f v), d)]), gn, ga, gh, gg. rewrite !lit_other by (rewrite K; discriminate).
    split; [apply object_drawn; auto|]. split; [|auto]. unfold kinds. rewrite map_app, fixed_snoc, F. cbn [map snd].
    change (Text 3 :: Text 1 :: flat_map fixed_of (rev past) ++ [d]) with ((Text 3 :: Text 1 :: flat_map fixed_of (rev past)) ++ [d]). apply Permutation_app_tail. exact B.
  - cbn [draw v_polydatas]. rewrite PD, O, objects_snoc. reflexivity.
Qed.
(** Keys that change nothing of the picture *)
Lemma other_key : forall past v v' k, shows past v -> k <> "n"%string -> k <> "b"%string -> k <> "h"%string -> k <> "g"%string ->
  v_props v' = v_props v -> v_next v' = v_next v -> v_normals v' = v_normals v -> v_axes v' = v_axes v -> v_oxy v' = v_oxy v -> v_planes v' = v_planes v -> v_polydatas v' = v_polydatas v ->
  shows (Key k :: past) v'.
Proof.
  intros past v v' k [(base & gn & ga & gh & gg & G & B & N & A & H & P) O] K1 K2 K3 K4 W1 W2 W3 W4 W5 W6 W7. constructor.
  - exists base, gn, ga, gh, gg. rewrite !lit_other by (cbn; congruence). rewrite fixed_snoc. cbn [fixed_of]. rewrite app_nil_r.
    split; [|auto]. destruct G. constructor; rewrite ?W1, ?W2, ?W3, ?W4, ?W5, ?W6; auto.
  - rewrite W7, O, objects_snoc. cbn. rewrite app_nil_r. reflexivity.
Qed.

Section Toggles.
  Variables (past : list event) (v : viewer) (base gn ga gh gg : list (nat * drawn)).
  Hypothesis G : grouped base gn ga gh gg v.
  Hypothesis B : Permutation (kinds base) (Text 3 :: Text 1 :: flat_map fixed_of (rev past)).
  Hypothesis N : kinds gn = arrows_of (lit "n" past).
  Hypothesis A : kinds ga = axes_of (lit "b" past).
  Hypothesis H : kinds gh = oxy_of (lit "h" past).
  Hypothesis P : kinds gg = planes_of (lit "g" past).
  Hypothesis O : v_polydatas v = objects (rev past).
  Let O' : forall k, v_polydatas v = objects (rev (Key k :: past)).
  Proof. intros k. rewrite objects_snoc. cbn. rewrite app_nil_r. exact O. Qed.
  Let B' : forall k, Permutation (kinds base) (Text 3 :: Text 1 :: flat_map fixed_of (rev (Key k :: past))).
  Proof. intros k. rewrite fixed_snoc. cbn [fixed_of]. rewrite app_nil_r. exact B. Qed.

  Lemma key_n : exists v', on_key_press "n" v = done v' /\ shows (Key "n" :: past) v'.
  Proof.
    unfold on_key_press. cbn [String.eqb Ascii.eqb Bool.eqb]. rewrite (gr_normals _ _ _ _ _ _ G).
    destruct (lit "n" past) as [os|] eqn:L.
    - destruct gn as [|p l] eqn:GE; [cbn in N; symmetry in N; apply map_nil in N; apply lit_objects in L; congruence|]. rewrite <- GE in *.
      replace (ids gn) with (fst p :: ids l) by (rewrite GE; reflexivity). eexists. split; [reflexivity|]. replace (fst p :: ids l) with (ids gn) by (rewrite GE; reflexivity).
      rewrite remove_all_props. constructor; [|cbn; apply O'].
      exists base, [], ga, gh, gg. rewrite !(lit_other "b"), !(lit_other "h"), !(lit_other "g") by (cbn; congruence). split; [|split; [apply B'|]].
      + destruct G. constructor; cbn; auto using without_ids.
        * apply group_removed; auto. eapply perm_trans; [exact gr_props0|]. rewrite <- app_assoc. apply Permutation_app_head. apply Permutation_app_comm.
        * eapply removed_fresh; eauto.
      + cbn. rewrite L. auto.
    - assert (GE : gn = []) by (apply (map_nil _ _ snd); exact N). rewrite GE. cbn [ids map]. unfold show_normals.
      destruct (normals_shown (v_polydatas v) base gn ga gh gg v G) as (gn' & v' & E & G' & K & PD). exists v'. split; auto. constructor; [|rewrite PD; apply O'].
      exists base, gn', ga, gh, gg. rewrite !(lit_other "b"), !(lit_other "h"), !(lit_other "g") by (cbn; congruence). split; [auto|split; [apply B'|]].
      split; auto. rewrite K, N, O. cbn. rewrite L. destruct (objects (rev past)); reflexivity.
  Qed.
  Lemma key_b : exists v' x, on_key_press "b" v = (v', x) /\ shows (Key "b" :: past) v' /\ x = match objects (rev past) with [] => Some IndexError | _ => None end.
  Proof.
    unfold on_key_press. cbn [String.eqb Ascii.eqb Bool.eqb]. rewrite (gr_axes _ _ _ _ _ _ G).
    destruct (lit "b" past) as [os|] eqn:L.
    - pose proof (lit_objects _ _ _ L) as NE. destruct os as [|d os]; [congruence|].
      destruct ga as [|p l] eqn:GE; [discriminate|]. rewrite <- GE in *.
      replace (ids ga) with (fst p :: ids l) by (rewrite GE; reflexivity). eexists. exists None. split; [reflexivity|]. replace (fst p :: ids l) with (ids ga) by (rewrite GE; reflexivity).
      rewrite remove_all_props. split.
      + constructor; [|cbn; apply O'].
        exists base, gn, [], gh, gg. rewrite !(lit_other "n"), !(lit_other "h"), !(lit_other "g") by (cbn; congruence). split; [|split; [apply B'|]].
        * destruct G. constructor; cbn; auto using without_ids.
          -- apply group_removed; auto. eapply perm_trans; [exact gr_props0|]. rewrite <- !app_assoc. do 2 apply Permutation_app_head. eapply perm_trans; [apply Permutation_app_comm|]. rewrite <- app_assoc. reflexivity.
          -- eapply removed_fresh; eauto.
        * cbn. rewrite L. auto.
      + destruct (objects (rev past)) eqn:E; auto. exfalso. revert L E. clear. induction past as [|e past' IH]; [discriminate|]. intros L E. rewrite objects_snoc in E. apply app_eq_nil in E as [E _].
        destruct e; cbn in L; try (apply IH; auto; fail). destruct (String.eqb key "b"); [|apply IH; auto]. rewrite E in L. destruct (lit "b" past'); discriminate.
    - assert (GE : ga = []) by (apply (map_nil _ _ snd); exact A). rewrite GE. cbn [ids map]. unfold show_axes. rewrite O. destruct (objects (rev past)) as [|d os] eqn:OE.
      + exists v, (Some IndexError). split; auto. split; auto. constructor; [|apply O']. exists base, gn, ga, gh, gg. rewrite !(lit_other "n"), !(lit_other "h"), !(lit_other "g") by (cbn; congruence).
        split; auto. split; [apply B'|]. split; auto. split; auto. rewrite A. cbn. rewrite L, OE. reflexivity.
      + eexists. exists None. split; [reflexivity|]. split; auto. constructor; [|cbn; apply O']. exists base, gn, [(v_next v, CubeAxes d)], gh, gg.
        rewrite !(lit_other "n"), !(lit_other "h"), !(lit_other "g") by (cbn; congruence). split; [|split; [apply B'|]].
        * destruct G. rewrite gr_axes0, GE. constructor; cbn; auto using fresh_nodup; try (intros ? ?; eapply fresh_bound; eauto; fail).
          rewrite GE in gr_props0. cbn [app] in gr_props0. eapply perm_trans; [apply Permutation_app_tail; exact gr_props0|]. rewrite <- !app_assoc. do 2 apply Permutation_app_head.
          rewrite app_assoc. apply Permutation_sym, Permutation_cons_append.
        * split; auto. split; auto. cbn. rewrite L, OE. reflexivity.
  Qed.
  Lemma key_h : exists v' x, on_key_press "h" v = (v', x) /\ shows (Key "h" :: past) v' /\ x = match objects (rev past) with [] => Some IndexError | _ => None end.
  Proof.
    unfold on_key_press. cbn [String.eqb Ascii.eqb Bool.eqb orb]. destruct (gr_oxy _ _ _ _ _ _ G) as (HE & HL). rewrite HE.
    destruct (lit "h" past) as [os|] eqn:L.
    - pose proof (lit_objects _ _ _ L) as NE. destruct os as [|d os]; [congruence|].
      destruct gh as [|p l] eqn:GE; [discriminate|]. destruct l; [|cbn in HL; lia]. rewrite <- GE in *.
      replace (hd_error (ids gh)) with (Some (fst p)) by (rewrite GE; reflexivity). eexists. exists None. split; [reflexivity|].
      assert (R : remove (fst p) v = remove_all (ids gh) v) by (rewrite GE; reflexivity). rewrite R, remove_all_props. split.
      + constructor; [|cbn; apply O'].
        exists base, gn, ga, [], gg. rewrite !(lit_other "n"), !(lit_other "b"), !(lit_other "g") by (cbn; congruence). split; [|split; [apply B'|]].
        * destruct G. constructor; cbn; auto using without_ids.
          -- apply group_removed; auto. eapply perm_trans; [exact gr_props0|]. rewrite <- !app_assoc. do 3 apply Permutation_app_head. apply Permutation_app_comm.
          -- eapply removed_fresh; eauto.
        * cbn. rewrite L. auto.
      + destruct (objects (rev past)) eqn:E; auto. exfalso. revert L E. clear. induction past as [|e past' IH]; [discriminate|]. intros L E. rewrite objects_snoc in E. apply app_eq_nil in E as [E _].
        destruct e; cbn in L; try (apply IH; auto; fail). destruct (String.eqb key "h"); [|apply IH; auto]. rewrite E in L. destruct (lit "h" past'); discriminate.
    - assert (GE : gh = []) by (apply (map_nil _ _ snd); exact H). rewrite GE. cbn [ids map hd_error]. unfold plane_on. rewrite O. destruct (objects (rev past)) as [|d os] eqn:OE.
      + exists v, (Some IndexError). split; auto. split; auto. constructor; [|apply O']. exists base, gn, ga, gh, gg. rewrite !(lit_other "n"), !(lit_other "b"), !(lit_other "g") by (cbn; congruence).
        split; auto. split; [apply B'|]. split; auto. split; auto. split; auto. rewrite H. cbn. rewrite L, OE. reflexivity.
      + eexists. exists None. split; [reflexivity|]. split; auto. constructor; [|cbn; apply O']. exists base, gn, ga, [(v_next v, oxy_rectangle (points d) oxy_color)], gg.
        rewrite !(lit_other "n"), !(lit_other "b"), !(lit_other "g") by (cbn; congruence). split; [|split; [apply B'|]].
        * destruct G. constructor; cbn; auto using fresh_nodup; try (intros ? ?; eapply fresh_bound; eauto; fail).
          rewrite GE in gr_props0. cbn [app] in gr_props0. eapply perm_trans; [apply Permutation_app_tail; exact gr_props0|]. rewrite <- !app_assoc. do 3 apply Permutation_app_head.
          apply Permutation_sym, Permutation_cons_append.
        * split; auto. split; auto. split; auto. cbn. rewrite L, OE. reflexivity.
  Qed.
  Lemma key_g : exists v' x, on_key_press "g" v = (v', x) /\ shows (Key "g" :: past) v' /\ x = match objects (rev past) with [] => Some IndexError | _ => None end.
  Proof.
    unfold on_key_press. cbn [String.eqb Ascii.eqb Bool.eqb orb]. rewrite (gr_planes _ _ _ _ _ _ G).
    destruct (lit "g" past) as [os|] eqn:L.
    - pose proof (lit_objects _ _ _ L) as NE. destruct os as [|d os]; [congruence|].
      destruct gg as [|p l] eqn:GE; [discriminate|]. rewrite <- GE in *.
      replace (ids gg) with (fst p :: ids l) by (rewrite GE; reflexivity). eexists. exists None. split; [reflexivity|]. replace (fst p :: ids l) with (ids gg) by (rewrite GE; reflexivity).
      rewrite remove_all_props. split.
      + constructor; [|cbn; apply O'].
        exists base, gn, ga, gh, []. rewrite !(lit_other "n"), !(lit_other "b"), !(lit_other "h") by (cbn; congruence). split; [|split; [apply B'|]].
        * destruct G. constructor; cbn; auto using without_ids.
          -- apply group_removed; auto. eapply perm_trans; [exact gr_props0|]. rewrite <- !app_assoc. cbn [app]. rewrite app_nil_r || idtac. reflexivity.
          -- eapply removed_fresh; eauto.
        * cbn. rewrite L. auto.
      + destruct (objects (rev past)) eqn:E; auto. exfalso. revert L E. clear. induction past as [|e past' IH]; [discriminate|]. intros L E. rewrite objects_snoc in E. apply app_eq_nil in E as [E _].
        destruct e; cbn in L; try (apply IH; auto; fail). destruct (String.eqb key "g"); [|apply IH; auto]. rewrite E in L. destruct (lit "g" past'); discriminate.
    - assert (GE : gg = []) by (apply (map_nil _ _ snd); exact P). rewrite GE. unfold axes_planes_on. rewrite O. destruct (objects (rev past)) as [|d os] eqn:OE.
      + exists v, (Some IndexError). split; auto. split; auto. constructor; [|apply O']. exists base, gn, ga, gh, gg. rewrite !(lit_other "n"), !(lit_other "b"), !(lit_other "h") by (cbn; congruence).
        split; auto. split; [apply B'|]. split; auto. split; auto. split; auto. rewrite P. cbn. rewrite L, OE. reflexivity.
      + eexists. exists None. split; [reflexivity|]. split; auto. constructor; [|cbn; apply O']. exists base, gn, ga, gh,
          [(v_next v, oxy_rectangle (points d) (V3 0 0 255)); (S (v_next v), oxz_rectangle (points d) (V3 255 0 0)); (S (S (v_next v)), oyz_rectangle (points d) white)].
        rewrite !(lit_other "n"), !(lit_other "b"), !(lit_other "h") by (cbn; congruence). split; [|split; [apply B'|]].
        * destruct G. constructor; cbn; auto using fresh_nodup; try (intros ? ?; eapply fresh_bound; eauto; fail).
          -- rewrite GE, app_nil_r in gr_props0. rewrite <- !app_assoc. cbn [app]. rewrite !app_assoc. apply Permutation_app_tail. rewrite <- !app_assoc. exact gr_props0.
          -- assert (F1 := fun d' => fresh_bound (v_props v) (v_next v) d' gr_fresh0).
             assert (N1 := fun d' => fresh_nodup (v_props v) (v_next v) d' gr_nodup0 gr_fresh0).
             apply fresh_nodup; [apply fresh_nodup; [auto|auto]|]. all: first [apply F1 | apply fresh_bound, F1].
          -- apply fresh_bound, fresh_bound, fresh_bound. exact gr_fresh0.
        * split; auto. split; auto. split; auto. cbn. rewrite L, OE. reflexivity.
  Qed.
End Toggles.

(** ** Any session *)
(** The keys that need an object *)
Definition needs_object (e : event) : bool :=
  match e with Key k => String.eqb k "b" || String.eqb k "h" || String.eqb k "g" | _ => false end.
Lemma step_shows : forall past v e, shows past v -> session_event e -> exists v', step v e = (v', if needs_object e && (List.length (objects (rev past)) =? 0) then Some IndexError else None) /\ shows (e :: past) v'.
Proof.
  intros past v e S E. pose proof S as [(base & gn & ga & gh & gg & G & B & N & A & H & P) O].
  destruct e; cbn [session_event] in E; try contradiction.
  - cbn [step needs_object]. destruct (string_dec key "n") as [->|K1].
    { destruct (key_n past v base gn ga gh gg G B N A H P O) as (v' & E' & S'). exists v'. rewrite E'. auto. }
    assert (X : forall x, x = match objects (rev past) with [] => Some IndexError | _ => None end -> x = if true && (List.length (objects (rev past)) =? 0) then Some IndexError else None) by (intros x ->; destruct (objects (rev past)); auto).
    destruct (string_dec key "b") as [->|K2].
    { destruct (key_b past v base gn ga gh gg G B N A H P O) as (v' & x & E' & S' & ->). exists v'. rewrite E'. split; auto. f_equal. apply X. auto. }
    destruct (string_dec key "h") as [->|K3].
    { destruct (key_h past v base gn ga gh gg G B N A H P O) as (v' & x & E' & S' & ->). exists v'. rewrite E'. split; auto. f_equal. apply X. auto. }
    destruct (string_dec key "g") as [->|K4].
    { destruct (key_g past v base gn ga gh gg G B N A H P O) as (v' & x & E' & S' & ->). exists v'. rewrite E'. split; auto. f_equal. apply X. auto. }
    unfold on_key_press. rewrite (proj2 (String.eqb_neq _ _) K1), (proj2 (String.eqb_neq _ _) K2), (proj2 (String.eqb_neq _ _) K3), (proj2 (String.eqb_neq _ _) K4). cbn [orb andb].
    destruct (String.eqb key "e" || String.eqb key "q"); [eexists; split; [reflexivity|]; apply other_key with v; auto|].
    destruct (String.eqb key "x").
    { unfold save. destruct (fold_left _ _ _); (eexists; split; [reflexivity|]; apply other_key with v; auto). }
    destruct (String.eqb key "c"); (eexists; split; [reflexivity|]; apply other_key with v; auto).
  - cbn [step needs_object andb]. unfold add_polydata. assert (R : String.eqb representation "surface" || String.eqb representation "wireframe" = true) by (destruct E as [-> | ->]; reflexivity). rewrite R.
    eexists. split; [reflexivity|]. apply (added past v _ (with_polydata d)); auto. intros. repeat split.
  - cbn [step needs_object andb]. eexists. split; [reflexivity|]. apply (added past v (AddPoint p c) (with_polydata (Dataset [single_vec p] [[0]]))); auto. intros. repeat split.
  - cbn [step needs_object andb]. eexists. split; [reflexivity|]. apply (added past v (AddLine p q c) (with_polydata (Dataset [single_vec p; single_vec q] [[0; 1]]))); auto. intros. repeat split.
  - cbn [step needs_object andb]. unfold add_vector. unfold Reqb. destruct (Req_EM_T scale 0); [contradiction|]. eexists. split; [reflexivity|].
    apply (added past v (AddVector p value scale c) (fun w => w)); auto; [intros; repeat split|]. cbn. rewrite app_nil_r. reflexivity.
Qed.
Fixpoint errors (past es : list event) : list exn :=
  match es with
  | [] => []
  | e :: es => (if needs_object e && (List.length (objects (rev past)) =? 0) then [IndexError] else []) ++ errors (e :: past) es
  end.
Lemma run_shows : forall es past v, shows past v -> Forall session_event es -> exists v', run es v = (v', errors past es) /\ shows (rev es ++ past) v'.
Proof.
  induction es as [|e es IH]; intros past v S F; [exists v; auto|]. apply Forall_cons_iff in F as [E F].
  destruct (step_shows past v e S E) as (v' & X & S'). destruct (IH (e :: past) v' S' F) as (v'' & R & S''). exists v''. cbn [run errors]. rewrite X, R.
  split; [destruct (_ && _); reflexivity|]. cbn [rev]. rewrite <- app_assoc. exact S''.
Qed.
Lemma run_app : forall es fs v, run (es ++ fs) v = let (v', xs) := run es v in let (v'', ys) := run fs v' in (v'', xs ++ ys).
Proof.
  induction es as [|e es IH]; intros fs v; [cbn; destruct (run fs v); reflexivity|]. cbn [app run]. destruct (step v e) as [v1 x]. rewrite IH.
  destruct (run es v1) as [v2 xs]. destruct (run fs v2) as [v3 ys]. destruct x; reflexivity.
Qed.

(** ** Parity *)
Lemma lit_parity : forall k es, lit k (rev es) <> None <-> Nat.odd (presses k es false) = true.
Proof.
  intros k es.
  assert (X : forall es past, (lit k (rev es ++ past) <> None) <-> xorb (Nat.odd (presses k es (negb (List.length (objects (rev past)) =? 0)))) (match lit k past with Some _ => true | None => false end) = true).
  { clear es. induction es as [|e es IH]; intros past; [cbn; destruct (lit k past); split; congruence|]. cbn [rev presses]. rewrite <- app_assoc. cbn [app]. rewrite IH.
    assert (OE : negb (List.length (objects (rev (e :: past))) =? 0) = negb (List.length (objects (rev past)) =? 0) || negb (List.length (object_of e) =? 0)).
    { rewrite objects_snoc, app_length. destruct (List.length (objects (rev past))), (List.length (object_of e)); reflexivity. }
    rewrite OE. set (n := presses k es _). rewrite Nat.odd_add.
    assert (L : forall a b c d : bool, xorb a b = c -> xorb (xorb d a) (xorb d b) = c) by (intros [] [] c [] <-; reflexivity).
    assert (Q : (match lit k (e :: past) with Some _ => true | None => false end) =
      xorb (Nat.odd (match e with Key k' => if String.eqb k' k && negb (List.length (objects (rev past)) =? 0) then 1 else 0 | _ => 0 end)) (match lit k past with Some _ => true | None => false end)).
    { destruct e; cbn [lit]; try (cbn; destruct (lit k past); reflexivity). destruct (String.eqb key k); cbn [andb]; [|cbn; destruct (lit k past); reflexivity].
      destruct (lit k past) as [os|] eqn:LE.
      - destruct (objects (rev past)) eqn:E; [|reflexivity]. exfalso. revert LE E. clear. revert os. induction past as [|e past' IH']; [discriminate|]. intros os LE E. rewrite objects_snoc in E. apply app_eq_nil in E as [E _].
        destruct e; cbn in LE; try (eapply IH'; eauto; fail). destruct (String.eqb key k); [|eapply IH'; eauto]. rewrite E in LE. destruct (lit k past'); discriminate.
      - destruct (objects (rev past)); reflexivity. }
    rewrite Q. clear. destruct (Nat.odd n), (Nat.odd _), (lit k past); cbn; tauto. }
  specialize (X es []). rewrite app_nil_r in X. cbn in X. rewrite X. rewrite xorb_false_r. tauto.
Qed.

(** ** The planes *)
Lemma low_met : forall (q : vec -> R) ps p, exists r, In r (p :: ps) /\ q r = fold_left (fun m x => Rmin m (q x)) ps (q p) /\ forall x, In x (p :: ps) -> (q r <= q x)%R.
Proof.
  intros q ps p. assert (X : forall ps a, (exists r, In r ps /\ q r = fold_left (fun m x => Rmin m (q x)) ps a) \/ fold_left (fun m x => Rmin m (q x)) ps a = a).
  { clear. induction ps as [|p ps IH]; intros a; cbn; auto. destruct (IH (Rmin a (q p))) as [(r & I & E)|E]; [left; eauto|]. unfold Rmin in *. destruct (Rle_dec a (q p)); auto. left. exists p. auto. }
  assert (Y : forall ps a, (fold_left (fun m x => Rmin m (q x)) ps a <= a)%R /\ forall x, In x ps -> (fold_left (fun m x => Rmin m (q x)) ps a <= q x)%R).
  { clear. induction ps as [|p ps IH]; intros a; cbn; [split; [lra|tauto]|]. destruct (IH (Rmin a (q p))) as [H1 H2]. pose proof (Rmin_l a (q p)). pose proof (Rmin_r a (q p)). split; [lra|]. intros x [-> |I]; [lra|auto]. }
  destruct (Y ps (q p)) as [Y1 Y2]. destruct (X ps (q p)) as [(r & I & E)|E].
  - exists r. split; [right; auto|]. split; auto. intros x [<- |Ix]; rewrite E; auto.
  - exists p. split; [left; auto|]. split; auto. intros x [<- |Ix]; [lra|]. rewrite <- E at 1. auto.
Qed.
Lemma high_met : forall (q : vec -> R) ps p, exists r, In r (p :: ps) /\ q r = fold_left (fun m x => Rmax m (q x)) ps (q p) /\ forall x, In x (p :: ps) -> (q x <= q r)%R.
Proof.
  intros q ps p. assert (X : forall ps a, (exists r, In r ps /\ q r = fold_left (fun m x => Rmax m (q x)) ps a) \/ fold_left (fun m x => Rmax m (q x)) ps a = a).
  { clear. induction ps as [|p ps IH]; intros a; cbn; auto. destruct (IH (Rmax a (q p))) as [(r & I & E)|E]; [left; eauto|]. unfold Rmax in *. destruct (Rle_dec a (q p)); auto. left. exists p. auto. }
  assert (Y : forall ps a, (a <= fold_left (fun m x => Rmax m (q x)) ps a)%R /\ forall x, In x ps -> (q x <= fold_left (fun m x => Rmax m (q x)) ps a)%R).
  { clear. induction ps as [|p ps IH]; intros a; cbn; [split; [lra|tauto]|]. destruct (IH (Rmax a (q p))) as [H1 H2]. pose proof (Rmax_l a (q p)). pose proof (Rmax_r a (q p)). split; [lra|]. intros x [-> |I]; [lra|auto]. }
  destruct (Y ps (q p)) as [Y1 Y2]. destruct (X ps (q p)) as [(r & I & E)|E].
  - exists r. split; [right; auto|]. split; auto. intros x [<- |Ix]; rewrite E; auto.
  - exists p. split; [left; auto|]. split; auto. intros x [<- |Ix]; [lra|]. rewrite <- E. auto.
Qed.
Lemma range_hull : forall q ps p, In p ps -> (fst (range q ps) <= q p)%R /\ (q p <= snd (range q ps))%R.
Proof.
  intros q [|a ps] p I; [destruct I|]. cbn [range fst snd]. destruct (low_met q ps a) as (r & _ & <- & L). destruct (high_met q ps a) as (t & _ & <- & H). auto.
Qed.
Lemma range_met : forall q ps, ps <> [] -> exists a b, In a ps /\ In b ps /\ q a = fst (range q ps) /\ q b = snd (range q ps).
Proof.
  intros q [|p ps] N; [congruence|]. destruct (low_met q ps p) as (r & I & E & _). destruct (high_met q ps p) as (t & J & F & _). exists r, t. auto.
Qed.
Lemma share : forall m M x, (m <= x)%R -> (x <= M)%R -> exists s, (0 <= s <= 1)%R /\ x = (m - 0.1 * (M - m) + s * (M + 0.1 * (M - m) - (m - 0.1 * (M - m))))%R.
Proof.
  intros m M x A B. destruct (Req_dec m M) as [E|N]; [exists 0%R; split; lra|].
  set (d := (M + 0.1 * (M - m) - (m - 0.1 * (M - m)))%R). assert (D : (0 < d)%R) by (unfold d; lra).
  exists ((x - (m - 0.1 * (M - m))) / d)%R. split; [|unfold Rdiv; rewrite Rmult_assoc, Rinv_l; lra]. split.
  - apply Rmult_le_pos; [lra|]. apply Rlt_le, Rinv_0_lt_compat. lra.
  - apply Rmult_le_reg_r with d; [lra|]. unfold Rdiv. rewrite Rmult_assoc, Rinv_l; [unfold d; lra|lra].
Qed.
Lemma share_down : forall m M x, (m <= x)%R -> (x <= M)%R -> exists s, (0 <= s <= 1)%R /\ x = (M + 0.1 * (M - m) + s * (m - 0.1 * (M - m) - (M + 0.1 * (M - m))))%R.
Proof. intros m M x A B. destruct (share _ _ _ A B) as (s & S & E). exists (1 - s)%R. split; lra. Qed.

(** ** The file *)
Lemma last_kept : forall (l : list dataset) a, fold_left (fun _ d => Some d) l a = match rev l with d :: _ => Some d | [] => a end.
Proof. intros l a. rewrite <- (rev_involutive l) at 1. rewrite <- fold_left_rev_right, rev_involutive. destruct (rev l); reflexivity. Qed.
Lemma remove_all_kept : forall l v, v_polydatas (remove_all l v) = v_polydatas v /\ v_saved (remove_all l v) = v_saved v.
Proof. induction l as [|a l IH]; intros v; cbn; auto. destruct (IH (remove a v)). auto. Qed.
Lemma normals_kept : forall ds v, v_polydatas (fst (show_normals_of ds v)) = v_polydatas v /\ v_saved (fst (show_normals_of ds v)) = v_saved v.
Proof. induction ds as [|d ds IH]; intros v; cbn; auto. destruct (v_normals v); cbn; auto. match goal with |- context [show_normals_of ds ?w] => destruct (IH w) end. auto. Qed.
Lemma key_saves : forall k v v' x, on_key_press k v = (v', x) -> v_polydatas v' = v_polydatas v /\
  v_saved v' = if String.eqb k "x" then match rev (v_polydatas v) with d :: _ => Some d | [] => v_saved v end else v_saved v.
Proof.
  intros k v v' x E. assert (E' : v' = fst (on_key_press k v)) by (rewrite E; reflexivity). rewrite E'. clear E E' v' x. unfold on_key_press.
  destruct (String.eqb_spec k "n") as [-> |_]; [|destruct (String.eqb_spec k "b") as [-> |_]; [|destruct (String.eqb_spec k "e") as [-> |_]; [|destruct (String.eqb_spec k "q") as [-> |_]; [|destruct (String.eqb_spec k "x") as [-> |_];
    [|destruct (String.eqb_spec k "c") as [-> |_]; [|destruct (String.eqb_spec k "h") as [-> |_]; [|destruct (String.eqb_spec k "g") as [-> |_]]]]]]]]; cbn [String.eqb Ascii.eqb Bool.eqb orb done fst]; auto.
  - destruct (v_normals v) as [[|a l]|[|]]; auto; try apply normals_kept. cbn [done fst with_normals v_polydatas v_saved]. apply (remove_all_kept (a :: l) v).
  - destruct (v_axes v) as [|a l]; [|apply (remove_all_kept (a :: l) v)]. unfold show_axes. destruct (v_polydatas v) eqn:P; cbn; rewrite ?P; auto.
  - unfold save. rewrite last_kept. destruct (rev (v_polydatas v)); auto.
  - destruct (v_oxy v); auto. unfold plane_on. destruct (v_polydatas v) eqn:P; cbn; rewrite ?P; auto.
  - destruct (v_planes v) as [[|a l]|]; [|apply (remove_all_kept (a :: l) v)|]; unfold axes_planes_on; destruct (v_polydatas v) eqn:P; cbn; rewrite ?P; auto.
Qed.

(** ** The window and the picture of it *)
Definition closes (e : event) : bool := match e with Key k => String.eqb k "e" || String.eqb k "q" | _ => false end.
Lemma closes_key : forall e, closes e = true -> e = Key "e" \/ e = Key "q".
Proof. intros e H. destruct e; try discriminate. cbn in H. apply orb_true_iff in H as [H|H]; apply String.eqb_eq in H as ->; auto. Qed.
Lemma remove_all_window : forall l v, v_open (remove_all l v) = v_open v /\ v_shot (remove_all l v) = v_shot v.
Proof. induction l as [|a l IH]; intros v; cbn; auto. destruct (IH (remove a v)). auto. Qed.
Lemma normals_window : forall ds v, v_open (fst (show_normals_of ds v)) = v_open v /\ v_shot (fst (show_normals_of ds v)) = v_shot v.
Proof. induction ds as [|d ds IH]; intros v; cbn; auto. destruct (v_normals v); cbn; auto. match goal with |- context [show_normals_of ds ?w] => destruct (IH w) end. auto. Qed.
Lemma polydata_window : forall d c r v, v_open (fst (add_polydata d c r v)) = v_open v /\ v_shot (fst (add_polydata d c r v)) = v_shot v.
Proof. intros. unfold add_polydata. destruct (_ || _); auto. Qed.
Lemma axes_window : forall v, v_open (fst (show_axes v)) = v_open v /\ v_shot (fst (show_axes v)) = v_shot v.
Proof. intros v. unfold show_axes. destruct (v_polydatas v); auto. Qed.
Lemma plane_window : forall v, v_open (fst (plane_on v)) = v_open v /\ v_shot (fst (plane_on v)) = v_shot v.
Proof. intros v. unfold plane_on. destruct (v_polydatas v); auto. Qed.
Lemma planes_window : forall v, v_open (fst (axes_planes_on v)) = v_open v /\ v_shot (fst (axes_planes_on v)) = v_shot v.
Proof. intros v. unfold axes_planes_on. destruct (v_polydatas v); auto. Qed.
Lemma save_window : forall v, v_open (fst (save v)) = v_open v /\ v_shot (fst (save v)) = v_shot v.
Proof. intros v. unfold save. cbn [done fst]. destruct (fold_left _ _ _); auto. Qed.
Lemma step_window : forall e v v' x, step v e = (v', x) -> v_open v' = (if closes e then false else v_open v) /\ (e <> Key "c" -> v_shot v' = v_shot v).
Proof.
  intros e v v' x E. assert (E' : v' = fst (step v e)) by (rewrite E; reflexivity). rewrite E'. clear E E' v' x.
  assert (K : forall w, v_open w = v_open v /\ v_shot w = v_shot v -> v_open w = v_open v /\ (e <> Key "c" -> v_shot w = v_shot v)) by (intros w [A B]; auto).
  destruct e; cbn [step closes]; try (apply K; auto using polydata_window, axes_window, plane_window, planes_window, save_window; fail).
  - unfold on_key_press.
    destruct (String.eqb_spec key "n") as [-> |_]; [|destruct (String.eqb_spec key "b") as [-> |_]; [|destruct (String.eqb_spec key "e") as [-> |_]; [|destruct (String.eqb_spec key "q") as [-> |_]; [|destruct (String.eqb_spec key "x") as [-> |_];
      [|destruct (String.eqb_spec key "c") as [-> |_]; [|destruct (String.eqb_spec key "h") as [-> |_]; [|destruct (String.eqb_spec key "g") as [-> |_]]]]]]]]; cbn [String.eqb Ascii.eqb Bool.eqb orb done fst]; auto.
    + apply K. destruct (v_normals v) as [[|a l]|[|]]; auto; try apply normals_window. apply (remove_all_window (a :: l) v).
    + apply K. destruct (v_axes v) as [|a l]; [apply axes_window|apply (remove_all_window (a :: l) v)].
    + apply K, save_window.
    + cbn. split; auto. congruence.
    + apply K. destruct (v_oxy v); auto. apply plane_window.
    + apply K. destruct (v_planes v) as [[|a l]|]; [|apply (remove_all_window (a :: l) v)|]; apply planes_window.
  - apply K. unfold add_vector. destruct (Reqb scale 0); auto.
  - apply K. apply normals_window.
Qed.
