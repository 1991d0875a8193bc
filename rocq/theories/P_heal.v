(** Proofs about heal_normals. *)
From Coq Require Import List Arith Bool Lia Permutation.
From Verif Require Import M_base M_merge P_merge M_mesh S_mesh P_mesh M_connectivity S_connectivity P_connectivity.
Import ListNotations.
Open Scope nat_scope.

(** ** Reversing a face *)
Lemma flip_triangle : forall f, is_triangle (flip_face f) = is_triangle f.
Proof. intros f. unfold is_triangle, flip_face. cbn [f0 f3]. apply Nat.eqb_sym. Qed.
Lemma flip_cycle : forall f u v, In (u, v) (cycle_edges (flip_face f)) <-> In (v, u) (cycle_edges f).
Proof.
  intros [a b c d] u v. unfold cycle_edges, flip_face. cbn [f0 f1 f2 f3].
  destruct (Nat.eq_dec a d) as [<-|]; [destruct (Nat.eq_dec a a); [|congruence]|destruct (Nat.eq_dec d a); [congruence|]];
  simpl; split; intros H; repeat (destruct H as [H|H]; [injection H as <- <-; auto 8|]); tauto.
Qed.
Lemma flip_uses : forall f v, uses [flip_face f] v <-> uses [f] v.
Proof.
  intros f v. split; intros (g & [<-|[]] & H); [exists f|exists (flip_face f)]; (split; [left; auto|]); unfold flip_face in *;
  cbn [f0 f1 f2 f3] in *; tauto.
Qed.
Lemma flip_simple : forall f, simple_face f -> simple_face (flip_face f).
Proof.
  intros [a b c d]. unfold simple_face, flip_face. cbn [f0 f1 f2 f3].
  destruct (Nat.eq_dec a d) as [<-|]; [destruct (Nat.eq_dec a a); [|congruence]|destruct (Nat.eq_dec d a); [congruence|]]; intros H.
  - change [a; c; b] with ([a] ++ [c] ++ [b] ++ []). change [a; b; c] with ([a] ++ [b] ++ [c] ++ []) in H.
    eapply Permutation_NoDup; [|exact H]. apply Permutation_app_head. simpl. constructor.
  - apply (Permutation_NoDup (Permutation_rev _) H).
Qed.
Definition flip_if (b : bool) (f : face) : face := if b then flip_face f else f.
Lemma flip_if_uses : forall b f v, uses [flip_if b f] v <-> uses [f] v.
Proof. intros [|] f v; [apply flip_uses|reflexivity]. Qed.
Lemma flip_if_simple : forall b f, simple_face f -> simple_face (flip_if b f).
Proof. intros [|] f; [apply flip_simple|auto]. Qed.
Lemma flip_if_triangle : forall b f, is_triangle (flip_if b f) = is_triangle f.
Proof. intros [|] f; [apply flip_triangle|auto]. Qed.
Lemma flip_if_edge : forall b f u v, In (u, v) (cycle_edges (flip_if b f)) \/ In (v, u) (cycle_edges (flip_if b f)) <->
  In (u, v) (cycle_edges f) \/ In (v, u) (cycle_edges f).
Proof. intros [|] f u v; cbn [flip_if]; [rewrite !flip_cycle|]; tauto. Qed.
Lemma flip_if_if : forall a b f, flip_if a (flip_if b f) = flip_if (xorb a b) f.
Proof. intros [|] [|] f; cbn; auto. apply flip_flip. Qed.
Lemma neighbours_flip : forall a b f g, edge_neighbours f g -> edge_neighbours (flip_if a f) (flip_if b g).
Proof.
  intros a b f g (u & v & N & C & E1 & E2). exists u, v. split; auto. split; [|split; apply flip_if_edge; auto].
  intros x. rewrite !flip_if_uses. apply C.
Qed.

(** ** One step of the comparison *)
Definition ncorners (f : face) : nat := if is_triangle f then 3 else 4.

Lemma where_pos : forall (p : nat -> bool) l, where_ p l =
  match l with [] => [] | a :: t => (if p a then [0] else []) ++ map S (where_ p t) end.
Proof. intros p [|a t]; [reflexivity|apply where_app_cons]. Qed.

Lemma in_dec_entries : forall f v, uses [f] v <-> In v (entries f).
Proof. intros f v. rewrite uses_entries. cbn [flat_map]. rewrite app_nil_r. reflexivity. Qed.

(** Around a face, the corners after and before [v]. *)
Lemma roll_face : forall f v, simple_face f -> uses [f] v ->
  exists p x z, position v (entries f) = Ok p /\
    second (roll (firstn (ncorners f) (entries f)) p) = Ok x /\ final (roll (firstn (ncorners f) (entries f)) p) = Ok z /\
    x <> z /\ (forall w, In (v, w) (cycle_edges f) <-> w = x) /\ (forall w, In (w, v) (cycle_edges f) <-> w = z).
Proof.
  intros [a b c d] v S U. apply in_dec_entries in U. unfold entries in U. cbn [f0 f1 f2 f3] in U.
  unfold simple_face in S. unfold ncorners, is_triangle, position, cycle_edges, entries in *. cbn [f0 f1 f2 f3] in *.
  destruct (Nat.eq_dec a d) as [<-|D].
  - rewrite Nat.eqb_refl. inversion S as [|? ? Sa S1]; subst. inversion S1 as [|? ? Sb S2]; subst. simpl in Sa, Sb.
    assert (a <> b /\ a <> c /\ b <> c) as (Nab & Nac & Nbc) by intuition.
    assert (C : v = a \/ v = b \/ v = c) by (simpl in U; intuition).
    destruct C as [->|[->| ->]]; [exists 0, b, c|exists 1, c, a|exists 2, a, b];
    (split; [rewrite !where_pos; rewrite ?Nat.eqb_refl, ?(proj2 (Nat.eqb_neq b a)), ?(proj2 (Nat.eqb_neq c a)), ?(proj2 (Nat.eqb_neq c b)) by auto; reflexivity|]);
    (split; [reflexivity|]); (split; [reflexivity|]); (split; [auto|]);
    (split; intros w; simpl; (split; [intros H; repeat (destruct H as [H|H]; [injection H; intros; congruence|]); tauto|intros ->; tauto])).
  - rewrite (proj2 (Nat.eqb_neq a d)) by auto.
    inversion S as [|? ? Sa S1]; subst. inversion S1 as [|? ? Sb S2]; subst. inversion S2 as [|? ? Sc S3]; subst. simpl in Sa, Sb, Sc.
    assert (a <> b /\ a <> c /\ b <> c /\ b <> d /\ c <> d) as (Nab & Nac & Nbc & Nbd & Ncd) by intuition.
    assert (C : v = a \/ v = b \/ v = c \/ v = d) by (simpl in U; intuition).
    destruct C as [->|[->|[->| ->]]]; [exists 0, b, d|exists 1, c, a|exists 2, d, b|exists 3, a, c];
    (split; [rewrite !where_pos; rewrite ?Nat.eqb_refl, ?(proj2 (Nat.eqb_neq b a)), ?(proj2 (Nat.eqb_neq c a)), ?(proj2 (Nat.eqb_neq c b)),
       ?(proj2 (Nat.eqb_neq d a)), ?(proj2 (Nat.eqb_neq d b)), ?(proj2 (Nat.eqb_neq d c)) by auto; reflexivity|]);
    (split; [reflexivity|]); (split; [reflexivity|]); (split; [auto|]);
    (split; intros w; simpl; (split; [intros H; repeat (destruct H as [H|H]; [injection H; intros; congruence|]); tauto|intros ->; tauto])).
Qed.

Lemma must_flip_ok : forall order a b, iteration order -> simple_face a -> simple_face b -> edge_neighbours a b ->
  exists r, must_flip order (ncorners a) (ncorners b) a b = Ok (Some r) /\
    (r = true <-> exists u v, In (u, v) (cycle_edges a) /\ In (u, v) (cycle_edges b)).
Proof.
  intros order a b O Sa Sb (u & v & N & C & Ea & Eb). unfold must_flip.
  set (l := inter (nodup Nat.eq_dec (entries a)) (entries b)).
  assert (M : forall x, In x (order l) <-> x = u \/ x = v).
  { intros x. rewrite <- C. rewrite !in_dec_entries. split.
    - intros I. apply (Permutation_in _ (O l)) in I. unfold l in I. apply in_inter in I. rewrite nodup_In in I. auto.
    - intros I. apply (Permutation_in _ (Permutation_sym (O l))). unfold l. apply in_inter. rewrite nodup_In. auto. }
  assert (ND : NoDup (order l)).
  { apply (Permutation_NoDup (Permutation_sym (O l))). apply nodup_inter, NoDup_nodup. }
  assert (P : exists v1 v2, order l = [v1; v2] /\ v1 <> v2 /\ (v1 = u /\ v2 = v \/ v1 = v /\ v2 = u)).
  { destruct (order l) as [|x [|y [|z k]]].
    - exfalso. apply (proj2 (M u)). auto.
    - exfalso. apply N. destruct (proj2 (M u)) as [<-|[]]; auto. destruct (proj2 (M v)) as [|[]]; auto.
    - exists x, y. split; auto. inversion ND as [|? ? Nx]; subst. simpl in Nx. assert (x <> y) by (intros ->; tauto). split; auto.
      assert (Hx : x = u \/ x = v) by (apply M; simpl; auto). assert (Hy : y = u \/ y = v) by (apply M; simpl; auto).
      destruct Hx, Hy; subst; tauto.
    - exfalso. inversion ND as [|? ? Nx N1]; subst. inversion N1 as [|? ? Ny N2]; subst. simpl in Nx, Ny.
      assert (Hx : x = u \/ x = v) by (apply M; simpl; auto). assert (Hy : y = u \/ y = v) by (apply M; simpl; auto).
      assert (Hz : z = u \/ z = v) by (apply M; simpl; auto). destruct Hx, Hy, Hz; subst; tauto. }
  destruct P as (v1 & v2 & El & N12 & W). rewrite El.
  assert (Ea' : In (v1, v2) (cycle_edges a) \/ In (v2, v1) (cycle_edges a)) by (destruct W as [[-> ->]|[-> ->]]; tauto).
  assert (Eb' : In (v1, v2) (cycle_edges b) \/ In (v2, v1) (cycle_edges b)) by (destruct W as [[-> ->]|[-> ->]]; tauto).
  assert (C' : forall x, uses [a] x /\ uses [b] x <-> x = v1 \/ x = v2) by (intros x; rewrite C; destruct W as [[-> ->]|[-> ->]]; tauto).
  clear M ND El W C Ea Eb N. clear l.
  destruct (proj2 (C' v1)) as [Ua Ub]; auto.
  destruct (roll_face a v1 Sa Ua) as (pa & xa & za & Pa & Xa & Za & Da & Na & Ma).
  destruct (roll_face b v1 Sb Ub) as (pb & xb & zb & Pb & Xb & Zb & Db & Nb & Mb).
  rewrite Pa. cbn [bind]. rewrite Pb. cbn [bind]. rewrite Xa. cbn [bind].
  assert (Common : (exists u v, In (u, v) (cycle_edges a) /\ In (u, v) (cycle_edges b)) <->
    (In (v1, v2) (cycle_edges a) /\ In (v1, v2) (cycle_edges b)) \/ (In (v2, v1) (cycle_edges a) /\ In (v2, v1) (cycle_edges b))).
  { split; [|intros [H|H]; eauto]. intros (p & q & A & B). pose proof (cycle_uses _ _ _ A) as [A1 A2]. pose proof (cycle_uses _ _ _ B) as [B1 B2].
    assert (NE : p <> q) by (intros ->; destruct (roll_face a q Sa A1) as (?&x&z&_&_&_&D&K1&K2); apply K1 in A as A3; apply K2 in A; congruence).
    assert (Hp : p = v1 \/ p = v2) by (apply C'; auto). assert (Hq : q = v1 \/ q = v2) by (apply C'; auto).
    destruct Hp, Hq; subst; tauto. }
  rewrite Na, Ma in Ea', Common. rewrite Nb, Mb in Eb', Common.
  destruct (Nat.eqb_spec xa v2) as [->|NE].
  - rewrite Xb. cbn [bind]. exists (xb =? v2). split; auto. rewrite Common, Nat.eqb_eq. intuition congruence.
  - destruct Ea' as [|Ea']; [congruence|]. rewrite Zb. cbn [bind]. exists (zb =? v2). split; auto.
    rewrite Common, Nat.eqb_eq. intuition congruence.
Qed.

(** ** What the loop can do to the faces *)
Lemma foldM_inv : forall A B (f : B -> A -> res B) (P : B -> Prop) l b b',
  (forall b a b', P b -> f b a = Ok b' -> P b') -> P b -> foldM f l b = Ok b' -> P b'.
Proof.
  induction l as [|a l IH]; intros b b' H Pb E; cbn [foldM] in E.
  - injection E as <-. auto.
  - destruct (f b a) as [b1|] eqn:E1; cbn [bind] in E; [|discriminate].
    eapply IH; [exact H| |exact E]. eapply H; eauto.
Qed.
Lemma reversed_refl : forall fs, reversed_by (fun _ => false) fs fs.
Proof. intros fs. split; auto. Qed.
Lemma reversed_set : forall s fs fs' j b, reversed_by s fs fs' -> nth_error fs' j = Some b ->
  reversed_by (fun k => if k =? j then negb (s k) else s k) fs (set_nth fs' j (flip_face b)).
Proof.
  intros s fs fs' j b [L H] E. split; [rewrite set_nth_length; auto|]. intros k f Ef.
  destruct (Nat.eqb_spec k j) as [->|N].
  - rewrite set_nth_same by (eapply nth_error_bound; eauto). rewrite (H _ _ Ef) in E. injection E as <-.
    destruct (s j); cbn [negb]; [rewrite flip_flip|]; auto.
  - rewrite set_nth_other by auto. auto.
Qed.
Lemma reversed_all : forall s fs fs', reversed_by s fs fs' -> reversed_by (fun k => negb (s k)) fs (map flip_face fs').
Proof.
  intros s fs fs' [L H]. split; [rewrite map_length; auto|]. intros k f E. rewrite nth_error_map, (H _ _ E). cbn [option_map].
  destruct (s k); cbn [negb]; [rewrite flip_flip|]; auto.
Qed.
Definition flips (fs : list face) (st : flood) : Prop := exists s, reversed_by s fs (fl_faces st).
Ltac step E := match type of E with bind ?x _ = Ok _ => let H := fresh "B" in destruct x eqn:H; cbn [bind] in E; [|discriminate] end.
Lemma visit_flips : forall order types i fs st j st', flips fs st -> visit order types i st j = Ok st' -> flips fs st'.
Proof.
  intros order types i fs st j st' [s R] E. unfold visit in E. step E. destruct a; [injection E as <-; exists s; auto|].
  step E. step E. step E. step E. step E. step E. step E. match goal with r : option bool |- _ => destruct r as [[|]|] end; injection E as <-; cbn [fl_faces].
  - eexists. apply reversed_set; eauto. apply get_inv; auto.
  - exists s; auto.
  - exists s; auto.
Qed.
Lemma flood_flips : forall order types fs fuel st st', flips fs st -> flood_loop order types fuel st = Ok st' -> flips fs st'.
Proof.
  induction fuel as [|n IH]; intros st st' F E; cbn [flood_loop] in E; destruct (refill st) as [[i st1]|] eqn:R;
  try (injection E as <-; auto); try discriminate.
  assert (F1 : flips fs st1).
  { unfold refill in R. destruct (fl_stack st); [destruct (where_ negb (fl_vis st)); [discriminate|]|]; injection R as <- <-; auto. }
  step E. step E. eapply IH; [|eauto]. eapply foldM_inv; [|exact F1|eauto]. intros; eapply visit_flips; eauto.
Qed.
Lemma heal_reverses : forall order c tri quad props m m' ff, heal_normals_with order c tri quad props m = Ok (m', ff) ->
  verts m' = verts m /\ exists s, reversed_by s (faces m) (faces m').
Proof.
  intros order c tri quad props m m' ff E. unfold heal_normals_with in E. step E.
  assert (F : flips (faces m) a).
  { unfold flood_faces in B. destruct (forallb _ tri); [|discriminate]. destruct (0 <? length (faces m)); [|discriminate].
    eapply flood_flips; [|exact B]. exists (fun _ => false). apply reversed_refl. }
  destruct F as [s R]. destruct (c_bounds c).
  - step E. step E. injection E as <- <-. cbn [verts faces]. split; auto.
    destruct (Rltb _ _); [eexists; apply reversed_all; eauto|eauto].
  - injection E as <- <-. cbn [verts faces]. eauto.
Qed.

(** ** The fuel is enough *)
Definition unvisited (l : list bool) : nat := length (filter negb l).
Lemma unvisited_set : forall l j, nth_error l j = Some false -> S (unvisited (set_nth l j true)) = unvisited l.
Proof.
  unfold unvisited. induction l as [|b l IH]; intros [|j] E; cbn in E; try discriminate.
  - injection E as ->. reflexivity.
  - cbn. destruct b; cbn; auto.
Qed.
Definition pending (st : flood) : nat := unvisited (fl_vis st) + length (fl_stack st).
Lemma visit_pending : forall order types i st j st', visit order types i st j = Ok st' -> pending st' <= pending st.
Proof.
  intros order types i st j st' E. unfold visit in E. step E. destruct a; [injection E as <-; auto|].
  apply get_inv in B. apply unvisited_set in B. unfold pending.
  step E. step E. step E. step E. step E. step E. step E. match goal with r : option bool |- _ => destruct r as [r|] end; injection E as <-; cbn [fl_vis fl_stack length]; lia.
Qed.
Lemma in_where_negb : forall l i t, where_ negb l = i :: t -> nth_error l i = Some false.
Proof.
  intros l i t E. assert (I : In i (where_ negb l)) by (rewrite E; left; auto). apply in_where in I.
  destruct I as (b & N & H). destruct b; [discriminate|auto].
Qed.
Lemma refill_pending : forall st i st', refill st = Some (i, st') -> S (pending st') = pending st.
Proof.
  intros st i st' R. unfold refill in R. unfold pending. destruct (fl_stack st) as [|j l].
  - destruct (where_ negb (fl_vis st)) eqn:W; [discriminate|]. injection R as <- <-. cbn [fl_vis fl_stack length].
    apply in_where_negb in W. apply unvisited_set in W. lia.
  - injection R as <- <-. cbn [fl_vis fl_stack length]. lia.
Qed.
Ltac no_fuel := repeat match goal with
  | H : _ = Raise OutOfFuel |- _ => progress (unfold get, dget, set_remove, position, second, final in H)
  | H : bind ?x _ = Raise OutOfFuel |- _ => let E := fresh "B" in destruct x eqn:E; cbn [bind] in H
  | H : (match ?x with _ => _ end) = Raise OutOfFuel |- _ => destruct x; try discriminate
  | H : Ok _ = Raise _ |- _ => discriminate
  | H : Raise ?e = Raise OutOfFuel |- _ => injection H as ->
  | H : Raise _ = Raise OutOfFuel |- _ => discriminate
  end; try discriminate.
Lemma must_flip_fuel : forall order ta tb a b, must_flip order ta tb a b <> Raise OutOfFuel.
Proof. intros order ta tb a b E. unfold must_flip in E. no_fuel. Qed.
Lemma visit_fuel : forall order types i st j, visit order types i st j <> Raise OutOfFuel.
Proof.
  intros order types i st j E. unfold visit in E. no_fuel. eapply must_flip_fuel; eauto.
Qed.
Lemma foldM_fuel : forall A B (f : B -> A -> res B) l b, (forall b a, f b a <> Raise OutOfFuel) -> foldM f l b <> Raise OutOfFuel.
Proof.
  induction l as [|a l IH]; intros b H E; cbn [foldM] in E; [discriminate|].
  destruct (f b a) eqn:F; cbn [bind] in E; [eapply IH; eauto|]. eapply H. rewrite F. exact E.
Qed.
Lemma flood_fuel : forall order types fuel st, pending st <= fuel -> flood_loop order types fuel st <> Raise OutOfFuel.
Proof.
  induction fuel as [|n IH]; intros st L E; cbn [flood_loop] in E; destruct (refill st) as [[i st1]|] eqn:R; try discriminate.
  - apply refill_pending in R. lia.
  - apply refill_pending in R. destruct (dget (fl_ff st1) i) as [s|e] eqn:D; cbn [bind] in E.
    + destruct (foldM (visit order types i) (order s) st1) as [st2|e] eqn:V; cbn [bind] in E.
      * apply (IH st2); auto. assert (pending st2 <= pending st1); [|lia].
        eapply (foldM_inv _ _ (visit order types i) (fun st => pending st <= pending st1)); [|auto|exact V].
        intros; cbn beta in *. etransitivity; [eapply visit_pending; eauto|auto].
      * injection E as ->. eapply foldM_fuel; [|exact V]. intros. apply visit_fuel.
    + injection E as ->. unfold dget in D. destruct (nth_error (fl_ff st1) i); discriminate.
Qed.
Lemma unvisited_repeat : forall n, unvisited (repeat false n) = n.
Proof. unfold unvisited. induction n; cbn; auto. Qed.
Lemma initial_pending : forall fs ff, 0 < length fs ->
  pending (mkFlood fs ff (set_nth (repeat false (length fs)) 0 true) [0]) = length fs.
Proof.
  intros fs ff L. unfold pending. cbn [fl_vis fl_stack length].
  assert (E : nth_error (repeat false (length fs)) 0 = Some false) by (destruct (length fs); [lia|reflexivity]).
  apply unvisited_set in E. rewrite unvisited_repeat in E. lia.
Qed.
Lemma flood_faces_fuel : forall order tri ff fs, flood_faces order tri ff fs <> Raise OutOfFuel.
Proof.
  intros order tri ff fs E. unfold flood_faces in E. destruct (forallb _ tri); [|discriminate].
  destruct (Nat.ltb_spec 0 (length fs)); [|discriminate]. eapply flood_fuel; [|exact E]. rewrite initial_pending; auto.
Qed.

(** ** Orientation *)
Lemma one_way : forall f u v, simple_face f -> In (u, v) (cycle_edges f) -> ~ In (v, u) (cycle_edges f).
Proof.
  intros f u v S A B. destruct (roll_face f u S (proj1 (cycle_uses _ _ _ A))) as (_ & x & z & _ & _ & _ & D & X & Z).
  apply X in A. apply Z in B. congruence.
Qed.
Lemma edge_dec : forall (e : nat * nat) l, In e l \/ ~ In e l.
Proof. intros e l. destruct (in_dec edge_eq_dec e l); auto. Qed.
Lemma common_edge : forall f g u v, simple_face f ->
  (forall x, uses [f] x /\ uses [g] x <-> x = u \/ x = v) ->
  (consistent f g <-> ~ (In (u, v) (cycle_edges f) /\ In (u, v) (cycle_edges g)) /\ ~ (In (v, u) (cycle_edges f) /\ In (v, u) (cycle_edges g))).
Proof.
  intros f g u v S C. split.
  - intros H. split; intros [A B]; eapply H; eauto.
  - intros [H1 H2] p q A B. pose proof (cycle_uses _ _ _ A) as [A1 A2]. pose proof (cycle_uses _ _ _ B) as [B1 B2].
    assert (Hp : p = u \/ p = v) by (apply C; auto). assert (Hq : q = u \/ q = v) by (apply C; auto).
    assert (p <> q) by (intros ->; eapply one_way; eauto).
    destruct Hp, Hq; subst; tauto.
Qed.
Lemma consistent_parity : forall f g a b, simple_face f -> simple_face g -> edge_neighbours f g ->
  (consistent (flip_if a f) (flip_if b g) <-> if xorb a b then ~ consistent f g else consistent f g).
Proof.
  intros f g a b Sf Sg (u & v & N & C & Ef & Eg).
  assert (C' : forall x, uses [flip_if a f] x /\ uses [flip_if b g] x <-> x = u \/ x = v) by (intros x; rewrite !flip_if_uses; auto).
  rewrite (common_edge _ _ _ _ (flip_if_simple a f Sf) C').
  assert (E : consistent f g <-> ~ (In (u, v) (cycle_edges f) /\ In (u, v) (cycle_edges g)) /\ ~ (In (v, u) (cycle_edges f) /\ In (v, u) (cycle_edges g)))
    by (apply common_edge; auto).
  pose proof (one_way f u v Sf) as F1. pose proof (one_way g u v Sg) as G1.
  pose proof (edge_dec (u, v) (cycle_edges f)). pose proof (edge_dec (u, v) (cycle_edges g)).
  destruct a, b; cbn [flip_if xorb]; rewrite ?flip_cycle, E; tauto.
Qed.
Lemma consistent_sym : forall f g, consistent f g -> consistent g f.
Proof. intros f g H u v A B. eapply H; eauto. Qed.

Lemma in_filter_remove : forall i l x, In x (filter (fun y => negb (i =? y)) l) <-> In x l /\ x <> i.
Proof.
  intros i l x. rewrite filter_In. destruct (Nat.eqb_spec i x); cbn [negb]; intuition congruence.
Qed.
Lemma nth_set_nth : forall A (l : list A) j v k d, j < length l -> nth k (set_nth l j v) d = if k =? j then v else nth k l d.
Proof.
  intros A l j v k d L. destruct (Nat.eqb_spec k j) as [->|N].
  - apply nth_error_nth. apply set_nth_same. auto.
  - destruct (Nat.lt_ge_cases k (length l)).
    + apply nth_error_nth. rewrite set_nth_other by auto. apply nth_error_nth'. auto.
    + rewrite !nth_overflow; auto. rewrite set_nth_length. auto.
Qed.

Section Orient.
  Variable order : list nat -> list nat.
  Hypothesis Horder : iteration order.
  Variable fs : list face.
  Hypothesis Hsimple : Forall simple_face fs.
  Variable ff0 : list (list nat).
  Hypothesis Hff : forall i j, i < length fs -> (In j (nth i ff0 []) <-> adjacent fs i j).
  Hypothesis Hff_len : length ff0 = length fs.
  Hypothesis Hnb : forall i j f g, adjacent fs i j -> nth_error fs i = Some f -> nth_error fs j = Some g -> edge_neighbours f g.
  Variable t : nat -> bool.
  Hypothesis Ht : forall i j f g, adjacent fs i j -> nth_error fs i = Some f -> nth_error fs j = Some g ->
    consistent (flip_if (t i) f) (flip_if (t j) g).
  Variable types : list nat.
  Hypothesis Htypes : forall i f, nth_error fs i = Some f -> nth_error types i = Some (ncorners f).

  Lemma adjacent_lt : forall i j, adjacent fs i j -> i < length fs /\ j < length fs.
  Proof.
    intros i j (_ & u & v & _ & H). split; eapply face_bound; apply H; auto.
  Qed.

  Definition V (st : flood) (i : nat) : Prop := nth_error (fl_vis st) i = Some true.

  (** [run] is the set of faces taken from the stack and being treated. *)
  Record inv (run : list nat) (D : nat -> Prop) (c : bool) (s : nat -> bool) (st : flood) : Prop := {
    iv_faces : reversed_by s fs (fl_faces st);
    iv_vis : length (fl_vis st) = length fs;
    iv_len : length (fl_ff st) = length fs;
    iv_stack : forall i, In i (fl_stack st) \/ In i run -> V st i /\ ~ D i;
    iv_treated : forall i j, V st i -> ~ In i (fl_stack st) -> ~ In i run -> adjacent fs i j -> V st j;
    iv_fresh : forall j, ~ V st j -> nth j (fl_ff st) [] = nth j ff0 [];
    iv_sub : forall j x, In x (nth j (fl_ff st) []) -> In x (nth j ff0 []);
    iv_sup : forall j x, In x (nth j ff0 []) -> In x (nth j (fl_ff st) []) \/ V st x;
    iv_done : forall i, D i -> V st i;
    iv_closed : forall i j, D i -> adjacent fs i j -> D j;
    iv_same : forall i j, D i -> D j -> adjacent fs i j -> xorb (s i) (t i) = xorb (s j) (t j);
    iv_cur : forall i, V st i -> ~ D i -> xorb (s i) (t i) = c }.

  Lemma V_dec : forall st i, V st i \/ ~ V st i.
  Proof. intros st i. unfold V. destruct (nth_error (fl_vis st) i) as [[|]|]; auto; right; congruence. Qed.

  Lemma visit_ok : forall i D c s st j, inv [i] D c s st -> adjacent fs i j ->
    exists s' st', visit order types i st j = Ok st' /\ inv [i] D c s' st' /\ V st' j /\ (forall k, V st k -> V st' k) /\ pending st' = pending st.
  Proof.
    intros i D c s st j I A. destruct (adjacent_lt _ _ A) as [Li Lj]. unfold visit.
    destruct (nth_error_lt _ (fl_vis st) j) as [b Eb]; [rewrite (iv_vis _ _ _ _ _ I); auto|].
    rewrite (get_some _ _ _ _ Eb). cbn [bind]. destruct b.
    { exists s, st. split; auto. }
    assert (NV : ~ V st j) by (unfold V; congruence).
    assert (Vi : V st i /\ ~ D i) by (apply (iv_stack _ _ _ _ _ I); right; left; auto). destruct Vi as [Vi NDi].
    assert (Nij : i <> j) by (intros ->; tauto).
    rewrite (dget_nth _ (fl_ff st) j []) by (rewrite (iv_len _ _ _ _ _ I); auto). cbn [bind].
    rewrite (iv_fresh _ _ _ _ _ I j NV).
    assert (M : mem i (nth j ff0 []) = true) by (apply mem_true, Hff; auto; apply adjacent_sym; auto).
    unfold set_remove. rewrite M. cbn [bind].
    destruct (nth_error_lt _ fs i Li) as [f Ef]. destruct (nth_error_lt _ fs j Lj) as [g Eg].
    pose proof (proj2 (iv_faces _ _ _ _ _ I) _ _ Ef) as Cf. pose proof (proj2 (iv_faces _ _ _ _ _ I) _ _ Eg) as Cg.
    change (if s i then flip_face f else f) with (flip_if (s i) f) in Cf.
    change (if s j then flip_face g else g) with (flip_if (s j) g) in Cg.
    rewrite (get_some _ _ _ _ Cf), (get_some _ _ _ _ Cg), (get_some _ _ _ _ (Htypes _ _ Ef)), (get_some _ _ _ _ (Htypes _ _ Eg)). cbn [bind].
    assert (Sf : simple_face f) by (rewrite Forall_forall in Hsimple; apply Hsimple; eapply nth_error_In; eauto).
    assert (Sg : simple_face g) by (rewrite Forall_forall in Hsimple; apply Hsimple; eapply nth_error_In; eauto).
    pose proof (Hnb _ _ _ _ A Ef Eg) as NB. pose proof (Ht _ _ _ _ A Ef Eg) as HT.
    destruct (must_flip_ok order (flip_if (s i) f) (flip_if (s j) g) Horder (flip_if_simple _ _ Sf) (flip_if_simple _ _ Sg) (neighbours_flip _ _ _ _ NB))
      as (r & Er & Hr).
    replace (ncorners (flip_if (s i) f)) with (ncorners f) in Er by (unfold ncorners; rewrite flip_if_triangle; auto).
    replace (ncorners (flip_if (s j) g)) with (ncorners g) in Er by (unfold ncorners; rewrite flip_if_triangle; auto).
    rewrite Er. cbn [bind].
    (* the parity of the new face *)
    assert (PR : r = xorb (xorb (s i) (t i)) (xorb (s j) (t j))).
    { assert (R1 : r = true <-> ~ consistent (flip_if (s i) f) (flip_if (s j) g)).
      { rewrite Hr. split.
        - intros (u & v & X & Y) K. eapply K; eauto.
        - intros K. destruct r; [apply Hr; auto|]. exfalso. apply K. intros u v X Y. assert (false = true) by (apply Hr; eauto). discriminate. }
      rewrite (consistent_parity _ _ _ _ Sf Sg NB) in R1. rewrite (consistent_parity _ _ _ _ Sf Sg NB) in HT.
      destruct (s i), (s j), (t i), (t j), r; cbn [xorb negb] in *; try reflexivity; exfalso;
        first [apply (proj1 R1 eq_refl); tauto | cut (false = true); [discriminate|]; apply R1; tauto]. }
    set (s' := fun k => if k =? j then xorb r (s k) else s k).
    set (fs' := if r then set_nth (fl_faces st) j (flip_face (flip_if (s j) g)) else fl_faces st).
    set (vis' := set_nth (fl_vis st) j true).
    set (ff' := set_nth (fl_ff st) j (filter (fun y => negb (i =? y)) (nth j ff0 []))).
    exists s', (mkFlood fs' ff' vis' (j :: fl_stack st)). split; [reflexivity|].
    assert (HV : forall k, V (mkFlood fs' ff' vis' (j :: fl_stack st)) k <-> V st k \/ k = j).
    { intros k. unfold V. cbn [fl_vis]. unfold vis'. destruct (Nat.eq_dec j k) as [<-|N].
      - rewrite set_nth_same by (eapply nth_error_bound; eauto). tauto.
      - rewrite set_nth_other by auto. split; [auto|]. intros [|X]; [auto|congruence]. }
    assert (HF : forall k, nth k ff' [] = if k =? j then filter (fun y => negb (i =? y)) (nth j ff0 []) else nth k (fl_ff st) []).
    { intros k. unfold ff'. apply nth_set_nth. rewrite (iv_len _ _ _ _ _ I). auto. }
    assert (HS : forall k, k <> j -> s' k = s k) by (intros k Nk; unfold s'; rewrite (proj2 (Nat.eqb_neq k j)) by auto; auto).
    assert (HJ : xorb (s' j) (t j) = c).
    { unfold s'. rewrite Nat.eqb_refl. rewrite <- (iv_cur _ _ _ _ _ I i Vi NDi). rewrite PR.
      destruct (s i), (s j), (t i), (t j); reflexivity. }
    assert (NDj : ~ D j) by (intros d; apply NV, (iv_done _ _ _ _ _ I); auto).
    split; [|split; [apply HV; auto|split; [intros; apply HV; auto|]]].
    2:{ unfold pending. cbn [fl_vis fl_stack length]. unfold vis'. apply unvisited_set in Eb. lia. }
    split; cbn [fl_faces fl_ff fl_vis fl_stack].
    - unfold fs'. destruct r.
      + pose proof (reversed_set _ _ _ _ _ (iv_faces _ _ _ _ _ I) Cg) as [RL RN]. split; auto.
      + pose proof (iv_faces _ _ _ _ _ I) as [RL RN]. split; auto. intros k f' Ek. rewrite (RN _ _ Ek).
        unfold s'. destruct (k =? j); auto. rewrite xorb_false_l. auto.
    - unfold vis'. rewrite set_nth_length. apply (iv_vis _ _ _ _ _ I).
    - unfold ff'. rewrite set_nth_length. apply (iv_len _ _ _ _ _ I).
    - intros k [[<-|K]|K]; rewrite HV.
      + auto.
      + destruct (iv_stack _ _ _ _ _ I k); auto.
      + destruct (iv_stack _ _ _ _ _ I k); auto.
    - intros k l Vk NS NR Akl. rewrite HV in *. destruct Vk as [Vk| ->]; [|exfalso; apply NS; left; auto].
      left. apply (iv_treated _ _ _ _ _ I k l); auto. intros X. apply NS. right; auto.
    - intros k NVk. rewrite HV in NVk. rewrite HF. rewrite (proj2 (Nat.eqb_neq k j)) by tauto. apply (iv_fresh _ _ _ _ _ I). tauto.
    - intros k x X. rewrite HF in X. destruct (Nat.eqb_spec k j) as [->|]; [apply in_filter_remove in X; tauto|].
      apply (iv_sub _ _ _ _ _ I); auto.
    - intros k x X. rewrite HF. rewrite HV. destruct (Nat.eqb_spec k j) as [->|].
      + destruct (Nat.eq_dec x i) as [->|]; auto. left. apply in_filter_remove. auto.
      + destruct (iv_sup _ _ _ _ _ I k x X); auto.
    - intros k Dk. apply HV. left. apply (iv_done _ _ _ _ _ I). auto.
    - apply (iv_closed _ _ _ _ _ I).
    - intros k l Dk Dl Akl. rewrite !HS by (intros ->; auto). apply (iv_same _ _ _ _ _ I); auto.
    - intros k Vk NDk. rewrite HV in Vk. destruct (Nat.eq_dec k j) as [->|Nk]; auto. rewrite HS by auto.
      apply (iv_cur _ _ _ _ _ I); tauto.
  Qed.

  Lemma visits_ok : forall i D c l s st, inv [i] D c s st -> (forall j, In j l -> adjacent fs i j) ->
    exists s' st', foldM (visit order types i) l st = Ok st' /\ inv [i] D c s' st' /\ (forall j, In j l -> V st' j) /\
      (forall k, V st k -> V st' k) /\ pending st' = pending st.
  Proof.
    induction l as [|j l IH]; intros s st I A.
    - exists s, st. split; auto. split; auto. split; [intros j []|auto].
    - destruct (visit_ok i D c s st j I) as (s1 & st1 & E1 & I1 & V1 & M1 & P1); [apply A; left; auto|].
      destruct (IH s1 st1 I1) as (s2 & st2 & E2 & I2 & V2 & M2 & P2); [intros; apply A; right; auto|].
      exists s2, st2. cbn [foldM]. rewrite E1. cbn [bind]. split; auto. split; auto. split; [|split; [auto|congruence]].
      intros k [<-|K]; auto.
  Qed.

  (** One turn of the loop. *)
  Lemma turn_ok : forall i D c s st, inv [i] D c s st -> i < length fs ->
    exists s' st', (do l <- dget (fl_ff st) i; foldM (visit order types i) (order l) st) = Ok st' /\ inv [] D c s' st' /\ pending st' = pending st.
  Proof.
    intros i D c s st I Li. rewrite (dget_nth _ (fl_ff st) i []) by (rewrite (iv_len _ _ _ _ _ I); auto). cbn [bind].
    destruct (visits_ok i D c (order (nth i (fl_ff st) [])) s st I) as (s' & st' & E & I' & VL & M & P).
    { intros j J. apply (Permutation_in _ (Horder _)) in J. apply Hff; auto. eapply iv_sub; eauto. }
    exists s', st'. split; auto. split; auto. destruct I' as [J1 J2 J3 J4 J5 J6 J7 J8 J9 J10 J11 J12].
    split; auto.
    - intros k [K|[]]. apply J4; auto.
    - intros k j Vk NS _ A. destruct (Nat.eq_dec k i) as [->|N].
      + apply Hff in A; auto. destruct (iv_sup _ _ _ _ _ I i j A) as [X|X]; auto.
        apply VL. apply (Permutation_in _ (Permutation_sym (Horder _))). auto.
      + apply (J5 k); auto. intros [->|[]]; auto.
  Qed.

  (** When the stack is empty the treated faces are closed under adjacency. *)
  Lemma inv_stop : forall D c s st, inv [] D c s st -> fl_stack st = [] ->
    (forall i j, V st i -> adjacent fs i j -> V st j) /\
    (forall i j, V st i -> V st j -> adjacent fs i j -> xorb (s i) (t i) = xorb (s j) (t j)).
  Proof.
    intros D c s st I E. assert (Cl : forall i j, V st i -> adjacent fs i j -> V st j).
    { intros i j Vi A. apply (iv_treated _ _ _ _ _ I i j); auto. rewrite E. auto. }
    split; auto. intros i j Vi Vj A.
    (* D is decidable only through its closure; use the parity of both *)
    destruct (Bool.bool_dec (xorb (s i) (t i)) (xorb (s j) (t j))) as [|NE]; auto. exfalso.
    assert (NDi : ~ D i). { intros d. apply NE. apply (iv_same _ _ _ _ _ I); auto. eapply iv_closed; eauto. }
    assert (NDj : ~ D j). { intros d. apply NDi. eapply iv_closed; eauto. apply adjacent_sym; auto. }
    apply NE. rewrite (iv_cur _ _ _ _ _ I i), (iv_cur _ _ _ _ _ I j); auto.
  Qed.

  Lemma refill_ok : forall D c s st, inv [] D c s st ->
    match refill st with
    | None => (forall i, i < length fs -> V st i) /\ fl_stack st = []
    | Some (i, st') => i < length fs /\ exists D' c', inv [i] D' c' s st'
    end.
  Proof.
    intros D c s st I. unfold refill. destruct (fl_stack st) as [|i l] eqn:E.
    - destruct (inv_stop D c s st I E) as [Cl Same]. destruct (where_ negb (fl_vis st)) as [|i l] eqn:W.
      + split; auto. intros i Li. destruct (nth_error_lt _ (fl_vis st) i) as [b Eb]; [rewrite (iv_vis _ _ _ _ _ I); auto|].
        destruct b; auto. exfalso. assert (X : In i (where_ negb (fl_vis st))) by (apply in_where; exists false; auto). rewrite W in X. auto.
      + apply in_where_negb in W. pose proof (nth_error_bound _ _ _ _ W) as Li. rewrite (iv_vis _ _ _ _ _ I) in Li.
        split; auto. exists (V st), (xorb (s i) (t i)).
        assert (HV : forall k, V (mkFlood (fl_faces st) (fl_ff st) (set_nth (fl_vis st) i true) []) k <-> V st k \/ k = i).
        { intros k. unfold V. cbn [fl_vis]. destruct (Nat.eq_dec i k) as [<-|N].
          - rewrite set_nth_same by (eapply nth_error_bound; eauto). tauto.
          - rewrite set_nth_other by auto. split; [auto|]. intros [|X]; [auto|congruence]. }
        assert (NVi : ~ V st i) by (unfold V; congruence).
        split; cbn [fl_faces fl_ff fl_vis fl_stack].
        * apply (iv_faces _ _ _ _ _ I).
        * rewrite set_nth_length. apply (iv_vis _ _ _ _ _ I).
        * apply (iv_len _ _ _ _ _ I).
        * intros k [[]|[<-|[]]]. rewrite HV. auto.
        * intros k j Vk _ NR A. rewrite HV in *. destruct Vk as [Vk| ->]; [eauto|]. exfalso. apply NR. left; auto.
        * intros k N. rewrite HV in N. apply (iv_fresh _ _ _ _ _ I). tauto.
        * apply (iv_sub _ _ _ _ _ I).
        * intros k x X. rewrite HV. destruct (iv_sup _ _ _ _ _ I k x X); auto.
        * intros k K. apply HV. auto.
        * auto.
        * auto.
        * intros k Vk NV. rewrite HV in Vk. destruct Vk as [| ->]; [contradiction|auto].
    - assert (Vi : V st i /\ ~ D i) by (apply (iv_stack _ _ _ _ _ I); left; rewrite E; left; auto).
      split.
      + rewrite <- (iv_vis _ _ _ _ _ I). eapply nth_error_bound. apply Vi.
      + exists D, c. destruct I as [J1 J2 J3 J4 J5 J6 J7 J8 J9 J10 J11 J12]. rewrite E in *.
        split; cbn [fl_faces fl_ff fl_vis fl_stack]; auto.
        * intros k [K|[<-|[]]]; [|exact Vi]. apply J4. left. right. auto.
        * intros k j Vk NS NR A. apply (J5 k j); auto. intros [->|X]; [apply NR; left; auto|auto].
  Qed.

  Lemma flood_ok : forall fuel D c s st, inv [] D c s st -> pending st <= fuel ->
    exists s' st', flood_loop order types fuel st = Ok st' /\ reversed_by s' fs (fl_faces st') /\
      forall i j, adjacent fs i j -> xorb (s' i) (t i) = xorb (s' j) (t j).
  Proof.
    induction fuel as [|n IH]; intros D c s st I P; cbn [flood_loop]; pose proof (refill_ok D c s st I) as RO;
      destruct (refill st) as [[i st1]|] eqn:R.
    - apply refill_pending in R. lia.
    - destruct RO as [Full E]. exists s, st. split; auto. split; [apply (iv_faces _ _ _ _ _ I)|].
      intros i j A. destruct (adjacent_lt _ _ A). apply (proj2 (inv_stop D c s st I E)); auto.
    - destruct RO as [Li (D' & c' & I1)]. apply refill_pending in R.
      destruct (turn_ok i D' c' s st1 I1 Li) as (s2 & st2 & E2 & I2 & P2).
      destruct (dget (fl_ff st1) i) as [l|e]; cbn [bind] in *; [|discriminate]. rewrite E2. cbn [bind].
      apply (IH D' c' s2 st2 I2). lia.
    - destruct RO as [Full E]. exists s, st. split; auto. split; [apply (iv_faces _ _ _ _ _ I)|].
      intros i j A. destruct (adjacent_lt _ _ A). apply (proj2 (inv_stop D c s st I E)); auto.
  Qed.

  Lemma flood_start : 0 < length fs -> exists s' st',
    flood_loop order types (length fs) (mkFlood fs ff0 (set_nth (repeat false (length fs)) 0 true) [0]) = Ok st' /\
    reversed_by s' fs (fl_faces st') /\ forall i j, adjacent fs i j -> xorb (s' i) (t i) = xorb (s' j) (t j).
  Proof.
    intros L. assert (HV : forall k, V (mkFlood fs ff0 (set_nth (repeat false (length fs)) 0 true) [0]) k <-> k = 0).
    { intros k. unfold V. cbn [fl_vis]. destruct (Nat.eq_dec 0 k) as [<-|N].
      - rewrite set_nth_same by (rewrite repeat_length; auto). tauto.
      - rewrite set_nth_other by auto. split; [|congruence]. intros E. apply nth_error_In, repeat_spec in E. discriminate. }
    apply (flood_ok (length fs) (fun _ => False) (t 0) (fun _ => false)); [|rewrite initial_pending; auto].
    split; cbn [fl_faces fl_ff fl_vis fl_stack]; auto.
    - apply reversed_refl.
    - rewrite set_nth_length, repeat_length. auto.
    - intros i [[<-|[]]|[]]. rewrite HV. auto.
    - intros i j Vi NS _ A. apply HV in Vi. subst i. exfalso. apply NS. left; auto.
    - tauto.
    - tauto.
    - intros i Vi _. apply HV in Vi. subst i. apply xorb_false_l.
  Qed.
End Orient.
