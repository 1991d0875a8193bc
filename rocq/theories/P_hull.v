(** Convex hulls of a few points, split by segments. *)
From Coq Require Import Reals List Arith Bool Lia Lra Psatz.
From Verif Require Import M_base P_base M_plane M_mesh S_mesh S_geometry P_volume P_cache S_plane P_plane S_clipper.
Import ListNotations.
Open Scope R_scope.

Lemma vec_eq_inv : forall a b, a = b -> vx a = vx b /\ vy a = vy b /\ vz a = vz b.
Proof. intros a b ->. auto. Qed.

(** ** Cones *)
Definition comb (ws : list R) (ps : list vec) : vec := vsum (map (fun wp => vscale (fst wp) (snd wp)) (combine ws ps)).
Definition cone (ps : list vec) (s : R) (x : vec) : Prop :=
  exists ws, length ws = length ps /\ Forall (fun w => 0 <= w) ws /\ Rsum ws = s /\ x = comb ws ps.
Lemma hull_cone : forall ps x, hull ps x <-> cone ps 1 x. Proof. reflexivity. Qed.

Lemma comb_cons : forall w ws p ps, comb (w :: ws) (p :: ps) = vadd (vscale w p) (comb ws ps).
Proof. reflexivity. Qed.
Lemma cone_nil : forall s x, cone [] s x <-> s = 0 /\ x = vzero.
Proof.
  intros. split.
  - intros (ws & L & _ & S & X). destruct ws; [|discriminate]. cbn in S, X. auto.
  - intros [-> ->]. exists []. cbn. auto.
Qed.
Lemma cone_cons : forall p ps s x, cone (p :: ps) s x <-> exists w s' y, 0 <= w /\ cone ps s' y /\ s = w + s' /\ x = vadd (vscale w p) y.
Proof.
  intros. split.
  - intros (ws & L & F & S & X). destruct ws as [|w ws]; [discriminate|]. inversion F; subst.
    exists w, (Rsum ws), (comb ws ps). split; [auto|]. split; [exists ws; auto|]. split; reflexivity.
  - intros (w & s' & y & W & (ws & L & F & S & X) & -> & ->). exists (w :: ws). repeat split; [simpl; auto|constructor; auto|cbn; rewrite <- S; reflexivity|].
    subst y. reflexivity.
Qed.
Lemma cone_zero : forall ps, cone ps 0 vzero.
Proof.
  induction ps; [apply cone_nil; auto|]. apply cone_cons. exists 0, 0, vzero. repeat split; auto; [lra|lra|]. vring.
Qed.
Lemma cone_add : forall ps s x s' x', cone ps s x -> cone ps s' x' -> cone ps (s + s') (vadd x x').
Proof.
  induction ps; intros s x s' x' H H'.
  - apply cone_nil in H as [-> ->]. apply cone_nil in H' as [-> ->]. apply cone_nil. split; [lra|vring].
  - apply cone_cons in H as (w & t & y & W & C & -> & ->). apply cone_cons in H' as (w' & t' & y' & W' & C' & -> & ->).
    apply cone_cons. exists (w + w'), (t + t'), (vadd y y'). repeat split; [lra|auto|lra|vring].
Qed.
Lemma cone_scale : forall ps s x k, 0 <= k -> cone ps s x -> cone ps (k * s) (vscale k x).
Proof.
  induction ps; intros s x k K H.
  - apply cone_nil in H as [-> ->]. apply cone_nil. split; [lra|vring].
  - apply cone_cons in H as (w & t & y & W & C & -> & ->). apply cone_cons.
    exists (k * w), (k * t), (vscale k y). repeat split; [nra|auto|ring|vring].
Qed.
Lemma cone_in : forall ps x, In x ps -> cone ps 1 x.
Proof.
  induction ps; intros x I; [destruct I|]. apply cone_cons. destruct I as [->|I].
  - exists 1, 0, vzero. repeat split; [lra|apply cone_zero|lra|vring].
  - exists 0, 1, x. repeat split; [lra|auto|lra|vring].
Qed.
Lemma cone_trans : forall os ps s x, Forall (cone ps 1) os -> cone os s x -> cone ps s x.
Proof.
  induction os; intros ps s x F H.
  - apply cone_nil in H as [-> ->]. apply cone_zero.
  - inversion F; subst. apply cone_cons in H as (w & t & y & W & C & -> & ->).
    apply cone_add; [|auto]. rewrite <- (Rmult_1_r w) at 1. apply cone_scale; auto.
Qed.
Lemma cone_seg : forall ps a b x, cone ps 1 a -> cone ps 1 b -> on_segment a b x -> cone ps 1 x.
Proof.
  intros ps a b x A B (t & T & ->).
  assert (C : cone ps ((1 - t) * 1 + t * 1) (vadd (vscale (1 - t) a) (vscale t b))) by (apply cone_add; apply cone_scale; auto; lra).
  replace ((1 - t) * 1 + t * 1) with 1 in C by ring. exact C.
Qed.
Lemma hull_trans : forall os ps x, Forall (hull ps) os -> hull os x -> hull ps x.
Proof. intros os ps x. apply (cone_trans os ps 1). Qed.
Lemma hull_incl : forall os ps x, incl os ps -> hull os x -> hull ps x.
Proof. intros os ps x I. apply hull_trans. apply Forall_forall. intros y Y. apply cone_in; auto. Qed.

(** ** Three and four points *)
Definition mix (l : list (R * vec)) : vec := vsum (map (fun wp => vscale (fst wp) (snd wp)) l).
Lemma hull3 : forall a b c x, hull [a; b; c] x <->
  exists u v w, 0 <= u /\ 0 <= v /\ 0 <= w /\ u + v + w = 1 /\ x = mix [(u, a); (v, b); (w, c)].
Proof.
  intros. split.
  - intros (ws & L & F & S & X). destruct ws as [|u [|v [|w [|? ?]]]]; try discriminate.
    inversion F as [|? ? U F1]; inversion F1 as [|? ? V F2]; inversion F2 as [|? ? W F3]; subst.
    exists u, v, w. repeat split; auto. cbn in S. lra.
  - intros (u & v & w & U & V & W & S & X). exists [u; v; w]. repeat split; auto. cbn; lra.
Qed.
Lemma hull4 : forall a b c d x, hull [a; b; c; d] x <->
  exists u v w z, 0 <= u /\ 0 <= v /\ 0 <= w /\ 0 <= z /\ u + v + w + z = 1 /\ x = mix [(u, a); (v, b); (w, c); (z, d)].
Proof.
  intros. split.
  - intros (ws & L & F & S & X). destruct ws as [|u [|v [|w [|z [|? ?]]]]]; try discriminate.
    inversion F as [|? ? U F1]; inversion F1 as [|? ? V F2]; inversion F2 as [|? ? W F3]; inversion F3 as [|? ? Z F4]; subst.
    exists u, v, w, z. repeat split; auto. cbn in S. lra.
  - intros (u & v & w & z & U & V & W & Z & S & X). exists [u; v; w; z]. repeat split; auto. cbn; lra.
Qed.

Ltac mixring := unfold mix; cbn [map fst snd vsum fold_right]; apply vec_eq; vunfold.

(** A triangle is cut by a segment from a corner to the opposite side. *)
Lemma split3 : forall a b c i x, on_segment a b i -> hull [a; b; c] x -> hull [a; i; c] x \/ hull [i; b; c] x.
Proof.
  intros a b c i x (t & T & ->) H. apply hull3 in H as (u & v & w & U & V & W & S & ->).
  destruct (Rle_dec (v * (1 - t)) (u * t)) as [L|L].
  - left. apply hull3. destruct (Req_dec t 0) as [->|N].
    + assert (v = 0) by lra. subst v. exists u, 0, w. repeat split; try lra. mixring; ring.
    + exists (u - v * (1 - t) / t), (v / t), w.
      assert (0 <= v / t) by (apply Rmult_le_pos; [lra|]; left; apply Rinv_0_lt_compat; lra).
      assert (E : v * (1 - t) / t * t = v * (1 - t)) by (field; auto).
      assert (K : v * (1 - t) / t <= u) by (apply Rmult_le_reg_r with t; lra).
      repeat split; auto; [lra|replace (u - v * (1 - t) / t + v / t + w) with (u + v + w) by (field; auto); lra|]. mixring; field; auto.
  - right. apply hull3. assert (N : 1 - t <> 0) by (intros E; rewrite E in L; nra).
    exists (u / (1 - t)), (v - u * t / (1 - t)), w.
    assert (0 <= u / (1 - t)) by (apply Rmult_le_pos; [lra|]; left; apply Rinv_0_lt_compat; lra).
    assert (E : u * t / (1 - t) * (1 - t) = u * t) by (field; auto).
    assert (K : u * t / (1 - t) <= v) by (apply Rmult_le_reg_r with (1 - t); lra).
    repeat split; auto; [lra|replace (u / (1 - t) + (v - u * t / (1 - t)) + w) with (u + v + w) by (field; auto); lra|]. mixring; field; auto.
Qed.

(** Quadrangles whose diagonals meet. *)
Definition crossing (a b c d : vec) : Prop :=
  exists p q r s, 0 <= p /\ 0 <= q /\ 0 <= r /\ 0 <= s /\ p + q = r + s /\ 0 < p + q /\
    vadd (vscale p a) (vscale q c) = vadd (vscale r b) (vscale s d).
Lemma crossing_turn : forall a b c d, crossing a b c d -> crossing b c d a.
Proof.
  intros a b c d (p & q & r & s & P & Q & R & S & E & Z & X). exists r, s, q, p. repeat split; auto; try lra.
  rewrite <- X. vring.
Qed.
Lemma split4 : forall a b c d x, crossing a b c d -> hull [a; b; c; d] x -> hull [a; b; c] x \/ hull [a; c; d] x.
Proof.
  intros a b c d x (p & q & r & s & P & Q & R & S & E & Z & X) H. apply hull4 in H as (u & v & w & z & U & V & W & Y & H & ->).
  apply vec_eq_inv in X as (X1 & X2 & X3).
  destruct (Rle_dec (z * r) (v * s)) as [L|L].
  - left. apply hull3. destruct (Req_dec s 0) as [->|N].
    + assert (z = 0) by nra. subst z. exists u, v, w. repeat split; try lra. mixring; ring.
    + set (m := z / s). assert (M : 0 <= m) by (apply Rmult_le_pos; [lra|]; left; apply Rinv_0_lt_compat; lra).
      assert (ZE : z = m * s) by (unfold m; field; auto). exists (u + m * p), (v - m * r), (w + m * q).
      rewrite ZE in *. repeat split; [nra|nra|nra|nra|]. mixring; nra.
  - right. apply hull3. assert (N : r <> 0) by (intros ->; nra).
    set (m := v / r). assert (M : 0 <= m) by (apply Rmult_le_pos; [lra|]; left; apply Rinv_0_lt_compat; lra).
    assert (VE : v = m * r) by (unfold m; field; auto). exists (u + m * p), (w + m * q), (z - m * s).
    rewrite VE in *. repeat split; [nra|nra|nra|nra|]. mixring; nra.
Qed.
Lemma split4' : forall a b c d x, crossing a b c d -> hull [a; b; c; d] x -> hull [a; b; d] x \/ hull [b; c; d] x.
Proof.
  intros a b c d x C H. destruct (split4 b c d a x) as [K|K]; [apply crossing_turn; auto|..].
  - eapply hull_incl; [|exact H]. intros y; simpl; tauto.
  - auto.
  - left. eapply hull_incl; [|exact K]. intros y; simpl; tauto.
Qed.

(** Planar convex quadrangles are such. *)
Lemma convex_crossing : forall a b c d, convex_planar a b c d -> crossing a b c d.
Proof.
  intros a b c d (u & U & B & C & D & T1 & T2 & T3 & T4 & Z).
  pose proof (barycentric a b c d u U B C D) as BC.
  exists (dot u (triangle_normal b c d)), (dot u (triangle_normal a b d)), (dot u (triangle_normal a c d)), (dot u (triangle_normal a b c)).
  assert (E1 : dot u (triangle_normal a b c) = dot u (cross (vsub b a) (vsub c b))) by (unfold triangle_normal; vring).
  assert (E2 : dot u (triangle_normal b c d) = dot u (cross (vsub c b) (vsub d c))) by (unfold triangle_normal; vring).
  assert (E3 : dot u (triangle_normal a c d) = dot u (cross (vsub d c) (vsub a d))) by (unfold triangle_normal; vring).
  assert (E4 : dot u (triangle_normal a b d) = dot u (cross (vsub a d) (vsub b a))) by (unfold triangle_normal; vring).
  assert (E5 : dot u (cross (vsub c a) (vsub d b)) = dot u (triangle_normal a b c) + dot u (triangle_normal a c d)) by (unfold triangle_normal; vring).
  assert (E6 : dot u (triangle_normal b c d) + dot u (triangle_normal a b d) = dot u (triangle_normal a b c) + dot u (triangle_normal a c d)) by (unfold triangle_normal; vring).
  rewrite E1, E2, E3, E4 in *. rewrite E5 in Z.
  repeat split; auto; try lra.
  apply vec_eq_inv in BC as (X & Y & W). apply vec_eq; vunfold; lra.
Qed.
