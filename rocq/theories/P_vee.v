(** An example: a hull with a V section, wider above the sea than below. *)
From Coq Require Import Reals List Arith Bool Lia Lra Psatz Permutation.
From Verif Require Import M_base P_base S_merge M_merge P_merge M_mesh S_mesh P_mesh S_integral P_integral S_geometry M_geometry P_geometry P_volume P_quantities
  S_connectivity P_connectivity P_checks M_plane M_inertia M_clipper S_clipper P_hull P_cut P_clipper P_crown P_parts P_clipped P_clip_mesh P_waterline P_sharp M_hydro S_hydro P_hydro P_hydro2 P_wetted P_archimedes P_contour P_barge.
Import ListNotations.
Open Scope R_scope.

(** The keel is along y at the depth 3, the deck is 16 wide at the height 3: 8 at the sea level. *)
Definition vee : mesh :=
  mkMesh [V3 0 0 (-3); V3 0 2 (-3); V3 8 0 3; V3 8 2 3; V3 (-8) 0 3; V3 (-8) 2 3] [F4 0 2 4 0; F4 1 5 3 1; F4 0 1 3 2; F4 0 4 5 1; F4 2 3 5 4].

Ltac corner := unfold sorted_out, is_above, is_below, is_near, exactly_at, close; rewrite ?sea_height; cbn [vz]; intros;
  first [match goal with |- context [Rabs ?x] => unfold Rabs; destruct (Rcase_abs x); intros ?; lra end | lra | intros ?; lra].
Lemma vee_valid : valid vee. Proof. apply valid_check_ok. reflexivity. Qed.
Lemma vee_closed : closed_surface (faces vee). Proof. apply closed_check_ok. reflexivity. Qed.
Lemma vee_settled : settled sea_level close vee.
Proof. unfold settled, vee. cbn [faces]. repeat (apply Forall_cons; [cbn; repeat (apply Forall_cons; [corner|]); apply Forall_nil|]). apply Forall_nil. Qed.
Lemma vee_convex : Forall (fun f => convex_outline (outline (verts vee) f)) (faces vee).
Proof.
  unfold vee. cbn [faces]. repeat (apply Forall_cons; [cbn|]); [..|apply Forall_nil]; auto.
  - exists (V3 (3/5) 0 (-4/5)). unfold unit; vunfold; repeat split; lra.
  - exists (V3 (-3/5) 0 (-4/5)). unfold unit; vunfold; repeat split; lra.
  - exists (V3 0 0 1). unfold unit; vunfold; repeat split; lra.
Qed.
Ltac ahd := match goal with |- ahead ?u (triangle_normal ?a ?b ?c) => exists (dot u (triangle_normal a b c)) end;
  split; [unfold triangle_normal; vunfold; lra|apply vec_eq; unfold triangle_normal; vunfold; field].
Lemma vee_strict : strict_mesh vee.
Proof.
  unfold strict_mesh, vee. cbn [faces]. repeat (apply Forall_cons; [cbn|]); [..|apply Forall_nil].
  - exists (V3 0 (-1) 0). split; [unfold unit; vunfold; field|]. repeat split; ahd.
  - exists (V3 0 1 0). split; [unfold unit; vunfold; field|]. repeat split; ahd.
  - exists (V3 (3/5) 0 (-4/5)). split; [unfold unit; vunfold; field|]. repeat split; ahd.
  - exists (V3 (-3/5) 0 (-4/5)). split; [unfold unit; vunfold; field|]. repeat split; ahd.
  - exists (V3 0 0 1). split; [unfold unit; vunfold; field|]. repeat split; ahd.
Qed.
Lemma vee_far : forall x, In x (verts vee) -> ~ is_near sea_level close x.
Proof. intros x J. cbn in J. repeat (destruct J as [<-|J]; [corner|]). contradiction. Qed.
Lemma vee_far' : forall f x, In f (faces vee) -> In x (outline (verts vee) f) -> ~ is_near sea_level close x.
Proof. intros f x I J. apply vee_far. exact (in_outline _ f x vee_valid I J). Qed.
Lemma vee_unpinched : Forall (fun f => ~ pinched sea_level close (outline (verts vee) f)) (faces vee).
Proof. apply Forall_forall. intros f I (a & b & c & d & T & A & _). apply (vee_far' f a I); auto. apply (turned_in _ _ _ a T). simpl. auto. Qed.
Lemma vee_not_three : Forall (fun f => ~ three_near sea_level close (outline (verts vee) f)) (faces vee).
Proof. apply Forall_forall. intros f I (a & b & c & d & T & A & _). apply (vee_far' f a I); auto. apply (turned_in _ _ _ a T). simpl. auto. Qed.
Lemma vee_straddles : straddling sea_level close vee.
Proof. exists (F4 0 2 4 0). split; [simpl; auto|]. split; [exists (V3 0 0 (-3))|exists (V3 8 0 3)]; (split; [cbn; auto|corner]). Qed.
Lemma vee_not_above : ~ Forall (is_above sea_level close) (verts vee).
Proof. intros H. inversion H as [|? ? X]; subst. revert X. corner. Qed.
Lemma vee_not_below : ~ Forall (is_below sea_level close) (verts vee).
Proof. intros H. rewrite Forall_forall in H. assert (X : is_below sea_level close (V3 8 0 3)) by (apply H; cbn; tauto). revert X. corner. Qed.
Ltac sides := repeat match goal with
  | |- context [below_dec ?p ?t ?x] => first [let H := fresh in destruct (below_dec p t x) as [H|H]; [|exfalso; apply H; clear H; corner]
                                             |let H := fresh in destruct (below_dec p t x) as [H|H]; [exfalso; revert H; corner|]]
  | |- context [above_dec ?p ?t ?x] => first [let H := fresh in destruct (above_dec p t x) as [H|H]; [|exfalso; apply H; clear H; corner]
                                             |let H := fresh in destruct (above_dec p t x) as [H|H]; [exfalso; revert H; corner|]]
  end.
Definition v1 : vec := V3 4 0 0. Definition v2 : vec := V3 (-4) 0 0. Definition v3 : vec := V3 4 2 0. Definition v4 : vec := V3 (-4) 2 0.
Ltac meets := apply sea_meet; rewrite ?sea_height; unfold v1, v2, v3, v4; vunfold; cbn [vz]; try lra; f_equal; field.
Lemma vee_line : waterline sea_level close vee = [(v2, v1); (v3, v4); (v1, v3); (v4, v2)].
Proof.
  unfold waterline, vee. cbn [faces verts flat_map]. unfold face_waterline, touching. cbn [outline f0 f1 f2 f3 Nat.eq_dec nat_rec nat_rect point nth].
  cbn. unfold touching, entering, leaving. cbn [filter fst snd flat_map app]. sides. cbn [app].
  repeat f_equal; meets.
Qed.
Definition in_vee (x : vec) : Prop := (vx x = 0 \/ vx x = 8 \/ vx x = -8 \/ vx x = 4 \/ vx x = -4) /\ (vy x = 0 \/ vy x = 2) /\ (vz x = -3 \/ vz x = 0 \/ vz x = 3).
Lemma vee_points : forall x, cut_point sea_level close vee x -> in_vee x.
Proof.
  intros x [I|(f & a & b & I & J & H & ->)].
  - cbn in I. repeat (destruct I as [<-|I]; [unfold in_vee; cbn; auto 10|]). contradiction.
  - assert (K : exists c, meet sea_level a b = c /\ in_vee c).
    { cbn in I. repeat (destruct I as [<-|I]; [cbn in J; repeat (destruct J as [J|J]; [injection J as <- <-|]); try contradiction;
        first [exfalso; revert H; unfold is_above, is_below, close; rewrite !sea_height; cbn [vz]; lra
              |match goal with |- context [meet sea_level (V3 ?x ?y ?z) (V3 ?x' _ _)] => exists (V3 ((x + x') / 2) y 0); split; [apply sea_meet; rewrite ?sea_height; vunfold; cbn [vz]; try lra; f_equal; field|
                 unfold in_vee; cbn; split; [first [left; lra|right; left; lra|right; right; left; lra|right; right; right; left; lra|right; right; right; right; lra]|auto]] end]|]).
      contradiction. }
    destruct K as (c & -> & W). exact W.
Qed.
Lemma vee_spread : spread clip_move (cut_point sea_level close vee).
Proof.
  intros x y X Y (NX & NY & NZ). apply vee_points in X as (X1 & X2 & X3). apply vee_points in Y as (Y1 & Y2 & Y3). unfold clip_move in *.
  assert (A : forall u, Rabs u <= 1 / 100000 + 1 / 100000000 -> - (1 / 1000) <= u <= 1 / 1000) by (intros u H; unfold Rabs in H; destruct (Rcase_abs u); lra).
  apply A in NX. apply A in NY. apply A in NZ. apply vec_eq.
  - destruct X1 as [E|[E|[E|[E|E]]]], Y1 as [E'|[E'|[E'|[E'|E']]]]; rewrite E, E' in *; lra.
  - destruct X2 as [E|E], Y2 as [E'|E']; rewrite E, E' in *; lra.
  - destruct X3 as [E|[E|E]], Y3 as [E'|[E'|E']]; rewrite E, E' in *; lra.
Qed.
Lemma vee_simple : NoDup (map fst (waterline sea_level close vee)).
Proof.
  rewrite vee_line. cbn [map fst]. unfold v1, v2, v3, v4.
  repeat (apply NoDup_cons; [intros H; simpl in H; repeat (destruct H as [H|H]; [injection H; intros; lra|]); exact H|]). apply NoDup_nil.
Qed.
Lemma vee_floats : floats_well vee.
Proof.
  constructor; auto using vee_valid, vee_closed, vee_convex, vee_settled, vee_unpinched, vee_not_three, vee_not_above, vee_not_below, vee_straddles, vee_spread, vee_simple.
  intros v I N. exfalso. exact (vee_far v I N).
Qed.
(** Its immersed part *)
Lemma vee_volume : Rsum (map (fun t => let '(a, b, c) := t in tetra vzero a b c) (immersed_triangles sea_level close vee)) = 24.
Proof.
  unfold immersed_triangles, vee. cbn [faces verts flat_map]. unfold immersed_fan, immersed_border. cbn.
  unfold face_waterline, touching, entering, leaving. cbn. sides. cbn [app map fst snd].
  assert (M1 : meet sea_level (V3 0 0 (-3)) (V3 8 0 3) = v1) by meets. assert (M2 : meet sea_level (V3 0 0 (-3)) (V3 (-8) 0 3) = v2) by meets.
  assert (M3 : meet sea_level (V3 0 2 (-3)) (V3 8 2 3) = v3) by meets. assert (M4 : meet sea_level (V3 0 2 (-3)) (V3 (-8) 2 3) = v4) by meets.
  assert (N1 : meet sea_level (V3 8 0 3) (V3 0 0 (-3)) = v1) by meets. assert (N2 : meet sea_level (V3 (-8) 0 3) (V3 0 0 (-3)) = v2) by meets.
  assert (N3 : meet sea_level (V3 8 2 3) (V3 0 2 (-3)) = v3) by meets. assert (N4 : meet sea_level (V3 (-8) 2 3) (V3 0 2 (-3)) = v4) by meets.
  rewrite ?M1, ?M2, ?M3, ?M4, ?N1, ?N2, ?N3, ?N4. unfold v1, v2, v3, v4, Rsum, tetra. cbn [map fold_right]. vunfold. field.
Qed.
Lemma vee_inside : forall f x, In f (faces vee) -> hull (outline (verts vee) f) x -> 3 * Rabs (vx x) <= 4 * (vz x + 3).
Proof.
  intros f x I H. cbn in I. repeat (destruct I as [<-|I]; [cbn in H;
    first [apply hull3 in H as (u & v & w & U & V & W & S & ->) | apply hull4 in H as (u & v & w & t & U & V & W & T & S & ->)];
    unfold mix; cbn [map fst snd vsum fold_right]; vunfold; unfold Rabs; destruct (Rcase_abs _); lra|]). contradiction.
Qed.
