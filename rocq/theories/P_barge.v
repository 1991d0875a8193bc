(** An example: a box afloat at any draught. *)
From Coq Require Import Reals List Arith Bool Lia Lra Psatz Permutation.
From Verif Require Import M_base P_base S_merge M_merge P_merge M_mesh S_mesh P_mesh S_integral P_integral S_geometry M_geometry P_geometry P_volume P_quantities
  S_connectivity P_connectivity P_checks M_plane M_inertia M_clipper S_clipper P_hull P_cut P_clipper P_crown P_parts P_clipped P_clip_mesh P_waterline P_sharp M_hydro S_hydro P_hydro P_hydro2 P_wetted P_archimedes P_contour.
Import ListNotations.
Open Scope R_scope.

(** A box of length 4, breadth 2 and depth 3. Its bottom is at the height [z] - 1. *)
Definition box_faces : list face := [F4 0 3 2 1; F4 4 5 6 7; F4 0 1 5 4; F4 1 2 6 5; F4 2 3 7 6; F4 3 0 4 7].
Definition afloat (z : R) : mesh :=
  mkMesh [V3 0 0 (z - 1); V3 4 0 (z - 1); V3 4 2 (z - 1); V3 0 2 (z - 1); V3 0 0 (z + 2); V3 4 0 (z + 2); V3 4 2 (z + 2); V3 0 2 (z + 2)] box_faces.
Lemma afloat_placed : forall z, placed_mesh mid z (afloat 0) = afloat z.
Proof. intros z. unfold placed_mesh, afloat. cbn [verts faces map]. f_equal.
  repeat (apply f_equal2; [apply vec_eq; unfold placed; cbv zeta; vunfold; ring|]). reflexivity.
Qed.

Section Afloat.
  Variable z : R.
  Hypothesis Z : -2 + 1 / 500 < z < 1 - 1 / 500.

  Ltac corner := unfold sorted_out, is_above, is_below, is_near, exactly_at, close; rewrite ?sea_height; cbn [vz]; intros;
    first [match goal with |- context [Rabs ?x] => unfold Rabs; destruct (Rcase_abs x); intros ?; lra end | lra | intros ?; lra].
  Lemma af_valid : valid (afloat z). Proof. apply valid_check_ok. reflexivity. Qed.
  Lemma af_closed : closed_surface box_faces. Proof. apply closed_check_ok. reflexivity. Qed.
  Lemma af_settled : settled sea_level close (afloat z).
  Proof. unfold settled, afloat, box_faces. cbn [faces]. repeat (apply Forall_cons; [cbn; repeat (apply Forall_cons; [corner|]); apply Forall_nil|]). apply Forall_nil. Qed.
  Lemma af_convex : Forall (fun f => convex_outline (outline (verts (afloat z)) f)) (faces (afloat z)).
  Proof.
    unfold afloat, box_faces. cbn [faces]. repeat (apply Forall_cons; [cbn|]); [..|apply Forall_nil].
    - exists (V3 0 0 (-1)). unfold unit; vunfold; repeat split; lra.
    - exists (V3 0 0 1). unfold unit; vunfold; repeat split; lra.
    - exists (V3 0 (-1) 0). unfold unit; vunfold; repeat split; lra.
    - exists (V3 1 0 0). unfold unit; vunfold; repeat split; lra.
    - exists (V3 0 1 0). unfold unit; vunfold; repeat split; lra.
    - exists (V3 (-1) 0 0). unfold unit; vunfold; repeat split; lra.
  Qed.
  Ltac ahd := match goal with |- ahead ?u (triangle_normal ?a ?b ?c) => exists (dot u (triangle_normal a b c)) end;
    split; [unfold triangle_normal; vunfold; lra|apply vec_eq; unfold triangle_normal; vunfold; ring].
  Lemma af_strict : strict_mesh (afloat z).
  Proof.
    unfold strict_mesh, afloat, box_faces. cbn [faces]. repeat (apply Forall_cons; [cbn|]); [..|apply Forall_nil].
    - exists (V3 0 0 (-1)). split; [unfold unit; vunfold; ring|]. repeat split; ahd.
    - exists (V3 0 0 1). split; [unfold unit; vunfold; ring|]. repeat split; ahd.
    - exists (V3 0 (-1) 0). split; [unfold unit; vunfold; ring|]. repeat split; ahd.
    - exists (V3 1 0 0). split; [unfold unit; vunfold; ring|]. repeat split; ahd.
    - exists (V3 0 1 0). split; [unfold unit; vunfold; ring|]. repeat split; ahd.
    - exists (V3 (-1) 0 0). split; [unfold unit; vunfold; ring|]. repeat split; ahd.
  Qed.
  Lemma af_far : forall x, In x (verts (afloat z)) -> ~ is_near sea_level close x.
  Proof. intros x J. cbn in J. repeat (destruct J as [<-|J]; [corner|]). contradiction. Qed.
  Lemma af_far' : forall f x, In f (faces (afloat z)) -> In x (outline (verts (afloat z)) f) -> ~ is_near sea_level close x.
  Proof. intros f x I J. apply af_far. exact (in_outline _ f x af_valid I J). Qed.
  Lemma af_unpinched : Forall (fun f => ~ pinched sea_level close (outline (verts (afloat z)) f)) (faces (afloat z)).
  Proof.
    apply Forall_forall. intros f I (a & b & c & d & T & A & _). apply (af_far' f a I); auto. apply (turned_in _ _ _ a T). simpl. auto.
  Qed.
  Lemma af_not_three : Forall (fun f => ~ three_near sea_level close (outline (verts (afloat z)) f)) (faces (afloat z)).
  Proof.
    apply Forall_forall. intros f I (a & b & c & d & T & A & _). apply (af_far' f a I); auto. apply (turned_in _ _ _ a T). simpl. auto.
  Qed.
  Lemma af_straddles : straddling sea_level close (afloat z).
  Proof. exists (F4 0 1 5 4). split; [simpl; auto|]. split; [exists (V3 0 0 (z - 1))|exists (V3 0 0 (z + 2))]; (split; [cbn; auto|corner]). Qed.
  Lemma af_not_above : ~ Forall (is_above sea_level close) (verts (afloat z)).
  Proof. intros H. inversion H as [|? ? X]; subst. revert X. corner. Qed.
  Lemma af_not_below : ~ Forall (is_below sea_level close) (verts (afloat z)).
  Proof. intros H. rewrite Forall_forall in H. assert (X : is_below sea_level close (V3 0 0 (z + 2))) by (apply H; cbn; tauto). revert X. corner. Qed.

  Definition w1 : vec := V3 0 0 0. Definition w2 : vec := V3 4 0 0. Definition w3 : vec := V3 4 2 0. Definition w4 : vec := V3 0 2 0.
  Ltac sides := repeat match goal with
    | |- context [below_dec ?p ?t ?x] => first [let H := fresh in destruct (below_dec p t x) as [H|H]; [|exfalso; apply H; clear H; corner]
                                               |let H := fresh in destruct (below_dec p t x) as [H|H]; [exfalso; revert H; corner|]]
    | |- context [above_dec ?p ?t ?x] => first [let H := fresh in destruct (above_dec p t x) as [H|H]; [|exfalso; apply H; clear H; corner]
                                               |let H := fresh in destruct (above_dec p t x) as [H|H]; [exfalso; revert H; corner|]]
    end.
  Lemma sea_meet : forall a b c, height sea_level a <> height sea_level b -> height sea_level c = 0 -> height sea_level a - height sea_level b <> 0 ->
    vscale (height sea_level a - height sea_level b) c = vadd (vscale (- height sea_level b) a) (vscale (height sea_level a) b) -> meet sea_level a b = c.
  Proof.
    intros [a1 a2 a3] [b1 b2 b3] [c1 c2 c3]. rewrite !sea_height. unfold meet. rewrite !sea_height. vunfold. cbn [vz]. intros N C D H. injection H as H1 H2 H3.
    f_equal; apply (Rmult_eq_reg_l (a3 - b3)); auto; [rewrite H1|rewrite H2|rewrite H3]; field; auto.
  Qed.
  Lemma af_line : waterline sea_level close (afloat z) = [(w1, w2); (w2, w3); (w3, w4); (w4, w1)].
  Proof.
    unfold waterline, afloat, box_faces. cbn [faces verts flat_map]. unfold face_waterline, touching. cbn [outline f0 f1 f2 f3 Nat.eq_dec nat_rec nat_rect point nth].
    cbn. unfold touching, entering, leaving. cbn [filter fst snd flat_map app]. sides. cbn [app].
    repeat f_equal; apply sea_meet; rewrite ?sea_height; unfold w1, w2, w3, w4; vunfold; cbn [vz]; try lra; f_equal; ring.
  Qed.
  Definition in_box (x : vec) : Prop := (vx x = 0 \/ vx x = 4) /\ (vy x = 0 \/ vy x = 2) /\ (vz x = z - 1 \/ vz x = 0 \/ vz x = z + 2).
  Lemma af_points : forall x, cut_point sea_level close (afloat z) x -> in_box x.
  Proof.
    intros x [I|(f & a & b & I & J & H & ->)].
    - cbn in I. repeat (destruct I as [<-|I]; [unfold in_box; cbn; auto 10|]). contradiction.
    - assert (K : exists c, meet sea_level a b = c /\ in_box c).
      { cbn in I. repeat (destruct I as [<-|I]; [cbn in J; repeat (destruct J as [J|J]; [injection J as <- <-|]); try contradiction;
          first [exfalso; revert H; unfold is_above, is_below, close; rewrite !sea_height; cbn [vz]; lra
                |match goal with |- context [meet sea_level (V3 ?x ?y ?z) _] => exists (V3 x y 0); split; [apply sea_meet; rewrite ?sea_height; vunfold; cbn [vz]; try lra; f_equal; ring|unfold in_box; cbn; auto 10] end]|]).
        contradiction. }
      destruct K as (c & -> & W). exact W.
  Qed.
  Lemma af_spread : spread clip_move (cut_point sea_level close (afloat z)).
  Proof.
    intros x y X Y (NX & NY & NZ). apply af_points in X as (X1 & X2 & X3). apply af_points in Y as (Y1 & Y2 & Y3). unfold clip_move in *.
    assert (A : forall u, Rabs u <= 1 / 100000 + 1 / 100000000 -> - (1 / 1000) <= u <= 1 / 1000) by (intros u H; unfold Rabs in H; destruct (Rcase_abs u); lra).
    apply A in NX. apply A in NY. apply A in NZ. apply vec_eq.
    - destruct X1 as [E|E], Y1 as [E'|E']; rewrite E, E' in *; lra.
    - destruct X2 as [E|E], Y2 as [E'|E']; rewrite E, E' in *; lra.
    - destruct X3 as [E|[E|E]], Y3 as [E'|[E'|E']]; rewrite E, E' in *; lra.
  Qed.
  Lemma af_simple : NoDup (map fst (waterline sea_level close (afloat z))).
  Proof.
    rewrite af_line. cbn [map fst]. unfold w1, w2, w3, w4.
    repeat (apply NoDup_cons; [intros H; simpl in H; repeat (destruct H as [H|H]; [injection H; intros; lra|]); exact H|]). apply NoDup_nil.
  Qed.
  Lemma af_floats : floats_well (afloat z).
  Proof.
    constructor; auto using af_valid, af_closed, af_convex, af_settled, af_unpinched, af_not_three, af_not_above, af_not_below, af_straddles, af_spread, af_simple.
    intros v I N. exfalso. exact (af_far v I N).
  Qed.

  (** ** Its immersed part *)
  Lemma hull_const : forall (p : vec -> R) c ps x, component p -> Forall (fun y => p y = c) ps -> hull ps x -> p x = c.
  Proof.
    intros p c ps x C F (ws & L & _ & S & ->). 
    assert (E : p (mix (combine ws ps)) = c * Rsum ws).
    { clear S. revert ws L. induction F as [|y ps H F IH]; intros ws L; destruct ws as [|w ws]; try discriminate.
      - unfold mix, Rsum. cbn. destruct C as [-> | [-> | ->]]; cbn; ring.
      - injection L as L. specialize (IH ws L). unfold mix in *. cbn [combine map vsum fold_right fst snd]. unfold Rsum in *. cbn [fold_right].
        replace (p (vadd (vscale w y) (fold_right vadd vzero (map (fun a => vscale (fst a) (snd a)) (combine ws ps)))))
          with (w * p y + p (fold_right vadd vzero (map (fun a => vscale (fst a) (snd a)) (combine ws ps)))) by (destruct C as [-> | [-> | ->]]; reflexivity).
        rewrite H. unfold vsum in IH. rewrite IH. ring. }
    unfold mix in E. rewrite E, S. ring.
  Qed.
  (** Only the bottom, at a constant height, has a normal with a vertical component. *)
  Definition level_of (f : face) : R := if (f0 f =? 4)%nat then z + 2 else if ((f0 f =? 0) && (f1 f =? 3))%nat then z - 1 else 0.
  Lemma af_sum : forall argsort k g (phi : R -> vec -> vec -> R), sorting argsort -> mesh_clipper argsort water vicinity_tol true (afloat z) = Ok k ->
    (forall h a b, phi h a b = - phi h b a) -> (forall a b, phi 0 a b = 0) ->
    (forall h a b c, vz a = h -> vz b = h -> vz c = h -> g a b c = phi h a b + phi h b c + phi h c a) ->
    (forall a b c, vz (triangle_normal a b c) = 0 -> g a b c = 0) ->
    surface_sum g (verts (clipped k)) (faces (clipped k)) =
    run (phi (z - 1)) (around [V3 0 0 (z - 1); V3 0 2 (z - 1); V3 4 2 (z - 1); V3 4 0 (z - 1)]).
  Proof.
    intros argsort k g phi SA CL A P0 HL HV.
    rewrite (clipped_sum sea_level close close_pos argsort SA true (afloat z) k af_valid af_settled af_convex af_unpinched af_spread CL g (fun f => phi (level_of f))).
    - assert (C : forall f, level_of f = 0 -> contour sea_level close (afloat z) (fun f => phi (level_of f)) f = 0).
      { intros f E. unfold contour. rewrite E. assert (R0 : forall l, run (phi 0) l = 0); [|apply R0].
        intros l. unfold run. induction l as [|e l IH]; auto. unfold Rsum in *. cbn [map fold_right]. rewrite IH, P0. ring. }
      change (faces (afloat z)) with box_faces. unfold box_faces. cbn [map]. unfold Rsum. cbn [fold_right].
      rewrite (C (F4 0 1 5 4) eq_refl), (C (F4 1 2 6 5) eq_refl), (C (F4 2 3 7 6) eq_refl), (C (F4 3 0 4 7) eq_refl).
      unfold contour, immersed_border. cbn [level_of f0 f1 afloat verts outline f2 f3 Nat.eq_dec nat_rec nat_rect]. cbn [sumbool_rec sumbool_rect nat_rec nat_rect point nth].
      cbn. unfold face_waterline, touching, entering, leaving. cbn [around combine tl app flat_map filter fst snd]. sides. cbn [app].
      unfold run. cbn [around combine tl app map fst snd]. unfold Rsum. cbn [fold_right]. ring.
    - intros f _ a b. apply A.
    - intros f I a b c HA HB HC _.
      assert (K : forall (q : vec -> R) h, component q -> Forall (fun y => q y = h) (outline (verts (afloat z)) f) -> q a = h /\ q b = h /\ q c = h).
      { intros q h Q F. repeat split; eapply hull_const; eauto. }
      assert (FL : forall h, level_of f = h -> Forall (fun y => vz y = h) (outline (verts (afloat z)) f) ->
        g a b c = phi (level_of f) a b + phi (level_of f) b c + phi (level_of f) c a).
      { intros h E F. destruct (K vz h) as (KA & KB & KC); unfold component; auto. rewrite E. auto. }
      assert (VX : forall h, level_of f = 0 -> Forall (fun y => vx y = h) (outline (verts (afloat z)) f) ->
        g a b c = phi (level_of f) a b + phi (level_of f) b c + phi (level_of f) c a).
      { intros h E F. destruct (K vx h) as (KA & KB & KC); unfold component; auto. rewrite E, !P0, HV; [ring|]. unfold triangle_normal. vunfold. rewrite KA, KB, KC. ring. }
      assert (VY : forall h, level_of f = 0 -> Forall (fun y => vy y = h) (outline (verts (afloat z)) f) ->
        g a b c = phi (level_of f) a b + phi (level_of f) b c + phi (level_of f) c a).
      { intros h E F. destruct (K vy h) as (KA & KB & KC); unfold component; auto. rewrite E, !P0, HV; [ring|]. unfold triangle_normal. vunfold. rewrite KA, KB, KC. ring. }
      clear K HA HB HC. unfold afloat, box_faces in I. cbn [faces] in I.
      destruct I as [<-|[<-|[<-|[<-|[<-|[<-|[]]]]]]].
      + apply (FL (z - 1)); cbn; auto.
      + apply (FL (z + 2)); cbn; auto.
      + apply (VY 0); cbn; auto.
      + apply (VX 4); cbn; auto.
      + apply (VY 2); cbn; auto.
      + apply (VX 0); cbn; auto.
  Qed.
  Ltac ps := unfold press, tri3, triangle_normal; cbv zeta; vunfold.
  Ltac flat := first [intros; ring | intros; cbn beta; field | intros h a b c Ha Hb Hc; cbv beta; ps; rewrite Ha, Hb, Hc; field
    | intros a b c N; cbv beta; unfold press; cbv zeta; rewrite N; unfold tri3; field].
  Section Clipped.
    Variable argsort : list R -> list nat.
    Hypothesis SA : sorting argsort.
    Variable k : clipper.
    Hypothesis CL : mesh_clipper argsort water vicinity_tol true (afloat z) = Ok k.
    Notation total g := (surface_sum g (verts (clipped k)) (faces (clipped k))).
    Let W := proj1 (clip_wetted argsort SA (afloat z) k af_floats CL).
    Lemma af_volume : signed_volume vzero (clipped k) = 8 * (1 - z).
    Proof.
      rewrite <- (force_z _ _ W). rewrite (af_sum argsort k _ (fun h a b => h / 2 * (vx a * vy b - vy a * vx b)) SA CL) by flat.
      unfold run, around. cbn. unfold Rsum. cbn. field.
    Qed.
    Lemma af_x : total (cone1 vx) = 16 * (1 - z).
    Proof.
      rewrite <- (moment_xz _ _ W). rewrite (af_sum argsort k _ (fun h a b => h / 6 * (vx a + vx b) * (vx a * vy b - vy a * vx b)) SA CL) by flat.
      unfold run, around. cbn. unfold Rsum. cbn. field.
    Qed.
    Lemma af_y : total (cone1 vy) = 8 * (1 - z).
    Proof.
      rewrite <- (moment_yz _ _ W). rewrite (af_sum argsort k _ (fun h a b => h / 6 * (vy a + vy b) * (vx a * vy b - vy a * vx b)) SA CL) by flat.
      unfold run, around. cbn. unfold Rsum. cbn. field.
    Qed.
    Lemma af_z : total (cone1 vz) = - 4 * ((1 - z) * (1 - z)).
    Proof.
      rewrite <- (moment_zz _ _ W). rewrite (af_sum argsort k _ (fun h a b => h * h / 4 * (vx a * vy b - vy a * vx b)) SA CL) by flat.
      unfold run, around. cbn. unfold Rsum. cbn. field.
    Qed.
  End Clipped.
End Afloat.
