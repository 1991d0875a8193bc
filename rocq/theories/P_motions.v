(** Where translations, rotations and scalings of the command line take the vertices *)
From Coq Require Import Ascii String Reals List Arith NArith ZArith Bool Lia Lra.
From Verif Require Import M_base P_base M_merge M_rotations P_rotations M_plane M_mesh P_mesh M_hydro M_text M_mmio M_formats M_cli S_cli P_cli.
Import ListNotations.
Local Open Scope R_scope.

Definition mapper (g : vec -> vec) (l : list (mesh -> res mesh)) : Prop := forall m, in_order l m = Ok (mkMesh (map g (verts m)) (faces m)).
Lemma mapper_app : forall g h l k, mapper g l -> mapper h k -> mapper (fun v => h (g v)) (l ++ k).
Proof. intros g h l k G H m. rewrite in_order_app, G. cbn [bind]. rewrite H. cbn [verts faces]. rewrite map_map. auto. Qed.
Lemma mapper_optional : forall A (o : option A) (f : A -> mesh -> res mesh) (g : A -> vec -> vec) g0,
  (forall a m, f a m = Ok (mkMesh (map (g a) (verts m)) (faces m))) -> (forall v, g0 v = v) ->
  mapper (match o with Some a => g a | None => g0 end) (optional o f).
Proof.
  intros A [a|] f g g0 F G m; cbn [optional in_order bind].
  - rewrite F. auto.
  - destruct m as [vs fs]. cbn [verts faces]. rewrite (map_ext _ (fun v => v) G), map_id. auto.
Qed.
Lemma mapper_ext : forall g h l, (forall v, g v = h v) -> mapper g l -> mapper h l.
Proof. intros g h l E G m. rewrite G. do 2 f_equal. apply map_ext. auto. Qed.

Lemma about_zero : cardan_to_rotmat (radians 0) (radians 0) (radians 0) = mid.
Proof. unfold radians. replace (0 * PI / 180) with 0 by field. unfold cardan_to_rotmat. rewrite !cos_0, !sin_0. apply mat_eq; cbn; ring. Qed.
Lemma mvec_mmul : forall a b v, mvec (mmul a b) v = mvec a (mvec b v). Proof. intros. apply vec_eq; vunfold; ring. Qed.

Lemma turned_ok : forall o, mapper (fun v => mvec (turned_by o) v)
  (optional (o_rotate o) (fun a m => Ok (rotate (radians (vx a)) (radians (vy a)) (radians (vz a)) m)) ++
   optional (o_rx o) (fun a m => Ok (rotate_x (radians a) m)) ++ optional (o_ry o) (fun a m => Ok (rotate_y (radians a) m)) ++
   optional (o_rz o) (fun a m => Ok (rotate_z (radians a) m))).
Proof.
  intros o. unfold turned_by. cbv zeta.
  assert (Z : radians 0 = 0) by (unfold radians; field).
  eapply mapper_ext; [|apply mapper_app; [apply (mapper_optional _ (o_rotate o) _ (fun a => mvec (cardan_to_rotmat (radians (vx a)) (radians (vy a)) (radians (vz a)))) (fun v => v)); auto|
    apply mapper_app; [apply (mapper_optional _ (o_rx o) _ (fun a => mvec (cardan_to_rotmat (radians a) 0 0)) (fun v => v)); auto|
    apply mapper_app; [apply (mapper_optional _ (o_ry o) _ (fun a => mvec (cardan_to_rotmat 0 (radians a) 0)) (fun v => v)); auto|
    apply (mapper_optional _ (o_rz o) _ (fun a => mvec (cardan_to_rotmat 0 0 (radians a))) (fun v => v)); auto]]]].
  intros v. cbv beta. rewrite !mvec_mmul.
  assert (T : forall k (x : option R) w, (x = None -> k (radians 0) = mid) -> match x with Some a => mvec (k (radians a)) | None => fun v => v end w = mvec (k (radians (or_zero x))) w).
  { intros k [a|] w K; cbn [or_zero]; auto. rewrite K by auto. rewrite mvec_id. auto. }
  assert (A0 := about_zero). rewrite Z in A0.
  rewrite (T (fun a => cardan_to_rotmat 0 0 a)) by (intros; rewrite Z; auto). rewrite (T (fun a => cardan_to_rotmat 0 a 0)) by (intros; rewrite Z; auto). rewrite (T (fun a => cardan_to_rotmat a 0 0)) by (intros; rewrite Z; auto).
  rewrite !Z. do 3 f_equal. destruct (o_rotate o); auto. rewrite mvec_id. auto.
Qed.
Lemma shifted_ok : forall o, mapper (shifted o)
  (optional (o_translate o) (always translate) ++ optional (o_tx o) (always translate_x) ++ optional (o_ty o) (always translate_y) ++ optional (o_tz o) (always translate_z)).
Proof.
  intros o. eapply mapper_ext; [|apply mapper_app; [apply (mapper_optional _ (o_translate o) _ (fun t v => vadd v t) (fun v => v)); auto|
    apply mapper_app; [apply (mapper_optional _ (o_tx o) _ (fun t v => V3 (vx v + t) (vy v) (vz v)) (fun v => v)); auto|
    apply mapper_app; [apply (mapper_optional _ (o_ty o) _ (fun t v => V3 (vx v) (vy v + t) (vz v)) (fun v => v)); auto|
    apply (mapper_optional _ (o_tz o) _ (fun t v => V3 (vx v) (vy v) (vz v + t)) (fun v => v)); auto]]]].
  intros v. unfold shifted. destruct (o_translate o), (o_tx o), (o_ty o), (o_tz o); cbn [or_zero]; apply vec_eq; vunfold; ring.
Qed.

Definition scaler (ok : Prop) (g : vec -> vec) (l : list (mesh -> res mesh)) : Prop := forall m,
  (ok -> in_order l m = Ok (mkMesh (map g (verts m)) (faces m))) /\ (~ ok -> in_order l m = Raise AssertionError).
Lemma scaler_app : forall P Q g h l k, scaler P g l -> scaler Q h k -> (P \/ ~ P) -> scaler (P /\ Q) (fun v => h (g v)) (l ++ k).
Proof.
  intros P Q g h l k G H D m. rewrite in_order_app. destruct (G m) as [G1 G2]. split.
  - intros [p q]. rewrite (G1 p). cbn [bind]. destruct (H (mkMesh (map g (verts m)) (faces m))) as [H1 _]. rewrite (H1 q). cbn [verts faces]. rewrite map_map. auto.
  - intros N. destruct D as [p|p]; [|rewrite (G2 p); auto]. rewrite (G1 p). cbn [bind]. apply H. tauto.
Qed.
Lemma scaler_optional : forall (o : option R) f (g : R -> vec -> vec), (forall a, f a = scaling (g a) a) -> (forall v, g 1 v = v) ->
  scaler (0 < or_one o) (g (or_one o)) (optional o f).
Proof.
  intros [a|] f g F G m; cbn [optional in_order bind or_one].
  - rewrite F. unfold scaling. split; intros H.
    + apply Rltb_true in H. rewrite H. auto.
    + assert (E : Rltb 0 a = false) by (apply Rltb_false; lra). rewrite E. auto.
  - split; [|lra]. intros _. destruct m as [vs fs]. cbn [verts faces]. rewrite (map_ext _ (fun v => v) G), map_id. auto.
Qed.
Lemma sized_ok : forall o, scaler (positive_scales o) (sized o)
  (optional (o_scale o) scale ++ optional (o_sx o) scalex ++ optional (o_sy o) scaley ++ optional (o_sz o) scalez).
Proof.
  intros o m. unfold positive_scales.
  assert (D : forall x, 0 < x \/ ~ 0 < x) by (intros x; destruct (Rlt_dec 0 x); auto).
  assert (S : scaler (positive_scales o) (fun v => (fun v => V3 (vx v) (vy v) (vz v * or_one (o_sz o))) ((fun v => V3 (vx v) (vy v * or_one (o_sy o)) (vz v))
     ((fun v => V3 (vx v * or_one (o_sx o)) (vy v) (vz v)) (vscale (or_one (o_scale o)) v))))
    (optional (o_scale o) scale ++ optional (o_sx o) scalex ++ optional (o_sy o) scaley ++ optional (o_sz o) scalez)).
  { unfold positive_scales. refine (scaler_app _ _ _ (fun v => V3 (vx v * or_one (o_sx o)) (vy v * or_one (o_sy o)) (vz v * or_one (o_sz o))) _ _ (scaler_optional (o_scale o) scale vscale (fun a => eq_refl) _) _ _); auto.
    { intros v. apply vec_eq; vunfold; ring. }
    refine (scaler_app _ _ (fun v => V3 (vx v * or_one (o_sx o)) (vy v) (vz v)) (fun v => V3 (vx v) (vy v * or_one (o_sy o)) (vz v * or_one (o_sz o))) _ _ (scaler_optional (o_sx o) scalex (fun a v => V3 (vx v * a) (vy v) (vz v)) (fun a => eq_refl) _) _ _); auto.
    { intros v. apply vec_eq; vunfold; ring. }
    refine (scaler_app _ _ (fun v => V3 (vx v) (vy v * or_one (o_sy o)) (vz v)) (fun v => V3 (vx v) (vy v) (vz v * or_one (o_sz o))) _ _ (scaler_optional (o_sy o) scaley (fun a v => V3 (vx v) (vy v * a) (vz v)) (fun a => eq_refl) _) _ _); auto.
    { intros v. apply vec_eq; vunfold; ring. }
    apply (scaler_optional (o_sz o) scalez (fun a v => V3 (vx v) (vy v) (vz v * a))); auto. intros v. apply vec_eq; vunfold; ring. }
  destruct (S m) as [S1 S2]. split; auto. intros P. rewrite (S1 P). do 2 f_equal. apply map_ext. intros v. unfold sized. apply vec_eq; vunfold; ring.
Qed.

Lemma motions_ok : forall o m, (positive_scales o -> in_order (motions o) m = Ok (mkMesh (map (moved_to o) (verts m)) (faces m))) /\
  (~ positive_scales o -> in_order (motions o) m = Raise AssertionError).
Proof.
  intros o m. unfold motions.
  assert (E : forall a b c d e f g h i j k l : list (mesh -> res mesh), a ++ b ++ c ++ d ++ e ++ f ++ g ++ h ++ i ++ j ++ k ++ l = (a ++ b ++ c ++ d) ++ (e ++ f ++ g ++ h) ++ i ++ j ++ k ++ l) by (intros; rewrite <- !app_assoc; auto).
  rewrite E, in_order_app, (shifted_ok o). cbn [bind]. rewrite in_order_app, (turned_ok o). cbn [bind verts faces]. rewrite map_map.
  destruct (sized_ok o (mkMesh (map (fun v => mvec (turned_by o) (shifted o v)) (verts m)) (faces m))) as [S1 S2]. cbn [verts faces] in *. rewrite map_map in S1. split; intros P; [rewrite (S1 P)|rewrite (S2 P)]; auto.
Qed.
Lemma no_motion_ok : forall o m, no_motion o -> in_order (motions o) m = Ok m.
Proof. intros o m (A & B & C & D & E & F & G & H & I & J & K & L). unfold motions. rewrite A, B, C, D, E, F, G, H, I, J, K, L. auto. Qed.
