(** Proofs about normals, centers and areas of faces that a caller has kept. *)
From Coq Require Import Ascii String Reals List Arith NArith Bool Lia.
From Verif Require Import M_base M_merge M_plane M_rotations M_mesh M_inertia M_geometry M_connectivity M_cache M_text M_arrays
  S_merge S_arrays P_base P_merge P_mesh P_curves P_geometry P_arrays P_arrays2 P_arrays3 P_arrays4.
Import ListNotations.
Local Open Scope nat_scope.

(** The mesh has these arrays, with these values. *)
Definition holds (a n e : nat) (x y : list vec) (z : self) : Prop :=
  good z /\ o_props (snd z) = Some (a, n, e) /\ points (fst z) n = x /\ points (fst z) e = y.
(** The mesh no longer has them. *)
Definition gone (n e : nat) (x y : list vec) (z : self) : Prop :=
  good z /\ (n < length (h_points (fst z)) /\ e < length (h_points (fst z))) /\
  (~ In n (own_points (snd z)) /\ ~ In e (own_points (snd z))) /\ points (fst z) n = x /\ points (fst z) e = y.

Lemma gone_moves : forall n e x y z z', good z' -> framed z z' -> gone n e x y z -> gone n e x y z'.
Proof.
intros n e x y z z' G' ([L O W] & _) (G & [I J] & [N M] & X & Y). split; [exact G'|].
assert (P : forall b, b < length (h_points (fst z)) -> ~ In b (own_points (snd z)) ->
   ~ In b (own_points (snd z')) /\ points (fst z') b = points (fst z) b).
{ intros b B K; split; [intros H; apply W in H as [H|H]; [tauto|lia]|apply nth_same, O; assumption]. }
destruct (P n I N) as [N' X']; destruct (P e J M) as [M' Y'].
split; [lia|]. split; [tauto|]. split; congruence.
Qed.
Lemma gone_after : forall n e x y z z', moves z z' -> gone n e x y z -> gone n e x y z'.
Proof. intros n e x y z z' M H; destruct (M (proj1 H)) as [G F]; exact (gone_moves _ _ _ _ _ _ G F H). Qed.
Lemma gone_values : forall n e x y z, gone n e x y z -> points (fst z) e = y /\ points (fst z) n = x.
Proof. intros n e x y z (_ & _ & _ & X & Y); auto. Qed.
Lemma holds_self : forall z a n e, good z -> o_props (snd z) = Some (a, n, e) -> holds a n e (points (fst z) n) (points (fst z) e) z.
Proof. intros z a n e G P; split; [exact G|split; [exact P|split; reflexivity]]. Qed.

Lemma holds_replace_verts : forall a n e x y vs z, holds a n e x y z -> holds a n e x y (replace_verts vs z).
Proof.
intros a n e x y vs z (G & P & X & Y); split; [apply (moves_replace_verts vs z G)|]. parts z; [|discriminate P]; injection P as -> -> ->; goods.
unfold points in *; cbn in *; split; [reflexivity|]. rewrite !nth_app_old by lia; split; assumption.
Qed.
Lemma holds_replace_faces : forall a n e x y fs z, holds a n e x y z -> holds a n e x y (replace_faces fs z).
Proof.
intros a n e x y vs z (G & P & X & Y); split; [apply (moves_replace_faces vs z G)|]. split; [exact P|split; [exact X|exact Y]].
Qed.
Lemma holds_fill_verts : forall a n e x y vs z, holds a n e x y z -> holds a n e x y (fill_verts vs z).
Proof.
intros a n e x y vs z (G & P & X & Y); split; [apply (moves_fill_verts vs z G)|]. parts z; [|discriminate P]; injection P as -> -> ->; goods.
unfold points in *; cbn in *; split; [reflexivity|]. rewrite !nth_set_other by congruence; split; assumption.
Qed.
Lemma holds_fill_faces : forall a n e x y fs z, holds a n e x y z -> holds a n e x y (fill_faces fs z).
Proof.
intros a n e x y vs z (G & P & X & Y); split; [apply (moves_fill_faces vs z G)|]. split; [exact P|split; [exact X|exact Y]].
Qed.
Lemma holds_on_obj : forall a n e x y f z, forgets f -> (forall o, o_props (f o) = o_props o) -> holds a n e x y z -> holds a n e x y (on_obj f z).
Proof.
intros a n e x y f z F K (G & P & X & Y); split; [apply (moves_on_obj f z F G)|]. split; [cbn; rewrite K; exact P|split; [exact X|exact Y]].
Qed.
Lemma holds_query : forall A (q : cmesh -> res (A * cmesh)) a n e x y z v z', gentle q -> query q z = Ok (v, z') ->
  holds a n e x y z -> holds a n e x y z'.
Proof.
intros A q a n e x y z v z' Q E (G & P & X & Y). destruct (query_rows _ _ _ _ _ G Q E) as (G' & _). split; [exact G'|].
unfold query in E; apply bind_ok in E as ([w s] & _ & E); injection E as <- <-. cbn; rewrite P. cbn; split; [exact P|split; [exact X|exact Y]].
Qed.
Lemma holds_drop : forall a n e x y f z, forgets f -> (forall o, o_props (f o) = None) -> holds a n e x y z -> gone n e x y (on_obj f z).
Proof.
intros a n e x y f z F K (G & P & X & Y); split; [apply (moves_on_obj f z F G)|].
pose proof (K (snd z)) as N; destruct (F (snd z)) as (V & _). unfold own_points; cbn [on_obj fst snd]; rewrite N, V.
parts z; [|discriminate P]; injection P as -> -> ->; goods; cbn.
split; [split; assumption|]. split; [split; intros [I|[]]; congruence|split; assumption].
Qed.
Lemma none_props : forall o, o_props (remove_props_if_any o) = None.
Proof. intros o; unfold remove_props_if_any; destruct (o_props o) eqn:P; [reflexivity|exact P]. Qed.
Lemma none_cleared : forall o, o_props (cleared o) = None.
Proof. reflexivity. Qed.
Lemma kept_ints : forall o, o_props (drop_ints o) = o_props o.
Proof. reflexivity. Qed.
Lemma kept_conn : forall o, o_props (drop_conn o) = o_props o.
Proof. reflexivity. Qed.
Lemma holds_centers : forall t a n e x y z, holds a n e x y z -> holds a n e x (map (fun v => vadd v t) y) (move_centers t z).
Proof.
intros t a n e x y z (G & P & X & Y); split; [apply (moves_centers t z G)|]. parts z; [|discriminate P]; injection P as -> -> ->; goods.
unfold points in *; cbn in *; split; [reflexivity|]. rewrite nth_set_same, nth_set_other by congruence; split; congruence.
Qed.
Lemma holds_flip : forall a n e x y z, holds a n e x y z -> holds a n e (map vopp x) y (h_flip_normals z).
Proof.
intros a n e x y z (G & P & X & Y); split; [apply (moves_flip z G)|]. parts z; [|discriminate P]; injection P as -> -> ->; goods.
unfold points in *; cbn in *; split; [reflexivity|]. rewrite nth_set_same, nth_set_other by congruence; split; congruence.
Qed.
Lemma held : forall a n e x y z, holds a n e x y z -> o_props (snd z) = Some (a, n, e) /\ points (fst z) e = y /\ points (fst z) n = x.
Proof. intros a n e x y z (_ & P & X & Y); auto. Qed.
Lemma dropped : forall n e x y f z, (forall o, o_props (f o) = None) -> gone n e x y (on_obj f z) ->
  o_props (snd (on_obj f z)) = None /\ points (fst (on_obj f z)) e = y /\ points (fst (on_obj f z)) n = x.
Proof. intros n e x y f z K H; split; [apply K|exact (gone_values _ _ _ _ _ H)]. Qed.

Section Properties.
  Variable argsort : list R -> list nat.
  Variable order : list nat -> list nat.

  Lemma holds_heal_normals : forall a n e x y z z', h_heal_normals order z = Ok z' -> holds a n e x y z ->
    o_props (snd z') = None /\ points (fst z') e = y /\ (points (fst z') n = x \/ points (fst z') n = map vopp x).
  Proof.
  intros a n e x y z z' E H; unfold h_heal_normals in E; apply bind_ok in E as ([c z1] & Q1 & E).
  apply (holds_query _ _ _ _ _ _ _ _ _ _ (gentle_conn order) Q1) in H.
  apply bind_ok in E as ([[tri quad] z2] & Q2 & E). apply (holds_query _ _ _ _ _ _ _ _ _ _ gentle_ids Q2) in H.
  apply bind_ok in E as (st & _ & E). apply bind_ok in E as (z5 & E & F); injection F as <-.
  apply (holds_fill_faces _ _ _ _ _ (fl_faces st)) in H.
  set (kc := fun o => set_data _ _ _ o) in E.
  assert (K : forgets kc) by (intros o; cbn; auto).
  apply (holds_on_obj _ _ _ _ _ kc _ K (fun _ => eq_refl)) in H.
  split; [apply none_props|]. destruct (c_bounds c) as [|b bs].
  2: { injection E as <-; apply (holds_drop _ _ _ _ _ _ _ forgets_props none_props), gone_values in H; tauto. }
  apply bind_ok in E as (zmax & _ & E); apply bind_ok in E as ([p z4] & Q & E).
  apply (holds_query _ _ _ _ _ _ _ _ _ _ gentle_props Q) in H.
  destruct (Rltb (heave zmax p) 0); injection E as <-; [apply holds_flip in H|];
    apply (holds_drop _ _ _ _ _ _ _ forgets_props none_props), gone_values in H; tauto.
  Qed.
  Lemma none_heal_normals : forall z z', h_heal_normals order z = Ok z' -> o_props (snd z') = None.
  Proof.
  intros z z' E; unfold h_heal_normals in E; apply bind_ok in E as ([c z1] & Q1 & E).
  apply bind_ok in E as ([[tri quad] z2] & Q2 & E). apply bind_ok in E as (st & _ & E). apply bind_ok in E as (z5 & E & F); injection F as <-.
  apply none_props.
  Qed.
  Lemma holds_heal_mesh : forall a n e x y z z', h_heal_mesh argsort order z = Ok z' -> holds a n e x y z ->
    o_props (snd z') = None /\ points (fst z') e = y /\ points (fst z') n = x.
  Proof.
  intros a n e x y z z' E H; unfold h_heal_mesh in E.
  apply (holds_drop _ _ _ _ _ _ _ forgets_props none_props) in H.
  set (z0 := on_obj remove_props_if_any z) in *; clearbody z0; clear z; rename z0 into z; pose proof (proj1 H) as G.
  apply bind_ok in E as (z1 & E1 & E); apply bind_ok in E as (z2 & E2 & E); apply bind_ok in E as (z3 & E3 & E).
  pose proof (agrees_unused z G) as A1; rewrite E1 in A1; destruct (c_remove_unused (vw z)) as [s1|]; [|contradiction A1]; destruct A1 as (G1 & F1 & _).
  pose proof (agrees_degenerated default_rtol z1 G1) as A2; rewrite E2 in A2;
    destruct (c_remove_degenerated default_rtol (vw z1)) as [s2|]; [|contradiction A2]; destruct A2 as (G2 & F2 & _).
  pose proof (agrees_merge argsort default_atol z2 G2) as A3; rewrite E3 in A3;
    destruct (c_merge argsort default_atol (vw z2)) as [s3|]; [|contradiction A3]; destruct A3 as (G3 & F3 & _).
  destruct (agrees_heal_triangles z3 G3) as (G4 & F4 & _).
  pose proof (agrees_heal_normals order _ G4) as A5; rewrite E in A5;
    destruct (c_heal_normals order (vw (h_heal_triangles z3))) as [s5|]; [|contradiction A5]; destruct A5 as (G5 & F5 & _).
  split; [exact (none_heal_normals _ _ E)|].
  apply (gone_values n e x y), (gone_moves _ _ _ _ _ _ G5 F5), (gone_moves _ _ _ _ _ _ G4 F4), (gone_moves _ _ _ _ _ _ G3 F3),
    (gone_moves _ _ _ _ _ _ G2 F2), (gone_moves _ _ _ _ _ _ G1 F1), H.
  Qed.
  Lemma holds_rotate : forall r a n e x y z, holds a n e x y z -> (exists n' e', o_props (snd (h_rotate_matrix r z)) = Some (a, n', e') /\ n' <> n /\ e' <> e) /\
    points (fst (h_rotate_matrix r z)) e = y /\ points (fst (h_rotate_matrix r z)) n = x.
  Proof.
  intros r a n e x y z (G & P & X & Y). parts z; [|discriminate P]; injection P as -> -> ->; goods.
  unfold points in *; cbn in *. rewrite !app_length; cbn. split.
  - eexists; eexists; split; [reflexivity|lia].
  - rewrite !nth_app_old by (rewrite ?app_length; cbn; lia); split; assumption.
  Qed.
  Lemma holds_scaling : forall op a n e x y z z', h_scaling op z = Ok z' -> holds a n e x y z ->
    o_props (snd z') = None /\ points (fst z') e = y /\ points (fst z') n = x.
  Proof.
  intros op a n e x y z z' E H; apply bind_ok in E as (m & _ & E); injection E as <-.
  apply dropped; [exact none_props|]. eapply holds_drop; [exact forgets_props|exact none_props|apply holds_replace_verts, H].
  Qed.

  Ltac hd := lazymatch goal with
    | |- holds _ _ _ _ _ (on_obj drop_ints _) => apply (holds_on_obj _ _ _ _ _ _ _ forgets_ints kept_ints)
    | |- holds _ _ _ _ _ (on_obj drop_conn _) => apply (holds_on_obj _ _ _ _ _ _ _ forgets_conn kept_conn)
    | |- holds _ _ _ _ (map _ _) (move_centers _ _) => apply holds_centers
    | |- holds _ _ _ _ _ (replace_verts _ _) => apply holds_replace_verts
    | |- holds _ _ _ _ _ (replace_faces _ _) => apply holds_replace_faces
    | |- holds _ _ _ _ _ (fill_verts _ _) => apply holds_fill_verts
    | |- holds _ _ _ _ _ (fill_faces _ _) => apply holds_fill_faces
    | |- holds _ _ _ (map vopp _) _ (h_flip_normals _) => apply holds_flip
    end.
  Ltac drops H := first [apply dropped; [exact none_props|]; eapply holds_drop; [exact forgets_props|exact none_props|]; repeat hd; try exact H
                        |apply dropped; [exact none_cleared|]; eapply holds_drop; [exact forgets_cleared|exact none_cleared|]; repeat hd; try exact H].

  Lemma kept_properties_step : forall c z z' v a n e, good z -> o_props (snd z) = Some (a, n, e) -> h_step argsort order c z = Ok (z', v) ->
    properties_kept c (fst z) (fst z') a n e (snd z').
  Proof.
  intros c z z' v a n e G P E; pose proof (holds_self z a n e G P) as H; set (x := points (fst z) n) in *; set (y := points (fst z) e) in *.
  destruct c; cbn [properties_kept]; cbn [h_step] in E; fold x y.
  all: try (injection E as <- <-).
  - drops H.
  - drops H.
  - apply held; unfold h_translate; repeat hd; try exact H.
  - apply held; unfold h_translate_x; repeat hd; try exact H.
  - apply held; unfold h_translate_y; repeat hd; try exact H.
  - apply held; unfold h_translate_z; repeat hd; try exact H.
  - exact (holds_rotate _ _ _ _ _ _ _ H).
  - exact (holds_rotate _ _ _ _ _ _ _ H).
  - apply bind_ok in E as (z1 & E & F); injection F as <- <-; exact (holds_scaling _ _ _ _ _ _ _ _ E H).
  - apply bind_ok in E as (z1 & E & F); injection F as <- <-; exact (holds_scaling _ _ _ _ _ _ _ _ E H).
  - apply bind_ok in E as (z1 & E & F); injection F as <- <-; exact (holds_scaling _ _ _ _ _ _ _ _ E H).
  - apply bind_ok in E as (z1 & E & F); injection F as <- <-; exact (holds_scaling _ _ _ _ _ _ _ _ E H).
  - apply held; repeat hd; try exact H.
  - apply bind_ok in E as (z1 & E & F); injection F as <- <-. apply bind_ok in E as (m & _ & E).
    destruct (keeps_array argsort _ _); injection E as <-; apply held; repeat hd; try exact H.
  - apply bind_ok in E as (z1 & E & F); injection F as <- <-. exact (holds_heal_normals _ _ _ _ _ _ _ E H).
  - apply bind_ok in E as (z1 & E & F); injection F as <- <-. apply bind_ok in E as (m & _ & E).
    destruct (_ <? _); injection E as <-; apply held; repeat hd; try exact H.
  - unfold h_heal_triangles. set (fs := heal_triangles _). apply (holds_drop _ _ _ _ _ _ _ forgets_props none_props) in H.
    split; [apply none_props|]. apply (gone_values n e x y). eapply gone_after; [apply moves_fill_faces|exact H].
  - apply bind_ok in E as (z1 & E & F); injection F as <- <-. unfold h_remove_degenerated in E.
    destruct (Rltb 0 _); [|discriminate E]. apply bind_ok in E as ([p z2] & Q & E). apply bind_ok in E as (fs & _ & E); injection E as <-.
    apply (holds_query _ _ _ _ _ _ _ _ _ _ gentle_props Q) in H. drops H.
  - apply bind_ok in E as (z1 & E & F); injection F as <- <-. exact (holds_heal_mesh _ _ _ _ _ _ _ E H).
  - apply bind_ok in E as (z1 & E & F); injection F as <- <-. unfold h_triangulate in E.
    apply bind_ok in E as ([[t q] z2] & Q & E). apply bind_ok in E as (fs & _ & E); injection E as <-.
    apply (holds_query _ _ _ _ _ _ _ _ _ _ gentle_ids Q) in H. split; [reflexivity|]. apply (gone_values n e x y).
    eapply gone_after; [apply moves_replace_faces|]. eapply holds_drop; [exact forgets_cleared|exact none_cleared|]; repeat hd; try exact H.
  - apply bind_ok in E as (z1 & E & F); injection F as <- <-. unfold h_symmetrize in E; apply bind_ok in E as (m & _ & E); injection E as <-.
    drops H.
  - unfold h_mirror. apply dropped; [exact none_cleared|]; eapply holds_drop; [exact forgets_cleared|exact none_cleared|]; repeat hd; try exact H.
  - apply bind_ok in E as ([u z1] & Q & E); injection E as <- <-; apply held; eapply holds_query; [|exact Q|exact H]; apply gentle_ids.
  - apply bind_ok in E as ([u z1] & Q & E); injection E as <- <-; apply held; eapply holds_query; [|exact Q|exact H]; apply gentle_props.
  - apply bind_ok in E as ([u z1] & Q & E); injection E as <- <-; apply held; eapply holds_query; [|exact Q|exact H]; apply gentle_conn.
  - apply bind_ok in E as ([u z1] & Q & E); injection E as <- <-; apply held; eapply holds_query; [|exact Q|exact H]; apply gentle_ints.
  - apply bind_ok in E as ([u z1] & Q & E); injection E as <- <-; apply held; eapply holds_query; [|exact Q|exact H]; apply gentle_volume.
  - apply bind_ok in E as ([u z1] & Q & E); injection E as <- <-; apply held; eapply holds_query; [|exact Q|exact H]; apply gentle_plain.
  - apply bind_ok in E as ([u z1] & Q & E); injection E as <- <-; apply held; eapply holds_query; [|exact Q|exact H]; apply gentle_shell.
  - apply bind_ok in E as ([u z1] & Q & E); injection E as <- <-; apply held; eapply holds_query; [|exact Q|exact H]; apply gentle_conn.
  - apply bind_ok in E as ([u z1] & Q & E); apply bind_ok in E as (b & _ & E); injection E as <- <-; apply held;
    eapply holds_query; [|exact Q|exact H]; apply gentle_conn.
  - apply bind_ok in E as (b & _ & E); injection E as <- <-; apply held, H.
  - apply bind_ok in E as (b & _ & E); injection E as <- <-; apply held, H.
  Qed.

  (** ** Areas *)
  Definition grown (z z' : self) : Prop := exists l, h_numbers (fst z') = h_numbers (fst z) ++ l.
  Lemma grown_refl : forall z z', h_numbers (fst z') = h_numbers (fst z) -> grown z z'.
  Proof. intros z z' E; exists []; rewrite app_nil_r; exact E. Qed.
  Lemma grown_trans : forall z z' z'', grown z z' -> grown z' z'' -> grown z z''.
  Proof. intros z z' z'' [l E] [m F]; exists (l ++ m); rewrite F, E, app_assoc; reflexivity. Qed.
  Lemma grown_query : forall A (q : cmesh -> res (A * cmesh)) z x z', query q z = Ok (x, z') -> grown z z'.
  Proof.
  intros A q z x z' E; unfold query in E; apply bind_ok in E as ([y s] & _ & E); injection E as <- <-.
  destruct z as [h o]; cbn; destruct (o_props o) as [p|]; [apply grown_refl; reflexivity|].
  destruct (c_props s); cbn; [eexists; reflexivity|apply grown_refl; reflexivity].
  Qed.
  Lemma grown_flip : forall z, grown z (h_flip_normals z).
  Proof. intros z; parts z; apply grown_refl; reflexivity. Qed.
  Lemma grown_centers : forall t z, h_numbers (fst (move_centers t z)) = h_numbers (fst z).
  Proof. intros t z; parts z; reflexivity. Qed.
  Lemma grown_unused : forall z z', h_remove_unused z = Ok z' -> grown z z'.
  Proof. intros z z' E; apply bind_ok in E as (m & _ & E); destruct (_ <? _); injection E as <-; apply grown_refl; reflexivity. Qed.
  Lemma grown_merge : forall atol z z', h_merge argsort atol z = Ok z' -> grown z z'.
  Proof. intros atol z z' E; apply bind_ok in E as (m & _ & E); destruct (keeps_array argsort _ _); injection E as <-; apply grown_refl; reflexivity. Qed.
  Lemma grown_degenerated : forall rtol z z', h_remove_degenerated rtol z = Ok z' -> grown z z'.
  Proof.
  intros rtol z z' E; unfold h_remove_degenerated in E; destruct (Rltb 0 _); [|discriminate E].
  apply bind_ok in E as ([p z2] & Q & E). apply bind_ok in E as (fs & _ & E); injection E as <-.
  eapply grown_trans; [exact (grown_query _ _ _ _ _ Q)|apply grown_refl; reflexivity].
  Qed.
  Lemma grown_heal_normals : forall z z', h_heal_normals order z = Ok z' -> grown z z'.
  Proof.
  intros z z' E; unfold h_heal_normals in E; apply bind_ok in E as ([c z1] & Q1 & E).
  apply bind_ok in E as ([[tri quad] z2] & Q2 & E). apply bind_ok in E as (st & _ & E). apply bind_ok in E as (z5 & E & F); injection F as <-.
  eapply grown_trans; [exact (grown_query _ _ _ _ _ Q1)|]. eapply grown_trans; [exact (grown_query _ _ _ _ _ Q2)|].
  eapply grown_trans; [|apply grown_refl; reflexivity]. destruct (c_bounds c) as [|b bs]; [|injection E as <-; apply grown_refl; reflexivity].
  apply bind_ok in E as (zmax & _ & E); apply bind_ok in E as ([p z4] & Q & E).
  eapply grown_trans; [|eapply grown_trans; [exact (grown_query _ _ _ _ _ Q)|]]; [apply grown_refl; reflexivity|].
  destruct (Rltb _ 0); injection E as <-; [apply grown_flip|apply grown_refl; reflexivity].
  Qed.
  Lemma grown_scaling : forall op z z', h_scaling op z = Ok z' -> grown z z'.
  Proof. intros op z z' E; apply bind_ok in E as (m & _ & E); injection E as <-; apply grown_refl; reflexivity. Qed.
  Lemma grown_rotate : forall r z, grown z (h_rotate_matrix r z).
  Proof. intros r z; parts z; apply grown_refl; reflexivity. Qed.
  Lemma areas_step : forall c z z' v, h_step argsort order c z = Ok (z', v) -> grown z z'.
  Proof.
  intros c z z' v E; destruct c; cbn [h_step] in E; try (injection E as <- <-).
  - apply grown_refl; reflexivity.
  - apply grown_refl; reflexivity.
  - apply grown_refl; parts z; reflexivity.
  - apply grown_refl; parts z; reflexivity.
  - apply grown_refl; parts z; reflexivity.
  - apply grown_refl; parts z; reflexivity.
  - apply grown_rotate.
  - apply grown_rotate.
  - apply bind_ok in E as (z1 & E & F); injection F as <- <-; exact (grown_scaling _ _ _ E).
  - apply bind_ok in E as (z1 & E & F); injection F as <- <-; exact (grown_scaling _ _ _ E).
  - apply bind_ok in E as (z1 & E & F); injection F as <- <-; exact (grown_scaling _ _ _ E).
  - apply bind_ok in E as (z1 & E & F); injection F as <- <-; exact (grown_scaling _ _ _ E).
  - apply grown_flip.
  - apply bind_ok in E as (z1 & E & F); injection F as <- <-; exact (grown_merge _ _ _ E).
  - apply bind_ok in E as (z1 & E & F); injection F as <- <-; exact (grown_heal_normals _ _ E).
  - apply bind_ok in E as (z1 & E & F); injection F as <- <-; exact (grown_unused _ _ E).
  - apply grown_refl; reflexivity.
  - apply bind_ok in E as (z1 & E & F); injection F as <- <-; exact (grown_degenerated _ _ _ E).
  - apply bind_ok in E as (z1 & E & F); injection F as <- <-. unfold h_heal_mesh in E.
    apply bind_ok in E as (y1 & E1 & E); apply bind_ok in E as (y2 & E2 & E); apply bind_ok in E as (y3 & E3 & E).
    apply grown_unused in E1; apply grown_degenerated in E2; apply grown_merge in E3; apply grown_heal_normals in E.
    exact (grown_trans _ _ _ E1 (grown_trans _ _ _ E2 (grown_trans _ _ _ E3 E))).
  - apply bind_ok in E as (z1 & E & F); injection F as <- <-. unfold h_triangulate in E.
    apply bind_ok in E as ([[t q] z2] & Q & E). apply bind_ok in E as (fs & _ & E); injection E as <-. exact (grown_query _ _ _ _ _ Q).
  - apply bind_ok in E as (z1 & E & F); injection F as <- <-. unfold h_symmetrize in E; apply bind_ok in E as (m & _ & E); injection E as <-.
    apply grown_refl; reflexivity.
  - unfold h_mirror; set (y := fill_verts _ z). exact (grown_flip y).
  - apply bind_ok in E as ([u z1] & Q & E); injection E as <- <-; exact (grown_query _ _ _ _ _ Q).
  - apply bind_ok in E as ([u z1] & Q & E); injection E as <- <-; exact (grown_query _ _ _ _ _ Q).
  - apply bind_ok in E as ([u z1] & Q & E); injection E as <- <-; exact (grown_query _ _ _ _ _ Q).
  - apply bind_ok in E as ([u z1] & Q & E); injection E as <- <-; exact (grown_query _ _ _ _ _ Q).
  - apply bind_ok in E as ([u z1] & Q & E); injection E as <- <-; exact (grown_query _ _ _ _ _ Q).
  - apply bind_ok in E as ([u z1] & Q & E); injection E as <- <-; exact (grown_query _ _ _ _ _ Q).
  - apply bind_ok in E as ([u z1] & Q & E); injection E as <- <-; exact (grown_query _ _ _ _ _ Q).
  - apply bind_ok in E as ([u z1] & Q & E); injection E as <- <-; exact (grown_query _ _ _ _ _ Q).
  - apply bind_ok in E as ([u z1] & Q & E); apply bind_ok in E as (b & _ & E); injection E as <- <-; exact (grown_query _ _ _ _ _ Q).
  - apply bind_ok in E as (b & _ & E); injection E as <- <-; apply grown_refl; reflexivity.
  - apply bind_ok in E as (b & _ & E); injection E as <- <-; apply grown_refl; reflexivity.
  Qed.
End Properties.
