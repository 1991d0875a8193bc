(** What each cutting pattern keeps of a face, at the level of points. *)
From Coq Require Import Reals List Arith Bool Lia Lra Psatz.
From Verif Require Import M_base P_base M_plane M_mesh S_mesh S_geometry P_volume S_plane P_plane S_clipper P_hull.
Import ListNotations.
Open Scope R_scope.

Lemma height_dist : forall p x, plane_dist p x = height p x.
Proof. intros. unfold plane_dist, height. vring. Qed.

(** ** Heights over a hull *)
Lemma cone_le : forall p h ps s x, (forall q, In q ps -> height p q <= h) -> cone ps s x ->
  dot (p_normal p) x - s * p_scalar p <= s * h.
Proof.
  induction ps as [|q ps IH]; intros s x F H.
  - apply cone_nil in H as [-> ->]. vunfold. lra.
  - apply cone_cons in H as (w & t & y & W & C & -> & ->). specialize (IH t y (fun q' I => F q' (or_intror I)) C).
    pose proof (F q (or_introl eq_refl)) as Q. unfold height in Q.
    replace (dot (p_normal p) (vadd (vscale w q) y)) with (w * dot (p_normal p) q + dot (p_normal p) y) by vring.
    pose proof (Rmult_le_compat_l w _ _ W Q). lra.
Qed.
Lemma cone_ge : forall p h ps s x, (forall q, In q ps -> h <= height p q) -> cone ps s x ->
  s * h <= dot (p_normal p) x - s * p_scalar p.
Proof.
  induction ps as [|q ps IH]; intros s x F H.
  - apply cone_nil in H as [-> ->]. vunfold. lra.
  - apply cone_cons in H as (w & t & y & W & C & -> & ->). specialize (IH t y (fun q' I => F q' (or_intror I)) C).
    pose proof (F q (or_introl eq_refl)) as Q. unfold height in Q.
    replace (dot (p_normal p) (vadd (vscale w q) y)) with (w * dot (p_normal p) q + dot (p_normal p) y) by vring.
    pose proof (Rmult_le_compat_l w _ _ W Q). lra.
Qed.
Lemma hull_le : forall p h ps x, (forall q, In q ps -> height p q <= h) -> hull ps x -> height p x <= h.
Proof. intros p h ps x F H. pose proof (cone_le p h ps 1 x F H). unfold height. lra. Qed.
Lemma hull_ge : forall p h ps x, (forall q, In q ps -> h <= height p q) -> hull ps x -> h <= height p x.
Proof. intros p h ps x F H. pose proof (cone_ge p h ps 1 x F H). unfold height. lra. Qed.

(** ** Directions *)
Lemma along_zero : forall u, along u vzero. Proof. intros. exists 0. split; [lra|vring]. Qed.
Lemma along_add : forall u v w, along u v -> along u w -> along u (vadd v w).
Proof. intros u v w (k & K & ->) (l & L & ->). exists (k + l). split; [lra|vring]. Qed.
Lemma along_scale : forall u v k, 0 <= k -> along u v -> along u (vscale k v).
Proof. intros u v k K (l & L & ->). exists (k * l). split; [nra|vring]. Qed.
Lemma normal_turn : forall a b c, triangle_normal a b c = triangle_normal b c a. Proof. intros. unfold triangle_normal. vring. Qed.
Lemma normal_null : forall a b, triangle_normal a b a = vzero. Proof. intros. unfold triangle_normal. vring. Qed.
Lemma normal_null' : forall a b, triangle_normal a a b = vzero. Proof. intros. unfold triangle_normal. vring. Qed.
Lemma normal_mix : forall a b c d t, triangle_normal (vadd (vscale (1 - t) a) (vscale t b)) c d =
  vadd (vscale (1 - t) (triangle_normal a c d)) (vscale t (triangle_normal b c d)).
Proof. intros. unfold triangle_normal. vring. Qed.
Lemma along_seg : forall u a b c d i, on_segment a b i -> along u (triangle_normal a c d) -> along u (triangle_normal b c d) ->
  along u (triangle_normal i c d).
Proof.
  intros u a b c d i (t & T & ->) A B. rewrite normal_mix. apply along_add; apply along_scale; auto; lra.
Qed.

Lemma ahead_seg : forall u a b c d i, on_segment a b i -> i <> b -> ahead u (triangle_normal a c d) -> along u (triangle_normal b c d) ->
  ahead u (triangle_normal i c d).
Proof.
  intros u a b c d i (t & T & ->) N (k & K & A) (l & L & B). rewrite normal_mix, A, B. exists ((1 - t) * k + t * l). split; [|vring].
  destruct (Req_dec t 1) as [->|E]; [exfalso; apply N; vring|]. nra.
Qed.
Lemma ahead_along : forall u v, ahead u v -> along u v. Proof. intros u v (k & K & ->). exists k. split; [lra|auto]. Qed.

Section Cut.
  Variables (p : plane) (tol : R).
  Hypothesis T0 : 0 <= tol.

  Definition omitted (src om : list vec) : Prop := forall q, In q om -> 0 <= height p q \/ is_near p tol q /\ In q src.
  Lemma kept_intro : forall src outs,
    (forall o, In o outs -> length o = 4%nat) ->
    (forall o q, In o outs -> In q o -> hull src q /\ (height p q <= 0 \/ is_near p tol q /\ In q src)) ->
    (forall x, hull src x -> (exists o, In o outs /\ hull o x) \/ exists om, omitted src om /\ hull om x) ->
    (forall u a b c d, turns_along u src -> In [a; b; c; d] outs ->
       along u (triangle_normal a b c) /\ along u (triangle_normal a c d)) ->
    (forall u a b c d, turns_strictly u src -> In [a; b; c; d] outs -> ahead u (triangle_normal a b c)) ->
    kept_part p tol src outs.
  Proof.
    intros src outs H1 H2 H3 H4 H5. split; auto.
    - intros o x O X. split.
      + eapply hull_trans; [|exact X]. apply Forall_forall. intros q Q. apply (H2 o q); auto.
      + apply (hull_le p tol o); auto. intros q Q. destruct (H2 o q O Q) as [_ [K|[[K1 K2] _]]]; lra.
    - intros x X L. destruct (H3 x X) as [K|(om & O & K)]; auto. exfalso.
      assert (- tol <= height p x); [|lra]. apply (hull_ge p (- tol) om); auto. intros q Q.
      destruct (O q Q) as [?|[[? ?] _]]; lra.
    - intros C. split.
      + intros o x O X. apply (hull_le p 0 o); auto. intros q Q. destruct (H2 o q O Q) as [_ [K|[K I]]]; auto.
        exfalso. exact (C q I K).
      + intros x X L. destruct (H3 x X) as [K|(om & O & K)]; auto. exfalso.
        assert (0 <= height p x); [|lra]. apply (hull_ge p 0 om); auto. intros q Q.
        destruct (O q Q) as [?|[K' I]]; auto. exfalso. exact (C q I K').
  Qed.

  Ltac inhull := first [apply cone_in; simpl; tauto | eapply cone_seg; [| |eassumption]; apply cone_in; simpl; tauto].
  Ltac corner := intros; simpl in *;
    repeat match goal with H : _ \/ _ |- _ => destruct H as [H|H] end; try contradiction; subst;
    simpl in *; repeat match goal with H : _ \/ _ |- _ => destruct H as [H|H] end; try contradiction; subst.
  Ltac lengths := intros; simpl in *;
    repeat match goal with H : _ \/ _ |- _ => destruct H as [H|H] end; try contradiction; subst; reflexivity.
  Ltac inside := corner; (split; [inhull|]); first [left; lra | right; split; [assumption|simpl; tauto]].
  Ltac om := intros q Q; simpl in Q; repeat destruct Q as [Q|Q]; try contradiction; subst;
    first [left; lra | right; split; [assumption|simpl; tauto]].
  Ltac useo k := left; eexists; split; [simpl; tauto|]; eapply hull_incl; [|exact k]; intros y; simpl; tauto.
  Ltac skip l k := right; exists l; split; [om|exact k].
  Ltac turns := match goal with H : turns_along _ _ |- _ => simpl in H; try destruct H as (? & ? & ? & ?) end.
  Ltac outin := match goal with H : In _ _ |- _ => simpl in H;
    repeat match goal with H : _ \/ _ |- _ => destruct H as [H|H] end; try contradiction end;
    match goal with H : _ :: _ = _ :: _ |- _ => injection H as <- <- <- <- end.

  Ltac al := lazymatch goal with
    | |- along ?u (triangle_normal ?x ?y ?z) =>
        first [assumption
              | rewrite (normal_turn x y z); assumption
              | rewrite <- (normal_turn z x y); assumption
              | replace (triangle_normal x y z) with vzero by (unfold triangle_normal; vring); apply along_zero
              | match goal with
                | S : on_segment ?a ?b x |- _ => apply (along_seg u a b y z x S); al
                | S : on_segment ?a ?b y |- _ => rewrite (normal_turn x y z); apply (along_seg u a b z x y S); al
                | S : on_segment ?a ?b z |- _ => rewrite <- (normal_turn z x y); apply (along_seg u a b x y z S); al
                end]
    end.
  Ltac ori := intros u a' b' c' d' TU IN; turns; outin; split; al.

  Lemma seg_sym : forall a b x, on_segment a b x -> on_segment b a x.
  Proof. intros a b x (t & T & ->). exists (1 - t). split; [lra|vring]. Qed.
  Ltac sturns := match goal with H : turns_strictly _ _ |- _ => simpl in H; try destruct H as (? & ? & ? & ?) end.
  Ltac diff := let E := fresh in intros E; rewrite E in *; lra.
  Ltac str := lazymatch goal with
    | |- ahead ?u (triangle_normal ?x ?y ?z) =>
        first [assumption
              | rewrite (normal_turn x y z); assumption
              | rewrite <- (normal_turn z x y); assumption
              | match goal with
                | S : on_segment ?a ?b x |- _ => first [apply (ahead_seg u a b y z x S); [diff|str|al0]
                                                       |apply (ahead_seg u b a y z x (seg_sym _ _ _ S)); [diff|str|al0]]
                | S : on_segment ?a ?b y |- _ => rewrite (normal_turn x y z); first [apply (ahead_seg u a b z x y S); [diff|str|al0]
                                                       |apply (ahead_seg u b a z x y (seg_sym _ _ _ S)); [diff|str|al0]]
                | S : on_segment ?a ?b z |- _ => rewrite <- (normal_turn z x y); first [apply (ahead_seg u a b x y z S); [diff|str|al0]
                                                       |apply (ahead_seg u b a x y z (seg_sym _ _ _ S)); [diff|str|al0]]
                end]
    end
  with al0 := first [al | repeat match goal with H : ahead _ _ |- _ => apply ahead_along in H end; al].
  Ltac stri := intros u a' b' c' d' TU IN; sturns; outin; str.

  (** Reordering of the corners of a triangle. *)
  Lemma perm3 : forall a b c x, hull [a; b; c] x -> hull [b; c; a] x.
  Proof. intros. eapply hull_incl; [|eassumption]. intros y; simpl; tauto. Qed.
  Lemma swap3 : forall a b c x, hull [a; b; c] x -> hull [b; a; c] x.
  Proof. intros. eapply hull_incl; [|eassumption]. intros y; simpl; tauto. Qed.
  (** Cut by a point of the side [b; c] or [a; c]. *)
  Lemma split_bc : forall a b c i x, on_segment b c i -> hull [a; b; c] x -> hull [a; b; i] x \/ hull [a; i; c] x.
  Proof.
    intros a b c i x I H. destruct (split3 b c a i x I (perm3 _ _ _ _ H)) as [K|K]; [left|right];
      (eapply hull_incl; [|exact K]; intros y; simpl; tauto).
  Qed.
  Lemma split_ac : forall a b c i x, on_segment a c i -> hull [a; b; c] x -> hull [a; b; i] x \/ hull [i; b; c] x.
  Proof.
    intros a b c i x I H. assert (H' : hull [a; c; b] x) by (eapply hull_incl; [|exact H]; intros y; simpl; tauto).
    destruct (split3 a c b i x I H') as [K|K]; [left|right];
      (eapply hull_incl; [|exact K]; intros y; simpl; tauto).
  Qed.


  (** The part of a quadrangle between two points of opposite sides. *)
  Lemma crossing_inner : forall a b c d i j, crossing a b c d -> on_segment a b i -> on_segment c d j -> i <> a -> j <> c ->
    crossing a i c j.
  Proof.
    intros a b c d i j (k & l & r & s & K & L & R & S & E & Z & X) (t & T & ->) (v & V & ->) NI NJ.
    assert (t <> 0) by (intros ->; apply NI; vring). assert (v <> 0) by (intros ->; apply NJ; vring).
    assert (0 < / t) by (apply Rinv_0_lt_compat; lra). assert (0 < / v) by (apply Rinv_0_lt_compat; lra).
    exists (k + r * / t * (1 - t)), (l + s * / v * (1 - v)), (r * / t), (s * / v).
    assert (t * / t = 1) by (field; auto). assert (v * / v = 1) by (field; auto).
    assert (r * / t * t = r) by (field; auto). assert (s * / v * v = s) by (field; auto).
    assert (0 <= r * / t) by nra. assert (0 <= s * / v) by nra.
    assert (0 <= r * / t * (1 - t)) by nra. assert (0 <= s * / v * (1 - v)) by nra.
    repeat split; try lra.
    apply vec_eq_inv in X as (X1 & X2 & X3). apply vec_eq; vunfold.
    - transitivity (k * vx a + l * vx c + (r * / t * (1 - t) * vx a + s * / v * (1 - v) * vx c)); [ring|]. rewrite X1.
      transitivity (r * / t * (1 - t) * vx a + (r * / t * t) * vx b + (s * / v * (1 - v) * vx c + (s * / v * v) * vx d)); [rewrite H5, H6; ring|ring].
    - transitivity (k * vy a + l * vy c + (r * / t * (1 - t) * vy a + s * / v * (1 - v) * vy c)); [ring|]. rewrite X2.
      transitivity (r * / t * (1 - t) * vy a + (r * / t * t) * vy b + (s * / v * (1 - v) * vy c + (s * / v * v) * vy d)); [rewrite H5, H6; ring|ring].
    - transitivity (k * vz a + l * vz c + (r * / t * (1 - t) * vz a + s * / v * (1 - v) * vz c)); [ring|]. rewrite X3.
      transitivity (r * / t * (1 - t) * vz a + (r * / t * t) * vz b + (s * / v * (1 - v) * vz c + (s * / v * v) * vz d)); [rewrite H5, H6; ring|ring].
  Qed.

  Lemma k202 : forall a b c d i j, crossing a b c d -> 0 < height p a -> height p b < 0 -> height p c < 0 -> 0 < height p d ->
    on_segment a b i -> height p i = 0 -> on_segment c d j -> height p j = 0 -> kept_part p tol [a; b; c; d] [[i; b; c; j]].
  Proof.
    intros a b c d i j CR A B C D I HI J HJ. apply kept_intro; [lengths|inside| | |].
    - intros x X. destruct (split4 _ _ _ _ _ CR X) as [K|K].
      + destruct (split3 _ _ _ _ _ I K) as [M|M]; [|useo M].
        assert (CR' : crossing a i c j).
        { eapply crossing_inner; eauto; intros ->; lra. }
        assert (M' : hull [a; i; c; j] x) by (eapply hull_incl; [|exact M]; intros y; simpl; tauto).
        destruct (split4' _ _ _ _ _ CR' M') as [N|N]; [skip [a; i; j] N|useo N].
      + destruct (split_bc _ _ _ _ _ J K) as [M|M]; [|skip [a; j; d] M].
        assert (CR' : crossing a i c j).
        { eapply crossing_inner; eauto; intros ->; lra. }
        assert (M' : hull [a; i; c; j] x) by (eapply hull_incl; [|exact M]; intros y; simpl; tauto).
        destruct (split4' _ _ _ _ _ CR' M') as [N|N]; [skip [a; i; j] N|useo N].
    - ori.
    - stri.
  Qed.

  Lemma k301 : forall a b c d i j, crossing a b c d -> height p a < 0 -> 0 < height p b -> 0 < height p c -> 0 < height p d ->
    on_segment a d i -> height p i = 0 -> on_segment a b j -> height p j = 0 -> kept_part p tol [a; b; c; d] [[i; a; j; i]].
  Proof.
    intros a b c d i j CR A B C D I HI J HJ. apply kept_intro; [lengths|inside| | |].
    - intros x X. destruct (split4' _ _ _ _ _ CR X) as [K|K]; [|skip [b; c; d] K].
      destruct (split3 _ _ _ _ _ J K) as [M|M]; [|skip [j; b; d] M].
      destruct (split_ac _ _ _ _ _ I M) as [N|N]; [useo N|skip [i; j; d] N].
    - ori.
    - stri.
  Qed.

  Lemma k103 : forall a b c d i j, crossing a b c d -> 0 < height p a -> height p b < 0 -> height p c < 0 -> height p d < 0 ->
    on_segment a b i -> height p i = 0 -> on_segment a d j -> height p j = 0 ->
    kept_part p tol [a; b; c; d] [[i; b; d; j]; [b; c; d; b]].
  Proof.
    intros a b c d i j CR A B C D I HI J HJ. apply kept_intro; [lengths|inside| | |].
    - intros x X. destruct (split4' _ _ _ _ _ CR X) as [K|K].
      + destruct (split3 _ _ _ _ _ I K) as [M|M]; [|useo M].
        destruct (split_ac _ _ _ _ _ J M) as [N|N]; [skip [a; i; j] N|useo N].
      + left. exists [b; c; d; b]. split; [simpl; tauto|]. eapply hull_incl; [|exact K]; intros y; simpl; tauto.
    - ori.
    - stri.
  Qed.

  Lemma k102 : forall a b c i j, 0 < height p a -> height p b < 0 -> height p c < 0 ->
    on_segment a b i -> height p i = 0 -> on_segment a c j -> height p j = 0 ->
    kept_part p tol [a; b; c] [[i; b; c; j]].
  Proof.
    intros a b c i j A B C I HI J HJ. apply kept_intro; [lengths|inside| | |].
    - intros x X. destruct (split3 _ _ _ _ _ I X) as [M|M]; [|useo M].
      destruct (split_ac _ _ _ _ _ J M) as [N|N]; [skip [a; i; j] N|useo N].
    - ori.
    - stri.
  Qed.

  Lemma k201 : forall a b c i j, height p a < 0 -> 0 < height p b -> 0 < height p c ->
    on_segment a c i -> height p i = 0 -> on_segment a b j -> height p j = 0 -> kept_part p tol [a; b; c] [[i; a; j; i]].
  Proof.
    intros a b c i j A B C I HI J HJ. apply kept_intro; [lengths|inside| | |].
    - intros x X. destruct (split3 _ _ _ _ _ J X) as [M|M]; [|skip [j; b; c] M].
      destruct (split_ac _ _ _ _ _ I M) as [N|N]; [useo N|skip [i; j; c] N].
    - ori.
    - stri.
  Qed.

  Lemma k211l : forall a b c d i, crossing a b c d -> is_near p tol a -> height p b < 0 -> 0 < height p c -> 0 < height p d ->
    on_segment b c i -> height p i = 0 -> kept_part p tol [a; b; c; d] [[a; b; i; a]].
  Proof.
    intros a b c d i CR A B C D I HI. apply kept_intro; [lengths|inside| | |].
    - intros x X. destruct (split4 _ _ _ _ _ CR X) as [K|K]; [|skip [a; c; d] K].
      destruct (split_bc _ _ _ _ _ I K) as [M|M]; [useo M|skip [a; i; c] M].
    - ori.
    - stri.
  Qed.
  Lemma k211r : forall a b c d i, crossing a b c d -> is_near p tol a -> 0 < height p b -> 0 < height p c -> height p d < 0 ->
    on_segment c d i -> height p i = 0 -> kept_part p tol [a; b; c; d] [[i; d; a; i]].
  Proof.
    intros a b c d i CR A B C D I HI. apply kept_intro; [lengths|inside| | |].
    - intros x X. destruct (split4 _ _ _ _ _ CR X) as [K|K]; [skip [a; b; c] K|].
      destruct (split_bc _ _ _ _ _ I K) as [M|M]; [skip [a; c; i] M|useo M].
    - ori.
    - stri.
  Qed.
  Lemma k112l : forall a b c d i, crossing a b c d -> is_near p tol a -> height p b < 0 -> height p c < 0 -> 0 < height p d ->
    on_segment c d i -> height p i = 0 -> kept_part p tol [a; b; c; d] [[a; b; c; i]].
  Proof.
    intros a b c d i CR A B C D I HI. apply kept_intro; [lengths|inside| | |].
    - intros x X. destruct (split4 _ _ _ _ _ CR X) as [K|K]; [useo K|].
      destruct (split_bc _ _ _ _ _ I K) as [M|M]; [useo M|skip [a; i; d] M].
    - ori.
    - stri.
  Qed.
  Lemma k112r : forall a b c d i, crossing a b c d -> is_near p tol a -> 0 < height p b -> height p c < 0 -> height p d < 0 ->
    on_segment b c i -> height p i = 0 -> kept_part p tol [a; b; c; d] [[i; c; d; a]].
  Proof.
    intros a b c d i CR A B C D I HI. apply kept_intro; [lengths|inside| | |].
    - intros x X. destruct (split4 _ _ _ _ _ CR X) as [K|K]; [|useo K].
      destruct (split_bc _ _ _ _ _ I K) as [M|M]; [skip [a; b; i] M|useo M].
    - ori.
    - stri.
  Qed.
  Lemma k111l : forall a b c i, is_near p tol a -> height p b < 0 -> 0 < height p c ->
    on_segment b c i -> height p i = 0 -> kept_part p tol [a; b; c] [[a; b; i; a]].
  Proof.
    intros a b c i A B C I HI. apply kept_intro; [lengths|inside| | |].
    - intros x X. destruct (split_bc _ _ _ _ _ I X) as [M|M]; [useo M|skip [a; i; c] M].
    - ori.
    - stri.
  Qed.
  Lemma k111r : forall a b c i, is_near p tol a -> 0 < height p b -> height p c < 0 ->
    on_segment b c i -> height p i = 0 -> kept_part p tol [a; b; c] [[i; c; a; i]].
  Proof.
    intros a b c i A B C I HI. apply kept_intro; [lengths|inside| | |].
    - intros x X. destruct (split_bc _ _ _ _ _ I X) as [M|M]; [skip [a; b; i] M|useo M].
    - ori.
    - stri.
  Qed.
  Lemma k121 : forall a b c d, crossing a b c d -> 0 < height p a -> is_near p tol b -> height p c < 0 -> is_near p tol d ->
    kept_part p tol [a; b; c; d] [[b; c; d; b]].
  Proof.
    intros a b c d CR A B C D. apply kept_intro; [lengths|inside| | |].
    - intros x X. destruct (split4' _ _ _ _ _ CR X) as [K|K]; [skip [a; b; d] K|useo K].
    - ori.
    - stri.
  Qed.
  (** Whole faces *)
  Lemma kwhole4 : forall a b c d, (forall q, In q [a; b; c; d] -> height p q <= 0 \/ is_near p tol q) ->
    kept_part p tol [a; b; c; d] [[a; b; c; d]].
  Proof.
    intros a b c d F. apply kept_intro; [lengths| | | |].
    - intros o q [<-|[]] Q. split; [apply cone_in; auto|]. destruct (F q Q); auto.
    - intros x X. left. exists [a; b; c; d]. split; [simpl; tauto|auto].
    - ori.
    - stri.
  Qed.
  Lemma kwhole3 : forall a b c, (forall q, In q [a; b; c] -> height p q <= 0 \/ is_near p tol q) ->
    kept_part p tol [a; b; c] [[a; b; c; a]].
  Proof.
    intros a b c F. apply kept_intro; [lengths| | | |].
    - intros o q [<-|[]] Q. assert (Q' : In q [a; b; c]) by (simpl in *; tauto). split; [apply cone_in; auto|]. destruct (F q Q'); auto.
    - intros x X. useo X.
    - ori.
    - stri.
  Qed.
  Lemma kdrop : forall ps, (forall q, In q ps -> 0 <= height p q \/ is_near p tol q) -> kept_part p tol ps [].
  Proof.
    intros ps F. apply kept_intro; [intros o []|intros o q []| | |].
    - intros x X. right. exists ps. split; auto. intros q Q. destruct (F q Q); auto.
    - intros u a b c d _ [].
    - intros u a b c d _ [].
  Qed.

  (** The corners may be listed from any of them. *)
  Lemma kept_turned : forall src src' outs, turned src src' -> (length src = 3 \/ length src = 4)%nat ->
    kept_part p tol src' outs -> kept_part p tol src outs.
  Proof.
    intros src src' outs [k ->] L [K1 K2 K3 K4 K5 K6].
    assert (I1 : incl src (skipn k src ++ firstn k src)).
    { intros q Q. rewrite <- (firstn_skipn k src) in Q. apply in_app_or in Q. apply in_or_app. tauto. }
    assert (I2 : incl (skipn k src ++ firstn k src) src).
    { intros q Q. rewrite <- (firstn_skipn k src). apply in_app_or in Q. apply in_or_app. tauto. }
    split; auto.
    - intros o x O X. destruct (K2 o x O X). split; auto. eapply hull_incl; eauto.
    - intros x X. apply K3. eapply hull_incl; eauto.
    - intros C. destruct K4 as [K4 K4']; [intros c I; apply C; auto|]. split; auto. intros x X. apply K4'. eapply hull_incl; eauto.
    - intros u a b c d TU. apply K5. clear - TU L.
      destruct src as [|x [|y [|z [|w [|? ?]]]]]; simpl in L; try lia.
      + destruct k as [|[|[|k]]]; simpl in *; rewrite ?firstn_nil, ?skipn_nil; cbn;
          first [exact TU | rewrite normal_turn; exact TU | rewrite <- normal_turn; exact TU].
      + destruct k as [|[|[|[|k]]]]; simpl in *; rewrite ?firstn_nil, ?skipn_nil; cbn; tauto.
    - intros u a b c d TU. apply K6. clear - TU L.
      destruct src as [|x [|y [|z [|w [|? ?]]]]]; simpl in L; try lia.
      + destruct k as [|[|[|k]]]; simpl in *; rewrite ?firstn_nil, ?skipn_nil; cbn;
          first [exact TU | rewrite normal_turn; exact TU | rewrite <- normal_turn; exact TU].
      + destruct k as [|[|[|[|k]]]]; simpl in *; rewrite ?firstn_nil, ?skipn_nil; cbn; tauto.
  Qed.
End Cut.
