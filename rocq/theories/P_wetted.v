(** The immersed part of a closed mesh: volume, buoyancy center, inertia, pressure. *)
From Coq Require Import Reals List Arith Bool Lia Lra Psatz Permutation.
From Verif Require Import M_base P_base S_merge M_merge M_mesh S_mesh P_mesh S_integral P_integral S_geometry M_geometry P_geometry P_volume P_quantities
  S_connectivity M_plane M_inertia M_clipper S_clipper P_cut P_waterline P_sharp M_hydro S_hydro P_hydro.
Import ListNotations.
Open Scope R_scope.

Lemma sea_height : forall x, height sea_level x = vz x. Proof. intros. unfold height, sea_level. cbn [p_normal p_scalar]. vunfold. ring. Qed.
Lemma close_pos : 0 <= close. Proof. unfold close. lra. Qed.

(** ** Points of the waterline are at the sea level *)
Lemma leaving_level : forall s x, (forall v, v = fst s \/ v = snd s -> is_near sea_level close v -> vz v = 0) ->
  (forall v, v = fst s \/ v = snd s -> sorted_out sea_level close v) -> In x (leaving sea_level close s) -> vz x = 0.
Proof.
  intros [a b] x L S I. unfold leaving in I. cbn [fst snd] in *. destruct (below_dec sea_level close a) as [BA|BA]; [|destruct I].
  destruct (below_dec sea_level close b) as [BB|BB]; [destruct I|]. destruct I as [<-|[]].
  destruct (above_dec sea_level close b) as [AB|AB].
  - unfold meet. cbn. rewrite !sea_height. unfold is_below, is_above in *. rewrite !sea_height in *. pose proof close_pos. field. lra.
  - apply L; auto. pose proof (S b (or_intror eq_refl)) as N. unfold sorted_out, is_below, is_above, is_near in *.
    split; [destruct (Rtotal_order (- close) (height sea_level b)) as [H|[H|H]]; auto; try lra|destruct (Rtotal_order (height sea_level b) close) as [H|[H|H]]; auto; try lra].
    + exfalso. apply N. rewrite <- H, Rabs_Ropp. apply Rabs_pos_eq, close_pos.
    + exfalso. apply N. rewrite H. apply Rabs_pos_eq, close_pos.
Qed.
Lemma in_around : forall (ps : list vec) a b, In (a, b) (around ps) -> In a ps /\ In b ps.
Proof.
  intros ps a b I. destruct ps as [|q l]; [destruct I|]. unfold around in I. split; [eapply in_combine_l; eauto|].
  apply in_combine_r in I. cbn [tl] in I. apply in_app_or in I as [I|[<-|[]]]; simpl; auto.
Qed.
Lemma in_outline : forall m f x, valid m -> In f (faces m) -> In x (outline (verts m) f) -> In x (verts m).
Proof.
  intros m f x V I O. pose proof (valid_in m f V I) as (A & B & C & D). unfold outline in O.
  assert (P : forall i, (i < length (verts m))%nat -> In (point (verts m) i) (verts m)) by (intros; apply nth_In; auto).
  destruct (Nat.eq_dec (f0 f) (f3 f)); simpl in O; repeat (destruct O as [<-|O]; [auto|]); destruct O.
Qed.
Lemma waterline_level : forall m, valid m -> settled sea_level close m ->
  (forall v, In v (verts m) -> is_near sea_level close v -> vz v = 0) ->
  Forall (fun s => vz (fst s) = 0 /\ vz (snd s) = 0) (waterline sea_level close m).
Proof.
  intros m V S L. apply Forall_forall. intros s I. unfold waterline in I. apply in_flat_map in I as (f & F & I).
  unfold settled in S. rewrite Forall_forall in S. specialize (S f F). rewrite Forall_forall in S.
  assert (Z : forall e x, In e (around (outline (verts m) f)) -> In x (leaving sea_level close e) \/ In x (leaving sea_level close (snd e, fst e)) -> vz x = 0).
  { intros [a b] x A H. apply in_around in A as [A B]. destruct H as [H|H]; apply leaving_level in H; auto; cbn [fst snd];
      intros v [->| ->]; auto; apply L; eauto using in_outline. }
  unfold face_waterline in I. destruct (touching sea_level close (outline (verts m) f)); [destruct I|].
  destruct (flat_map (entering sea_level close) (around (outline (verts m) f))) as [|e [|? ?]] eqn:EE; try destruct I.
  destruct (flat_map (leaving sea_level close) (around (outline (verts m) f))) as [|l [|? ?]] eqn:EL; try destruct I.
  - subst s. cbn [fst snd]. split.
    + assert (J : In e [e]) by (simpl; auto). rewrite <- EE in J. apply in_flat_map in J as (w & A & J). apply (Z w); auto.
    + assert (J : In l [l]) by (simpl; auto). rewrite <- EL in J. apply in_flat_map in J as (w & A & J). apply (Z w); auto.
  - destruct H.
Qed.

(** ** Functions of the edges *)
Lemma corner_edges : forall vs outs fs psi, Forall2 (fun o f => corners vs f o) outs fs ->
  Rsum (map (fun e => psi (point vs (fst e)) (point vs (snd e))) (mesh_edges fs)) = run psi (flat_map around outs).
Proof.
  intros vs outs fs psi F. induction F as [|o f outs fs (a & b & c & d & -> & A & B & C & D) F IH]; auto.
  unfold mesh_edges in *. cbn [flat_map]. rewrite map_app, Rsum_app, run_app, IH. f_equal.
  assert (P : forall i x, nth_error vs i = Some x -> point vs i = x) by (intros; apply nth_error_nth; auto).
  unfold face_edges, run, around. cbn. rewrite (P _ _ A), (P _ _ B), (P _ _ C), (P _ _ D). reflexivity.
Qed.
Lemma corners_valid : forall m outs, Forall2 (fun o f => corners (verts m) f o) outs (faces m) -> valid m.
Proof.
  intros m outs F. unfold valid. induction F as [|o f outs fs (a & b & c & d & -> & A & B & C & D) F IH]; constructor; auto.
  repeat split; eapply nth_error_Some; congruence.
Qed.

(** A mesh whose border is the waterline [W], run along backwards. *)
Record wetted (m : mesh) (W : list (vec * vec)) : Prop := {
  wt_valid : valid m;
  wt_border : forall psi, (forall a b, psi a b = - psi b a) ->
    surface_sum (fun a b c => psi a b + psi b c + psi c a) (verts m) (faces m) = - run psi W;
  wt_level : Forall (fun s => vz (fst s) = 0 /\ vz (snd s) = 0) W
}.
Lemma level_run : forall psi W, Forall (fun s => vz (fst s) = 0 /\ vz (snd s) = 0) W -> (forall a b, vz a = 0 -> vz b = 0 -> psi a b = 0) -> run psi W = 0.
Proof. intros psi W F H. unfold run. induction F as [|s W [A B] F IH]; auto. unfold Rsum in *. cbn [map fold_right]. rewrite IH, H by auto. ring. Qed.
Lemma wetted_sum : forall m W (f g : vec -> vec -> vec -> R) psi, wetted m W -> (forall a b, psi a b = - psi b a) ->
  (forall a b, vz a = 0 -> vz b = 0 -> psi a b = 0) -> (forall a b c, f a b c = g a b c + (psi a b + psi b c + psi c a)) ->
  surface_sum f (verts m) (faces m) = surface_sum g (verts m) (faces m).
Proof.
  intros m W f g psi [V B L] A Z E. rewrite (surface_sum_ext _ (fun a b c => g a b c + (psi a b + psi b c + psi c a))) by auto.
  rewrite surface_sum_add, B, level_run by auto. ring.
Qed.
Lemma wetted_rings : forall m W, wetted m W -> rings_vanish m.
Proof.
  intros m W WT sel p S P.
  assert (D : forall a b, p (tflux sel vzero a b) = - p (tflux sel vzero b a)).
  { intros a b. rewrite (tflux_edges sel a b) by auto. destruct P as [-> | [-> | ->]]; cbn; ring. }
  rewrite (wetted_sum m W _ (fun _ _ _ => 0) (fun a b => p (tflux sel vzero a b)) WT D).
  - unfold surface_sum. induction (mesh_triangles (faces m)) as [|[[i j] k] l IH]; auto. unfold Rsum in *. cbn [map fold_right]. rewrite IH. ring.
  - intros a b A B. clear D. destruct a as [ax ay az], b as [bx by_ bz]. cbn in A, B. subst. unfold selection in S.
    decompose [or] S; subst sel; destruct P as [-> | [-> | ->]]; geo; field.
  - intros a b c. unfold edge_ring. destruct P as [-> | [-> | ->]]; cbn; ring.
Qed.

(** ** Pieces of convex faces are flat *)
Lemma convex_turns : forall vs f, convex_outline (outline vs f) -> exists u, unit u /\ turns_along u (outline vs f).
Proof.
  intros vs f C. unfold outline in *. destruct (Nat.eq_dec (f0 f) (f3 f)) as [T|T].
  - set (n := triangle_normal (point vs (f0 f)) (point vs (f1 f)) (point vs (f2 f))).
    destruct (Req_dec (norm n) 0) as [Z|Z].
    + apply norm_zero_iff in Z. exists ez. split; [unfold unit; vring|]. cbn. fold n. rewrite Z. apply along_zero.
    + exists (vscale (/ norm n) n). split.
      * unfold unit. replace (dot (vscale (/ norm n) n) (vscale (/ norm n) n)) with (/ norm n * / norm n * dot n n) by vring.
        rewrite <- norm_sqr. field. auto.
      * cbn. fold n. exists (norm n). split; [apply norm_nonneg|]. replace (vscale (norm n) (vscale (/ norm n) n)) with (vscale (norm n * / norm n) n) by vring.
        rewrite Rinv_r by auto. vring.
  - cbn in C. destruct C as (u & U & A & B & D & H1 & H2 & H3 & H4 & _). exists u. split; auto.
    set (a := point vs (f0 f)) in *. set (b := point vs (f1 f)) in *. set (c := point vs (f2 f)) in *. set (d := point vs (f3 f)) in *.
    assert (G : forall x y z, dot u (vsub y x) = 0 -> dot u (vsub z x) = 0 -> 0 <= dot u (cross (vsub y x) (vsub z y)) -> along u (triangle_normal x y z)).
    { intros x y z Y Z P. exists (dot u (triangle_normal x y z)). split.
      - replace (dot u (triangle_normal x y z)) with (dot u (cross (vsub y x) (vsub z y))) by (unfold triangle_normal; vring). auto.
      - apply along_unit; auto. }
    assert (S : forall x y z, dot u (vsub x z) = 0 -> dot u (vsub y z) = 0 -> dot u (vsub y x) = 0).
    { intros x y z X Y. replace (vsub y x) with (vsub (vsub y z) (vsub x z)) by vring.
      replace (dot u (vsub (vsub y z) (vsub x z))) with (dot u (vsub y z) - dot u (vsub x z)) by vring. lra. }
    cbn. repeat split; apply G; auto; try (apply (S _ _ a); auto; replace (vsub a a) with vzero by vring; vring).
Qed.
Lemma piece_flat : forall m f a b c d u, corners (verts m) f [a; b; c; d] -> unit u -> along u (triangle_normal a b c) -> along u (triangle_normal a c d) ->
  proper_face (verts m) f -> flat_face (verts m) f.
Proof.
  intros m f a b c d u (a' & b' & c' & d' & E & A & B & C & D) U (k & K & NK) (l & L & NL) P. injection E as <- <- <- <-.
  assert (PT : forall i x, nth_error (verts m) i = Some x -> point (verts m) i = x) by (intros; apply nth_error_nth; auto).
  unfold proper_face, flat_face in *. rewrite (PT _ _ A), (PT _ _ B), (PT _ _ C), (PT _ _ D) in *.
  destruct (Nat.eq_dec (f0 f) (f3 f)); auto. exists u, k, l. repeat split; auto.
  destruct P as [_ P]. destruct (Rlt_le_dec 0 (k + l)); auto. assert (k = 0) by lra. assert (l = 0) by lra. subst.
  exfalso. destruct P as [P|P]; apply P; [rewrite NK|rewrite NL]; vring.
Qed.
Lemma piece_proper : forall m f a b c d u, corners (verts m) f [a; b; c; d] -> unit u -> ahead u (triangle_normal a b c) -> along u (triangle_normal a c d) ->
  proper_face (verts m) f.
Proof.
  intros m f a b c d u (a' & b' & c' & d' & E & A & B & C & D) U (k & K & NK) (l & L & NL). injection E as <- <- <- <-.
  assert (PT : forall i x, nth_error (verts m) i = Some x -> point (verts m) i = x) by (intros; apply nth_error_nth; auto).
  assert (Z : forall x, 0 < x -> vscale x u <> vzero).
  { intros x X H. assert (Y : dot (vscale x u) (vscale x u) = 0) by (rewrite H; vring).
    replace (dot (vscale x u) (vscale x u)) with (x * x * dot u u) in Y by vring. rewrite U in Y. nra. }
  unfold proper_face. rewrite (PT _ _ A), (PT _ _ B), (PT _ _ C), (PT _ _ D).
  assert (NN : triangle_normal a b c <> vzero) by (rewrite NK; auto).
  destruct (Nat.eq_dec (f0 f) (f3 f)); auto. split; auto.
  replace (cross (vsub c a) (vsub d b)) with (vadd (triangle_normal a b c) (triangle_normal a c d)) by (unfold triangle_normal; vring).
  rewrite NK, NL. replace (vadd (vscale k u) (vscale l u)) with (vscale (k + l) u) by vring. apply Z. lra.
Qed.
Lemma in_concat_pieces : forall p tol m ids outs o, Forall2 (left_of p tol m) ids outs -> In o (concat outs) ->
  exists f ps, In f (faces m) /\ kept_part p tol (outline (verts m) f) ps /\ In o ps.
Proof.
  intros p tol m ids outs o F I. induction F as [|id ps ids outs (f & N & K) F IH]; [destruct I|]. cbn [concat] in I. apply in_app_or in I as [I|I]; auto.
  exists f, ps. split; [eapply nth_error_In; eauto|auto].
Qed.

Section Clip.
  Variable argsort : list R -> list nat.
  Hypothesis SA : sorting argsort.
  Variables (m : mesh) (k : clipper).
  Hypothesis FW : floats_well m.
  Hypothesis CL : mesh_clipper argsort water vicinity_tol true m = Ok k.
  Let W := waterline sea_level close m.

  Lemma clip_spread : spread (1 / 100000) (cut_point sea_level close m).
  Proof. intros x y X Y (A & B & C). apply (fw_spread _ FW); auto. unfold clip_move. repeat split; lra. Qed.
  Lemma clip_polygons : lines k = [] /\ Forall closed_polygon (polygons k) /\
    Forall (Forall (fun i => (i < length (verts (clipped_crown k)))%nat)) (polygons k) /\
    forall psi, run psi (flat_map (polygon_sides (verts (clipped_crown k))) (polygons k)) = run psi W.
  Proof.
    destruct FW. destruct (clipper_polygons sea_level close close_pos argsort SA m) as (k' & E & L & CP & edges & P & F); auto using clip_spread.
    specialize (E true). change (mesh_clipper argsort sea_level close true m) with (mesh_clipper argsort water vicinity_tol true m) in E.
    rewrite CL in E. injection E as <-. split; auto. split; auto.
    assert (PT : forall i x, nth_error (verts (clipped_crown k)) i = Some x -> point (verts (clipped_crown k)) i = x) by (intros; apply nth_error_nth; auto).
    split.
    - apply Forall_forall. intros b B. apply Forall_forall. intros i I. rewrite Forall_forall in CP. destruct (CP b B) as [L2 _].
      assert (X : exists e, In e (pairs b) /\ (i = fst e \/ i = snd e)).
      { clear - L2 I. destruct b as [|x b]; [destruct I|]. destruct b as [|y b]; [cbn in L2; lia|]. clear L2. revert x y I.
        induction b as [|z b IH]; intros x y I.
        - exists (x, y). split; [simpl; auto|]. simpl in *. intuition.
        - destruct I as [<-|I]; [exists (x, y); simpl; auto|]. destruct (IH y z I) as (e & A & B). exists e. split; auto. right. exact A. }
      destruct X as (e & IE & X). assert (IE' : In e edges) by (apply (Permutation_in _ (Permutation_sym P)), in_flat_map; eauto).
      clear - F IE' X. induction F as [|s e' ss es [A B] F IH]; [destruct IE'|]. destruct IE' as [->|IE']; auto.
      destruct X as [->| ->]; eapply nth_error_Some; congruence.
    - intros psi. rewrite flat_map_concat_map. unfold polygon_sides. rewrite <- (map_map pairs (map (fun e => (point (verts (clipped_crown k)) (fst e), point (verts (clipped_crown k)) (snd e))))), <- concat_map.
      rewrite <- flat_map_concat_map. unfold run at 1. rewrite map_map, <- (Rsum_perm _ _ (Permutation_map _ P)). unfold run, W. f_equal.
      clear - F PT. induction F as [|s e ss es [A B] F IH]; auto. cbn [map]. rewrite IH. f_equal. cbn [fst snd]. rewrite (PT _ _ A), (PT _ _ B). auto.
  Qed.
  Lemma clip_wetted : wetted (clipped k) W /\ (proper_mesh (clipped k) -> flat_mesh (clipped k)) /\ (strict_mesh m -> proper_mesh (clipped k)).
  Proof.
    destruct FW. destruct (clipper_exact sea_level close close_pos argsort SA true m k) as (_ & low & cr & L & C & _ & _ & F & RR); auto.
    set (outs := concat low ++ concat cr) in *. split; [|].
    - constructor.
      + eapply corners_valid; eauto.
      + intros psi A. rewrite triangle_edge_sum by auto. rewrite (corner_edges _ _ _ _ F). specialize (RR psi A).
        rewrite closed_run in RR by (auto; apply trim_anti; auto; apply close_pos). fold W in RR. lra.
      + apply waterline_level; auto.
    - assert (K : forall o, In o outs -> exists f ps, In f (faces m) /\ kept_part sea_level close (outline (verts m) f) ps /\ In o ps).
      { intros o I. apply in_app_or in I as [I|I]; [exact (in_concat_pieces _ _ _ _ _ _ L I)|exact (in_concat_pieces _ _ _ _ _ _ C I)]. }
      assert (G : forall o f, In f (faces (clipped k)) -> In o outs -> corners (verts (clipped k)) f o ->
        (proper_face (verts (clipped k)) f -> flat_face (verts (clipped k)) f) /\ (strict_mesh m -> proper_face (verts (clipped k)) f)).
      { intros o f _ IO CO. destruct (K o IO) as (g & ps & IG & KP & IP). pose proof CO as (a & b & c & d & EO & _). subst o.
        rewrite Forall_forall in fw_convex. destruct (convex_turns _ _ (fw_convex g IG)) as (u & U & TU).
        destruct (kept_oriented _ _ _ _ KP u a b c d TU IP) as [N1 N2]. split.
        - intros PF. eapply piece_flat; eauto.
        - intros SM. unfold strict_mesh in SM. rewrite Forall_forall in SM. destruct (SM g IG) as (u' & U' & TS).
          pose proof (kept_strict _ _ _ _ KP u' a b c d TS IP) as A1.
          assert (TU' : turns_along u' (outline (verts m) g)).
          { clear - TS. unfold outline in *. destruct (Nat.eq_dec (f0 g) (f3 g)); cbn in *; intuition auto using ahead_along. }
          destruct (kept_oriented _ _ _ _ KP u' a b c d TU' IP) as [_ N2']. eapply piece_proper; eauto. }
      clear - F G. unfold proper_mesh, flat_mesh, strict_mesh in *.
      assert (H : forall outs' fs, Forall2 (fun o f => corners (verts (clipped k)) f o) outs' fs -> incl outs' outs -> incl fs (faces (clipped k)) ->
        (Forall (proper_face (verts (clipped k))) fs -> Forall (flat_face (verts (clipped k))) fs) /\
        (strict_mesh m -> Forall (proper_face (verts (clipped k))) fs)).
      { intros outs' fs F'. induction F' as [|o f os fs C F' IH]; intros I1 I2; [split; auto|].
        destruct (G o f) as [G1 G2]; [apply I2; simpl; auto|apply I1; simpl; auto|auto|].
        destruct IH as [J1 J2]; [intros x X; apply I1; simpl; auto|intros x X; apply I2; simpl; auto|]. split.
        - intros P. inversion P; subst. constructor; auto.
        - intros S. constructor; auto. }
      apply (H outs (faces (clipped k))); auto using incl_refl.
  Qed.
End Clip.
