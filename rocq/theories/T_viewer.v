(** Properties C128 (the keys of the viewer), C129 (the planes that it draws) and C130 (the file that it saves). *)
From Coq Require Import Reals List Arith Bool String Lia Lra Permutation.
From Verif Require Import M_base M_mesh M_vtk M_viewer S_viewer P_viewer.
Import ListNotations.
Local Open Scope string_scope.
Local Open Scope list_scope.
Local Open Scope nat_scope.

(** What the viewer shows *)
Definition scene (v : viewer) : list drawn := map snd (v_props v).

(** ** C128 *)
(** After any session of keys and additions, the picture is: the two texts, what was added, and what the four keys have switched on. *)
Theorem C128_scene : forall es v xs, Forall session_event es -> run es new_viewer = (v, xs) ->
  Permutation (scene v) (Text 3 :: Text 1 :: flat_map fixed_of es ++
    match lit "n" (rev es) with Some os => map Arrows os | None => [] end ++
    match lit "b" (rev es) with Some (d :: _) => [CubeAxes d] | _ => [] end ++
    match lit "h" (rev es) with Some (d :: _) => [oxy_rectangle (points d) (V3 0 (102 / 255) (204 / 255))] | _ => [] end ++
    match lit "g" (rev es) with
    | Some (d :: _) => [oxy_rectangle (points d) (V3 0 0 255); oxz_rectangle (points d) (V3 255 0 0); oyz_rectangle (points d) white] | _ => [] end).
Proof.
  intros es v xs F E. destruct (run_shows es [] new_viewer new_shows F) as (v' & R & S). rewrite E in R. injection R as <- _. rewrite app_nil_r in S.
  destruct S as [(base & gn & ga & gh & gg & G & B & N & A & H & P) _]. unfold scene.
  eapply perm_trans; [apply Permutation_map; exact (gr_props _ _ _ _ _ _ G)|]. rewrite !map_app.
  change (map snd) with kinds. rewrite N, A, H, P. rewrite rev_involutive in B.
  change (Text 3 :: Text 1 :: flat_map fixed_of es ++ ?l) with ((Text 3 :: Text 1 :: flat_map fixed_of es) ++ l).
  apply Permutation_app; [exact B|]. reflexivity.
Qed.
(** Something is switched on by a key exactly when the key was pressed an odd number of times since there is an object. *)
Theorem C128_parity : forall k es, lit k (rev es) <> None <-> Nat.odd (presses k es false) = true.
Proof. exact lit_parity. Qed.
(** Axes and planes are those of the first object; normals those of the objects present when they were switched on. *)
Theorem C128_first : forall k es os, lit k (rev es) = Some os -> exists d rest, os = d :: rest /\ hd_error (objects es) = Some d /\ exists later, objects es = os ++ later.
Proof.
  intros k es os. rewrite <- (rev_involutive es), (rev_involutive (rev es)). generalize (rev es). clear es. intros es. induction es as [|e past IH]; intros L; [discriminate|].
  assert (X : lit k past = Some os -> exists d rest, os = d :: rest /\ hd_error (objects (rev (e :: past))) = Some d /\ exists later, objects (rev (e :: past)) = os ++ later).
  { intros L'. destruct (IH L') as (d & rest & -> & H & later & E). exists d, rest. split; auto. rewrite objects_snoc, E. split; [reflexivity|]. exists (later ++ object_of e). rewrite <- app_assoc. reflexivity. }
  destruct e; cbn [lit] in L; auto. destruct (String.eqb key k); auto. destruct (lit k past); [discriminate|].
  destruct (objects (rev past)) as [|d rest] eqn:E; [discriminate|]. injection L as <-. exists d, rest. rewrite objects_snoc, E. cbn. rewrite app_nil_r. split; auto. split; auto. exists []. rewrite app_nil_r. reflexivity.
Qed.
(** The only errors: the keys b, h and g while there is no object. *)
Theorem C128_errors : forall es v xs, Forall session_event es -> run es new_viewer = (v, xs) ->
  Forall (eq IndexError) xs /\ (xs <> [] <-> exists before k after, es = before ++ Key k :: after /\ (k = "b" \/ k = "h" \/ k = "g")%string /\ objects before = []).
Proof.
  intros es v xs F E. destruct (run_shows es [] new_viewer new_shows F) as (v' & R & _). rewrite E in R. injection R as _ ->. split.
  - generalize (@nil event). clear. induction es as [|e es IH]; intros past; cbn; auto. apply Forall_app. split; auto. destruct (_ && _); auto.
  - assert (X : forall es past, errors past es <> [] <-> exists before k after, es = before ++ Key k :: after /\ (k = "b" \/ k = "h" \/ k = "g")%string /\ objects (rev past ++ before) = []).
    { clear. induction es as [|e es IH]; intros past; cbn [errors]; [split; [congruence|intros ([|] & k & after & H & _); discriminate]|].
      assert (NK : needs_object e = true <-> exists k, e = Key k /\ (k = "b" \/ k = "h" \/ k = "g")%string).
      { destruct e; cbn; split; try discriminate; try (intros (k & X & _); discriminate).
        - rewrite !orb_true_iff, !String.eqb_eq. intros K. exists key. tauto.
        - intros (k & X & K). injection X as ->. rewrite !orb_true_iff, !String.eqb_eq. tauto. }
      split.
      - intros H. destruct (needs_object e) eqn:NE; [destruct (List.length (objects (rev past)) =? 0) eqn:O|].
        + destruct (proj1 NK eq_refl) as (k & -> & K). exists [], k, es. split; auto. split; auto. rewrite app_nil_r. apply Nat.eqb_eq in O. destruct (objects (rev past)); auto; discriminate.
        + cbn in H. apply IH in H as (before & k & after & -> & K & O'). exists (e :: before), k, after. split; auto. split; auto. cbn [rev] in O'. rewrite <- app_assoc in O'. exact O'.
        + cbn in H. apply IH in H as (before & k & after & -> & K & O'). exists (e :: before), k, after. split; auto. split; auto. cbn [rev] in O'. rewrite <- app_assoc in O'. exact O'.
      - intros ([|e' before] & k & after & H & K & O) N; apply app_eq_nil in N as [N1 N2].
        + injection H as -> ->. rewrite app_nil_r in O. rewrite O in N1. rewrite (proj2 NK) in N1; [discriminate|]. eauto.
        + injection H as -> ->. revert N2. apply IH. exists before, k, after. split; auto. split; auto. cbn [rev]. rewrite <- app_assoc. exact O. }
    apply (X es []).
Qed.
(** A key pressed twice, once there is an object: the same picture, if for n no object was added since normals are shown. *)
Theorem C128_twice : forall es k v xs v' xs', Forall session_event es -> objects es <> [] -> (k = "b" \/ k = "h" \/ k = "g" \/ k = "n" /\ (forall os, lit "n" (rev es) = Some os -> os = objects es))%string ->
  run es new_viewer = (v, xs) -> run (es ++ [Key k; Key k]) new_viewer = (v', xs') -> Permutation (scene v') (scene v) /\ xs' = xs.
Proof.
  intros es k v xs v' xs' F NO K E E'.
  assert (F' : Forall session_event (es ++ [Key k; Key k])) by (apply Forall_app; split; auto; repeat constructor).
  split.
  - eapply perm_trans; [exact (C128_scene _ _ _ F' E')|]. eapply perm_trans; [|apply Permutation_sym, (C128_scene _ _ _ F E)].
    rewrite flat_map_app. cbn [flat_map fixed_of app]. rewrite app_nil_r. rewrite rev_app_distr. cbn [rev app].
    assert (O : forall j, lit j (Key k :: Key k :: rev es) = if String.eqb k j then match lit j (rev es) with Some _ => Some (objects es) | None => None end else lit j (rev es)).
    { intros j. cbn [lit]. destruct (String.eqb k j); auto. rewrite objects_snoc. cbn [object_of]. rewrite app_nil_r, rev_involutive.
      destruct (objects es) as [|d rest] eqn:OE; [congruence|]. destruct (lit j (rev es)); auto. }
    assert (H : forall j os, lit j (rev es) = Some os -> exists d rest rest', os = d :: rest /\ objects es = d :: rest').
    { intros j os L. destruct (C128_first _ _ _ L) as (d & rest & -> & _ & later & OE). exists d, rest, (rest ++ later). rewrite OE. auto. }
    rewrite !O. do 2 apply perm_skip. apply Permutation_app_head.
    assert (Q : forall (g : dataset -> list drawn) j, match (match lit j (rev es) with Some _ => Some (objects es) | None => None end) with Some (d :: _) => g d | _ => [] end = match lit j (rev es) with Some (d :: _) => g d | _ => [] end).
    { intros g j. destruct (lit j (rev es)) as [os|] eqn:L; auto. destruct (H _ _ L) as (d & rest & rest' & -> & ->). reflexivity. }
    destruct K as [-> |[-> |[-> |[-> KN]]]]; cbn [String.eqb Ascii.eqb Bool.eqb].
    + rewrite (Q (fun d => [CubeAxes d])). reflexivity.
    + rewrite (Q (fun d => [oxy_rectangle (points d) (V3 0 (102 / 255) (204 / 255))])). reflexivity.
    + rewrite (Q (fun d => [oxy_rectangle (points d) (V3 0 0 255); oxz_rectangle (points d) (V3 255 0 0); oyz_rectangle (points d) white])). reflexivity.
    + destruct (lit "n" (rev es)) as [os|] eqn:L; [rewrite (KN os eq_refl)|]; reflexivity.
  - rewrite run_app, E in E'. destruct (run_shows es [] new_viewer new_shows F) as (w & R & S). rewrite E in R. injection R as <- _. rewrite app_nil_r in S.
    destruct (run_shows [Key k; Key k] (rev es) v S) as (w' & R' & _); [repeat constructor|]. rewrite R' in E'. injection E' as _ <-.
    assert (Z : errors (rev es) [Key k; Key k] = []); [|transitivity (xs ++ errors (rev es) [Key k; Key k]); [reflexivity|rewrite Z; apply app_nil_r]].
    cbn [errors]. rewrite objects_snoc. cbn [object_of]. rewrite app_nil_r, rev_involutive. destruct (objects es); [congruence|]. cbn [List.length Nat.eqb]. rewrite !andb_false_r. reflexivity.
Qed.
(** The window is closed by the keys e and q only. *)
Theorem C128_window : forall es v xs, run es new_viewer = (v, xs) -> (v_open v = true <-> ~ In (Key "e") es /\ ~ In (Key "q") es).
Proof.
  intros es v xs E. assert (G : forall es w v xs, run es w = (v, xs) -> (v_open v = true <-> v_open w = true /\ ~ In (Key "e") es /\ ~ In (Key "q") es)).
  { clear. induction es as [|e es IH]; intros w v xs E; [injection E as <- _; cbn; tauto|]. cbn [run] in E. destruct (step w e) as [w1 x] eqn:K. destruct (run es w1) as [w2 ys] eqn:R. injection E as <- _.
    rewrite (IH w1 w2 ys R). destruct (step_window e w w1 x K) as [O _]. rewrite O. split.
    - intros (H & NE & NQ). destruct (closes e) eqn:C; [discriminate|]. split; auto. split; intros [-> |I]; auto; discriminate.
    - intros (H & NE & NQ). destruct (closes e) eqn:C; [exfalso; destruct (closes_key e C) as [-> | ->]; [apply NE|apply NQ]; left; reflexivity|]. split; auto. split; intros I; [apply NE|apply NQ]; right; exact I. }
  rewrite (G es new_viewer v xs E). cbn. tauto.
Qed.
(** The file screenshot.png has the picture as it was when the key c was last pressed. *)
Theorem C128_screenshot : forall before after v xs v' xs', run before new_viewer = (v, xs) -> run (before ++ Key "c" :: after) new_viewer = (v', xs') -> ~ In (Key "c") after ->
  v_shot v' = Some (scene v).
Proof.
  intros before after v xs v' xs' E E' N. rewrite run_app, E in E'. cbn [run step] in E'. change (on_key_press "c" v) with (with_shot v, @None exn) in E'. cbv beta iota in E'.
  destruct (run after (with_shot v)) as [w ys] eqn:R. injection E' as <- _.
  assert (G : forall es w v xs, run es w = (v, xs) -> ~ In (Key "c") es -> v_shot v = v_shot w).
  { clear. induction es as [|e es IH]; intros w v xs E N; [injection E as <- _; reflexivity|]. cbn [run] in E. destruct (step w e) as [w1 x] eqn:K. destruct (run es w1) as [w2 ys] eqn:R. injection E as <- _.
    rewrite (IH w1 w2 ys R) by (intros I; apply N; right; exact I). destruct (step_window e w w1 x K) as [_ S]. apply S. intros ->. apply N. left. reflexivity. }
  rewrite (G after (with_shot v) w ys R N). reflexivity.
Qed.
(** normals_on, "Displays the normals", shows nothing, and the key n fails ever after, until normals_off is called. *)
Theorem C128_normals_on_refuted : forall v n, scene (fst (normals_on v)) = scene v /\
  run (repeat (Key "n") n) (fst (normals_on v)) = (fst (normals_on v), repeat TypeError n).
Proof.
  intros v n. split; [reflexivity|]. induction n as [|n IH]; [reflexivity|]. cbn [repeat run]. change (step (fst (normals_on v)) (Key "n")) with (fst (normals_on v), Some TypeError). cbv beta iota. rewrite IH. reflexivity.
Qed.
(** After normals_off, "Hide the normals", those shown stay, and each press of the key n fails and draws the normals of the first object again. *)
Theorem C128_normals_off_refuted : forall v d rest n, v_polydatas v = d :: rest -> scene (fst (normals_off v)) = scene v /\
  exists v', run (repeat (Key "n") n) (fst (normals_off v)) = (v', repeat AttributeError n) /\ scene v' = scene v ++ repeat (Arrows d) n.
Proof.
  intros v d rest n O. split; [reflexivity|].
  assert (X : forall v, v_polydatas v = d :: rest -> v_normals v = NBool false -> exists v', run (repeat (Key "n") n) v = (v', repeat AttributeError n) /\ scene v' = scene v ++ repeat (Arrows d) n).
  { clear v O. induction n as [|n IH]; intros v O N; [exists v; rewrite app_nil_r; auto|]. cbn [repeat run].
    assert (K : step v (Key "n") = (draw (Arrows d) v, Some AttributeError)).
    { cbn [step]. unfold on_key_press. cbn [String.eqb Ascii.eqb Bool.eqb]. rewrite N. unfold show_normals. rewrite O. cbn [show_normals_of]. cbn [draw v_normals]. rewrite N. reflexivity. }
    rewrite K. destruct (IH (draw (Arrows d) v) O N) as (v' & R & S). exists v'. rewrite R. split; auto. rewrite S. unfold scene. cbn [draw v_props]. rewrite map_app, <- app_assoc. reflexivity. }
  exact (X (fst (normals_off v)) O eq_refl).
Qed.
(** plane_on called twice: the key h never removes the first plane. *)
Theorem C128_plane_twice_refuted : exists es, forall n, let v := fst (run (es ++ repeat (Key "h") n) new_viewer) in
  exists d, In (oxy_rectangle (points d) (V3 0 (102 / 255) (204 / 255))) (scene v).
Proof.
  set (d := Dataset [V3 0 0 0; V3 1 0 0; V3 0 1 0] [[0; 1; 2]]). exists [AddPolydata d yellow "surface"; PlaneOn; PlaneOn]. intros n. cbv zeta. exists d.
  rewrite run_app. cbn -[oxy_rectangle repeat d].
  assert (X : forall n v, In (3, oxy_rectangle (points d) (V3 0 (102 / 255) (204 / 255))) (v_props v) -> 4 <= v_next v -> (v_oxy v = None \/ exists a, v_oxy v = Some a /\ 4 <= a) ->
    In (3, oxy_rectangle (points d) (V3 0 (102 / 255) (204 / 255))) (v_props (fst (run (repeat (Key "h") n) v)))).
  { clear n. induction n as [|n IH]; intros v I L A; [exact I|]. cbn [repeat run step]. unfold on_key_press. cbn [String.eqb Ascii.eqb Bool.eqb orb].
    destruct A as [A|(a & A & G)]; rewrite A.
    - unfold plane_on. destruct (v_polydatas v) as [|p rest].
      + specialize (IH v I L (or_introl A)). destruct (run (repeat (Key "h") n) v). exact IH.
      + cbn [done]. match goal with |- context [run _ ?w] => specialize (IH w) end. destruct (run (repeat (Key "h") n) _). apply IH; cbn; [apply in_or_app; auto|lia|right; eauto].
    - cbn [done]. match goal with |- context [run _ ?w] => specialize (IH w) end. destruct (run (repeat (Key "h") n) _). apply IH; cbn; auto.
      apply filter_In. split; auto. cbn. destruct a as [|[|[|[|a]]]]; auto; lia. }
  match goal with |- context [run (repeat _ n) ?w] => specialize (X n w) end. destruct (run (repeat (Key "h") n) _) as [w xs]. cbn [fst] in *. unfold scene.
  apply (in_map snd) in X; [exact X|cbn; auto 6|cbn; lia|right; exists 4; cbn; auto].
Qed.

(** ** C129 *)
(** The planes hold the projections of all the points of the object, even with the extents widened by a tenth on each side. *)
Theorem C129_planes : forall ps c p, In p ps ->
  (exists o a b, oxy_rectangle ps c = Rectangle o a b c /\ on_rectangle o a b (V3 (vx p) (vy p) 0)) /\
  (exists o a b, oxz_rectangle ps c = Rectangle o a b c /\ on_rectangle o a b (V3 (vx p) 0 (vz p))) /\
  (exists o a b, oyz_rectangle ps c = Rectangle o a b c /\ on_rectangle o a b (V3 0 (vy p) (vz p))).
Proof.
  intros ps c p I. destruct (range_hull vx ps p I) as (x1 & x2). destruct (range_hull vy ps p I) as (y1 & y2). destruct (range_hull vz ps p I) as (z1 & z2).
  split; [|split]; do 3 eexists; (split; [reflexivity|]); unfold margin, on_rectangle.
  - destruct (share _ _ _ x1 x2) as (s & S & X). destruct (share_down _ _ _ y1 y2) as (t & T & Y). exists t, s. split; auto. split; auto. unfold vadd, vscale, vsub; cbn. f_equal; try lra.
  - destruct (share _ _ _ x1 x2) as (s & S & X). destruct (share_down _ _ _ z1 z2) as (t & T & Y). exists t, s. split; auto. split; auto. unfold vadd, vscale, vsub; cbn. f_equal; try lra.
  - destruct (share _ _ _ y1 y2) as (s & S & X). destruct (share_down _ _ _ z1 z2) as (t & T & Y). exists t, s. split; auto. split; auto. unfold vadd, vscale, vsub; cbn. f_equal; try lra.
Qed.
(** They are not larger than that: each bound of the range, moved out by a tenth of the extent. *)
Theorem C129_tight : forall ps c, ps <> [] -> exists xm xM ym yM zm zM pxm pxM pym pyM pzm pzM,
  Forall (fun p => In p ps) [pxm; pxM; pym; pyM; pzm; pzM] /\
  vx pxm = xm /\ vx pxM = xM /\ vy pym = ym /\ vy pyM = yM /\ vz pzm = zm /\ vz pzM = zM /\
  (forall o a b x, oxy_rectangle ps c = Rectangle o a b c -> on_rectangle o a b x -> (xm - (xM - xm) / 10 <= vx x <= xM + (xM - xm) / 10)%R /\ (ym - (yM - ym) / 10 <= vy x <= yM + (yM - ym) / 10)%R /\ vz x = 0%R) /\
  (forall o a b x, oxz_rectangle ps c = Rectangle o a b c -> on_rectangle o a b x -> (xm - (xM - xm) / 10 <= vx x <= xM + (xM - xm) / 10)%R /\ vy x = 0%R /\ (zm - (zM - zm) / 10 <= vz x <= zM + (zM - zm) / 10)%R) /\
  (forall o a b x, oyz_rectangle ps c = Rectangle o a b c -> on_rectangle o a b x -> vx x = 0%R /\ (ym - (yM - ym) / 10 <= vy x <= yM + (yM - ym) / 10)%R /\ (zm - (zM - zm) / 10 <= vz x <= zM + (zM - zm) / 10)%R).
Proof.
  intros ps c N.
  destruct (range_met vx ps N) as (pxm & pxM & A1 & A2 & A3 & A4). destruct (range_met vy ps N) as (pym & pyM & B1 & B2 & B3 & B4). destruct (range_met vz ps N) as (pzm & pzM & C1 & C2 & C3 & C4).
  exists (fst (range vx ps)), (snd (range vx ps)), (fst (range vy ps)), (snd (range vy ps)), (fst (range vz ps)), (snd (range vz ps)), pxm, pxM, pym, pyM, pzm, pzM.
  split; [repeat constructor; auto|]. repeat (split; [solve [auto]|]).
  pose proof (proj1 (range_hull vx ps pxm A1)). pose proof (proj2 (range_hull vx ps pxm A1)). pose proof (proj1 (range_hull vy ps pym B1)). pose proof (proj2 (range_hull vy ps pym B1)). pose proof (proj1 (range_hull vz ps pzm C1)). pose proof (proj2 (range_hull vz ps pzm C1)).
  split; [|split]; intros o a b x E (s & t & S & T & ->); injection E as <- <- <-; unfold margin, vadd, vscale, vsub; cbn; repeat split; try lra; nra.
Qed.
(** The three planes were to have three colors (blue, green and red are set in the code); the second one is red, the third one has none. *)
Theorem C129_colors_refuted : forall v d rest, v_polydatas v = d :: rest -> v_planes v = None ->
  exists v' o1 a1 b1 o2 a2 b2 o3 a3 b3, on_key_press "g" v = done v' /\
  scene v' = scene v ++ [Rectangle o1 a1 b1 (V3 0 0 255); Rectangle o2 a2 b2 (V3 255 0 0); Rectangle o3 a3 b3 (V3 1 1 1)].
Proof.
  intros v d rest O P. do 10 eexists. split.
  - unfold on_key_press. cbn [String.eqb Ascii.eqb Bool.eqb orb]. rewrite P. unfold axes_planes_on. rewrite O. reflexivity.
  - unfold scene. cbn. rewrite !map_app, <- !app_assoc. reflexivity.
Qed.

(** ** C130 *)
(** The key x writes the last object added, and changes nothing else. *)
Theorem C130_saved : forall es v xs, Forall session_event es -> run es new_viewer = (v, xs) ->
  exists v', run (es ++ [Key "x"]) new_viewer = (v', xs) /\ scene v' = scene v /\
  v_saved v' = match rev (objects es) with d :: _ => Some d | [] => v_saved v end.
Proof.
  intros es v xs F E. destruct (run_shows es [] new_viewer new_shows F) as (w & R & S). rewrite E in R. injection R as <- _. rewrite app_nil_r in S.
  rewrite run_app, E. cbn [run step]. unfold on_key_press. cbn [String.eqb Ascii.eqb Bool.eqb orb]. unfold save. rewrite (sh_objects _ _ S), rev_involutive, last_kept.
  eexists. split; [cbn; rewrite app_nil_r; reflexivity|]. split; destruct (rev (objects es)); reflexivity.
Qed.
(** In the window of Mesh.show, the file is always the mesh, and no key fails. *)
Theorem C130_mesh : forall m keys v xs, mesh_show m keys = (v, xs) ->
  xs = [] /\ (In "x" keys -> v_saved v = Some (build_polydata (verts m) (faces m))) /\ (~ In "x" keys -> v_saved v = None).
Proof.
  intros m keys v xs E. unfold mesh_show in E. set (d := build_polydata (verts m) (faces m)) in *. split.
  - assert (F : Forall session_event (AddPolydata d yellow "surface" :: map Key keys)) by (constructor; [left; reflexivity|apply Forall_map, Forall_forall; intros; exact I]).
    destruct (C128_errors _ _ _ F E) as [_ X]. destruct xs; auto. exfalso.
    destruct (proj1 X ltac:(discriminate)) as ([|ev before] & k & after & H & _ & O); [discriminate|]. injection H as <- _. discriminate O.
  - cbn [run step] in E. unfold add_polydata in E. cbn [String.eqb Ascii.eqb Bool.eqb orb done] in E.
    match type of E with (let (_, _) := run _ ?w in _) = _ => assert (P : v_polydatas w = [d]) by reflexivity; assert (Q : v_saved w = None) by reflexivity; revert P Q E; generalize w end.
    assert (G : forall keys w ys v, v_polydatas w = [d] -> run (map Key keys) w = (v, ys) -> (In "x" keys -> v_saved v = Some d) /\ (~ In "x" keys -> v_saved v = v_saved w)).
    { clear. induction keys as [|k keys IH]; intros w ys v P E; [injection E as <- _; cbn; tauto|]. cbn [map run step] in E. destruct (on_key_press k w) as [w1 x] eqn:K. destruct (run (map Key keys) w1) as [w2 zs] eqn:R. injection E as <- _.
      destruct (key_saves k w w1 x K) as [P1 S1]. rewrite P in P1. destruct (IH w1 zs w2 P1 R) as [I1 I2].
      destruct (string_dec k "x") as [-> |KX].
      - split; [|intros NI; exfalso; apply NI; left; reflexivity]. intros _. destruct (in_dec string_dec "x" keys) as [I|I]; auto. rewrite (I2 I), S1, P. reflexivity.
      - assert (S2 : v_saved w1 = v_saved w) by (rewrite S1; destruct (String.eqb_spec k "x"); congruence). split.
        + intros [-> |I]; [congruence|auto].
        + intros NI. rewrite I2; auto. intros I. apply NI. right. exact I. }
    intros w P Q E. destruct (run (map Key keys) w) as [w2 zs] eqn:R. injection E as <- _. rewrite <- Q. apply (G keys w zs w2 P R).
Qed.
(** "Saves the main object": in the window of Hydrostatics.show, the file is never the mesh; it is the line to the center of buoyancy, or the point of the last force. *)
Theorem C130_main_refuted : forall m cog buoyancy mass weight bforce forces v xs, mass <> 0%R -> faces m <> [] ->
  hydrostatics_show m cog buoyancy mass weight bforce forces ["x"%string] = (v, xs) ->
  v_saved v <> Some (build_polydata (verts m) (faces m)) /\
  v_saved v = Some (match rev forces with f :: _ => Dataset [single_vec (fst f)] [[0]] | [] => Dataset [single_vec (V3 0 0 0); single_vec buoyancy] [[0; 1]] end).
Proof.
  intros m cog buoyancy mass weight bforce forces v xs MN FN E. unfold hydrostatics_show in E. cbn zeta in E.
  match type of E with run ?l _ = _ => set (es := l) in E end.
  set (scale := (mass * 1000)%R) in *. assert (SN : scale <> 0%R) by (unfold scale; apply Rmult_integral_contrapositive_currified; lra).
  set (before := removelast es). assert (EB : es = before ++ [Key "x"]).
  { unfold before, es. cbn [map]. rewrite !app_comm_cons, removelast_last. reflexivity. }
  assert (BE : before = [AddPolydata (build_polydata (verts m) (faces m)) yellow "surface"; AddPoint (V3 0 0 0) (V3 0 0 0); AddPoint cog (V3 1 0 0); AddLine (V3 0 0 0) cog (V3 1 0 0);
       AddPoint buoyancy (V3 0 1 0); AddLine (V3 0 0 0) buoyancy (V3 0 1 0); AddVector (fst weight) (snd weight) scale (V3 1 0 0); AddVector (fst bforce) (snd bforce) scale (V3 0 1 0)] ++
       flat_map (fun f => [AddPoint (fst f) (V3 0 0 1); AddVector (fst f) (snd f) scale (V3 0 0 1)]) forces).
  { unfold before, es. cbn [map]. rewrite !app_comm_cons, removelast_last. reflexivity. }
  assert (F : Forall session_event before).
  { rewrite BE. apply Forall_app. split; [repeat constructor; auto|]. apply Forall_flat_map, Forall_forall. intros f _. repeat constructor; auto. }
  destruct (run before new_viewer) as [w ys] eqn:R. destruct (C130_saved before w ys F R) as (w' & R' & _ & S).
  rewrite EB, R' in E. injection E as <- <-.
  assert (O : exists rest, rev (objects before) = match rev forces with f :: _ => Dataset [single_vec (fst f)] [[0]] | [] => Dataset [single_vec (V3 0 0 0); single_vec buoyancy] [[0; 1]] end :: rest).
  { rewrite BE. unfold objects. rewrite flat_map_app, rev_app_distr. assert (FE := rev_involutive forces). destruct (rev forces) as [|f fs]; rewrite <- FE; [eexists; reflexivity|].
    cbn [rev]. rewrite !flat_map_app, rev_app_distr. eexists. reflexivity. }
  destruct O as (rest & O). rewrite O in S. split; auto. rewrite S. intros Z. injection Z as Z. unfold build_polydata in Z.
  destruct (faces m) as [|g gs]; [congruence|]. cbn [map] in Z. assert (L : List.length (poly_cell g) >= 3) by (unfold poly_cell; destruct (_ =? _); cbn; lia).
  destruct (rev forces); injection Z as _ Z _; rewrite <- Z in L; cbn in L; lia.
Qed.

(** Mesh.show shows the mesh as a surface, whatever keys are pressed. *)
Theorem C130_mesh_shown : forall m keys v xs, mesh_show m keys = (v, xs) -> In (Object (build_polydata (verts m) (faces m)) yellow false) (scene v).
Proof.
  intros m keys v xs E. unfold mesh_show in E. eapply Permutation_in; [apply Permutation_sym; eapply C128_scene; [|exact E]|].
  - constructor; [left; reflexivity|apply Forall_map, Forall_forall; intros; exact I].
  - right. right. apply in_or_app. left. left. reflexivity.
Qed.
(** Hydrostatics.show, whatever keys are pressed: the mesh, the centers of gravity and of buoyancy, the weight, the buoyancy and each force, arrows in one scale; no key fails. *)
Theorem C130_hydrostatics_shown : forall m cog buoyancy mass weight bforce forces keys v xs, mass <> 0%R ->
  hydrostatics_show m cog buoyancy mass weight bforce forces keys = (v, xs) ->
  let arrow f := Arrow (single_vec (fst f)) (single_vec (vscale (/ (mass * 1000)) (snd f))) in
  xs = [] /\ In (Object (build_polydata (verts m) (faces m)) yellow false) (scene v) /\
  In (Object (Dataset [single_vec cog] [[0]]) (V3 1 0 0) false) (scene v) /\ In (Object (Dataset [single_vec buoyancy] [[0]]) (V3 0 1 0) false) (scene v) /\
  In (arrow weight (V3 1 0 0)) (scene v) /\ In (arrow bforce (V3 0 1 0)) (scene v) /\
  forall f, In f forces -> In (Object (Dataset [single_vec (fst f)] [[0]]) (V3 0 0 1) false) (scene v) /\ In (arrow f (V3 0 0 1)) (scene v).
Proof.
  intros m cog buoyancy mass weight bforce forces keys v xs MN E arrow. unfold hydrostatics_show in E. cbn zeta in E.
  match type of E with run ?l _ = _ => set (es := l) in E end.
  set (scale := (mass * 1000)%R) in *. assert (SN : scale <> 0%R) by (unfold scale; apply Rmult_integral_contrapositive_currified; lra).
  assert (AE : forall f c, Arrow (single_vec (fst f)) (single_vec (V3 (vx (snd f) / scale) (vy (snd f) / scale) (vz (snd f) / scale))) c = arrow f c).
  { intros f c. unfold arrow. do 2 f_equal. unfold vscale, Rdiv. f_equal; apply Rmult_comm. }
  assert (F : Forall session_event es).
  { unfold es. do 8 (apply Forall_cons; [cbn; auto|]). apply Forall_app. split; [apply Forall_flat_map, Forall_forall; intros f _; repeat constructor; auto|apply Forall_map, Forall_forall; intros; exact I]. }
  split.
  - destruct (C128_errors _ _ _ F E) as [_ X]. destruct xs as [|y ys]; auto. exfalso.
    destruct (proj1 X ltac:(discriminate)) as ([|ev before] & k & after & H & _ & O); [discriminate|]. injection H as <- _. discriminate O.
  - assert (S : forall x, In x (flat_map fixed_of es) -> In x (scene v)).
    { intros x I. eapply Permutation_in; [apply Permutation_sym; eapply C128_scene; [exact F|exact E]|]. right. right. apply in_or_app. left. exact I. }
    assert (S1 : forall e x, In e es -> In x (fixed_of e) -> In x (scene v)) by (intros e x I J; apply S, in_flat_map; eauto).
    rewrite <- !AE. repeat split.
    + apply (S1 (AddPolydata (build_polydata (verts m) (faces m)) yellow "surface")); [left; reflexivity|left; reflexivity].
    + apply (S1 (AddPoint cog (V3 1 0 0))); [do 2 right; left; reflexivity|left; reflexivity].
    + apply (S1 (AddPoint buoyancy (V3 0 1 0))); [do 4 right; left; reflexivity|left; reflexivity].
    + apply (S1 (AddVector (fst weight) (snd weight) scale (V3 1 0 0))); [do 6 right; left; reflexivity|left; reflexivity].
    + apply (S1 (AddVector (fst bforce) (snd bforce) scale (V3 0 1 0))); [do 7 right; left; reflexivity|left; reflexivity].
    + apply (S1 (AddPoint (fst f) (V3 0 0 1))); [|left; reflexivity]. unfold es. do 8 right. apply in_or_app. left. apply in_flat_map. exists f. split; auto. left. reflexivity.
    + rewrite <- AE. apply (S1 (AddVector (fst f) (snd f) scale (V3 0 0 1))); [|left; reflexivity]. unfold es. do 8 right. apply in_or_app. left. apply in_flat_map. exists f. split; auto. right. left. reflexivity.
Qed.

(** ** Examples *)
(** A session: normals and axes switched on and off around the addition of a second object. *)
Definition some_mesh : dataset := Dataset [V3 0 0 0; V3 2 0 0; V3 0 1 0] [[0; 1; 2]].
Definition some_session (d e : dataset) : list event :=
  [Key "b"; AddPolydata d yellow "surface"; Key "n"; Key "g"; AddPolydata e white "wireframe"; Key "b"; Key "g"].
Example C128_session : forall d e, Forall session_event (some_session d e).
Proof. intros. unfold some_session. repeat (apply Forall_cons; [cbn; auto|]). apply Forall_nil. Qed.
Example C128_case : forall d e, lit "n" (rev (some_session d e)) = Some [d] /\ lit "g" (rev (some_session d e)) = None /\
  snd (run (some_session d e) new_viewer) = [IndexError] /\
  scene (fst (run (some_session d e) new_viewer)) = [Text 3; Text 1; Object d yellow false; Arrows d; Object e white true; CubeAxes d] /\
  presses "g" (some_session d e) false = 2 /\ presses "b" (some_session d e) false = 1.
Proof. intros. vm_compute. repeat split. Qed.
(** A key pressed twice when the normals of all objects are shown *)
Example C128_twice_case : forall d, objects [AddPolydata d yellow "surface"; Key "n"] <> [] /\
  forall os, lit "n" (rev [AddPolydata d yellow "surface"; Key "n"]) = Some os -> os = objects [AddPolydata d yellow "surface"; Key "n"].
Proof. intros d. split; [discriminate|]. intros os H. injection H as <-. reflexivity. Qed.
(** Without that condition: an object added while normals are shown, the key n pressed twice: one more set of arrows. *)
Example C128_twice_needed : forall d e,
  scene (fst (run [AddPolydata d yellow "surface"; Key "n"; AddPolydata e white "surface"] new_viewer)) = [Text 3; Text 1; Object d yellow false; Arrows d; Object e white false] /\
  scene (fst (run [AddPolydata d yellow "surface"; Key "n"; AddPolydata e white "surface"; Key "n"; Key "n"] new_viewer)) = [Text 3; Text 1; Object d yellow false; Object e white false; Arrows d; Arrows e].
Proof. intros. vm_compute. split; reflexivity. Qed.
(** The points of the plane of a mesh of extents 2 and 1: from -0.2 to 2.2 and from -0.1 to 1.1 *)
Example C129_case : exists o a b, oxy_rectangle (points some_mesh) white = Rectangle o a b white /\ o = V3 (- (2 / 10)) (11 / 10) 0 /\ a = V3 (- (2 / 10)) (- (1 / 10)) 0 /\ b = V3 (22 / 10) (11 / 10) 0.
Proof.
  do 3 eexists. split; [reflexivity|]. unfold some_mesh, points, margin, range. cbn [fold_left vx vy fst snd].
  assert (A : Rmin (Rmin 0 2) 0 = 0%R) by (unfold Rmin; repeat destruct (Rle_dec _ _); lra). assert (B : Rmax (Rmax 0 2) 0 = 2%R) by (unfold Rmax; repeat destruct (Rle_dec _ _); lra).
  assert (C : Rmin (Rmin 0 0) 1 = 0%R) by (unfold Rmin; repeat destruct (Rle_dec _ _); lra). assert (D : Rmax (Rmax 0 0) 1 = 1%R) by (unfold Rmax; repeat destruct (Rle_dec _ _); lra).
  rewrite A, B, C, D. repeat split; f_equal; lra.
Qed.
Example C129_colors_case : exists v, fst (run [AddPolydata some_mesh yellow "surface"] new_viewer) = v /\ v_polydatas v = [some_mesh] /\ v_planes v = None.
Proof. eexists. repeat split. Qed.
Example C130_case : forall d e, v_saved (fst (run [AddPolydata d yellow "surface"; AddPolydata e white "surface"; Key "x"] new_viewer)) = Some e.
Proof. intros. vm_compute. reflexivity. Qed.

Print Assumptions C128_scene.
Print Assumptions C128_parity.
Print Assumptions C128_first.
Print Assumptions C128_errors.
Print Assumptions C128_twice.
Print Assumptions C128_window.
Print Assumptions C128_screenshot.
Print Assumptions C128_normals_on_refuted.
Print Assumptions C128_normals_off_refuted.
Print Assumptions C128_plane_twice_refuted.
Print Assumptions C129_planes.
Print Assumptions C129_tight.
Print Assumptions C129_colors_refuted.
Print Assumptions C130_saved.
Print Assumptions C130_mesh.
Print Assumptions C130_main_refuted.
Print Assumptions C130_mesh_shown.
Print Assumptions C130_hydrostatics_shown.
