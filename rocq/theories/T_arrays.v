(** Property C119: arrays held by meshes and by callers. Property C120: ids and names of meshes. *)
From Coq Require Import Ascii String Reals List Arith NArith Bool Lra Lia.
From Verif Require Import M_base M_merge M_plane M_rotations M_mesh M_inertia M_geometry M_connectivity M_cache M_text M_arrays
  S_merge S_geometry S_arrays P_base P_merge P_mesh P_curves P_geometry P_text P_arrays P_arrays2 P_arrays3 P_arrays4 P_arrays5 P_arrays6 P_witness T_mesh T_geometry.
Import ListNotations.
Local Open Scope nat_scope.

(** ** C119 *)
(** Whatever a program does, every mesh has its own arrays, all different, and no array belongs to two meshes. *)
Theorem C119_own : forall argsort order w, reached argsort order w -> all_own w /\
  forall k o, nth_error (w_meshes w) k = Some o -> NoDup (own_points o) /\
    (forall a, In a (own_points o) -> a < length (h_points (w_heap w))) /\
    (forall a, In a (own_faces o) -> a < length (h_faces (w_heap w))) /\
    (forall a, In a (own_numbers o) -> a < length (h_numbers (w_heap w))).
Proof.
  intros argsort order w R; apply reached_wf in R as [G S]; split; [exact S|].
  intros k o K; destruct (G k o K) as ((A & B) & (_ & C) & (_ & D) & _); auto.
Qed.

(** A call on a mesh of any reached state answers, or fails, as it does on the values in M_cache.v, whatever else is in the
    program. It changes no array but those of the mesh, and no other mesh. *)
Theorem C119_call : forall argsort order w k o c, reached argsort order w -> nth_error (w_meshes w) k = Some o ->
  match act argsort order (Call k c) w with
  | Ok (w', x) => exists o', nth_error (w_meshes w') k = Some o' /\
      step argsort order c (view (w_heap w) o) = Ok (view (w_heap w') o', x) /\ others_same (w_heap w) (w_heap w') o /\
      forall l p, l <> k -> nth_error (w_meshes w) l = Some p -> nth_error (w_meshes w') l = Some p /\ view (w_heap w') p = view (w_heap w) p
  | Raise e => step argsort order c (view (w_heap w) o) = Raise e
  end.
Proof.
  intros argsort order w k o c R K; apply reached_wf in R as W. pose proof (act_call argsort order w k o c W K) as H.
  destruct (act argsort order (Call k c) w) as [[w' x]|e]; [|exact H]. destruct H as (z & _ & -> & G & F & S).
  destruct (wf_self w k o z W K G F) as (_ & T & O). exists (snd z); split; [exact T|]. split; [exact S|]. split; [apply framed_others, F|exact O].
Qed.

(** Any program that never writes into the arrays of mesh [k] leaves it as the calls made on it do, one after the other, from
    the moment considered: other meshes, copies, sums, extracted parts and arrays of the caller make no difference. *)
Theorem C119_history : forall argsort order k p w h l w' o, reached argsort order w -> history argsort order k p w h l w' ->
  nth_error (w_meshes w) k = Some o ->
  exists o', nth_error (w_meshes w') k = Some o' /\ run argsort order h (view (w_heap w) o) = Ok (view (w_heap w') o', l).
Proof. intros argsort order k p w h l w' o R H K; apply reached_wf in R; exact (history_run _ _ _ _ _ _ _ _ _ H R K). Qed.

(** A new mesh holds the values given, in arrays of its own: the caller still has theirs. *)
Theorem C119_new : forall argsort order w v f name w' x, reached argsort order w -> act argsort order (New v f name) w = Ok (w', x) ->
  exists o, w_meshes w' = w_meshes w ++ [o] /\ view (w_heap w') o = fresh (mkMesh (points (w_heap w) v) (rows (w_heap w) f)) /\
  ~ In v (own_points o) /\ ~ In f (own_faces o) /\
  (forall a y, nth_error (h_points (w_heap w)) a = Some y -> nth_error (h_points (w_heap w')) a = Some y) /\
  (forall a y, nth_error (h_faces (w_heap w)) a = Some y -> nth_error (h_faces (w_heap w')) a = Some y) /\
  forall k p, nth_error (w_meshes w) k = Some p -> not_shared o p.
Proof.
  intros argsort order w v f name w' x R E; apply reached_wf in R as W. cbn [act] in E.
  apply bind_ok in E as (vs & A & E); apply bind_ok in E as (fs & B & E); apply array_at_ok in A, B.
  assert (w' = make (mkMesh vs fs) name w) as -> by congruence.
  destruct (make_spec (mkMesh vs fs) name w) as (o & M & ((u & Gp) & (y & Gf) & Gr) & G & N & V & _). exists o.
  split; [rewrite M; reflexivity|]. rewrite (points_at _ _ _ A), (rows_at _ _ _ B). split; [exact V|].
  assert (LA : v < length (h_points (w_heap w))) by (apply nth_error_Some; congruence).
  assert (LB : f < length (h_faces (w_heap w))) by (apply nth_error_Some; congruence).
  pose proof N as (N1 & N2 & N3). split; [intros I; apply N1 in I; lia|]. split; [intros I; apply N2 in I; lia|].
  split; [intros a t T; rewrite Gp; apply some_app, T|]. split; [intros a t T; rewrite Gf; apply some_app, T|].
  intros k p K; exact (new_not_shared _ _ _ N (proj1 W k p K)).
Qed.
(** A copy holds the same values, the stored ones too, and shares no array with any mesh. *)
Theorem C119_copy : forall argsort order w k o w' x, reached argsort order w -> nth_error (w_meshes w) k = Some o ->
  act argsort order (Copy k) w = Ok (w', x) ->
  exists c, w_meshes w' = w_meshes w ++ [c] /\ view (w_heap w') c = view (w_heap w) o /\ view (w_heap w') o = view (w_heap w) o /\
  forall j p, nth_error (w_meshes w) j = Some p -> not_shared c p.
Proof.
  intros argsort order w k o w' x R K E; apply reached_wf in R as W. cbn [act] in E. unfold mesh_at in E; rewrite K in E; cbn [bind] in E; cbv zeta in E.
  pose proof (proj1 W k o K) as Go. destruct (copied_spec (w_heap w) o Go) as (Gr & G & N & V & _).
  destruct (copied (w_heap w) o) as [h c]; cbn [fst snd] in *; injection E as <- <-. exists c. split; [reflexivity|]. cbn [w_heap].
  split; [exact V|]. split; [exact (proj2 (untouched_good _ _ _ (grown_untouched _ _ _ Gr Go) Go))|].
  intros j p J; exact (new_not_shared _ _ _ N (proj1 W j p J)).
Qed.

(** An array that belongs to no mesh is never taken by one, and changes only when the caller writes into it. *)
Theorem C119_caller : forall argsort order w p w' l, reached argsort order w -> exec argsort order p w = Ok (w', l) ->
  (forall a, loose_points w a -> existsb (writes_points a) p = false -> loose_points w' a /\ points (w_heap w') a = points (w_heap w) a) /\
  (forall a, loose_faces w a -> existsb (writes_faces a) p = false -> loose_faces w' a /\ rows (w_heap w') a = rows (w_heap w) a).
Proof.
  intros argsort order w p w' l R E; apply reached_wf in R; split; intros a L N;
  [exact (exec_still argsort order a p w w' l R L N E)|exact (fexec_still argsort order a p w w' l R L N E)].
Qed.

(** The array mesh.vertices that a caller has kept is after a call still that of the mesh, or nobody's and as it was. *)
Theorem C119_kept_vertices : forall argsort order w k o c w' x o', sorting argsort -> reached argsort order w -> nth_error (w_meshes w) k = Some o ->
  act argsort order (Call k c) w = Ok (w', x) -> nth_error (w_meshes w') k = Some o' ->
  let f := vertices_fate c (cm (view (w_heap w) o)) (cm (view (w_heap w') o')) in
  vertices_kept f (w_heap w) (w_heap w') o o' /\ (f = Detached -> loose_points w' (o_verts o)).
Proof.
  intros argsort order w k o c w' x o' S R K E K'; apply reached_wf in R as W. pose proof (act_call argsort order w k o c W K) as H.
  rewrite E in H; destruct H as (z & T & -> & G & F & _). destruct (wf_self w k o z W K G F) as (_ & T' & O).
  rewrite T' in K'; injection K' as <-. cbv zeta.
  pose proof (kept_vertices argsort order c (w_heap w, o) z x S (proj1 W k o K) T) as V. unfold vertices_after, vw in V; cbn [fst snd] in V.
  change (w_heap (with_self w k z)) with (fst z).
  destruct (vertices_fate c (cm (view (w_heap w) o)) (cm (view (fst z) (snd z)))); cbn [vertices_kept].
  - split; [exact V|discriminate].
  - destruct V as (L & N & P); split; [split; [exact N|exact P]|]. intros _; split; [exact L|].
    intros j p J; destruct (Nat.eq_dec j k) as [->|D]; [rewrite T' in J; injection J as <-; exact N|].
    cbn [with_self w_meshes] in J; rewrite set_nth_other in J by congruence. intros I.
    destruct (proj2 W k j o p) as (Q & _); [congruence|exact K|exact J|]. apply (Q (o_verts o)); [left; reflexivity|exact I].
Qed.
(** mesh.faces *)
Theorem C119_kept_faces : forall argsort order w k o c w' x o', reached argsort order w -> nth_error (w_meshes w) k = Some o ->
  act argsort order (Call k c) w = Ok (w', x) -> nth_error (w_meshes w') k = Some o' -> faces_kept c (w_heap w) (w_heap w') o o'.
Proof.
  intros argsort order w k o c w' x o' R K E K'; apply reached_wf in R as W. pose proof (act_call argsort order w k o c W K) as H.
  rewrite E in H; destruct H as (z & T & -> & G & F & _). destruct (wf_self w k o z W K G F) as (_ & T' & O).
  rewrite T' in K'; injection K' as <-. exact (kept_faces_step argsort order c (w_heap w, o) z x (proj1 W k o K) T).
Qed.
(** mesh.faces_normals and mesh.faces_centers; mesh.faces_areas is never changed. *)
Theorem C119_kept_properties : forall argsort order w k o c w' x o' a n e, reached argsort order w -> nth_error (w_meshes w) k = Some o ->
  o_props o = Some (a, n, e) -> act argsort order (Call k c) w = Ok (w', x) -> nth_error (w_meshes w') k = Some o' ->
  properties_kept c (w_heap w) (w_heap w') a n e o' /\ numbers (w_heap w') a = numbers (w_heap w) a.
Proof.
  intros argsort order w k o c w' x o' a n e R K P E K'; apply reached_wf in R as W. pose proof (act_call argsort order w k o c W K) as H.
  rewrite E in H; destruct H as (z & T & -> & G & F & _). destruct (wf_self w k o z W K G F) as (_ & T' & O).
  rewrite T' in K'; injection K' as <-. split; [exact (kept_properties_step argsort order c (w_heap w, o) z x a n e (proj1 W k o K) P T)|].
  destruct (areas_step argsort order c (w_heap w, o) z x T) as [l L]. unfold numbers. cbn [with_self w_heap fst] in *. rewrite L. apply nth_app_old.
  destruct (proj1 W k o K) as (_ & _ & (_ & Q) & _). apply Q. unfold own_numbers; cbn [snd]; rewrite P; left; reflexivity.
Qed.

(** translate_x and translate along x move the mesh in the same way; a kept array of vertices moves along in the first case and
    stays in the second. *)
Theorem C119_translate_x : forall argsort order w k o t w1 x1 w2 x2, reached argsort order w -> nth_error (w_meshes w) k = Some o ->
  act argsort order (Call k (TranslateX t)) w = Ok (w1, x1) -> act argsort order (Call k (Translate (V3 t 0 0))) w = Ok (w2, x2) ->
  (exists o1 o2, nth_error (w_meshes w1) k = Some o1 /\ nth_error (w_meshes w2) k = Some o2 /\ view (w_heap w1) o1 = view (w_heap w2) o2) /\
  points (w_heap w1) (o_verts o) = map (fun v => vadd v (V3 t 0 0)) (points (w_heap w) (o_verts o)) /\
  points (w_heap w2) (o_verts o) = points (w_heap w) (o_verts o).
Proof.
  intros argsort order w k o t w1 x1 w2 x2 R K E1 E2; apply reached_wf in R as W. pose proof (proj1 W k o K) as G.
  pose proof (act_call argsort order w k o (TranslateX t) W K) as H1; rewrite E1 in H1; destruct H1 as (z1 & T1 & -> & G1 & F1 & S1).
  pose proof (act_call argsort order w k o (Translate (V3 t 0 0)) W K) as H2; rewrite E2 in H2; destruct H2 as (z2 & T2 & -> & G2 & F2 & S2).
  destruct (wf_self w k o z1 W K G1 F1) as (_ & N1 & _). destruct (wf_self w k o z2 W K G2 F2) as (_ & N2 & _).
  assert (X : translate_x t (cm (view (w_heap w) o)) = translate (V3 t 0 0) (cm (view (w_heap w) o))).
  { unfold translate_x, translate; f_equal; apply map_ext; intros [a b c]; unfold vadd; cbn; f_equal; ring. }
  cbn [step] in S1, S2. rewrite X in S1. cbn [with_self w_heap]. split; [|split].
  - exists (snd z1), (snd z2); split; [exact N1|split; [exact N2|]]. congruence.
  - transitivity (verts (cm (view (fst z1) (snd z1)))).
    + cbn [h_step] in T1. injection T1 as <- _. cbn [view cm verts]. f_equal. unfold h_translate_x; cbn [fst snd on_obj drop_ints set_data o_verts].
      symmetry; exact (proj2 (faces_centers_moved _ _)).
    + assert (Z : view (fst z1) (snd z1) = update_cached (translate (V3 t 0 0) (cm (view (w_heap w) o))) (translate_cached (V3 t 0 0)) (view (w_heap w) o)) by congruence.
      rewrite Z; reflexivity.
  - cbn [h_step] in T2. injection T2 as <- _. unfold h_translate; cbn [fst snd].
    set (vs := verts (translate _ _)). assert (B : behind (o_verts (snd (w_heap w, o))) (w_heap w, o) (on_obj drop_ints (move_centers (V3 t 0 0) (replace_verts vs (w_heap w, o))))).
    { apply (behind_after vs); [exact G|repeat mv]. }
    apply B.
Qed.

(** A caller who writes into mesh.vertices after the volume was asked is told the same volume again, whatever they wrote. *)
Lemma volume_stored : forall s v s', q_volume s = Ok (v, s') -> exists i p, c_ints s' = Some i /\ c_props s' = Some p /\ volume_with i p = Ok v.
Proof.
  intros s v s' Q; unfold q_volume in Q.
  apply bind_ok in Q as ((i & s1) & Q1 & Q); apply bind_ok in Q as ((p & s2) & Q2 & Q); apply bind_ok in Q as (u & VW & Q); injection Q as <- <-.
  exists i, p. split; [|split; [exact (q_props_there _ _ _ Q2)|exact VW]].
  assert (I1 : c_ints s1 = Some i).
  { unfold q_ints in Q1; destruct (c_ints s) eqn:CI; [congruence|]. destruct (q_ids s) as [[tri quad] s0].
    apply bind_ok in Q1 as (j & _ & Q1); injection Q1 as <- <-; reflexivity. }
  unfold q_props in Q2; destruct (c_props s1); [congruence|]. unfold q_ids in Q2.
  destruct (c_ids s1) as [[t q]|]; apply bind_ok in Q2 as (j & _ & Q2); injection Q2 as <- <-; exact I1.
Qed.
Lemma stored_volume : forall s i p v, c_ints s = Some i -> c_props s = Some p -> volume_with i p = Ok v -> q_volume s = Ok (v, s).
Proof. intros s i p v I P V; unfold q_volume, q_ints; rewrite I; cbn [bind]; unfold q_props; rewrite P; cbn [bind]; rewrite V; reflexivity. Qed.
Theorem C119_stale : forall argsort order w k o v x w' l, reached argsort order w -> nth_error (w_meshes w) k = Some o ->
  exec argsort order [Call k QVolume; WriteV (o_verts o) x; Call k QVolume] w = Ok (w', l) ->
  nth_error l 0 = Some (Real v) -> nth_error l 2 = Some (Real v) /\
  exists o', nth_error (w_meshes w') k = Some o' /\ o_verts o' = o_verts o /\ verts (cm (view (w_heap w') o')) = x.
Proof.
  intros argsort order w k o v x w' l R K E V; apply reached_wf in R as W. cbn [exec] in E.
  apply bind_ok in E as ((w1 & x1) & A1 & E); apply bind_ok in E as ((w4 & l1) & E & I). injection I as <- <-.
  apply bind_ok in E as ((w2 & x2) & A2 & E); apply bind_ok in E as ((w5 & l2) & E & I). injection I as <- <-.
  apply bind_ok in E as ((w3 & x3) & A3 & E); cbn [bind] in E. injection E as <- <-. cbn in V; injection V as ->. cbn [nth_error].
  assert (W1 : wf w1) by apply (act_fine argsort order _ _ _ _ W A1). assert (W2 : wf w2) by apply (act_fine argsort order _ _ _ _ W1 A2).
  pose proof (act_call argsort order w k o QVolume W K) as H; rewrite A1 in H; destruct H as (z1 & T1 & -> & G1 & F1 & S1).
  destruct (wf_self w k o z1 W K G1 F1) as (_ & N1 & _).
  cbn [h_step] in T1; apply bind_ok in T1 as ((y & z) & Q1 & T1); injection T1 as <- ->. apply query_refs in Q1 as (V1 & _).
  cbn [act] in A2. apply bind_ok in A2 as (u & U & A2). destruct (length x =? length u) eqn:LU; [|discriminate A2]. injection A2 as <- <-.
  cbn [with_self w_heap w_meshes w_next] in *.
  pose proof (act_call argsort order _ k (snd z) QVolume W2 N1) as H; rewrite A3 in H; destruct H as (z3 & T3 & -> & G3 & F3 & S3).
  destruct (wf_self _ k (snd z) z3 W2 N1 G3 F3) as (_ & N3 & _).
  assert (C : q_volume (view (w_heap w) o) = Ok (v, view (fst z) (snd z))).
  { cbn [step] in S1. apply bind_ok in S1 as ((y' & s) & Q & I). injection I as <- ->. exact Q. }
  apply volume_stored in C as (i & p & CI & CP & VW).
  cbn [w_heap] in S3. pose proof (vw_fill_verts x z G1) as X. unfold fill_verts, vw in X; cbn [fst snd] in X.
  cbn [snd] in V1. rewrite <- V1 in S3. rewrite X in S3. cbn [step] in S3.
  rewrite (stored_volume (with_mesh (mkMesh x (faces (cm (view (fst z) (snd z))))) (view (fst z) (snd z))) i p v CI CP VW) in S3.
  cbn [bind] in S3. set (s3 := with_mesh _ _) in S3. assert (x3 = Real v) as -> by congruence.
  assert (S4 : view (fst z3) (snd z3) = s3) by congruence. split; [reflexivity|]. exists (snd z3); split; [exact N3|].
  cbn [h_step] in T3; apply bind_ok in T3 as ((y3 & z4) & Q3 & T3); injection T3 as <- _. apply query_refs in Q3 as (V3 & _). cbn [snd] in V3.
  split; [congruence|]. cbn [with_self w_heap]. rewrite S4; reflexivity.
Qed.
(** An augmented assignment such as mesh.vertices += t writes and then assigns: it does what an assignment of the result does. *)
Theorem C119_augmented : forall argsort order w k o x w' l, reached argsort order w -> nth_error (w_meshes w) k = Some o ->
  length x = length (points (w_heap w) (o_verts o)) ->
  exec argsort order [WriteV (o_verts o) x; AssignV k (o_verts o)] w = Ok (w', l) ->
  exists o', nth_error (w_meshes w') k = Some o' /\ view (w_heap w') o' = fresh (mkMesh x (faces (cm (view (w_heap w) o)))) /\
  step argsort order (SetVertices x) (view (w_heap w) o) = Ok (view (w_heap w') o', Done).
Proof.
  intros argsort order w k o x w' l R K L E; apply reached_wf in R as W. cbn [exec] in E.
  apply bind_ok in E as ((w1 & x1) & A1 & E); apply bind_ok in E as ((w4 & l1) & E & I). injection I as <- <-.
  apply bind_ok in E as ((w2 & x2) & A2 & E); cbn [bind] in E. injection E as <- <-.
  assert (W1 : wf w1) by apply (act_fine argsort order _ _ _ _ W A1).
  cbn [act] in A1. apply bind_ok in A1 as (u & U & A1). destruct (length x =? length u) eqn:LU; [|discriminate A1]. injection A1 as <- <-.
  apply array_at_ok in U. assert (LO : o_verts o < length (h_points (w_heap w))) by (apply nth_error_Some; congruence).
  cbn [act w_heap w_meshes] in A2. unfold mesh_at in A2; cbn [w_meshes] in A2; rewrite K in A2; cbn [bind] in A2.
  apply bind_ok in A2 as (y & Y & A2); apply array_at_ok in Y. cbn [write_points h_points] in Y. rewrite set_nth_same in Y by exact LO. injection Y as <-.
  injection A2 as <- <-.
  pose proof (proj1 W1 k o K) as G1. cbn [w_heap] in G1.
  pose proof (calls argsort order (SetVertices x) _ G1) as (_ & G' & F & V). cbn [step] in V.
  exists (cleared (set_verts (length (set_nth (h_points (w_heap w)) (o_verts o) x)) o)). split; [|split].
  - cbn. apply set_nth_same, nth_error_Some; congruence.
  - exact V.
  - cbn [step]. f_equal; f_equal. symmetry; exact V.
Qed.

(** Examples: a tetrahedron made from two arrays of the caller. *)
Definition tetra_start : list action := [ArrayV (verts tetrahedron); ArrayF (faces tetrahedron); New 0 0 (M_text.s "t")].
Definition tetra_world : world :=
  mkWorld (mkHeap [verts tetrahedron; verts tetrahedron] [faces tetrahedron; faces tetrahedron] [])
    [mkObj 1 1 None None None None 0 (M_text.s "t")] 1.
Lemma tetra_exec : forall argsort order, exec argsort order tetra_start start = Ok (tetra_world, [Done; Done; Done]).
Proof. reflexivity. Qed.
Lemma tetra_reached : forall argsort order, reached argsort order tetra_world.
Proof. intros; exists tetra_start, [Done; Done; Done]; apply tetra_exec. Qed.
Lemma fresh_volume : forall m v, volume m = Ok v -> exists s, q_volume (fresh m) = Ok (v, s).
Proof.
  intros m v E; unfold volume in E. apply bind_ok in E as (i & I & E); apply bind_ok in E as (p & P & E).
  unfold q_volume, q_ints; cbn [fresh c_ints q_ids c_ids with_ids cm]. unfold faces_integrals in I. rewrite I; cbn [bind].
  unfold q_props; cbn [c_props with_ints with_ids fresh q_ids c_ids cm]. unfold faces_properties in P. rewrite P; cbn [bind]. rewrite E; cbn [bind].
  eexists; reflexivity.
Qed.
(** The caller's own array is not the mesh's: writing into it changes nothing. Writing into mesh.vertices does. *)
Example tetra_writes : forall argsort order x, length x = 4 ->
  exists w w', exec argsort order [WriteV 0 x] tetra_world = Ok (w, [Done]) /\ exec argsort order [WriteV 1 x] tetra_world = Ok (w', [Done]) /\
  (forall o, nth_error (w_meshes w) 0 = Some o -> view (w_heap w) o = fresh tetrahedron) /\
  (forall o, nth_error (w_meshes w') 0 = Some o -> view (w_heap w') o = fresh (mkMesh x (faces tetrahedron))).
Proof.
  intros argsort order x L; cbn. rewrite L; cbn. eexists; eexists; split; [reflexivity|]. split; [reflexivity|]. cbn.
  split; intros o E; injection E as <-; reflexivity.
Qed.
(** The hypotheses of [C119_stale]: a tetrahedron of volume 1/6 is still said to be so when it has been flattened. *)
Example tetra_stale : forall argsort order, exists w l, exec argsort order [Call 0 QVolume; WriteV 1 [vzero; vzero; vzero; vzero]; Call 0 QVolume] tetra_world = Ok (w, l) /\
  nth_error l 0 = Some (Real (1 / 6)%R) /\ nth_error l 2 = Some (Real (1 / 6)%R).
Proof.
  intros argsort order. pose proof (tetra_reached argsort order) as R.
  set (o := mkObj 1 1 None None None None 0 (M_text.s "t")). assert (K : nth_error (w_meshes tetra_world) 0 = Some o) by reflexivity.
  pose proof (act_call argsort order tetra_world 0 o QVolume (reached_wf _ _ _ R) K) as H.
  destruct (fresh_volume _ _ tetrahedron_volume) as [s S].
  assert (T : step argsort order QVolume (view (w_heap tetra_world) o) = Ok (s, Real (1 / 6)%R)) by (cbn [step]; change (view _ o) with (fresh tetrahedron); rewrite S; reflexivity).
  destruct (act argsort order (Call 0 QVolume) tetra_world) as [[w1 x1]|e] eqn:A; [|congruence].
  destruct H as (z & Hs & -> & G & F & S1).
  assert (x1 = Real (1 / 6)%R) as -> by congruence.
  assert (W1 : reached argsort order (with_self tetra_world 0 z)) by exact (reached_act _ _ _ _ _ _ R A).
  assert (Vz : o_verts (snd z) = 1).
  { cbn [h_step] in Hs. apply bind_ok in Hs as ((y & z') & Q & I). injection I as <- _. apply query_refs in Q as (Q & _). exact Q. }
  assert (P1 : points (fst z) 1 = verts tetrahedron).
  { rewrite <- Vz. change (verts (cm (view (fst z) (snd z))) = verts tetrahedron).
    assert (view (fst z) (snd z) = s) as -> by congruence. f_equal. exact (proj1 (gentle_volume _ _ _ S)). }
  assert (L1 : 1 < length (h_points (fst z))) by (rewrite <- Vz; apply G; left; reflexivity).
  set (x := [vzero; vzero; vzero; vzero]). set (w2 := mkWorld (write_points 1 x (fst z)) [snd z] 1).
  assert (A2 : act argsort order (WriteV 1 x) (with_self tetra_world 0 z) = Ok (w2, Done)).
  { cbn [act with_self w_heap]. unfold array_at. destruct (nth_error (h_points (fst z)) 1) as [u|] eqn:U; [|apply nth_error_None in U; lia].
    cbn [bind]. assert (u = verts tetrahedron) as -> by (rewrite <- P1; unfold points; symmetry; apply nth_error_nth, U). reflexivity. }
  assert (R2 : reached argsort order w2) by exact (reached_act _ _ _ _ _ _ W1 A2).
  pose proof (act_call argsort order w2 0 (snd z) QVolume (reached_wf _ _ _ R2) eq_refl) as H.
  destruct (act argsort order (Call 0 QVolume) w2) as [[w3 x3]|e] eqn:A3.
  - assert (E : exec argsort order [Call 0 QVolume; WriteV 1 x; Call 0 QVolume] tetra_world = Ok (w3, [Real (1 / 6)%R; Done; x3])).
    { cbn [exec]. rewrite A; cbn [bind]. rewrite A2; cbn [bind]. rewrite A3; reflexivity. }
    exists w3, [Real (1 / 6)%R; Done; x3]. split; [exact E|]. split; [reflexivity|].
    exact (proj1 (C119_stale argsort order tetra_world 0 o (1 / 6)%R x w3 _ R K E eq_refl)).
  - exfalso. destruct (volume_stored _ _ _ S) as (i & p & CI & CP & VW). cbn [w_heap w2] in H.
    pose proof (vw_fill_verts x z G) as X. unfold fill_verts, vw in X; cbn [fst snd] in X. rewrite Vz in X. rewrite X in H.
    assert (view (fst z) (snd z) = s) as ES by congruence. rewrite ES in H. cbn [step] in H.
    rewrite (stored_volume (with_mesh (mkMesh x (faces (cm s))) s) i p _ CI CP VW) in H. discriminate H.
Qed.
(** Two meshes, one moved after the other was copied from it; the array given out by the first moves along. *)
Example tetra_moved : forall argsort order t, exists w l, exec argsort order [Copy 0; Call 0 (TranslateX t); Call 1 FlipNormals] tetra_world = Ok (w, l) /\
  points (w_heap w) 1 = map (fun v => V3 (vx v + t)%R (vy v) (vz v)) (verts tetrahedron) /\ rows (w_heap w) 1 = faces tetrahedron /\
  map (fun o => cm (view (w_heap w) o)) (w_meshes w) = [translate_x t tetrahedron; flip_normals tetrahedron].
Proof. intros; eexists; eexists; split; [reflexivity|]. split; [reflexivity|]. split; reflexivity. Qed.
Example tetra_history : forall argsort order t, history argsort order 0 [Copy 0; Call 0 (TranslateX t); Call 1 FlipNormals; WriteV 0 (verts tetrahedron)] tetra_world
  [TranslateX t] [Done] (match exec argsort order [Copy 0; Call 0 (TranslateX t); Call 1 FlipNormals; WriteV 0 (verts tetrahedron)] tetra_world with Ok (w, _) => w | Raise _ => start end).
Proof.
  intros. change ([TranslateX t]) with (([] ++ [TranslateX t] ++ [] ++ [] ++ []) : list call). change [Done] with (([] ++ [Done] ++ [] ++ [] ++ []) : list answer).
  eapply (h_cons _ _ 0 (Copy 0)); [intros ? ?; exact I|reflexivity|]. eapply (h_cons _ _ 0 (Call 0 (TranslateX t))); [intros ? ?; exact I|reflexivity|].
  eapply (h_cons _ _ 0 (Call 1 FlipNormals)); [intros ? ?; exact I|reflexivity|]. eapply (h_cons _ _ 0 (WriteV 0 (verts tetrahedron))); [|reflexivity|apply h_nil].
  intros o E; cbn in E; injection E as <-. cbn. intuition discriminate.
Qed.

(** ** C120 *)
(** Ids and names follow from the program alone: the counter goes up with each mesh that is constructed, an empty name is replaced
    by mesh_ and the id, sums join the names, extracted meshes say what they come from, copies keep both, and no call changes them. *)
Theorem C120_labels : forall argsort order p w l, exec argsort order p start = Ok (w, l) ->
  (w_next w, labels w) = fold_left (fun c a => relabel a c) p (0, []).
Proof. intros argsort order p w l E; exact (exec_labels argsort order p start w l wf_start E). Qed.
(** Two meshes have the same id exactly when they are copies of the same mesh. *)
Theorem C120_ids : forall argsort order p w l i j o o', exec argsort order p start = Ok (w, l) ->
  nth_error (w_meshes w) i = Some o -> nth_error (w_meshes w) j = Some o' ->
  (o_id o = o_id o' <-> nth i (origins p []) 0 = nth j (origins p []) 0).
Proof.
  intros argsort order p w l i j o o' E I J; destruct (exec_start argsort order p w l E) as (L & _ & _ & M). unfold ids in *.
  assert (LI : i < length (w_meshes w)) by (apply nth_error_Some; congruence). assert (LJ : j < length (w_meshes w)) by (apply nth_error_Some; congruence).
  rewrite map_length in *. specialize (M i j LI LJ).
  rewrite (nth_error_nth _ _ 0 (map_nth_error o_id _ _ I)), (nth_error_nth _ _ 0 (map_nth_error o_id _ _ J)) in M. exact M.
Qed.
(** So ids tell meshes apart in programs that never copy. *)
Theorem C120_unique : forall argsort order p w l i j o o', existsb is_copy p = false -> exec argsort order p start = Ok (w, l) ->
  nth_error (w_meshes w) i = Some o -> nth_error (w_meshes w) j = Some o' -> o_id o = o_id o' -> i = j.
Proof.
  intros argsort order p w l i j o o' C E I J H. apply (C120_ids argsort order p w l i j o o' E I J) in H.
  destruct (exec_start argsort order p w l E) as (L & _). unfold ids in L; rewrite map_length in L.
  assert (LI : i < length (w_meshes w)) by (apply nth_error_Some; congruence). assert (LJ : j < length (w_meshes w)) by (apply nth_error_Some; congruence).
  rewrite !(origins_own p [] C) in H; try assumption; try lia; intros q Q; cbn in Q; lia.
Qed.
(** And in programs that only construct meshes without giving names, so do names. *)
Theorem C120_names : forall argsort order p w l i j o o', forallb unnamed p = true -> exec argsort order p start = Ok (w, l) ->
  nth_error (w_meshes w) i = Some o -> nth_error (w_meshes w) j = Some o' -> o_name o = o_name o' -> i = j.
Proof.
  intros argsort order p w l i j o o' U E I J H.
  assert (C : existsb is_copy p = false).
  { clear - U; induction p as [|a p IH]; [reflexivity|]. cbn in *; apply andb_true_iff in U as [U V]. rewrite (IH V), orb_false_r. destruct a; try reflexivity; discriminate U. }
  assert (N : forall n t, In (n, t) (labels w) -> t = automatic n)
    by (apply (exec_unnamed argsort order p start w l wf_start E U); intros n t []).
  apply (C120_unique argsort order p w l i j o o' C E I J). apply automatic_inj.
  rewrite <- (N (o_id o) (o_name o)), <- (N (o_id o') (o_name o')); [exact H| |];
  unfold labels; [exact (in_map (fun o => (o_id o, o_name o)) _ _ (nth_error_In _ _ J))|exact (in_map (fun o => (o_id o, o_name o)) _ _ (nth_error_In _ _ I))].
Qed.
(** Neither holds of all programs: a copy has the id and the name of its original, and a given name can be an automatic one. *)
Theorem C120_unique_refuted : forall argsort order,
  (exists p w l o o', exec argsort order p start = Ok (w, l) /\ nth_error (w_meshes w) 0 = Some o /\ nth_error (w_meshes w) 1 = Some o' /\
    o_id o = o_id o' /\ o_name o = o_name o') /\
  exists p w l o o', existsb is_copy p = false /\ exec argsort order p start = Ok (w, l) /\ nth_error (w_meshes w) 0 = Some o /\ nth_error (w_meshes w) 1 = Some o' /\
    o_id o <> o_id o' /\ o_name o = o_name o'.
Proof.
  intros argsort order; split.
  - exists (tetra_start ++ [Copy 0]). eexists; eexists; eexists; eexists. split; [reflexivity|]. split; [reflexivity|]. split; [reflexivity|]. split; reflexivity.
  - exists [ArrayV (verts tetrahedron); ArrayF (faces tetrahedron); New 0 0 (M_text.s "mesh_1"); New 0 0 []]. eexists; eexists; eexists; eexists.
    split; [reflexivity|]. split; [reflexivity|]. split; [reflexivity|]. split; [reflexivity|]. split; [discriminate|reflexivity].
Qed.
(** The names of a small program *)
Example tetra_names : forall argsort order, exists w l, exec argsort order (tetra_start ++ [New 0 0 []; Copy 1; Extract 1 [0]; New 0 0 []]) start = Ok (w, l) /\
  labels w = [(0, M_text.s "t"); (1, M_text.s "mesh_1"); (1, M_text.s "mesh_1"); (2, M_text.s "mesh_extracted_from_mesh_1"); (3, M_text.s "mesh_3")].
Proof. intros; eexists; eexists; split; [reflexivity|]. reflexivity. Qed.

Print Assumptions C119_own.
Print Assumptions C119_call.
Print Assumptions C119_history.
Print Assumptions C119_new.
Print Assumptions C119_copy.
Print Assumptions C119_caller.
Print Assumptions C119_kept_vertices.
Print Assumptions C119_kept_faces.
Print Assumptions C119_kept_properties.
Print Assumptions C119_translate_x.
Print Assumptions C119_stale.
Print Assumptions C119_augmented.
Print Assumptions C120_labels.
Print Assumptions C120_ids.
Print Assumptions C120_unique.
Print Assumptions C120_names.
Print Assumptions C120_unique_refuted.
