(** Proofs about faces and face properties that a caller has kept. *)
From Coq Require Import Ascii String Reals List Arith NArith Bool Lia.
From Verif Require Import M_base M_merge M_plane M_rotations M_mesh M_inertia M_geometry M_connectivity M_cache M_text M_arrays
  S_merge S_arrays P_base P_merge P_mesh P_curves P_geometry P_arrays P_arrays2 P_arrays3.
Import ListNotations.
Local Open Scope nat_scope.

(** ** Faces *)
Lemma behind_faces_after : forall x z z', good z -> moves (replace_faces x z) z' -> behind_faces (o_faces (snd z)) z z'.
Proof. intros x z z' G M; eapply behind_faces_moves; [apply (behind_faces_replaced x z G)|apply M, (moves_replace_faces _ _ G)]. Qed.
Lemma behind_faces_out : forall z z', behind_faces (o_faces (snd z)) z z' ->
  o_faces (snd z') <> o_faces (snd z) /\ rows (fst z') (o_faces (snd z)) = rows (fst z) (o_faces (snd z)).
Proof. intros z z' (_ & N & E); split; [intros F; apply N; left; exact F|exact E]. Qed.
(** The same array with the same faces, before *)
Lemma behind_faces_from : forall z z1 z', o_faces (snd z1) = o_faces (snd z) -> rows (fst z1) (o_faces (snd z)) = rows (fst z) (o_faces (snd z)) ->
  behind_faces (o_faces (snd z1)) z1 z' -> behind_faces (o_faces (snd z)) z z'.
Proof. intros z z1 z' A B (L & N & E); rewrite A in *; split; [exact L|split; [exact N|congruence]]. Qed.
Lemma query_rows : forall A (q : cmesh -> res (A * cmesh)) z x z', good z -> gentle q -> query q z = Ok (x, z') ->
  good z' /\ framed z z' /\ o_faces (snd z') = o_faces (snd z) /\ rows (fst z') (o_faces (snd z)) = rows (fst z) (o_faces (snd z)).
Proof.
intros A q z x z' G Q E; destruct (query_refs _ _ _ _ _ E) as (_ & F & _).
pose proof (query_agree _ q z Q G) as H; rewrite E in H; destruct (q (vw z)) as [[y s]|e] eqn:S; [|contradiction H].
destruct H as (<- & G' & Fr & V); split; [exact G'|split; [exact Fr|split; [exact F|]]].
rewrite <- F at 1. change (faces (cm (vw z')) = faces (cm (vw z))); rewrite V; f_equal; apply (Q _ _ _ S).
Qed.
Lemma faces_degenerated : forall rtol z z', good z -> h_remove_degenerated rtol z = Ok z' -> behind_faces (o_faces (snd z)) z z'.
Proof.
intros rtol z z' G E; unfold h_remove_degenerated in E; destruct (Rltb 0 rtol); [|discriminate].
apply bind_ok in E as ([p z1] & Q & E); destruct (query_rows _ _ _ _ _ G gentle_props Q) as (G1 & F1 & O1 & R1).
apply bind_ok in E as (fs & _ & E); injection E as <-.
apply (behind_faces_from z z1); [exact O1|exact R1|]. apply (behind_faces_after fs); [exact G1|repeat mv].
Qed.
Lemma faces_unused : forall z z', good z -> h_remove_unused z = Ok z' ->
  if length (verts (cm (vw z'))) =? length (verts (cm (vw z))) then o_faces (snd z') = o_faces (snd z) /\ fst z' = fst z
  else behind_faces (o_faces (snd z)) z z'.
Proof.
intros z z' G E; pose proof (agrees_unused z G) as A; rewrite E in A.
destruct (c_remove_unused (vw z)) as [s|e] eqn:C; [|contradiction A]. destruct A as (G' & F & V).
unfold h_remove_unused in E; fold (vw z) in E; apply bind_ok in E as (m & E & E'). unfold c_remove_unused in C; rewrite E in C.
cbn in C; injection C as <-; rewrite V; cbn [cm with_conn with_mesh].
destruct (unused_cases _ _ E) as [L| ->].
- pose proof L as L1; apply Nat.ltb_lt in L1; rewrite L1 in E'; injection E' as <-.
  destruct (Nat.eqb_spec (length (verts m)) (length (verts (cm (vw z))))) as [N|N]; [lia|].
  destruct (moves_replace_verts (verts m) z G) as [G1 F1].
  assert (B : behind_faces (o_faces (snd (replace_verts (verts m) z))) (replace_verts (verts m) z)
     (on_obj drop_conn (replace_faces (faces m) (replace_verts (verts m) z)))) by (apply (behind_faces_after (faces m)); [exact G1|repeat mv]).
  apply (behind_faces_from z (replace_verts (verts m) z)); [reflexivity|reflexivity|exact B].
- rewrite Nat.ltb_irrefl in E'; injection E' as <-; rewrite Nat.eqb_refl; split; reflexivity.
Qed.
Lemma faces_merge : forall argsort atol z z', good z -> h_merge argsort atol z = Ok z' -> behind_faces (o_faces (snd z)) z z'.
Proof.
intros argsort atol z z' G E; unfold h_merge in E; apply bind_ok in E as (m & _ & E).
destruct (keeps_array argsort atol _); injection E as <-.
- apply (behind_faces_after (faces m)); [exact G|repeat mv].
- destruct (moves_replace_verts (verts m) z G) as [G1 F1].
  apply (behind_faces_from z (replace_verts (verts m) z)); [reflexivity|reflexivity|].
  apply (behind_faces_after (faces m)); [exact G1|repeat mv].
Qed.
Lemma faces_flip : forall z, good z -> behind_faces (o_faces (snd z)) z (h_flip_normals z).
Proof.
intros z G; eapply behind_faces_moves; [apply (behind_faces_replaced (faces (flip_normals (cm (view (fst z) (snd z))))) z G)|].
destruct (moves_replace_faces (faces (flip_normals (cm (view (fst z) (snd z))))) z G) as [G1 _].
unfold h_flip_normals; set (z0 := replace_faces _ z) in *; clearbody z0.
assert (M : moves z0 (on_obj drop_ints (match o_props (snd z0) with
           | Some (_, n, _) => (write_points n (map vopp (points (fst z0) n)) (fst z0), snd z0)
           | None => z0
           end))).
{ eapply moves_trans; [|apply moves_on_obj, forgets_ints].
  parts z0; [|apply moves_refl]; intros GG; goods; cbn; split.
  - apply good_some; cbn; rewrite !set_nth_length; rewrite nth_set_same by lia; rewrite nth_set_other by congruence;
    rewrite map_length; unfold points; cbn; intuition lia.
  - split; [apply kept_set; own|split; apply kept_refl; own]. }
apply M, G1.
Qed.
Lemma rows_flip : forall z, good z -> rows (fst (h_flip_normals z)) (o_faces (snd (h_flip_normals z))) = map flip_face (rows (fst z) (o_faces (snd z))).
Proof. intros z G; change (faces (cm (vw (h_flip_normals z))) = map flip_face (faces (cm (vw z)))); rewrite vw_flip by exact G; reflexivity. Qed.

Section Faces.
  Variable argsort : list R -> list nat.
  Variable order : list nat -> list nat.

  Lemma faces_heal_normals : forall z z', good z -> h_heal_normals order z = Ok z' -> o_faces (snd z') = o_faces (snd z) \/
    o_faces (snd z') <> o_faces (snd z) /\ rows (fst z') (o_faces (snd z')) = map flip_face (rows (fst z') (o_faces (snd z))).
  Proof.
  intros z z' G E; unfold h_heal_normals in E; apply bind_ok in E as ([c z1] & Q1 & E).
  destruct (query_rows _ _ _ _ _ G (gentle_conn order) Q1) as (G1 & _ & O1 & _).
  apply bind_ok in E as ([[tri quad] z2] & Q2 & E). destruct (query_rows _ _ _ _ _ G1 gentle_ids Q2) as (G2 & _ & O2 & _).
  apply bind_ok in E as (st & _ & E). apply bind_ok in E as (z5 & E & F); injection F as <-.
  destruct (c_bounds c) as [|b bs].
  2: { left; injection E as <-; rewrite faces_props; cbn; congruence. }
  apply bind_ok in E as (zmax & _ & E); apply bind_ok in E as ([p z4] & Q & E).
  set (kc := fun o => set_data _ _ _ o) in Q.
  assert (K : forgets kc) by (intros o; cbn; auto).
  assert (G3 : good (on_obj kc (fill_faces (fl_faces st) z2))) by (apply (moves_on_obj _ _ K), (moves_fill_faces _ _ G2)).
  destruct (query_rows _ _ _ _ _ G3 gentle_props Q) as (G4 & _ & O4 & _); cbn in O4.
  destruct (Rltb (heave zmax p) 0); injection E as <-; [right|left; rewrite faces_props; congruence].
  rewrite faces_props; change (fst (on_obj remove_props_if_any (h_flip_normals z4))) with (fst (h_flip_normals z4)).
  destruct (behind_faces_out _ _ (faces_flip z4 G4)) as [N R].
  replace (o_faces (snd z)) with (o_faces (snd z4)) by congruence.
  split; [exact N|]. rewrite rows_flip, R by exact G4; reflexivity.
  Qed.
  Lemma faces_heal_mesh : forall z z', good z -> h_heal_mesh argsort order z = Ok z' -> behind_faces (o_faces (snd z)) z z'.
  Proof.
  intros z z' G E; unfold h_heal_mesh in E.
  destruct (moves_on_obj _ z forgets_props G) as [G0 _].
  apply (behind_faces_from z (on_obj remove_props_if_any z)); [apply faces_props|reflexivity|].
  set (z0 := on_obj remove_props_if_any z) in *; clearbody z0; clear z G; rename z0 into z, G0 into G.
  apply bind_ok in E as (z1 & E1 & E); apply bind_ok in E as (z2 & E2 & E); apply bind_ok in E as (z3 & E3 & E).
  pose proof (agrees_unused z G) as A1; rewrite E1 in A1; destruct (c_remove_unused (vw z)) as [s1|]; [|contradiction A1]; destruct A1 as (G1 & _).
  pose proof (agrees_degenerated default_rtol z1 G1) as A2; rewrite E2 in A2;
    destruct (c_remove_degenerated default_rtol (vw z1)) as [s2|]; [|contradiction A2]; destruct A2 as (G2 & F2 & _).
  pose proof (agrees_merge argsort default_atol z2 G2) as A3; rewrite E3 in A3;
    destruct (c_merge argsort default_atol (vw z2)) as [s3|]; [|contradiction A3]; destruct A3 as (G3 & F3 & _).
  destruct (agrees_heal_triangles z3 G3) as (G4 & F4 & _).
  pose proof (agrees_heal_normals order _ G4) as A5; rewrite E in A5;
    destruct (c_heal_normals order (vw (h_heal_triangles z3))) as [s5|]; [|contradiction A5]; destruct A5 as (G5 & F5 & _).
  assert (F : framed z2 z') by (eapply framed_trans; [exact F3|eapply framed_trans; [exact F4|exact F5]]).
  apply (behind_faces_moves _ _ z2); [|exact F].
  pose proof (faces_unused _ _ G E1) as U; destruct (length (verts (cm (vw z1))) =? length (verts (cm (vw z)))).
  - destruct U as [O H]; apply (behind_faces_from z z1); [exact O|rewrite H; reflexivity|eapply faces_degenerated; eassumption].
  - eapply behind_faces_moves; eassumption.
  Qed.
  Lemma kept_faces_step : forall c z z' x, good z -> h_step argsort order c z = Ok (z', x) ->
    faces_kept c (fst z) (fst z') (snd z) (snd z').
  Proof.
  intros c z z' x G E; destruct c; cbn [faces_kept]; cbn [h_step] in E.
  all: try (injection E as <- <-).
  - reflexivity.
  - apply behind_faces_out, (behind_faces_after fs); [exact G|repeat mv].
  - unfold h_translate; exact (proj1 (faces_centers_moved _ _)).
  - unfold h_translate_x; exact (proj1 (faces_centers_moved _ _)).
  - unfold h_translate_y; exact (proj1 (faces_centers_moved _ _)).
  - unfold h_translate_z; exact (proj1 (faces_centers_moved _ _)).
  - apply refs_rotate.
  - apply refs_rotate.
  - apply bind_ok in E as (z1 & E & F); injection F as <- <-; apply bind_ok in E as (m & _ & E); injection E as <-; exact (faces_props (replace_verts (verts m) z)).
  - apply bind_ok in E as (z1 & E & F); injection F as <- <-; apply bind_ok in E as (m & _ & E); injection E as <-; exact (faces_props (replace_verts (verts m) z)).
  - apply bind_ok in E as (z1 & E & F); injection F as <- <-; apply bind_ok in E as (m & _ & E); injection E as <-; exact (faces_props (replace_verts (verts m) z)).
  - apply bind_ok in E as (z1 & E & F); injection F as <- <-; apply bind_ok in E as (m & _ & E); injection E as <-; exact (faces_props (replace_verts (verts m) z)).
  - apply behind_faces_out, faces_flip, G.
  - apply bind_ok in E as (z1 & E & F); injection F as <- <-; eapply behind_faces_out, faces_merge; eassumption.
  - apply bind_ok in E as (z1 & E & F); injection F as <- <-; apply faces_heal_normals; assumption.
  - apply bind_ok in E as (z1 & E & F); injection F as <- <-. pose proof (faces_unused _ _ G E) as U.
    change (points (fst z1) (o_verts (snd z1))) with (verts (cm (vw z1))); change (points (fst z) (o_verts (snd z))) with (verts (cm (vw z))).
    destruct (length (verts (cm (vw z1))) =? length (verts (cm (vw z)))); [apply U|apply behind_faces_out, U].
  - exact (faces_props z).
  - apply bind_ok in E as (z1 & E & F); injection F as <- <-; eapply behind_faces_out, faces_degenerated; eassumption.
  - apply bind_ok in E as (z1 & E & F); injection F as <- <-; eapply behind_faces_out, faces_heal_mesh; eassumption.
  - apply bind_ok in E as (z1 & E & F); injection F as <- <-. unfold h_triangulate in E.
    apply bind_ok in E as ([[t q] z2] & Q & E). destruct (query_rows _ _ _ _ _ G gentle_ids Q) as (G2 & _ & O & R2).
    apply bind_ok in E as (fs & _ & E); injection E as <-.
    set (n := length (rows (fst z2) (o_faces (snd z2)))).
    assert (G3 : good (on_obj cleared (fill_faces (firstn n fs) z2))) by gd.
    destruct (behind_faces_out _ _ (behind_faces_replaced fs _ G3)) as [N R].
    change (o_faces (snd (on_obj cleared (fill_faces (firstn n fs) z2)))) with (o_faces (snd z2)) in *. rewrite <- O.
    split; [exact N|]. rewrite R.
    transitivity (faces (cm (vw (fill_faces (firstn n fs) z2)))); [reflexivity|]. rewrite vw_fill_faces by exact G2.
    replace (rows (fst (replace_faces _ _)) _) with (faces (cm (vw (replace_faces fs (on_obj cleared (fill_faces (firstn n fs) z2)))))) by reflexivity.
    rewrite vw_replace_faces by exact G3. unfold n; rewrite O, R2; reflexivity.
  - apply bind_ok in E as (z1 & E & F); injection F as <- <-. unfold h_symmetrize in E; apply bind_ok in E as (m & _ & E); injection E as <-.
    apply behind_faces_out. destruct (moves_replace_verts (verts m) z G) as [G1 F1].
    apply (behind_faces_from z (replace_verts (verts m) z)); [reflexivity|reflexivity|].
    apply (behind_faces_after (faces m)); [exact G1|repeat mv].
  - unfold h_mirror. assert (G1 : good (fill_verts (map (reflect p) (points (fst z) (o_verts (snd z)))) z)) by gd.
    set (z1 := fill_verts _ z) in *. change (o_faces (snd z)) with (o_faces (snd z1)).
    change (rows (fst z) (o_faces (snd z1))) with (rows (fst z1) (o_faces (snd z1))).
    apply behind_faces_out, (behind_faces_moves _ _ _ _ (faces_flip _ G1)).
    apply moves_on_obj; [apply forgets_cleared|apply moves_flip, G1].
  - apply bind_ok in E as ([y z1] & Q & E); apply query_refs in Q; injection E as <- <-; apply Q.
  - apply bind_ok in E as ([y z1] & Q & E); apply query_refs in Q; injection E as <- <-; apply Q.
  - apply bind_ok in E as ([y z1] & Q & E); apply query_refs in Q; injection E as <- <-; apply Q.
  - apply bind_ok in E as ([y z1] & Q & E); apply query_refs in Q; injection E as <- <-; apply Q.
  - apply bind_ok in E as ([y z1] & Q & E); apply query_refs in Q; injection E as <- <-; apply Q.
  - apply bind_ok in E as ([y z1] & Q & E); apply query_refs in Q; injection E as <- <-; apply Q.
  - apply bind_ok in E as ([y z1] & Q & E); apply query_refs in Q; injection E as <- <-; apply Q.
  - apply bind_ok in E as ([y z1] & Q & E); apply query_refs in Q; injection E as <- <-; apply Q.
  - apply bind_ok in E as ([y z1] & Q & E); apply query_refs in Q; apply bind_ok in E as (b & _ & E); injection E as <- <-; apply Q.
  - apply bind_ok in E as (b & _ & E); injection E as <- <-; reflexivity.
  - apply bind_ok in E as (b & _ & E); injection E as <- <-; reflexivity.
  Qed.
End Faces.
