(** Proofs about arrays that a caller has kept. *)
From Coq Require Import Ascii String Reals List Arith NArith Bool Lia Lra.
From Verif Require Import M_base M_merge M_plane M_rotations M_mesh M_inertia M_geometry M_connectivity M_cache M_text M_arrays
  S_merge S_arrays P_base P_merge P_mesh P_curves P_geometry P_arrays P_arrays2.
Import ListNotations.
Local Open Scope nat_scope.

(** ** Left behind *)
(** [a] was an array of points of [z] and now belongs to nobody. *)
Definition behind (a : nat) (z z' : self) : Prop :=
  a < length (h_points (fst z')) /\ ~ In a (own_points (snd z')) /\ points (fst z') a = points (fst z) a.
Lemma behind_moves : forall a z z1 z2, behind a z z1 -> framed z1 z2 -> behind a z z2.
Proof.
intros a z z1 z2 (L & N & E) (F & _); split; [|split].
- pose proof (k_len _ _ _ _ F); lia.
- intros I; apply (k_own _ _ _ _ F) in I as [I|I]; [contradiction|lia].
- rewrite <- E; apply nth_same, (k_old _ _ _ _ F); assumption.
Qed.
Lemma behind_replaced : forall x z, good z -> behind (o_verts (snd z)) z (replace_verts x z).
Proof.
intros x z G; parts z; goods; unfold behind, own_points, points; cbn; rewrite app_length; cbn;
(split; [lia|split; [lia|apply nth_app_old; lia]]).
Qed.
Lemma behind_after : forall x z z', good z -> moves (replace_verts x z) z' -> behind (o_verts (snd z)) z z'.
Proof. intros x z z' G M; eapply behind_moves; [apply (behind_replaced x z G)|apply M, (moves_replace_verts _ _ G)]. Qed.
Definition behind_faces (a : nat) (z z' : self) : Prop :=
  a < length (h_faces (fst z')) /\ ~ In a (own_faces (snd z')) /\ rows (fst z') a = rows (fst z) a.
Lemma behind_faces_moves : forall a z z1 z2, behind_faces a z z1 -> framed z1 z2 -> behind_faces a z z2.
Proof.
intros a z z1 z2 (L & N & E) (_ & F & _); split; [|split].
- pose proof (k_len _ _ _ _ F); lia.
- intros I; apply (k_own _ _ _ _ F) in I as [I|I]; [contradiction|lia].
- rewrite <- E; apply nth_same, (k_old _ _ _ _ F); assumption.
Qed.
Lemma behind_faces_replaced : forall x z, good z -> behind_faces (o_faces (snd z)) z (replace_faces x z).
Proof.
intros x z G; parts z; goods; unfold behind_faces, own_faces, rows; cbn; rewrite app_length; cbn;
(split; [lia|split; [lia|apply nth_app_old; lia]]).
Qed.

(** Queries keep the references. *)
Lemma query_refs : forall A (q : cmesh -> res (A * cmesh)) z x z', query q z = Ok (x, z') ->
  o_verts (snd z') = o_verts (snd z) /\ o_faces (snd z') = o_faces (snd z) /\ (forall p, o_props (snd z) = Some p -> o_props (snd z') = Some p).
Proof.
intros A q z x z' E; unfold query in E; apply bind_ok in E as ([y s] & _ & E); injection E as <- <-.
destruct z as [h o]; cbn; destruct (o_props o) as [p|] eqn:P; [cbn; rewrite P; auto|].
destruct (c_props s); cbn; rewrite ?P; (split; [reflexivity|split; [reflexivity|discriminate]]).
Qed.
(** References of vertices *)
Lemma verts_flip : forall z, o_verts (snd (h_flip_normals z)) = o_verts (snd z).
Proof. intros [h o]; unfold h_flip_normals; cbn; destruct (o_props o) as [[[a n] c]|]; reflexivity. Qed.
Lemma verts_props : forall z, o_verts (snd (on_obj remove_props_if_any z)) = o_verts (snd z).
Proof. intros [h o]; cbn; unfold remove_props_if_any; destruct (o_props o); reflexivity. Qed.
Lemma faces_props : forall z, o_faces (snd (on_obj remove_props_if_any z)) = o_faces (snd z).
Proof. intros [h o]; cbn; unfold remove_props_if_any; destruct (o_props o); reflexivity. Qed.
Lemma faces_centers_moved : forall t z, o_faces (snd (move_centers t z)) = o_faces (snd z) /\ o_verts (snd (move_centers t z)) = o_verts (snd z).
Proof. intros t [h o]; unfold move_centers; cbn; destruct (o_props o) as [[[a n] c]|]; auto. Qed.
Lemma refs_rotate : forall r z, o_faces (snd (h_rotate_matrix r z)) = o_faces (snd z).
Proof. intros r [h o]; unfold h_rotate_matrix; cbn; destruct (o_props o) as [[[a n] c]|]; reflexivity. Qed.
Lemma verts_rotate : forall r z, moves (replace_verts (verts (rotate_matrix r (cm (view (fst z) (snd z))))) z) (h_rotate_matrix r z).
Proof.
intros r z; unfold h_rotate_matrix; set (z0 := replace_verts _ z); clearbody z0; clear z.
eapply moves_trans; [|apply moves_on_obj, forgets_ints].
parts z0; [|apply moves_refl]; intros G; goods; cbn; split.
- apply good_some; rewrite !app_length; cbn; repeat split; try lia.
  + rewrite nth_app_old by (rewrite app_length; cbn; lia). rewrite nth_app_new, map_length; assumption.
  + rewrite app_nth2; rewrite app_length; cbn; [|lia]. replace (_ - _) with 0 by lia. cbn; rewrite map_length; assumption.
- split; [|split; apply kept_refl; own]. rewrite <- app_assoc; apply kept_app; own; rewrite ?app_length; cbn; lia.
Qed.
Lemma heal_normals_refs : forall order z z', h_heal_normals order z = Ok z' -> o_verts (snd z') = o_verts (snd z).
Proof.
intros order z z' E; unfold h_heal_normals in E; apply bind_ok in E as ([c z1] & Q1 & E).
apply query_refs in Q1 as (A1 & _). apply bind_ok in E as ([[tri quad] z2] & Q2 & E). apply query_refs in Q2 as (A2 & _).
apply bind_ok in E as (st & _ & E). apply bind_ok in E as (z3 & E & F); injection F as <-.
rewrite verts_props. destruct (c_bounds c) as [|b bs].
- apply bind_ok in E as (zmax & _ & E); apply bind_ok in E as ([p z4] & Q & E). apply query_refs in Q as (A & _); cbn in A.
  injection E as <-. destruct (Rltb (heave zmax p) 0); [rewrite verts_flip|]; congruence.
- injection E as <-; cbn; congruence.
Qed.

Section Kept.
  Variable argsort : list R -> list nat.
  Variable order : list nat -> list nat.

  Lemma merge_shorter : forall atol m m', merge_duplicates argsort atol m = Ok m' -> keeps_array argsort atol (verts m) = false ->
    length (verts m') <> length (verts m).
  Proof.
  intros atol m m' E K; unfold merge_duplicates, merge_duplicates_index, merge_duplicate_rows, keeps_array in *.
  destruct (refine argsort atol (map (column (verts m)) coords) (length (verts m)) [seq 0 (length (verts m))]) as [levels|] eqn:R; [|discriminate].
  apply bind_ok in E as ([m1 i1] & E & F); injection F as <-.
  apply bind_ok in E as ([u i] & E & F); apply bind_ok in E as (u' & E & E'); injection E' as <- <-.
  apply bind_ok in F as (fs & _ & F); injection F as <- <-. apply mapM_length in E; cbn; rewrite E; intros L.
  destruct (refine_full argsort atol _ _ _ _ R L) as [H _]; discriminate H.
  Qed.
  Lemma merge_count : forall atol m m', sorting argsort -> (0 <= atol)%R -> merge_duplicates argsort atol m = Ok m' ->
    length (verts m') <= length (verts m).
  Proof.
  intros atol m m' S A E; destruct (verts m) as [|v vs] eqn:V.
  - exfalso; unfold merge_duplicates, merge_duplicates_index in E; rewrite V in E; cbn in E; discriminate E.
  - apply bind_ok in E as ([m1 i1] & E & F); injection F as <-.
    unfold merge_duplicates_index in E; apply bind_ok in E as ([u i] & E & F).
    apply bind_ok in F as (fs & _ & F); injection F as <- <-; cbn [verts].
    destruct (merge_merged argsort S atol A vec coords (verts m)) as (u' & i' & E' & M); [rewrite V; discriminate|].
    rewrite E in E'; injection E' as <- <-. rewrite <- V; apply (merged_count _ _ _ _ _ M).
  Qed.

  (** Stages of heal_mesh: the same vertices in the same array, or fewer in another one *)
  Definition stage (z z' : self) : Prop :=
    good z -> good z' /\ framed z z' /\
    (o_verts (snd z') = o_verts (snd z) /\ verts (cm (vw z')) = verts (cm (vw z)) \/
     behind (o_verts (snd z)) z z' /\ length (verts (cm (vw z'))) < length (verts (cm (vw z)))).
  Lemma stage_trans : forall z z1 z2, stage z z1 -> stage z1 z2 -> stage z z2.
  Proof.
  intros z z1 z2 A B G; destruct (A G) as (G1 & F1 & C1); destruct (B G1) as (G2 & F2 & C2).
  split; [exact G2|split; [eapply framed_trans; eassumption|]].
  destruct C1 as [(A1 & V1)|(A1 & V1)].
  - destruct C2 as [(A2 & V2)|(A2 & V2)]; [left; split; congruence|right]. rewrite <- A1, <- V1; split; [|exact V2].
    destruct A2 as (X & Y & Z); split; [exact X|split; [exact Y|]]. rewrite Z.
    change (verts (cm (vw z1)) = points (fst z) (o_verts (snd z1))); rewrite A1; exact V1.
  - right; split; [eapply behind_moves; eassumption|]. destruct C2 as [(_ & V2)|(_ & V2)]; [rewrite V2|]; lia.
  Qed.
  Lemma stage_same : forall z z' s, agrees z (Ok z') (Ok s) -> o_verts (snd z') = o_verts (snd z) ->
    verts (cm s) = verts (cm (vw z)) -> stage z z'.
  Proof. intros z z' s (G & F & V) O E _; split; [exact G|split; [exact F|left]]. split; [exact O|congruence]. Qed.
  Lemma stage_unused : forall z z', h_remove_unused z = Ok z' -> stage z z'.
  Proof.
  intros z z' E G; pose proof (agrees_unused z G) as A; rewrite E in A.
  destruct (c_remove_unused (vw z)) as [s|e] eqn:C; [|contradiction A]. destruct A as (G' & F & V).
  split; [exact G'|split; [exact F|]].
  unfold h_remove_unused in E; fold (vw z) in E; apply bind_ok in E as (m & E & E'). unfold c_remove_unused in C; rewrite E in C.
  cbn in C; injection C as <-; rewrite V; cbn [cm with_conn with_mesh].
  destruct (length (verts m) <? length (verts (cm (vw z)))) eqn:L; injection E' as <-.
  - right; split; [|apply Nat.ltb_lt, L].
    pose proof (behind_replaced (verts m) z G) as B. eapply behind_moves; [exact B|].
    assert (M : moves (replace_verts (verts m) z) (on_obj drop_conn (replace_faces (faces m) (replace_verts (verts m) z)))) by repeat mv.
    apply M, (moves_replace_verts _ _ G).
  - left; split; [reflexivity|]. destruct (unused_cases _ _ E) as [L'| ->]; [|reflexivity].
    apply Nat.ltb_lt in L'; congruence.
  Qed.
  Lemma verts_degenerated : forall rtol z z', h_remove_degenerated rtol z = Ok z' -> o_verts (snd z') = o_verts (snd z).
  Proof.
  intros rtol z z' E; unfold h_remove_degenerated in E; destruct (Rltb 0 rtol); [|discriminate].
  apply bind_ok in E as ([p z1] & Q & E); apply query_refs in Q as (A & _). apply bind_ok in E as (fs & _ & E); injection E as <-.
  rewrite verts_props; exact A.
  Qed.
  Lemma stage_degenerated : forall rtol z z', h_remove_degenerated rtol z = Ok z' -> stage z z'.
  Proof.
  intros rtol z z' E G; pose proof (agrees_degenerated rtol z G) as A; rewrite E in A.
  destruct (c_remove_degenerated rtol (vw z)) as [s|e] eqn:C; [|contradiction A].
  apply (stage_same z z' s A); [eapply verts_degenerated, E| |exact G].
  unfold c_remove_degenerated in C; destruct (Rltb 0 rtol); [|discriminate].
  apply bind_ok in C as ([p s1] & Q & C); apply gentle_props in Q as [Q _]; apply bind_ok in C as (fs & _ & C); injection C as <-.
  cbn; rewrite Q; reflexivity.
  Qed.
  (** merge_duplicates, whatever the tolerance *)
  Lemma kept_merge : forall atol z z', good z -> h_merge argsort atol z = Ok z' ->
    o_verts (snd z') = o_verts (snd z) /\ verts (cm (vw z')) = verts (cm (vw z)) \/
    behind (o_verts (snd z)) z z' /\ length (verts (cm (vw z'))) <> length (verts (cm (vw z))).
  Proof.
  intros atol z z' G E; pose proof (agrees_merge argsort atol z G) as A; rewrite E in A.
  destruct (c_merge argsort atol (vw z)) as [s|e] eqn:C; [|contradiction A]. destruct A as (G' & F & V).
  unfold h_merge in E; fold (vw z) in E; apply bind_ok in E as (m & E & E'). unfold c_merge in C; rewrite E in C.
  cbn in C; injection C as <-; rewrite V; cbn [cm with_conn with_mesh].
  destruct (keeps_array argsort atol (verts (cm (vw z)))) eqn:K; injection E' as <-.
  - left; split; [reflexivity|eapply merge_kept; eassumption].
  - right; split; [|eapply merge_shorter; eassumption].
    eapply behind_moves; [apply (behind_replaced (verts m) z G)|].
    assert (M : moves (replace_verts (verts m) z) (on_obj drop_conn (replace_faces (faces m) (replace_verts (verts m) z)))) by repeat mv.
    apply M, (moves_replace_verts _ _ G).
  Qed.
  Lemma stage_merge : forall z z', sorting argsort -> h_merge argsort default_atol z = Ok z' -> stage z z'.
  Proof.
  intros z z' S E G; pose proof (agrees_merge argsort default_atol z G) as A; rewrite E in A.
  destruct (c_merge argsort default_atol (vw z)) as [s|e] eqn:C; [|contradiction A]. destruct A as (G' & F & V).
  split; [exact G'|split; [exact F|]]. destruct (kept_merge _ _ _ G E) as [H|(H & N)]; [left; exact H|right; split; [exact H|]].
  apply bind_ok in C as (m & M & C); injection C as <-.
  apply merge_count in M; [|exact S|unfold default_atol; lra]. rewrite V in *; cbn in *; lia.
  Qed.
  Lemma heal_normals_verts : forall s s', c_heal_normals order s = Ok s' -> verts (cm s') = verts (cm s).
  Proof.
  intros s s' E; unfold c_heal_normals in E; apply bind_ok in E as ([c s1] & Q & E); apply gentle_conn in Q as [Q _].
  destruct (q_ids s1) as [[tri quad] s2] eqn:I. destruct (gentle_ids s1 (tri, quad) s2) as [Q' _]; [cbn; rewrite I; reflexivity|].
  apply bind_ok in E as ([m ff] & H & E).
  assert (V : verts m = verts (cm s2)).
  { unfold heal_normals_with in H; apply bind_ok in H as (st & _ & H). destruct (c_bounds c).
    - apply bind_ok in H as (zm & _ & H); apply bind_ok in H as (p & _ & H); injection H as <- <-; reflexivity.
    - injection H as <- <-; reflexivity. }
  destruct (c_bounds c); injection E as <-; cbn; [congruence|]. unfold drop_if_props; cbn. destruct (c_props s2); cbn; congruence.
  Qed.
  Lemma stage_normals : forall z z', h_heal_normals order z = Ok z' -> stage z z'.
  Proof.
  intros z z' E G; pose proof (agrees_heal_normals order z G) as A; rewrite E in A.
  destruct (c_heal_normals order (vw z)) as [s|e] eqn:C; [|contradiction A].
  apply (stage_same z z' s A); [eapply heal_normals_refs, E|eapply heal_normals_verts, C|exact G].
  Qed.
  Lemma stage_triangles : forall z, stage z (h_heal_triangles z).
  Proof.
  intros z G; apply (stage_same z _ _ (agrees_heal_triangles z G)); [|unfold c_heal_triangles, drop_if_props; destruct (c_props (vw z)); reflexivity|exact G].
  unfold h_heal_triangles; exact (verts_props z).
  Qed.
  Lemma stage_heal_mesh : forall z z', sorting argsort -> h_heal_mesh argsort order z = Ok z' -> stage z z'.
  Proof.
  intros z z' S E; unfold h_heal_mesh in E.
  apply bind_ok in E as (z1 & E1 & E); apply bind_ok in E as (z2 & E2 & E); apply bind_ok in E as (z3 & E3 & E).
  eapply stage_trans; [|eapply stage_trans; [apply stage_unused, E1|eapply stage_trans; [eapply stage_degenerated, E2|
    eapply stage_trans; [apply stage_merge; [exact S|exact E3]|eapply stage_trans; [apply stage_triangles|apply stage_normals, E]]]]].
  intros G; destruct (moves_on_obj _ z forgets_props G) as [G' F]; split; [exact G'|split; [exact F|left]].
  split; [apply verts_props|]. rewrite vw_props_if_any; unfold drop_if_props; destruct (c_props (vw z)); reflexivity.
  Qed.

  (** What became of the array of vertices *)
  Definition vertices_after (c : call) (z z' : self) : Prop :=
    match vertices_fate c (cm (vw z)) (cm (vw z')) with
    | Attached => o_verts (snd z') = o_verts (snd z)
    | Detached => behind (o_verts (snd z)) z z'
    end.
  Lemma stage_after : forall z z' (b : nat -> nat -> bool), good z -> stage z z' ->
    match (if length (verts (cm (vw z'))) =? length (verts (cm (vw z))) then Attached else Detached) with
    | Attached => o_verts (snd z') = o_verts (snd z)
    | Detached => behind (o_verts (snd z)) z z'
    end.
  Proof.
  intros z z' _ G S; destruct (S G) as (_ & _ & [(A & V)|(A & V)]).
  - rewrite V, Nat.eqb_refl; exact A.
  - destruct (Nat.eqb_spec (length (verts (cm (vw z')))) (length (verts (cm (vw z))))); [lia|exact A].
  Qed.
  Lemma behind_scaling : forall op z z', good z -> h_scaling op z = Ok z' -> behind (o_verts (snd z)) z z'.
  Proof.
  intros op z z' G E; unfold h_scaling in E; apply bind_ok in E as (m & _ & E); injection E as <-.
  eapply behind_moves; [apply (behind_replaced (verts m) z G)|].
  assert (M : moves (replace_verts (verts m) z) (on_obj remove_props_if_any (replace_verts (verts m) z))) by repeat mv.
  apply M, (moves_replace_verts _ _ G).
  Qed.
  Lemma kept_vertices : forall c z z' x, sorting argsort -> good z -> h_step argsort order c z = Ok (z', x) -> vertices_after c z z'.
  Proof.
  intros c z z' x S G E; unfold vertices_after; destruct c; cbn [vertices_fate]; cbn [h_step] in E.
  all: try (injection E as <- <-).
  - eapply behind_moves; [apply (behind_replaced vs z G)|].
    assert (M : moves (replace_verts vs z) (on_obj cleared (replace_verts vs z))) by repeat mv. apply M, (moves_replace_verts _ _ G).
  - reflexivity.
  - apply (behind_after (verts (translate t (cm (view (fst z) (snd z)))))); [exact G|unfold h_translate; repeat mv].
  - unfold h_translate_x; exact (proj2 (faces_centers_moved (V3 t 0 0) _)).
  - apply (behind_after (verts (translate_y t (cm (view (fst z) (snd z)))))); [exact G|unfold h_translate_y; repeat mv].
  - apply (behind_after (verts (translate_z t (cm (view (fst z) (snd z)))))); [exact G|unfold h_translate_z; repeat mv].
  - eapply behind_after; [exact G|apply verts_rotate].
  - eapply behind_after; [exact G|apply verts_rotate].
  - apply bind_ok in E as (z1 & E & F); injection F as <- <-; eapply behind_scaling; eassumption.
  - apply bind_ok in E as (z1 & E & F); injection F as <- <-; eapply behind_scaling; eassumption.
  - apply bind_ok in E as (z1 & E & F); injection F as <- <-; eapply behind_scaling; eassumption.
  - apply bind_ok in E as (z1 & E & F); injection F as <- <-; eapply behind_scaling; eassumption.
  - apply verts_flip.
  - apply bind_ok in E as (z1 & E & F); injection F as <- <-. destruct (kept_merge _ _ _ G E) as [(A & V)|(A & V)].
    + rewrite V, Nat.eqb_refl; exact A.
    + apply Nat.eqb_neq in V as ->; exact A.
  - apply bind_ok in E as (z1 & E & F); injection F as <- <-; eapply heal_normals_refs, E.
  - apply bind_ok in E as (z1 & E & F); injection F as <- <-; apply stage_after; [exact Nat.eqb|exact G|apply stage_unused, E].
  - unfold h_heal_triangles; exact (verts_props z).
  - apply bind_ok in E as (z1 & E & F); injection F as <- <-; eapply verts_degenerated, E.
  - apply bind_ok in E as (z1 & E & F); injection F as <- <-; apply stage_after; [exact Nat.eqb|exact G|apply stage_heal_mesh; assumption].
  - apply bind_ok in E as (z1 & E & F); injection F as <- <-. unfold h_triangulate in E.
    apply bind_ok in E as ([[t q] z2] & Q & E); apply query_refs in Q as (A & _); apply bind_ok in E as (fs & _ & E); injection E as <-; exact A.
  - apply bind_ok in E as (z1 & E & F); injection F as <- <-. unfold h_symmetrize in E; apply bind_ok in E as (m & _ & E); injection E as <-.
    eapply behind_moves; [apply (behind_replaced (verts m) z G)|].
    assert (M : moves (replace_verts (verts m) z) (on_obj cleared (replace_faces (faces m) (replace_verts (verts m) z)))) by repeat mv.
    apply M, (moves_replace_verts _ _ G).
  - unfold h_mirror; exact (verts_flip _).
  - apply bind_ok in E as ([y z1] & Q & E); apply query_refs in Q; injection E as <- <-; apply Q.
  - apply bind_ok in E as ([y z1] & Q & E); apply query_refs in Q; injection E as <- <-; apply Q.
  - apply bind_ok in E as ([y z1] & Q & E); apply query_refs in Q; injection E as <- <-; apply Q.
  - apply bind_ok in E as ([y z1] & Q & E); apply query_refs in Q; injection E as <- <-; apply Q.
  - apply bind_ok in E as ([y z1] & Q & E); apply query_refs in Q; injection E as <- <-; apply Q.
  - apply bind_ok in E as ([y z1] & Q & E); apply query_refs in Q; injection E as <- <-; apply Q.
  - apply bind_ok in E as ([y z1] & Q & E); apply query_refs in Q; injection E as <- <-; apply Q.
  - apply bind_ok in E as ([y z1] & Q & E); apply query_refs in Q; injection E as <- <-; apply Q.
  - apply bind_ok in E as ([y z1] & Q & E); apply query_refs in Q; apply bind_ok in E as (b & _ & E); injection E as <- <-; apply Q.
  - apply bind_ok in E as (b & _ & E); injection E as <- <-; reflexivity.
  - apply bind_ok in E as (b & _ & E); injection E as <- <-; reflexivity.
  Qed.
End Kept.
