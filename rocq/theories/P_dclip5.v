(** Proofs about clipping in double precision: the same exceptions. *)
From Coq Require Import Reals List Arith Bool Lia Lra FinFun.
From Flocq Require Import Core.
From Verif Require Import M_base P_base M_merge S_merge P_merge M_plane M_mesh S_mesh P_mesh S_geometry P_geometry S_plane P_plane
  M_connectivity M_clipper S_clipper P_clipper P_crown P_parts P_curves P_sharp
  M_double S_double P_double P_double2 P_double3 M_dgeom P_dgeom5 M_dclip S_dclip P_dclip P_dclip2 P_dclip3 P_dclip4.
Import ListNotations.
Open Scope R_scope.

Lemma mapM_raise : forall X X' Y Y' (f : X -> res Y) (f' : X' -> res Y') (k : X -> X') l e,
  (forall x e, In x l -> f x = Raise e -> f' (k x) = Raise e) -> (forall x y, In x l -> f x = Ok y -> exists y', f' (k x) = Ok y') ->
  mapM f l = Raise e -> mapM f' (map k l) = Raise e.
Proof.
  intros X X' Y Y' f f' k l e. induction l as [|x l IH]; intros H1 H2 M; cbn [mapM map] in *; [discriminate|].
  destruct (f x) as [y|e'] eqn:E; cbn [bind] in M.
  - destruct (H2 x y (or_introl eq_refl) E) as [y' ->]. cbn [bind]. destruct (mapM f l) as [ys|e'] eqn:E'; cbn [bind] in M; [discriminate|].
    rewrite IH; [cbn [bind]; congruence| | |auto]; intros; [apply H1|eapply H2]; try right; eauto.
  - rewrite (H1 x e' (or_introl eq_refl) E). cbn [bind]. congruence.
Qed.
Lemma ids_none : forall t r vs vs' (ids ids' : list nat) i, alike_points t r vs vs' -> length ids = length vs -> length ids' = length vs' ->
  nth_error ids i = None -> nth_error ids' (r i) = None.
Proof.
  intros t r vs vs' ids ids' i AP L L' N. apply nth_error_None in N. apply nth_error_None. rewrite L, L' in *.
  destruct (Nat.lt_ge_cases (r i) (length vs')) as [Q|Q]; auto. destruct (alike_onto _ _ _ _ AP _ Q) as (j & J & E). apply (ap_injective _ _ _ _ AP) in E. lia.
Qed.
Lemma merge_lengths : forall argsort a vs uq ids, sorting argsort -> 0 <= a -> merge_duplicate_rows argsort a coords vs = Ok (uq, ids) -> length ids = length vs.
Proof.
  intros argsort a vs uq ids S A E. assert (NE : vs <> []) by (intros ->; cbn in E; discriminate).
  destruct (merge_merged argsort S a A vec coords vs NE) as (u1 & i1 & E1 & M). rewrite E in E1. injection E1 as <- <-. apply (merged_ids _ _ _ _ _ M).
Qed.
Lemma merge_raise : forall argsort a vs e, sorting argsort -> 0 <= a -> merge_duplicate_rows argsort a coords vs = Raise e -> vs = [] /\ e = IndexError.
Proof.
  intros argsort a vs e S A E. destruct vs as [|v vs]; [rewrite merge_empty in E; injection E as <-; auto|].
  destruct (merge_merged argsort S a A vec coords (v :: vs)) as (u1 & i1 & E1 & M); congruence.
Qed.

Section Ids.
  Variables (ids ids' : list nat) (r ren : nat -> nat).
  Hypothesis found : forall i k, nth_error ids i = Some k -> nth_error ids' (r i) = Some (ren k).
  Hypothesis lost : forall i, nth_error ids i = None -> nth_error ids' (r i) = None.
  Lemma get_raise : forall i e, get ids i = Raise e -> get ids' (r i) = Raise e.
  Proof. intros i e G. unfold get in *. destruct (nth_error ids i) eqn:N; [discriminate|]. rewrite (lost _ N). auto. Qed.
  Lemma get_found : forall i k, get ids i = Ok k -> get ids' (r i) = Ok (ren k).
  Proof. intros i k G. unfold get in *. destruct (nth_error ids i) eqn:N; [|discriminate]. injection G as <-. rewrite (found _ _ N). auto. Qed.
  Lemma renumber_raise : forall f e, renumber ids f = Raise e -> renumber ids' (map_face r f) = Raise e.
  Proof.
    intros f e E. unfold renumber in *. cbn [map_face f0 f1 f2 f3].
    destruct (get ids (f0 f)) eqn:E0; [rewrite (get_found _ _ E0)|rewrite (get_raise _ _ E0)]; cbn [bind] in *; [|congruence].
    destruct (get ids (f1 f)) eqn:E1; [rewrite (get_found _ _ E1)|rewrite (get_raise _ _ E1)]; cbn [bind] in *; [|congruence].
    destruct (get ids (f2 f)) eqn:E2; [rewrite (get_found _ _ E2)|rewrite (get_raise _ _ E2)]; cbn [bind] in *; [|congruence].
    destruct (get ids (f3 f)) eqn:E3; [rewrite (get_found _ _ E3)|rewrite (get_raise _ _ E3)]; cbn [bind] in *; [discriminate|congruence].
  Qed.
  Lemma renumber_all_raise : forall fs e, mapM (renumber ids) fs = Raise e -> mapM (renumber ids') (map (map_face r) fs) = Raise e.
  Proof.
    intros fs e. apply mapM_raise; intros f x _ E; [apply renumber_raise; auto|]. exists (map_face ren x). eapply renumber_alike; eauto.
  Qed.
End Ids.
Lemma renumber_dict_raise : forall ids ids' ren d e, (forall i k, nth_error ids i = Some k -> nth_error ids' i = Some (ren k)) ->
  (forall i, nth_error ids i = None -> nth_error ids' i = None) ->
  renumber_dict ids d = Raise e -> renumber_dict ids' d = Raise e.
Proof.
  intros ids ids' ren d e F N E. unfold renumber_dict in *.
  destruct (mapM (fun e0 => do a <- get ids (fst e0); do b <- get ids (snd e0); Ok (a, b)) d) as [l|e'] eqn:M; cbn [bind] in E; [discriminate|].
  assert (K : mapM (fun e0 => do a <- get ids' (fst e0); do b <- get ids' (snd e0); Ok (a, b)) (map (fun x => x) d) = Raise e').
  { revert M. pose proof (get_found ids ids' (fun i => i) ren F) as GF. pose proof (get_raise ids ids' (fun i => i) N) as GR.
    apply mapM_raise; intros [a b] x _; cbn [fst snd]; intros H.
    - destruct (get ids a) eqn:E0; [rewrite (GF _ _ E0)|rewrite (GR _ _ E0)]; cbn [bind] in *; [|congruence].
      destruct (get ids b) eqn:E1; [rewrite (GF _ _ E1)|rewrite (GR _ _ E1)]; cbn [bind] in *; congruence.
    - apply bind_ok in H as (a1 & A & H). apply bind_ok in H as (b1 & B & H). rewrite (GF _ _ A), (GF _ _ B). cbn [bind]. eauto. }
  rewrite map_id in K. rewrite K. cbn [bind]. congruence.
Qed.

Section Loop.
  Variables (p : plane) (L tol g : R).
  Hypothesis sized : smallest <= L.
  Hypothesis normal1 : bounded 1 (p_normal p).
  Hypothesis scalar1 : Rabs (p_scalar p) <= L.
  Hypothesis scalar_double : double (p_scalar p).
  Hypothesis tol_large : 40 * (u * L) <= tol.
  Hypothesis gap : tol <= g.
  Variables (fdot : vec -> vec -> R) (vs : list vec) (dist' : list R).
  Hypothesis dot_ok : computes_dot fdot.
  Hypothesis vs_bounded : Forall (bounded L) vs.
  Hypothesis vs_firm : Forall (firm p tol (23 * (u * L)) g) vs.
  Notation dist := (map (plane_dist p) vs).
  Hypothesis same : Forall2 (same_class tol) dist dist'.
  Let TP : 0 <= tol := T0 L tol sized tol_large.
  Lemma step_raise : forall st st' f e, valid_face (length vs) f -> cs_index st' = cs_index st ->
    clip_step p tol vs dist st f = Raise e -> clip_step_double fdot p tol vs dist' st' f = Raise e.
  Proof.
    intros st st' f e V R4 E. unfold clip_step in E. unfold clip_step_double.
    rewrite R4, (clip_face_same tol TP dist dist' same).
    2: { unfold face_w. destruct (is_triangle f); cbn; auto. }
    2: { apply Forall_forall. intros i I. rewrite map_length. eapply face_w_valid; eauto. }
    destruct (clip_face tol dist (cs_index st) (face_w f)) as [c|e'] eqn:C; cbn [bind] in *; [|auto]. exfalso.
    assert (K : forall es, incl es (q_edges c) -> exists ys, mapM (fun e => do a <- get vs (fst e); do b <- get vs (snd e); intersection p a b) es = Ok ys).
    { induction es as [|ed es IH]; intros IC; cbn [mapM]; [eauto|].
      destruct (side_cut p L tol g sized normal1 scalar1 scalar_double tol_large gap fdot vs dot_ok vs_bounded vs_firm f ed c (cs_index st) V C) as (a & b & x & NA & NB & X1 & _);
        [apply IC; left; auto|].
      rewrite (get_some _ _ _ _ NA), (get_some _ _ _ _ NB). cbn [bind]. rewrite X1. cbn [bind].
      destruct (IH (fun z Z => IC z (or_intror Z))) as [ys ->]. cbn [bind]. eauto. }
    destruct (K (q_edges c) (fun x H => H)) as [ys Y]. rewrite Y in E. cbn [bind] in E. destruct (q_bound c) as [[? ?]|]; discriminate.
  Qed.
  Lemma loop_raise : forall fs st st' e, Forall (valid_face (length vs)) fs -> related L g st st' ->
    foldM (clip_step p tol vs dist) fs st = Raise e -> foldM (clip_step_double fdot p tol vs dist') fs st' = Raise e.
  Proof.
    induction fs as [|f fs IH]; intros st st' e V R E; cbn [foldM] in *; [discriminate|]. inversion V; subst.
    destruct (clip_step p tol vs dist st f) as [s2|e'] eqn:E2; cbn [bind] in E.
    - destruct (step_related p L tol g sized normal1 scalar1 scalar_double tol_large gap fdot vs dist' dot_ok vs_bounded vs_firm same (fun _ => True) st st' f s2) as (s2' & E2' & R' & _);
        auto; [apply Forall_forall; auto|]. rewrite E2'. cbn [bind]. eapply IH; eauto.
    - rewrite (step_raise st st' f e' ltac:(auto) ltac:(destruct R as (_ & _ & _ & R & _); auto) E2). cbn [bind]. congruence.
  Qed.
  Lemma clip_faces_raise : forall fs e, Forall (valid_face (length vs)) fs -> clip_faces p tol vs dist fs = Raise e -> clip_faces_double fdot p tol vs dist' fs = Raise e.
  Proof.
    intros fs e V E. unfold clip_faces, clip_faces_double in *. eapply loop_raise; eauto. unfold related. cbn. repeat (split; [reflexivity|]). constructor.
  Qed.
End Loop.

Section Whole.
  Variables (p : plane) (L tol g : R).
  Hypothesis sized : smallest <= L.
  Hypothesis normal1 : bounded 1 (p_normal p).
  Hypothesis scalar1 : Rabs (p_scalar p) <= L.
  Hypothesis scalar_double : double (p_scalar p).
  Hypothesis tol_large : 40 * (u * L) <= tol.
  Hypothesis gap : tol <= g.
  Notation delta := (190 * (u * (L * L) / g)).
  Hypothesis small : delta <= 1 / 400000000.
  Variables (argsort argsort' : list R -> list nat) (fdots : nat -> vec -> vec -> R) (fdot : vec -> vec -> R).
  Hypothesis sorts : sorting argsort.
  Hypothesis sorts' : sorting argsort'.
  Hypothesis dots_ok : forall j, computes_dot (fdots j).
  Hypothesis dot_ok : computes_dot fdot.
  Variable m : mesh.
  Hypothesis m_valid : valid m.
  Hypothesis m_bounded : Forall (bounded L) (verts m).
  Hypothesis m_firm : Forall (firm p tol (23 * (u * L)) g) (verts m).
  Hypothesis m_spread : well_spread (1 / 50000) (cut_point p tol m).

  Lemma double_raise : forall a vs, double a -> / 1000000000000000 <= a -> vs = [] -> merge_double argsort' a coords vs = Raise IndexError.
  Proof.
    intros a vs D A ->. pose proof smallest_small. destruct (merge_widened argsort' vec coords [] a D) as (t & T & ->); [lra|]. apply merge_empty.
  Qed.
  Lemma double_length : forall a vs uq ids, double a -> / 1000000000000000 <= a -> merge_double argsort' a coords vs = Ok (uq, ids) -> length ids = length vs.
  Proof.
    intros a vs uq ids D A E. pose proof smallest_small. pose proof smallest_pos. destruct (merge_widened argsort' vec coords vs a D) as (t & T & EQ); [lra|]. rewrite EQ in E.
    apply (merge_lengths argsort' t vs uq ids sorts'); auto. lra.
  Qed.
  Lemma crown_atol_size : / 1000000000000000 <= crown_atol_double.
  Proof.
    destruct crown_widened as (a & -> & N). apply Rabs_le_inv in N. pose proof ulp1_small. lra.
  Qed.
  Lemma default_atol_size : / 1000000000000000 <= default_atol_double.
  Proof. pose proof default_double_near as N. apply Rabs_le_inv in N. pose proof ulp1_small. lra. Qed.

  Lemma crown_double_raise : forall vs vs' fs r e, alike_points delta r vs vs' -> well_spread (1 / 50000) (fun x => In x vs) ->
    merge_duplicates_index argsort crown_atol (mkMesh vs fs) = Raise e ->
    merge_index_double argsort' crown_atol_double (mkMesh vs' (map (map_face r) fs)) = Raise e.
  Proof.
    intros vs vs' fs r e AP W E. unfold merge_duplicates_index, merge_index_double in *. cbn [verts faces] in *.
    assert (A0 : 0 <= crown_atol) by (unfold crown_atol; lra).
    destruct (merge_duplicate_rows argsort crown_atol coords vs) as [[uq ids]|e'] eqn:E1; cbn [bind] in E.
    - destruct crown_widened as (a & A1 & A2).
      destruct (merge_double_alike L tol g sized tol_large gap small argsort argsort' sorts sorts' a crown_atol r vs vs' uq ids) as (uq' & ids' & ren & M & AP' & R); auto.
      { unfold crown_atol. lra. } { rewrite <- A1. apply fl_double. }
      rewrite A1, M. cbn [bind]. destruct (mapM (renumber ids) fs) as [gs|e'] eqn:E2; cbn [bind] in E; [discriminate|].
      rewrite (renumber_all_raise ids ids' r ren R) with (e := e'); auto.
      intros i. apply (ids_none delta r vs vs'); auto; [apply (merge_lengths argsort crown_atol vs uq ids); auto|].
        apply (double_length a vs' uq' ids'); auto; rewrite <- A1; [apply fl_double|apply crown_atol_size].
    - destruct (merge_raise _ _ _ _ sorts A0 E1) as [-> ->]. rewrite double_raise; [cbn [bind]; congruence|apply fl_double|apply crown_atol_size|].
      pose proof (ap_count _ _ _ _ AP) as C. destruct vs'; [auto|discriminate].
  Qed.
  Lemma add_double_raise : forall m1 m2 m2' r e, valid m1 -> alike delta r m2 m2' -> well_spread (1 / 50000) (fun x => In x (verts m1) \/ In x (verts m2)) ->
    add argsort m1 m2 = Raise e -> add_double argsort' m1 m2' = Raise e.
  Proof.
    intros m1 m2 m2' r e VM AL W E. destruct (concat_alike L tol g sized tol_large gap m1 m2 m2' r VM AL) as (pi & AP & F).
    unfold add, add_double, merge_duplicates, merge_duplicates_double, merge_duplicates_index in *.
    assert (A0 : 0 <= default_atol) by (unfold default_atol; lra).
    destruct (merge_duplicate_rows argsort default_atol coords (verts (add_concat m1 m2))) as [[uq ids]|e'] eqn:E1; cbn [bind] in E.
    - destruct (merge_double_alike L tol g sized tol_large gap small argsort argsort' sorts sorts' default_atol_double default_atol pi (verts (add_concat m1 m2)) (verts (add_concat m1 m2')) uq ids)
        as (uq' & ids' & ren & M & AP' & R); auto.
      { unfold default_atol. exact default_double_near. } { unfold default_atol. lra. } { apply fl_double. }
      { eapply well_spread_incl; [|exact W]. intros x X. cbn [add_concat verts] in X. apply in_app_or in X. auto. }
      rewrite M. cbn [bind]. destruct (mapM (renumber ids) (faces (add_concat m1 m2))) as [gs|e'] eqn:E2; cbn [bind] in E; [discriminate|].
      rewrite F, (renumber_all_raise ids ids' pi ren R) with (e := e'); auto.
      intros i. apply (ids_none delta pi (verts (add_concat m1 m2)) (verts (add_concat m1 m2'))); auto; [apply (merge_lengths argsort default_atol _ uq ids); auto|].
      apply (double_length default_atol_double _ uq' ids'); auto; [apply fl_double|apply default_atol_size].
    - destruct (merge_raise _ _ _ _ sorts A0 E1) as [EV ->]. rewrite double_raise; [cbn [bind]; congruence|apply fl_double|apply default_atol_size|].
      pose proof (ap_count _ _ _ _ AP) as C. rewrite EV in C. destruct (verts (add_concat m1 m2')); [auto|discriminate].
  Qed.

  Lemma clipper_raise : forall ac e, mesh_clipper argsort p tol ac m = Raise e -> mesh_clipper_double argsort' fdots fdot p tol ac m = Raise e.
  Proof.
    intros ac e E. pose proof (distances_same p L tol g sized normal1 scalar1 fdots m dots_ok m_bounded m_firm) as SD.
    pose proof (T0 L tol sized tol_large) as TP. unfold mesh_clipper, mesh_clipper_double in *. rewrite (refused_same tol TP _ _ SD).
    destruct (refused tol (distances p m)); [auto|].
    destruct (partition_ok p tol m m_valid) as (P & EP & IA & IC & IB & PU & PC & PL). rewrite EP in E. cbn [bind] in E.
    destruct (partition_related p L tol g sized normal1 scalar1 tol_large fdots dots_ok m m_bounded m_firm P EP) as (P' & EP' & JA & JC & JB & SU & SC & SL). rewrite EP'. cbn [bind].
    destruct SC as (SC1 & SC2 & SC3). destruct SL as (SL1 & SL2 & SL3). rewrite SL1.
    unfold clip_crown, clip_crown_double in *. rewrite SC1.
    rewrite (po_dist _ _ _ _ PC) in *. set (vs := verts (pt_mesh (crown P))) in *.
    assert (INV : forall x, In x vs -> In x (verts m)) by (apply (part_points p m _ _ PC)).
    assert (VB : Forall (bounded L) vs) by (apply Forall_forall; intros x X; rewrite Forall_forall in m_bounded; auto).
    assert (VF : Forall (firm p tol (23 * (u * L)) g) vs) by (apply Forall_forall; intros x X; rewrite Forall_forall in m_firm; auto).
    pose proof (po_valid _ _ _ _ PC) as VC.
    destruct (clip_faces p tol vs (map (plane_dist p) vs) (faces (pt_mesh (crown P)))) as [st|e'] eqn:EST; cbn [bind] in E.
    2: { rewrite (clip_faces_raise p L tol g sized normal1 scalar1 scalar_double tol_large gap fdot vs (pt_dist (crown P')) dot_ok VB VF SC3 _ e'); auto. }
    destruct (clip_faces_related p L tol g sized normal1 scalar1 scalar_double tol_large gap fdot vs (pt_dist (crown P')) dot_ok VB VF SC3 (cut_point p tol m)
      (faces (pt_mesh (crown P))) st) as (st' & EST' & (R1 & R2 & R3 & R4 & R5) & HQ); auto.
    { intros f x I (a & b & X1 & X2 & X3). destruct (part_faces p m m_valid _ _ PC ltac:(rewrite IC; apply where_bound) f I) as (f' & F' & O). right. exists f', a, b. fold vs in O. rewrite <- O. auto. }
    rewrite EST'. cbn [bind]. rewrite R1. destruct (faces_array (cs_faces st)) as [fs|e'] eqn:EFS; cbn [bind] in *; [|auto].
    assert (AP : alike_points delta (fun i => i) (vs ++ cs_ints st) (vs ++ cs_ints st')).
    { assert (LR : length (cs_ints st) = length (cs_ints st')) by (clear - R5; induction R5; cbn; congruence). split.
      - rewrite !app_length. lia. - intros i j. auto.
      - intros i v H. destruct (Nat.lt_ge_cases i (length vs)) as [LI|LI].
        + rewrite nth_error_app1 in * by auto. exists v. split; auto. apply near_0, (delta0 L tol g sized tol_large gap).
        + rewrite nth_error_app2 in * by auto. pose proof (Forall2_nth2 _ _ _ _ _ R5 (i - length vs)) as K. rewrite H in K.
          destruct (nth_error (cs_ints st') (i - length vs)) as [v'|]; [|contradiction]. exists v'. auto. }
    assert (WS : well_spread (1 / 50000) (fun x => In x (vs ++ cs_ints st))).
    { eapply well_spread_incl; [|exact m_spread]. intros x X. apply in_app_or in X as [X|X]; [left; auto|]. rewrite Forall_forall in HQ. auto. }
    destruct (merge_duplicates_index argsort crown_atol (mkMesh (vs ++ cs_ints st) fs)) as [[mm ids]|e'] eqn:EM; cbn [bind] in E.
    2: { pose proof (crown_double_raise _ _ fs (fun i => i) e' AP WS EM) as K. rewrite map_face_id in K. rewrite K. auto. }
    destruct (crown_double_alike L tol g sized tol_large gap small argsort argsort' sorts sorts' _ _ fs (fun i => i) mm ids AP WS EM) as (mm' & ids' & ren & EM' & AL & RN & INM).
    rewrite map_face_id in EM'. rewrite EM'. cbn [bind]. pose proof AL as [AC AI AF AV].
    assert (LOST : forall i, nth_error ids i = None -> nth_error ids' i = None).
    { intros i. apply (ids_none delta (fun i => i) (vs ++ cs_ints st) (vs ++ cs_ints st') ids ids' i AP).
      - unfold merge_duplicates_index in EM. cbn [verts faces] in EM. apply bind_ok in EM as ((uq & i1) & E1 & EM). apply bind_ok in EM as (gs & _ & EM). injection EM as <- <-.
        apply (merge_lengths argsort crown_atol _ uq i1); auto. unfold crown_atol. lra.
      - unfold merge_index_double in EM'. cbn [verts faces] in EM'. apply bind_ok in EM' as ((uq & i1) & E1 & EM'). apply bind_ok in EM' as (gs & _ & EM'). injection EM' as <- <-.
        apply (double_length crown_atol_double _ uq i1); auto; [apply fl_double|apply crown_atol_size]. }
    rewrite R2, R3. destruct (renumber_dict ids (cs_direct st)) as [dd|e'] eqn:ED; cbn [bind] in E.
    2: { rewrite (renumber_dict_raise ids ids' ren _ e' RN LOST ED). auto. }
    rewrite (renumber_dict_rn ren AI ids ids' _ _ RN ED). cbn [bind]. destruct (renumber_dict ids (cs_inv st)) as [dv|e'] eqn:EV; cbn [bind] in E.
    2: { rewrite (renumber_dict_raise ids ids' ren _ e' RN LOST EV). auto. }
    rewrite (renumber_dict_rn ren AI ids ids' _ _ RN EV). cbn [bind].
    rewrite map_length, (curves_rn ren AI). destruct (curves (length dd) dv dd) as [closed opn]. cbn [fst snd] in *. rewrite map_length.
    destruct (ac && negb (length opn =? 0)%nat); cbn [bind] in *; [auto|].
    destruct (add argsort (pt_mesh (lower P)) mm) as [rr|e'] eqn:EA; cbn [bind] in E; [discriminate|].
    rewrite (add_double_raise (pt_mesh (lower P)) mm mm' ren e'); auto.
    { apply (po_valid _ _ _ _ PL). }
    { eapply well_spread_incl; [|exact m_spread]. intros x [X|X]; [left; apply (part_points p m _ _ PL x X)|].
      apply INM in X. apply in_app_or in X as [X|X]; [left; auto|]. rewrite Forall_forall in HQ. auto. }
  Qed.
End Whole.
