(** Proofs about clipping in double precision: the crown and the whole clipper. *)
From Coq Require Import Reals List Arith Bool Lia Lra FinFun.
From Flocq Require Import Core.
From Verif Require Import M_base P_base M_merge S_merge P_merge M_plane M_mesh S_mesh P_mesh S_geometry P_geometry S_plane P_plane
  M_connectivity M_clipper S_clipper P_clipper P_crown P_parts P_curves P_sharp
  M_double S_double P_double P_double2 P_double3 M_dgeom P_dgeom5 M_dclip S_dclip P_dclip P_dclip2 P_dclip3.
Import ListNotations.
Open Scope R_scope.

Lemma crown_widened : exists a : R, crown_atol_double = a /\ Rabs (a - 1 / 100000) <= ulp1 * (1 / 100000).
Proof.
  exists crown_atol_double. split; auto. unfold crown_atol_double, crown_atol. replace (1 / 100000) with (Rabs (1 / 100000)) at 3 by (apply Rabs_pos_eq; lra).
  apply fl_error_large. rewrite Rabs_pos_eq by lra. pose proof smallest_small. lra.
Qed.
Lemma shift_map : forall n r f, map_face (fun i => if (i <? n)%nat then i else (n + r (i - n))%nat) (shift_face n f) = shift_face n (map_face r f).
Proof.
  intros n r [a b c d]. unfold map_face, shift_face. cbn [f0 f1 f2 f3].
  assert (K : forall a, (if (n + a <? n)%nat then (n + a)%nat else (n + r (n + a - n))%nat) = (n + r a)%nat).
  { intros i. destruct (Nat.ltb_spec (n + i) n); [lia|]. replace (n + i - n)%nat with i by lia. auto. }
  f_equal; first [apply K | rewrite (Nat.add_comm _ n), (Nat.add_comm (r _) n); apply K].
Qed.
Lemma near_0 : forall d v, 0 <= d -> near_point d v v.
Proof. intros d v H. unfold near_point. rewrite !Rminus_diag_eq, Rabs_R0 by reflexivity. auto. Qed.
Lemma well_spread_incl : forall t (Q Q' : vec -> Prop), (forall x, Q' x -> Q x) -> well_spread t Q -> well_spread t Q'.
Proof. intros t Q Q' I W x y X Y. apply W; auto. Qed.
Lemma merge_rows_in : forall argsort a vs uq ids, sorting argsort -> 0 <= a -> merge_duplicate_rows argsort a coords vs = Ok (uq, ids) -> forall s, In s uq -> In s vs.
Proof.
  intros argsort a vs uq ids S A E s I. assert (NE : vs <> []) by (intros ->; cbn in E; discriminate).
  destruct (merge_merged argsort S a A vec coords vs NE) as (u1 & i1 & E1 & M). rewrite E in E1. injection E1 as <- <-.
  apply In_nth_error in I as [k K]. destruct (merged_origin _ _ _ _ _ M _ _ K) as (i & HI & _). eapply nth_error_In; eauto.
Qed.
Lemma map_face_id : forall fs, map (map_face (fun i => i)) fs = fs.
Proof. induction fs as [|[a b c d] fs IH]; cbn; auto. rewrite IH. reflexivity. Qed.

Section Whole.
  Variables (p : plane) (L tol g : R).
  Hypothesis sized : smallest <= L.
  Hypothesis normal1 : bounded 1 (p_normal p).
  Hypothesis scalar1 : Rabs (p_scalar p) <= L.
  Hypothesis scalar_double : double (p_scalar p).
  Hypothesis tol_large : 40 * (u * L) <= tol.
  Hypothesis gap : tol <= g.
  Notation delta := (190 * (u * (L * L) / g)).
  Hypothesis small : delta <= 1 / 400000000.
  Variables (argsort argsort' : list R -> list nat) (fdots : nat -> vec -> vec -> R) (fdot : vec -> vec -> R).
  Hypothesis sorts : sorting argsort.
  Hypothesis sorts' : sorting argsort'.
  Hypothesis dots_ok : forall j, computes_dot (fdots j).
  Hypothesis dot_ok : computes_dot fdot.
  Variable m : mesh.
  Hypothesis m_valid : valid m.
  Hypothesis m_bounded : Forall (bounded L) (verts m).
  Hypothesis m_firm : Forall (firm p tol (23 * (u * L)) g) (verts m).
  Hypothesis m_spread : well_spread (1 / 50000) (cut_point p tol m).

  Lemma delta0 : 0 <= delta.
  Proof.
    pose proof (uQ_pos L sized) as W. pose proof (T0 L tol sized tol_large). assert (0 < g) by lra. pose proof smallest_pos.
    assert (0 < u * (L * L)) by (replace (u * (L * L)) with (u * L * L) by ring; apply Rmult_lt_0_compat; lra).
    assert (0 < u * (L * L) / g) by (apply Rdiv_lt_0_compat; auto). lra.
  Qed.

  Lemma merge_double_alike : forall a a0 r vs vs' uq ids, Rabs (a - a0) <= ulp1 * a0 -> 1 / 100000000 <= a0 <= 1 / 100000 -> double a ->
    alike_points delta r vs vs' -> well_spread (1 / 50000) (fun x => In x vs) ->
    merge_duplicate_rows argsort a0 coords vs = Ok (uq, ids) ->
    exists uq' ids' ren, merge_double argsort' a coords vs' = Ok (uq', ids') /\ alike_points delta ren uq uq' /\
      (forall i k, nth_error ids i = Some k -> nth_error ids' (r i) = Some (ren k)).
  Proof.
    intros a a0 r vs vs' uq ids N B D AP W E. pose proof ulp1_small as U. pose proof ulp1_pos as U0. pose proof smallest_small as S. pose proof delta0 as D0.
    apply Rabs_le_inv in N.
    assert (UB : ulp1 * a0 <= / 1000000000000000 * a0) by (apply Rmult_le_compat_r; lra).
    destruct (merge_widened argsort' vec coords vs' a D) as (t & T & EQ); [lra|]. rewrite EQ.
    assert (UA : ulp1 * a <= / 1000000000000000 * a) by (apply Rmult_le_compat_r; lra).
    apply (merge_alike argsort argsort' sorts sorts' delta a0 t (1 / 50000)) with (vs := vs); auto; lra.
  Qed.
  Lemma crown_double_alike : forall vs vs' fs r mm ids, alike_points delta r vs vs' -> well_spread (1 / 50000) (fun x => In x vs) ->
    merge_duplicates_index argsort crown_atol (mkMesh vs fs) = Ok (mm, ids) ->
    exists mm' ids' ren, merge_index_double argsort' crown_atol_double (mkMesh vs' (map (map_face r) fs)) = Ok (mm', ids') /\ alike delta ren mm mm' /\
      (forall i k, nth_error ids i = Some k -> nth_error ids' (r i) = Some (ren k)) /\ (forall x, In x (verts mm) -> In x vs).
  Proof.
    intros vs vs' fs r mm ids AP W E. unfold merge_duplicates_index in E. cbn [verts faces] in E. apply bind_ok in E as ((uq & i1) & E1 & E).
    apply bind_ok in E as (gs & E2 & E). injection E as <- <-.
    destruct crown_widened as (a & A1 & A2).
    destruct (merge_double_alike a crown_atol r vs vs' uq i1) as (uq' & ids' & ren & M & AP' & R); auto.
    { unfold crown_atol. lra. } { rewrite <- A1. apply fl_double. }
    unfold merge_index_double. cbn [verts faces]. rewrite A1, M. cbn [bind]. rewrite (renumber_all_alike r ren i1 ids' fs gs R E2). cbn [bind].
    eexists _, _, ren. split; [reflexivity|]. destruct AP' as [P1 P2 P3]. split; [split; auto|]. split; auto. cbn [verts]. apply (merge_rows_in argsort crown_atol vs uq i1); auto. unfold crown_atol. lra.
  Qed.
  Lemma concat_alike : forall m1 m2 m2' r, valid m1 -> alike delta r m2 m2' -> exists pi,
    alike_points delta pi (verts (add_concat m1 m2)) (verts (add_concat m1 m2')) /\
    faces (add_concat m1 m2') = map (map_face pi) (faces (add_concat m1 m2)).
  Proof.
    intros m1 m2 m2' r VM [C I F V]. set (n := length (verts m1)) in *.
    set (pi := fun i => if (i <? n)%nat then i else (n + r (i - n))%nat). exists pi. split.
    { cbn [add_concat verts]. split.
      - rewrite !app_length. lia.
      - intros i j. unfold pi. destruct (Nat.ltb_spec i n), (Nat.ltb_spec j n); try lia. intros H1. assert (r (i - n) = r (j - n))%nat by lia. apply I in H2. lia.
      - intros i v H. unfold pi. destruct (Nat.ltb_spec i n).
        + rewrite nth_error_app1 in * by auto. exists v. split; auto. apply near_0, delta0.
        + rewrite nth_error_app2 in H by auto. fold n in H. destruct (V _ _ H) as (v' & H' & N). exists v'. split; auto.
          rewrite nth_error_app2 by (fold n; lia). fold n. replace (n + r (i - n) - n)%nat with (r (i - n)%nat) by lia. auto. }
    cbn [add_concat faces]. fold n. rewrite map_app, F. f_equal.
    - rewrite <- (map_id (faces m1)) at 1. apply map_ext_in. intros [a b c d] HF. unfold valid in VM. rewrite Forall_forall in VM. apply VM in HF.
      destruct HF as (H0 & H1 & H2 & H3). cbn [f0 f1 f2 f3] in *. unfold map_face, pi. cbn [f0 f1 f2 f3]. fold n in H0, H1, H2, H3.
      rewrite !(proj2 (Nat.ltb_lt _ _)) by assumption. reflexivity.
    - rewrite !map_map. apply map_ext. intros f. symmetry. apply shift_map.
  Qed.
  Lemma add_double_alike : forall m1 m2 m2' r mm, valid m1 -> alike delta r m2 m2' -> well_spread (1 / 50000) (fun x => In x (verts m1) \/ In x (verts m2)) ->
    add argsort m1 m2 = Ok mm -> exists mm' ren, add_double argsort' m1 m2' = Ok mm' /\ alike delta ren mm mm'.
  Proof.
    intros m1 m2 m2' r mm VM AL W E. unfold add, add_double, merge_duplicates, merge_duplicates_double, merge_duplicates_index in *.
    apply bind_ok in E as ((mm0 & i0) & E & Q). injection Q as ->. apply bind_ok in E as ((uq & ids) & E1 & E). apply bind_ok in E as (gs & E2 & E). injection E as <- <-.
    destruct (concat_alike m1 m2 m2' r VM AL) as (pi & AP & F).
    destruct (merge_double_alike default_atol_double default_atol pi (verts (add_concat m1 m2)) (verts (add_concat m1 m2')) uq ids) as (uq' & ids' & ren & M & AP' & R); auto.
    { unfold default_atol. exact default_double_near. } { unfold default_atol. lra. } { apply fl_double. }
    { eapply well_spread_incl; [|exact W]. intros x X. cbn [add_concat verts] in X. apply in_app_or in X. auto. }
    rewrite M. cbn [bind]. rewrite F, (renumber_all_alike pi ren ids ids' _ _ R E2). cbn [bind].
    eexists _, ren. split; [reflexivity|]. destruct AP' as [P1 P2 P3]. split; auto.
  Qed.

  Lemma partition_related : forall P, partition_mesh p tol m = Ok P -> exists P', partition_double fdots p tol m = Ok P' /\
    above_ids P' = above_ids P /\ crown_ids P' = crown_ids P /\ below_ids P' = below_ids P /\
    same_part tol (upper P) (upper P') /\ same_part tol (crown P) (crown P') /\ same_part tol (lower P) (lower P').
  Proof.
    intros P E. pose proof (distances_same p L tol g sized normal1 scalar1 fdots m dots_ok m_bounded m_firm) as SD.
    pose proof (T0 L tol sized tol_large) as TP. unfold partition_mesh, partition_double in *.
    rewrite (partition_ids_same tol TP _ _ SD). apply bind_ok in E as (((ia & ic) & ib) & E0 & E). rewrite E0. cbn [bind].
    apply bind_ok in E as (pu & EU & E). apply bind_ok in E as (pc & EC & E). apply bind_ok in E as (pl & EL & E). injection E as <-.
    destruct (generate_same tol _ _ SD m ia pu EU) as (pu' & EU' & SU). destruct (generate_same tol _ _ SD m ic pc EC) as (pc' & EC' & SC).
    destruct (generate_same tol _ _ SD m ib pl EL) as (pl' & EL' & SL).
    rewrite EU', EC', EL'. cbn [bind]. eexists. split; [reflexivity|]. cbn. auto 10.
  Qed.
  Lemma part_points : forall ids q, part_of p m ids q -> forall x, In x (verts (pt_mesh q)) -> In x (verts m).
  Proof.
    intros ids q PO x X. apply In_nth_error in X as [i X]. destruct (restricts_vertices _ _ _ _ (po_restricts _ _ _ _ PO)) as [LN NV].
    assert (Li : (i < length (pt_ids q))%nat) by (rewrite <- LN; apply nth_error_Some; congruence). destruct (nth_error_lt _ _ _ Li) as [j J].
    rewrite (NV _ _ J) in X. eapply nth_error_In; eauto.
  Qed.
  Lemma part_faces : forall ids q, part_of p m ids q -> Forall (fun i => (i < length (faces m))%nat) ids -> forall f, In f (faces (pt_mesh q)) ->
    exists f', In f' (faces m) /\ outline (verts (pt_mesh q)) f = outline (verts m) f'.
  Proof.
    intros ids q PO B f I. pose proof (po_restricts _ _ _ _ PO) as RS. apply In_nth_error in I as [k K].
    assert (Lk : (k < length ids)%nat) by (rewrite <- (restricts_count _ _ _ _ RS); apply nth_error_Some; congruence).
    destruct (nth_error_lt _ _ _ Lk) as [id ID]. rewrite Forall_forall in B. pose proof (B id (nth_error_In _ _ ID)) as LB.
    destruct (nth_error_lt _ _ _ LB) as [f' F']. destruct (part_face m ids _ _ k id f' RS m_valid ID F') as (f1 & F1 & O & _).
    exists f'. split; [eapply nth_error_In; eauto|]. congruence.
  Qed.

  Lemma clipper_double : forall ac k, mesh_clipper argsort p tol ac m = Ok k -> exists k' rc r, mesh_clipper_double argsort' fdots fdot p tol ac m = Ok k' /\
    above_ids (k_partition k') = above_ids (k_partition k) /\ crown_ids (k_partition k') = crown_ids (k_partition k) /\ below_ids (k_partition k') = below_ids (k_partition k) /\
    pt_mesh (upper (k_partition k')) = pt_mesh (upper (k_partition k)) /\ pt_mesh (crown (k_partition k')) = pt_mesh (crown (k_partition k)) /\
    pt_mesh (lower (k_partition k')) = pt_mesh (lower (k_partition k)) /\
    alike delta rc (clipped_crown k) (clipped_crown k') /\ polygons k' = map (map rc) (polygons k) /\ lines k' = map (map rc) (lines k) /\
    alike delta r (clipped k) (clipped k').
  Proof.
    intros ac k E. pose proof (distances_same p L tol g sized normal1 scalar1 fdots m dots_ok m_bounded m_firm) as SD.
    pose proof (T0 L tol sized tol_large) as TP. unfold mesh_clipper, mesh_clipper_double in *. rewrite (refused_same tol TP _ _ SD).
    destruct (refused tol (distances p m)); [discriminate|].
    destruct (partition_ok p tol m m_valid) as (P & EP & IA & IC & IB & PU & PC & PL). rewrite EP in E. cbn [bind] in E.
    destruct (partition_related P EP) as (P' & EP' & JA & JC & JB & SU & SC & SL). rewrite EP'. cbn [bind].
    apply bind_ok in E as (((cc & cl) & op) & EC & E). apply bind_ok in E as (rr & ER & E). injection E as <-.
    destruct SC as (SC1 & SC2 & SC3). destruct SL as (SL1 & SL2 & SL3). destruct SU as (SU1 & SU2 & SU3).
    unfold clip_crown, clip_crown_double in *. rewrite SC1. apply bind_ok in EC as (st & EST & EC). apply bind_ok in EC as (fs & EFS & EC).
    apply bind_ok in EC as ((mm & ids) & EM & EC). apply bind_ok in EC as (dd & ED & EC). apply bind_ok in EC as (dv & EV & EC).
    rewrite (po_dist _ _ _ _ PC) in *. set (vs := verts (pt_mesh (crown P))) in *.
    assert (INV : forall x, In x vs -> In x (verts m)) by (apply (part_points _ _ PC)).
    assert (VB : Forall (bounded L) vs) by (apply Forall_forall; intros x X; rewrite Forall_forall in m_bounded; auto).
    assert (VF : Forall (firm p tol (23 * (u * L)) g) vs) by (apply Forall_forall; intros x X; rewrite Forall_forall in m_firm; auto).
    destruct (clip_faces_related p L tol g sized normal1 scalar1 scalar_double tol_large gap fdot vs (pt_dist (crown P')) dot_ok VB VF SC3 (cut_point p tol m)
      (faces (pt_mesh (crown P))) st) as (st' & EST' & (R1 & R2 & R3 & R4 & R5) & HQ); auto.
    { apply (po_valid _ _ _ _ PC). }
    { intros f x I (a & b & X1 & X2 & X3). destruct (part_faces _ _ PC ltac:(rewrite IC; apply where_bound) f I) as (f' & F' & O). right. exists f', a, b. fold vs in O. rewrite <- O. auto. }
    rewrite EST'. cbn [bind]. rewrite R1, EFS. cbn [bind].
    assert (AP : alike_points delta (fun i => i) (vs ++ cs_ints st) (vs ++ cs_ints st')).
    { assert (LR : length (cs_ints st) = length (cs_ints st')) by (clear - R5; induction R5; cbn; congruence). split.
      - rewrite !app_length. lia. - intros i j. auto.
      - intros i v H. destruct (Nat.lt_ge_cases i (length vs)) as [LI|LI].
        + rewrite nth_error_app1 in * by auto. exists v. split; auto. apply near_0, delta0.
        + rewrite nth_error_app2 in * by auto. pose proof (Forall2_nth2 _ _ _ _ _ R5 (i - length vs)) as K. rewrite H in K.
          destruct (nth_error (cs_ints st') (i - length vs)) as [v'|]; [|contradiction]. exists v'. auto. }
    assert (WS : well_spread (1 / 50000) (fun x => In x (vs ++ cs_ints st))).
    { eapply well_spread_incl; [|exact m_spread]. intros x X. apply in_app_or in X as [X|X]; [left; auto|]. rewrite Forall_forall in HQ. auto. }
    destruct (crown_double_alike _ _ fs (fun i => i) mm ids AP WS EM) as (mm' & ids' & ren & EM' & AL & RN & INM).
    rewrite map_face_id in EM'. rewrite EM'. cbn [bind]. pose proof AL as [AC AI AF AV].
    rewrite R2, (renumber_dict_rn ren AI ids ids' _ _ RN ED). cbn [bind]. rewrite R3, (renumber_dict_rn ren AI ids ids' _ _ RN EV). cbn [bind].
    rewrite map_length, (curves_rn ren AI). destruct (curves (length dd) dv dd) as [closed opn]. cbn [fst snd] in *. rewrite map_length.
    destruct (ac && negb (length opn =? 0)%nat); [discriminate|]. injection EC as <- <- <-. cbn [bind]. rewrite SL1.
    destruct (add_double_alike (pt_mesh (lower P)) mm mm' ren rr) as (rr' & r2 & EA & AL2); auto.
    { apply (po_valid _ _ _ _ PL). }
    { eapply well_spread_incl; [|exact m_spread]. intros x [X|X]; [left; apply (part_points _ _ PL x X)|].
      apply INM in X. apply in_app_or in X as [X|X]; [left; auto|]. rewrite Forall_forall in HQ. auto. }
    rewrite EA. cbn [bind]. eexists _, ren, r2. split; [reflexivity|]. cbn [k_partition clipped_crown polygons lines clipped]. auto 15.
  Qed.
End Whole.
