(** Proofs about hydrostatics in double precision: tolerances, extents of clipped meshes, position. *)
From Coq Require Import Reals Lra Lia List Arith Bool Psatz ZArith.
From Flocq Require Import Core.
From Verif Require Import M_base P_base M_merge P_merge S_merge M_rotations S_rotations M_plane M_mesh S_mesh P_mesh S_geometry M_geometry P_geometry S_connectivity M_connectivity M_clipper S_clipper P_cut P_clipper P_curves
  P_sharp P_archimedes M_inertia M_hydro S_hydro P_hydro P_hydro2 P_wetted P_extent M_double S_double P_double P_double2 P_double3 P_double4 M_dgeom P_dgeom S_dgeom P_dgeom4 P_dgeom5 M_dclip S_dclip P_dclip M_dhydro P_dvol.
Import ListNotations.
Open Scope R_scope.

(** ** Two tolerances between which there is no distance *)
Section Tolerances.
  Variables (tol tol' : R).
  Definition same_sides (d : R) : Prop := above tol d = above tol' d /\ on tol d = on tol' d /\ below tol d = below tol' d.

  Lemma gets_in : forall (ds : list R) l r, mapM (get ds) l = Ok r -> incl r ds.
  Proof.
    intros ds l r E. apply P_merge.mapM_Forall2 in E. induction E as [|i d l r G E IH]; [intros x []|].
    intros x [<-|I]; auto. apply get_inv in G. eapply nth_error_In; eauto.
  Qed.
  Lemma mapM_same : forall A B (f g : A -> res B) l, (forall a, f a = g a) -> mapM f l = mapM g l.
  Proof. intros A B f g l H. induction l as [|a l IH]; cbn; auto. rewrite H, IH. auto. Qed.
  Lemma foldM_same : forall A B (f g : B -> A -> res B) l b, (forall b a, f b a = g b a) -> foldM f l b = foldM g l b.
  Proof. intros A B f g l. induction l as [|a l IH]; intros b H; cbn; auto. rewrite H. destruct (g b a); cbn; auto. Qed.
  Lemma count_sides : forall mask mask' ds f, (forall d, In d ds -> mask d = mask' d) -> count_corners mask ds f = count_corners mask' ds f.
  Proof.
    intros mask mask' ds f H. unfold count_corners. destruct (mapM (get ds) (entries f)) as [r|] eqn:E; cbn [bind]; auto.
    apply gets_in in E. do 2 f_equal. apply filter_ext_in. intros. apply H, E; auto.
  Qed.
  Lemma where_sides : forall mask mask' (ds : list R), (forall d, In d ds -> mask d = mask' d) -> where_ mask ds = where_ mask' ds.
  Proof. intros mask mask' ds H. apply where_ext2. induction ds as [|d ds IH]; constructor; auto; [apply H; cbn; auto|apply IH; intros; apply H; cbn; auto]. Qed.
  Lemma bind_same : forall A B (x : res A) (f g : A -> res B), (forall a, x = Ok a -> f a = g a) -> bind x f = bind x g.
  Proof. intros A B [a|e] f g H; cbn; auto. Qed.
  Lemma clip_face_sides : forall ds n f, Forall same_sides ds -> clip_face tol ds n f = clip_face tol' ds n f.
  Proof.
    intros ds n f S. rewrite Forall_forall in S. unfold clip_face. apply bind_same. intros r E. apply gets_in in E.
    assert (X : where_ (above tol) r = where_ (above tol') r /\ where_ (on tol) r = where_ (on tol') r /\ where_ (below tol) r = where_ (below tol') r)
      by (split; [|split]; apply where_sides; intros d I; apply S, E, I).
    destruct X as (X1 & X2 & X3). rewrite X1, X2, X3. reflexivity.
  Qed.
  Lemma clip_crown_sides : forall argsort p b c, Forall same_sides (pt_dist c) -> clip_crown argsort p tol b c = clip_crown argsort p tol' b c.
  Proof.
    intros argsort p b c S.
    assert (E : clip_faces p tol (verts (pt_mesh c)) (pt_dist c) (faces (pt_mesh c)) = clip_faces p tol' (verts (pt_mesh c)) (pt_dist c) (faces (pt_mesh c))).
    { unfold clip_faces. apply foldM_same. intros st f. unfold clip_step. rewrite clip_face_sides by exact S. reflexivity. }
    unfold clip_crown. rewrite E. reflexivity.
  Qed.
  Lemma generate_dist : forall m ds ids q, generate_mesh m ds ids = Ok q -> incl (pt_dist q) ds.
  Proof.
    intros m ds ids q E. unfold generate_mesh in E. apply bind_ok in E as ([m' iv] & _ & E). apply bind_ok in E as (d & G & E). injection E as <-.
    cbn [pt_dist]. eapply gets_in; eauto.
  Qed.
  Lemma clipper_sides : forall argsort p b m, Forall same_sides (distances p m) -> mesh_clipper argsort p tol b m = mesh_clipper argsort p tol' b m.
  Proof.
    intros argsort p b m S. pose proof S as S'. rewrite Forall_forall in S'. unfold mesh_clipper.
    assert (RF : refused tol (distances p m) = refused tol' (distances p m)).
    { unfold refused. assert (E : forall f g (l : list R), (forall d, In d l -> f d = g d) -> forallb f l = forallb g l).
      { intros f g l H. induction l as [|d l IH]; cbn; auto. rewrite (H d), IH; cbn; auto. intros; apply H; cbn; auto. }
      rewrite (E (above tol) (above tol')), (E (below tol) (below tol')); auto; intros d I; apply S', I. }
    rewrite RF. destruct (refused tol' (distances p m)); [reflexivity|].
    assert (PE : partition_mesh p tol m = partition_mesh p tol' m).
    { unfold partition_mesh, partition_ids.
      rewrite (mapM_same _ _ (count_corners (above tol) (distances p m)) (count_corners (above tol') (distances p m))) by (intros; apply count_sides; intros d I; apply S', I).
      rewrite (mapM_same _ _ (count_corners (below tol) (distances p m)) (count_corners (below tol') (distances p m))) by (intros; apply count_sides; intros d I; apply S', I). reflexivity. }
    rewrite PE. apply bind_same. intros part EP. rewrite clip_crown_sides; [reflexivity|].
    unfold partition_mesh in EP. apply bind_ok in EP as ([[ia ic] ib] & _ & EP). apply bind_ok in EP as (q1 & _ & EP). apply bind_ok in EP as (q2 & G & EP).
    apply bind_ok in EP as (q3 & _ & EP). injection EP as <-. cbn [crown]. apply generate_dist in G. rewrite Forall_forall. intros d I. apply S', G, I.
  Qed.
End Tolerances.

(** The tolerance of the code is the double nearest to 1/1000. *)
Lemma vicinity_near : Rabs (vicinity_tol_double - vicinity_tol) <= u * (1 / 1000).
Proof.
  unfold vicinity_tol_double. eapply Rle_trans; [apply fl_error_large|]; unfold vicinity_tol; rewrite Rabs_pos_eq by lra; [pose proof smallest_small; lra|lra].
Qed.
Section Firm.
  Variables (L g : R) (m : mesh).
  Hypothesis large : 1 / 1000 <= L.
  Hypothesis vs_firm : Forall (firm sea_level close (24 * (u * L)) g) (verts m).
  Let U := ulp1_pos.
  Let UL : u * (1 / 1000) <= u * L. Proof. apply Rmult_le_compat_l; [apply Rlt_le, U|auto]. Qed.
  Let VN : close - u * L <= vicinity_tol_double <= close + u * L.
  Proof. pose proof vicinity_near as H. apply Rabs_le_inv in H. unfold vicinity_tol, close in *. lra. Qed.

  Lemma firm_double : Forall (firm water vicinity_tol_double (23 * (u * L)) g) (verts m).
  Proof.
    eapply Forall_impl; [|exact vs_firm]. intros v F. change (firm sea_level vicinity_tol_double (23 * (u * L)) g v). unfold firm in *. pose proof VN. destruct F as [F|[F G]]; [left|right; split]; lra.
  Qed.
  Lemma firm_sides : Forall (same_sides vicinity_tol vicinity_tol_double) (distances water m).
  Proof.
    unfold distances. rewrite Forall_map. eapply Forall_impl; [|exact vs_firm]. intros v F.
    assert (H : plane_dist water v = height sea_level v) by (rewrite height_dist; reflexivity). rewrite H. clear H. pose proof VN as VN'. change vicinity_tol with close.
    pose proof (Rmult_lt_0_compat u L U ltac:(lra)). pose proof close_pos.
    unfold firm, same_sides, above, on, below, Rltb in *. unfold Rabs in *.
    destruct (Rcase_abs (height sea_level v)), F as [F|[F _]]; (split; [|split]; repeat destruct Rlt_dec; auto; exfalso; lra).
  Qed.
  Lemma firm_below : forall v, In v (verts m) -> (is_below sea_level vicinity_tol_double v -> is_below sea_level close v) /\ (is_above sea_level vicinity_tol_double v -> is_above sea_level close v).
  Proof.
    intros v I. rewrite Forall_forall in vs_firm. pose proof (vs_firm v I) as F. pose proof VN as VN'. pose proof (Rmult_lt_0_compat u L U ltac:(lra)).
    pose proof close_pos. unfold firm, is_below, is_above in *. unfold Rabs in F. destruct (Rcase_abs (height sea_level v)), F as [F|[F _]]; split; intros; lra.
  Qed.
  Lemma firm_cut : valid m -> forall x, cut_point water vicinity_tol_double m x -> cut_point sea_level close m x.
  Proof.
    intros V x [I|(f & a & b & F & E & S & ->)]; [left; auto|]. right. exists f, a, b. split; auto. split; auto. split; [|reflexivity].
    apply in_around in E as [EA EB]. apply (in_outline m f _ V F) in EA. apply (in_outline m f _ V F) in EB.
    destruct (firm_below a EA), (firm_below b EB). destruct S as [[S1 S2]|[S1 S2]]; [left|right]; split; auto.
  Qed.
End Firm.

(** ** Vertices of the clipped mesh *)
Lemma clipped_bounded : forall argsort L m k, sorting argsort -> floats_well m -> Forall (bounded L) (verts m) ->
  mesh_clipper argsort water vicinity_tol true m = Ok k -> Forall (bounded L) (verts (clipped k)).
Proof.
  intros argsort L m k SA FW B CL. destruct FW.
  destruct (clipper_points sea_level close close_pos argsort SA true m k fw_valid fw_settled fw_convex fw_unpinched fw_spread CL) as [_ P].
  apply Forall_forall. intros x I. destruct (P x I) as (f & [F _] & [O|(a & b & E & S & ->)]); rewrite Forall_forall in B.
  - apply B. eapply in_outline; eauto.
  - apply in_around in E as [EA EB]. apply (in_outline m f _ fw_valid F) in EA. apply (in_outline m f _ fw_valid F) in EB.
    destruct (B _ EA) as (A1 & A2 & A3), (B _ EB) as (B1 & B2 & B3).
    assert (K : forall q, component q -> Rabs (q a) <= L -> Rabs (q b) <= L -> Rabs (q (meet sea_level a b)) <= L).
    { intros q C QA QB. pose proof (meet_between sea_level close close_pos q a b C S) as M. apply Rabs_le_inv in QA. apply Rabs_le_inv in QB.
      apply Rabs_le. unfold Rmin, Rmax in M. destruct (Rle_dec (q a) (q b)); lra. }
    unfold bounded. split; [|split]; apply K; unfold component; auto.
Qed.

(** ** Position *)
Lemma place_near : forall fdots rot z L m, (forall i j, computes_dot (fdots i j)) -> smallest <= L -> Rabs z <= L ->
  bounded 1 (row0 rot) -> bounded 1 (row1 rot) -> bounded 1 (row2 rot) -> Forall (bounded L) (verts m) ->
  faces (place_double fdots rot z m) = faces m /\
  Forall2 (near_point (23 * (u * L))) (verts (placed_mesh rot z m)) (verts (place_double fdots rot z m)).
Proof.
  intros fdots rot z L m C S Z R0 R1 R2 B. split; [reflexivity|]. unfold place_double, translate_z_double, rotate_double, placed_mesh. cbn [verts].
  rewrite map_map. rewrite <- (numbered_snd _ (verts m)) at 1. rewrite map_map.
  assert (K : forall jv, In jv (numbered (verts m)) -> near_point (23 * (u * L)) (placed rot z (snd jv))
    (V3 (fdots 0%nat (fst jv) (snd jv) (row0 rot)) (fdots 1%nat (fst jv) (snd jv) (row1 rot)) (fadd (fdots 2%nat (fst jv) (snd jv) (row2 rot)) z))).
  { intros [j v] I. apply numbered_in in I. rewrite Forall_forall in B. specialize (B v I). cbn [fst snd].
    pose proof (uQ_pos L S) as W.
    destruct (dot_app (fdots 0%nat j) L (row0 rot) (C 0%nat j) S R0 v B) as [D0 _].
    destruct (dot_app (fdots 1%nat j) L (row1 rot) (C 1%nat j) S R1 v B) as [D1 _].
    assert (Z' : Rabs (- z) <= L) by (rewrite Rabs_Ropp; auto).
    destruct (dist_app (fdots 2%nat j) L (row2 rot) (- z) (C 2%nat j) S R2 Z' v B) as [D2 _].
    unfold near_point, placed, mvec. cbn [vx vy vz]. rewrite !(Rabs_minus_sym _ (fdots _ _ _ _)).
    split; [|split].
    - eapply Rle_trans; [|apply Rle_trans with (1 := D0); lra]. apply Req_le. f_equal. f_equal. unfold dot, row0. cbn [vx vy vz]. ring.
    - eapply Rle_trans; [|apply Rle_trans with (1 := D1); lra]. apply Req_le. f_equal. f_equal. unfold dot, row1. cbn [vx vy vz]. ring.
    - rewrite Rabs_minus_sym. eapply Rle_trans; [|exact D2]. apply Req_le. f_equal. unfold fadd. f_equal; [f_equal; ring|].
      unfold dot, row2. cbn [vx vy vz]. ring. }
  induction (numbered (verts m)) as [|jv l IH]; cbn [map]; constructor.
  - apply K. cbn. auto.
  - apply IH. intros. apply K. cbn. auto.
Qed.
