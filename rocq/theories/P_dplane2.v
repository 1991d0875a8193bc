(** Proofs about the waterplane in double precision: polygons. *)
From Coq Require Import Reals Lra Lia List Arith Bool ZArith Psatz.
From Flocq Require Import Core.
From Verif Require Import M_base P_base M_merge P_merge S_merge M_rotations S_rotations M_plane M_mesh S_mesh P_mesh S_integral P_integral S_geometry M_geometry P_geometry P_quantities S_connectivity M_connectivity M_clipper S_clipper P_cut P_clipper P_curves
  P_waterline P_sharp P_archimedes M_inertia S_hydro P_hydro P_hydro2 P_wetted P_extent P_immersed S_report P_report M_double S_double P_double P_double2 P_double3 P_double4 M_dgeom P_dgeom S_dgeom P_dgeom4 P_dgeom5
  M_dclip S_dclip P_dclip P_dclip4 M_dhydro P_dvol P_dhydro P_dhydro2 M_hydro M_dplane P_dplane.
Import ListNotations.
Open Scope R_scope.

(** ** Sides drawn *)
Definition drawn (h : nat -> R * R) (polys : list (list nat)) : list ((R * R) * (R * R)) :=
  flat_map (fun b => map (fun e => (h (fst e), h (snd e))) (pairs b)) polys.
Definition gathered (s : sums) (l : list ((R * R) * (R * R))) : sums :=
  let add t r := fold_left fadd (map (fun e => t (fst e) (snd e)) l) r in
  mkSums (add term0 (g0 s)) (add term1 (g1 s)) (add term2 (g2 s)) (add term3 (g3 s)) (add term4 (g4 s)) (add term5 (g5 s)).
Lemma gathered_app : forall s l l', gathered (gathered s l) l' = gathered s (l ++ l').
Proof. intros. unfold gathered. cbn [g0 g1 g2 g3 g4 g5]. rewrite !map_app, !fold_left_app. reflexivity. Qed.
Lemma walk_gathered : forall h l s i, walk_double s (h i) (map h l) = gathered s (map (fun e => (h (fst e), h (snd e))) (pairs (i :: l))).
Proof.
  intros h. induction l as [|j l IH]; intros s i; [destruct s; reflexivity|]. cbn [map walk_double]. rewrite IH.
  change (pairs (i :: j :: l)) with ((i, j) :: pairs (j :: l)). reflexivity.
Qed.
Definition extent_at (h : nat -> R * R) (b : list nat) (e : extent) : Prop := has_extent (fun i => fst (h i)) (fun i => snd (h i)) b e.
Lemma polygons_double_ok : forall vs at_cog b polys s, Forall (fun p => p <> [] /\ Forall (fun i => (i < length vs)%nat) p) polys ->
  let h i := polyverts_double at_cog b (point vs i) in
  exists es, add_polygons_double vs at_cog b s polys = Ok (gathered s (drawn h polys), es) /\ Forall2 (extent_at h) polys es.
Proof.
  intros vs at_cog b polys s F h. revert s. induction F as [|p polys [N V] F IH]; intros s.
  - exists []. cbn. split; auto. destruct s; reflexivity.
  - destruct p as [|i p]; [congruence|]. cbn [add_polygons_double]. unfold add_polygon_double. rewrite mapM_get_ok by auto. unfold bind at 2. cbv zeta.
    assert (XY : map (polyverts_double at_cog b) (map (point vs) (i :: p)) = h i :: map h p) by (rewrite map_map; reflexivity). rewrite XY.
    assert (EX : map fst (h i :: map h p) = map (fun j => fst (h j)) (i :: p)) by (cbn [map]; rewrite map_map; reflexivity).
    assert (EY : map snd (h i :: map h p) = map (fun j => snd (h j)) (i :: p)) by (cbn [map]; rewrite map_map; reflexivity).
    rewrite EX, EY.
    destruct (arr_min_spec (map (fun j => fst (h j)) (i :: p))) as (x0 & -> & X0); [discriminate|].
    destruct (arr_max_spec (map (fun j => fst (h j)) (i :: p))) as (x1 & -> & X1); [discriminate|].
    destruct (arr_min_spec (map (fun j => snd (h j)) (i :: p))) as (y0 & -> & Y0); [discriminate|].
    destruct (arr_max_spec (map (fun j => snd (h j)) (i :: p))) as (y1 & -> & Y1); [discriminate|].
    cbn [bind]. rewrite walk_gathered. destruct (IH (gathered s (map (fun e => (h (fst e), h (snd e))) (pairs (i :: p))))) as (es & E & HS). rewrite E. cbn [bind].
    rewrite gathered_app. exists (mkExtent x0 x1 y0 y1 :: es). split; [reflexivity|]. constructor; auto. repeat split; auto; apply X0 || apply X1 || apply Y0 || apply Y1.
Qed.
Lemma pairs_renamed : forall (r : nat -> nat) b, pairs (map r b) = map (fun e => (r (fst e), r (snd e))) (pairs b).
Proof. intros r. induction b as [|i [|j b] IH]; auto. cbn [map] in *. change (pairs (r i :: r j :: map r b)) with ((r i, r j) :: pairs (r j :: map r b)). rewrite IH. reflexivity. Qed.
Lemma drawn_renamed : forall h r polys, drawn h (map (map r) polys) = drawn (fun i => h (r i)) polys.
Proof.
  intros h r polys. unfold drawn. induction polys as [|b polys IH]; auto. cbn [map flat_map]. rewrite IH. f_equal. rewrite pairs_renamed, map_map. reflexivity.
Qed.
Lemma pairs_member : forall b e, In e (pairs b) -> In (fst e) b /\ In (snd e) b.
Proof.
  induction b as [|i [|j b] IH]; intros e H; [destruct H..|]. change (pairs (i :: j :: b)) with ((i, j) :: pairs (j :: b)) in H.
  destruct H as [<-|H]; [cbn; auto|]. destruct (IH e H). split; right; auto.
Qed.
Lemma drawn_related : forall (Q : (R * R) * (R * R) -> (R * R) * (R * R) -> Prop) h h' polys,
  (forall i j, In i (concat polys) -> In j (concat polys) -> Q (h i, h j) (h' i, h' j)) -> Forall2 Q (drawn h polys) (drawn h' polys).
Proof.
  intros Q h h' polys H. unfold drawn. induction polys as [|b polys IH]; [constructor|]. cbn [flat_map]. apply Forall2_app.
  - assert (forall e, In e (pairs b) -> Q (h (fst e), h (snd e)) (h' (fst e), h' (snd e))).
    { intros e I. apply pairs_member in I as [I J]. apply H; cbn [concat]; apply in_or_app; auto. }
    clear H IH. induction (pairs b) as [|e l IH]; cbn [map]; constructor; [apply H0; left; auto|apply IH; intros; apply H0; right; auto].
  - apply IH. intros i j I J. apply H; cbn [concat]; apply in_or_app; auto.
Qed.
Lemma drawn_total : forall (f : R * R -> R * R -> R) (t : vec -> R * R) vs polys,
  total (map (fun e => f (fst e) (snd e)) (drawn (fun i => t (point vs i)) polys)) = run (fun a b => f (t a) (t b)) (flat_map (polygon_sides vs) polys).
Proof.
  intros f t vs polys. unfold drawn. induction polys as [|b polys IH]; [reflexivity|]. cbn [flat_map]. rewrite map_app, total_app, IH, run_app. f_equal.
  unfold run, polygon_sides. rewrite !map_map. cbn [fst snd]. induction (pairs b) as [|e l IHl]; [reflexivity|]. cbn [map total]. rewrite IHl. reflexivity.
Qed.
Lemma drawn_length : forall h vs polys, length (drawn h polys) = length (flat_map (polygon_sides vs) polys).
Proof.
  intros h vs polys. unfold drawn. induction polys as [|b polys IH]; [reflexivity|]. cbn [flat_map]. unfold polygon_sides in *. rewrite !app_length, !map_length, IH. reflexivity.
Qed.
Lemma run_length : forall l l' : list (vec * vec), (forall psi, run psi l = run psi l') -> length l = length l'.
Proof.
  intros l l' H. assert (C : forall l : list (vec * vec), run (fun _ _ => 1) l = INR (length l)).
  { clear. unfold run, Rsum. induction l as [|e l IH]; [reflexivity|]. cbn [map fold_right length]. rewrite S_INR, IH. ring. }
  apply INR_eq. rewrite <- !C. apply H.
Qed.

(** ** Smallest and largest of lists that are near *)
Lemma min_near : forall (f f' : nat -> R) e l x x', (forall i, In i l -> Rabs (f' i - f i) <= e) -> is_min x (map f l) -> is_min x' (map f' l) -> Rabs (x' - x) <= e.
Proof.
  intros f f' e l x x' H [I M] [I' M']. apply in_map_iff in I as (i & <- & I). apply in_map_iff in I' as (i' & <- & I').
  pose proof (M (f i') (in_map _ _ _ I')). pose proof (M' (f' i) (in_map _ _ _ I)). pose proof (Rabs_le_inv _ _ (H i I)). pose proof (Rabs_le_inv _ _ (H i' I')).
  apply Rabs_le. lra.
Qed.
Lemma max_near : forall (f f' : nat -> R) e l x x', (forall i, In i l -> Rabs (f' i - f i) <= e) -> is_max x (map f l) -> is_max x' (map f' l) -> Rabs (x' - x) <= e.
Proof.
  intros f f' e l x x' H [I M] [I' M']. apply in_map_iff in I as (i & <- & I). apply in_map_iff in I' as (i' & <- & I').
  pose proof (M (f i') (in_map _ _ _ I')). pose proof (M' (f' i) (in_map _ _ _ I)). pose proof (Rabs_le_inv _ _ (H i I)). pose proof (Rabs_le_inv _ _ (H i' I')).
  apply Rabs_le. lra.
Qed.

(** ** The clipped crown *)
Lemma crown_bounded : forall argsort L m k, sorting argsort -> floats_well m -> Forall (bounded L) (verts m) ->
  mesh_clipper argsort water vicinity_tol true m = Ok k -> Forall (bounded L) (verts (clipped_crown k)).
Proof.
  intros argsort L m k SA FW B CL. destruct FW.
  destruct (clipper_lined_ok sea_level close close_pos argsort SA true m k fw_valid fw_settled fw_convex fw_unpinched CL) as (direct & inv & name & low & cr & LI & _).
  pose proof (li_cc _ _ _ _ _ _ _ _ _ _ _ LI) as C. eapply Forall_impl; [|exact C]. rewrite Forall_forall in B.
  intros x [I|(f & a & b & F & E & S & ->)]; auto.
  apply in_around in E as [EA EB]. apply (in_outline m f _ fw_valid F) in EA. apply (in_outline m f _ fw_valid F) in EB.
  destruct (B _ EA) as (A1 & A2 & A3), (B _ EB) as (B1 & B2 & B3).
  assert (K : forall q, component q -> Rabs (q a) <= L -> Rabs (q b) <= L -> Rabs (q (meet sea_level a b)) <= L).
  { intros q Q QA QB. pose proof (meet_between sea_level close close_pos q a b Q S) as M. apply Rabs_le_inv in QA. apply Rabs_le_inv in QB.
    apply Rabs_le. unfold Rmin, Rmax in M. destruct (Rle_dec (q a) (q b)); lra. }
  unfold bounded. split; [|split]; apply K; unfold component; auto.
Qed.

Section Plane.
  Variables (argsort argsort' : list R -> list nat) (fdots : nat -> vec -> vec -> R) (fdot : vec -> vec -> R) (L g : R) (M : mesh).
  Hypothesis SA : sorting argsort.
  Hypothesis SA' : sorting argsort'.
  Hypothesis DS : forall j, computes_dot (fdots j).
  Hypothesis DT : computes_dot fdot.
  Hypothesis L1 : 1 / 1000 <= L.
  Hypothesis L2 : L <= 10000000000.
  Hypothesis G1 : 1 / 900 <= g.
  Let d := 190 * (u * (L * L) / g).
  Hypothesis D1 : d <= 1 / 400000000.
  Hypothesis FW : floats_well M.
  Hypothesis BV : Forall (bounded L) (verts M).
  Hypothesis FV : Forall (firm sea_level close (24 * (u * L)) g) (verts M).
  Hypothesis WS : well_spread (1 / 50000) (cut_point sea_level close M).
  Let W := waterline sea_level close M.
  Hypothesis WN : W <> [].
  Let n := INR (length W).
  Hypothesis FEW : n <= 100000000000000.
  Let U := ulp1_pos.
  Lemma moved_pos : 0 <= d.
  Proof. unfold d, Rdiv. apply Rmult_le_pos; [lra|]. apply Rmult_le_pos; [apply Rmult_le_pos; [apply Rlt_le, U|apply Rmult_le_pos; lra]|apply Rlt_le, Rinv_0_lt_compat; lra]. Qed.
  Let uL : u * L <= / 100000.
  Proof. assert (u * L <= / 1000000000000000 * 10000000000) by (apply Rmult_le_compat; [apply Rlt_le, U|lra|apply ulp1_small|auto]). lra. Qed.
  Let uL0 : 0 < u * L. Proof. apply Rmult_lt_0_compat; [apply U|lra]. Qed.
  Let VN : Rabs (vicinity_tol_double - vicinity_tol) <= / 1000000.
  Proof.
    eapply Rle_trans; [apply vicinity_near|]. assert (u * (1 / 1000) <= / 1000000000000000 * (1 / 1000)) by (apply Rmult_le_compat_r; [lra|apply ulp1_small]). lra.
  Qed.
  Let VM : valid M. Proof. apply (fw_valid _ FW). Qed.

  Lemma double_crown : forall k, mesh_clipper argsort water vicinity_tol true M = Ok k ->
    exists k' rc, mesh_clipper_double argsort' fdots fdot water vicinity_tol_double true M = Ok k' /\ alike d rc (clipped_crown k) (clipped_crown k') /\
    polygons k' = map (map rc) (polygons k).
  Proof.
    intros k CL.
    assert (CL' : mesh_clipper argsort water vicinity_tol_double true M = Ok k) by (rewrite <- (clipper_sides vicinity_tol); auto; eapply firm_sides; eauto).
    apply Rabs_le_inv in VN. unfold vicinity_tol in VN.
    destruct (clipper_double water L vicinity_tol_double g) with (argsort := argsort) (argsort' := argsort') (fdots := fdots) (fdot := fdot) (m := M) (ac := true) (k := k)
      as (k' & rc & r & E & _ & _ & _ & _ & _ & _ & AL & PO & _ & _); auto.
    - pose proof smallest_small. lra.
    - unfold bounded, water, ez. cbn [p_normal vx vy vz]. rewrite Rabs_R0, Rabs_R1. lra.
    - unfold water. cbn [p_scalar]. rewrite Rabs_R0. lra.
    - unfold water. cbn [p_scalar]. exists 0%Z, 0%Z. cbn. repeat split; try lia. ring.
    - lra.
    - lra.
    - eapply firm_double; eauto.
    - intros x y X Y. apply WS; eapply firm_cut; eauto.
    - exists k', rc. auto.
  Qed.

  Variables (at_cog : bool) (b : vec) (ox oy L' D : R).
  Hypothesis L1' : 1 / 1000 <= L'.
  Hypothesis D0' : 0 <= D.
  Hypothesis D1' : 1000 * D <= L'.
  Hypothesis SH : forall v v', bounded L v -> near_point d v v' -> inside L' (shifted ox oy v) /\ beside D (shifted ox oy v) (polyverts_double at_cog b v').

  Lemma plane_near : exists w, waterplane_double argsort' fdots fdot at_cog b M = Ok w /\
    Rabs (g0 (w_sums w) - run (side0 ox oy) W / 2) <= n * ((5 * n + 22) * (u * L' ^ 2) + 7 * (L' * D)) /\
    Rabs (g1 (w_sums w) - run (side1 ox oy) W / 6) <= n * ((4 * n + 29) * (u * L' ^ 3) + 8 * (L' ^ 2 * D)) /\
    Rabs (g2 (w_sums w) - run (side2 ox oy) W / -6) <= n * ((4 * n + 29) * (u * L' ^ 3) + 8 * (L' ^ 2 * D)) /\
    Rabs (g3 (w_sums w) - run (side3 ox oy) W / 24) <= n * ((2 * n + 21) * (u * L' ^ 4) + 6 * (L' ^ 3 * D)) /\
    Rabs (g4 (w_sums w) - run (side4 ox oy) W / 12) <= n * ((2 * n + 16) * (u * L' ^ 4) + 5 * (L' ^ 3 * D)) /\
    Rabs (g5 (w_sums w) - run (side5 ox oy) W / -12) <= n * ((2 * n + 16) * (u * L' ^ 4) + 5 * (L' ^ 3 * D)) /\
    (forall x, is_min x (map (fun s => vx (fst s)) W) -> Rabs (w_minx w - (x - ox)) <= D) /\
    (forall x, is_max x (map (fun s => vx (fst s)) W) -> Rabs (w_maxx w - (x - ox)) <= D) /\
    (forall y, is_min y (map (fun s => vy (fst s)) W) -> Rabs (w_miny w - (y - oy)) <= D) /\
    (forall y, is_max y (map (fun s => vy (fst s)) W) -> Rabs (w_maxy w - (y - oy)) <= D).
  Proof.
    destruct (floats_clip argsort SA M FW) as (k & CL). destruct (double_crown k CL) as (k' & rc & EK & AL & PO).
    pose proof (crown_bounded argsort L M k SA FW BV CL) as BC.
    destruct (clip_polygons argsort SA M k FW CL) as (_ & CP & IN & PS). fold W in PS.
    set (vs := verts (clipped_crown k)) in *. set (vs' := verts (clipped_crown k')) in *. set (ps := polygons k) in *.
    assert (AT : forall i, (i < length vs)%nat -> (rc i < length vs')%nat /\ bounded L (point vs i) /\ near_point d (point vs i) (point vs' (rc i))).
    { intros i I. destruct (nth_error vs i) as [v|] eqn:E; [|apply nth_error_None in E; lia]. destruct (al_verts _ _ _ _ AL i v E) as (v' & E' & N).
      assert (P : point vs i = v) by (apply nth_error_nth; auto). assert (P' : point vs' (rc i) = v') by (apply nth_error_nth; auto). rewrite P, P'.
      split; [apply nth_error_Some; unfold vs'; congruence|]. split; auto. rewrite Forall_forall in BC. apply BC. eapply nth_error_In; eauto. }
    assert (MEM : forall i, In i (concat ps) -> (i < length vs)%nat).
    { intros i I. apply in_concat in I as (p & P & I). rewrite Forall_forall in IN. pose proof (IN p P) as Q. rewrite Forall_forall in Q. auto. }
    assert (OK : Forall (fun p => p <> [] /\ Forall (fun i => (i < length vs')%nat) p) (polygons k')).
    { rewrite PO, Forall_map. rewrite Forall_forall in CP, IN |- *. intros p P. pose proof (CP p P) as [C2 _]. pose proof (IN p P) as Q. split; [destruct p; [cbn in C2; lia|discriminate]|].
      rewrite Forall_map. eapply Forall_impl; [|exact Q]. intros i I. apply AT. auto. }
    destruct (polygons_double_ok vs' at_cog b (polygons k') no_sums OK) as (es & ES & EX).
    set (h' := fun i => polyverts_double at_cog b (point vs' i)) in *. set (h := fun i => shifted ox oy (point vs i)).
    assert (NB : forall i, In i (concat ps) -> inside L' (h i) /\ beside D (h i) (h' (rc i))).
    { intros i I. destruct (AT i (MEM i I)) as (_ & B & N). apply SH; auto. }
    rewrite PO in ES, EX. rewrite drawn_renamed in ES. set (l' := drawn (fun i => h' (rc i)) ps) in *. set (l := drawn h ps).
    assert (F : Forall2 (near_side L' D) l l').
    { apply drawn_related. intros i j I J. destruct (NB i I), (NB j J). unfold near_side. auto. }
    assert (LW : length l = length W) by (unfold l; rewrite (drawn_length _ vs); apply run_length; auto).
    assert (NL : l <> []) by (intros Z; rewrite Z in LW; destruct W; [apply WN; reflexivity|discriminate]).
    assert (FL : INR (length l) <= 100000000000000) by (rewrite LW; exact FEW).
    assert (NP : ps <> []) by (intros Z; apply NL; unfold l; rewrite Z; reflexivity).
    assert (NE : es <> []).
    { intros Z. rewrite Z in EX. apply NP. inversion EX as [X|]. destruct ps; [auto|discriminate]. }
    assert (TT : forall f, total (map (fun e => f (fst e) (snd e)) l) = run (fun a b => f (shifted ox oy a) (shifted ox oy b)) W).
    { intros f. unfold l, h. rewrite (drawn_total f (shifted ox oy)). apply PS. }
    unfold waterplane_double. rewrite EK. cbn [bind]. fold vs'. rewrite PO. rewrite ES. cbn [bind].
    destruct (arr_min_spec (map e_xmin es)) as (x0 & -> & X0); [destruct es; [congruence|discriminate]|].
    destruct (arr_max_spec (map e_xmax es)) as (x1 & -> & X1); [destruct es; [congruence|discriminate]|].
    destruct (arr_min_spec (map e_ymin es)) as (y0 & -> & Y0); [destruct es; [congruence|discriminate]|].
    destruct (arr_max_spec (map e_ymax es)) as (y1 & -> & Y1); [destruct es; [congruence|discriminate]|].
    cbn [bind]. eexists. split; [reflexivity|]. unfold scale_sums_double, gathered, no_sums. cbn [g0 g1 g2 g3 g4 g5 w_sums w_minx w_maxx w_miny w_maxy].
    pose proof (added0 L' D L1' D0' D1' l l' F NL FL) as S0. pose proof (added1 L' D L1' D0' D1' l l' F NL FL) as S1. pose proof (added2 L' D L1' D0' D1' l l' F NL FL) as S2.
    pose proof (added3 L' D L1' D0' D1' l l' F NL FL) as S3. pose proof (added4 L' D L1' D0' D1' l l' F NL FL) as S4. pose proof (added5 L' D L1' D0' D1' l l' F NL FL) as S5.
    cbv zeta beta in S0, S1, S2, S3, S4, S5. rewrite (TT plain0) in S0. rewrite (TT plain1) in S1. rewrite (TT plain3) in S3. rewrite (TT plain4) in S4. rewrite (TT (fun p q => plain1 (swap p) (swap q))) in S2. rewrite (TT (fun p q => plain4 (swap p) (swap q))) in S5.
    rewrite LW in S0, S1, S2, S3, S4, S5. fold n in S0, S1, S2, S3, S4, S5.
    assert (PTS : forall (q : vec -> R) x, In x (map q (map (point vs) (concat ps))) <-> In x (map (fun s => q (fst s)) W)).
    { intros q x. assert (Q : forall y, In y (map (point vs) (concat ps)) <-> In y (map fst W)).
      { intros y. assert (E : In y (map (point vs) (concat ps)) <-> In y (map fst (flat_map (polygon_sides vs) ps))).
        { clear - CP. induction CP as [|p bs C CB IH]; [tauto|]. cbn [concat flat_map]. rewrite !map_app, !in_app_iff, IH.
          assert (In y (map (point vs) p) <-> In y (map fst (polygon_sides vs p))); [|tauto]. split; intros H.
          - apply in_map_iff in H as (i & <- & I). apply polygon_points; auto.
          - apply polygon_points_back in H as (i & I & ->). apply in_map; auto. }
        rewrite E. split; intros H; apply in_map_iff in H as (s & <- & I); apply in_map; [eapply sides_in; [|exact I]; auto|].
        eapply sides_in; [|exact I]. intros. symmetry. apply PS. }
      rewrite <- (map_map fst q). split; intros H; apply in_map_iff in H as (y & <- & I); apply in_map; apply Q; auto. }
    assert (CC : forall r : nat -> nat, concat (map (map r) ps) = map r (concat ps)).
    { intros r. clear. induction ps as [|p ps IH]; auto. cbn [map concat]. rewrite map_app, IH. reflexivity. }
    assert (MIN : forall (q : vec -> R) o z, is_min z (map (fun s => q (fst s)) W) -> is_min (z - o) (map (fun i => q (point vs i) - o) (concat ps))).
    { intros q o z [I B]. apply PTS in I. rewrite map_map in I. apply in_map_iff in I as (i & <- & I). split; [apply (in_map (fun i => q (point vs i) - o)); auto|].
      intros y J. apply in_map_iff in J as (j & <- & J). assert (q (point vs i) <= q (point vs j)); [|lra]. apply B. apply PTS. rewrite map_map. apply (in_map (fun i => q (point vs i))). auto. }
    assert (MAX : forall (q : vec -> R) o z, is_max z (map (fun s => q (fst s)) W) -> is_max (z - o) (map (fun i => q (point vs i) - o) (concat ps))).
    { intros q o z [I B]. apply PTS in I. rewrite map_map in I. apply in_map_iff in I as (i & <- & I). split; [apply (in_map (fun i => q (point vs i) - o)); auto|].
      intros y J. apply in_map_iff in J as (j & <- & J). assert (q (point vs j) <= q (point vs i)); [|lra]. apply B. apply PTS. rewrite map_map. apply (in_map (fun i => q (point vs i))). auto. }
    split; [exact S0|]. split; [exact S1|]. split; [exact S2|]. split; [exact S3|]. split; [exact S4|]. split; [exact S5|].
    assert (EX' : forall i, In i (concat ps) -> Rabs (fst (h' (rc i)) - (vx (point vs i) - ox)) <= D /\ Rabs (snd (h' (rc i)) - (vy (point vs i) - oy)) <= D).
    { intros i I. destruct (NB i I) as [_ [B1 B2]]. auto. }
    split; [|split; [|split]]; intros x X.
    - apply (min_of_mins (fun i => fst (h' i))) with (ps := map (map rc) ps) in X0; [|clear - EX; induction EX as [|p e ? ? H]; constructor; auto; apply H].
      rewrite CC, map_map in X0. eapply min_near; [|apply (MIN vx ox x X)|exact X0]. intros i I. apply EX'. auto.
    - apply (max_of_maxs (fun i => fst (h' i))) with (ps := map (map rc) ps) in X1; [|clear - EX; induction EX as [|p e ? ? H]; constructor; auto; apply H].
      rewrite CC, map_map in X1. eapply max_near; [|apply (MAX vx ox x X)|exact X1]. intros i I. apply EX'. auto.
    - apply (min_of_mins (fun i => snd (h' i))) with (ps := map (map rc) ps) in Y0; [|clear - EX; induction EX as [|p e ? ? H]; constructor; auto; apply H].
      rewrite CC, map_map in Y0. eapply min_near; [|apply (MIN vy oy x X)|exact Y0]. intros i I. apply EX'. auto.
    - apply (max_of_maxs (fun i => snd (h' i))) with (ps := map (map rc) ps) in Y1; [|clear - EX; induction EX as [|p e ? ? H]; constructor; auto; apply H].
      rewrite CC, map_map in Y1. eapply max_near; [|apply (MAX vy oy x X)|exact Y1]. intros i I. apply EX'. auto.
  Qed.
End Plane.
