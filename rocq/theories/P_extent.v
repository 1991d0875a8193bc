(** Extents of a clipped mesh. *)
From Coq Require Import Reals List Arith Bool Lia Lra Psatz Permutation.
From Verif Require Import M_base P_base M_merge P_merge M_rotations S_rotations M_plane M_mesh S_merge S_mesh P_mesh S_integral S_geometry M_geometry P_geometry P_quantities
  S_connectivity M_connectivity P_connectivity M_clipper S_clipper P_hull P_cut P_clipper P_crown P_parts P_clipped P_clip_mesh P_curves P_waterline P_sharp P_odd
  M_inertia M_hydro S_hydro P_hydro P_hydro2 S_report P_wetted P_archimedes.
Import ListNotations.
Open Scope R_scope.

Section Extent.
  Variables (p : plane) (tol : R).
  Hypothesis T0 : 0 <= tol.
  Variable argsort : list R -> list nat.
  Hypothesis SA : sorting argsort.

  (** A face that is not wholly above, and its corners *)
  Definition lowered (m : mesh) (f : face) : Prop := In f (faces m) /\ ~ Forall (is_above p tol) (outline (verts m) f).
  Lemma part_used : forall m ids q v, valid m -> part_of p m ids q -> In v (verts (pt_mesh q)) ->
    exists id f, In id ids /\ nth_error (faces m) id = Some f /\ In v (outline (verts m) f).
  Proof.
    intros m ids q v V [RS _ _] I. apply In_nth_error in I as [k K]. destruct (restricts_vertices _ _ _ _ RS) as [L H].
    assert (B : (k < length (pt_ids q))%nat) by (rewrite <- L; eapply nth_error_bound; eauto).
    destruct (nth_error_lt _ _ _ B) as [i Hi]. specialize (H k i Hi). rewrite K in H.
    destruct (proj1 (restricts_used _ _ _ _ RS i) (nth_error_In _ _ Hi)) as (id & f & J & Hf & (g & [<-|[]] & U)).
    exists id, f. split; auto. split; auto. apply outline_in. exists i. split.
    - unfold entries. simpl. intuition.
    - unfold point. symmetry. apply nth_error_nth. auto.
  Qed.
  Lemma lowered_ids : forall m id f, nth_error (faces m) id = Some f ->
    In id (where_ (lower_face p tol (verts m)) (faces m)) \/ In id (where_ (crown_face p tol (verts m)) (faces m)) <-> ~ Forall (is_above p tol) (outline (verts m) f).
  Proof.
    intros m id f Hf. split.
    - intros [I|I] A; apply in_where in I as (g & Hg & U); assert (g = f) by congruence; subst g.
      + apply lower_iff in U. pose proof (outline_length (verts m) f) as LO. destruct (outline (verts m) f) as [|q l]; [simpl in LO; lia|].
        inversion U; inversion A; subst. unfold is_above, is_below in *. lra.
      + unfold crown_face in U. apply upper_iff in A. rewrite A in U. discriminate.
    - intros N. destruct (lower_face p tol (verts m) f) eqn:L; [left|right]; apply in_where; exists f; split; auto.
      unfold crown_face. rewrite L. destruct (upper_face p tol (verts m) f) eqn:U; auto. exfalso. apply N, upper_iff; auto.
  Qed.
  Lemma meet_between : forall (q : vec -> R) a b, component q -> is_below p tol a /\ is_above p tol b \/ is_above p tol a /\ is_below p tol b ->
    Rmin (q a) (q b) <= q (meet p a b) <= Rmax (q a) (q b).
  Proof.
    intros q a b C H. unfold meet. set (t := height p a / (height p a - height p b)).
    assert (T : 0 <= t <= 1).
    { unfold is_below, is_above in H. unfold t. destruct H as [[A B]|[A B]].
      - replace (height p a / (height p a - height p b)) with (- height p a / (height p b - height p a)) by (field; lra).
        split; [apply Rle_mult_inv_pos; lra|]. apply (Rmult_le_reg_r (height p b - height p a)); [lra|]. unfold Rdiv. rewrite Rmult_assoc, Rinv_l by lra. lra.
      - split; [apply Rle_mult_inv_pos; lra|]. apply (Rmult_le_reg_r (height p a - height p b)); [lra|]. unfold Rdiv. rewrite Rmult_assoc, Rinv_l by lra. lra. }
    clearbody t.
    match goal with |- _ <= q ?w <= _ => replace (q w) with ((1 - t) * q a + t * q b) by (destruct C as [-> | [-> | ->]]; vunfold; ring) end.
    unfold Rmin, Rmax. destruct (Rle_dec (q a) (q b)); nra.
  Qed.

  Lemma clipper_points : forall closed m k, valid m -> settled p tol m -> Forall (fun f => convex_outline (outline (verts m) f)) (faces m) ->
    Forall (fun f => ~ pinched p tol (outline (verts m) f)) (faces m) -> spread clip_move (cut_point p tol m) ->
    mesh_clipper argsort p tol closed m = Ok k ->
    (forall f x, lowered m f -> In x (outline (verts m) f) -> In x (verts (clipped k))) /\
    (forall x, In x (verts (clipped k)) -> exists f, lowered m f /\ (In x (outline (verts m) f) \/ crosspoint p tol (outline (verts m) f) x)).
  Proof.
    intros closed m k V S CV NP SP E.
    destruct (clipper_ok_inv p tol argsort T0 closed m k V S E) as (NA & NB & NT & ST).
    destruct (clipper_run p tol argsort T0 SA m V S NA NB NT ST) as (P & st & ts & fs4 & cc & new_id & direct & inv & r & RUN & EQ).
    rewrite EQ in E. destruct (curves (length direct) inv direct) as [cl op] eqn:EC.
    destruct (closed && negb (length op =? 0)%nat); [discriminate|]. injection E as <-. cbn [clipped].
    destruct (clip_run_lined p tol T0 argsort SA m P st ts fs4 cc new_id direct inv r V ST CV NP RUN) as (name & low & cr & L).
    pose proof (li_r _ _ _ _ _ _ _ _ _ _ _ L) as LR. rewrite Forall_forall in LR. clear L.
    destruct RUN as [EP IA IC IB PU PC PL PR CR EA].
    assert (BB : Forall (fun i => (i < length (faces m))%nat) (below_ids P)) by (rewrite IB; apply where_bound).
    assert (BC : Forall (fun i => (i < length (faces m))%nat) (crown_ids P)) by (rewrite IC; apply where_bound).
    pose proof (part_faces p m _ _ V BB PL) as FL. pose proof (part_faces p m _ _ V BC PC) as FC.
    set (cv := verts (pt_mesh (crown P))) in *.
    pose proof (part_forall p m _ _ convex_outline V BC PC) as C1. pose proof (part_forall p m _ _ (fun ps => ~ pinched p tol ps) V BC PC) as C2.
    fold cv in C1, C2. rewrite Forall_forall in CV, NP.
    specialize (C1 (fun id f _ Hf => CV f (nth_error_In _ _ Hf))). specialize (C2 (fun id f _ Hf => NP f (nth_error_In _ _ Hf))).
    pose proof (cr_done _ _ _ _ _ _ _ _ _ _ _ _ CR) as D. fold cv in D.
    assert (NV : verts (mkMesh (cv ++ cs_ints st) fs4) <> []).
    { intros Z. simpl in Z. apply app_eq_nil in Z as [Z _]. rewrite IC in PC.
      pose proof (proj2 (crown_straddles p tol T0 m _ _ V eq_refl PC) ST) as Y. apply Exists_exists in Y as (f & I & _).
      rewrite Forall_forall in PR. destruct (PR f I) as [(H & _) _]. fold cv in H. rewrite Z in H. simpl in H. lia. }
    destruct (merge_mesh argsort crown_atol _ SA crown_atol_pos NV (cr_valid _ _ _ _ _ _ _ _ _ _ _ _ CR)) as (m' & ids & EM' & _ & VM & MM & _ & _).
    fold cv in EM', MM. rewrite (cr_merge _ _ _ _ _ _ _ _ _ _ _ _ CR) in EM'. injection EM' as <- <-. cbn [verts] in MM.
    set (cat := add_concat (pt_mesh (lower P)) cc) in *.
    assert (NC : verts cat <> []).
    { intros Z. simpl in Z. apply app_eq_nil in Z as [_ Z]. destruct (cv ++ cs_ints st) as [|v l] eqn:EV; [exfalso; apply NV; reflexivity|].
      destruct (merged_close _ _ _ _ _ MM 0%nat v eq_refl) as (j & s & _ & K & _). rewrite Z in K. destruct j; discriminate. }
    destruct (merge_mesh argsort default_atol cat SA default_atol_pos NC (valid_add _ _ (po_valid _ _ _ _ PL) VM)) as (m2 & ids2 & _ & E2 & _ & M2 & _ & _).
    unfold add in EA. fold cat in EA. rewrite E2 in EA. injection EA as ->.
    (* what is merged is kept *)
    assert (KE : forall x, cut_point p tol m x -> In x (verts cat) -> In x (verts r)).
    { intros x CX I. apply In_nth_error in I as [q I]. destruct (merged_close _ _ _ _ _ M2 q x I) as (q' & w & _ & HW & W2).
      apply nth_error_In in HW. assert (x = w); [|subst; auto]. apply SP; auto. apply within_near in W2.
      apply (near_weak default_atol); auto. unfold default_atol, clip_move. lra. }
    assert (CP : forall f x, In f (faces m) -> In x (outline (verts m) f) -> cut_point p tol m x).
    { intros f x I J. left. exact (in_outline m f x V I J). }
    split.
    - intros f x [I N] J. apply In_nth_error in I as [id Hf]. apply (lowered_ids m id f Hf) in N. apply KE; [eapply CP; eauto; eapply nth_error_In; eauto|].
      unfold cat. simpl. apply in_or_app. destruct N as [N|N].
      + left. rewrite <- IB in N. apply In_nth_error in N as [n N]. destruct (Forall2_nth_error _ _ _ _ _ FL n id N) as (f' & HF' & g & Hg & O & _).
        assert (g = f) by congruence. subst g. rewrite <- O in J. eapply in_outline; [apply (po_valid _ _ _ _ PL)|eapply nth_error_In; eauto|exact J].
      + right. rewrite <- IC in N. apply In_nth_error in N as [n N]. destruct (Forall2_nth_error _ _ _ _ _ FC n id N) as (f' & HF' & g & Hg & O & _).
        assert (g = f) by congruence. subst g. assert (JC : In x cv).
        { rewrite <- O in J. eapply in_outline; [apply (po_valid _ _ _ _ PC)|eapply nth_error_In; eauto|exact J]. }
        apply In_nth_error in JC as [q JC]. assert (JQ : nth_error (cv ++ cs_ints st) q = Some x) by (rewrite nth_error_app1; auto; eapply nth_error_bound; eauto).
        destruct (merged_close _ _ _ _ _ MM q x JQ) as (q' & w & _ & HW & W1). apply nth_error_In in HW.
        assert (x = w); [|subst; auto]. apply SP; [eapply CP; eauto; eapply nth_error_In; eauto| |].
        * (* w comes from the crown or its intersections *)
          apply In_nth_error in HW as [n' HW]. destruct (merged_origin _ _ _ _ _ MM n' w HW) as (i & HI & _). apply nth_error_In in HI.
          apply in_app_or in HI as [HI|HI]; [left; eapply part_verts; [exact PC|exact HI]|].
          rewrite (cr_ints _ _ _ _ _ _ _ _ _ _ _ _ CR) in HI. destruct (crown_points p tol T0 cv (cs_ints st) _ ts D PR C1 C2 w HI) as (f2 & I2 & a & b & AB & K).
          apply In_nth_error in I2 as [n2 I2]. destruct (Forall2_nth_error_r _ _ _ _ _ FC n2 f2 I2) as (id2 & _ & g2 & Hg2 & O2 & _).
          right. exists g2, a, b. split; [eapply nth_error_In; eauto|]. split; [|exact K]. rewrite <- O2. exact AB.
        * apply within_near in W1. apply (near_weak crown_atol); auto. unfold crown_atol, clip_move. lra.
    - intros x I. apply In_nth_error in I as [n I]. destruct (merged_origin _ _ _ _ _ M2 n x I) as (i & HI & _). apply nth_error_In in HI.
      unfold cat in HI. simpl in HI. apply in_app_or in HI as [HI|HI].
      + destruct (part_used m _ _ x V PL HI) as (id & f & ID & Hf & J). exists f. split; [|left; auto]. split; [eapply nth_error_In; eauto|].
        apply (lowered_ids m id f Hf). left. rewrite <- IB. auto.
      + apply In_nth_error in HI as [n' HI]. destruct (merged_origin _ _ _ _ _ MM n' x HI) as (j & HJ & _). apply nth_error_In in HJ.
        apply in_app_or in HJ as [HJ|HJ].
        * destruct (part_used m _ _ x V PC HJ) as (id & f & ID & Hf & J). exists f. split; [|left; auto]. split; [eapply nth_error_In; eauto|].
          apply (lowered_ids m id f Hf). right. rewrite <- IC. auto.
        * rewrite (cr_ints _ _ _ _ _ _ _ _ _ _ _ _ CR) in HJ. destruct (crown_points p tol T0 cv (cs_ints st) _ ts D PR C1 C2 x HJ) as (f2 & I2 & K).
          apply In_nth_error in I2 as [n2 I2]. destruct (Forall2_nth_error_r _ _ _ _ _ FC n2 f2 I2) as (id2 & ID2 & g2 & Hg2 & O2 & _).
          exists g2. split; [|right; rewrite <- O2; exact K]. split; [eapply nth_error_In; eauto|].
          apply (lowered_ids m id2 g2 Hg2). right. rewrite <- IC. eapply nth_error_In; eauto.
  Qed.
End Extent.

(** ** In the report *)
Lemma lowered_corner : forall m f x, lowered sea_level close m f -> In x (outline (verts m) f) -> wetted_corner m x.
Proof.
  intros m f x [I N] J. exists f. split; auto. split; auto. revert N. generalize (outline (verts m) f). intros l. clear.
  induction l as [|y l IH]; intros N; [exfalso; apply N; constructor|].
  destruct (above_dec sea_level close y) as [A|A]; [|exists y; simpl; auto].
  destruct IH as (w & W & H); [intros F; apply N; constructor; auto|]. exists w. simpl. auto.
Qed.
Lemma corner_lowered : forall m x, wetted_corner m x -> exists f, lowered sea_level close m f /\ In x (outline (verts m) f).
Proof. intros m x (f & I & J & y & Y & N). exists f. split; auto. split; auto. intros F. rewrite Forall_forall in F. auto. Qed.
Section Report.
  Variables (argsort : list R -> list nat) (M : mesh).
  Hypothesis SA : sorting argsort.
  Hypothesis FW : floats_well M.
  Variable k : clipper.
  Hypothesis CL : mesh_clipper argsort water vicinity_tol true M = Ok k.
  Let PTS := clipper_points sea_level close close_pos argsort SA true M k (fw_valid _ FW) (fw_settled _ FW) (fw_convex _ FW) (fw_unpinched _ FW) (fw_spread _ FW) CL.
  Lemma bounded : forall q lo hi, component q -> is_min lo (map q (verts (clipped k))) -> is_max hi (map q (verts (clipped k))) ->
    (exists x, wetted_corner M x /\ q x = lo) /\ (exists x, wetted_corner M x /\ q x = hi) /\ forall x, wetted_corner M x -> lo <= q x <= hi.
  Proof.
    intros q lo hi C [LI LA] [HI HA]. destruct PTS as [P1 P2].
    assert (B : forall x, wetted_corner M x -> lo <= q x <= hi).
    { intros x W. apply corner_lowered in W as (f & F & J). pose proof (in_map q _ _ (P1 f x F J)) as I. auto. }
    assert (EX : forall x, In x (verts (clipped k)) -> exists a b, wetted_corner M a /\ wetted_corner M b /\ q a <= q x <= q b).
    { intros x I. destruct (P2 x I) as (f & F & [J|(a & b & J & H & ->)]).
      - exists x, x. pose proof (lowered_corner M f x F J). split; auto. split; auto. lra.
      - pose proof (meet_between sea_level close close_pos q a b C H) as MB.
        assert (IA : In a (outline (verts M) f) /\ In b (outline (verts M) f)).
        { apply in_around; auto. }
        destruct IA as [IA IB]. pose proof (lowered_corner M f a F IA). pose proof (lowered_corner M f b F IB).
        unfold Rmin, Rmax in MB. destruct (Rle_dec (q a) (q b)); [exists a, b|exists b, a]; auto. }
    split; [|split; auto].
    - apply in_map_iff in LI as (x & <- & I). destruct (EX x I) as (a & _ & W & _ & H & _). exists a. split; auto. specialize (B a W). lra.
    - apply in_map_iff in HI as (x & <- & I). destruct (EX x I) as (_ & b & _ & W & _ & H). exists b. split; auto. specialize (B b W). lra.
  Qed.
  Lemma extent : forall q lo hi, component q -> is_min lo (map q (verts (clipped k))) -> is_max hi (map q (verts (clipped k))) -> is_extent q (wetted_corner M) (hi - lo).
  Proof.
    intros q lo hi C L H. destruct (bounded q lo hi C L H) as ((a & A & EA) & (b & B & EB) & AL). split.
    - intros x y X Y. apply AL in X. apply AL in Y. lra.
    - exists b, a. split; auto. split; auto. lra.
  Qed.
  Lemma depth : forall lo hi, is_min lo (map vz (verts (clipped k))) -> is_max hi (map vz (verts (clipped k))) -> is_depth (wetted_corner M) (Rabs lo).
  Proof.
    intros lo hi L H. destruct (bounded vz lo hi ltac:(unfold component; auto) L H) as ((a & A & EA) & _ & AL).
    assert (N : lo < 0).
    { destruct (fw_straddles _ FW) as (f & I & (x & X & BX) & _). assert (W : wetted_corner M x).
      { exists f. split; auto. split; auto. exists x. split; auto. unfold is_above, is_below in *. unfold close in *. lra. }
      apply AL in W. unfold is_below, close in BX. rewrite sea_height in BX. lra. }
    rewrite Rabs_left by auto. split; [|split; [|lra]].
    - exists a. split; auto. lra.
    - intros y Y. apply AL in Y. lra.
  Qed.
End Report.
