(** Proofs about the clipping of a mesh: the waterline, and what happens when no two different points are merged. *)
From Coq Require Import Reals List Arith Bool Lia Lra Psatz Permutation.
From Verif Require Import M_base P_base M_merge P_merge M_plane M_mesh S_merge S_mesh P_mesh S_geometry P_geometry S_plane P_plane
  S_connectivity M_connectivity P_connectivity M_clipper S_clipper P_hull P_cut P_clipper P_crown P_parts P_clipped P_clip_mesh P_curves P_waterline.
Import ListNotations.
Open Scope R_scope.

Definition vec_eq_dec : forall a b : vec, {a = b} + {a <> b}.
Proof. decide equality; apply Req_EM_T. Defined.
Fixpoint index_of (x : vec) (l : list vec) : nat :=
  match l with [] => 0%nat | a :: t => if vec_eq_dec a x then 0%nat else S (index_of x t) end.
Lemma index_of_ok : forall x l, In x l -> nth_error l (index_of x l) = Some x.
Proof. induction l as [|a l IH]; intros H; [destruct H|]. simpl. destruct (vec_eq_dec a x) as [->|N]; [reflexivity|]. destruct H; [contradiction|]. simpl. auto. Qed.
Lemma around_turned : forall (ps ps' : list vec) s, (length ps = 3 \/ length ps = 4)%nat -> turned ps ps' -> In s (around ps) -> In s (around ps').
Proof.
  intros ps ps' s L [k ->] I. destruct ps as [|a [|b [|c [|d [|? ?]]]]]; simpl in L; try lia;
    destruct k as [|[|[|[|k]]]]; simpl in *; rewrite ?skipn_nil, ?firstn_nil; simpl; tauto.
Qed.
Lemma turned_sym : forall X (l l' : list X), turned l l' -> turned l' l.
Proof.
  intros X l l' [k ->]. destruct (Nat.le_gt_cases k (length l)) as [H|H].
  - exists (length l - k)%nat. rewrite <- skipn_length at 1. rewrite skipn_app, skipn_all, Nat.sub_diag. cbn [skipn app].
    rewrite <- skipn_length, firstn_app, firstn_all, Nat.sub_diag. cbn [firstn]. rewrite app_nil_r, firstn_skipn. reflexivity.
  - exists 0%nat. rewrite (skipn_all2 (n := k) l), (firstn_all2 (n := k) l) by lia. cbn. rewrite app_nil_r. reflexivity.
Qed.

Section Sharp.
  Variables (p : plane) (tol : R).
  Hypothesis T0 : 0 <= tol.

  (** The points added are where sides meet the plane *)
  Definition crosspoint (ps : list vec) (x : vec) : Prop := exists a b, In (a, b) (around ps) /\
    (is_below p tol a /\ is_above p tol b \/ is_above p tol a /\ is_below p tol b) /\ x = meet p a b.
  Ltac inv2 := repeat match goal with
    | H : Forall2 _ (_ :: _) _ |- _ => inversion H; clear H; subst
    | H : Forall2 _ [] _ |- _ => inversion H; clear H; subst
    end.
  Ltac facts := repeat match goal with
    | H : seen _ _ _ (_, _) _ |- _ => let X := fresh "V" in let Y := fresh "C" in destruct H as [X Y]; cbn [fst snd] in X; cbn [snd] in Y
    end;
    repeat match goal with
    | H : cuts _ ?V (?a, ?b) ?x, HA : ?V ?a = Some ?pa, HB : ?V ?b = Some ?pb |- _ =>
        let S := fresh "S" in let Z := fresh "Z" in destruct (cuts_inv p V a b x pa pb HA HB H) as [S Z]; clear H
    end.
  Lemma canon_points : forall V n ics cut pts xs, canon n ics cut -> Forall2 (seen p tol V) ics pts ->
    Forall2 (cuts p V) (q_edges cut) xs -> Forall (crosspoint pts) xs.
  Proof.
    intros V n ics cut pts xs C S E.
    destruct C; cbn [q_edges q_faces q_bound] in *; inv2; facts; repeat (apply Forall_cons; [|]); try apply Forall_nil;
      repeat match goal with HS : on_segment ?a ?b ?x, Z : height p ?x = 0 |- _ =>
        assert (x = meet p a b) by (apply meet_ok; auto; simpl in *; lra); clear HS end; unfold crosspoint, is_below, is_above.
    all: match goal with H : ?x = meet p ?a ?b |- context [?x = _] =>
      first [exists a, b; split; [cbn; tauto|]; split; [simpl in *; lra|exact H]
            |exists b, a; split; [cbn; tauto|]; split; [simpl in *; lra|rewrite meet_sym by (simpl in *; lra); exact H]] end.
  Qed.
  Lemma face_points_cut : forall vs V f t, proper p tol vs f -> (forall i, (i < length vs)%nat -> V i = Some (point vs i)) ->
    convex_outline (outline vs f) -> ~ pinched p tol (outline vs f) -> done p tol vs V f t -> Forall (crosspoint (outline vs f)) (t_ints t).
  Proof.
    intros vs V f t P HV CV NP (OC & CT & NT). pose proof (ics_seen p tol vs T0 V f P HV) as S.
    pose proof (convex_crosses _ CV) as X. pose proof (outline_length vs f) as OL.
    inversion OC as [ics' c T C|ics' c T C|ics' c T C|]; subst; destruct (Forall2_turned _ _ _ _ _ _ S T) as (pts' & T' & S').
    - pose proof (canon_points V _ _ _ pts' (t_ints t) C S' CT) as K. eapply Forall_impl; [|exact K].
      intros x (a & b & I & H). exists a, b. split; auto. eapply around_turned; [|apply turned_sym; exact T'|exact I].
      rewrite <- (Permutation_length (turned_perm _ _ _ T')). auto.
    - exfalso. eapply saddle_impossible; eauto. eapply crosses_turned; eauto.
    - exfalso. apply NP. clear - C S' T'.
      destruct C; inversion S' as [|? w ? ? [_ W] S1]; subst; clear S'; inversion S1 as [|? x ? ? [_ X] S2]; subst; clear S1;
      inversion S2 as [|? y ? ? [_ Y] S3]; subst; clear S2; inversion S3 as [|? z ? ? [_ Z] S4]; subst; clear S3; inversion S4; subst; clear S4;
      destruct (turned4 _ _ _ _ _ T') as [T2 T1]; simpl in W, X, Y, Z.
      + exists y, z, w, x. split; [exact T2|]. split; [exact Y|]. split; [exact Z|]. left. split; [exact W|exact X].
      + exists x, y, z, w. split; [exact T1|]. split; [exact X|]. split; [exact Y|]. right. split; [exact Z|exact W].
  Qed.

  (** Faces that are not in the crown have no segment of waterline *)
  Lemma line_none : forall ps, Forall (is_above p tol) ps \/ Forall (is_below p tol) ps -> face_waterline p tol ps = [].
  Proof.
    intros ps H. unfold face_waterline. destruct (touching p tol ps); auto.
    assert (Z : flat_map (entering p tol) (around ps) = []); [|rewrite Z; auto].
    assert (G : forall s, In s (around ps) -> entering p tol s = []).
    { intros [a b] I. assert (J : In a ps /\ In b ps).
      { destruct ps as [|q l]; [destruct I|]. unfold around in I. split; [eapply in_combine_l; eauto|].
        apply in_combine_r in I. simpl in I. apply in_app_or in I as [I|[<-|[]]]; simpl; auto. }
      destruct J as [IA IB]. unfold entering, leaving. cbn [fst snd]. destruct H as [H|H]; rewrite Forall_forall in H; specialize (H a IA) as HA; specialize (H b IB) as HB.
      - destruct (below_dec p tol b) as [X|X]; auto. unfold is_above, is_below in *. lra.
      - destruct (below_dec p tol b); auto. destruct (below_dec p tol a); auto. contradiction. }
    revert G. generalize (around ps). induction l as [|s l IH]; intros G; auto. simpl. rewrite G, IH; simpl; auto. intros; apply G; simpl; auto.
  Qed.
  Lemma waterline_crown : forall m q, valid m -> part_of p m (where_ (crown_face p tol (verts m)) (faces m)) q ->
    concat (map (fun f => face_waterline p tol (outline (verts (pt_mesh q)) f)) (faces (pt_mesh q))) = waterline p tol m.
  Proof.
    intros m q V PO. pose proof (part_faces p m _ q V (where_bound _ _ _) PO) as F. pose proof (where_filter _ (crown_face p tol (verts m)) (faces m)) as W.
    assert (E : waterline p tol m = concat (map (fun f => face_waterline p tol (outline (verts m) f)) (filter (crown_face p tol (verts m)) (faces m)))).
    { unfold waterline. rewrite flat_map_concat_map. generalize (faces m). induction l as [|f l IH]; auto. cbn [map concat filter].
      destruct (crown_face p tol (verts m) f) eqn:C; cbn [map concat]; rewrite IH; auto.
      rewrite line_none; auto. unfold crown_face in C. apply andb_false_iff in C. rewrite !negb_false_iff, upper_iff, lower_iff in C. tauto. }
    rewrite E. f_equal. clear E. revert F W.
    generalize (where_ (crown_face p tol (verts m)) (faces m)) (faces (pt_mesh q)) (filter (crown_face p tol (verts m)) (faces m)).
    intros ids fs gs F. revert gs.
    induction F as [|id f' ids fs (f & Hf & O & _) F IH]; intros gs W; inversion W as [|? g ? gs' Hg W']; subst; [reflexivity|].
    assert (g = f) by congruence. subst g. cbn [map]. rewrite (IH gs' W'), O. reflexivity.
  Qed.
  Lemma crown_points : forall vs xs fs ts, Forall2 (done p tol vs (nth_error (vs ++ xs))) fs ts -> Forall (proper p tol vs) fs ->
    Forall (fun f => convex_outline (outline vs f)) fs -> Forall (fun f => ~ pinched p tol (outline vs f)) fs ->
    forall x, In x (concat (map t_ints ts)) -> exists f, In f fs /\ crosspoint (outline vs f) x.
  Proof.
    intros vs xs fs ts D. induction D as [|f t fs ts D F IH]; intros P C N x I; [destruct I|].
    inversion P; inversion C; inversion N; subst. cbn [map concat] in I. apply in_app_or in I as [I|I].
    - exists f. split; [simpl; auto|]. pose proof (face_points_cut vs (nth_error (vs ++ xs)) f t) as K. rewrite Forall_forall in K. apply K; auto.
      intros i J. apply nth_app_point; auto.
    - destruct IH with (x := x) as (g & G & X); auto. exists g. split; simpl; auto.
  Qed.
  Lemma part_verts : forall m ids q v, part_of p m ids q -> In v (verts (pt_mesh q)) -> In v (verts m).
  Proof.
    intros m ids q v [RS _ _] I. apply In_nth_error in I as [k K]. destruct (restricts_vertices _ _ _ _ RS) as [L H].
    assert (B : (k < length (pt_ids q))%nat) by (rewrite <- L; eapply nth_error_bound; eauto).
    destruct (nth_error_lt _ _ _ B) as [i Hi]. specialize (H k i Hi). rewrite K in H. eapply nth_error_In; eauto.
  Qed.

  (** All about a run, with the points of the result and the ends of the segments of the waterline named *)
  Variable argsort : list R -> list nat.
  Hypothesis SA : sorting argsort.
  Record lined (m : mesh) (P : partition) (cc r : mesh) (direct inv : list (nat * nat)) (name : vec -> nat) (low cr : list (list (list vec))) : Prop := {
    li_above : forall id, In id (above_ids P) -> left_of p tol m id [];
    li_low : Forall2 (left_of p tol m) (below_ids P) low;
    li_crown : Forall2 (left_of p tol m) (crown_ids P) cr;
    li_low_border : Forall2 (bordered p tol m) (below_ids P) low;
    li_crown_border : Forall2 (bordered p tol m) (crown_ids P) cr;
    li_near : Forall2 (near_face clip_move (verts r)) (concat low ++ concat cr) (faces r);
    li_points : Forall (Forall (cut_point p tol m)) (concat low ++ concat cr);
    li_cc : Forall (cut_point p tol m) (verts cc);
    li_r : Forall (cut_point p tol m) (verts r);
    li_run : forall phi, (forall a b, phi a b = - phi b a) ->
      run phi (flat_map around (concat low ++ concat cr)) + run phi (waterline p tol m) = Rsum (map (face_run (trim p tol phi) (verts m)) (faces m));
    li_at : Forall (fun s => at_waterline p tol (fst s) /\ at_waterline p tol (snd s)) (waterline p tol m);
    li_ends : Forall (fun s => cut_point p tol m (fst s) /\ cut_point p tol m (snd s)) (waterline p tol m);
    li_keys : NoDup (map fst direct);
    li_edges : forall e, In e direct -> exists s, In s (waterline p tol m) /\ e = (name (fst s), name (snd s));
    li_inv : forall u v, In (v, u) inv -> exists s, In s (waterline p tol m) /\ u = name (fst s) /\ v = name (snd s);
    li_all : forall s, In s (waterline p tol m) -> In (name (fst s)) (map fst direct);
    li_name : forall s x, In s (waterline p tol m) -> x = fst s \/ x = snd s ->
      exists y, nth_error (verts cc) (name x) = Some y /\ near_point (1 / 100000) x y;
    li_same : forall s x t y, In s (waterline p tol m) -> x = fst s \/ x = snd s -> In t (waterline p tol m) -> y = fst t \/ y = snd t ->
      name x = name y -> near_point (1 / 100000) x y
  }.
  Lemma looks_in : forall V (Q : vec -> Prop) ls outs, (forall i x, V i = Some x -> Q x) -> looks V ls outs -> Forall (Forall Q) outs.
  Proof.
    intros V Q ls outs H L. induction L as [|l o ls outs LO L IH]; constructor; auto. clear - H LO.
    induction LO as [|i x l o HX LO IH]; constructor; eauto.
  Qed.
  Lemma clip_run_lined : forall m P st ts fs4 cc new_id direct inv r, valid m -> straddling p tol m ->
    Forall (fun f => convex_outline (outline (verts m) f)) (faces m) -> Forall (fun f => ~ pinched p tol (outline (verts m) f)) (faces m) ->
    clip_run p tol argsort m P st ts fs4 cc new_id direct inv r ->
    exists name low cr, lined m P cc r direct inv name low cr.
  Proof.
    intros m P st ts fs4 cc new_id direct inv r V ST CV NP RUN.
    pose proof RUN as RUN'. destruct RUN as [EP IA IC IB PU PC PL PR CR EA].
    assert (BB : Forall (fun i => (i < length (faces m))%nat) (below_ids P)) by (rewrite IB; apply where_bound).
    assert (BC : Forall (fun i => (i < length (faces m))%nat) (crown_ids P)) by (rewrite IC; apply where_bound).
    set (lv := verts (pt_mesh (lower P))). set (lf := faces (pt_mesh (lower P))).
    set (pts := fun f => [point lv (f0 f); point lv (f1 f); point lv (f2 f); point lv (f3 f)]).
    set (cv := verts (pt_mesh (crown P))) in *. set (VV := nth_error (cv ++ cs_ints st)).
    pose proof (cr_done _ _ _ _ _ _ _ _ _ _ _ _ CR) as D.
    pose proof (part_faces p m _ _ V BB PL) as FL. pose proof (part_faces p m _ _ V BC PC) as FC.
    pose proof (part_forall p m _ _ convex_outline V BC PC) as C1. pose proof (part_forall p m _ _ (fun ps => ~ pinched p tol ps) V BC PC) as C2.
    fold cv in C1, C2. rewrite Forall_forall in CV, NP.
    specialize (C1 (fun id f _ Hf => CV f (nth_error_In _ _ Hf))). specialize (C2 (fun id f _ Hf => NP f (nth_error_In _ _ Hf))).
    destruct (crown_kept p tol T0 cv (cs_ints st) _ ts D PR C1 C2) as (cr & KC & LC).
    pose proof (crown_traced p tol T0 cv (cs_ints st) _ ts cr D PR C1 C2 LC) as B. cbn zeta in B.
    assert (WC : concat (map (fun f => face_waterline p tol (outline cv f)) (faces (pt_mesh (crown P)))) = waterline p tol m).
    { apply waterline_crown; auto. rewrite <- IC. auto. }
    rewrite WC in B. set (bss := map (fun f => face_waterline p tol (outline cv f)) (faces (pt_mesh (crown P)))) in *.
    destruct B as (B1 & B2 & B3 & B4).
    pose proof (clip_run_near p tol argsort T0 SA m P st ts fs4 cc new_id direct inv r cr V ST RUN' LC) as NF. cbn zeta in NF. fold lv lf in NF.
    assert (NV : verts (mkMesh (cv ++ cs_ints st) fs4) <> []).
    { intros Z. simpl in Z. apply app_eq_nil in Z as [Z _]. rewrite IC in PC.
      pose proof (proj2 (crown_straddles p tol T0 m _ _ V eq_refl PC) ST) as Y. apply Exists_exists in Y as (f & I & _).
      rewrite Forall_forall in PR. destruct (PR f I) as [(H & _) _]. fold cv in H. rewrite Z in H. simpl in H. lia. }
    pose proof (cr_valid _ _ _ _ _ _ _ _ _ _ _ _ CR) as VC. fold cv in VC.
    pose proof (cr_merge _ _ _ _ _ _ _ _ _ _ _ _ CR) as EM. fold cv in EM.
    destruct (merge_mesh argsort crown_atol _ SA crown_atol_pos NV VC) as (m' & ids & EM' & _ & VM & MM & _ & _).
    rewrite EM in EM'. injection EM' as <- <-. cbn [verts] in MM.
    assert (EQ : exists u, merge_duplicate_rows argsort crown_atol coords (cv ++ cs_ints st) = Ok (u, new_id)).
    { unfold merge_duplicates_index in EM. cbn [verts faces] in EM. apply bind_ok in EM as ([u ids] & EU & EM). apply bind_ok in EM as (fs' & _ & EM).
      injection EM as _ ->. eauto. }
    destruct EQ as [uu EU].
    set (name := fun x => nth (index_of x (cv ++ cs_ints st)) new_id 0%nat).
    assert (NM : forall i x, VV i = Some x -> nth_error new_id i = Some (name x)).
    { intros i x H. unfold name. pose proof (index_of_ok x _ (nth_error_In _ _ H)) as J.
      assert (LE : (index_of x (cv ++ cs_ints st) < length new_id)%nat).
      { rewrite (merged_ids _ _ _ _ _ MM). eapply nth_error_bound; eauto. }
      rewrite <- (nth_error_nth' new_id 0%nat LE).
      assert (NE : cv ++ cs_ints st <> []) by exact NV.
      eapply (merge_same argsort SA crown_atol crown_atol_pos vec coords (cv ++ cs_ints st) NE uu new_id i _ x x EU H J). intros c _. reflexivity. }
    assert (AP : forall i x, VV i = Some x -> cut_point p tol m x).
    { intros i x H. unfold cut_point. apply nth_error_In in H. apply in_app_or in H as [H|H].
      - left. eapply part_verts; [exact PC|exact H].
      - right. rewrite (cr_ints _ _ _ _ _ _ _ _ _ _ _ _ CR) in H.
        destruct (crown_points cv (cs_ints st) _ ts D PR C1 C2 x H) as (f' & I & a & b & AB & K).
        apply In_nth_error in I as [n I]. destruct (Forall2_nth_error_r _ _ _ _ _ FC n f' I) as (id & _ & f & Hf & O & _).
        exists f, a, b. split; [eapply nth_error_In; eauto|]. split; [|exact K]. rewrite <- O. exact AB. }
    assert (BK : forall x y, In (Some (x, y)) (map (fun t => q_bound (t_cut t)) ts) -> exists u v, In (u, v) (waterline p tol m) /\ VV x = Some u /\ VV y = Some v).
    { intros x y I. apply in_map_iff in I as (t & Q & I). apply In_nth_error in I as [n I].
      destruct (Forall2_nth_error _ _ _ _ _ B1 n t I) as (bs & HB & LB). rewrite Q in LB. destruct LB as (u & v & -> & HU & HV).
      exists u, v. split; auto. rewrite <- WC. apply in_concat. exists [(u, v)]. split; [eapply nth_error_In; eauto|simpl; auto]. }
    assert (KB : forall s, In s (waterline p tol m) -> exists x y, In (Some (x, y)) (map (fun t => q_bound (t_cut t)) ts) /\ VV x = Some (fst s) /\ VV y = Some (snd s)).
    { intros s I. rewrite <- WC in I. apply in_concat in I as (bs & I & J). apply In_nth_error in I as [n I].
      destruct (Forall2_nth_error_r _ _ _ _ _ B1 n bs I) as (t & HT & LB). unfold bound_look in LB. destruct (q_bound (t_cut t)) as [[x y]|] eqn:Q.
      - destruct LB as (u & v & -> & HU & HV). destruct J as [<-|[]]. exists x, y. split; auto. apply in_map_iff. exists t. split; auto. eapply nth_error_In; eauto.
      - subst bs. destruct J. }
    assert (KE : forall s x, In s (waterline p tol m) -> x = fst s \/ x = snd s -> exists i, VV i = Some x).
    { intros s x I H. destruct (KB s I) as (i & j & _ & HI & HJ). destruct H as [->| ->]; eauto. }
    assert (E1 : concat (map (fun f => [pts f]) lf) = map pts lf) by (rewrite <- (concat_single _ (map pts lf)), map_map; auto).
    assert (PT : Forall (cut_point p tol m) (verts cc)).
    { apply Forall_forall. intros x I. apply In_nth_error in I as [k I]. destruct (merged_origin _ _ _ _ _ MM k x I) as (i & HI & _). eapply AP; eauto. }
    exists name, (map (fun f => [pts f]) lf), cr. split.
    - intros id I. rewrite IA in I. apply in_where in I as (f & Hf & U). exists f. split; auto. apply kept_above; auto. apply upper_iff; auto.
    - eapply Forall2_map_r; [|exact FL]. intros id f' HI (f & Hf & O & CO). exists f. split; auto.
      pose proof (kept_whole p tol lv f' T0) as KW. fold lv in O. rewrite O in KW. apply KW.
      rewrite IB in HI. apply in_where in HI as (g & Hg & LW). assert (g = f) by congruence. subst g. apply lower_iff; auto.
    - eapply Forall2_compose; [exact FC|exact KC|]. intros id f' outs (f & Hf & O & _) K. exists f. split; auto. rewrite <- O. exact K.
    - eapply Forall2_map_r; [|exact FL]. intros id f' HI (f & Hf & O & CO). exists f. split; auto. fold lv in O. rewrite <- O. intros phi AN.
      rewrite IB in HI. apply in_where in HI as (g & Hg & LW). assert (g = f) by congruence. subst g.
      assert (LW' : lower_face p tol lv f' = true) by (apply lower_iff; rewrite O; apply lower_iff; auto).
      rewrite lower_line by auto. rewrite (trim_sides p tol T0). change (run (trim p tol phi) (around (outline lv f'))) with (face_run (trim p tol phi) lv f').
      rewrite lower_trim by auto. cbn [flat_map]. rewrite app_nil_r. unfold pts, run. cbn. ring.
    - eapply Forall2_compose; [exact FC|exact B4|]. intros id f' outs (f & Hf & O & _) K. exists f. split; auto. fold cv in O. rewrite <- O. intros phi AN.
      rewrite (trim_sides p tol T0). auto.
    - rewrite E1. exact NF.
    - rewrite E1. apply Forall_app. split.
      + apply Forall_map, Forall_forall. intros f I. pose proof (po_valid _ _ _ _ PL) as VL. unfold valid in VL. rewrite Forall_forall in VL.
        assert (Q : forall i, (i < length lv)%nat -> cut_point p tol m (point lv i)).
        { intros i L. left. eapply part_verts; [exact PL|]. eapply nth_error_In. apply (nth_point _ _ L). }
        destruct (VL f I) as (L0 & L1 & L2 & L3). repeat (apply Forall_cons; [apply Q; assumption|]). apply Forall_nil.
      + eapply looks_in; [exact AP|]. apply looks_concat. exact LC.
    - exact PT.
    - unfold add, merge_duplicates in EA. apply bind_ok in EA as ([r' ids'] & EA & ER). injection ER as ->.
      assert (NR : verts (add_concat (pt_mesh (lower P)) cc) <> []).
      { intros Z. simpl in Z. apply app_eq_nil in Z as [_ Z]. destruct (cv ++ cs_ints st) as [|v l] eqn:E; [exfalso; apply NV; reflexivity|].
        destruct (merged_close _ _ _ _ _ MM 0%nat v eq_refl) as (k & s & _ & K & _). rewrite Z in K. destruct k; discriminate. }
      destruct (merge_mesh argsort default_atol _ SA default_atol_pos NR (valid_add _ _ (po_valid _ _ _ _ PL) VM)) as (m2 & ids2 & EM2 & _ & _ & MM2 & _ & _).
      rewrite EA in EM2. injection EM2 as <- <-. apply Forall_forall. intros x I. apply In_nth_error in I as [k I].
      destruct (merged_origin _ _ _ _ _ MM2 k x I) as (i & HI & _). cbn [add_concat verts] in HI. apply nth_error_In in HI.
      apply in_app_or in HI as [HI|HI]; [left; eapply part_verts; eauto|]. rewrite Forall_forall in PT. auto.
    - intros phi AN. rewrite E1, flat_map_app, !run_app, Rplus_assoc, B3 by auto.
      rewrite (split_run (face_run (trim p tol phi) (verts m)) (upper_face p tol (verts m)) (lower_face p tol (verts m)) (faces m)).
      + change (fun f => negb (upper_face p tol (verts m) f) && negb (lower_face p tol (verts m) f)) with (crown_face p tol (verts m)).
        rewrite IC in PC. rewrite IB in PL. rewrite <- (part_run p _ _ _ _ V PC), <- (part_run p _ _ _ _ V PL). fold cv lv lf.
        assert (ZU : Rsum (map (face_run (trim p tol phi) (verts m)) (filter (upper_face p tol (verts m)) (faces m))) = 0).
        { assert (G : forall f, In f (filter (upper_face p tol (verts m)) (faces m)) -> face_run (trim p tol phi) (verts m) f = 0).
          { intros f I. apply filter_In in I as [_ U]. apply upper_trim; auto. }
          revert G. generalize (filter (upper_face p tol (verts m)) (faces m)). induction l; intros G; [reflexivity|].
          cbn [map Rsum fold_right]. fold (Rsum (map (face_run (trim p tol phi) (verts m)) l)). rewrite IHl, G by (intros; try apply G; simpl; auto). ring. }
        rewrite ZU.
        assert (ZL : run phi (flat_map around (map pts lf)) = Rsum (map (face_run (trim p tol phi) lv) lf)).
        { assert (G : forall f, In f lf -> lower_face p tol lv f = true).
          { intros f I. apply lower_iff. pose proof (part_forall p m _ _ (Forall (is_below p tol)) V (where_bound _ _ _) PL) as PF.
            rewrite Forall_forall in PF. apply PF; auto. intros id g HI Hg. apply in_where in HI as (g' & Hg' & LW).
            assert (g' = g) by congruence. subst g'. apply lower_iff; auto. }
          revert G. clear - T0 AN. generalize lf. intros l. induction l as [|fa l IHl]; intros G; [reflexivity|]. cbn [map flat_map].
          rewrite run_app, IHl by (intros; apply G; simpl; auto). cbn [map Rsum fold_right].
          fold (Rsum (map (face_run (trim p tol phi) lv) l)). rewrite (lower_trim p tol T0 phi lv fa AN) by (apply G; simpl; auto). reflexivity. }
        rewrite ZL. ring.
      + intros f I U L. apply upper_iff in U. apply lower_iff in L. pose proof (outline_length (verts m) f) as LO.
        destruct (outline (verts m) f) as [|q l]; [simpl in LO; lia|]. inversion U; inversion L; subst. unfold is_above, is_below in *. lra.
    - exact B2.
    - apply Forall_forall. intros s I. destruct (KE s (fst s) I (or_introl eq_refl)) as [i HI]. destruct (KE s (snd s) I (or_intror eq_refl)) as [j HJ]. eauto.
    - exact (renumber_keys _ _ _ (cr_renumber _ _ _ _ _ _ _ _ _ _ _ _ CR)).
    - intros [a b] I. destruct (renumber_from _ _ _ _ _ (cr_renumber _ _ _ _ _ _ _ _ _ _ _ _ CR) I) as (x & y & J & HX & HY).
      rewrite (cr_direct _ _ _ _ _ _ _ _ _ _ _ _ CR) in J. apply fold_bound_in in J as [J|[]].
      destruct (BK _ _ J) as (u & v & IB' & HU & HV). exists (u, v). split; auto. cbn [fst snd].
      rewrite (NM _ _ HU) in HX. rewrite (NM _ _ HV) in HY. congruence.
    - intros a b I. destruct (renumber_from _ _ _ _ _ (cr_renumber_inv _ _ _ _ _ _ _ _ _ _ _ _ CR) I) as (x & y & J & HX & HY).
      rewrite (cr_inv _ _ _ _ _ _ _ _ _ _ _ _ CR) in J. apply fold_inv_in in J as [J|[]].
      destruct (BK _ _ J) as (u & v & IB' & HU & HV). exists (u, v). split; auto. cbn [fst snd].
      rewrite (NM _ _ HU) in HY. rewrite (NM _ _ HV) in HX. split; congruence.
    - intros s I. destruct (KB s I) as (x & y & J & HU & HV).
      assert (HX : In x (map fst (cs_direct st))).
      { rewrite (cr_direct _ _ _ _ _ _ _ _ _ _ _ _ CR). apply fold_bound_has. left. eauto. }
      destruct (renumber_has _ _ _ _ (cr_renumber _ _ _ _ _ _ _ _ _ _ _ _ CR) HX) as (w & HW & IW).
      rewrite (NM _ _ HU) in HW. injection HW as <-. exact IW.
    - intros s x I H. destruct (KE s x I H) as [i HI]. destruct (merged_close _ _ _ _ _ MM i x HI) as (w & y & HW & HY & WI).
      rewrite (NM _ _ HI) in HW. injection HW as <-. exists y. split; auto. apply within_near; auto.
    - intros s x t y I H J K E. destruct (KE s x I H) as [i HI]. destruct (KE t y J K) as [j HJ].
      apply within_near. eapply (merged_pairs _ _ _ _ _ MM i j); eauto. rewrite E. auto.
  Qed.
  Lemma clipper_lined : forall m, valid m -> settled p tol m -> ~ Forall (is_above p tol) (verts m) -> ~ Forall (is_below p tol) (verts m) ->
    Forall (fun f => ~ three_near p tol (outline (verts m) f)) (faces m) -> straddling p tol m ->
    Forall (fun f => convex_outline (outline (verts m) f)) (faces m) -> Forall (fun f => ~ pinched p tol (outline (verts m) f)) (faces m) ->
    exists P cc r direct inv name low cr, lined m P cc r direct inv name low cr /\
      forall closed, mesh_clipper argsort p tol closed m =
        let '(cl, op) := curves (length direct) inv direct in
        if closed && negb (length op =? 0)%nat then Raise RuntimeError else Ok (mkClipper P cc cl op r).
  Proof.
    intros m V S NA NB NT ST CV NP.
    destruct (clipper_run p tol argsort T0 SA m V S NA NB NT ST) as (P & st & ts & fs4 & cc & new_id & direct & inv & r & RUN & EQ).
    destruct (clip_run_lined m P st ts fs4 cc new_id direct inv r V ST CV NP RUN) as (name & low & cr & L).
    exists P, cc, r, direct, inv, name, low, cr. auto.
  Qed.
  Lemma clipper_lined_ok : forall closed m k, valid m -> settled p tol m -> Forall (fun f => convex_outline (outline (verts m) f)) (faces m) ->
    Forall (fun f => ~ pinched p tol (outline (verts m) f)) (faces m) -> mesh_clipper argsort p tol closed m = Ok k ->
    exists direct inv name low cr, lined m (k_partition k) (clipped_crown k) (clipped k) direct inv name low cr /\ ordered inv direct (polygons k) (lines k) /\
      curves (length direct) inv direct = (polygons k, lines k).
  Proof.
    intros closed m k V S CV NP E. destruct (clipper_ok_inv p tol argsort T0 closed m k V S E) as (NA & NB & NT & ST).
    destruct (clipper_lined m V S NA NB NT ST CV NP) as (P & cc & r & direct & inv & name & low & cr & L & EQ).
    rewrite EQ in E. destruct (curves (length direct) inv direct) as [cl op] eqn:EC.
    destruct (closed && negb (length op =? 0)%nat); [discriminate|]. injection E as <-. cbn [polygons lines clipped clipped_crown k_partition].
    exists direct, inv, name, low, cr. split; auto. split; auto. eapply curves_ordered; eauto. apply (li_keys _ _ _ _ _ _ _ _ _ L).
  Qed.

  Lemma clipper_closed : forall closed m k, valid m -> settled p tol m -> Forall (fun f => convex_outline (outline (verts m) f)) (faces m) ->
    Forall (fun f => ~ pinched p tol (outline (verts m) f)) (faces m) -> closed_surface (faces m) ->
    mesh_clipper argsort p tol closed m = Ok k ->
    exists outs edges inv, let bs := waterline p tol m in
      Forall2 (near_face clip_move (verts (clipped k))) outs (faces (clipped k)) /\
      cancels (flat_map around outs ++ bs) /\
      Forall (fun s => at_waterline p tol (fst s) /\ at_waterline p tol (snd s)) bs /\
      NoDup (map fst edges) /\ ordered inv edges (polygons k) (lines k) /\
      (forall e, In e edges -> exists s, In s bs /\ near_edge (1 / 100000) (verts (clipped_crown k)) s e) /\
      (forall u v, In (v, u) inv -> exists s, In s bs /\ near_edge (1 / 100000) (verts (clipped_crown k)) s (u, v)) /\
      (forall s, In s bs -> exists e x, In e edges /\ nth_error (verts (clipped_crown k)) (fst e) = Some x /\ near_point (1 / 100000) (fst s) x).
  Proof.
    intros closed m k V S CV NP CS E.
    destruct (clipper_lined_ok closed m k V S CV NP E) as (direct & inv & name & low & cr & L & O & _). destruct L.
    exists (concat low ++ concat cr), direct, inv. cbn zeta. split; auto. split.
    { intros phi AP. rewrite run_app, li_run0 by auto. apply closed_run; auto. apply trim_anti; auto. }
    split; auto. split; auto. split; auto. split; [|split].
    - intros e I. destruct (li_edges0 e I) as (s & IS & ->). exists s. split; auto.
      destruct (li_name0 s (fst s) IS (or_introl eq_refl)) as (x & HX & NX). destruct (li_name0 s (snd s) IS (or_intror eq_refl)) as (y & HY & NY).
      exists x, y. auto.
    - intros u v I. destruct (li_inv0 u v I) as (s & IS & -> & ->). exists s. split; auto.
      destruct (li_name0 s (fst s) IS (or_introl eq_refl)) as (x & HX & NX). destruct (li_name0 s (snd s) IS (or_intror eq_refl)) as (y & HY & NY).
      exists x, y. auto.
    - intros s I. pose proof (li_all0 s I) as IW. apply in_map_iff in IW as (e & EE & IW).
      destruct (li_name0 s (fst s) I (or_introl eq_refl)) as (x & HX & NX). exists e, x. rewrite EE. auto.
  Qed.

  (** ** Nothing moves when the points are spread *)
  Lemma clipper_exact : forall closed m k, valid m -> settled p tol m -> Forall (fun f => convex_outline (outline (verts m) f)) (faces m) ->
    Forall (fun f => ~ pinched p tol (outline (verts m) f)) (faces m) -> spread clip_move (cut_point p tol m) ->
    mesh_clipper argsort p tol closed m = Ok k ->
    (forall id, In id (above_ids (k_partition k)) -> left_of p tol m id []) /\
    exists low cr, Forall2 (left_of p tol m) (below_ids (k_partition k)) low /\ Forall2 (left_of p tol m) (crown_ids (k_partition k)) cr /\
      Forall2 (bordered p tol m) (below_ids (k_partition k)) low /\ Forall2 (bordered p tol m) (crown_ids (k_partition k)) cr /\
      Forall2 (fun o f => corners (verts (clipped k)) f o) (concat low ++ concat cr) (faces (clipped k)) /\
      forall phi, (forall a b, phi a b = - phi b a) ->
        run phi (flat_map around (concat low ++ concat cr)) + run phi (waterline p tol m) = Rsum (map (face_run (trim p tol phi) (verts m)) (faces m)).
  Proof.
    intros closed m k V S CV NP SP E.
    destruct (clipper_lined_ok closed m k V S CV NP E) as (direct & inv & name & low & cr & L & _). destruct L.
    split; auto. exists low, cr. do 4 (split; auto). split; [|auto]. clear - li_near0 li_points0 li_r0 SP.
    revert li_points0. induction li_near0 as [|o f outs fs (ps & C & N) F IH]; intros PT; constructor.
    - inversion PT as [|? ? PO PR]; subst. assert (Z : o = ps); [|subst; exact C].
      assert (PS : Forall (cut_point p tol m) ps).
      { destruct C as (a & b & c & d & -> & HA & HB & HC & HD). rewrite Forall_forall in li_r0.
        repeat (apply Forall_cons; [eapply li_r0, nth_error_In; eauto|]). apply Forall_nil. }
      clear - N PO PS SP. induction N as [|x y l l' XY N IH]; auto. inversion PO; inversion PS; subst. f_equal; auto.
    - apply IH. inversion PT; auto.
  Qed.

  (** ** Closed lines *)
  Lemma count_indicator : forall x l, Rsum (map (fun y => if vec_eq_dec y x then 1 else 0) l) = INR (count_occ vec_eq_dec l x).
  Proof.
    intros x. induction l as [|y l IH]; [reflexivity|]. unfold Rsum in *. cbn [map fold_right count_occ]. rewrite IH.
    destruct (vec_eq_dec y x); [rewrite S_INR; ring|ring].
  Qed.
  Lemma balanced_perm : forall bs : list (vec * vec), (forall g : vec -> R, Rsum (map (fun s => g (fst s)) bs) = Rsum (map (fun s => g (snd s)) bs)) ->
    Permutation (map fst bs) (map snd bs).
  Proof.
    intros bs H. apply (Permutation_count_occ vec_eq_dec). intros x. apply INR_eq. rewrite <- !count_indicator, !map_map. exact (H (fun y => if vec_eq_dec y x then 1 else 0)).
  Qed.
  Lemma cancels_balanced : forall outs bs (g : vec -> R), cancels (flat_map around outs ++ bs) ->
    Forall (fun o => length o = 4%nat) outs -> Rsum (map (fun s => g (fst s)) bs) = Rsum (map (fun s => g (snd s)) bs).
  Proof.
    intros outs bs g C L. assert (AP : forall a b : vec, g b - g a = - (g a - g b)) by (intros; ring).
    pose proof (C (fun a b => g b - g a) AP) as Z. rewrite run_app in Z.
    assert (ZF : run (fun a b => g b - g a) (flat_map around outs) = 0).
    { clear - L. induction L as [|o outs L4 L IH]; [reflexivity|]. cbn [flat_map]. rewrite run_app, IH.
      destruct o as [|a [|b [|c [|d [|? ?]]]]]; simpl in L4; try discriminate. rewrite around4. ring. }
    rewrite ZF in Z. unfold run in Z.
    assert (H : Rsum (map (fun e => g (snd e) - g (fst e)) bs) = Rsum (map (fun s => g (snd s)) bs) - Rsum (map (fun s => g (fst s)) bs)).
    { clear. induction bs as [|s bs IH]; [unfold Rsum; simpl; ring|]. unfold Rsum in *. cbn [map fold_right]. rewrite IH. ring. }
    rewrite H in Z. lra.
  Qed.
  Lemma near_quads : forall t vs outs fs, Forall2 (near_face t vs) outs fs -> Forall (fun o => length o = 4%nat) outs.
  Proof.
    intros t vs outs fs F. induction F as [|o f outs fs (ps & (a & b & c & d & -> & _) & N) F IH]; constructor; auto. apply Forall2_len in N. exact N.
  Qed.

  Lemma fst_inj : forall X Y (l : list (X * Y)) s t, NoDup (map fst l) -> In s l -> In t l -> fst s = fst t -> s = t.
  Proof.
    induction l as [|e l IH]; intros s t N I J E; [destruct I|]. cbn [map] in N. inversion N as [|? ? NI ND]; subst.
    destruct I as [->|I], J as [->|J]; auto; exfalso; apply NI.
    - rewrite E. apply in_map; auto.
    - rewrite <- E. apply in_map; auto.
  Qed.
  Lemma clipper_polygons : forall m, valid m -> settled p tol m -> ~ Forall (is_above p tol) (verts m) -> ~ Forall (is_below p tol) (verts m) ->
    Forall (fun f => ~ three_near p tol (outline (verts m) f)) (faces m) -> straddling p tol m ->
    Forall (fun f => convex_outline (outline (verts m) f)) (faces m) -> Forall (fun f => ~ pinched p tol (outline (verts m) f)) (faces m) ->
    closed_surface (faces m) -> spread (1 / 100000) (cut_point p tol m) -> NoDup (map fst (waterline p tol m)) ->
    exists k, (forall closed, mesh_clipper argsort p tol closed m = Ok k) /\ lines k = [] /\
      Forall (fun b => (2 <= length b)%nat /\ hd 0%nat b = last b 0%nat) (polygons k) /\
      exists edges, Permutation edges (flat_map pairs (polygons k)) /\
        Forall2 (fun s e => nth_error (verts (clipped_crown k)) (fst e) = Some (fst s) /\ nth_error (verts (clipped_crown k)) (snd e) = Some (snd s))
          (waterline p tol m) edges.
  Proof.
    intros m V S NA NB NT ST CV NP CS SP ND.
    destruct (clipper_lined m V S NA NB NT ST CV NP) as (P & cc & r & direct & inv & name & low & cr & L & EQ). destruct L.
    set (W := waterline p tol m) in *. set (nm := fun s : vec * vec => (name (fst s), name (snd s))).
    assert (INJ : forall s x t y, In s W -> x = fst s \/ x = snd s -> In t W -> y = fst t \/ y = snd t -> name x = name y -> x = y).
    { intros s x t y I H J K E. apply SP; eauto.
      - rewrite Forall_forall in li_ends0. destruct (li_ends0 s I), H; subst; auto.
      - rewrite Forall_forall in li_ends0. destruct (li_ends0 t J), K; subst; auto. }
    assert (ONE : forall s t, In s W -> In t W -> name (fst s) = name (fst t) -> s = t).
    { intros s t I J E. apply (fst_inj _ _ W); auto. apply (INJ s (fst s) t (fst t)); auto. }
    assert (PD : Permutation direct (map nm W)).
    { apply NoDup_Permutation.
      - clear - li_keys0. induction direct as [|e d IH]; [constructor|]. cbn [map] in li_keys0. inversion li_keys0; subst. constructor; auto.
        intros I. apply H1. apply in_map; auto.
      - assert (ONE' : forall s t, In s W -> In t W -> nm s = nm t -> s = t) by (intros s t I J E; unfold nm in E; injection E as E1 E2; apply ONE; auto).
        assert (NW : NoDup W).
        { clear - ND. induction W as [|e d IH]; [constructor|]. cbn [map] in ND. inversion ND; subst. constructor; auto. intros I. apply H1. apply in_map; auto. }
        clear - ONE' NW. induction NW as [|s W NI NW IH]; [constructor|]. cbn [map]. constructor.
        + intros I. apply in_map_iff in I as (t & E & I). apply NI. rewrite <- (ONE' t s); simpl; auto.
        + apply IH. intros; apply ONE'; simpl; auto.
      - intros e. split; intros I.
        + destruct (li_edges0 e I) as (s & IS & ->). apply in_map_iff. exists s. auto.
        + apply in_map_iff in I as (s & <- & I). pose proof (li_all0 s I) as K. apply in_map_iff in K as (e & E & K).
          destruct (li_edges0 e K) as (t & IT & ->). cbn [fst] in E. rewrite <- (ONE t s IT I E). exact K. }
    assert (BAL : Permutation (map fst W) (map snd W)).
    { apply balanced_perm. intros g. eapply cancels_balanced; [|eapply near_quads; exact li_near0].
      intros phi AP. rewrite run_app, li_run0 by auto. apply closed_run; auto. apply trim_anti; auto. }
    assert (PF : Permutation (map fst direct) (map snd direct)).
    { rewrite (Permutation_map fst PD), (Permutation_map snd PD), !map_map. cbn [nm fst snd].
      rewrite <- (map_map fst name), <- (map_map snd name). apply Permutation_map. exact BAL. }
    pose proof (curves_cycles (length direct) inv direct li_keys0 (le_n _) PF) as ZO.
    destruct (curves (length direct) inv direct) as [cl op] eqn:EC. cbn [snd] in ZO. subst op.
    exists (mkClipper P cc cl [] r). split; [|split; [|split]].
    - intros closed. rewrite EQ. cbn [length Nat.eqb negb]. rewrite andb_false_r. reflexivity.
    - reflexivity.
    - pose proof (curves_ordered _ _ _ _ _ li_keys0 (le_n _) EC) as O. cbn [polygons]. eapply Forall_impl; [|exact (or_closed _ _ _ _ O)]. intros b B. cbn beta in B. tauto.
    - pose proof (curves_ordered _ _ _ _ _ li_keys0 (le_n _) EC) as O. cbn [polygons clipped_crown]. exists (map nm W). split.
      + rewrite <- PD. pose proof (or_edges _ _ _ _ O) as OE. rewrite app_nil_r in OE. apply OE.
        intros a b x IB ID. destruct (li_inv0 b a IB) as (s & IS & EB & ->). destruct (li_edges0 _ ID) as (t & IT & E). injection E as E1 ->.
        assert (s = t); [|congruence]. apply ONE; auto. congruence.
      + assert (NW : forall s x, In s W -> x = fst s \/ x = snd s -> nth_error (verts cc) (name x) = Some x).
        { intros s x I H. destruct (li_name0 s x I H) as (y & HY & N). rewrite HY. f_equal. symmetry. apply SP; auto.
          - rewrite Forall_forall in li_ends0. destruct (li_ends0 s I), H; subst; auto.
          - rewrite Forall_forall in li_cc0. apply li_cc0. eapply nth_error_In; eauto. }
        assert (G : forall s, In s W -> nth_error (verts cc) (name (fst s)) = Some (fst s) /\ nth_error (verts cc) (name (snd s)) = Some (snd s)).
        { intros s I. split; apply (NW s); auto. }
        clear - G. induction W as [|s W IH]; [constructor|].
        cbn [map]. constructor; [|apply IH; intros; apply G; simpl; auto]. cbn [nm fst snd]. apply G. simpl; auto.
  Qed.
End Sharp.
