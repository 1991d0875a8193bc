(** Proofs about the clipping of a mesh: the border of what is kept. *)
From Coq Require Import Reals List Arith Bool Lia Lra Psatz Permutation.
From Verif Require Import M_base P_base M_merge P_merge M_plane M_mesh S_merge S_mesh P_mesh S_geometry P_geometry S_plane P_plane
  S_connectivity M_connectivity P_connectivity M_clipper S_clipper P_hull P_cut P_clipper P_crown P_parts P_clipped P_clip_mesh P_curves.
Import ListNotations.
Open Scope R_scope.

Lemma run_app : forall phi a b, run phi (a ++ b) = run phi a + run phi b.
Proof. intros. unfold run. rewrite map_app, Rsum_app. reflexivity. Qed.
Lemma run_turned : forall phi ps ps', (length ps = 3 \/ length ps = 4)%nat -> turned ps ps' -> run phi (around ps) = run phi (around ps').
Proof.
  intros phi ps ps' L [k ->]. destruct ps as [|a [|b [|c [|d [|? ?]]]]]; simpl in L; try lia;
    destruct k as [|[|[|[|k]]]]; simpl; rewrite ?skipn_nil, ?firstn_nil; unfold run; simpl; ring.
Qed.

Section Trace.
  Variables (p : plane) (tol : R).
  Hypothesis T0 : 0 <= tol.

  Notation meet := (meet p).
  Lemma height_mix : forall a b t, height p (vadd (vscale (1 - t) a) (vscale t b)) = (1 - t) * height p a + t * height p b.
  Proof. intros. unfold height. vunfold. ring. Qed.
  Lemma meet_ok : forall a b x, on_segment a b x -> height p x = 0 -> height p a <> height p b -> x = meet a b.
  Proof.
    intros a b x (t & _ & ->) H N. rewrite height_mix in H. unfold S_clipper.meet.
    assert (E : t = height p a / (height p a - height p b)); [|rewrite <- E; auto].
    apply (Rmult_eq_reg_r (height p a - height p b)); [|lra]. unfold Rdiv. rewrite Rmult_assoc, Rinv_l by lra. lra.
  Qed.
  Lemma meet_sym : forall a b, height p a <> height p b -> meet a b = meet b a.
  Proof.
    intros a b N. unfold S_clipper.meet.
    assert (E : 1 - height p a / (height p a - height p b) = height p b / (height p b - height p a)) by (field; lra).
    assert (E' : 1 - height p b / (height p b - height p a) = height p a / (height p a - height p b)) by (field; lra).
    rewrite E, E'. vring.
  Qed.

  (** What is left of a side *)
  Definition trim (phi : vec -> vec -> R) (a b : vec) : R :=
    match cls_of tol (height p a), cls_of tol (height p b) with
    | A, B => phi (meet a b) b
    | B, A => phi a (meet a b)
    | B, _ => phi a b
    | _, B => phi a b
    | _, _ => 0
    end.
  Lemma cls_is : forall x c, classed tol (height p x) c -> cls_of tol (height p x) = c.
  Proof.
    intros x c H. unfold cls_of. destruct c; simpl in H; destruct (Rlt_dec tol (height p x)), (Rlt_dec (height p x) (- tol)); auto; lra.
  Qed.
  Lemma trim_anti : forall phi, (forall a b, phi a b = - phi b a) -> forall a b, trim phi a b = - trim phi b a.
  Proof.
    intros phi H a b. unfold trim, cls_of.
    destruct (Rlt_dec tol (height p a)), (Rlt_dec (height p a) (- tol)), (Rlt_dec tol (height p b)), (Rlt_dec (height p b) (- tol)); try lra; auto.
    all: rewrite (meet_sym a b) by lra; auto.
  Qed.

  Lemma around3 : forall phi a b c, run phi (around [a; b; c]) = phi a b + phi b c + phi c a.
  Proof. intros. unfold run; simpl. ring. Qed.
  Lemma around4 : forall phi a b c d, run phi (around [a; b; c; d]) = phi a b + phi b c + phi c d + phi d a.
  Proof. intros. unfold run; simpl. ring. Qed.

  Definition bound_look (V : nat -> option vec) (b : option (nat * nat)) (bs : list (vec * vec)) : Prop :=
    match b with
    | None => bs = []
    | Some (x, y) => exists u v, bs = [(u, v)] /\ V x = Some u /\ V y = Some v
    end.
  Definition traced (src : list vec) (outs : list (list vec)) (bs : list (vec * vec)) : Prop :=
    (forall phi, (forall a b, phi a b = - phi b a) -> run phi (flat_map around outs) + run phi bs = run (trim phi) (around src)) /\
    Forall (fun e => at_waterline p tol (fst e) /\ at_waterline p tol (snd e)) bs.

  Ltac inv2 := repeat match goal with
    | H : Forall2 _ (_ :: _) _ |- _ => inversion H; clear H; subst
    | H : Forall2 _ [] _ |- _ => inversion H; clear H; subst
    end.
  Ltac facts := repeat match goal with
    | H : seen _ _ _ (_, _) _ |- _ => let X := fresh "V" in let Y := fresh "C" in destruct H as [X Y]; cbn [fst snd] in X; cbn [snd] in Y
    end;
    repeat match goal with
    | H : cuts _ ?V (?a, ?b) ?x, HA : ?V ?a = Some ?pa, HB : ?V ?b = Some ?pb |- _ =>
        let S := fresh "S" in let Z := fresh "Z" in destruct (cuts_inv p V a b x pa pb HA HB H) as [S Z]; clear H
    end.
  Ltac same := repeat match goal with
    | H : ?V ?a = Some ?x, H' : ?V ?a = Some ?y |- _ =>
        tryif constr_eq x y then fail else (assert (x = y) by congruence; subst y; clear H')
    end.

  Ltac cancel := repeat match goal with AP : (forall a b, ?f a b = - ?f b a) |- context [?f ?x ?y] =>
    match goal with |- context [f y x] => rewrite (AP x y) end end.

  Lemma canon_traced : forall V n ics cut pts xs outs, canon n ics cut -> Forall2 (seen p tol V) ics pts ->
    Forall2 (cuts p V) (q_edges cut) xs -> (forall k x, nth_error xs k = Some x -> V (n + k)%nat = Some x) ->
    looks V (q_faces cut) outs -> (length pts = 3 \/ length pts = 4)%nat ->
    exists bs, bound_look V (q_bound cut) bs /\ traced pts outs bs.
  Proof.
    intros V n ics cut pts xs outs C S E N L LP. unfold looks in L.
    destruct C; cbn [q_edges q_faces q_bound] in *.
    17: { inversion L; subst. exists []. split; [reflexivity|]. split; [|constructor]. intros phi AP.
          assert (Z : forall a b, In a pts -> In b pts -> trim phi a b = 0).
          { assert (K : forall a, In a pts -> cls_of tol (height p a) <> B).
            { intros a I. apply In_nth_error in I as [k I]. destruct (Forall2_nth_error_r _ _ _ _ _ S k a I) as ((i & c) & J & _ & K).
              cbn [snd] in K. rewrite (cls_is _ _ K). rewrite forallb_forall in H. intros ->.
              assert (HC : In B (map snd l)) by (apply in_map_iff; exists (i, B); split; auto; eapply nth_error_In; eauto).
              specialize (H _ HC). discriminate. }
            intros a b IA IB. pose proof (K a IA). pose proof (K b IB). unfold trim.
            destruct (cls_of tol (height p a)), (cls_of tol (height p b)); auto; contradiction. }
          destruct pts as [|a [|b [|c [|d [|? ?]]]]]; simpl in LP; try lia; rewrite ?around3, ?around4, !Z by (simpl; tauto);
            unfold run; simpl; ring. }
    all: inv2; facts;
      try match type of N with forall k x, nth_error [?i; ?j] k = _ -> _ =>
        pose proof (N 0%nat i eq_refl) as N0; pose proof (N 1%nat j eq_refl) as N1; rewrite Nat.add_0_r in N0 end;
      try match type of N with forall k x, nth_error [?i] k = _ -> _ =>
        pose proof (N 0%nat i eq_refl) as N0; rewrite Nat.add_0_r in N0 end; same;
      repeat match goal with HS : on_segment ?a ?b ?x, Z : height p ?x = 0 |- _ =>
        assert (x = meet a b) by (apply meet_ok; auto; simpl in *; lra); clear HS end.
    all: eexists; (split; [cbn [bound_look]; first [reflexivity|do 2 eexists; split; [reflexivity|split; eassumption]]|]);
         (split; [intros phi AP|repeat match goal with |- Forall _ (_ :: _) => apply Forall_cons; [cbn [fst snd]; split; first [left; assumption|right; assumption]|] | |- Forall _ [] => apply Forall_nil end]).
    all: assert (PZ : forall q, phi q q = 0) by (intros q; pose proof (AP q q); lra).
    all: cbn [flat_map]; rewrite ?run_app, ?app_nil_r, ?around3, ?around4; unfold trim; repeat match goal with
           | HC : classed tol (height p ?x) _ |- _ => rewrite (cls_is _ _ HC) in *; revert HC end; intros; unfold run; cbn [map Rsum fold_right fst snd]; subst.
    all: rewrite ?PZ.
    all: try match goal with |- context [meet ?a ?b] => match goal with |- context [meet b a] => rewrite (meet_sym b a) by (simpl in *; lra) end end.
    all: try (cancel; ring).
    - destruct ca; try discriminate; destruct cb; try discriminate; destruct cc; try discriminate; destruct cd; try discriminate; simpl in *; try lia; ring.
    - destruct ca; try discriminate; destruct cb; try discriminate; destruct cc; try discriminate; simpl in *; try lia; ring.
  Qed.

  (** The segment recorded for a face is its segment of waterline *)
  Lemma leaving_cls : forall a b, leaving p tol (a, b) =
    match cls_of tol (height p a), cls_of tol (height p b) with B, A => [meet a b] | B, O => [b] | _, _ => [] end.
  Proof.
    intros a b. unfold leaving, cls_of. cbn [fst snd]. destruct (below_dec p tol a) as [X|X], (below_dec p tol b) as [Y|Y], (above_dec p tol b) as [Z|Z];
      unfold is_below, is_above in *; destruct (Rlt_dec tol (height p a)), (Rlt_dec (height p a) (- tol)), (Rlt_dec tol (height p b)), (Rlt_dec (height p b) (- tol));
      try reflexivity; exfalso; lra.
  Qed.
  Lemma emerged_cls : forall ps, filter (fun x => if below_dec p tol x then false else true) ps = filter (fun x => negb (isB (cls_of tol (height p x)))) ps.
  Proof.
    intros ps. apply filter_ext. intros x. unfold cls_of. destruct (below_dec p tol x) as [X|X]; unfold is_below in X;
      destruct (Rlt_dec tol (height p x)), (Rlt_dec (height p x) (- tol)); try reflexivity; exfalso; lra.
  Qed.
  Lemma touching_cls : forall ps, touching p tol ps =
    match filter (fun x => negb (isB (cls_of tol (height p x)))) ps with [x] => negb (isA (cls_of tol (height p x))) | _ => false end.
  Proof.
    intros ps. unfold touching. rewrite emerged_cls. destruct (filter _ ps) as [|x [|y l]]; auto.
    unfold cls_of. destruct (above_dec p tol x) as [X|X]; unfold is_above in X; destruct (Rlt_dec tol (height p x)), (Rlt_dec (height p x) (- tol)); try reflexivity; contradiction.
  Qed.
  Definition line_cls (ps : list vec) : list (vec * vec) :=
    if match filter (fun x => negb (isB (cls_of tol (height p x)))) ps with [x] => negb (isA (cls_of tol (height p x))) | _ => false end then []
    else match flat_map (fun s => match cls_of tol (height p (snd s)), cls_of tol (height p (fst s)) with B, A => [meet (snd s) (fst s)] | B, O => [fst s] | _, _ => [] end) (around ps),
               flat_map (fun s => match cls_of tol (height p (fst s)), cls_of tol (height p (snd s)) with B, A => [meet (fst s) (snd s)] | B, O => [snd s] | _, _ => [] end) (around ps) with
         | [e], [l] => [(e, l)]
         | _, _ => []
         end.
  Lemma line_cls_ok : forall ps, face_waterline p tol ps = line_cls ps.
  Proof.
    intros ps. unfold face_waterline, line_cls. rewrite touching_cls.
    rewrite (flat_map_ext (entering p tol) _ (fun s => leaving_cls (snd s) (fst s))).
    rewrite (flat_map_ext (leaving p tol) (fun s => match cls_of tol (height p (fst s)), cls_of tol (height p (snd s)) with B, A => [meet (fst s) (snd s)] | B, O => [snd s] | _, _ => [] end)).
    - reflexivity.
    - intros [a b]. apply leaving_cls.
  Qed.
  Lemma line_turned : forall ps ps', (length ps = 3 \/ length ps = 4)%nat -> turned ps ps' -> face_waterline p tol ps = face_waterline p tol ps'.
  Proof.
    intros ps ps' L [k ->]. rewrite !line_cls_ok. unfold line_cls. destruct ps as [|a [|b [|c [|d [|? ?]]]]]; simpl in L; try lia;
      destruct k as [|[|[|[|k]]]]; cbn [skipn firstn app around combine tl flat_map filter fst snd]; rewrite ?skipn_nil, ?firstn_nil; cbn [skipn firstn app around combine tl flat_map filter fst snd]; try reflexivity;
      destruct (cls_of tol (height p a)), (cls_of tol (height p b)), (cls_of tol (height p c)); try reflexivity; destruct (cls_of tol (height p d)); reflexivity.
  Qed.
  Ltac clsn := repeat match goal with HC : classed tol (height p ?x) ?c |- context [cls_of tol (height p ?x)] => rewrite (cls_is x c HC) end;
    cbn [isA isB isO negb app filter].
  Lemma canon_line : forall V n ics cut pts xs, canon n ics cut -> Forall2 (seen p tol V) ics pts ->
    Forall2 (cuts p V) (q_edges cut) xs -> (forall k x, nth_error xs k = Some x -> V (n + k)%nat = Some x) ->
    (length pts = 3 \/ length pts = 4)%nat -> bound_look V (q_bound cut) (face_waterline p tol pts).
  Proof.
    intros V n ics cut pts xs C S E N LP. rewrite line_cls_ok.
    destruct C; cbn [q_edges q_faces q_bound] in *.
    17: { assert (K : forall a, In a pts -> cls_of tol (height p a) <> B).
          { intros a I. apply In_nth_error in I as [k I]. destruct (Forall2_nth_error_r _ _ _ _ _ S k a I) as ((i & c) & J & _ & K).
            cbn [snd] in K. rewrite (cls_is _ _ K). rewrite forallb_forall in H. intros ->.
            assert (HC : In B (map snd l)) by (apply in_map_iff; exists (i, B); split; auto; eapply nth_error_In; eauto).
            specialize (H _ HC). discriminate. }
          unfold bound_look, line_cls.
          destruct pts as [|a [|b [|c [|d [|? ?]]]]]; simpl in LP; try lia; cbn [around combine tl app flat_map filter fst snd];
          [pose proof (K a ltac:(simpl; auto)); pose proof (K b ltac:(simpl; auto)); pose proof (K c ltac:(simpl; auto))
          |pose proof (K a ltac:(simpl; auto)); pose proof (K b ltac:(simpl; auto)); pose proof (K c ltac:(simpl; auto)); pose proof (K d ltac:(simpl; auto))];
          clear K; destruct (cls_of tol (height p a)), (cls_of tol (height p b)), (cls_of tol (height p c)); try congruence; try reflexivity;
          destruct (cls_of tol (height p d)); try congruence; reflexivity. }
    all: inv2; facts;
      try match type of N with forall k x, nth_error [?i; ?j] k = _ -> _ =>
        pose proof (N 0%nat i eq_refl) as N0; pose proof (N 1%nat j eq_refl) as N1; rewrite Nat.add_0_r in N0 end;
      try match type of N with forall k x, nth_error [?i] k = _ -> _ =>
        pose proof (N 0%nat i eq_refl) as N0; rewrite Nat.add_0_r in N0 end; same;
      repeat match goal with HS : on_segment ?a ?b ?x, Z : height p ?x = 0 |- _ =>
        assert (x = meet a b) by (apply meet_ok; auto; simpl in *; lra); clear HS end;
      unfold line_cls; cbn [around combine tl app flat_map filter fst snd];
      clsn; clsn.
    all: try (cbn [bound_look]; do 2 eexists; split; [reflexivity|]; subst; split; try eassumption).
    all: try (match goal with |- _ = Some (meet ?a ?b) => rewrite (meet_sym a b) by (simpl in *; lra) end; eassumption).
    - destruct ca; try discriminate; destruct cb; try discriminate; destruct cc; try discriminate; destruct cd; try discriminate; cbn [filter isO length] in *; try lia; clsn; clsn; reflexivity.
    - destruct ca; try discriminate; destruct cb; try discriminate; destruct cc; try discriminate; cbn [filter isO length] in *; try lia; clsn; clsn; reflexivity.
  Qed.
  Lemma bound_unique : forall V b bs bs', bound_look V b bs -> bound_look V b bs' -> bs = bs'.
  Proof.
    intros V [[x y]|] bs bs' H H'; [|cbn in *; congruence]. destruct H as (u & v & -> & A & B'), H' as (u' & v' & -> & A' & B'').
    congruence.
  Qed.

  (** A face that is not pinched *)
  Lemma face_traced : forall vs V f t outs, proper p tol vs f -> (forall i, (i < length vs)%nat -> V i = Some (point vs i)) ->
    convex_outline (outline vs f) -> ~ pinched p tol (outline vs f) -> done p tol vs V f t -> looks V (q_faces (t_cut t)) outs ->
    bound_look V (q_bound (t_cut t)) (face_waterline p tol (outline vs f)) /\ traced (outline vs f) outs (face_waterline p tol (outline vs f)).
  Proof.
    intros vs V f t outs P HV CV NP (OC & CT & NT) LK. pose proof (ics_seen p tol vs T0 V f P HV) as S.
    pose proof (convex_crosses _ CV) as X. pose proof (outline_length vs f) as OL.
    inversion OC as [ics' c T C|ics' c T C|ics' c T C|]; subst; destruct (Forall2_turned _ _ _ _ _ _ S T) as (pts' & T' & S').
    - assert (OL' : (length pts' = 3 \/ length pts' = 4)%nat) by (rewrite <- (Permutation_length (turned_perm _ _ _ T')); auto).
      destruct (canon_traced V _ _ _ pts' (t_ints t) outs C S') as (bs & LB & TR & WL); auto.
      pose proof (canon_line V _ _ _ pts' (t_ints t) C S' CT NT OL') as LB'. rewrite (line_turned _ _ OL T').
      rewrite (bound_unique _ _ _ _ LB LB') in TR, WL. split; auto. split; auto. intros phi AP. rewrite (run_turned _ _ _ OL T'). auto.
    - exfalso. eapply saddle_impossible; eauto. eapply crosses_turned; eauto.
    - exfalso. apply NP. clear - C S' T'.
      destruct C; inversion S' as [|? w ? ? [_ W] S1]; subst; clear S'; inversion S1 as [|? x ? ? [_ X] S2]; subst; clear S1;
      inversion S2 as [|? y ? ? [_ Y] S3]; subst; clear S2; inversion S3 as [|? z ? ? [_ Z] S4]; subst; clear S3; inversion S4; subst; clear S4;
      destruct (turned4 _ _ _ _ _ T') as [T2 T1]; simpl in W, X, Y, Z.
      + exists y, z, w, x. split; [exact T2|]. split; [exact Y|]. split; [exact Z|]. left. split; [exact W|exact X].
      + exists x, y, z, w. split; [exact T1|]. split; [exact X|]. split; [exact Y|]. right. split; [exact Z|exact W].
  Qed.

  (** ** Sums over the faces of a mesh *)
  Definition face_run (phi : vec -> vec -> R) (vs : list vec) (f : face) : R := run phi (around (outline vs f)).
  Lemma closed_run : forall phi vs fs, (forall a b, phi a b = - phi b a) -> closed_surface fs -> Rsum (map (face_run phi vs) fs) = 0.
  Proof.
    intros phi vs fs AP C.
    rewrite <- (closed_edge_sum (fun i j => phi (point vs i) (point vs j)) fs C) by auto.
    assert (Z : forall a, phi a a = 0) by (intros a; pose proof (AP a a); lra).
    unfold mesh_edges. clear C. induction fs as [|f fs IH]; [reflexivity|]. cbn [map flat_map]. rewrite map_app, Rsum_app, <- IH.
    unfold Rsum at 1. cbn [fold_right]. fold (Rsum (map (face_run phi vs) fs)). f_equal.
    unfold face_run, outline, face_edges. destruct (Nat.eq_dec (f0 f) (f3 f)) as [E|E].
    - rewrite around3. cbn [map Rsum fold_right fst snd]. rewrite <- E, Z. ring.
    - rewrite around4. cbn [map Rsum fold_right fst snd]. ring.
  Qed.

  Lemma where_filter : forall X (h : X -> bool) l, Forall2 (fun i x => nth_error l i = Some x) (where_ h l) (filter h l).
  Proof.
    intros X h l. pose proof (mapM_Forall2 _ _ _ _ _ (where_rows _ h l)) as F. eapply Forall2_weaken; [|exact F].
    intros i x. apply get_inv.
  Qed.
  Lemma part_run : forall phi m q h, valid m -> part_of p m (where_ h (faces m)) q ->
    Rsum (map (face_run phi (verts (pt_mesh q))) (faces (pt_mesh q))) = Rsum (map (face_run phi (verts m)) (filter h (faces m))).
  Proof.
    intros phi m q h V PO. pose proof (part_faces p m _ q V (where_bound _ _ _) PO) as F. pose proof (where_filter _ h (faces m)) as W.
    revert F W. generalize (where_ h (faces m)) (faces (pt_mesh q)) (filter h (faces m)). intros ids fs gs F. revert gs.
    induction F as [|id f' ids fs (f & Hf & O & _) F IH]; intros gs W; inversion W as [|? g ? gs' Hg W']; subst; [reflexivity|].
    assert (g = f) by congruence. subst g. cbn [map Rsum fold_right]. fold (Rsum (map (face_run phi (verts (pt_mesh q))) fs)).
    fold (Rsum (map (face_run phi (verts m)) gs')). rewrite (IH gs' W'). f_equal. unfold face_run. rewrite O. reflexivity.
  Qed.
  Lemma split_run : forall (g : face -> R) u l fs, (forall f, In f fs -> u f = true -> l f = true -> False) ->
    Rsum (map g fs) = Rsum (map g (filter u fs)) + Rsum (map g (filter l fs)) + Rsum (map g (filter (fun f => negb (u f) && negb (l f)) fs)).
  Proof.
    intros g u l fs H. induction fs as [|f fs IH]; [unfold Rsum; simpl; ring|].
    cbn [map filter Rsum fold_right]. fold (Rsum (map g fs)). rewrite IH by (intros; eapply H; simpl; eauto).
    pose proof (H f (or_introl eq_refl)) as Hf. destruct (u f), (l f); simpl; try (exfalso; apply Hf; reflexivity); unfold Rsum; simpl; ring.
  Qed.

  Lemma upper_trim : forall phi vs f, upper_face p tol vs f = true -> face_run (trim phi) vs f = 0.
  Proof.
    intros phi vs f U. apply upper_iff in U. unfold face_run.
    assert (Z : forall a b, In a (outline vs f) -> In b (outline vs f) -> trim phi a b = 0).
    { intros a b IA IB. rewrite Forall_forall in U. unfold trim. rewrite (cls_is a A), (cls_is b A) by (apply U; auto). reflexivity. }
    pose proof (outline_length vs f) as LO. destruct (outline vs f) as [|a [|b [|c [|d [|? ?]]]]]; simpl in LO; try lia;
      rewrite ?around3, ?around4, !Z by (simpl; tauto); ring.
  Qed.
  Lemma lower_trim : forall phi vs f, (forall a b, phi a b = - phi b a) -> lower_face p tol vs f = true ->
    face_run (trim phi) vs f = run phi (around [point vs (f0 f); point vs (f1 f); point vs (f2 f); point vs (f3 f)]).
  Proof.
    intros phi vs f AP U. apply lower_iff in U. unfold face_run.
    assert (Z : forall a b, In a (outline vs f) -> In b (outline vs f) -> trim phi a b = phi a b).
    { intros a b IA IB. rewrite Forall_forall in U. unfold trim. rewrite (cls_is a B), (cls_is b B) by (apply U; auto). reflexivity. }
    unfold outline in *. destruct (Nat.eq_dec (f0 f) (f3 f)) as [E|E]; rewrite ?around3, ?around4, !Z by (simpl; tauto); auto.
    rewrite <- E. assert (phi (point vs (f0 f)) (point vs (f0 f)) = 0) as -> by (pose proof (AP (point vs (f0 f)) (point vs (f0 f))); lra). ring.
  Qed.

  (** [trim] in the terms of the specification *)
  Lemma trim_side : forall phi a b, run phi (immersed_side p tol (a, b)) = trim phi a b.
  Proof.
    intros phi a b. unfold immersed_side, trim, cls_of.
    destruct (below_dec p tol a) as [X|X], (below_dec p tol b) as [Y|Y], (above_dec p tol a) as [Z|Z], (above_dec p tol b) as [W|W];
      unfold is_below, is_above in *; destruct (Rlt_dec tol (height p a)), (Rlt_dec (height p a) (- tol)), (Rlt_dec tol (height p b)), (Rlt_dec (height p b) (- tol));
      try (exfalso; lra); unfold run; cbn; ring.
  Qed.
  Lemma trim_sides : forall phi l, run phi (flat_map (immersed_side p tol) l) = run (trim phi) l.
  Proof.
    intros phi l. induction l as [|[a b] l IH]; [reflexivity|]. cbn [flat_map]. rewrite run_app, IH, trim_side. unfold run, Rsum. cbn [map fold_right fst snd]. ring.
  Qed.
  Lemma lower_line : forall vs f, lower_face p tol vs f = true -> face_waterline p tol (outline vs f) = [].
  Proof.
    intros vs f L. apply lower_iff in L. unfold face_waterline. destruct (touching p tol (outline vs f)); auto.
    assert (E : flat_map (leaving p tol) (around (outline vs f)) = []).
    { rewrite Forall_forall in L. assert (I : incl (map fst (around (outline vs f)) ++ map snd (around (outline vs f))) (outline vs f)).
      { pose proof (outline_length vs f) as LO. destruct (outline vs f) as [|a [|b [|c [|d [|? ?]]]]]; simpl in LO; try lia; intros x X; simpl in *; tauto. }
      induction (around (outline vs f)) as [|[a b] l IH]; auto. cbn [flat_map]. rewrite IH.
      - unfold leaving. cbn [fst snd]. destruct (below_dec p tol b) as [B|B]; [destruct (below_dec p tol a); auto|].
        exfalso. apply B, L, I. apply in_or_app. right. simpl. auto.
      - intros x X. apply I. rewrite in_app_iff in *. simpl. tauto. }
    rewrite E. destruct (flat_map (entering p tol) (around (outline vs f))) as [|? [|? ?]]; auto.
  Qed.

  (** The crown: faces, and the segments recorded *)
  Lemma crown_traced : forall vs xs fs ts cr, Forall2 (done p tol vs (nth_error (vs ++ xs))) fs ts -> Forall (proper p tol vs) fs ->
    Forall (fun f => convex_outline (outline vs f)) fs -> Forall (fun f => ~ pinched p tol (outline vs f)) fs ->
    Forall2 (looks (nth_error (vs ++ xs))) (map (fun t => q_faces (t_cut t)) ts) cr ->
    let bss := map (fun f => face_waterline p tol (outline vs f)) fs in
    Forall2 (fun t bs => bound_look (nth_error (vs ++ xs)) (q_bound (t_cut t)) bs) ts bss /\
      Forall (fun e => at_waterline p tol (fst e) /\ at_waterline p tol (snd e)) (concat bss) /\
      (forall phi, (forall a b, phi a b = - phi b a) ->
        run phi (flat_map around (concat cr)) + run phi (concat bss) = Rsum (map (face_run (trim phi) vs) fs)) /\
      Forall2 (fun f outs => forall phi, (forall a b, phi a b = - phi b a) ->
        run phi (flat_map around outs) + run phi (face_waterline p tol (outline vs f)) = run (trim phi) (around (outline vs f))) fs cr.
  Proof.
    intros vs xs fs ts cr D. revert cr. induction D as [|f t fs ts D F IH]; intros cr P C N L; cbn [map] in L; inversion L as [|? outs ? cr' LO LR]; subst.
    - cbn. split; [constructor|]. split; [constructor|]. split; [|constructor]. intros. unfold run. simpl. unfold Rsum. simpl. ring.
    - inversion P; inversion C; inversion N; subst. destruct (IH cr') as (B1 & B2 & B3 & B4); auto.
      destruct (face_traced vs (nth_error (vs ++ xs)) f t outs) as (LB & TR & WL); auto.
      { intros i I. apply nth_app_point; auto. }
      cbn [map]. split; [constructor; auto|]. cbn [concat]. split; [apply Forall_app; auto|]. split; [|constructor; auto].
      intros phi AP. rewrite flat_map_app, !run_app. cbn [map Rsum fold_right]. fold (Rsum (map (face_run (trim phi) vs) fs)).
      rewrite <- B3 by auto. unfold face_run at 1. rewrite <- TR by auto. ring.
  Qed.

  (** ** The dictionaries *)
  Lemma fold_bound_in : forall bs d x y, In (x, y) (fold_left (fun d b => set_bound b d) bs d) -> In (Some (x, y)) bs \/ In (x, y) d.
  Proof.
    induction bs as [|[[a b]|] bs IH]; intros d x y I; simpl in *; auto.
    - apply IH in I as [I|I]; auto. apply od_set_in in I as [I|I]; auto. injection I as -> ->. auto.
    - apply IH in I as [I|I]; auto.
  Qed.
  Lemma fold_inv_in : forall bs d x y, In (x, y) (fold_left (fun d b => set_inv b d) bs d) -> In (Some (y, x)) bs \/ In (x, y) d.
  Proof.
    induction bs as [|[[a b]|] bs IH]; intros d x y I; simpl in *; auto.
    - apply IH in I as [I|I]; auto. apply od_set_in in I as [I|I]; auto. injection I as -> ->. auto.
    - apply IH in I as [I|I]; auto.
  Qed.
  Lemma od_set_has : forall d a b x, x = a \/ In x (map fst d) -> In x (map fst (od_set d a b)).
  Proof.
    induction d as [|[k v] d IH]; intros a b x H; simpl.
    - destruct H as [->|[]]; auto.
    - destruct (a =? k)%nat eqn:E; simpl; simpl in H.
      + apply Nat.eqb_eq in E. intuition congruence.
      + destruct H as [H|[H|H]]; auto.
  Qed.
  Lemma fold_bound_has : forall bs d x, (exists y, In (Some (x, y)) bs) \/ In x (map fst d) ->
    In x (map fst (fold_left (fun d b => set_bound b d) bs d)).
  Proof.
    induction bs as [|[[a b]|] bs IH]; intros d x I; simpl in *.
    - destruct I as [[y []]|I]; auto.
    - apply IH. destruct I as [(y & [E|I])|I]; [injection E as -> ->; right; apply od_set_has; auto|eauto|right; apply od_set_has; auto].
    - apply IH. destruct I as [(y & [E|I])|I]; [discriminate|eauto|auto].
  Qed.
  Lemma renumber_has : forall ids d d' x, renumber_dict ids d = Ok d' -> In x (map fst d) ->
    exists u, nth_error ids x = Some u /\ In u (map fst d').
  Proof.
    intros ids d d' x E I. unfold renumber_dict in E. apply bind_ok in E as (l & EL & E). injection E as <-.
    assert (K : forall u l d, In u (map fst l) \/ In u (map fst d) -> In u (map fst (fold_left (fun d e => od_set d (fst e) (snd e)) l d))).
    { clear. induction l as [|[a b] l IH]; simpl; intros d H; [tauto|]. apply IH. destruct H as [[<-|H]|H]; auto; right; apply od_set_has; auto. }
    apply in_map_iff in I as ([x' y] & <- & I). apply In_nth_error in I as [k K']. apply mapM_Forall2 in EL.
    destruct (Forall2_nth_error _ _ _ _ _ EL k (x', y) K') as ([u v] & HX & H). cbn [fst snd] in *.
    apply bind_ok in H as (a & HA & H). apply bind_ok in H as (b & HB & H). injection H as -> ->.
    exists u. split; [apply get_inv; auto|]. apply K. left. apply in_map_iff. exists (u, v). split; auto. eapply nth_error_In; eauto.
  Qed.
End Trace.

Section Closed.
  Variables (p : plane) (tol : R) (argsort : list R -> list nat).
  Hypothesis T0 : 0 <= tol.
  Hypothesis SA : sorting argsort.

  (** The lines of any successful run *)
  Lemma clipper_lines : forall closed m k, valid m -> settled p tol m -> mesh_clipper argsort p tol closed m = Ok k ->
    exists edges inv, NoDup (map fst edges) /\ ordered inv edges (polygons k) (lines k).
  Proof.
    intros closed m k V S E. destruct (clipper_ok_inv p tol argsort T0 closed m k V S E) as (NA & NB & NT & ST).
    destruct (clipper_run p tol argsort T0 SA m V S NA NB NT ST) as (P & st & ts & fs4 & cc & new_id & direct & inv & r & RUN & EQ).
    rewrite EQ in E. destruct (curves (length direct) inv direct) as [cl op] eqn:EC.
    destruct (closed && negb (length op =? 0)%nat); [discriminate|]. injection E as <-. cbn [polygons lines].
    exists direct, inv. pose proof (renumber_keys _ _ _ (cr_renumber _ _ _ _ _ _ _ _ _ _ _ _ (ru_crown_run _ _ _ _ _ _ _ _ _ _ _ _ _ RUN))) as N.
    split; auto. eapply curves_ordered; eauto.
  Qed.
End Closed.
