(** Proofs about the clipping of a mesh: the clipped crown and the clipped mesh. *)
From Coq Require Import Reals List Arith Bool Lia Lra Psatz Sorting.Sorted.
From Verif Require Import M_base P_base M_merge P_merge M_plane M_mesh S_merge S_mesh P_mesh S_geometry S_plane P_plane
  M_connectivity M_clipper S_clipper P_hull P_cut P_clipper P_crown P_parts.
Import ListNotations.
Open Scope R_scope.

(** ** What the outcome of a face looks like *)
Definition known (n : nat) (ics : list (nat * cls)) (cut : cutting) (i : nat) : Prop :=
  In i (map fst ics) \/ exists k, (k < length (q_edges cut))%nat /\ i = (n + k)%nat.
Ltac known_tac := first [left; simpl; tauto | right; exists 0%nat; simpl; split; lia | right; exists 1%nat; simpl; split; lia].
Lemma turned_in : forall X (l l' : list X) x, turned l l' -> (In x l' <-> In x l).
Proof.
  intros X l l' x [k ->]. rewrite <- (firstn_skipn k l) at 3. rewrite !in_app_iff. tauto.
Qed.
Lemma known_turned : forall n ics ics' cut i, turned ics ics' -> known n ics' cut i -> known n ics cut i.
Proof.
  intros n ics ics' cut i T [I|I]; [left|right; auto]. apply (turned_map _ _ fst) in T. apply (turned_in _ _ _ i T). auto.
Qed.
Lemma outcome_faces : forall n ics cut, outcome n ics (Ok cut) ->
  forall l, In l (q_faces cut) -> length l = 4%nat /\ Forall (known n ics cut) l.
Proof.
  intros n ics cut H.
  assert (K : exists ics', turned ics ics' /\ forall l, In l (q_faces cut) -> length l = 4%nat /\ Forall (known n ics' cut) l).
  { inversion H as [ics' c T C|ics' c T C|ics' c T C|]; subst; exists ics'; (split; [auto|]); clear - C;
      destruct C; intros l' I; simpl in I; repeat destruct I as [<-|I]; try contradiction;
      (split; [reflexivity|]); repeat (constructor; [known_tac|]); constructor. }
  destruct K as (ics' & T & K). intros l I. destruct (K l I) as [L F]. split; auto.
  eapply Forall_impl; [|exact F]. intros i. apply known_turned; auto.
Qed.
Lemma outcome_bound : forall n ics cut, outcome n ics (Ok cut) ->
  forall x y, q_bound cut = Some (x, y) -> known n ics cut x /\ known n ics cut y.
Proof.
  intros n ics cut H.
  assert (K : exists ics', turned ics ics' /\ forall x y, q_bound cut = Some (x, y) -> known n ics' cut x /\ known n ics' cut y).
  { inversion H as [ics' c T C|ics' c T C|ics' c T C|]; subst; exists ics'; (split; [auto|]); clear - C;
      destruct C; intros x y I; simpl in I; try discriminate; injection I as <- <-; split; known_tac. }
  destruct K as (ics' & T & K). intros x y I. destruct (K x y I). split; eapply known_turned; eauto.
Qed.
Lemma outcome_dropped : forall n ics cut, outcome n ics (Ok cut) -> (length ics = 3 \/ length ics = 4)%nat ->
  (q_faces cut = [] <-> ~ In B (map snd ics)).
Proof.
  intros n ics cut H L.
  assert (K : exists ics', turned ics ics' /\ (q_faces cut = [] <-> ~ In B (map snd ics'))).
  { inversion H as [ics' c T C|ics' c T C|ics' c T C|]; subst; exists ics'; (split; [auto|]).
    - assert (L' : (length ics' = 3 \/ length ics' = 4)%nat).
      { pose proof (Permutation.Permutation_length (turned_perm _ _ _ T)). lia. }
      clear - C L'. destruct C; simpl map; simpl q_faces; (split; [try discriminate|]); try (simpl; tauto).
      + intros N. exfalso. apply N. destruct ca, cb, cc, cd; simpl in *; try discriminate; try lia; auto 6.
      + intros N. exfalso. apply N. destruct ca, cb, cc; simpl in *; try discriminate; try lia; auto 6.
      + intros _ I. rewrite forallb_forall in H. specialize (H _ I). discriminate.
    - clear - C. destruct C; simpl; split; [discriminate|tauto|discriminate|tauto|discriminate|tauto|discriminate|tauto|discriminate|tauto|discriminate|tauto].
    - clear - C. destruct C; simpl; split; [discriminate|tauto|discriminate|tauto]. }
  destruct K as (ics' & T & K). rewrite K. apply (turned_map _ _ snd) in T. rewrite (turned_in _ _ _ B T). tauto.
Qed.

(** ** Dictionaries *)
Lemma od_set_in : forall d a b x, In x (od_set d a b) -> x = (a, b) \/ In x d.
Proof.
  induction d as [|[k v] d IH]; intros a b x H; simpl in H.
  - destruct H as [<-|[]]; auto.
  - destruct (a =? k)%nat eqn:E; simpl in H.
    + apply Nat.eqb_eq in E. subst. destruct H as [<-|H]; simpl; auto.
    + destruct H as [<-|H]; simpl; auto. destruct (IH _ _ _ H); auto.
Qed.
Definition pairs_below (N : nat) (d : list (nat * nat)) : Prop := forall x y, In (x, y) d -> (x < N /\ y < N)%nat.
Lemma renumber_ok_dict : forall ids d, pairs_below (length ids) d -> exists d', renumber_dict ids d = Ok d'.
Proof.
  intros ids d P. unfold renumber_dict.
  destruct (mapM_ok _ _ (fun e => do a <- get ids (fst e); do b <- get ids (snd e); Ok (a, b)) d) as (l & E & _).
  - intros [x y] I. destruct (P x y I) as [X Y]. destruct (nth_error_lt _ _ _ X) as [a HA]. destruct (nth_error_lt _ _ _ Y) as [b HB].
    cbn [fst snd]. rewrite (get_some _ _ _ _ HA). cbn [bind]. rewrite (get_some _ _ _ _ HB). cbn [bind]. eauto.
  - rewrite E. cbn [bind]. eauto.
Qed.

(** ** Three corners within tolerance *)
Section Crown.
  Variables (p : plane) (tol : R).
  Hypothesis T0 : 0 <= tol.

  Lemma near_O : forall x, classed tol (height p x) O <-> is_near p tol x. Proof. reflexivity. Qed.
  Lemma three_near_O : forall vs f, proper p tol vs f ->
    (threeO (map snd (ics_of p tol vs f)) = true <-> three_near p tol (outline vs f)).
  Proof.
    intros vs f P. pose proof (ics_seen p tol vs T0 (nth_error vs) f P (nth_point vs)) as S.
    assert (DEC : forall x c, classed tol (height p x) c -> (is_near p tol x <-> c = O)).
    { intros x c C. split; intros H; [|subst; exact C]. apply (classed_dec tol (height p x)); auto. }
    destruct (ics_of p tol vs f) as [|[i ci] [|[j cj] [|[k ck] [|[l cl] [|? ?]]]]] eqn:E;
      pose proof (ics_length p tol vs f) as L; rewrite E in L; simpl in L; try lia.
    - assert (N : length (outline vs f) = 3%nat) by (rewrite <- (Forall2_len _ _ _ _ _ S); reflexivity).
      split; [discriminate|]. intros (a & b & c & d & T & _). apply turned_perm, Permutation.Permutation_length in T. simpl in T. lia.
    - remember (outline vs f) as ps eqn:EP. clear E EP P.
      inversion S as [|? w ? ? [_ W] S1]; subst; clear S. inversion S1 as [|? x ? ? [_ X] S2]; subst; clear S1.
      inversion S2 as [|? y ? ? [_ Y] S3]; subst; clear S2. inversion S3 as [|? z ? ? [_ Z] S4]; subst; clear S3. inversion S4; subst; clear S4.
      apply DEC in W. apply DEC in X. apply DEC in Y. apply DEC in Z. simpl in W, X, Y, Z. unfold threeO. cbn [map snd length].
      split.
      + intros H. unfold three_near.
        destruct ci, cj, ck, cl; try discriminate H.
        * exists x, y, z, w. split; [exists 1%nat; reflexivity|]. rewrite W, X, Y, Z. repeat split; auto; discriminate.
        * exists y, z, w, x. split; [exists 2%nat; reflexivity|]. rewrite W, X, Y, Z. repeat split; auto; discriminate.
        * exists z, w, x, y. split; [exists 3%nat; reflexivity|]. rewrite W, X, Y, Z. repeat split; auto; discriminate.
        * exists w, x, y, z. split; [exists 0%nat; reflexivity|]. rewrite W, X, Y, Z. repeat split; auto; discriminate.
        * exists w, x, y, z. split; [exists 0%nat; reflexivity|]. rewrite W, X, Y, Z. repeat split; auto; discriminate.
        * exists z, w, x, y. split; [exists 3%nat; reflexivity|]. rewrite W, X, Y, Z. repeat split; auto; discriminate.
        * exists y, z, w, x. split; [exists 2%nat; reflexivity|]. rewrite W, X, Y, Z. repeat split; auto; discriminate.
        * exists x, y, z, w. split; [exists 1%nat; reflexivity|]. rewrite W, X, Y, Z. repeat split; auto; discriminate.
      + intros (a & b & c & d & [m T] & HA & HB & HC & HD).
        destruct m as [|[|[|[|m]]]]; simpl in T; rewrite ?skipn_nil, ?firstn_nil in T; simpl in T; injection T as -> -> -> ->;
          destruct ci, cj, ck, cl; simpl; auto; exfalso; intuition congruence.
  Qed.

  Lemma turned4 : forall (ps : list vec) a b c d, turned ps [a; b; c; d] -> turned ps [c; d; a; b] /\ turned ps [b; c; d; a].
  Proof.
    intros ps a b c d T. pose proof (Permutation.Permutation_length (turned_perm _ _ _ T)) as L. destruct T as [k T].
    destruct ps as [|w [|x [|y [|z [|? ?]]]]]; simpl in L; try lia.
    destruct k as [|[|[|[|k]]]]; simpl in T; rewrite ?skipn_nil, ?firstn_nil in T; simpl in T; injection T as -> -> -> ->; split.
    - exists 2%nat; reflexivity. - exists 1%nat; reflexivity. - exists 3%nat; reflexivity. - exists 2%nat; reflexivity.
    - exists 0%nat; reflexivity. - exists 3%nat; reflexivity. - exists 1%nat; reflexivity. - exists 0%nat; reflexivity.
    - exists 2%nat; reflexivity. - exists 1%nat; reflexivity.
  Qed.

  (** ** The faces kept *)
  Lemma convex_crosses : forall ps, convex_outline ps -> crosses ps.
  Proof. intros ps H. destruct ps as [|a [|b [|c [|d [|? ?]]]]]; simpl in *; auto. apply convex_crossing; auto. Qed.

  Lemma face_kept : forall vs V f t, proper p tol vs f -> (forall i, (i < length vs)%nat -> V i = Some (point vs i)) ->
    convex_outline (outline vs f) -> ~ pinched p tol (outline vs f) -> done p tol vs V f t ->
    exists outs, looks V (q_faces (t_cut t)) outs /\ kept_part p tol (outline vs f) outs.
  Proof.
    intros vs V f t P HV CV NP (OC & CT & NT). pose proof (ics_seen p tol vs T0 V f P HV) as S.
    pose proof (convex_crosses _ CV) as X.
    inversion OC as [ics' c T C|ics' c T C|ics' c T C|]; subst.
    - destruct (Forall2_turned _ _ _ _ _ _ S T) as (pts' & T' & S').
      destruct (canon_kept p tol T0 V _ _ _ pts' (t_ints t) C S') as (outs & LO & K); auto.
      { eapply crosses_turned; eauto. }
      exists outs. split; auto. eapply kept_turned; eauto. apply outline_length.
    - destruct (Forall2_turned _ _ _ _ _ _ S T) as (pts' & T' & S'). exfalso.
      eapply saddle_impossible; eauto. eapply crosses_turned; eauto.
    - destruct (Forall2_turned _ _ _ _ _ _ S T) as (pts' & T' & S'). exfalso. apply NP. clear - C S' T'.
      destruct C; inversion S' as [|? w ? ? [_ W] S1]; subst; clear S'; inversion S1 as [|? x ? ? [_ X] S2]; subst; clear S1;
      inversion S2 as [|? y ? ? [_ Y] S3]; subst; clear S2; inversion S3 as [|? z ? ? [_ Z] S4]; subst; clear S3; inversion S4; subst; clear S4;
      destruct (turned4 _ _ _ _ _ T') as [T2 T1]; simpl in W, X, Y, Z.
      + exists y, z, w, x. split; [exact T2|]. split; [exact Y|]. split; [exact Z|]. left. split; [exact W|exact X].
      + exists x, y, z, w. split; [exact T1|]. split; [exact X|]. split; [exact Y|]. right. split; [exact Z|exact W].
  Qed.

  Lemma faces_array_ok : forall ls, ls <> [] -> (forall l, In l ls -> length l = 4%nat) ->
    exists fs, faces_array ls = Ok fs /\ Forall2 (fun l f => l = entries f) ls fs.
  Proof.
    intros ls NE L4.
    destruct (mapM_ok _ _ to_face ls) as (fs & E & F).
    - intros l I. specialize (L4 l I). destruct l as [|a [|b [|c [|d [|? ?]]]]]; simpl in L4; try lia. simpl. eauto.
    - exists fs. split.
      + unfold faces_array. destruct ls as [|l t]; [contradiction|].
        assert (forallb (fun l' => length l' =? length l)%nat t = true) as ->; [|exact E].
        apply forallb_forall. intros l' I. rewrite (L4 l), (L4 l') by (simpl; auto). reflexivity.
      + eapply Forall2_impl'; [|exact F]. intros l f _ H. simpl in H. destruct l as [|a [|b [|c [|d [|? ?]]]]]; simpl in H; try discriminate.
        injection H as <-. reflexivity.
  Qed.

  Lemma dict_below : forall N (f : option (nat * nat) -> list (nat * nat) -> list (nat * nat)) bs d,
    (forall b d', In b bs -> pairs_below N d' -> pairs_below N (f b d')) -> pairs_below N d ->
    pairs_below N (fold_left (fun d b => f b d) bs d).
  Proof. induction bs; simpl; intros d H D; auto. Qed.

  (** Everything that happens to a crown that is not refused *)
  Record crown_run (argsort : list R -> list nat) (vs : list vec) (fs : list face) (st : crown_state) (ts : list turn_of)
      (fs4 : list face) (m' : mesh) (new_id : list nat) (direct inv : list (nat * nat)) : Prop := {
    cr_loop : clip_faces p tol vs (map (plane_dist p) vs) fs = Ok st;
    cr_done : Forall2 (done p tol vs (nth_error (vs ++ cs_ints st))) fs ts;
    cr_ints : cs_ints st = concat (map t_ints ts);
    cr_faces : cs_faces st = concat (map (fun t => q_faces (t_cut t)) ts);
    cr_direct : cs_direct st = fold_left (fun d b => set_bound b d) (map (fun t => q_bound (t_cut t)) ts) [];
    cr_inv : cs_inv st = fold_left (fun d b => set_inv b d) (map (fun t => q_bound (t_cut t)) ts) [];
    cr_array : Forall2 (fun l f => l = entries f) (cs_faces st) fs4;
    cr_valid : valid (mkMesh (vs ++ cs_ints st) fs4);
    cr_merge : merge_duplicates_index argsort crown_atol (mkMesh (vs ++ cs_ints st) fs4) = Ok (m', new_id);
    cr_renumber : renumber_dict new_id (cs_direct st) = Ok direct;
    cr_renumber_inv : renumber_dict new_id (cs_inv st) = Ok inv
  }.

  Lemma crown_atol_pos : 0 <= crown_atol. Proof. unfold crown_atol. lra. Qed.

  Lemma loop_total : forall vs fs, Forall (proper p tol vs) fs -> Forall (fun f => ~ three_near p tol (outline vs f)) fs ->
    exists st ts, clip_faces p tol vs (map (plane_dist p) vs) fs = Ok st /\
      Forall2 (done p tol vs (nth_error (vs ++ cs_ints st))) fs ts /\
      cs_ints st = concat (map t_ints ts) /\ cs_faces st = concat (map (fun t => q_faces (t_cut t)) ts) /\
      cs_direct st = fold_left (fun d b => set_bound b d) (map (fun t => q_bound (t_cut t)) ts) [] /\
      cs_inv st = fold_left (fun d b => set_inv b d) (map (fun t => q_bound (t_cut t)) ts) [].
  Proof.
    intros vs fs P NT.
    assert (NT' : Forall (fun f => threeO (map snd (ics_of p tol vs f)) = false) fs).
    { rewrite Forall_forall in *. intros f I. apply Bool.not_true_iff_false. rewrite three_near_O; auto. }
    pose proof (loop_ok p tol vs T0 fs (mkCrown [] [] [] [] (length vs)) P NT') as LO. cbn zeta in LO.
    destruct LO as (ts & EF); [simpl; lia|].
    cbn zeta in EF. destruct EF as [E F]. simpl in E, F. eexists. exists ts. split; [exact E|]. simpl. auto 10.
  Qed.

  Lemma nth_app_point : forall vs xs i, (i < length vs)%nat -> nth_error (vs ++ xs) i = Some (point vs i).
  Proof. intros. rewrite nth_error_app1 by auto. apply nth_point; auto. Qed.
  Lemma known_bound : forall vs xs f t i, proper p tol vs f -> done p tol vs (nth_error (vs ++ xs)) f t ->
    known (t_index t) (ics_of p tol vs f) (t_cut t) i -> (i < length (vs ++ xs))%nat.
  Proof.
    intros vs xs f t i [VF _] (OC & CT & NT) [I|(k & K & ->)].
    - rewrite face_w_fst in I. rewrite app_length. pose proof (face_w_valid vs f i VF I). lia.
    - rewrite (Forall2_len _ _ _ _ _ CT) in K. destruct (nth_error_lt _ _ _ K) as [x X]. eapply nth_error_bound. apply NT. eauto.
  Qed.

  Lemma crown_total : forall argsort vs fs, sorting argsort -> Forall (proper p tol vs) fs ->
    Forall (fun f => ~ three_near p tol (outline vs f)) fs ->
    Exists (fun f => exists x, In x (outline vs f) /\ is_below p tol x) fs ->
    exists st ts fs4 m' new_id direct inv, crown_run argsort vs fs st ts fs4 m' new_id direct inv /\
      faces_array (cs_faces st) = Ok fs4.
  Proof.
    intros argsort vs fs SA P NT EX. destruct (loop_total vs fs P NT) as (st & ts & E & F & EX' & EF & ED & EI).
    assert (L4 : forall l, In l (cs_faces st) -> length l = 4%nat /\ Forall (fun i => (i < length (vs ++ cs_ints st))%nat) l).
    { intros l I. rewrite EF in I. apply in_concat in I as (g & G & I). apply in_map_iff in G as (t & <- & G).
      apply In_nth_error in G as [k G]. destruct (Forall2_nth_error_r _ _ _ _ _ F k t G) as (f & HF & D).
      destruct (outcome_faces _ _ _ (proj1 D) l I) as [L K]. split; auto. rewrite Forall_forall in *. intros i Hi.
      eapply known_bound; eauto. apply P. eapply nth_error_In; eauto. }
    assert (NE : cs_faces st <> []).
    { apply Exists_exists in EX as (f & IF & x & IX & BX). apply In_nth_error in IF as [k K].
      destruct (Forall2_nth_error _ _ _ _ _ F k f K) as (t & HT & D). intros Z. rewrite EF in Z.
      assert (ZF : q_faces (t_cut t) = []).
      { apply incl_l_nil. rewrite <- Z. intros l I. apply in_concat. exists (q_faces (t_cut t)). split; auto.
        apply in_map_iff. exists t. split; auto. eapply nth_error_In; eauto. }
      apply (outcome_dropped _ _ _ (proj1 D) (ics_length _ _ _ _)) in ZF. apply ZF.
      rewrite Forall_forall in P. pose proof (P f (nth_error_In _ _ K)) as PF.
      pose proof (ics_seen p tol vs T0 (nth_error vs) f PF (nth_point vs)) as S.
      apply In_nth_error in IX as [q IX]. destruct (Forall2_nth_error_r _ _ _ _ _ S q x IX) as ((i & c) & IC & _ & C).
      simpl in C. assert (c = B) by (apply (classed_dec tol (height p x)); auto). subst c.
      apply in_map_iff. exists (i, B). split; auto. eapply nth_error_In; eauto. }
    destruct (faces_array_ok (cs_faces st) NE) as (fs4 & EA & FA); [intros; apply L4; auto|].
    assert (V : valid (mkMesh (vs ++ cs_ints st) fs4)).
    { unfold valid. simpl. apply Forall_forall. intros f I. apply In_nth_error in I as [k K].
      destruct (Forall2_nth_error_r _ _ _ _ _ FA k f K) as (l & HL & ->). destruct (L4 _ (nth_error_In _ _ HL)) as [_ FL].
      unfold entries in FL. rewrite Forall_forall in FL. unfold valid_face. repeat split; apply FL; simpl; auto. }
    assert (NV : verts (mkMesh (vs ++ cs_ints st) fs4) <> []).
    { simpl. intros Z. destruct (cs_faces st) as [|l ?]; [auto|]. destruct (L4 l (or_introl eq_refl)) as [L FL].
      rewrite Z in FL. destruct l; [discriminate|]. inversion FL; subst. simpl in *. lia. }
    destruct (merge_mesh argsort crown_atol _ SA crown_atol_pos NV V) as (m' & ids & EM & _ & VM & MM & _ & _).
    assert (LI : length ids = length (vs ++ cs_ints st)) by (apply (merged_ids _ _ _ _ _ MM)).
    assert (KB : forall x y, In (Some (x, y)) (map (fun t => q_bound (t_cut t)) ts) -> (x < length ids /\ y < length ids)%nat).
    { intros x y I. apply in_map_iff in I as (t & Q & I). apply In_nth_error in I as [k K].
      destruct (Forall2_nth_error_r _ _ _ _ _ F k t K) as (f & HF & D). destruct (outcome_bound _ _ _ (proj1 D) _ _ Q).
      rewrite LI. rewrite Forall_forall in P. pose proof (P f (nth_error_In _ _ HF)). split; eapply known_bound; eauto. }
    destruct (renumber_ok_dict ids (cs_direct st)) as [direct RD].
    { rewrite ED. apply dict_below; [|intros x y []]. intros b d I D x y J. destruct b as [[u v]|]; simpl in J; [|auto].
      apply od_set_in in J as [J|J]; [injection J as -> ->; apply KB; auto|auto]. }
    destruct (renumber_ok_dict ids (cs_inv st)) as [inv RI].
    { rewrite EI. apply dict_below; [|intros x y []]. intros b d I D x y J. destruct b as [[u v]|]; simpl in J; [|auto].
      apply od_set_in in J as [J|J]; [injection J as -> ->; destruct (KB _ _ I); auto|auto]. }
    exists st, ts, fs4, m', ids, direct, inv. split; auto. split; auto.
  Qed.

  Lemma crown_dropped : forall vs fs, Forall (proper p tol vs) fs -> Forall (fun f => ~ three_near p tol (outline vs f)) fs ->
    ~ Exists (fun f => exists x, In x (outline vs f) /\ is_below p tol x) fs ->
    exists st, clip_faces p tol vs (map (plane_dist p) vs) fs = Ok st /\ cs_faces st = [].
  Proof.
    intros vs fs P NT NX. destruct (loop_total vs fs P NT) as (st & ts & E & F & _ & EF & _ & _). exists st. split; auto.
    rewrite EF. apply incl_l_nil. intros l I. exfalso. apply in_concat in I as (g & G & I). apply in_map_iff in G as (t & <- & G).
    apply In_nth_error in G as [k G]. destruct (Forall2_nth_error_r _ _ _ _ _ F k t G) as (f & HF & D).
    assert (ZF : q_faces (t_cut t) = []); [|rewrite ZF in I; contradiction].
    apply (outcome_dropped _ _ _ (proj1 D) (ics_length _ _ _ _)). intros IB. apply NX. apply Exists_exists.
    rewrite Forall_forall in P. pose proof (P f (nth_error_In _ _ HF)) as PF. exists f. split; [eapply nth_error_In; eauto|].
    pose proof (ics_seen p tol vs T0 (nth_error vs) f PF (nth_point vs)) as S.
    apply in_map_iff in IB as ((i & c) & EB & IB). simpl in EB. subst c. apply In_nth_error in IB as [q IB].
    destruct (Forall2_nth_error _ _ _ _ _ S q _ IB) as (x & HX & _ & C). exists x. split; [eapply nth_error_In; eauto|exact C].
  Qed.
End Crown.
