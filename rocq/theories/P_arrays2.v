(** Proofs about programs with several meshes and arrays of the caller. *)
From Coq Require Import Ascii String Reals List Arith NArith Bool Lia.
From Verif Require Import M_base M_merge M_plane M_rotations M_mesh M_inertia M_geometry M_connectivity M_cache M_text M_arrays
  S_arrays P_base P_merge P_mesh P_curves P_geometry P_arrays.
Import ListNotations.
Local Open Scope nat_scope.

(** ** Other objects *)
(** The arrays of [o] are the same in both heaps. *)
Definition untouched (h h' : heap) (o : obj) : Prop :=
  (forall a, In a (own_points o) -> nth_error (h_points h') a = nth_error (h_points h) a) /\
  (forall a, In a (own_faces o) -> nth_error (h_faces h') a = nth_error (h_faces h) a) /\
  (forall a, In a (own_numbers o) -> nth_error (h_numbers h') a = nth_error (h_numbers h) a).
Lemma nth_same : forall A (l l' : list (list A)) a, nth_error l' a = nth_error l a -> nth a l' [] = nth a l [].
Proof.
intros A l l' a E; destruct (nth_error l a) as [x|] eqn:F.
- rewrite (nth_error_nth _ _ _ E), (nth_error_nth _ _ _ F); reflexivity.
- apply nth_error_None in E, F; rewrite !nth_overflow by assumption; reflexivity.
Qed.
Lemma same_lt : forall A (l l' : list A) a, nth_error l' a = nth_error l a -> a < length l -> a < length l'.
Proof. intros A l l' a E L; apply nth_error_Some; rewrite E; apply nth_error_Some, L. Qed.
Lemma untouched_good : forall h h' o, untouched h h' o -> good (h, o) -> good (h', o) /\ vw (h', o) = vw (h, o).
Proof.
intros [hp hf hn] [hp' hf' hn'] [ov of [[[pa pn] pc]|] oi oc os od om] (U & V & W) G; cbn in U, V, W; goods.
- pose proof (U ov (or_introl eq_refl)) as Uv; pose proof (U pn (or_intror (or_introl eq_refl))) as Un;
  pose proof (U pc (or_intror (or_intror (or_introl eq_refl)))) as Uc; pose proof (V of (or_introl eq_refl)) as Vf;
  pose proof (W pa (or_introl eq_refl)) as Wa.
  split; [apply good_some; rewrite (nth_same _ _ _ _ Un), (nth_same _ _ _ _ Uc), (nth_same _ _ _ _ Wa);
    repeat split; try assumption; eapply same_lt; eassumption|].
  unfold vw, view, points, rows, props_value, numbers; cbn; unfold points, numbers; cbn.
  rewrite (nth_same _ _ _ _ Uv), (nth_same _ _ _ _ Un), (nth_same _ _ _ _ Uc), (nth_same _ _ _ _ Vf), (nth_same _ _ _ _ Wa); reflexivity.
- pose proof (U ov (or_introl eq_refl)) as Uv; pose proof (V of (or_introl eq_refl)) as Vf.
  split; [apply good_none; split; eapply same_lt; eassumption|].
  unfold vw, view, points, rows; cbn; rewrite (nth_same _ _ _ _ Uv), (nth_same _ _ _ _ Vf); reflexivity.
Qed.
Lemma good_points : forall h o a, good (h, o) -> In a (own_points o) -> a < length (h_points h).
Proof. intros h o a ((_ & I) & _) J; apply I, J. Qed.
Lemma good_faces : forall h o a, good (h, o) -> In a (own_faces o) -> a < length (h_faces h).
Proof. intros h o a (_ & (_ & I) & _) J; apply I, J. Qed.
Lemma good_numbers : forall h o a, good (h, o) -> In a (own_numbers o) -> a < length (h_numbers h).
Proof. intros h o a (_ & _ & (_ & I) & _) J; apply I, J. Qed.
Lemma framed_untouched : forall z z' o, framed z z' -> good (fst z, o) -> not_shared (snd z) o -> untouched (fst z) (fst z') o.
Proof.
intros z z' o (A & B & C) G (D & E & F); split; [|split]; intros a I.
- apply (k_old _ _ _ _ A); [eapply good_points; eassumption|intros J; eapply D; eassumption].
- apply (k_old _ _ _ _ B); [eapply good_faces; eassumption|intros J; eapply E; eassumption].
- apply (k_old _ _ _ _ C); [eapply good_numbers; eassumption|intros J; eapply F; eassumption].
Qed.
(** What an object gets is its own or new. *)
Lemma framed_shared : forall z z' o, framed z z' -> good (fst z, o) -> not_shared (snd z) o -> not_shared (snd z') o.
Proof.
intros z z' o (A & B & C) G (D & E & F); split; [|split]; intros a I J.
- apply (k_own _ _ _ _ A) in I as [I|I]; [eapply D; eassumption|apply (good_points _ _ _ G) in J; lia].
- apply (k_own _ _ _ _ B) in I as [I|I]; [eapply E; eassumption|apply (good_faces _ _ _ G) in J; lia].
- apply (k_own _ _ _ _ C) in I as [I|I]; [eapply F; eassumption|apply (good_numbers _ _ _ G) in J; lia].
Qed.
Lemma not_shared_sym : forall o o', not_shared o o' -> not_shared o' o.
Proof. intros o o' (A & B & C); split; [|split]; intros a I J; [eapply A|eapply B|eapply C]; eassumption. Qed.

(** ** Worlds *)
Definition wf (w : world) : Prop :=
  (forall k o, nth_error (w_meshes w) k = Some o -> good (w_heap w, o)) /\ all_own w.
Lemma wf_start : wf start.
Proof. split; [intros [|k] o E; discriminate E|intros [|k] l o o' _ E; discriminate E]. Qed.

(** A step of mesh [k] *)
Lemma wf_self : forall w k o z, wf w -> nth_error (w_meshes w) k = Some o -> good z -> framed (w_heap w, o) z ->
  wf (with_self w k z) /\ nth_error (w_meshes (with_self w k z)) k = Some (snd z) /\
  forall l o', l <> k -> nth_error (w_meshes w) l = Some o' ->
    nth_error (w_meshes (with_self w k z)) l = Some o' /\ view (fst z) o' = view (w_heap w) o'.
Proof.
intros w k o z [W S] K G F.
assert (L : k < length (w_meshes w)) by (apply nth_error_Some; congruence).
assert (T : nth_error (w_meshes (with_self w k z)) k = Some (snd z)) by (cbn; apply set_nth_same, L).
assert (O : forall l, l <> k -> nth_error (w_meshes (with_self w k z)) l = nth_error (w_meshes w) l)
  by (intros l N; cbn; apply set_nth_other; congruence).
assert (U : forall l o', l <> k -> nth_error (w_meshes w) l = Some o' -> good (fst z, o') /\ vw (fst z, o') = vw (w_heap w, o')).
{ intros l o' N E. apply (untouched_good (w_heap w)); [|apply W with l, E].
  apply (framed_untouched (w_heap w, o)); [exact F|apply W with l, E|apply (S k l); [congruence|exact K|exact E]]. }
split; [|split; [exact T|intros l o' N E; split; [rewrite O by exact N; exact E|apply (U l o' N E)]]].
split.
- intros l o' E; destruct (Nat.eq_dec l k) as [->|N].
  + rewrite T in E; injection E as <-; destruct z; exact G.
  + rewrite O in E by exact N; apply (U l o' N E).
- intros l m o1 o2 N E1 E2; destruct (Nat.eq_dec l k) as [->|N1], (Nat.eq_dec m k) as [->|N2]; [congruence| | |].
  + rewrite T in E1; injection E1 as <-; rewrite O in E2 by exact N2.
    apply (framed_shared (w_heap w, o)); [exact F|apply W with m, E2|apply (S k m); [congruence|exact K|exact E2]].
  + rewrite T in E2; injection E2 as <-; rewrite O in E1 by exact N1; apply not_shared_sym.
    apply (framed_shared (w_heap w, o)); [exact F|apply W with l, E1|apply (S k l); [congruence|exact K|exact E1]].
  + rewrite O in E1, E2 by assumption; apply (S l m); assumption.
Qed.

Lemma some_app : forall A (l m : list A) k x, nth_error l k = Some x -> nth_error (l ++ m) k = Some x.
Proof. intros A l m k x E; rewrite nth_error_app1; [exact E|apply nth_error_Some; congruence]. Qed.

(** A heap that only grows *)
Definition grown (h h' : heap) : Prop :=
  (exists x, h_points h' = h_points h ++ x) /\ (exists x, h_faces h' = h_faces h ++ x) /\ (exists x, h_numbers h' = h_numbers h ++ x).
Lemma grown_untouched : forall h h' o, grown h h' -> good (h, o) -> untouched h h' o.
Proof.
intros h h' o ((x & A) & (y & B) & (t & C)) G; split; [|split]; intros a I;
[rewrite A|rewrite B|rewrite C]; apply nth_error_app1; [eapply good_points|eapply good_faces|eapply good_numbers]; eassumption.
Qed.
(** A new mesh with new arrays only *)
Definition all_new (h : heap) (o : obj) : Prop :=
  (forall a, In a (own_points o) -> length (h_points h) <= a) /\ (forall a, In a (own_faces o) -> length (h_faces h) <= a) /\
  (forall a, In a (own_numbers o) -> length (h_numbers h) <= a).
Lemma new_not_shared : forall h o o', all_new h o -> good (h, o') -> not_shared o o'.
Proof.
intros h o o' (A & B & C) G; split; [|split]; intros a I J.
- apply A in I; apply (good_points _ _ _ G) in J; lia.
- apply B in I; apply (good_faces _ _ _ G) in J; lia.
- apply C in I; apply (good_numbers _ _ _ G) in J; lia.
Qed.
Lemma nth_last : forall A (l : list A) x k o, nth_error (l ++ [x]) k = Some o -> nth_error l k = Some o \/ k = length l /\ o = x.
Proof.
intros A l x k o E; destruct (lt_dec k (length l)) as [L|L].
- rewrite nth_error_app1 in E by exact L; left; exact E.
- right; assert (k < length (l ++ [x])) by (apply nth_error_Some; congruence).
  rewrite app_length in H; cbn in H. assert (k = length l) as -> by lia.
  rewrite nth_error_app2, Nat.sub_diag in E by lia; injection E as <-; auto.
Qed.
Lemma wf_add : forall w h o n, wf w -> grown (w_heap w) h -> good (h, o) -> all_new (w_heap w) o ->
  wf (mkWorld h (w_meshes w ++ [o]) n) /\
  forall l o', nth_error (w_meshes w) l = Some o' -> nth_error (w_meshes w ++ [o]) l = Some o' /\ view h o' = view (w_heap w) o'.
Proof.
intros w h o n [W S] Gr G N.
assert (U : forall l o', nth_error (w_meshes w) l = Some o' -> good (h, o') /\ vw (h, o') = vw (w_heap w, o'))
  by (intros l o' E; apply untouched_good; [apply grown_untouched; [exact Gr|]|]; apply W with l, E).
split; [|intros l o' E; split; [apply some_app, E|apply (U l o' E)]].
split; cbn.
- intros k o' E; apply nth_last in E as [E|(-> & ->)]; [apply (U k o' E)|exact G].
- intros k l o1 o2 K E1 E2; cbn in E1, E2; apply nth_last in E1, E2; destruct E1 as [E1|(E1 & ->)], E2 as [E2|(E2 & ->)].
  + apply (S k l); assumption.
  + apply not_shared_sym, (new_not_shared (w_heap w)); [exact N|apply W with k, E1].
  + apply (new_not_shared (w_heap w)); [exact N|apply W with l, E2].
  + congruence.
Qed.
Lemma wf_grow : forall w h n, wf w -> grown (w_heap w) h ->
  wf (mkWorld h (w_meshes w) n) /\ forall l o', nth_error (w_meshes w) l = Some o' -> view h o' = view (w_heap w) o'.
Proof.
intros w h n [W S] Gr.
assert (U : forall l o', nth_error (w_meshes w) l = Some o' -> good (h, o') /\ vw (h, o') = vw (w_heap w, o'))
  by (intros l o' E; apply untouched_good; [apply grown_untouched; [exact Gr|]|]; apply W with l, E).
split; [|intros l o' E; apply (U l o' E)].
split; [intros k o' E; apply (U k o' E)|exact S].
Qed.

Lemma make_spec : forall m name w, exists o, make m name w = mkWorld (w_heap (make m name w)) (w_meshes w ++ [o]) (S (w_next w)) /\
  grown (w_heap w) (w_heap (make m name w)) /\ good (w_heap (make m name w), o) /\ all_new (w_heap w) o /\
  view (w_heap (make m name w)) o = fresh m /\ o_id o = w_next w /\
  o_name o = match name with [] => auto_name (w_next w) | _ => name end.
Proof.
intros m name [[hp hf hn] ms n]; eexists; split; [reflexivity|]. cbn; split; [|split; [|split; [|split; [|split]]]]; try reflexivity.
- split; [eexists; reflexivity|split; [eexists; reflexivity|exists []; symmetry; apply app_nil_r]].
- apply good_none; rewrite !app_length; cbn; lia.
- split; [|split]; cbn; intros a I; intuition lia.
- unfold view, fresh, points, rows; cbn; rewrite !nth_app_new; destruct m; reflexivity.
Qed.
Lemma copied_spec : forall h o, good (h, o) -> grown h (fst (copied h o)) /\ good (copied h o) /\ all_new h (snd (copied h o)) /\
  vw (copied h o) = view h o /\ o_id (snd (copied h o)) = o_id o /\ o_name (snd (copied h o)) = o_name o.
Proof.
intros [hp hf hn] [ov of [[[pa pn] pc]|] oi oc os od om] G; goods.
- unfold copied; cbn [o_props o_verts o_faces o_ids o_conn o_ints o_id o_name].
  set (z := replace_faces _ _).
  assert (G0 : good z).
  { apply (moves_replace_faces _ _), (moves_replace_verts _ _), good_none; split; assumption. }
  assert (V : vw z = CM (mkMesh (nth ov hp []) (nth of hf [])) None oi oc os).
  { unfold z; rewrite vw_replace_faces, vw_replace_verts; [reflexivity|apply good_none; split; assumption|].
    apply (moves_replace_verts _ _), good_none; split; assumption. }
  split; [|split; [|split; [|split; [|split; reflexivity]]]].
  + split; [|split]; cbn; [|eexists; reflexivity..]. eexists; rewrite <- !app_assoc; reflexivity.
  + apply (moves_store_props _ z eq_refl), G0.
  + split; [|split]; cbn; intros a I; rewrite ?app_length in I; cbn in I; intuition lia.
  + rewrite vw_store_props by exact G0; rewrite V; reflexivity.
- unfold copied; cbn [o_props o_verts o_faces o_ids o_conn o_ints o_id o_name].
  split; [|split; [|split; [|split; [|split; reflexivity]]]].
  + split; [|split]; cbn; [eexists; reflexivity..|]. exists []; symmetry; apply app_nil_r.
  + apply (moves_replace_faces _ _), (moves_replace_verts _ _), good_none; split; assumption.
  + split; [|split]; cbn; intros a I; intuition lia.
  + unfold vw, view, points, rows; cbn; rewrite !nth_app_new; reflexivity.
Qed.

(** Writing *)
Lemma nth_set_length : forall A (l : list (list A)) a b x, length x = length (nth a l []) ->
  length (nth b (set_nth l a x) []) = length (nth b l []).
Proof.
intros A l a b x E; destruct (Nat.eq_dec a b) as [<-|N]; [|rewrite nth_set_other by exact N; reflexivity].
destruct (lt_dec a (length l)) as [L|L]; [rewrite nth_set_same by exact L; exact E|].
rewrite !nth_overflow; [reflexivity|lia|rewrite set_nth_length; lia].
Qed.
Lemma write_points_good : forall h o a x, good (h, o) -> length x = length (points h a) -> good (write_points a x h, o).
Proof.
intros [hp hf hn] [ov of [[[pa pn] pc]|] oi oc os od om] a x G E; goods; unfold write_points; cbn in *.
- apply good_some; rewrite set_nth_length, !nth_set_length by exact E; tauto.
- apply good_none; rewrite set_nth_length; tauto.
Qed.
Lemma write_faces_good : forall h o a x, good (h, o) -> good (write_faces a x h, o).
Proof.
intros [hp hf hn] [ov of [[[pa pn] pc]|] oi oc os od om] a x G; goods; unfold write_faces; cbn in *.
- apply good_some; rewrite set_nth_length; tauto.
- apply good_none; rewrite set_nth_length; tauto.
Qed.
Lemma write_numbers_good : forall h o a x, good (h, o) -> length x = length (numbers h a) -> good (write_numbers a x h, o).
Proof.
intros [hp hf hn] [ov of [[[pa pn] pc]|] oi oc os od om] a x G E; goods; unfold write_numbers; cbn in *.
- apply good_some; rewrite set_nth_length, !nth_set_length by exact E; tauto.
- apply good_none; tauto.
Qed.
Lemma write_untouched : forall h o a x y t,
  (~ In a (own_points o) -> untouched h (write_points a x h) o) /\ (~ In a (own_faces o) -> untouched h (write_faces a y h) o) /\
  (~ In a (own_numbers o) -> untouched h (write_numbers a t h) o).
Proof.
intros h o a x y t; split; [|split]; intros N; split; [|split| |split| |split]; cbn; intros b I; try reflexivity;
apply set_nth_other; intros ->; contradiction.
Qed.

Section Actions.
  Variable argsort : list R -> list nat.
  Variable order : list nat -> list nat.
  Notation act := (act argsort order).
  Notation exec := (exec argsort order).

  Lemma mesh_at_ok : forall w k o, mesh_at w k = Ok o -> nth_error (w_meshes w) k = Some o.
  Proof. intros w k o E; unfold mesh_at in E; destruct (nth_error (w_meshes w) k); [congruence|discriminate]. Qed.
  Lemma array_at_ok : forall A (l : list A) a x, array_at l a = Ok x -> nth_error l a = Some x.
  Proof. intros A l a x E; unfold array_at in E; destruct (nth_error l a); [congruence|discriminate]. Qed.

  (** What an action does: all is well placed afterwards, mesh [l] is as its calls say. *)
  Definition fine (a : action) (w w' : world) (x : answer) : Prop :=
    wf w' /\ forall l o, spares l a w -> nth_error (w_meshes w) l = Some o -> exists o', nth_error (w_meshes w') l = Some o' /\
      run argsort order (call_on l a w) (view (w_heap w) o) = Ok (view (w_heap w') o', map (fun _ => x) (call_on l a w)).
  Lemma run_one : forall c s s' x, step argsort order c s = Ok (s', x) -> run argsort order [c] s = Ok (s', [x]).
  Proof. intros c s s' x E; cbn; rewrite E; reflexivity. Qed.

  (** An action that leaves all meshes alone *)
  Lemma fine_apart : forall a w w' x, wf w' -> (forall l, call_on l a w = []) ->
    (forall l o, spares l a w -> nth_error (w_meshes w) l = Some o -> nth_error (w_meshes w') l = Some o /\ view (w_heap w') o = view (w_heap w) o) ->
    fine a w w' x.
  Proof.
  intros a w w' x W C S; split; [exact W|intros l o P E]. rewrite C; cbn. destruct (S l o P E) as [E' V].
  exists o; split; [exact E'|rewrite V; reflexivity].
  Qed.
  (** A call on mesh [k] *)
  Lemma fine_call : forall a w k o z c x, wf w -> nth_error (w_meshes w) k = Some o -> good z -> framed (w_heap w, o) z ->
    (forall l, call_on l a w = if k =? l then [c] else []) -> step argsort order c (view (w_heap w) o) = Ok (vw z, x) ->
    fine a w (with_self w k z) x.
  Proof.
  intros a w k o z c x W K G F C S; destruct (wf_self w k o z W K G F) as (W' & T & O); split; [exact W'|].
  intros l o' P E; rewrite C; destruct (k =? l) eqn:L.
  - apply Nat.eqb_eq in L as <-; rewrite K in E; injection E as <-. exists (snd z); split; [exact T|]. apply run_one, S.
  - apply Nat.eqb_neq in L; destruct (O l o') as [A B]; [congruence|exact E|]. exists o'; split; [exact A|]. cbn; rewrite B; reflexivity.
  Qed.
  Lemma points_at : forall h a x, nth_error (h_points h) a = Some x -> points h a = x.
  Proof. intros h a x E; apply nth_error_nth, E. Qed.
  Lemma rows_at : forall h a x, nth_error (h_faces h) a = Some x -> rows h a = x.
  Proof. intros h a x E; apply nth_error_nth, E. Qed.

  Lemma act_fine : forall a w w' x, wf w -> act a w = Ok (w', x) -> fine a w w' x.
  Proof.
  intros a w w' x W E; destruct a as [y|y|a y|a y|a y|v f name|k|k l|k ids|k a|k a|k c]; cbn [M_arrays.act] in E.
  - injection E as <- <-. destruct (wf_grow w (fst (new_points y (w_heap w))) (w_next w) W) as [W' V].
    { split; [eexists; reflexivity|split; exists []; symmetry; apply app_nil_r]. }
    apply fine_apart; [exact W'|reflexivity|intros l o _ E; split; [exact E|apply V with l, E]].
  - injection E as <- <-. destruct (wf_grow w (fst (new_faces y (w_heap w))) (w_next w) W) as [W' V].
    { split; [exists []; symmetry; apply app_nil_r|split; [eexists; reflexivity|exists []; symmetry; apply app_nil_r]]. }
    apply fine_apart; [exact W'|reflexivity|intros l o _ E; split; [exact E|apply V with l, E]].
  - apply bind_ok in E as (y0 & A & E); apply array_at_ok in A; destruct (length y =? length y0) eqn:L; [|discriminate E].
    injection E as <- <-; apply Nat.eqb_eq in L; destruct W as [W S].
    assert (L' : length y = length (points (w_heap w) a)) by (rewrite (points_at _ _ _ A); exact L).
    apply fine_apart; [|reflexivity|].
    + split; [intros k o E; apply write_points_good; [apply W with k, E|exact L']|exact S].
    + intros l o P E; split; [exact E|]. apply untouched_good; [|apply W with l, E].
      apply (write_untouched (w_heap w) o a y [] []), P, E.
  - apply bind_ok in E as (y0 & A & E); apply array_at_ok in A; destruct (length y =? length y0) eqn:L; [|discriminate E].
    injection E as <- <-; destruct W as [W S].
    apply fine_apart; [|reflexivity|].
    + split; [intros k o E; apply write_faces_good, W with k, E|exact S].
    + intros l o P E; split; [exact E|]. apply untouched_good; [|apply W with l, E].
      apply (write_untouched (w_heap w) o a [] y []), P, E.
  - apply bind_ok in E as (y0 & A & E); apply array_at_ok in A; destruct (length y =? length y0) eqn:L; [|discriminate E].
    injection E as <- <-; apply Nat.eqb_eq in L; destruct W as [W S].
    assert (L' : length y = length (numbers (w_heap w) a)) by (unfold numbers; rewrite (nth_error_nth _ _ _ A); exact L).
    apply fine_apart; [|reflexivity|].
    + split; [intros k o E; apply write_numbers_good; [apply W with k, E|exact L']|exact S].
    + intros l o P E; split; [exact E|]. apply untouched_good; [|apply W with l, E].
      apply (write_untouched (w_heap w) o a [] [] y), P, E.
  - apply bind_ok in E as (vs & A & E); apply bind_ok in E as (fs & B & E).
    destruct (make_spec (mkMesh vs fs) name w) as (o & M & Gr & G & N & _); injection E as <- <-.
    destruct (wf_add w _ o (S (w_next w)) W Gr G N) as [W' V]; rewrite <- M in W'.
    apply fine_apart; [exact W'|reflexivity|intros l o' _ E; rewrite M; apply V, E].
  - apply bind_ok in E as (o & A & E); apply mesh_at_ok in A; cbv zeta in E; injection E as <- <-.
    destruct (copied_spec (w_heap w) o) as (Gr & G & N & _); [apply W with k, A|].
    destruct (wf_add w (fst (copied (w_heap w) o)) (snd (copied (w_heap w) o)) (w_next w) W Gr) as [W' V];
      [destruct (copied (w_heap w) o); exact G|exact N|].
    apply fine_apart; [exact W'|reflexivity|intros l o' _ E; apply V, E].
  - apply bind_ok in E as (o & A & E); apply bind_ok in E as (o' & B & E); apply bind_ok in E as (m & C & E).
    set (name := o_name o ++ _) in E.
    destruct (make_spec m name w) as (o2 & M & Gr & G & N & _); injection E as <- <-.
    destruct (wf_add w _ o2 (S (w_next w)) W Gr G N) as [W' V]; rewrite <- M in W'.
    apply fine_apart; [exact W'|reflexivity|intros j o'' _ E; rewrite M; apply V, E].
  - apply bind_ok in E as (o & A & E); apply bind_ok in E as ((m & idv) & C & E).
    set (name := _ ++ o_name o) in E.
    destruct (make_spec m name w) as (o2 & M & Gr & G & N & _); injection E as <- <-.
    destruct (wf_add w _ o2 (S (w_next w)) W Gr G N) as [W' V]; rewrite <- M in W'.
    apply fine_apart; [exact W'|reflexivity|intros j o'' _ E; rewrite M; apply V, E].
  - apply bind_ok in E as (o & A & E); apply mesh_at_ok in A; apply bind_ok in E as (y & B & E); apply array_at_ok in B; injection E as <- <-.
    assert (G : good (w_heap w, o)) by (apply W with k, A).
    pose proof (calls argsort order (SetVertices y) (w_heap w, o) G) as (_ & G' & F & V).
    eapply (fine_call _ w k o _ (SetVertices y)); try eassumption.
    + intros l; cbn; rewrite (points_at _ _ _ B); reflexivity.
    + cbn [step]; rewrite V; reflexivity.
  - apply bind_ok in E as (o & A & E); apply mesh_at_ok in A; apply bind_ok in E as (y & B & E); apply array_at_ok in B; injection E as <- <-.
    assert (G : good (w_heap w, o)) by (apply W with k, A).
    pose proof (calls argsort order (SetFaces y) (w_heap w, o) G) as (_ & G' & F & V).
    eapply (fine_call _ w k o _ (SetFaces y)); try eassumption.
    + intros l; cbn; rewrite (rows_at _ _ _ B); reflexivity.
    + cbn [step]; rewrite V; reflexivity.
  - apply bind_ok in E as (o & A & E); apply mesh_at_ok in A; apply bind_ok in E as ((z & y) & B & E); injection E as <- <-.
    assert (G : good (w_heap w, o)) by (apply W with k, A).
    pose proof (calls argsort order c (w_heap w, o) G) as H; rewrite B in H.
    destruct (step argsort order c (vw (w_heap w, o))) as [[s y']|e] eqn:S; [|contradiction H]. destruct H as (<- & G' & F & <-).
    eapply (fine_call _ w k o z c); try eassumption. reflexivity.
  Qed.

  Lemma exec_wf : forall p w w' l, wf w -> exec p w = Ok (w', l) -> wf w'.
  Proof.
  induction p as [|a p IH]; intros w w' l W E; cbn in E; [congruence|].
  apply bind_ok in E as ((w1 & x) & A & E); apply bind_ok in E as ((w2 & l') & B & E); injection E as <- <-.
  eapply IH; [|exact B]. apply (act_fine _ _ _ _ W A).
  Qed.

  Lemma run_app : forall h1 h2 s s1 l1, run argsort order h1 s = Ok (s1, l1) ->
    run argsort order (h1 ++ h2) s = do (s2, l2) <- run argsort order h2 s1; Ok (s2, l1 ++ l2).
  Proof.
  induction h1 as [|c h1 IH]; intros h2 s s1 l1 E; cbn in *.
  - injection E as <- <-; destruct (run argsort order h2 s) as [[s2 l2]|e]; reflexivity.
  - destruct (step argsort order c s) as [[s' x]|e]; cbn in *; [|discriminate].
    destruct (run argsort order h1 s') as [[s'' l]|e] eqn:R; cbn in *; [|discriminate]; injection E as <- <-.
    rewrite (IH _ _ _ _ R); destruct (run argsort order h2 s'') as [[s2 l2]|e]; reflexivity.
  Qed.
  Lemma history_run : forall k p w h l w' o, history argsort order k p w h l w' -> wf w -> nth_error (w_meshes w) k = Some o ->
    exists o', nth_error (w_meshes w') k = Some o' /\
    run argsort order h (view (w_heap w) o) = Ok (view (w_heap w') o', l).
  Proof.
  intros k p w h l w' o H; revert o; induction H as [w|a p w x w1 h l w2 S A H IH]; intros o W E.
  - exists o; auto.
  - destruct (act_fine _ _ _ _ W A) as [W1 F]; destruct (F k o S E) as (o1 & E1 & R).
    destruct (IH o1 W1 E1) as (o2 & E2 & R2). exists o2; split; [exact E2|].
    rewrite (run_app _ _ _ _ _ R), R2; reflexivity.
  Qed.
End Actions.
