(** Property C117: the report of the older class. *)
From Coq Require Import Ascii String List Arith NArith ZArith QArith Bool Lia.
From Verif Require Import M_base M_merge M_mesh M_text M_mmio M_formats M_print M_oldreport S_text S_print S_oldreport P_text P_mmio P_columns P_formats P_print P_oldreport T_print.
Import ListNotations.
Local Open Scope nat_scope.

Lemma old_lines_nonl : forall div h, Forall nonl (old_lines div h).
Proof.
  intros div h. unfold old_lines. repeat (constructor; [first [apply old_nonl; reflexivity | apply Forall_nil | apply nonl_text; reflexivity]|]). apply Forall_nil.
Qed.
Lemma old_report_lines : forall div h, lines (old_report div h) = old_lines div h ++ [[]].
Proof. intros div h. unfold old_report. rewrite <- (app_nil_r (concat _)), lines_concat by apply old_lines_nonl. reflexivity. Qed.

(** Every quantity is displayed under its label, rounded; the residuals with their columns joined at minus signs. *)
Theorem C117_values : forall div dbl h,
  Forall small (firstn 2 (o_fc h)) -> Forall small (o_bc h) -> Forall small (o_cog h) ->
  exists es a r t, entries (old_report div h) = es ++ [a; r; t] /\
    Forall2 (displays dbl) (old_quantities div h) es /\
    displays_joined dbl "ABSOLUTE" (o_res h) a /\
    displays_joined dbl "RELATIVE" (relative div (o_res h) (o_scale h)) r /\
    displays dbl ("RELATIVE TOLERANCE"%string, Sci 1, [o_reltol h]) t.
Proof.
  intros div dbl h W Y G.
  set (j := fun r : num * num * num => let '(x, y, z) := r in joined (style_text (Sci 3) x) (style_text (Sci 3) y) (style_text (Sci 3) z) (neg y) (neg z)).
  set (es := map (fun q : quantity => let '(l, st, xs) := q in (s l, map (style_text st) xs)) (old_quantities div h)).
  exists es, (s "ABSOLUTE", j (o_res h)), (s "RELATIVE", j (relative div (o_res h) (o_scale h))), (s "RELATIVE TOLERANCE", [style_text (Sci 1) (o_reltol h)]).
  assert (J : forall l r, displays_joined dbl l r (s l, j r)).
  { intros l [[x y] z]. split; auto. exists (style_text (Sci 3) x), (style_text (Sci 3) y), (style_text (Sci 3) z). repeat split; apply style_shows. }
  split; [|split; [|split; [|split]]]; auto.
  - unfold entries. rewrite old_report_lines, flat_map_app. cbn [flat_map app]. unfold old_lines. cbn [flat_map].
    assert (V : forall label xs, old_ok label = true -> Forall small xs -> entry (old_line label (Fix 3) (Vector xs)) = [(upper (s label), map (style_text (Fix 3)) xs)]).
    { intros label xs K F. apply old_vector; auto. eapply Forall_impl; [|exact F]. apply small_length. }
    rewrite !old_scalar by reflexivity. rewrite !V by (reflexivity || assumption). rewrite !old_triple by reflexivity. reflexivity.
  - unfold es. induction (old_quantities div h) as [|[[l st] xs] q IH]; [constructor|]. cbn [map]. constructor; auto. split; auto. cbn [snd].
    induction xs; constructor; auto. apply style_shows.
  - split; auto. constructor; [apply style_shows|constructor].
Qed.

(** The three residuals are three words exactly when the two moments have no minus sign. *)
Theorem C117_residuals : forall div dbl h,
  exists e, In e (entries (old_report div h)) /\ fst e = s "ABSOLUTE" /\
    let '(x, y, z) := o_res h in
    (neg y = false /\ neg z = false <-> Forall2 (shows dbl (Sci 3)) [x; y; z] (snd e)) /\
    (List.length (snd e) = 3 <-> neg y = false /\ neg z = false).
Proof.
  intros div dbl h. destruct (o_res h) as [[x y] z] eqn:R.
  exists (s "ABSOLUTE", joined (style_text (Sci 3) x) (style_text (Sci 3) y) (style_text (Sci 3) z) (neg y) (neg z)).
  split; [|split; [reflexivity|]].
  - unfold entries. rewrite old_report_lines. apply in_flat_map. exists (old_line "Absolute" (Sci 3) (Vector (triple (o_res h)))).
    split; [apply in_or_app; left; unfold old_lines; cbn [In]; tauto|]. rewrite old_triple, R by reflexivity. left. reflexivity.
  - cbn [snd]. assert (L : forall ws, Forall2 (shows dbl (Sci 3)) [x; y; z] ws -> List.length ws = 3).
    { intros ws F. inversion F as [|? ? ? ? _ F1]; subst. inversion F1 as [|? ? ? ? _ F2]; subst. inversion F2 as [|? ? ? ? _ F3]; subst. inversion F3; subst. reflexivity. }
    destruct (neg y), (neg z); cbn [joined]; (split; split; [intros [? ?]; try discriminate|intros F|intros F|intros [? ?]; try discriminate]);
      try (apply L in F; discriminate F); try discriminate F; auto. repeat constructor; apply style_shows.
Qed.

(** A report *)
Definition raft (r : num * num * num) : old := mkOld (n_of 981 100) (n_of 1025 1) (n_of 200 1) [n_of 1 3; n_of (-1) 7; n_of 0 1] (n_of 400 1) (n_of 500 1) (n_of 512500 1)
  [n_of 0 1; n_of 0 1; n_of (-5) 4] [n_of 0 1; n_of 0 1; n_of 30 1] (n_of 5 2) (n_of 20 1) (n_of 10 1) (n_of 20 1) (n_of 10 1)
  (n_of 10 3) (n_of (-251) 9) (n_of 40 3) (n_of (-161) 9) (n_of 2011050 1) (n_of 0 1) (n_of 0 1) (n_of (-140214625) 1) (n_of 0 1) (n_of (-89938375) 1)
  (n_of 4537760 1) (n_of 0 1) (n_of 0 1) (n_of 17350000 1) (n_of 0 1) (n_of 21354166 1)
  r (n_of 1000 1, n_of 2000 1, n_of 4000 1) (n_of 1 1000000).
Example C117_case : let h := raft (n_of (-1) 3, n_of 1 7, n_of 0 1) in
  Forall small (firstn 2 (o_fc h)) /\ Forall small (o_bc h) /\ Forall small (o_cog h) /\
  In (s "WATERPLANE CENTER (M)", [s "0.333"; s "-0.143"]) (entries (old_report rat_div h)) /\
  In (s "ABSOLUTE", [s "-3.333E-01"; s "1.429E-01"; s "0.000E+00"]) (entries (old_report rat_div h)) /\
  In (s "RELATIVE", [s "-3.333E-04"; s "7.143E-05"; s "0.000E+00"]) (entries (old_report rat_div h)) /\
  In (s "RELATIVE TOLERANCE", [s "1.0E-06"]) (entries (old_report rat_div h)).
Proof.
  assert (K : forall x, (nearest (top x * 10 ^ 3) (bot x) <? 10 ^ 7)%N = true -> small x).
  { intros x H m M. apply fixed_digits_unique in M. subst m. apply N.ltb_lt. exact H. }
  cbv zeta. do 3 (split; [repeat (constructor; [apply K; vm_compute; reflexivity|]); constructor|]).
  vm_compute. intuition.
Qed.
(** With a negative moment the residuals run together into a text that is no number. *)
Theorem C117_columns_refuted : exists h w, In (s "ABSOLUTE", [w]) (entries (old_report rat_div h)) /\ forall dbl, to_float dbl w = Raise ValueError.
Proof.
  exists (raft (n_of 12345 1, n_of (-678) 1, n_of (-1) 1)), (s "1.234E+04-6.780E+02-1.000E+00"). split; [vm_compute; intuition|]. intros dbl. vm_compute. reflexivity.
Qed.

Print Assumptions C117_values. Print Assumptions C117_residuals. Print Assumptions C117_columns_refuted.
