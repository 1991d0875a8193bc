(** Properties C01-C03: merging of duplicate rows (meshmagick/tools.py). *)
From Coq Require Import Reals Lra List.
From Verif Require Import M_base P_base M_merge S_merge P_merge.
Import ListNotations.
Open Scope R_scope.

(** ** C01 *)
Theorem C01_merge_within_tolerance : forall argsort atol A (cols : list (A -> R)) arr,
  sorting argsort -> 0 <= atol -> arr <> [] ->
  exists uniq ids, merge_duplicate_rows argsort atol cols arr = Ok (uniq, ids) /\ merged cols atol arr uniq ids.
Proof. intros. apply merge_merged; auto. Qed.

Theorem C01_empty_array_crashes : forall argsort atol A (cols : list (A -> R)),
  merge_duplicate_rows argsort atol cols [] = Raise IndexError.
Proof. exact merge_empty. Qed.

(** When being within atol is transitive on each column (for instance when the values fall into well separated
    clusters) rows are merged exactly when they are within atol on every column. *)
Theorem C01_clusters_merged_exactly : forall argsort atol A (cols : list (A -> R)) arr uniq ids i j r s,
  sorting argsort -> 0 <= atol ->
  (forall c a b d, In c cols -> In a arr -> In b arr -> In d arr ->
     Rabs (c a - c b) <= atol -> Rabs (c b - c d) <= atol -> Rabs (c a - c d) <= atol) ->
  merge_duplicate_rows argsort atol cols arr = Ok (uniq, ids) ->
  nth_error arr i = Some r -> nth_error arr j = Some s ->
  (nth_error ids i = nth_error ids j <-> within cols atol r s).
Proof.
  intros argsort atol A cols arr uniq ids i j r s Hs Ha T M Hi Hj.
  assert (Hne : arr <> []) by (intros ->; destruct i; discriminate).
  split; [|eapply merge_separated; eauto].
  intros E. destruct (merge_merged argsort Hs atol Ha A cols arr Hne) as (u & d & M' & MM).
  rewrite M in M'. injection M' as <- <-.
  destruct (merged_close _ _ _ _ _ MM i r Hi) as (k & ? & K & _).
  eapply (merged_pairs _ _ _ _ _ MM i j); eauto. congruence.
Qed.

(** There is a sorting function, so that the hypotheses can be met. *)
Theorem C01_sorting_exists : sorting insertion_argsort.
Proof. exact insertion_sorting. Qed.

(** Three points, two of which are merged, for every sort. *)
Example C01_case : forall argsort, sorting argsort ->
  merge_duplicate_rows argsort 1 xyz chained = Ok ([V3 (8/10) 0 0; V3 (12/10) 0 0], [0; 0; 1]%nat).
Proof. exact chained_merge. Qed.

(** ** C02 *)
Theorem C02_duplicates_merged : forall argsort atol A (cols : list (A -> R)) arr uniq ids i j r s,
  sorting argsort -> 0 <= atol ->
  merge_duplicate_rows argsort atol cols arr = Ok (uniq, ids) ->
  nth_error arr i = Some r -> nth_error arr j = Some s -> same_row cols r s ->
  nth_error ids i = nth_error ids j.
Proof.
  intros argsort atol A cols arr uniq ids i j r s Hs Ha M Hi Hj S.
  eapply (merge_same argsort Hs atol Ha A cols arr); eauto. intros ->; destruct i; discriminate.
Qed.

Theorem C02_tolerance_zero : forall argsort A (cols : list (A -> R)) arr uniq ids i j r s,
  sorting argsort ->
  merge_duplicate_rows argsort 0 cols arr = Ok (uniq, ids) ->
  nth_error arr i = Some r -> nth_error arr j = Some s ->
  (nth_error ids i = nth_error ids j <-> same_row cols r s).
Proof. exact merge_zero_iff. Qed.

Theorem C02_no_duplicates_unchanged : forall argsort A (cols : list (A -> R)) arr,
  sorting argsort -> arr <> [] ->
  (forall i j r s, nth_error arr i = Some r -> nth_error arr j = Some s -> same_row cols r s -> i = j) ->
  merge_duplicate_rows argsort 0 cols arr = Ok (arr, seq 0 (length arr)).
Proof. exact merge_nodup. Qed.

Theorem C02_nothing_merged_unchanged : forall argsort atol A (cols : list (A -> R)) arr uniq ids,
  sorting argsort -> 0 <= atol -> arr <> [] ->
  merge_duplicate_rows argsort atol cols arr = Ok (uniq, ids) -> length uniq = length arr ->
  uniq = arr /\ ids = seq 0 (length arr).
Proof. intros. eapply merge_unchanged; eauto. Qed.

Example C02_case : forall argsort, sorting argsort ->
  exists uniq ids, merge_duplicate_rows argsort (1/10) xyz [V3 0 0 0; V3 1 2 3; V3 0 0 0] = Ok (uniq, ids) /\
    nth_error ids 0 = nth_error ids 2 /\ nth_error ids 0 <> nth_error ids 1.
Proof.
  intros argsort Hs.
  destruct (merge_merged argsort Hs (1/10) ltac:(lra) vec xyz [V3 0 0 0; V3 1 2 3; V3 0 0 0] ltac:(discriminate))
    as (u & d & M & MM).
  exists u, d. split; [exact M|]. split.
  - eapply C02_duplicates_merged; [exact Hs| |exact M| | |]; try reflexivity; try lra. intros c _. reflexivity.
  - intros E. destruct (merged_close _ _ _ _ _ MM 0 _ eq_refl) as (k & ? & K & _).
    pose proof (merged_pairs _ _ _ _ _ MM 0 1 _ _ k eq_refl eq_refl K (eq_trans (eq_sym E) K) vx (or_introl eq_refl)) as W.
    cbn in W. unfold Rabs in W. destruct (Rcase_abs (0 - 1)); lra.
Qed.

Example C02_case_unchanged : forall argsort, sorting argsort ->
  merge_duplicate_rows argsort 0 xyz [V3 3 0 0; V3 1 0 0; V3 3 0 1] =
    Ok ([V3 3 0 0; V3 1 0 0; V3 3 0 1], [0; 1; 2]%nat).
Proof.
  intros argsort Hs. apply (C02_no_duplicates_unchanged argsort vec xyz [V3 3 0 0; V3 1 0 0; V3 3 0 1] Hs); [discriminate|].
  intros i j r s Hi Hj S. pose proof (S vx ltac:(simpl; auto)) as X. pose proof (S vz ltac:(simpl; auto)) as Z.
  destruct i as [|[|[|[|i]]]]; try discriminate; destruct j as [|[|[|[|j]]]]; try discriminate; auto;
    simpl in Hi, Hj; injection Hi as <-; injection Hj as <-; simpl in X, Z; lra.
Qed.

(** ** C03 *)
Theorem C03_survivors_differ : forall argsort atol A (cols : list (A -> R)) arr uniq ids k l s t,
  sorting argsort -> 0 <= atol -> arr <> [] ->
  merge_duplicate_rows argsort atol cols arr = Ok (uniq, ids) ->
  nth_error uniq k = Some s -> nth_error uniq l = Some t -> same_row cols s t -> k = l.
Proof. intros. eapply (merge_distinct argsort H atol H0); eauto. Qed.

(** The documented separation fails: for every sort, two survivors are within the tolerance of each other in
    every coordinate, and merging again merges them. *)
Theorem C03_survivors_separated_refuted : exists (arr : list vec) atol, 0 <= atol /\
  forall argsort, sorting argsort ->
  exists uniq ids, merge_duplicate_rows argsort atol xyz arr = Ok (uniq, ids) /\
    (exists k l s t, k <> l /\ nth_error uniq k = Some s /\ nth_error uniq l = Some t /\ within xyz atol s t) /\
    (exists uniq' ids', merge_duplicate_rows argsort atol xyz uniq = Ok (uniq', ids') /\
                        (length uniq' < length uniq)%nat).
Proof.
  exists chained, 1. split; [lra|]. intros argsort Hs.
  eexists _, _. split; [apply chained_merge; auto|]. split.
  - exists 0%nat, 1%nat, (V3 (8/10) 0 0), (V3 (12/10) 0 0). split; [discriminate|]. split; [reflexivity|].
    split; [reflexivity|]. intros c Hc. simpl in Hc.
    decompose [or] Hc; subst; try tauto; cbn [vx vy vz]; apply Rabs_le; lra.
  - destruct (chained_again argsort Hs) as (ids & u & M & L). exists u, ids. split; [auto|]. rewrite L. simpl. auto.
Qed.

Theorem C03_tolerance_zero_idempotent : forall argsort A (cols : list (A -> R)) arr uniq ids,
  sorting argsort -> arr <> [] ->
  merge_duplicate_rows argsort 0 cols arr = Ok (uniq, ids) ->
  merge_duplicate_rows argsort 0 cols uniq = Ok (uniq, seq 0 (length uniq)).
Proof. exact merge_zero_idempotent. Qed.

Print Assumptions C01_merge_within_tolerance.
Print Assumptions C01_empty_array_crashes.
Print Assumptions C01_clusters_merged_exactly.
Print Assumptions C01_sorting_exists.
Print Assumptions C02_duplicates_merged.
Print Assumptions C02_tolerance_zero.
Print Assumptions C02_no_duplicates_unchanged.
Print Assumptions C02_nothing_merged_unchanged.
Print Assumptions C03_survivors_differ.
Print Assumptions C03_survivors_separated_refuted.
Print Assumptions C03_tolerance_zero_idempotent.
