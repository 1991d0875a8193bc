(** Specification of vertex merging. *)
From Coq Require Import Reals List Sorting.Permutation Sorting.Sorted.
Import ListNotations.
Open Scope R_scope.

(** argsort returns the indices of its argument in an order that sorts it (ties in any order). *)
Definition sorting (argsort : list R -> list nat) : Prop := forall l,
  Permutation (argsort l) (seq 0 (length l)) /\
  StronglySorted Rle (map (fun i => nth i l 0) (argsort l)).

(** Rows that agree on every column / differ by at most [t] on every column. *)
Definition same_row {A} (cols : list (A -> R)) (a b : A) : Prop := forall c, In c cols -> c a = c b.
Definition within {A} (cols : list (A -> R)) (t : R) (a b : A) : Prop :=
  forall c, In c cols -> Rabs (c a - c b) <= t.

(** [uniq], [ids] is a merge of [arr]: row [i] is represented by row [ids i] of [uniq]. *)
Record merged {A} (cols : list (A -> R)) (t : R) (arr uniq : list A) (ids : list nat) : Prop := {
  merged_ids : length ids = length arr;
  merged_count : (length uniq <= length arr)%nat;
  (* every row is assigned an existing survivor, within the tolerance *)
  merged_close : forall i r, nth_error arr i = Some r ->
    exists k s, nth_error ids i = Some k /\ nth_error uniq k = Some s /\ within cols t r s;
  (* every survivor is an original row, assigned to itself *)
  merged_origin : forall k s, nth_error uniq k = Some s ->
    exists i, nth_error arr i = Some s /\ nth_error ids i = Some k;
  (* two rows merged together are within the tolerance of each other *)
  merged_pairs : forall i j r s k, nth_error arr i = Some r -> nth_error arr j = Some s ->
    nth_error ids i = Some k -> nth_error ids j = Some k -> within cols t r s
}.
