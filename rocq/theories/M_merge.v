(** Model of meshmagick/tools.py: merge_duplicate_rows. *)
From Coq Require Import Reals List Arith Bool.
From Verif Require Import M_base.
Import ListNotations.

(** Python sequence indexing with a natural index. *)
Definition get {A} (l : list A) (i : nat) : res A :=
  match nth_error l i with Some a => Ok a | None => Raise IndexError end.

(** Sequencing of a list of calls. *)
Fixpoint mapM {A B} (f : A -> res B) (l : list A) : res (list B) :=
  match l with
  | [] => Ok []
  | a :: t => do b <- f a; do bs <- mapM f t; Ok (b :: bs)
  end.

(** a[i] = v on a list (no effect when out of range; never the case below). *)
Fixpoint set_nth {A} (l : list A) (i : nat) (v : A) : list A :=
  match l, i with
  | [], _ => []
  | _ :: t, O => v :: t
  | a :: t, S i => a :: set_nth t i v
  end.

(** a[idx] = v with an index array *)
Definition set_all {A} (l : list A) (idx : list nat) (v : A) : list A :=
  fold_left (fun l i => set_nth l i v) idx l.

Section Merge.
  (** numpy's argsort: any function (see [S_merge.sorting]). *)
  Variable argsort : list R -> list nat.
  Variable atol : R.

  (** tools.py:66, np.abs(cur_val - vref) > atol *)
  Definition far (a b : R) : bool := Rltb atol (Rabs (a - b)).

  (** tools.py:56-59: the members of one level, permuted by argsort of their values. *)
  Definition sort_level (key : nat -> R) (g : list nat) : list nat :=
    map (fun i => nth i g O) (argsort (map key g)).

  (** tools.py:64-68: the scan of a sorted level. Returns what precedes the first new level, and the new levels. *)
  Fixpoint cut (key : nat -> R) (vref : R) (l : list nat) : list nat * list (list nat) :=
    match l with
    | [] => ([], [])
    | i :: t =>
        if far (key i) vref then let (g, gs) := cut key (key i) t in ([], (i :: g) :: gs)
        else let (g, gs) := cut key vref t in (i :: g, gs)
    end.

  (** tools.py:52-71: one level. *)
  Definition refine_level (key : nat -> R) (g : list nat) : list (list nat) :=
    if (length g <=? 1)%nat then [g]
    else let s := sort_level key g in
         match s with
         | [] => []
         | i0 :: _ => let (g0, gs) := cut key (key i0) s in g0 :: gs
         end.

  (** tools.py:40-81. Simplification: the pair (levels, iperm) is represented by the list of the segments of iperm
      that levels delimits. [None] is the break at line 78: as many levels as rows. *)
  Fixpoint refine (keys : list (nat -> R)) (nv : nat) (levels : list (list nat)) : option (list (list nat)) :=
    match keys with
    | [] => Some levels
    | k :: ks =>
        let levels' := flat_map (refine_level k) levels in
        if (length levels' =? nv)%nat then None else refine ks nv levels'
    end.

  (** tools.py:87-91, newID: every member of level number n gets id n. *)
  Fixpoint number (n : nat) (levels : list (list nat)) (ids : list nat) : list nat :=
    match levels with
    | [] => ids
    | g :: gs => number (S n) gs (set_all ids g n)
    end.

  (** values of one column, as a function of the row number (tools.py:45) *)
  Definition column {A} (arr : list A) (c : A -> R) (i : nat) : R :=
    match nth_error arr i with Some r => c r | None => 0%R end.

  (** tools.py:6-113 with return_index=True. [cols] are the column projections of the rows of [arr] (the row type is
      arbitrary: vertices of space, or lists of numbers). An empty array raises IndexError at line 90. *)
  Definition merge_duplicate_rows {A} (cols : list (A -> R)) (arr : list A) : res (list A * list nat) :=
    let nv := length arr in
    match refine (map (column arr) cols) nv [seq 0 nv] with
    | None => Ok (arr, seq 0 nv)
    | Some levels =>
        do uniq <- mapM (fun g => do i <- get g 0; get arr i) levels;
        Ok (uniq, number 0 levels (seq 0 nv))
    end.
End Merge.

(** A sorting function: insertion sort of the indices (used to run the model). *)
Fixpoint insert_by (key : nat -> R) (i : nat) (l : list nat) : list nat :=
  match l with
  | [] => [i]
  | j :: t => if Rleb (key i) (key j) then i :: l else j :: insert_by key i t
  end.
Definition insertion_argsort (l : list R) : list nat :=
  fold_right (insert_by (fun i => nth i l 0%R)) [] (seq 0 (length l)).
