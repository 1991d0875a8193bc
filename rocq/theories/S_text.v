(** Specification of numbers saved in text files. *)
From Coq Require Import Ascii String List Arith NArith ZArith QArith Qabs Bool.
From Verif Require Import M_base M_text M_mmio M_mesh.
Import ListNotations.
Local Open Scope Q_scope.

Definition of_N (m : N) : Q := inject_Z (Z.of_N m).
Definition magnitude (x : num) : Q := Z.of_N (top x) # bot x.
Definition value (x : num) : Q := if neg x then - magnitude x else magnitude x.

(** [m] is the integer nearest to [q], the even one of the two when there are two. *)
Definition nearest_to (q : Q) (m : N) : Prop := Qabs (q - of_N m) <= 1 # 2 /\ (Qabs (q - of_N m) == 1 # 2 -> N.even m = true).

(** [m] times the power [e] of ten *)
Definition decimal (m : N) (e : Z) : Q := of_N m * 10 ^ e.

(** [x] in fixed point with [k] decimals is [m] units of the last one. *)
Definition fixed_digits (k : nat) (x : num) (m : N) : Prop := nearest_to (magnitude x * 10 ^ Z.of_nat k) m.

(** [x] in scientific notation with [k] decimals is [m] times the power [e] - [k] of ten. *)
Definition sci_digits (k : nat) (x : num) (m : N) (e : Z) : Prop :=
  (magnitude x == 0 /\ m = 0%N /\ e = 0%Z) \/
  (exists e0 m0, 10 ^ e0 <= magnitude x < 10 ^ (e0 + 1) /\ nearest_to (magnitude x * 10 ^ (Z.of_nat k - e0)) m0 /\
    ((m0 <> 10 ^ N.of_nat (S k))%N /\ m = m0 /\ e = e0 \/ m0 = (10 ^ N.of_nat (S k))%N /\ m = (10 ^ N.of_nat k)%N /\ e = (e0 + 1)%Z)).

Section Saved.
  (** The double that Python reads for a decimal number *)
  Variable dbl : N -> Z -> N * positive.
  Definition read_as (n : bool) (m : N) (e : Z) : num := let (a, b) := dbl m e in Num n a b.
  (** What is read from a file where [x] was written with [k] decimals. The sign is kept, even for zero. *)
  Definition saved_fixed (k : nat) (x y : num) : Prop := exists m, fixed_digits k x m /\ y = read_as (neg x) m (- Z.of_nat k).
  Definition saved_sci (k : nat) (x y : num) : Prop := exists m e, sci_digits k x m e /\ y = read_as (neg x) m (e - Z.of_nat k).


  Definition saved_vertex (saved : num -> num -> Prop) (v : vertex) (r : list num) : Prop :=
    let '(x, y, z) := v in Forall2 saved [x; y; z] r.
End Saved.

Definition coordinates (v : vertex) : list num := let '(x, y, z) := v in [x; y; z].
(** A row of a table of faces *)
Definition face_row (f : face) : list Z := map Z.of_nat (corners f).

(** [x] rounded to [k] decimals is less than the power of ten [p] in magnitude, one less when there is a minus sign to
    write. *)
Definition room (k p : nat) (x : num) : Prop :=
  forall m, fixed_digits k x m -> decimal m (- Z.of_nat k) < 10 ^ (Z.of_nat p - (if neg x then 1 else 0)).
(** The exponent of [x] in scientific notation with [k] decimals has at most [p] digits. *)
Definition exponent_room (k p : nat) (x : num) : Prop :=
  forall m e, sci_digits k x m e -> (Z.abs e < 10 ^ Z.of_nat p)%Z.

(** Decimals are read with a relative error of at most 2^-53, in the range of normal doubles, and zero exactly. *)
Definition doubles (dbl : N -> Z -> N * positive) : Prop :=
  (forall e, fst (dbl 0%N e) = 0%N) /\
  forall m e, 10 ^ (-300) <= decimal m e <= 10 ^ 300 ->
    Qabs (magnitude (read_as dbl false m e) - decimal m e) <= decimal m e * (1 # 2 ^ 53).

(** The array numpy makes of rows of the same length *)
Definition table {A} (rows : list (list A)) : array A := match rows with [] => Arr1 [] | _ => Arr2 rows end.
(** The vertices at the corners of the faces, one face after the other *)
Definition at_corners (vs : list vertex) (fs : list face) (cs : list vertex) : Prop :=
  Forall2 (fun i v => nth_error vs i = Some v) (flat_map corners fs) cs.

(** Every coordinate, rounded to 6 decimals, has at most [p] digits before the point, counting the minus sign. *)
Definition in_columns (p : nat) (vs : list vertex) : Prop := forall v x, In v vs -> In x (coordinates v) -> room 6 p x.
(** The exponents in scientific notation have at most 3 digits, as those of all doubles. *)
Definition usual_exponents (vs : list vertex) : Prop := forall v x, In v vs -> In x (coordinates v) -> exponent_room 6 3 x.
(** The numbers of the vertices have at most 9 digits. *)
Definition readable_ids (fs : list face) : Prop := Forall (fun f => Forall (fun n => (N.of_nat n + 1 < 10 ^ 9)%N) (corners f)) fs.

(** The vertices listed in a file in STL format: the words after "vertex" in the lines beginning with it. *)
Definition stl_vertices (t : text) : list (list text) :=
  flat_map (fun l => match words l with w :: ws => if list_eq_dec ascii_dec w (s "vertex") then [ws] else [] | [] => [] end) (lines t).
(** The triangles saved in a file in STL format: the triangles of the mesh, and quadrangles cut along the diagonal from
    their first corner, the second half in the place of the quadrangle and the first half after all the others. *)
Definition is_quad (f : face) : bool := negb (f0 f =? f3 f)%nat.
Definition stl_triangles (fs : list face) : list (nat * nat * nat) :=
  map (fun f => if is_quad f then (f0 f, f2 f, f3 f) else (f0 f, f1 f, f2 f)) fs ++
  map (fun f => (f0 f, f1 f, f2 f)) (filter is_quad fs).
