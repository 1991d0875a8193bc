(** Specification of what is exchanged through the VTK and h5py libraries. *)
From Coq Require Import Reals List ZArith Ascii String.
From Verif Require Import M_base M_mesh M_text.
Import ListNotations.
Open Scope R_scope.

(** A quadrangle with a fourth corner of its own, or a triangle: the last corner is the first. *)
Definition proper (f : face) : Prop := f3 f = f0 f \/ (f3 f <> f0 f /\ f3 f <> f1 f /\ f3 f <> f2 f).

(** The corners of the polygon that a face stands for. *)
Definition polygon (f : face) (c : list nat) : Prop :=
  (f3 f = f0 f /\ c = [f0 f; f1 f; f2 f]) \/ (f3 f <> f0 f /\ c = [f0 f; f1 f; f2 f; f3 f]).

(** [y] keeps at least 24 bits of [x], or 149 bits after the point. *)
Definition nearly (x y : R) : Prop := Rabs (y - x) <= Rabs x / 2 ^ 24 \/ Rabs (y - x) <= 1 / 2 ^ 150.
Definition nearly_vec (v w : vec) : Prop := nearly (vx v) (vx w) /\ nearly (vy v) (vy w) /\ nearly (vz v) (vz w).
(** Numbers with 24 bits *)
Definition short (x : R) : Prop := exists m e : Z, (Z.abs m < 2 ^ 24)%Z /\ (-149 <= e)%Z /\ x = IZR m * powerRZ 2 e.

(** The coordinates of the corners of a face *)
Definition corner_points (vs : list vec) (f : face) (ps : list vec) : Prop :=
  Forall2 (fun i p => nth_error vs i = Some p) [f0 f; f1 f; f2 f] ps.

(** The arrays of a .med file: the columns one after the other *)
Definition stored_vertices (vs : list vec) : list R := map vx vs ++ map vy vs ++ map vz vs.
Definition stored_triangles (ts : list (nat * nat * nat)) : list Z :=
  map (fun t => Z.of_nat (S (fst (fst t)))) ts ++ map (fun t => Z.of_nat (S (snd (fst t)))) ts ++ map (fun t => Z.of_nat (S (snd t))) ts.
Definition stored_quadrangles (qs : list face) : list Z :=
  map (fun q => Z.of_nat (S (f0 q))) qs ++ map (fun q => Z.of_nat (S (f1 q))) qs ++ map (fun q => Z.of_nat (S (f2 q))) qs ++ map (fun q => Z.of_nat (S (f3 q))) qs.
(** The array of a mesh *)
Definition rows_of (vs : list vec) : list (list R) := map (fun v => [vx v; vy v; vz v]) vs.
Definition faces_of (ts : list (nat * nat * nat)) (qs : list face) : list (list Z) :=
  map (fun t => let '(a, b, c) := t in map Z.of_nat [a; b; c; a]%nat) ts ++ map (fun q => map Z.of_nat [f0 q; f1 q; f2 q; f3 q]) qs.

(** [p] occurs in [t] *)
Definition occurs (p t : text) : Prop := exists a b, t = a ++ p ++ b.
(** [x] is the last of the pairs whose name contains [p] *)
Definition last_named {A} (p : text) (l : list (text * A)) (x : A) : Prop :=
  exists before name after, l = before ++ (name, x) :: after /\ occurs p name /\ forall y, In y after -> ~ occurs p (fst y).
