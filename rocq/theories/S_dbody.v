(** Specification for C136. *)
From Coq Require Import Reals.
From Verif Require Import M_base S_inertia M_double S_double.
Open Scope R_scope.

(** Every entry of [a] is that of [x] up to one rounding and [e]. *)
Definition entries_near (e : R) (x a : mat) : Prop :=
  let near X A := Rabs (A - X) <= ulp1 * Rabs X + e in
  near (m00 x) (m00 a) /\ near (m01 x) (m01 a) /\ near (m02 x) (m02 a) /\
  near (m10 x) (m10 a) /\ near (m11 x) (m11 a) /\ near (m12 x) (m12 a) /\
  near (m20 x) (m20 a) /\ near (m21 x) (m21 a) /\ near (m22 x) (m22 a).
Definition all_entries (P : R -> Prop) (a : mat) : Prop :=
  P (m00 a) /\ P (m01 a) /\ P (m02 a) /\ P (m10 a) /\ P (m11 a) /\ P (m12 a) /\ P (m20 a) /\ P (m21 a) /\ P (m22 a).
