(** Specification for C135. *)
From Coq Require Import Reals.
Open Scope R_scope.

(** [k] stands for the coefficient [x] up to [e], with coefficients under 1e-4 replaced by 0. Roundings decide for those next to 1e-4. *)
Definition coefficient (e x k : R) : Prop := (Rabs (k - x) <= e /\ 1 / 10001 <= Rabs k) \/ (k = 0 /\ Rabs x <= 1 / 9999 + e).
