(** Specification of double precision: which numbers are doubles, and how far a computed value may be. *)
From Coq Require Import Reals List ZArith.
From Verif Require Import M_base.
Import ListNotations.
Open Scope R_scope.

(** A double: 53 bits and an exponent at least -1074 (exponents are not bounded above). *)
Definition double (x : R) : Prop :=
  exists m e : Z, (Z.abs m < 2 ^ 53)%Z /\ (-1074 <= e)%Z /\ x = IZR m * powerRZ 2 e.
Definition double_vec (v : vec) : Prop := double (vx v) /\ double (vy v) /\ double (vz v).

(** Half the distance from 1 to the next double. *)
Definition ulp1 : R := / 2 ^ 53.
(** The smallest normal number. *)
Definition smallest : R := powerRZ 2 (-1022).

(** Multiples of 2^e of ordinary size (for instance, e = -10: multiples of 1/1024 up to 4 * 10^12). *)
Definition on_grid (e : Z) (x : R) : Prop := exists k : Z, (Z.abs k <= 2 ^ 52)%Z /\ x = IZR k * powerRZ 2 e.

(** Normals of the planes of the axes, as on the command line ('Oxy', '/Oxz', ...). *)
Definition axis_normal (n : vec) : Prop := exists s, (s = 1 \/ s = -1) /\ (n = V3 s 0 0 \/ n = V3 0 s 0 \/ n = V3 0 0 s).
(** Vectors of coordinates at most [L]. *)
Definition bounded (L : R) (v : vec) : Prop := Rabs (vx v) <= L /\ Rabs (vy v) <= L /\ Rabs (vz v) <= L.
