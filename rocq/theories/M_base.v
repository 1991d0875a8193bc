(** Common vocabulary of the model: exceptions as values, 3-vectors and 3x3 matrices over the reals.

    Simplification used everywhere: numpy [float64] is modelled by [R] (exact arithmetic, no NaN/inf). *)
From Coq Require Import Reals List.
Import ListNotations.
Open Scope R_scope.

(** Python exceptions that the modelled code can raise (messages are dropped, except the second argument
    that mesh_clipper.py:124,128 attaches to its RuntimeError). *)
Inductive exn :=
| AssertionError | RuntimeError | IndexError | KeyError | ValueError | TypeError
| ZeroDivisionError | AttributeError | NameError | IOError | NotImplementedError
| LinAlgError (** of numpy.linalg *)
| PlainException (** the class Exception itself *)
| NotANumber (** not of Python: a NaN has entered the data, which the model does not follow *)
| OutOfFuel (** not of Python: a loop of the model stopped short; proved unreachable where it occurs *).

(** Result of a Python call: a value or a raised exception. *)
Inductive res (A : Type) := Ok (a : A) | Raise (e : exn).
Arguments Ok {A} a.
Arguments Raise {A} e.

Definition bind {A B} (m : res A) (f : A -> res B) : res B :=
  match m with Ok a => f a | Raise e => Raise e end.
Notation "'do' x <- m ; f" := (bind m (fun x => f))
  (at level 200, x pattern, m at level 100, f at level 200).

(** Points and vectors of space: numpy arrays of shape (3,). *)
Record vec := V3 { vx : R; vy : R; vz : R }.

Definition vadd (a b : vec) := V3 (vx a + vx b) (vy a + vy b) (vz a + vz b).
Definition vsub (a b : vec) := V3 (vx a - vx b) (vy a - vy b) (vz a - vz b).
Definition vscale (k : R) (a : vec) := V3 (k * vx a) (k * vy a) (k * vz a).
Definition vopp (a : vec) := V3 (- vx a) (- vy a) (- vz a).
Definition vzero := V3 0 0 0.
(** np.dot on two vectors *)
Definition dot (a b : vec) := vx a * vx b + vy a * vy b + vz a * vz b.
(** np.cross *)
Definition cross (a b : vec) :=
  V3 (vy a * vz b - vz a * vy b) (vz a * vx b - vx a * vz b) (vx a * vy b - vy a * vx b).
(** np.linalg.norm *)
Definition norm (a : vec) := sqrt (vx a * vx a + vy a * vy a + vz a * vz a).

Definition ex := V3 1 0 0.
Definition ey := V3 0 1 0.
Definition ez := V3 0 0 1.

(** 3x3 matrices, row major: numpy arrays of shape (3, 3). *)
Record mat := M3 { m00 : R; m01 : R; m02 : R;
                   m10 : R; m11 : R; m12 : R;
                   m20 : R; m21 : R; m22 : R }.

Definition mid := M3 1 0 0 0 1 0 0 0 1.
Definition madd (a b : mat) :=
  M3 (m00 a + m00 b) (m01 a + m01 b) (m02 a + m02 b)
     (m10 a + m10 b) (m11 a + m11 b) (m12 a + m12 b)
     (m20 a + m20 b) (m21 a + m21 b) (m22 a + m22 b).
Definition msub (a b : mat) :=
  M3 (m00 a - m00 b) (m01 a - m01 b) (m02 a - m02 b)
     (m10 a - m10 b) (m11 a - m11 b) (m12 a - m12 b)
     (m20 a - m20 b) (m21 a - m21 b) (m22 a - m22 b).
Definition mscale (k : R) (a : mat) :=
  M3 (k * m00 a) (k * m01 a) (k * m02 a)
     (k * m10 a) (k * m11 a) (k * m12 a)
     (k * m20 a) (k * m21 a) (k * m22 a).
(** np.dot on two matrices *)
Definition mmul (a b : mat) :=
  M3 (m00 a * m00 b + m01 a * m10 b + m02 a * m20 b)
     (m00 a * m01 b + m01 a * m11 b + m02 a * m21 b)
     (m00 a * m02 b + m01 a * m12 b + m02 a * m22 b)
     (m10 a * m00 b + m11 a * m10 b + m12 a * m20 b)
     (m10 a * m01 b + m11 a * m11 b + m12 a * m21 b)
     (m10 a * m02 b + m11 a * m12 b + m12 a * m22 b)
     (m20 a * m00 b + m21 a * m10 b + m22 a * m20 b)
     (m20 a * m01 b + m21 a * m11 b + m22 a * m21 b)
     (m20 a * m02 b + m21 a * m12 b + m22 a * m22 b).
(** np.dot of a matrix and a vector *)
Definition mvec (a : mat) (v : vec) :=
  V3 (m00 a * vx v + m01 a * vy v + m02 a * vz v)
     (m10 a * vx v + m11 a * vy v + m12 a * vz v)
     (m20 a * vx v + m21 a * vy v + m22 a * vz v).
Definition mtrans (a : mat) :=
  M3 (m00 a) (m10 a) (m20 a) (m01 a) (m11 a) (m21 a) (m02 a) (m12 a) (m22 a).
Definition mdet (a : mat) :=
  m00 a * (m11 a * m22 a - m12 a * m21 a)
  - m01 a * (m10 a * m22 a - m12 a * m20 a)
  + m02 a * (m10 a * m21 a - m11 a * m20 a).

(** Decidable comparisons of floats. *)
Definition Rltb (a b : R) : bool := if Rlt_dec a b then true else false.
Definition Rleb (a b : R) : bool := if Rle_dec a b then true else false.
Definition Reqb (a b : R) : bool := if Req_EM_T a b then true else false.

(** math.sqrt, math.acos: ValueError outside their domain. *)
Definition py_sqrt (x : R) : res R := if Rlt_dec x 0 then Raise ValueError else Ok (sqrt x).
Definition py_acos (x : R) : res R :=
  if Rlt_dec x (-1) then Raise ValueError
  else if Rlt_dec 1 x then Raise ValueError else Ok (acos x).
(** Division of Python floats. *)
Definition py_div (a b : R) : res R := if Req_EM_T b 0 then Raise ZeroDivisionError else Ok (a / b).

(** math.atan2 (C99), without the distinction between the two zeros: atan2(0., 0.) = 0. *)
Definition atan2 (y x : R) : R :=
  if Rlt_dec 0 x then atan (y / x)
  else if Rlt_dec x 0 then
         (if Rle_dec 0 y then atan (y / x) + PI else atan (y / x) - PI)
       else if Rlt_dec 0 y then PI / 2
            else if Rlt_dec y 0 then - (PI / 2) else 0.

(** np.isclose(a, b) with default rtol=1e-5, atol=1e-8. *)
Definition isclose (a b : R) : bool :=
  Rleb (Rabs (a - b)) (1 / 100000000 + 1 / 100000 * Rabs b).

Definition Rsum (l : list R) : R := fold_right Rplus 0 l.
Definition vsum (l : list vec) : vec := fold_right vadd vzero l.
