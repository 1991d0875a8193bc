(** Specification of rigid body inertia. *)
From Coq Require Import Reals.
From Verif Require Import M_base S_solids M_inertia.
Open Scope R_scope.

(** What the object [b] reports is the exact inertia of [body] at density [rho]. *)
Definition reports (body : integral) (rho : R) (b : rigid) : Prop :=
  exact_inertia body rho (rb_mass b) (rb_cog b) (rb_point b) (rb_mat b).

(** Integrals are linear and single valued. *)
Definition linear (body : integral) : Prop := forall f g I J k l,
  body f I -> body g J -> body (fun q => k * f q + l * g q) (k * I + l * J).
Definition deterministic (body : integral) : Prop := forall phi I J, body phi I -> body phi J -> I = J.

(** Inertia matrix about [p] of a point mass [m] placed at [c]. *)
Definition point_mass_inertia (m : R) (c p : vec) : mat :=
  let x := vx c - vx p in let y := vy c - vy p in let z := vz c - vz p in
  M3 (m * (y ^ 2 + z ^ 2)) (- (m * (x * y))) (- (m * (x * z)))
     (- (m * (x * y))) (m * (x ^ 2 + z ^ 2)) (- (m * (y * z)))
     (- (m * (x * z))) (- (m * (y * z))) (m * (x ^ 2 + y ^ 2)).

Definition symmetric (M : mat) : Prop := mtrans M = M.

(** Necessary conditions on the inertia of a body of positive mass about its center. *)
Definition admissible (b : rigid) : Prop :=
  0 < rb_mass b /\ 0 < rb_xx b /\ 0 < rb_yy b /\ 0 < rb_zz b /\
  rb_xx b <= rb_yy b + rb_zz b /\ rb_yy b <= rb_xx b + rb_zz b /\ rb_zz b <= rb_xx b + rb_yy b.
