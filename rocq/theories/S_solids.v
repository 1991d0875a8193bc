(** Specification: exact integrals over solids and shells, and the exact inertia of a homogeneous body.
    A body is given by its integral: a relation between integrands and values. *)
From Coq Require Import Reals.
From Coquelicot Require Import Coquelicot.
From Verif Require Import M_base.
Open Scope R_scope.

Definition integral := (vec -> R) -> R -> Prop.

(** Plane sections. Rectangle [x0, x1] x [y0, y1]. *)
Definition is_rectangle_integral (x0 x1 y0 y1 : R) (f : R -> R -> R) (I : R) : Prop :=
  exists h : R -> R,
    (forall x, is_RInt (f x) y0 y1 (h x)) /\ is_RInt h x0 x1 I.

(** Ellipse with semi axes [A] along x and [B] along y: x = A s cos t, y = B s sin t, area element A B s ds dt. *)
Definition is_ellipse_integral (A B : R) (f : R -> R -> R) (I : R) : Prop :=
  exists h : R -> R,
    (forall s, is_RInt (fun t => f (A * s * cos t) (B * s * sin t) * (A * B * s)) 0 (2 * PI) (h s)) /\
    is_RInt h 0 1 I.

(** Solid with horizontal sections: rectangles. *)
Definition rectangle_slices (z0 z1 : R) (x0 x1 y0 y1 : R -> R) : integral := fun phi I =>
  exists g : R -> R,
    (forall z, Rmin z0 z1 <= z <= Rmax z0 z1 ->
       is_rectangle_integral (x0 z) (x1 z) (y0 z) (y1 z) (fun x y => phi (V3 x y z)) (g z)) /\
    is_RInt g z0 z1 I.

(** Solid with horizontal sections: ellipses centered on the z axis. *)
Definition ellipse_slices (z0 z1 : R) (A B : R -> R) : integral := fun phi I =>
  exists g : R -> R,
    (forall z, Rmin z0 z1 <= z <= Rmax z0 z1 ->
       is_ellipse_integral (A z) (B z) (fun x y => phi (V3 x y z)) (g z)) /\
    is_RInt g z0 z1 I.

(** Torus around the y axis: circle of radius [r] at distance [c] from the axis. *)
Definition torus_integral (c r : R) : integral := fun phi I =>
  exists (g : R -> R -> R) (h : R -> R),
    (forall t u, is_RInt (fun w => phi (V3 ((c + t * cos u) * cos w) (t * sin u) ((c + t * cos u) * sin w))
                                   * (t * (c + t * cos u))) 0 (2 * PI) (g t u)) /\
    (forall t, is_RInt (g t) 0 (2 * PI) (h t)) /\
    is_RInt h 0 r I.

(** Surface of revolution around the z axis generated by the curve (radius rho, height zeta), with the derivatives
    of rho and zeta: the surface element is rho * (length element) * dt. *)
Definition revolution (s0 s1 : R) (rho zeta drho dzeta : R -> R) : integral := fun phi I =>
  (forall s, is_derive rho s (drho s)) /\ (forall s, is_derive zeta s (dzeta s)) /\
  exists g : R -> R,
    (forall s, is_RInt (fun t => phi (V3 (rho s * cos t) (rho s * sin t) (zeta s))
                                 * (rho s * sqrt (drho s ^ 2 + dzeta s ^ 2))) 0 (2 * PI) (g s)) /\
    is_RInt g s0 s1 I.

(** Bodies obtained by joining or removing. *)
Definition integral_sum (b1 b2 : integral) : integral := fun phi I =>
  exists I1 I2, b1 phi I1 /\ b2 phi I2 /\ I = I1 + I2.
Definition integral_diff (b1 b2 : integral) : integral := fun phi I =>
  exists I1 I2, b1 phi I1 /\ b2 phi I2 /\ I = I1 - I2.

(** Exact mass, first moments, and moments and products of inertia about a point [p] of a body of density [rho]. *)
Definition exact_mass (body : integral) (rho m : R) := body (fun _ => rho) m.
Definition exact_center (body : integral) (rho m : R) (c : vec) :=
  body (fun q => rho * vx q) (m * vx c) /\ body (fun q => rho * vy q) (m * vy c) /\
  body (fun q => rho * vz q) (m * vz c).
Definition exact_moments (body : integral) (rho : R) (p : vec) (xx yy zz : R) :=
  body (fun q => rho * ((vy q - vy p) ^ 2 + (vz q - vz p) ^ 2)) xx /\
  body (fun q => rho * ((vx q - vx p) ^ 2 + (vz q - vz p) ^ 2)) yy /\
  body (fun q => rho * ((vx q - vx p) ^ 2 + (vy q - vy p) ^ 2)) zz.
Definition exact_products (body : integral) (rho : R) (p : vec) (yz xz xy : R) :=
  body (fun q => rho * ((vy q - vy p) * (vz q - vz p))) yz /\
  body (fun q => rho * ((vx q - vx p) * (vz q - vz p))) xz /\
  body (fun q => rho * ((vx q - vx p) * (vy q - vy p))) xy.

(** The matrix of inertia made of given moments and products. *)
Definition inertia_matrix (xx yy zz yz xz xy : R) : mat :=
  M3 xx (- xy) (- xz) (- xy) yy (- yz) (- xz) (- yz) zz.

(** Mass, center, reduction point and matrix of a body are the exact ones. *)
Definition exact_inertia (body : integral) (rho m : R) (c p : vec) (M : mat) : Prop :=
  exact_mass body rho m /\ exact_center body rho m c /\
  exists xx yy zz yz xz xy,
    exact_moments body rho p xx yy zz /\ exact_products body rho p yz xz xy /\
    M = inertia_matrix xx yy zz yz xz xy.

(** The bodies named in inertia.py, placed with their center of gravity at the origin (axes as documented there;
    wedges: base along x, length along y, height along z). *)
Definition box a b h : integral :=
  rectangle_slices (- h / 2) (h / 2) (fun _ => - a / 2) (fun _ => a / 2) (fun _ => - b / 2) (fun _ => b / 2).
Definition pyramid a b h : integral :=
  rectangle_slices (- h / 4) (3 * h / 4)
    (fun z => - (a / 2) * (3 / 4 - z / h)) (fun z => a / 2 * (3 / 4 - z / h))
    (fun z => - (b / 2) * (3 / 4 - z / h)) (fun z => b / 2 * (3 / 4 - z / h)).
Definition isosceles_wedge b h l : integral :=
  rectangle_slices (- h / 3) (2 * h / 3)
    (fun z => - (b / 2) * (2 / 3 - z / h)) (fun z => b / 2 * (2 / 3 - z / h))
    (fun _ => - l / 2) (fun _ => l / 2).
(** [mirrored] puts the vertical side on the other end of the base. *)
Definition right_wedge (mirrored : bool) b h l : integral :=
  rectangle_slices (- h / 3) (2 * h / 3)
    (fun z => if mirrored then - (b * (2 / 3 - z / h)) + b / 3 else - b / 3)
    (fun z => if mirrored then b / 3 else b * (2 / 3 - z / h) - b / 3)
    (fun _ => - l / 2) (fun _ => l / 2).
Definition elliptic_cylinder a b l : integral :=
  ellipse_slices (- l / 2) (l / 2) (fun _ => a) (fun _ => b).
Definition cone r l : integral :=
  ellipse_slices (- l / 4) (3 * l / 4) (fun z => r * (3 / 4 - z / l)) (fun z => r * (3 / 4 - z / l)).
(** semi axes a along x, b along y, c along z *)
Definition solid_ellipsoid a b c : integral :=
  ellipse_slices (- c) c (fun z => a * sqrt (1 - (z / c) ^ 2)) (fun z => b * sqrt (1 - (z / c) ^ 2)).
Definition half_ball r : integral :=
  ellipse_slices (- (3 * r / 8)) (5 * r / 8)
    (fun z => sqrt (r ^ 2 - (z + 3 * r / 8) ^ 2)) (fun z => sqrt (r ^ 2 - (z + 3 * r / 8) ^ 2)).
(** [h0] is the height of the center above the base. *)
Definition frustum_shell r1 r2 h h0 : integral :=
  revolution 0 1 (fun s => r2 + s * (r1 - r2)) (fun s => s * h - h0) (fun _ => r1 - r2) (fun _ => h).
Definition disc_shell r z : integral :=
  revolution 0 1 (fun s => s * r) (fun _ => z) (fun _ => r) (fun _ => 0).
Definition ball_shell r : integral :=
  revolution 0 PI (fun s => r * sin s) (fun s => r * cos s) (fun s => r * cos s) (fun s => - (r * sin s)).
Definition half_ball_shell r : integral :=
  revolution 0 (PI / 2) (fun s => r * sin s) (fun s => r * cos s - r / 2)
             (fun s => r * cos s) (fun s => - (r * sin s)).
(** Closed cylinder: lateral surface and two end discs. *)
Definition closed_cylinder_shell Rad H : integral :=
  integral_sum (frustum_shell Rad Rad H (H / 2)) (integral_sum (disc_shell Rad (H / 2)) (disc_shell Rad (- H / 2))).
