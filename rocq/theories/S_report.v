(** Specification of the report on hydrostatics, in terms of the position of the mesh and of its waterplane. *)
From Coq Require Import Reals List.
From Verif Require Import M_base M_mesh S_integral S_geometry S_clipper M_hydro S_hydro.
Import ListNotations.
Open Scope R_scope.

(** Origin of the stiffness matrix: the vertical of the buoyancy center, or of the origin. *)
Definition stiffness_origin (at_cog : bool) (rot : mat) (z : R) (h : hydro) : vec :=
  if at_cog then placed rot z (h_buoyancy_center h) else vzero.

(** Area, center and metacentric radii are those of the plane region made of the triangles. *)
Definition right_waterplane (at_cog : bool) (rot : mat) (z : R) (h : hydro) (ts : list (vec * vec * vec)) : Prop :=
  let o := stiffness_origin at_cog rot z h in
  let f := placed rot z (h_waterplane_center h) in
  is_flat_integral (fun _ => 1) ts (h_waterplane_area h) /\
  is_flat_integral vx ts (h_waterplane_area h * vx f) /\
  is_flat_integral vy ts (h_waterplane_area h * vy f) /\
  vz f = 0 /\
  is_flat_integral (fun v => (vx v - vx o) * (vx v - vx o)) ts (h_longitudinal_metacentric_radius h * h_disp_volume h) /\
  is_flat_integral (fun v => (vy v - vy o) * (vy v - vy o)) ts (h_transversal_metacentric_radius h * h_disp_volume h).

(** The matrix is symmetric; all its coefficients but the product of roll and pitch are right. *)
Definition right_stiffness (rho grav : R) (cog : vec) (at_cog : bool) (rot : mat) (z : R) (h : hydro) (ts : list (vec * vec * vec)) : Prop :=
  let o := stiffness_origin at_cog rot z h in
  let k := h_stiffness_matrix h in
  let arm := h_disp_volume h * (vz (placed rot z cog) - vz (placed rot z (h_buoyancy_center h))) in
  mtrans k = k /\
  (forall i, is_flat_integral (fun _ => 1) ts i -> kept_coefficient (rho * grav * i) (m00 k)) /\
  (forall i, is_flat_integral (fun v => vy v - vy o) ts i -> kept_coefficient (rho * grav * i) (m01 k)) /\
  (forall i, is_flat_integral (fun v => vx v - vx o) ts i -> kept_coefficient (- (rho * grav * i)) (m02 k)) /\
  (forall i, is_flat_integral (fun v => (vy v - vy o) * (vy v - vy o)) ts i -> kept_coefficient (rho * grav * (i - arm)) (m11 k)) /\
  (forall i, is_flat_integral (fun v => (vx v - vx o) * (vx v - vx o)) ts i -> kept_coefficient (rho * grav * (i - arm)) (m22 k)) /\
  h_transversal_metacentric_height h * h_disp_volume h = h_transversal_metacentric_radius h * h_disp_volume h - arm /\
  h_longitudinal_metacentric_height h * h_disp_volume h = h_longitudinal_metacentric_radius h * h_disp_volume h - arm.

(** Twenty-four times what is missing in the product of roll and pitch. *)
Definition product_gap (o : vec) (sides : list (vec * vec)) : R :=
  run (fun a b => (vy b - vy a) * ((vy a - vy o) * (vx a - vx o) * (vx a - vx o) + (vy b - vy o) * (vx b - vx o) * (vx b - vx o))) sides.

(** Corners, whatever their height, of the faces that are not wholly above the sea level. *)
Definition wetted_corner (m : mesh) (x : vec) : Prop :=
  exists f, In f (faces m) /\ In x (outline (verts m) f) /\ exists y, In y (outline (verts m) f) /\ ~ is_above sea_level close y.
(** [l] is the largest difference of the coordinate [q] between the points. *)
Definition is_extent (q : vec -> R) (Q : vec -> Prop) (l : R) : Prop :=
  (forall x y, Q x -> Q y -> q x - q y <= l) /\ exists x y, Q x /\ Q y /\ q x - q y = l.
(** [d] is the depth of the deepest of the points, one of which at least is below the sea level. *)
Definition is_depth (Q : vec -> Prop) (d : R) : Prop := (exists x, Q x /\ d = - vz x) /\ (forall y, Q y -> - vz y <= d) /\ 0 < d.
(** Points of the faces that are under the sea level. *)
Definition immersed_point (m : mesh) (x : vec) : Prop := exists f, In f (faces m) /\ hull (outline (verts m) f) x /\ vz x <= 0.
