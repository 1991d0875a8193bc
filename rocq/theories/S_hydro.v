(** Specification vocabulary for hydrostatics. *)
From Coq Require Import Reals List.
From Verif Require Import M_base M_plane M_mesh S_mesh S_integral S_geometry S_connectivity S_clipper.
Import ListNotations.
Open Scope R_scope.

(** ** Integrals over the waterplane *)

(** [I] is the signed integral of [phi] over the horizontal projections of the triangles: those seen anticlockwise from
    above are counted positively, the others negatively. *)
Definition is_flat_integral (phi : vec -> R) (ts : list (vec * vec * vec)) (I : R) : Prop :=
  is_triangles_integral (fun a b c =>
    is_unit_triangle_integral (fun u v => phi (triangle_point a b c u v) * vz (triangle_normal a b c))) ts I.
(** The triangles fill the region enclosed by the directed sides: edges inside are run along in both directions. *)
Definition fills (ts : list (vec * vec * vec)) (sides : list (vec * vec)) : Prop :=
  forall psi, (forall a b, psi a b = - psi b a) ->
    run psi (flat_map (fun t => let '(a, b, c) := t in around [a; b; c]) ts) = run psi sides.
(** Directed sides of a polygon given by the numbers of its vertices. *)
Definition polygon_sides (vs : list vec) (b : list nat) : list (vec * vec) :=
  map (fun e => (point vs (fst e), point vs (snd e))) (pairs b).
(** Triangles joining a point to the sides. *)
Definition fan (o : vec) (sides : list (vec * vec)) : list (vec * vec * vec) := map (fun s => (o, fst s, snd s)) sides.
(** A polygon, the first vertex being repeated at the end. *)
Definition closed_polygon (b : list nat) : Prop := (2 <= length b)%nat /\ hd 0%nat b = last b 0%nat.

(** ** Position *)

(** Rotation, then vertical shift. *)
Definition placed (rot : mat) (z : R) (v : vec) : vec := let w := mvec rot v in V3 (vx w) (vy w) (vz w + z).
Definition placed_mesh (rot : mat) (z : R) (m : mesh) : mesh := mkMesh (map (placed rot z) (verts m)) (faces m).

(** [x], with coefficients below 1e-4 replaced by zero. *)
Definition kept_coefficient (x y : R) : Prop := (1 / 10000 <= Rabs x /\ y = x) \/ (Rabs x < 1 / 10000 /\ y = 0).

(** ** Searches for an equilibrium *)

(** [x], brought back between [-b] and [b]. *)
Definition clamp (b x : R) : R := Rmax (- b) (Rmin b x).
(** [n] moves lead from the first state to the second. *)
Inductive reach {A} (move : A -> A -> Prop) : nat -> A -> A -> Prop :=
| reach_start : forall a, reach move 0 a a
| reach_move : forall n a b c, reach move n a b -> move b c -> reach move (S n) a c.

(** ** Meshes whose immersed part is known exactly *)

Definition sea_level : plane := mkPlane (V3 0 0 1) 0 mid.
Definition close : R := 1 / 1000.
(** A closed mesh of triangles and convex planar quadrangles crossed by the sea level: no vertex is exactly at the
    tolerance, those within tolerance are at the sea level, no face is pinched or lies at the sea level by three of its
    four corners, different points are further apart than the merging distances and the waterline does not touch itself. *)
Record floats_well (m : mesh) : Prop := {
  fw_valid : valid m;
  fw_closed : closed_surface (faces m);
  fw_convex : Forall (fun f => convex_outline (outline (verts m) f)) (faces m);
  fw_settled : settled sea_level close m;
  fw_level : forall v, In v (verts m) -> is_near sea_level close v -> vz v = 0;
  fw_unpinched : Forall (fun f => ~ pinched sea_level close (outline (verts m) f)) (faces m);
  fw_three : Forall (fun f => ~ three_near sea_level close (outline (verts m) f)) (faces m);
  fw_not_above : ~ Forall (is_above sea_level close) (verts m);
  fw_not_below : ~ Forall (is_below sea_level close) (verts m);
  fw_straddles : straddling sea_level close m;
  fw_spread : spread clip_move (cut_point sea_level close m);
  fw_simple : NoDup (map fst (waterline sea_level close m))
}.
(** Moreover no corner of a face is flat. *)
Definition strict_mesh (m : mesh) : Prop := Forall (fun f => exists u, unit u /\ turns_strictly u (outline (verts m) f)) (faces m).

(** [I] is the integral over the triangles of a quantity [phi x n] that depends linearly on the normal [n]. *)
Definition is_flux (phi : vec -> vec -> R) (ts : list (vec * vec * vec)) (I : R) : Prop :=
  is_triangles_integral (fun a b c => is_unit_triangle_integral (fun u v => phi (triangle_point a b c u v) (triangle_normal a b c))) ts I.
(** Signed volume between the triangles and the point [o]. *)
Definition triangles_volume (o : vec) (ts : list (vec * vec * vec)) : R := Rsum (map (fun t => let '(a, b, c) := t in tetra o a b c) ts).
(** The triangles are at the sea level. *)
Definition at_sea_level (ts : list (vec * vec * vec)) : Prop := Forall (fun t => let '(a, b, c) := t in vz a = 0 /\ vz b = 0 /\ vz c = 0) ts.
(** Area of a face turning along the unit vector [u], from the triangles of a fan. *)
Definition fan_area (u : vec) (ts : list (vec * vec * vec)) : R :=
  Rsum (map (fun t => let '(a, b, c) := t in dot u (triangle_normal a b c) / 2) ts).
(** [I] is the integral of [phi] over the immersed part of the mesh. The tetrahedra have their apex at the origin, which is
    at the sea level: those on the lid that closes the immersed surface at the sea level are flat. *)
Definition is_immersed_integral (phi : vec -> R) (m : mesh) (I : R) : Prop :=
  is_triangles_integral (is_cone_integral phi) (immersed_triangles sea_level close m) I.
(** The immersed surface crossed by a quantity that depends linearly on the normal. *)
Definition is_immersed_flux (phi : vec -> vec -> R) (m : mesh) (I : R) : Prop := is_flux phi (immersed_triangles sea_level close m) I.
(** Directed sides that are the same after a symmetry, which reverses their direction. *)
Definition mirror_x (v : vec) : vec := V3 (- vx v) (vy v) (vz v).
Definition mirror_y (v : vec) : vec := V3 (vx v) (- vy v) (vz v).
Definition symmetric_sides (f : vec -> vec) (sides : list (vec * vec)) : Prop := forall psi, run psi sides = run (fun a b => psi (f b) (f a)) sides.
