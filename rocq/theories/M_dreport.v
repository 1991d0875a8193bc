(** Model of the stability part of the report of compute_hydrostatics (meshmagick/hydrostatics.py) in double precision, with the roundings of M_double.v.

    Simplifications: those of M_hydro.v and M_dplane.v. Divisions by zero raise NotANumber where numpy warns and goes on. *)
From Coq Require Import Reals List.
From Verif Require Import M_base M_merge M_plane M_mesh M_geometry M_clipper M_inertia M_double M_dgeom M_dclip M_dhydro M_hydro M_dplane.
Import ListNotations.
Open Scope R_scope.

(** hydrostatics.py:137. The literal 1e-4 is the nearest double. *)
Definition zero_tiny_double (x : R) : R := if Rltb (Rabs x) (fl (1 / 10000)) then 0 else x.

Record stability := mkStability {
  t_area : R; t_xf : R; t_yf : R;
  t_transversal_radius : R; t_longitudinal_radius : R; t_transversal_height : R; t_longitudinal_height : R;
  t_stiffness : mat;
  t_length : R; t_breadth : R; t_forward : R }.
(** hydrostatics.py:107-146, 178-179 and 183, from the sums over the waterplane, the displaced volume, the height of the center of gravity and the center
    of buoyancy [b]. *)
Definition stability_double (rho grav : R) (w : waterplane) (vol zcog : R) (b : vec) (at_cog : bool) : res stability :=
  let sg := w_sums w in
  let rhog := fmul rho grav in
  let s33 := fmul rhog (g0 sg) in
  let s34 := fmul rhog (g2 sg) in
  let s35 := fmul (- rhog) (g1 sg) in
  let s45 := fmul (- rhog) (g3 sg) in
  if Reqb vol 0 then Raise NotANumber else
  let rt := fdiv (g5 sg) vol in
  let rl := fdiv (g4 sg) vol in
  let a := fsub zcog (vz b) in
  let gmt := fsub rt a in
  let gml := fsub rl a in
  let s44 := fmul (fmul rhog vol) gmt in
  let s55 := fmul (fmul rhog vol) gml in
  let stiffness := M3 (zero_tiny_double s33) (zero_tiny_double s34) (zero_tiny_double s35)
                      (zero_tiny_double s34) (zero_tiny_double s44) (zero_tiny_double s45)
                      (zero_tiny_double s35) (zero_tiny_double s45) (zero_tiny_double s55) in
  if Reqb s33 0 then Raise NotANumber else
  let xf := fdiv (- s35) s33 in
  let yf := fdiv s34 s33 in
  let xf := if at_cog then fadd xf (vx b) else xf in
  let yf := if at_cog then fadd yf (vy b) else yf in
  Ok (mkStability (g0 sg) xf yf rt rl gmt gml stiffness (fsub (w_maxx w) (w_minx w)) (fsub (w_maxy w) (w_miny w)) (fadd (w_maxx w) (vx b))).
(** hydrostatics.py:148-149. The order of a sum may depend on the coordinate. *)
Definition plane_center_double (fdots : nat -> vec -> vec -> R) (rot : mat) (z xf yf : R) : vec :=
  let c := V3 xf yf (- z) in
  V3 (fdots 0%nat c (row0 (mtrans rot))) (fdots 1%nat c (row1 (mtrans rot))) (fdots 2%nat c (row2 (mtrans rot))).
