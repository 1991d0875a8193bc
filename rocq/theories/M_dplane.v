(** Model of the sums over the sides of the waterplane in compute_hydrostatics (meshmagick/hydrostatics.py) in double precision, with the roundings of
    M_double.v.

    Simplifications: those of M_hydro.v and M_dhydro.v. The operations on coordinates are those of double precision numbers one by one, in the order in
    which Python evaluates them. The smallest and largest coordinates are not rounded. *)
From Coq Require Import Reals List.
From Verif Require Import M_base M_merge M_plane M_mesh M_geometry M_clipper M_inertia M_double M_dgeom M_dclip M_dhydro M_hydro.
Import ListNotations.
Open Scope R_scope.

(** hydrostatics.py:78-88: the terms of a side *)
Definition term0 (p q : R * R) : R :=
  let (xi, yi) := p in let (xii, yii) := q in
  let dy := fsub yii yi in let px := fadd xi xii in
  fmul dy px.
Definition term1 (p q : R * R) : R :=
  let (xi, yi) := p in let (xii, yii) := q in
  let dy := fsub yii yi in let px := fadd xi xii in
  fmul dy (fsub (fmul px px) (fmul xi xii)).
Definition term2 (p q : R * R) : R :=
  let (xi, yi) := p in let (xii, yii) := q in
  let dx := fsub xii xi in let py := fadd yi yii in
  fmul dx (fsub (fmul py py) (fmul yi yii)).
Definition term3 (p q : R * R) : R :=
  let (xi, yi) := p in let (xii, yii) := q in
  let dy := fsub yii yi in let px := fadd xi xii in let py := fadd yi yii in
  fmul dy (fadd (fadd (fmul (fmul py px) px) (fmul (fmul yi xi) xi)) (fmul (fmul yii xii) xii)).
Definition term4 (p q : R * R) : R :=
  let (xi, yi) := p in let (xii, yii) := q in
  let dy := fsub yii yi in let px := fadd xi xii in
  fmul (fmul dy (fadd (fmul xi xi) (fmul xii xii))) px.
Definition term5 (p q : R * R) : R :=
  let (xi, yi) := p in let (xii, yii) := q in
  let dx := fsub xii xi in let py := fadd yi yii in
  fmul (fmul dx (fadd (fmul yi yi) (fmul yii yii))) py.
(** hydrostatics.py:83-88 *)
Definition add_side_double (s : sums) (p q : R * R) : sums :=
  mkSums (fadd (g0 s) (term0 p q)) (fadd (g1 s) (term1 p q)) (fadd (g2 s) (term2 p q))
         (fadd (g3 s) (term3 p q)) (fadd (g4 s) (term4 p q)) (fadd (g5 s) (term5 p q)).
(** hydrostatics.py:77-90 *)
Fixpoint walk_double (s : sums) (p : R * R) (l : list (R * R)) : sums :=
  match l with
  | [] => s
  | q :: l' => walk_double (add_side_double s p q) q l'
  end.

(** hydrostatics.py:65-76 and 92-95. The message of lines 73-74 is dropped. *)
Definition polyverts_double (at_cog : bool) (b : vec) (v : vec) : R * R :=
  if at_cog then (fsub (vx v) (vx b), fsub (vy v) (vy b)) else (vx v, vy v).
Definition add_polygon_double (vs : list vec) (at_cog : bool) (b : vec) (s : sums) (polygon : list nat) : res (sums * extent) :=
  do pts <- mapM (get vs) polygon;
  let xy := map (polyverts_double at_cog b) pts in
  match xy with
  | [] => Raise IndexError
  | p :: l =>
      do x0 <- arr_min (map fst xy); do x1 <- arr_max (map fst xy);
      do y0 <- arr_min (map snd xy); do y1 <- arr_max (map snd xy);
      Ok (walk_double s p l, mkExtent x0 x1 y0 y1)
  end.
(** hydrostatics.py:64-95 *)
Fixpoint add_polygons_double (vs : list vec) (at_cog : bool) (b : vec) (s : sums) (ps : list (list nat)) : res (sums * list extent) :=
  match ps with
  | [] => Ok (s, [])
  | p :: ps' =>
      do (s', e) <- add_polygon_double vs at_cog b s p;
      do (s'', es) <- add_polygons_double vs at_cog b s' ps';
      Ok (s'', e :: es)
  end.
(** hydrostatics.py:100-105 *)
Definition scale_sums_double (s : sums) : sums :=
  mkSums (fdiv (g0 s) 2) (fdiv (g1 s) 6) (fdiv (g2 s) (-6)) (fdiv (g3 s) 24) (fdiv (g4 s) 12) (fdiv (g5 s) (-12)).

(** hydrostatics.py:34 and 50-105, from the mesh in place: the integrals over the waterplane and the extents (97-98). [b] is the center of buoyancy. *)
Record waterplane := mkWaterplane { w_sums : sums; w_minx : R; w_maxx : R; w_miny : R; w_maxy : R }.
Definition waterplane_double (argsort : list R -> list nat) (fdots : nat -> vec -> vec -> R) (fdot : vec -> vec -> R) (at_cog : bool) (b : vec)
  (wmesh : mesh) : res waterplane :=
  do k <- mesh_clipper_double argsort fdots fdot water vicinity_tol_double true wmesh;
  do (s, es) <- add_polygons_double (verts (clipped_crown k)) at_cog b no_sums (polygons k);
  do minx <- arr_min (map e_xmin es); do maxx <- arr_max (map e_xmax es);
  do miny <- arr_min (map e_ymin es); do maxy <- arr_max (map e_ymax es);
  Ok (mkWaterplane (scale_sums_double s) minx maxx miny maxy).
