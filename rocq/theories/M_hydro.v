(** Model of meshmagick/hydrostatics.py: hydrostatics of a mesh, equilibrium in displacement and in three degrees of
    freedom. Simplifications: printing and warnings are dropped; [mesh.copy()] and [cog.copy()] are the identity, no
    function of the model changing its arguments. A division by zero of numpy gives a NaN or an infinity without an
    exception: [NotANumber] where it would be stored, the outcome of the comparison (False) where it is only compared. *)
From Coq Require Import Reals List Bool.
From Verif Require Import M_base M_rotations M_plane M_merge M_mesh M_inertia M_geometry M_clipper.
Import ListNotations.
Open Scope R_scope.

(** mesh_clipper.py:27-39: the default plane z = 0 (plane.py:47, normal (0, 0, 1) and scalar 0) and tolerance *)
Definition water : plane := mkPlane ez 0 mid.
Definition vicinity_tol : R := 1 / 1000.

(** Sums over the sides of the waterplane polygons, hydrostatics.py:51-56 *)
Record sums := mkSums { g0 : R; g1 : R; g2 : R; g3 : R; g4 : R; g5 : R }.
Definition no_sums : sums := mkSums 0 0 0 0 0 0.

(** hydrostatics.py:78-88 *)
Definition add_side (s : sums) (p q : R * R) : sums :=
  let (xi, yi) := p in
  let (xii, yii) := q in
  let dx := xii - xi in
  let dy := yii - yi in
  let px := xi + xii in
  let py := yi + yii in
  mkSums (g0 s + dy * px)
         (g1 s + dy * (px * px - xi * xii))
         (g2 s + dx * (py * py - yi * yii))
         (g3 s + dy * (py * px * px + yi * xi * xi + yii * xii * xii))
         (g4 s + dy * (xi * xi + xii * xii) * px)
         (g5 s + dx * (yi * yi + yii * yii) * py).

(** hydrostatics.py:77-90 *)
Fixpoint walk (s : sums) (p : R * R) (l : list (R * R)) : sums :=
  match l with
  | [] => s
  | q :: l' => walk (add_side s p q) q l'
  end.

(** hydrostatics.py:58-61, 92-95: extents of one polygon *)
Record extent := mkExtent { e_xmin : R; e_xmax : R; e_ymin : R; e_ymax : R }.

(** hydrostatics.py:65-76 and 92-95. The message of lines 73-74 is dropped. *)
Definition polyverts (at_cog : bool) (b : vec) (v : vec) : R * R :=
  if at_cog then (vx v - vx b, vy v - vy b) else (vx v, vy v).
Definition add_polygon (vs : list vec) (at_cog : bool) (b : vec) (s : sums) (polygon : list nat) : res (sums * extent) :=
  do pts <- mapM (get vs) polygon;
  let xy := map (polyverts at_cog b) pts in
  match xy with
  | [] => Raise IndexError
  | p :: l =>
      do x0 <- arr_min (map fst xy); do x1 <- arr_max (map fst xy);
      do y0 <- arr_min (map snd xy); do y1 <- arr_max (map snd xy);
      Ok (walk s p l, mkExtent x0 x1 y0 y1)
  end.

(** hydrostatics.py:64-95 *)
Fixpoint add_polygons (vs : list vec) (at_cog : bool) (b : vec) (s : sums) (ps : list (list nat)) : res (sums * list extent) :=
  match ps with
  | [] => Ok (s, [])
  | p :: ps' =>
      do (s', e) <- add_polygon vs at_cog b s p;
      do (s'', es) <- add_polygons vs at_cog b s' ps';
      Ok (s'', e :: es)
  end.

(** hydrostatics.py:100-105 *)
Definition scale_sums (s : sums) : sums :=
  mkSums (g0 s / 2) (g1 s / 6) (g2 s / -6) (g3 s / 24) (g4 s / 12) (g5 s / -12).

(** hydrostatics.py:137 *)
Definition zero_tiny (x : R) : R := if Rltb (Rabs x) (1 / 10000) then 0 else x.

(** hydrostatics.py:159-203, the dictionary hs_data *)
Record hydro := mkHydro {
  h_grav : R; h_rho_water : R; h_mesh : mesh; h_rotmat_eq : mat; h_z_eq : R; h_cog : vec;
  h_wet_surface_area : R; h_disp_volume : R; h_disp_mass : R; h_buoyancy_center : vec;
  h_waterplane_center : vec; h_waterplane_area : R;
  h_transversal_metacentric_radius : R; h_longitudinal_metacentric_radius : R;
  h_transversal_metacentric_height : R; h_longitudinal_metacentric_height : R;
  h_stiffness_matrix : mat; h_length_at_waterline : R; h_breadth_at_waterline : R;
  h_length_overall_submerged : R; h_breadth_overall_submerged : R; h_draught : R;
  h_forward_perpendicular : R; h_breadth : R; h_trust_lpp : bool; h_length_between_perpendiculars : R;
  h_Ixx : R; h_Iyy : R; h_Izz : R; h_Ixy : R; h_Ixz : R; h_Iyz : R }.

(** A face whose normal is 0 / 0 (mesh.py:664 and 675): its NaN would spread to the volume, the buoyancy center and the
    inertia through mesh.py:1939 and 1976-1981. *)
Definition no_normal (vs : list vec) (f : face) : bool :=
  match face_corners vs f with
  | Ok q => Reqb (norm (if is_triangle f then cross (vsub (p1 q) (p0 q)) (vsub (p2 q) (p0 q))
                        else cross (vsub (p2 q) (p0 q)) (vsub (p3 q) (p1 q)))) 0
  | Raise _ => false
  end.

Section Hydrostatics.
  Variable argsort : list R -> list nat.

  (** hydrostatics.py:24-205 compute_hydrostatics *)
  Definition compute_hydrostatics (m : mesh) (cog : vec) (rho grav : R) (rot : mat) (z : R)
             (at_cog : bool) (lpp : option R) (orig_at_ap : bool) : res hydro :=
    let wmesh := translate_z z (rotate_matrix rot m) in
    let c := mvec rot cog in
    let wcog := V3 (vx c) (vy c) (vz c + z) in
    do k <- mesh_clipper argsort water vicinity_tol true wmesh;
    let cmesh := clipped k in
    do props <- faces_properties cmesh;
    let wet := Rsum (map fp_area props) in
    if existsb (no_normal (verts cmesh)) (faces cmesh) then Raise NotANumber else
    do inertia <- eval_plain_mesh_inertias rho cmesh;
    if Reqb rho 0 then Raise NotANumber else
    let vol := rb_mass inertia / rho in
    if Reqb vol 0 then Raise NotANumber else
    let b := rb_cog inertia in
    do (s, es) <- add_polygons (verts (clipped_crown k)) at_cog b no_sums (polygons k);
    do minx <- arr_min (map e_xmin es); do maxx <- arr_max (map e_xmax es);
    do miny <- arr_min (map e_ymin es); do maxy <- arr_max (map e_ymax es);
    let sg := scale_sums s in
    let area := g0 sg in
    let rhog := rho * grav in
    let s33 := rhog * area in
    let s34 := rhog * g2 sg in
    let s35 := - rhog * g1 sg in
    let s45 := - rhog * g3 sg in
    let rt := g5 sg / vol in
    let rl := g4 sg / vol in
    let a := vz wcog - vz b in
    let gmt := rt - a in
    let gml := rl - a in
    let s44 := rhog * vol * gmt in
    let s55 := rhog * vol * gml in
    let stiffness := M3 (zero_tiny s33) (zero_tiny s34) (zero_tiny s35)
                        (zero_tiny s34) (zero_tiny s44) (zero_tiny s45)
                        (zero_tiny s35) (zero_tiny s45) (zero_tiny s55) in
    if Reqb s33 0 then Raise NotANumber else
    let xf := - s35 / s33 + (if at_cog then vx b else 0) in
    let yf := s34 / s33 + (if at_cog then vy b else 0) in
    let wp_center := mvec (mtrans rot) (V3 xf yf (- z)) in
    let b_center := mvec (mtrans rot) (V3 (vx b) (vy b) (vz b - z)) in
    do box <- axis_aligned_bbox cmesh;
    let length_wl := maxx - minx in
    let fp := maxx + vx b in
    let body := shift_at_cog (set_cog inertia wcog) in
    Ok (mkHydro grav rho m rot z cog wet vol (rho * vol) b_center wp_center area rt rl gmt gml stiffness
          length_wl (maxy - miny) (xmax box - xmin box) (ymax box - ymin box) (Rabs (zmin box)) fp (maxy - miny)
          (match lpp with Some _ => true | None => orig_at_ap end)
          (match lpp with Some l => l | None => if orig_at_ap then fp else length_wl end)
          (rb_xx body) (rb_yy body) (rb_zz body) (rb_xy body) (rb_xz body) (rb_yz body)).
End Hydrostatics.

(** math.copysign *)
Definition copysign (x y : R) : R := if Rlt_dec y 0 then - Rabs x else Rabs x.
(** A correction larger than the bound is replaced by the bound (hydrostatics.py:260-261, 339-346). *)
Definition relax (bound d : R) : R := if Rltb bound (Rabs d) then copysign bound d else d.
(** |a / b| < tol for floats of numpy: False when the quotient is infinite or NaN. *)
Definition ratio_below (a b tol : R) : bool := negb (Reqb b 0) && Rltb (Rabs (a / b)) tol.

(** hydrostatics.py:219 and 294: the loops give up when their counter, which starts at 1, reaches 100. *)
Definition itermax : nat := 100.
Definition evaluations : nat := itermax - 1.

(** hydrostatics.py:228-265 with [n] evaluations left; [eval z] is compute_hydrostatics with z_corr = z. The handler of
    RuntimeError reads err.args[2], but the errors raised at mesh_clipper.py:131, 134 and 744 carry two or one
    arguments: IndexError, and lines 238-246 are never reached. *)
Fixpoint displacement_loop (eval : R -> res hydro) (disp_kg rho reltol z_relax : R) (n : nat) (z : R) : res R :=
  match n with
  | O => Ok z
  | S n' =>
      match eval z with
      | Raise RuntimeError => Raise IndexError
      | Raise e => Raise e
      | Ok hs =>
          let mass_residual := rho * h_disp_volume hs - disp_kg in
          if Reqb (rho * h_waterplane_area hs) 0 then Raise NotANumber else
          let dz := mass_residual / (rho * h_waterplane_area hs) in
          if ratio_below mass_residual disp_kg reltol then Ok z
          else displacement_loop eval disp_kg rho reltol z_relax n' (z + relax z_relax dz)
      end
  end.

(** np.linalg.solve of a 3x3 system, by Cramer's rule; LinAlgError on a singular matrix *)
Definition solve3 (a : mat) (b : vec) : res vec :=
  let d := mdet a in
  if Reqb d 0 then Raise LinAlgError else
  Ok (V3 (mdet (M3 (vx b) (m01 a) (m02 a) (vy b) (m11 a) (m12 a) (vz b) (m21 a) (m22 a)) / d)
         (mdet (M3 (m00 a) (vx b) (m02 a) (m10 a) (vy b) (m12 a) (m20 a) (vz b) (m22 a)) / d)
         (mdet (M3 (m00 a) (m01 a) (vx b) (m10 a) (m11 a) (vy b) (m20 a) (m21 a) (vz b)) / d)).

(** math.radians *)
Definition radians (x : R) : R := x * PI / 180.

(** hydrostatics.py:297-351 with [n] evaluations left; [eval rot z] is compute_hydrostatics with these corrections *)
Fixpoint equilibrium_loop (eval : mat -> R -> res hydro) (cog : vec) (rhog mg reltol z_relax : R) (n : nat)
         (z : R) (rot : mat) : res (R * mat) :=
  match n with
  | O => Ok (z, rot)
  | S n' =>
      let c := mvec rot cog in
      do hs <- eval rot z;
      let b := mvec rot (h_buoyancy_center hs) in
      let rhogv := rhog * h_disp_volume hs in
      let residue := V3 (rhogv - mg) (rhogv * vy b - mg * vy c) (- rhogv * vx b + mg * vx c) in
      let scale := V3 mg (mg * h_breadth hs) (mg * h_length_at_waterline hs) in
      if ratio_below (vx residue) (vx scale) reltol && ratio_below (vy residue) (vy scale) reltol
         && ratio_below (vz residue) (vz scale) reltol
      then Ok (z, rot)
      else
        do d <- solve3 (h_stiffness_matrix hs) residue;
        let tz := relax z_relax (vx d) in
        let rx := relax (radians 2) (vy d) in
        let ry := relax (radians 2) (vz d) in
        equilibrium_loop eval cog rhog mg reltol z_relax n' (z + tz) (mmul (cardan_to_rotmat rx ry 0) rot)
  end.

Section Equilibrium.
  Variable argsort : list R -> list nat.

  (** hydrostatics.py:208-270 displacement_equilibrium *)
  Definition displacement_equilibrium (m : mesh) (disp_tons rho grav : R) (cog : vec) (reltol : R) : res R :=
    do box <- axis_aligned_bbox m;
    displacement_loop (fun z => compute_hydrostatics argsort m cog rho grav mid z false None false)
                      (disp_tons * 1000) rho reltol ((zmax box - zmin box) / 5) evaluations 0.

  (** hydrostatics.py:273-353 full_equilibrium. The bounding box of lines 337-338 is that of a copy that never moves. *)
  Definition full_equilibrium (m : mesh) (cog : vec) (disp_tons rho grav reltol : R) : res (R * mat) :=
    do z <- displacement_equilibrium m disp_tons rho grav vzero reltol;
    do box <- axis_aligned_bbox m;
    equilibrium_loop (fun rot z => compute_hydrostatics argsort m cog rho grav rot z false None false)
                     cog (rho * grav) (disp_tons * 1000 * grav) reltol ((zmax box - zmin box) / 5) evaluations z mid.
End Equilibrium.
