(** Model of the texts that meshmagick prints: the hydrostatic report (hydrostatics.py), the inertia of a rigid body
    (inertia.py), the summary of a mesh (mesh.py). *)
From Coq Require Import Ascii String List Arith NArith ZArith Bool.
From Verif Require Import M_base M_text M_mmio M_formats.
Import ListNotations.
Local Open Scope nat_scope.

(** '{:< ...}': a blank in the place of the sign of numbers without minus sign *)
Definition spaced (x : num) (t : text) : text := if neg x then t else " "%char :: t.
(** The type and precision of a format: 'f' or 'E' *)
Inductive style := Fix (k : nat) | Sci (k : nat).
Definition show (st : style) (x : num) : text :=
  spaced x (match st with Fix k => fixed_point k x | Sci k => scientific "E" k x end).
(** '{:c<w}' *)
Definition ljust (c : ascii) (w : nat) (t : text) : text := t ++ repeat c (w - List.length t).

(** What is printed on a line: a number or an array of one dimension *)
Inductive datum := Scalar (x : num) | Vector (xs : list num).
(** hydrostatics.py:367-391 build_line, without the end of line *)
Definition build_line (label : string) (st : style) (d : datum) : text :=
  tab :: ljust "-" 45 (upper (s label)) ++ s ">  " ++
  match d with Scalar x => show st x | Vector xs => concat (map (fun x => ljust " " 10 (show st x)) xs) end.

(** The values of hs_data that are printed; [heel] and [trim] are the angles of rotmat_to_cardan(hs_data['rotmat_eq']), in
    radians; [k33] ... [k55] the entries of the stiffness matrix. *)
Record hs := mkHs {
  z_eq : num; heel : num; trim : num; grav : num; rho_water : num;
  waterplane_area : num; waterplane_center : list num; wet_surface_area : num; disp_volume : num; disp_mass : num;
  buoyancy_center : list num; center_of_gravity : list num;
  draught : num; los : num; bos : num; lwl : num; fp : num; lpp : num; trust_lpp : bool;
  rt : num; rl : num; gmt : num; gml : num;
  k33 : num; k34 : num; k35 : num; k44 : num; k45 : num; k55 : num;
  ixx : num; iyy : num; izz : num }.

(** x < 0. *)
Definition below_zero (x : num) : bool := neg x && negb (top x =? 0)%N.
Definition given (c : bool) (l : list text) : list text := if c then l else [].

Section Report.
  (** Arithmetic of doubles: any functions. The square root of a negative number is an error. *)
  Variable degrees square : num -> num.
  Variable mul div : num -> num -> num.
  Variable square_root : num -> res num.
  Variable version : text.

  (** 1000., 0.3 and 0.25 *)
  Definition thousand : num := Num false 1000 1.
  Definition three_tenths : num := Num false 5404319552844595 18014398509481984.
  Definition quarter : num := Num false 1 4.

  (** hydrostatics.py:395-482 without the last note. [r1], [r2], [r3] are the square roots of 460-462. Lines without their end. *)
  Definition report_lines (h : hs) (r1 r2 r3 : num) : list text :=
    let rxx := mul three_tenths (bos h) in
    let ryy := mul quarter (lpp h) in
    [s "HYDROSTATIC REPORT (Meshmagick version " ++ version ++ s ")"; [];
     s "[1]" ++ tab :: s "Corrections made on initial mesh:";
     build_line "Z correction (M)" (Fix 3) (Scalar (z_eq h));
     build_line "Heel correction (deg)" (Fix 3) (Scalar (degrees (heel h)));
     build_line "Trim correction (deg)" (Fix 3) (Scalar (degrees (trim h)));
     [];
     build_line "Gravity acceleration (M/S**2)" (Fix 2) (Scalar (grav h));
     build_line "Density of water (kg/M**3)" (Fix 1) (Scalar (rho_water h));
     [];
     build_line "Waterplane area (M**2)" (Fix 1) (Scalar (waterplane_area h));
     build_line "Waterplane center (M)" (Fix 3) (Vector (waterplane_center h));
     build_line "Wetted Surface Area (M**2)" (Fix 1) (Scalar (wet_surface_area h));
     build_line "Displacement volume (M**3)" (Fix 3) (Scalar (disp_volume h));
     build_line "Displacement mass (tons)" (Fix 3) (Scalar (div (disp_mass h) thousand));
     build_line "Buoyancy center (M)" (Fix 3) (Vector (buoyancy_center h));
     build_line "Center of gravity (M)" (Fix 3) (Vector (center_of_gravity h));
     [];
     build_line "Draft (M)" (Fix 3) (Scalar (draught h));
     build_line "Length overall submerged (M)" (Fix 2) (Scalar (los h));
     build_line "Breadth overall submerged (M)" (Fix 2) (Scalar (bos h));
     build_line "Length at Waterline LWL (M)" (Fix 2) (Scalar (lwl h));
     build_line "Forward perpendicular FP (M)" (Fix 2) (Scalar (fp h));
     build_line (if trust_lpp h then "Length between perpendiculars Lpp (M)" else "[2] Length between perpendiculars Lpp (M)") (Fix 2) (Scalar (lpp h));
     [];
     build_line "Transversal metacentric radius (M)" (Fix 3) (Scalar (rt h));
     build_line "Longitudinal metacentric radius (M)" (Fix 3) (Scalar (rl h));
     build_line "Transversal metacentric height GMt (M)" (Fix 3) (Scalar (gmt h));
     build_line "Longitudinal metacentric height GMl (M)" (Fix 3) (Scalar (gml h))] ++
    given (below_zero (gmt h)) [tab :: s "<<<  TRANSVERSALLY UNSTABLE  >>>"] ++
    given (below_zero (gml h)) [tab :: s "<<<  LONGITUDINALLY UNSTABLE  >>>"] ++
    [[]; tab :: s "HYDROSTATIC STIFFNESS COEFFICIENTS (at COG horiz. Pos.):";
     build_line "K33 (N/M)" (Sci 4) (Scalar (k33 h));
     build_line "K34 (N)" (Sci 4) (Scalar (k34 h));
     build_line "K35 (N)" (Sci 4) (Scalar (k35 h));
     build_line "K44 (N.M)" (Sci 4) (Scalar (k44 h));
     build_line "K45 (N.M)" (Sci 4) (Scalar (k45 h));
     build_line "K55 (N.M)" (Sci 4) (Scalar (k55 h));
     [];
     (if trust_lpp h then [] else s "[2]") ++ tab :: s "INERTIAS from standard approximations: [Rxx = 0.3 B; Ryy = Rzz = 0.25 Lpp]";
     build_line "Rxx (M)" (Fix 3) (Scalar rxx);
     build_line "Ryy (M)" (Fix 3) (Scalar ryy);
     build_line "Rzz (M)" (Fix 3) (Scalar ryy);
     build_line "Ixx" (Sci 3) (Scalar (mul (square rxx) (disp_mass h)));
     build_line "Iyy" (Sci 3) (Scalar (mul (square ryy) (disp_mass h)));
     build_line "Izz" (Sci 3) (Scalar (mul (square ryy) (disp_mass h)));
     [];
     tab :: s "INERTIAS from homogeneous immersed hull approximation:";
     build_line "Rxx" (Fix 3) (Scalar r1);
     build_line "Ryy" (Fix 3) (Scalar r2);
     build_line "Rzz" (Fix 3) (Scalar r3);
     build_line "Ixx" (Sci 3) (Scalar (ixx h));
     build_line "Iyy" (Sci 3) (Scalar (iyy h));
     build_line "Izz" (Sci 3) (Scalar (izz h));
     []; []; s "NOTES"; s "=====";
     s "[1] To get computed hydrostatic equilibrium position from initial mesh, corrections must be ";
     s "    applied in the following order:";
     s "    " ++ tab :: s "* First rotations around initial X & Y axes w.r.t initial frame origin";
     s "    " ++ tab :: s "* Second Z translation along initial Z-axis (not the one obtained after the rotations)"].
  (** hydrostatics.py:480-482 *)
  Definition lpp_note : text :=
    line (s "[2] Not enough information to get a trusted Lpp. It has been approximated by Lwl instead.") ++
    line (s "    It has an influence on the Iyy and Izz inertias calculated from standard approximations.") ++
    s "    To get more accurate results, please specify a Lpp.".
  (** hydrostatics.py:356-484 get_hydrostatic_report *)
  Definition report (h : hs) : res text :=
    do r1 <- square_root (div (ixx h) (disp_mass h));
    do r2 <- square_root (div (iyy h) (disp_mass h));
    do r3 <- square_root (div (izz h) (disp_mass h));
    Ok (concat (map line (report_lines h r1 r2 r3)) ++ if trust_lpp h then [] else lpp_note).
End Report.

(** inertia.py:198-224 RigidBodyInertia.__str__ *)
Definition inertia_field (x : num) : text := ljust " " 15 (show (Sci 6) x).
Definition inertia_row (r : num * num * num) : text := let '(x, y, z) := r in inertia_field x ++ inertia_field y ++ inertia_field z.
Definition inertia_str (mass : num) (cog point : num * num * num) (m : (num * num * num) * (num * num * num) * (num * num * num)) : text :=
  let '(r0, r1, r2) := m in
  newline :: line (s "Pincipal inertial parameters:") ++
  line (tab :: s "Mass: " ++ inertia_field mass ++ s " kg") ++
  line (tab :: s "COG:  " ++ inertia_row cog) ++
  line (tab :: s "Inertia matrix expressed at: " ++ inertia_row point) ++
  line (tab :: tab :: inertia_row r0) ++ line (tab :: tab :: inertia_row r1) ++ line (tab :: tab :: inertia_row r2).

(** mesh.py:423-457 Mesh.__str__; [box] is axis_aligned_bbox *)
Definition mesh_str (name : text) (nv nf nt nq : nat) (box : list num) : text :=
  let i := s "        " in
  let n k := digits (N.of_nat k) in
  let b k := fixed_point 6 (nth k box (Num false 0 1)) in
  newline ::
  line (i ++ s "--------------------------------------------") ++
  line (i ++ tab :: s "MESH NAME : " ++ name) ++
  line (i ++ s "--------------------------------------------") ++
  line [] ++
  line (i ++ s "Number of vertices: " ++ n nv) ++
  line (i ++ s "Number of faces:    " ++ n nf) ++
  line [] ++
  line (i ++ s "Number of triangles:   " ++ n nt) ++
  line (i ++ s "Number of quadrangles: " ++ n nq) ++
  line [] ++
  line (i ++ s "xmin = " ++ b 0 ++ tab :: s "xmax = " ++ b 1) ++
  line (i ++ s "ymin = " ++ b 2 ++ tab :: s "ymax = " ++ b 3) ++
  line (i ++ s "zmin = " ++ b 4 ++ tab :: s "zmax = " ++ b 5) ++
  line [] ++ line [] ++ i.
