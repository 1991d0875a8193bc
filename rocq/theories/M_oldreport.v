(** Model of the report of the class Hydrostatics of hydrostatics_old.py. *)
From Coq Require Import Ascii String List Arith NArith ZArith Bool.
From Verif Require Import M_base M_text M_mmio M_formats M_print.
Import ListNotations.
Local Open Scope nat_scope.

(** hydrostatics_old.py:1204-1226 build_line, without the end of line. A number is written with the first format; an array of
    one dimension makes it raise TypeError and is written entry by entry in fields of 10 characters. *)
Definition old_line (label : string) (st : style) (d : datum) : text :=
  tab :: ljust "-" 40 (upper (s label)) ++ s ">  " ++
  match d with Scalar x => show st x | Vector xs => concat (map (fun x => ljust " " 10 (show st x)) xs) end.

(** The values that are printed. [fc] is the center of flotation with its three coordinates, [res0] the residual (a force and
    two moments), [scale0] the scale of 759-767; [s33] ... [s55] are entries of the stiffness matrix. *)
Record old := mkOld {
  o_grav : num; o_rho : num; o_area : num; o_fc : list num; o_wet : num; o_volume : num; o_mass : num;
  o_bc : list num; o_cog : list num; o_draught : num; o_los : num; o_bos : num; o_lwl : num; o_fp : num;
  o_rt : num; o_gmt : num; o_rl : num; o_gml : num;
  o_s33 : num; o_s34 : num; o_s35 : num; o_s44 : num; o_s45 : num; o_s55 : num;
  o_ixx : num; o_ixy : num; o_ixz : num; o_iyy : num; o_iyz : num; o_izz : num;
  o_res : num * num * num; o_scale : num * num * num; o_reltol : num }.

Section Report.
  (** Division of doubles: any function. *)
  Variable div : num -> num -> num.
  Definition triple (r : num * num * num) : list num := let '(a, b, c) := r in [a; b; c].
  (** [residual / _scale], entry by entry *)
  Definition relative (r k : num * num * num) : num * num * num :=
    let '(a, b, c) := r in let '(x, y, z) := k in (div a x, div b y, div c z).

  (** hydrostatics_old.py:1230-1283, lines without their end *)
  Definition old_lines (h : old) : list text :=
    [[]; [];
     old_line "Gravity acceleration (M/S**2)" (Fix 2) (Scalar (o_grav h));
     old_line "Density of water (kg/M**3)" (Fix 1) (Scalar (o_rho h));
     [];
     old_line "Waterplane area (M**2)" (Fix 1) (Scalar (o_area h));
     old_line "Waterplane center (M)" (Fix 3) (Vector (firstn 2 (o_fc h)));
     old_line "Wet area (M**2)" (Fix 1) (Scalar (o_wet h));
     old_line "Displacement volume (M**3)" (Fix 3) (Scalar (o_volume h));
     (* hydrostatics_old.py:290-293 displacement *)
     old_line "Displacement mass (tons)" (Fix 3) (Scalar (div (o_mass h) thousand));
     old_line "Buoyancy center (M)" (Fix 3) (Vector (o_bc h));
     old_line "Center of gravity (M)" (Fix 3) (Vector (o_cog h));
     [];
     old_line "Draught (M)" (Fix 3) (Scalar (o_draught h));
     old_line "Length overall submerged (M)" (Fix 2) (Scalar (o_los h));
     old_line "Breadth overall submerged (M)" (Fix 2) (Scalar (o_bos h));
     old_line "Length at Waterline LWL (M)" (Fix 2) (Scalar (o_lwl h));
     old_line "Forward perpendicular (M)" (Fix 2) (Scalar (o_fp h));
     [];
     old_line "Transversal metacentric radius (M)" (Fix 3) (Scalar (o_rt h));
     old_line "Transversal metacentric height GMt (M)" (Fix 3) (Scalar (o_gmt h));
     old_line "Longitudinal metacentric radius (M)" (Fix 3) (Scalar (o_rl h));
     old_line "Longitudinal metacentric height GMl (M)" (Fix 3) (Scalar (o_gml h));
     [];
     tab :: s "HYDROSTATIC STIFFNESS COEFFICIENTS:";
     old_line "K33 (N/M)" (Sci 4) (Scalar (o_s33 h));
     old_line "K34 (N)" (Sci 4) (Scalar (o_s34 h));
     old_line "K35 (N)" (Sci 4) (Scalar (o_s35 h));
     old_line "K44 (N.M)" (Sci 4) (Scalar (o_s44 h));
     old_line "K45 (N.M)" (Sci 4) (Scalar (o_s45 h));
     old_line "K55 (N.M)" (Sci 4) (Scalar (o_s55 h));
     [];
     tab :: s "INERTIAS:";
     old_line "Ixx" (Sci 3) (Scalar (o_ixx h));
     old_line "Ixy" (Sci 3) (Scalar (o_ixy h));
     old_line "Ixz" (Sci 3) (Scalar (o_ixz h));
     old_line "Iyy" (Sci 3) (Scalar (o_iyy h));
     old_line "Iyz" (Sci 3) (Scalar (o_iyz h));
     old_line "Izz" (Sci 3) (Scalar (o_izz h));
     [];
     tab :: s "RESIDUALS:";
     old_line "Absolute" (Sci 3) (Vector (triple (o_res h)));
     old_line "Relative" (Sci 3) (Vector (triple (relative (o_res h) (o_scale h))));
     old_line "Relative tolerance" (Sci 1) (Scalar (o_reltol h))].
  (** hydrostatics_old.py:1193-1297 get_hydrostatic_report *)
  Definition old_report (h : old) : text := concat (map line (old_lines h)).
End Report.
