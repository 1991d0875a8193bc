(** Specification of the report of the older class: the quantities to be found in it. *)
From Coq Require Import Ascii String List Arith NArith ZArith QArith Bool.
From Verif Require Import M_base M_merge M_text M_mmio M_print M_oldreport S_text S_print.
Import ListNotations.
Local Open Scope nat_scope.

Section Report.
  Variable div : num -> num -> num.
  (** The quantities before the residuals, in order *)
  Definition old_quantities (h : old) : list quantity :=
    let one label st x := (label, st, [x]) in
    [one "GRAVITY ACCELERATION (M/S**2)" (Fix 2) (o_grav h);
     one "DENSITY OF WATER (KG/M**3)" (Fix 1) (o_rho h);
     one "WATERPLANE AREA (M**2)" (Fix 1) (o_area h);
     ("WATERPLANE CENTER (M)", Fix 3, firstn 2 (o_fc h));
     one "WET AREA (M**2)" (Fix 1) (o_wet h);
     one "DISPLACEMENT VOLUME (M**3)" (Fix 3) (o_volume h);
     one "DISPLACEMENT MASS (TONS)" (Fix 3) (div (o_mass h) (Num false 1000 1));
     ("BUOYANCY CENTER (M)", Fix 3, o_bc h);
     ("CENTER OF GRAVITY (M)", Fix 3, o_cog h);
     one "DRAUGHT (M)" (Fix 3) (o_draught h);
     one "LENGTH OVERALL SUBMERGED (M)" (Fix 2) (o_los h);
     one "BREADTH OVERALL SUBMERGED (M)" (Fix 2) (o_bos h);
     one "LENGTH AT WATERLINE LWL (M)" (Fix 2) (o_lwl h);
     one "FORWARD PERPENDICULAR (M)" (Fix 2) (o_fp h);
     one "TRANSVERSAL METACENTRIC RADIUS (M)" (Fix 3) (o_rt h);
     one "TRANSVERSAL METACENTRIC HEIGHT GMT (M)" (Fix 3) (o_gmt h);
     one "LONGITUDINAL METACENTRIC RADIUS (M)" (Fix 3) (o_rl h);
     one "LONGITUDINAL METACENTRIC HEIGHT GML (M)" (Fix 3) (o_gml h);
     one "K33 (N/M)" (Sci 4) (o_s33 h); one "K34 (N)" (Sci 4) (o_s34 h); one "K35 (N)" (Sci 4) (o_s35 h);
     one "K44 (N.M)" (Sci 4) (o_s44 h); one "K45 (N.M)" (Sci 4) (o_s45 h); one "K55 (N.M)" (Sci 4) (o_s55 h);
     one "IXX" (Sci 3) (o_ixx h); one "IXY" (Sci 3) (o_ixy h); one "IXZ" (Sci 3) (o_ixz h);
     one "IYY" (Sci 3) (o_iyy h); one "IYZ" (Sci 3) (o_iyz h); one "IZZ" (Sci 3) (o_izz h)]%string.
End Report.

(** What a reader can tell of three numbers of which the second and third have their columns only if they have no minus sign:
    the words joined where there is one. *)
Definition joined (a b c : text) (nb nc : bool) : list text :=
  match nb, nc with
  | false, false => [a; b; c]
  | true, false => [a ++ b; c]
  | false, true => [a; b ++ c]
  | true, true => [a ++ b ++ c]
  end.
(** A line of three numbers in scientific notation with three decimals *)
Definition displays_joined dbl (label : string) (r : num * num * num) (e : text * list text) : Prop :=
  let '(x, y, z) := r in fst e = s label /\
  exists a b c, shows dbl (Sci 3) x a /\ shows dbl (Sci 3) y b /\ shows dbl (Sci 3) z c /\ snd e = joined a b c (neg y) (neg z).
