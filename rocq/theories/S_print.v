(** Specification of the printed texts: how a reader finds the numbers in them. *)
From Coq Require Import Ascii String List Arith NArith ZArith QArith Bool.
From Verif Require Import M_base M_merge M_text M_mmio M_print S_text.
Import ListNotations.
Local Open Scope nat_scope.

Fixpoint span (p : ascii -> bool) (t : text) : text * text :=
  match t with
  | c :: t' => if p c then let (a, b) := span p t' in (c :: a, b) else ([], t)
  | [] => ([], [])
  end.
(** A line of values: a tab, a label, dashes, an arrow and words. *)
Definition entry (l : text) : list (text * list text) :=
  match l with
  | c :: l' =>
      if Ascii.eqb c tab then
        let (label, r) := span (fun c => negb (Ascii.eqb c "-") && negb (Ascii.eqb c ">")) l' in
        let (dashes, r) := span (fun c => Ascii.eqb c "-") r in
        match dashes, r with _ :: _, ">"%char :: v => [(label, words v)] | _, _ => [] end
      else []
  | [] => []
  end.
Definition entries (t : text) : list (text * list text) := flat_map entry (lines t).

(** The word is a number: the value rounded to the digits of the style. *)
Definition shows (dbl : N -> Z -> N * positive) (st : style) (x : num) (w : text) : Prop :=
  exists y, to_float dbl w = Ok y /\ match st with Fix k => saved_fixed dbl k x y | Sci k => saved_sci dbl k x y end.
(** A quantity: its label, its style and its numbers *)
Definition quantity : Type := string * style * list num.
Definition displays dbl (q : quantity) (e : text * list text) : Prop :=
  let '(label, st, xs) := q in fst e = s label /\ Forall2 (shows dbl st) xs (snd e).

(** Less than 10000 in magnitude once rounded to 3 decimals *)
Definition small (x : num) : Prop := forall m, fixed_digits 3 x m -> (m < 10 ^ 7)%N.

Section Report.
  Variable degrees square : num -> num.
  Variable mul div : num -> num -> num.
  (** The quantities of the report, in order *)
  Definition quantities (h : hs) (r1 r2 r3 : num) : list quantity :=
    let one label st x := (label, st, [x]) in
    [one "Z CORRECTION (M)" (Fix 3) (z_eq h);
     one "HEEL CORRECTION (DEG)" (Fix 3) (degrees (heel h));
     one "TRIM CORRECTION (DEG)" (Fix 3) (degrees (trim h));
     one "GRAVITY ACCELERATION (M/S**2)" (Fix 2) (grav h);
     one "DENSITY OF WATER (KG/M**3)" (Fix 1) (rho_water h);
     one "WATERPLANE AREA (M**2)" (Fix 1) (waterplane_area h);
     ("WATERPLANE CENTER (M)", Fix 3, waterplane_center h);
     one "WETTED SURFACE AREA (M**2)" (Fix 1) (wet_surface_area h);
     one "DISPLACEMENT VOLUME (M**3)" (Fix 3) (disp_volume h);
     one "DISPLACEMENT MASS (TONS)" (Fix 3) (div (disp_mass h) (Num false 1000 1));
     ("BUOYANCY CENTER (M)", Fix 3, buoyancy_center h);
     ("CENTER OF GRAVITY (M)", Fix 3, center_of_gravity h);
     one "DRAFT (M)" (Fix 3) (draught h);
     one "LENGTH OVERALL SUBMERGED (M)" (Fix 2) (los h);
     one "BREADTH OVERALL SUBMERGED (M)" (Fix 2) (bos h);
     one "LENGTH AT WATERLINE LWL (M)" (Fix 2) (lwl h);
     one "FORWARD PERPENDICULAR FP (M)" (Fix 2) (fp h);
     one (if trust_lpp h then "LENGTH BETWEEN PERPENDICULARS LPP (M)" else "[2] LENGTH BETWEEN PERPENDICULARS LPP (M)") (Fix 2) (lpp h);
     one "TRANSVERSAL METACENTRIC RADIUS (M)" (Fix 3) (rt h);
     one "LONGITUDINAL METACENTRIC RADIUS (M)" (Fix 3) (rl h);
     one "TRANSVERSAL METACENTRIC HEIGHT GMT (M)" (Fix 3) (gmt h);
     one "LONGITUDINAL METACENTRIC HEIGHT GML (M)" (Fix 3) (gml h);
     one "K33 (N/M)" (Sci 4) (k33 h); one "K34 (N)" (Sci 4) (k34 h); one "K35 (N)" (Sci 4) (k35 h);
     one "K44 (N.M)" (Sci 4) (k44 h); one "K45 (N.M)" (Sci 4) (k45 h); one "K55 (N.M)" (Sci 4) (k55 h);
     one "RXX (M)" (Fix 3) (mul three_tenths (bos h));
     one "RYY (M)" (Fix 3) (mul quarter (lpp h));
     one "RZZ (M)" (Fix 3) (mul quarter (lpp h));
     one "IXX" (Sci 3) (mul (square (mul three_tenths (bos h))) (disp_mass h));
     one "IYY" (Sci 3) (mul (square (mul quarter (lpp h))) (disp_mass h));
     one "IZZ" (Sci 3) (mul (square (mul quarter (lpp h))) (disp_mass h));
     one "RXX" (Fix 3) r1; one "RYY" (Fix 3) r2; one "RZZ" (Fix 3) r3;
     one "IXX" (Sci 3) (ixx h); one "IYY" (Sci 3) (iyy h); one "IZZ" (Sci 3) (izz h)]%string.
End Report.

(** The warnings of a report: its lines that begin with a tab and an angle bracket *)
Definition warning (l : text) : bool :=
  match l with c :: d :: _ => Ascii.eqb c tab && Ascii.eqb d "<" | _ => false end.
Definition warnings (t : text) : list text := filter warning (lines t).
