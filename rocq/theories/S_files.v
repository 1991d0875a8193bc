(** Specification of the lines of mesh files. *)
From Coq Require Import Ascii String List Arith NArith ZArith Bool.
From Verif Require Import M_base M_merge M_mesh M_text M_mmio S_text.
Import ListNotations.
Local Open Scope nat_scope.

(** A word that Python reads as the integer [n] *)
Definition writes_nat (n : nat) (w : text) : Prop := to_int w = Ok (Z.of_nat n).
(** A word that Python reads as [x] rounded to [k] decimals in scientific notation, and in fixed point *)
Definition writes_sci (k : nat) (x : num) (w : text) : Prop := forall dbl, exists y, to_float dbl w = Ok y /\ saved_sci dbl k x y.
Definition writes_fixed (k : nat) (x : num) (w : text) : Prop := forall dbl, exists y, to_float dbl w = Ok y /\ saved_fixed dbl k x y.
(** A line with the coordinates of a vertex, one with its number before, and a line with the numbers of the corners of a
    face, counted from one *)
Definition writes_vertex (writes : num -> text -> Prop) (v : vertex) (ws : list text) : Prop := Forall2 writes (coordinates v) ws.
Definition writes_node (writes : num -> text -> Prop) (iv : nat * vertex) (ws : list text) : Prop :=
  exists w r, ws = w :: r /\ writes_nat (S (fst iv)) w /\ writes_vertex writes (snd iv) r.
Definition writes_face (f : face) (ws : list text) : Prop := Forall2 writes_nat (map S (corners f)) ws.
(** Elements with their positions *)
Definition with_index {A} (l : list A) : list (nat * A) := combine (seq 0 (length l)) l.
(** Coordinates with exponents of at most [p] digits, at [k] decimals; numbers of vertices with at most [p] digits *)
Definition exponents_within (k p : nat) (vs : list vertex) : Prop := forall v x, In v vs -> In x (coordinates v) -> exponent_room k p x.
Definition ids_within (p : nat) (fs : list face) : Prop := Forall (fun f => Forall (fun n => (N.of_nat n + 1 < 10 ^ N.of_nat p)%N) (corners f)) fs.

(** ** Diodore files *)
(** A text in one line in which no word of the file is to be found *)
Definition occurs (w t : text) : Prop := exists a b, t = a ++ w ++ b.
Definition without (ws : list text) (t : text) : Prop := ~ In newline t /\ Forall (fun w => ~ occurs w t) ws.
Definition dat_words : list text := [s "NODE"; s "T3C000"; s "Q4C000"].
(** The corners of faces are vertices *)
Definition corners_within (n : nat) (fs : list face) : Prop := Forall (fun f => Forall (fun k => k < n) (corners f)) fs.
(** A line with the number of an element and those of its corners *)
Definition writes_element (j : nat) (cs : list nat) (l : text) : Prop := Forall2 writes_nat (S j :: map S cs) (words l).
(** The lines for the elements of a type: none when there are no elements *)
Definition writes_elements (type : string) (root : text) (els : list (nat * list nat)) (ls : list text) : Prop :=
  match els with
  | [] => ls = []
  | _ => exists rows, Forall2 (fun jc => writes_element (fst jc) (snd jc)) els rows /\
           ls = [s "$"; s "$ ELEMENT,TYPE=" ++ s type ++ s ",ELSTRUCTURE=" ++ root] ++ rows ++ [s "*RETURN"]
  end.

(** ** Gmsh files, version 2 *)
(** An element: its number, its type, its tags and the numbers of its nodes *)
Record element := Element { el_number : nat; el_type : nat; el_tags : list nat; el_nodes : list nat }.
Definition numbers_line (n : nat) (l : list nat) : text := digits (N.of_nat n) ++ concat (map (fun m => " "%char :: digits (N.of_nat m)) l).
Definition element_line (e : element) : text := numbers_line (el_number e) ([el_type e; length (el_tags e)] ++ el_tags e ++ el_nodes e).
(** Types 2 and 3 are triangles and quadrangles. *)
Definition element_ok (e : element) : Prop := (el_type e = 2 -> length (el_nodes e) = 3) /\ (el_type e = 3 -> length (el_nodes e) = 4).
Definition msh_section (name : text) (ls : list text) : text :=
  s "$" ++ name ++ newline :: digits (N.of_nat (length ls)) ++ newline :: concat (map line ls) ++ s "$End" ++ name.
(** A file: the first line gives the version; [o0] to [o3] are anything else *)
Definition msh_file (o0 format o1 : text) (nodes : list text) (o2 : text) (els : list element) (o3 : text) : text :=
  o0 ++ s "$MeshFormat" ++ newline :: format ++ newline :: s "$EndMeshFormat" ++ o1 ++
  msh_section (s "Nodes") nodes ++ o2 ++ msh_section (s "Elements") (map element_line els) ++ o3.
Definition msh_words : list text :=
  [s "$MeshFormat"; s "$EndMeshFormat"; s "$Nodes" ++ [newline]; s "$EndNodes"; s "$Elements" ++ [newline]; s "$EndElements"].
Definition other_text (o : text) : Prop := Forall (fun w => ~ occurs w o) msh_words.
(** The line of a node: its number and its coordinates *)
Definition node_line (dbl : N -> Z -> N * positive) (l : text) (p : list num) : Prop :=
  ~ In "$"%char l /\ exists n i ws, words l = n :: ws /\ to_float dbl n = Ok i /\ length ws = 3 /\ mapM (to_float dbl) ws = Ok p.
(** The corners of the face for an element: the first corner of a triangle comes twice *)
Definition element_face (e : element) : list Z :=
  map (fun n => (Z.of_nat n - 1)%Z) (match el_nodes e with [a; b; c] => [a; b; c; a] | l => l end).
Definition surface (els : list element) : list element := filter (fun e => el_type e =? 2) els ++ filter (fun e => el_type e =? 3) els.

(** ** Files to look at meshes *)
(** The corners of a face, each once *)
Definition polygon (f : face) : list nat := if f0 f =? f3 f then [f0 f; f1 f; f2 f] else corners f.
(** Reading a file of the VTK library: four lines, then words. The points come after "POINTS", their number and a type, the
    polygons after "POLYGONS", their number and the number of words that follow. A polygon is the number of its corners and
    the corners, counted from zero. *)
Definition is_word (x : string) (w : text) : bool := if list_eq_dec ascii_dec w (s x) then true else false.
Fixpoint vtk_polygons (m : nat) (ws : list text) : option (list (list text)) :=
  match m, ws with
  | O, [] => Some []
  | S m', w :: r =>
      match to_int w with
      | Ok k => if length r <? Z.to_nat k then None else option_map (cons (firstn (Z.to_nat k) r)) (vtk_polygons m' (skipn (Z.to_nat k) r))
      | Raise _ => None
      end
  | _, _ => None
  end.
Definition vtk_read (t : text) : option (list text * list (list text)) :=
  match concat (map words (skipn 4 (lines t))) with
  | p :: n :: _ :: r =>
      match to_int n with
      | Ok n =>
          match skipn (3 * Z.to_nat n) r with
          | g :: m :: k :: q =>
              match to_int m, to_int k with
              | Ok m, Ok k =>
                  if is_word "POINTS" p && is_word "POLYGONS" g && (Z.of_nat (length q) =? k)%Z
                  then option_map (fun ps => (firstn (3 * Z.to_nat n) r, ps)) (vtk_polygons (Z.to_nat m) q) else None
              | _, _ => None
              end
          | _ => None
          end
      | Raise _ => None
      end
  | _ => None
  end.
(** Wavefront files: vertices are what follows "v" in lines, faces what follows "f", with vertices counted from one; other lines
    that are not empty begin with # *)
Definition obj_entries (letter : string) (t : text) : list (list text) :=
  flat_map (fun l => match words l with w :: r => if is_word letter w then [r] else [] | [] => [] end) (lines t).
Definition obj_line (l : text) : Prop := words l = [] \/ exists w r, words l = w :: r /\ (w = s "v" \/ w = s "f" \/ exists w', w = "#"%char :: w').
