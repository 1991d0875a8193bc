(** Mesh files read with regular expressions (meshmagick/mmio.py): Hydrostar .hst, Tecplot .tec, Diodore .dat, Radioss .rad,
    Gmsh .msh in version 2, with their writers, and the writers of .vtk and .obj. *)
From Coq Require Import Ascii String List Arith NArith ZArith Bool.
From Verif Require Import M_base M_merge M_mesh M_text M_mmio M_regex.
Import ListNotations.
Local Open Scope nat_scope.

(** ** Patterns *)
Definition seqs (l : list re) : re := fold_right Seq Empty l.
Definition class (cs : text) : re := Chr (fun c => existsb (Ascii.eqb c) cs).
Definition lit (x : string) : re := Word (s x).
Definition ss : re := Star space_re.
Definition sp : re := Plus space_re.
Definition ds : re := Plus digit_re.
(** mmio.py:8 real_str *)
Definition real_re : re :=
  seqs [Opt (class (s "+-"));
        Alt (seqs [ds; Lit "."; Star digit_re]) (seqs [Star digit_re; Lit "."; ds]);
        Opt (seqs [class (s "Ee"); Opt (class (s "+-")); ds])].
Definition return_char : ascii := "013"%char.
(** [\r\n]+ *)
Definition ends : re := Plus (class [return_char; newline]).

(** mmio.py:134-138 *)
Definition hst_node_line : re := seqs [ss; ds; Times 3 (Seq sp real_re)].
Definition hst_node_section : re := Group 1 (Plus hst_node_line).
Definition hst_elem_line : re := seqs [Bol; ss; Times 3 (Seq ds sp); ds; ss; ends].
Definition hst_elem_section : re := Group 1 (Plus hst_elem_line).
(** mmio.py:80-85 *)
Definition rad_node_line : re :=
  seqs [ss; ds; ss; Group 1 real_re; ss; Group 2 real_re; ss; Group 3 real_re].
Definition rad_node_section : re := Group 1 (Plus (seqs [ss; ds; ss; Group 2 real_re; ss; Group 3 real_re; ss; Group 4 real_re])).
Definition rad_elem_line : re := seqs [Bol; ss; Times 6 (Seq ds sp); ds; ss; ends].
Definition rad_elem_section : re := Group 1 (AtLeast 3 rad_elem_line).
(** mmio.py:190, 209 and 227 *)
Definition dat_node_section : re :=
  seqs [lit "NODE"; ss; Group 1 (Plus (seqs [ds; Times 3 (Seq sp (Plus nonspace_re)); sp])); lit "*RETURN"].
Definition dat_element_section (type : string) (n : nat) : re :=
  seqs [lit "ELEMENT"; Plus nonspace_re; lit type; Plus dot_re; ss; Group 1 (Plus (Times n (Seq ds sp))); lit "*RETURN"].
(** mmio.py:440-443 *)
Definition tec_data : re :=
  seqs [lit "ZONE"; Star dot_re; ss; lit "N"; ss; lit "="; ss; Group 1 ds; ss; lit ","; ss; lit "E="; ss; Group 2 ds; ss; lit ","; ss;
        lit "F"; ss; lit "="; ss; lit "FEPOINT"; ss; lit ","; ss; lit "ET"; ss; lit "="; ss; lit "QUADRILATERAL"; sp;
        Group 3 (seqs [Bol; AtLeast 3 (Seq ss real_re)]); sp; Group 4 (seqs [Bol; Star (Seq ss ds)])].
(** mmio.py:858-859, 866, 872 and 941 *)
Definition msh_block (name : string) : re :=
  seqs [Word (s "$" ++ s name ++ [newline]); Group 1 ds; Lit newline; Group 2 (Plus any_re); Word (s "$End" ++ s name)].
Definition msh_element (type : ascii) : re :=
  Group 1 (seqs [Bol; ds; space_re; Lit type; Seq (Seq space_re ds) (Lazy (Seq space_re ds)); Eol]).
Definition msh_version : re :=
  seqs [lit "$MeshFormat"; Lit newline; Group 1 (seqs [digit_re; any_re; digit_re]); Star any_re; Lit newline; lit "$EndMeshFormat"].

(** ** Writers *)
(** mmio.py:1170-1258 write_DAT: the name of the file and its text; [root] is the name without extension, [upper_root] the
    same in capital letters. What is printed is dropped. *)
Definition element_lines (fs : list (nat * list nat)) : text :=
  concat (map (fun jf => newline :: int_field 8 (S (fst jf)) ++ concat (map (int_field 8) (snd jf))) fs).
Definition element_block (type : string) (upper_root : text) (fs : list (nat * list nat)) : text :=
  match fs with
  | [] => []
  | _ => line (s "$") ++ s "$ ELEMENT,TYPE=" ++ s type ++ s ",ELSTRUCTURE=" ++ upper_root ++ element_lines fs ++ newline :: line (s "*RETURN")
  end.
Definition numbered {A} (l : list A) : list (nat * A) := combine (seq 0 (length l)) l.
Definition dat_triangle (jf : nat * face) : bool := f0 (snd jf) =? f3 (snd jf).
Definition write_DAT (date upper_root : text) (vs : list vertex) (fs : list face) : text :=
  line (s "$") ++ line (s "$ Data for DIODORE input file : " ++ upper_root) ++
  line (s "$ GENERATED BY MESHMAGICK ON " ++ date) ++ line (s "$") ++ line (s "$ NODE") ++
  join_lines (map (fun iv => int_field 8 (S (fst iv)) ++ fields3 (sci_field "E" 13 5) (snd iv)) (numbered vs)) ++
  newline :: line (s "*RETURN") ++
  element_block "Q4C000" upper_root (map (fun jf => (fst jf, corners (plus_one (snd jf)))) (filter (fun jf => negb (dat_triangle jf)) (numbered fs))) ++
  element_block "T3C000" upper_root (map (fun jf => (fst jf, firstn 3 (corners (plus_one (snd jf))))) (filter dat_triangle (numbered fs))).

(** mmio.py:1261-1314 write_HST *)
Definition write_HST (vs : list vertex) (fs : list face) : text :=
  line (s "PROJECT:") ++ line (s "USERS:   meshmagick") ++ line [] ++
  line (s "NBODY   1") ++ line (s "RHO   1025.0") ++ line (s "GRAVITY   9.81") ++ line [] ++
  line (s "COORDINATES") ++
  join_lines (map (fun iv => int_field 10 (S (fst iv)) ++ fields3 (sci_field "E" 16 6) (snd iv)) (numbered vs)) ++
  newline :: line (s "ENDCOORDINATES") ++ line [] ++
  line (s "PANEL TYPE 0") ++
  join_lines (map (fun f => concat (map (int_field 10) (corners (plus_one f)))) fs) ++
  newline :: line (s "ENDPANEL") ++ line [] ++
  line (s "ENDFILE").

(** mmio.py:1317-1359 write_TEC; [name] is the name of the file *)
Definition quote : ascii := "034"%char.
Definition write_TEC (name : text) (vs : list vertex) (fs : list face) : text :=
  line (s "TITLE = " ++ quote :: s " THIS FILE WAS GENERATED BY MESHMAGICK - FICHIER : " ++ name ++ s " " ++ quote :: s " ") ++
  line (s "VARIABLES = " ++ quote :: s "X" ++ quote :: s "," ++ quote :: s "Y" ++ quote :: s "," ++ quote :: s "Z" ++ quote :: s " ") ++
  line (s "ZONE T=" ++ quote :: s "MESH" ++ quote :: s " ") ++
  line (s "N=" ++ int_field 10 (length vs) ++ s " ,E=" ++ int_field 10 (length fs) ++ s " , F=FEPOINT, ET=QUADRILATERAL") ++
  line (join_lines (map (fields3 (sci_field "E" 16 6)) vs)) ++
  line (join_lines (map (fun f => concat (map (int_field 10) (corners (plus_one f)))) fs)).

(** mmio.py:1419-1459 write_VTK *)
Definition vtk_face (f : face) : text :=
  let number n := " "%char :: digits (N.of_nat n) in
  if f0 f =? f3 f then s "3" ++ concat (map number [f0 f; f1 f; f2 f]) else s "4" ++ concat (map number (corners f)).
Definition write_VTK (date : text) (vs : list vertex) (fs : list face) : text :=
  let nt := length (filter (fun f => f0 f =? f3 f) fs) in
  let nq := length (filter (fun f => negb (f0 f =? f3 f)) fs) in
  line (s "# vtk DataFile Version 4.0") ++ line (s "vtk file generated by meshmagick on " ++ date) ++
  line (s "ASCII") ++ line (s "DATASET POLYDATA") ++ line (s "POINTS " ++ digits (N.of_nat (length vs)) ++ s " float") ++
  concat (map (fun v => let '(x, y, z) := v in line (fixed_point 6 x ++ s " " ++ fixed_point 6 y ++ s " " ++ fixed_point 6 z)) vs) ++
  line (s "POLYGONS " ++ digits (N.of_nat (length fs)) ++ s " " ++ digits (N.of_nat (4 * nt + 5 * nq))) ++
  concat (map (fun f => line (vtk_face f)) fs).

(** mmio.py:1462-1483 write_OBJ *)
Definition obj_face (f : face) : text :=
  let g := plus_one f in
  s "f  " ++ int_field 10 (f0 g) ++ s "  " ++ int_field 10 (f1 g) ++ s "  " ++ int_field 10 (f2 g) ++
  (if f0 f =? f3 f then [] else s "  " ++ int_field 10 (f3 g)).
Definition write_OBJ (date : text) (vs : list vertex) (fs : list face) : text :=
  line (s "# Wavefront OBJ file exported by Meshmagick (Copyright Ecole Centrale de Nantes)") ++
  line (s "# File Created: " ++ date) ++ line [] ++ line [] ++
  line (s "# Vertices: " ++ digits (N.of_nat (length vs))) ++ line [] ++
  concat (map (fun v => let '(x, y, z) := v in
    line (s "v  " ++ fixed_field 15 6 x ++ tab :: fixed_field 15 6 y ++ tab :: fixed_field 15 6 z)) vs) ++
  line [] ++ line [] ++ line [] ++ line (s "# Faces: " ++ digits (N.of_nat (length fs))) ++ line [] ++
  concat (map (fun f => line (obj_face f)) fs).

(** ** Readers *)
(** str.splitlines. "\r\n" is translated when the file is read. *)
Definition is_break (c : ascii) : bool := let n := N_of_ascii c in ((10 <=? n) && (n <=? 13) || (28 <=? n) && (n <=? 30))%N.
Fixpoint splitlines_from (line : text) (t : text) : list text :=
  match t with
  | [] => match line with [] => [] | _ => [rev line] end
  | c :: t' => if is_break c then rev line :: splitlines_from [] t' else splitlines_from (c :: line) t'
  end.
Definition splitlines (t : text) : list text := splitlines_from [] t.
(** a.reshape((n, k)) *)
Fixpoint rows_of {A} (n k : nat) (l : list A) : list (list A) :=
  match n with O => [] | S n' => firstn k l :: rows_of n' k (skipn k l) end.
Definition reshape {A} (n k : nat) (l : list A) : res (list (list A)) :=
  if n * k =? length l then Ok (rows_of n k l) else Raise ValueError.
(** a.reshape((n, -1)) and a.reshape((-1, k)) *)
Definition reshape_n {A} (n : nat) (l : list A) : res (list (list A)) :=
  if n =? 0 then Raise ValueError else reshape n (length l / n) l.
Definition reshape_k {A} (k : nat) (l : list A) : res (list (list A)) := reshape (length l / k) k l.
(** The last [k] elements *)
Definition final {A} (k : nat) (l : list A) : list A := skipn (length l - k) l.

Section Readers.
  Variable dbl : N -> Z -> N * positive.

  (** mmio.py:107-175 load_HST. After the first section the names vertices_tmp and faces_tmp stand for arrays, which have
      no method append: AttributeError. Without faces [] - 1 raises TypeError. *)
  Definition load_HST (t : text) : res (array num * array Z) :=
    do vs <- match findall1 hst_node_section t with
             | [] => Ok (Arr1 [])
             | [sec] => do rows <- mapM (fun l => mapM (to_float dbl) (skipn 1 (words l))) (findall hst_node_line sec); np_array rows
             | sec :: _ => do _ <- mapM (fun l => mapM (to_float dbl) (skipn 1 (words l))) (findall hst_node_line sec); Raise AttributeError
             end;
    do fs <- match findall1 hst_elem_section t with
             | [] => Raise TypeError
             | [sec] => do rows <- mapM (fun l => mapM to_int (words l)) (findall hst_elem_line sec); np_array rows
             | sec :: _ => do _ <- mapM (fun l => mapM to_int (words l)) (findall hst_elem_line sec); Raise AttributeError
             end;
    Ok (vs, minus_one fs).

  (** mmio.py:53-104 load_RAD *)
  Definition load_RAD (t : text) : res (array num * array Z) :=
    match search rad_node_section t with
    | None => Raise AttributeError
    | Some ns =>
        do vs <- mapM (fun m => mapM (fun i => to_float dbl (group i m)) [1; 2; 3]) (matches rad_node_line (group 1 ns));
        do vs <- np_array vs;
        match search rad_elem_section t with
        | None => Raise AttributeError
        | Some es =>
            do fs <- mapM (fun l => mapM to_int (skipn 3 (words l))) (findall rad_elem_line (group 1 es));
            do fs <- np_array fs;
            Ok (vs, minus_one fs)
        end
    end.

  (** mmio.py:178-243 load_DAT. [node_dict]: the last node with a number counts. *)
  Fixpoint position_of (k : text) (names : list (text * nat)) : res nat :=
    match names with
    | [] => Raise KeyError
    | (k', i) :: names' => match position_of k names' with
                           | Ok j => Ok j
                           | Raise e => if list_eq_dec ascii_dec k k' then Ok i else Raise e
                           end
    end.
  Definition word_at (i : nat) (ws : list text) : res text := match nth_error ws i with Some w => Ok w | None => Raise IndexError end.
  Definition dat_face (names : list (text * nat)) (is : list nat) (l : text) : res (list Z) :=
    mapM (fun i => do w <- word_at i (words l); do n <- position_of w names; Ok (Z.of_nat n)) is.
  Definition load_DAT (t : text) : res (array num * array Z) :=
    match findall1 dat_node_section t with
    | _ :: _ :: _ => Raise RuntimeError
    | [] => Raise IndexError
    | [sec] =>
        do nodes <- mapM (fun l => match words l with w :: ws => Ok (w, ws) | [] => Raise IndexError end) (splitlines sec);
        let names := combine (map fst nodes) (seq 0 (length nodes)) in
        do vs <- mapM (mapM (to_float dbl)) (map snd nodes);
        do vs <- np_array vs;
        do ts <- match findall1 (dat_element_section "T3C000" 4) t with
                 | [] => Ok []
                 | sec :: _ => mapM (dat_face names [1; 2; 3; 1]) (splitlines sec)
                 end;
        do qs <- match findall1 (dat_element_section "Q4C000" 5) t with
                 | [] => Ok []
                 | sec :: _ => mapM (dat_face names [1; 2; 3; 4]) (splitlines sec)
                 end;
        do fs <- np_array (ts ++ qs);
        Ok (vs, fs)
    end.

  (** mmio.py:416-457 load_TEC *)
  Definition load_TEC (t : text) : res (array num * array Z) :=
    match search tec_data t with
    | None => Raise AttributeError
    | Some m =>
        do nv <- to_int (group 1 m);
        do nf <- to_int (group 2 m);
        do xs <- mapM (to_float dbl) (words (group 3 m));
        do rows <- reshape_n (Z.to_nat nv) xs;
        do is <- mapM to_int (words (group 4 m));
        do fs <- reshape (Z.to_nat nf) 4 is;
        Ok (Arr2 (map (firstn 3) rows), minus_one (Arr2 fs))
    end.

  (** mmio.py:850-879 load_MSH22. The numbers of the nodes are not used. *)
  Definition load_MSH22 (t : text) : res (array num * array Z) :=
    match search (msh_block "Nodes") t with
    | None => Raise AttributeError
    | Some ns =>
        match search (msh_block "Elements") t with
        | None => Raise AttributeError
        | Some es =>
            do xs <- mapM (to_float dbl) (words (group 2 ns));
            do rows <- reshape_k 4 xs;
            do ts <- mapM (fun l => do is <- mapM to_int (words l);
                                    match final 3 is with a :: l' => Ok ((a :: l') ++ [a]) | [] => Raise IndexError end)
                          (findall1 (msh_element "2") (group 2 es));
            do qs <- mapM (fun l => do is <- mapM to_int (words l); Ok (final 4 is)) (findall1 (msh_element "3") (group 2 es));
            do fs <- np_array (ts ++ qs);
            Ok (Arr2 (map (skipn 1) rows), minus_one fs)
        end
    end.
  (** mmio.py:914-951 load_MSH; [load_MSH41], which uses gmshparser, is any function *)
  Variable load_MSH41 : text -> res (array num * array Z).
  Definition below (x : num) (n : N) : bool := neg x || (top x <? n * Npos (bot x))%N.
  Definition load_MSH (t : text) : res (array num * array Z) :=
    match search msh_version t with
    | None => Raise AttributeError
    | Some m =>
        do version <- to_float dbl (group 1 m);
        if negb (below version 2) && below version 3 then load_MSH22 t
        else if negb (below version 4) && below version 5 then load_MSH41 t
        else Raise RuntimeError
    end.
End Readers.
