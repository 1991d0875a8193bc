(** Mesh files in text formats (meshmagick/mmio.py): Nemoh .mar, .nem, .nat, .gdf, .pnl, .stl, and the choice of a reader
    or writer by a keyword. *)
From Coq Require Import Ascii String List Arith NArith ZArith Bool.
From Verif Require Import M_base M_merge M_mesh M_text.
Import ListNotations.

(** Arrays of one or two dimensions *)
Inductive array (A : Type) := Arr1 (l : list A) | Arr2 (rows : list (list A)).
Arguments Arr1 {A}. Arguments Arr2 {A}.
(** np.array(rows, dtype=...): ValueError when the rows have different lengths *)
Definition np_array {A} (rows : list (list A)) : res (array A) :=
  match rows with
  | [] => Ok (Arr1 [])
  | r :: rs => if forallb (fun r' => length r' =? length r) rs then Ok (Arr2 rows) else Raise ValueError
  end.
(** faces - 1 *)
Definition minus_one (a : array Z) : array Z :=
  match a with
  | Arr1 l => Arr1 (map Z.pred l)
  | Arr2 rows => Arr2 (map (map Z.pred) rows)
  end.

(** ** Writers. The vertices are triples of numbers, the faces quadruples of indices. *)
Definition vertex := (num * num * num)%type.
Definition corners (f : face) : list nat := [f0 f; f1 f; f2 f; f3 f].
Definition line (t : text) : text := t ++ [newline].
(** '%wu', '{:wd}', '{:>w}' *)
Definition int_field (w n : nat) : text := rjust w (digits (N.of_nat n)).
Definition fixed_field (w k : nat) (x : num) : text := rjust w (fixed_point k x).
Definition sci_field (c : ascii) (w k : nat) (x : num) : text := rjust w (scientific c k x).
Definition fields3 (f : num -> text) (v : vertex) : text := let '(x, y, z) := v in f x ++ f y ++ f z.
(** faces + 1 *)
Definition plus_one (f : face) : face := F4 (S (f0 f)) (S (f1 f)) (S (f2 f)) (S (f3 f)).
(** max(np.shape(a)) of an array of [n] rows and [k] columns *)
Definition max_shape (n k : nat) : nat := Nat.max n k.

(** '\n'.join *)
Fixpoint join_lines (ls : list text) : text :=
  match ls with
  | [] => []
  | [l] => l
  | l :: ls' => l ++ newline :: join_lines ls'
  end.

(** mmio.py:1661-1695 write_MAR. The warning printed is dropped. *)
Definition write_MAR (vs : list vertex) (fs : list face) : text :=
  line (int_field 6 2 ++ int_field 6 0) ++
  concat (map (fun iv => line (int_field 6 (S (fst iv)) ++ fields3 (fixed_field 16 6) (snd iv))) (combine (seq 0 (length vs)) vs)) ++
  line (int_field 6 0 ++ int_field 6 0 ++ int_field 6 0 ++ int_field 6 0 ++ int_field 6 0) ++
  line (join_lines (map (fun f => concat (map (int_field 10) (corners (plus_one f)))) fs)) ++
  line (int_field 6 0 ++ int_field 6 0 ++ int_field 6 0 ++ int_field 6 0).

(** '\t'.join *)
Definition tab : ascii := "009"%char.
(** mmio.py:1600-1627 write_NEM *)
Definition write_NEM (vs : list vertex) (fs : list face) : text :=
  line (digits (N.of_nat (length vs))) ++ line (digits (N.of_nat (length fs))) ++
  concat (map (fun v => let '(x, y, z) := v in
    line (fixed_field 15 6 x ++ tab :: fixed_field 15 6 y ++ tab :: fixed_field 15 6 z)) vs) ++
  concat (map (fun f => let g := plus_one f in
    line (int_field 10 (f0 g) ++ tab :: int_field 10 (f1 g) ++ tab :: int_field 10 (f2 g) ++ tab :: int_field 10 (f3 g))) fs).

(** mmio.py:1568-1597 write_NAT *)
Definition write_NAT (vs : list vertex) (fs : list face) : text :=
  line (int_field 6 0 ++ int_field 6 0) ++
  line (int_field 6 (max_shape (length vs) 3) ++ int_field 6 (max_shape (length fs) 4)) ++
  concat (map (fun v => line (fields3 (sci_field "E" 15 6) v)) vs) ++
  concat (map (fun f => line (concat (map (int_field 10) (corners (plus_one f))))) fs).

(** mmio.py:1630-1658 write_GDF; [date] is time.strftime('%c'). A face with an unknown vertex raises IndexError. *)
Definition write_GDF (date : text) (vs : list vertex) (fs : list face) : res text :=
  do facets <- mapM (fun f => mapM (get vs) (corners f)) fs;
  Ok (line (s "GDF file generated by meshmagick on " ++ date) ++
      line (fixed_field 16 6 (Num false 100 1) ++ fixed_field 16 6 (Num false 981 100)) ++
      line (int_field 12 0 ++ int_field 12 1) ++
      line (int_field 12 (max_shape (length fs) 4)) ++
      concat (map (fun v => line (fields3 (sci_field "E" 16 6) v)) (concat facets))).

(** mmio.py:1779-1816 write_PNL *)
Definition write_PNL (vs : list vertex) (fs : list face) : text :=
  line (s "    --------------Hull Mesh File---------------") ++
  line [] ++
  line (s "    # Number of Panels, Nodes, X-Symmetry and Y-Symmetry") ++
  line (s "         " ++ digits (N.of_nat (length fs)) ++ s "         " ++ digits (N.of_nat (length vs)) ++ s "         0         0") ++
  line [] ++
  line (s "    #Start Definition of Node Coordinates     ! node_number   x   y   z") ++
  concat (map (fun iv => line (int_field 5 (S (fst iv)) ++ fields3 (fixed_field 18 6) (snd iv))) (combine (seq 0 (length vs)) vs)) ++
  line (s "   #End Definition of Node Coordinates") ++
  line [] ++
  line (s "   #Start Definition of Node Relations   ! panel_number  number_of_vertices   Vertex1_ID   Vertex2_ID   Vertex3_ID   (Vertex4_ID)") ++
  concat (map (fun jf => let g := plus_one (snd jf) in
    line (if f2 g =? f3 g then int_field 5 (S (fst jf)) ++ int_field 5 3 ++ concat (map (int_field 10) [f0 g; f1 g; f2 g])
          else int_field 5 (S (fst jf)) ++ int_field 5 4 ++ concat (map (int_field 10) (corners g)))) (combine (seq 0 (length fs)) fs)) ++
  line (s "   #End Definition of Node Relations") ++
  line [] ++
  line (s "    --------------End Hull Mesh File---------------").

(** mmio.py:1702-1760 write_STL: the text and the faces as the caller finds them afterwards (lines 1727-1728 assign into the
    array received). [normal_text] is the text of the three components of the unit normal of a triangle; for a triangle
    without area numpy prints nan. The error of lines 1739-1742 cannot occur. *)
Section STL.
  Variable normal_text : vertex -> vertex -> vertex -> text.
  Definition stl_quad (f : face) : bool := negb (f0 f =? f3 f).
  Definition stl_kept (f : face) : face := if stl_quad f then F4 (f0 f) (f2 f) (f3 f) (f0 f) else f.
  Definition stl_new (f : face) : face := F4 (f0 f) (f1 f) (f2 f) (f0 f).
  Definition stl_facets (fs : list face) : list face := map stl_kept fs ++ map stl_new (filter stl_quad fs).
  Definition stl_block (vs : list vertex) (f : face) : res text :=
    if f0 f =? f3 f then
      do a <- get vs (f0 f); do b <- get vs (f1 f); do c <- get vs (f2 f);
      Ok (line (s "  facet normal " ++ normal_text a b c) ++ line (s "    outer loop") ++
          line (s "      vertex" ++ fields3 (sci_field "e" 15 6) a) ++
          line (s "      vertex" ++ fields3 (sci_field "e" 15 6) b) ++
          line (s "      vertex" ++ fields3 (sci_field "e" 15 6) c) ++
          line (s "    endloop") ++ line (s "  endfacet"))
    else Raise RuntimeError.
  Definition write_STL (vs : list vertex) (fs : list face) : res text * list face :=
    (do blocks <- mapM (stl_block vs) (stl_facets fs);
     Ok (line (s "solid meshmagick") ++ concat blocks ++ line (s "endsolid meshmagick")),
     map stl_kept fs).
End STL.

(** ** Readers *)
Section Readers.
  Variable dbl : N -> Z -> N * positive.

  (** [n] times list(map(conv, readline().split())) *)
  Fixpoint read_rows {A} (conv : text -> res A) (n : nat) (ls : list text) : res (list (list A) * list text) :=
    match n with
    | O => Ok ([], ls)
    | S n' =>
        let (ws, ls') := readline ls in
        do row <- mapM conv ws;
        do (rows, ls2) <- read_rows conv n' ls';
        Ok (row :: rows, ls2)
    end.

  (** mmio.py:675-736 load_NAT *)
  Definition load_NAT (t : text) : res (array num * array Z) :=
    let ls := snd (readline (lines t)) in
    let (ws, ls) := readline ls in
    do ns <- mapM to_int ws;
    match ns with
    | [nv; nf] =>
        do (vs, ls) <- read_rows (to_float dbl) (Z.to_nat nv) ls;
        do vs <- np_array vs;
        do (fs, _) <- read_rows to_int (Z.to_nat nf) ls;
        do fs <- np_array fs;
        Ok (vs, minus_one fs)
    | _ => Raise ValueError
    end.

  (** int(readline()) *)
  Definition read_int (ls : list text) : res (Z * list text) :=
    let (ws, ls) := readline ls in
    match ws with
    | [w] => do n <- to_int w; Ok (n, ls)
    | _ => Raise ValueError
    end.
  (** mmio.py:1053-1091 load_NEM *)
  Definition load_NEM (t : text) : res (array num * array Z) :=
    do (nv, ls) <- read_int (lines t);
    do (nf, ls) <- read_int ls;
    do (vs, ls) <- read_rows (to_float dbl) (Z.to_nat nv) ls;
    do vs <- np_array vs;
    do (fs, _) <- read_rows to_int (Z.to_nat nf) ls;
    do fs <- np_array fs;
    Ok (vs, minus_one fs).

  (** mmio.py:823-832 and 836-841: rows until one that starts with 0. [skip] words are left out of each row. A line
      without any word, or the end of the file, raises IndexError. *)
  Fixpoint read_until {A} (conv : text -> res A) (skip : nat) (ls : list text) : res (list (list A) * list text) :=
    match ls with
    | [] => Raise IndexError
    | l :: ls' =>
        match words l with
        | [] => Raise IndexError
        | w :: ws =>
            if list_eq_dec ascii_dec w (s "0") then Ok ([], ls') else
            do row <- mapM conv (skipn skip (w :: ws));
            do (rows, ls2) <- read_until conv skip ls';
            Ok (row :: rows, ls2)
        end
    end.
  (** mmio.py:801-847 load_MAR *)
  Definition load_MAR (t : text) : res (array num * array Z) :=
    let ls := snd (readline (lines t)) in
    do (vs, ls) <- read_until (to_float dbl) 1 ls;
    do vs <- np_array vs;
    do (fs, _) <- read_until to_int 0 ls;
    do fs <- np_array fs;
    Ok (vs, minus_one fs).

  (** mmio.py:782-788: words of successive lines until there are 12. A line bringing more than 12 does not fit in the
      slice (ValueError). At the end of the file readline keeps on giving nothing and the loop never ends: OutOfFuel. *)
  Fixpoint read_12 (acc : list num) (ls : list text) : res (list num * list text) :=
    match ls with
    | [] => Raise OutOfFuel
    | l :: ls' =>
        do row <- mapM (to_float dbl) (words l);
        let acc := acc ++ row in
        if length acc <? 12 then read_12 acc ls'
        else if length acc =? 12 then Ok (acc, ls') else Raise ValueError
    end.
  Fixpoint read_facets (n : nat) (ls : list text) : res (list (list num)) :=
    match n with
    | O => Ok []
    | S n' => do (cs, ls') <- read_12 [] ls; do rest <- read_facets n' ls'; Ok (cs :: rest)
    end.
  (** np.split(face_coords, 4) *)
  Definition in_four (cs : list num) : list (list num) :=
    [firstn 3 cs; firstn 3 (skipn 3 cs); firstn 3 (skipn 6 cs); firstn 3 (skipn 9 cs)].
  (** mmio.py:739-798 load_GDF *)
  Definition load_GDF (t : text) : res (array num * array Z) :=
    let ls := snd (readline (lines t)) in
    let (l1, ls) := readline ls in
    match l1 with
    | _ :: _ :: _ =>
        let (l2, ls) := readline ls in
        match l2 with
        | _ :: _ :: _ =>
            let (l3, ls) := readline ls in
            match l3 with
            | w :: _ =>
                do nf <- to_int w;
                if (nf <? 0)%Z then Raise ValueError else
                do facets <- read_facets (Z.to_nat nf) ls;
                Ok (Arr2 (flat_map in_four facets),
                    Arr2 (map (fun i => map Z.of_nat (seq (4 * i) 4)) (seq 0 (Z.to_nat nf))))
            | [] => Raise IndexError
            end
        | _ => Raise IndexError
        end
    | _ => Raise IndexError
    end.

  (** np.genfromtxt over [n] lines with usecols=(1, 2, 3). All lines must have the same number of columns, and the
      result of a single line has one dimension. Comments (#) and blank lines are not modelled; a word that is not a
      number would give NaN. *)
  Definition genfromtxt (n : nat) (ls : list text) : res (array num * list text) :=
    let rows := map words (firstn n ls) in
    match rows with
    | [] => Ok (Arr1 [], skipn n ls)
    | r :: _ =>
        if forallb (fun r' => length r' =? length r) rows && (4 <=? length r) then
          do vs <- mapM (fun ws => mapM (fun w => match to_float dbl w with Ok x => Ok x | Raise _ => Raise NotANumber end)
                                        (firstn 3 (skipn 1 ws))) rows;
          Ok (match vs with [v] => Arr1 v | _ => Arr2 vs end, skipn n ls)
        else Raise ValueError
    end.
  (** mmio.py:1127-1137, for the face number [i]; [k] faces remain *)
  Fixpoint read_panels (i k : nat) (ls : list text) : res (list (list Z)) :=
    match k with
    | O => Ok []
    | S k' =>
        let (ws, ls') := readline ls in
        do ns <- mapM to_int ws;
        match ns with
        | index :: corners :: data =>
            if (Z.of_nat (S i) =? index)%Z then
              do row <- (if (corners =? 3)%Z then
                           match data with [a; b; c] => Ok [a; b; c; c] | _ => Raise AssertionError end
                         else if (corners =? 4)%Z then
                           match data with [a; b; c; d] => Ok [a; b; c; d] | _ => Raise AssertionError end
                         else Ok [0; 0; 0; 0]%Z);
              do rows <- read_panels (S i) k' ls';
              Ok (row :: rows)
            else Raise AssertionError
        | _ => Raise ValueError
        end
    end.
  (** mmio.py:1094-1140 load_PNL *)
  Definition load_PNL (t : text) : res (array num * array Z) :=
    let ls := skipn 3 (lines t) in
    let (ws, ls) := readline ls in
    do ns <- mapM to_int ws;
    match ns with
    | [nf; nv; xs; ys] =>
        if (negb (xs =? 0) || negb (ys =? 0))%Z then Raise NotImplementedError else
        do (vs, ls) <- genfromtxt (Z.to_nat nv) (skipn 2 ls);
        if (nf <? 0)%Z then Raise ValueError else
        do fs <- read_panels 0 (Z.to_nat nf) (skipn 3 ls);
        Ok (vs, minus_one (Arr2 fs))
    | _ => Raise ValueError
    end.
End Readers.
