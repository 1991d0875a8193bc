(** Diodore configuration files (meshmagick/mmio.py:246-413 load_INP), which place the meshes of .DAT files. *)
From Coq Require Import Ascii String List Arith NArith ZArith Bool.
From Verif Require Import M_base M_merge M_mesh M_text M_mmio M_regex M_files M_formats.
Import ListNotations.
Local Open Scope nat_scope.

(** ** Patterns *)
(** mmio.py:275 pattern_frame_str and 285 pattern_node_elements *)
Definition inp_frame : re := seqs [Bol; ss; lit "*FRAME,NAME="; Group 1 (Plus dot_re); ends; Group 2 (Star dot_re)].
Definition inp_field : re := seqs [Bol; ss; lit "*"; Group 1 (Alt (lit "NODE") (lit "ELEMENT")); lit ","; Group 2 (Star dot_re)].
(** mmio.py:312-315; the lines of nodes are those of [hst_node_line] *)
Definition inp_ids : re := Seq (Plus (Lit " ")) ds.
Definition inp_elem_line : re := seqs [Bol; Plus (Lit " "); ds; Times 3 inp_ids; Opt inp_ids; ends].
Definition inp_elem_section : re := Group 1 (Plus inp_elem_line).

(** ** Texts *)
(** str.strip() *)
Fixpoint lstrip (t : text) : text := match t with c :: t' => if is_space c then lstrip t' else t | [] => [] end.
Definition strip (t : text) : text := rev (lstrip (rev (lstrip t))).
(** str.split(c) for one character, and re.split for a class of characters *)
Fixpoint split_from (p : ascii -> bool) (piece : text) (t : text) : list text :=
  match t with
  | [] => [rev piece]
  | c :: t' => if p c then rev piece :: split_from p [] t' else split_from p (c :: piece) t'
  end.
Definition split_at (p : ascii -> bool) (t : text) : list text := split_from p [] t.
(** os.path.dirname and os.path.join of two names, on a POSIX system *)
Definition dirname (p : text) : text :=
  match rfind "/" p with
  | None => []
  | Some i => let head := firstn (S i) p in
              if forallb (Ascii.eqb "/") head then head
              else rev ((fix drop (t : text) := match t with c :: t' => if Ascii.eqb c "/" then drop t' else t | [] => [] end) (rev head))
  end.
Definition path_join (a b : text) : text :=
  match b with
  | "/"%char :: _ => b
  | _ => match rev a with [] => b | "/"%char :: _ => a ++ b | _ => a ++ s "/" ++ b end
  end.

(** ** Fields *)
(** A dictionary with the newest entries first: the first entry with a key counts *)
Definition dict := list (text * text).
Definition item (k : string) (d : dict) : res text := match lookup (s k) d with Some v => Ok v | None => Raise KeyError end.
(** mmio.py:288-307: the options of a line *NODE or *ELEMENT *)
Definition options_of (opts : text) : res dict :=
  mapM (fun opt => match split_at (Ascii.eqb "=") opt with
                   | [key; val] => Ok (key, strip val)
                   | _ => Raise ValueError
                   end) (split_at (Ascii.eqb ",") opts).
Definition field_of (m : found) : res dict :=
  let type := group 1 m in
  let start := if list_eq_dec ascii_dec type (s "NODE") then [(s "INCREMENT", s "NO"); (s "type", type)] else [(s "type", type)] in
  do opts <- options_of (group 2 m);
  let field := rev opts ++ start in
  do _ <- item "INPUT" field;
  (** mesh_files[file][field_dict['type'] + '_CALL_INP'] *)
  do type <- item "type" field;
  if list_eq_dec ascii_dec type (s "NODE") then Ok field else
  if list_eq_dec ascii_dec type (s "ELEMENT") then Ok field else Raise KeyError.
(** The keys of mesh_files in the order of insertion *)
Fixpoint once (l : list text) (seen : list text) : list text :=
  match l with
  | [] => []
  | a :: l' => if in_dec (list_eq_dec ascii_dec) a seen then once l' seen else a :: once l' (a :: seen)
  end.

(** ** The .DAT files *)
(** mmio.py:320-366: nodes, sections of elements, and the last value of idx *)
Record body := Body { nodes : list (list num); sections : list (list (list Z)); last_idx : nat }.
(** id_new[k], where idx_array gives the numbers of the nodes: the last node with number [k], counted from one, or -1 *)
Definition id_new (ids : list nat) (k : nat) : res Z :=
  if list_max ids <? k then Raise IndexError
  else Ok (fold_left (fun r p => if fst p =? k then Z.of_nat (S (snd p)) else r) (combine ids (seq 0 (length ids))) (-1)%Z).

Section Reader.
  Variable dbl : N -> Z -> N * positive.
  (** The sum of two doubles: any function *)
  Variable add : num -> num -> num.

  (** The numbers in sections are digits, so that int() is not negative. *)
  Definition dat_node (l : text) : res (nat * list num) :=
    match words l with
    | [] => Raise IndexError
    | w :: ws => do i <- to_int w; do xs <- mapM (to_float dbl) ws; Ok (Z.to_nat i, xs)
    end.
  Definition dat_elem (ids : list nat) (l : text) : res (list Z) :=
    do e <- mapM to_int (words l);
    do c <- mapM (fun z => id_new ids (Z.to_nat z)) (skipn 1 e);
    match c with [a; b; d] => Ok [a; b; d; a] | _ => Ok c end.
  Definition read_body (t : text) : res body :=
    match findall1 hst_node_section t with
    | [] => Raise IndexError
    | _ :: _ :: _ => Raise IOError
    | [sec] =>
        do ns <- mapM dat_node (findall hst_node_line sec);
        let ids := map fst ns in
        do secs <- mapM (fun es => mapM (dat_elem ids) (findall inp_elem_line es)) (findall1 inp_elem_section t);
        Ok (Body (map snd ns) secs (last ids 0))
    end.

  (** ** Assembly, mmio.py:368-413 *)
  (** nodes += frames[...]: a vector of one number is added to all coordinates *)
  Definition translate (frame : list num) (rows : list (list num)) : res (list (list num)) :=
    match frame with
    | [x] => Ok (map (map (fun a => add a x)) rows)
    | [x; y; z] => Ok (map (fun r => map (fun p => add (fst p) (snd p)) (combine r frame)) rows)
    | _ => Raise ValueError
    end.
  (** vertices[idx, :] = rows *)
  Definition assign_row (idx : nat) (rows vs : list (list num)) : res (list (list num)) :=
    if length vs <=? idx then Raise IndexError else
    match rows with [r] => Ok (firstn idx vs ++ r :: skipn (S idx) vs) | _ => Raise ValueError end.
  (** vertices and faces, which are not bound at the beginning, as [increment]; the values of nb_elem_sections_used *)
  Record assembly := Asm { a_vertices : option (list (list num)); a_faces : option (list (list Z)); increment : option bool; used : list (text * nat) }.
  Definition start : assembly := Asm None None None [].
  Definition count {A} (l : option (list A)) : nat := match l with Some l => length l | None => 0 end.
  Definition step (frames : list (text * list num)) (bodies : list (text * body)) (idx : nat) (field : dict) (st : assembly) : res assembly :=
    do file <- item "INPUT" field;
    do type <- item "type" field;
    do b <- match lookup file bodies with Some b => Ok b | None => Raise KeyError end;
    if list_eq_dec ascii_dec type (s "NODE") then
      do name <- item "FRAME" field;
      do frame <- match lookup name frames with Some f => Ok f | None => Raise KeyError end;
      do rows <- translate frame (nodes b);
      match a_vertices st with
      | None => Ok (Asm (Some rows) (a_faces st) (Some false) (used st))
      | Some [] => Ok (Asm (Some rows) (a_faces st) (Some false) (used st))
      | Some vs =>
          do inc <- item "INCREMENT" field;
          if list_eq_dec ascii_dec inc (s "NO")
          then do vs' <- assign_row idx rows vs; Ok (Asm (Some vs') (a_faces st) (Some false) (used st))
          else Ok (Asm (Some (vs ++ rows)) (a_faces st) (Some true) (used st))
      end
    else
      let n := match lookup file (used st) with Some n => n | None => 0 end in
      match nth_error (sections b) n with
      | None => Raise IndexError
      | Some elems =>
          let n' := if S n =? length (sections b) then 0 else S n in
          match increment st with
          | None => Raise NameError
          | Some inc =>
              (** nb_nodes is by now the number of all the vertices *)
              let elems := if inc then map (map (fun z => (z + Z.of_nat (count (a_vertices st)))%Z)) elems else elems in
              let faces := match a_faces st with Some fs => fs ++ elems | None => elems end in
              Ok (Asm (a_vertices st) (Some faces) (increment st) ((file, n') :: used st))
          end
      end.
  Fixpoint assemble (frames : list (text * list num)) (bodies : list (text * body)) (idx : nat) (layout : list dict) (st : assembly) : res assembly :=
    match layout with
    | [] => Ok st
    | f :: layout' => do st' <- step frames bodies idx f st; assemble frames bodies idx layout' st'
    end.

  (** [open file] is the text of the file with this name and the extension .DAT in the directory of the .INP file. *)
  Definition load_INP_with (open : text -> option text) (t : text) : res (array num * array Z) :=
    do frames <- mapM (fun m => do v <- mapM (to_float dbl) (split_at (fun c => Ascii.eqb c "," || Ascii.eqb c " ")%char (strip (group 2 m)));
                                Ok (strip (group 1 m), v)) (matches inp_frame t);
    do layout <- mapM field_of (matches inp_field t);
    do files <- mapM (item "INPUT") layout;
    do bodies <- mapM (fun f => match open f with
                                | None => Raise IOError
                                | Some d => do b <- read_body d; Ok (f, b)
                                end) (once files []);
    do st <- assemble (rev frames) bodies (last (map (fun b => last_idx (snd b)) bodies) 0) layout start;
    match a_vertices st, a_faces st with
    | Some vs, Some fs => Ok (Arr2 vs, Arr2 (map (map (fun z => (z - 1)%Z)) fs))
    | _, _ => Raise NameError
    end.
  Definition load_INP (d : disk) (name : text) : res (array num * array Z) :=
    match d name with
    | None => Raise IOError
    | Some t => load_INP_with (fun file => d (path_join (dirname name) (file ++ s ".DAT"))) t
    end.
End Reader.
