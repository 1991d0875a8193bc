(** Specification of Diodore .inp files and of the .DAT files they name. *)
From Coq Require Import Ascii String List Arith NArith ZArith Bool.
From Verif Require Import M_base M_merge M_mesh M_text M_mmio S_text.
Import ListNotations.
Local Open Scope nat_scope.

(** Blanks, digits and decimal numbers with a point *)
Definition blanks (t : text) : Prop := Forall (eq " "%char) t.
Definition some_blanks (t : text) : Prop := t <> [] /\ blanks t.
Definition only_digits (t : text) : Prop := Forall (fun c => is_digit c = true) t.
Definition number (t : text) : Prop := t <> [] /\ only_digits t.
Definition a_sign (t : text) : Prop := t = [] \/ t = s "+" \/ t = s "-".
Definition decimal (t : text) : Prop :=
  exists sg a b ex, t = sg ++ a ++ s "." ++ b ++ ex /\ a_sign sg /\ only_digits a /\ only_digits b /\ (a <> [] \/ b <> []) /\
    (ex = [] \/ exists e sg' d, ex = e :: sg' ++ d /\ (e = "e" \/ e = "E")%char /\ a_sign sg' /\ number d).

(** ** .DAT files *)
(** The line of the node [n] at [p] *)
Definition dat_node_line (dbl : N -> Z -> N * positive) (l : text) (n : nat) (p : list num) : Prop :=
  exists p0 d p1 x p2 y p3 z, l = p0 ++ d ++ p1 ++ x ++ p2 ++ y ++ p3 ++ z /\ blanks p0 /\ some_blanks p1 /\ some_blanks p2 /\ some_blanks p3 /\
    number d /\ decimal x /\ decimal y /\ decimal z /\ to_int d = Ok (Z.of_nat n) /\ mapM (to_float dbl) [x; y; z] = Ok p.
(** The line of an element with the nodes [cs] *)
Definition dat_element_line (l : text) (cs : list nat) : Prop :=
  exists p0 d cells, l = p0 ++ d ++ concat (map (fun c => fst c ++ snd c) cells) /\ some_blanks p0 /\ number d /\
    Forall (fun c => some_blanks (fst c) /\ number (snd c)) cells /\ (length cells = 3 \/ length cells = 4) /\ Forall2 (fun c n => to_int (snd c) = Ok (Z.of_nat n)) cells cs.
(** The other lines begin with $ or *. In none of them a decimal number comes after a digit and white space. *)
Definition calm (l : text) : Prop :=
  ~ exists a d sp x b, l = a ++ d :: sp ++ x ++ b /\ is_digit d = true /\ sp <> [] /\ Forall (fun c => is_space c = true) sp /\ decimal x.
Definition remark (l : text) : Prop := ~ In newline l /\ (exists c t, l = c :: t /\ (c = "$" \/ c = "*")%char) /\ calm l.
Definition dat_file (o nodes : list text) (secs : list (list text * list text)) (o' : list text) : text :=
  concat (map line (o ++ nodes ++ concat (map (fun he => fst he ++ snd he) secs) ++ o')).
(** The file has the nodes [ns], numbers and positions, and sections with the elements [els]. *)
Record is_dat (dbl : N -> Z -> N * positive) (t : text) (ns : list (nat * list num)) (els : list (list (list nat))) : Prop := {
  dat_parts : exists o nodes secs o', t = dat_file o nodes secs o' /\ Forall remark o /\ Forall remark o' /\
    Forall2 (fun l n => dat_node_line dbl l (fst n) (snd n)) nodes ns /\
    Forall2 (fun he es => fst he <> [] /\ Forall remark (fst he) /\ es <> [] /\ Forall2 dat_element_line (snd he) es) secs els;
  dat_nodes : ns <> [] }.
(** The nodes of elements are in the file. *)
Definition numbers_known (ns : list (nat * list num)) (els : list (list (list nat))) : Prop := Forall (Forall (Forall (fun n => In n (map fst ns)))) els.

(** ** .inp files *)
Definition trimmed (v : text) : Prop := (forall c t, v = c :: t -> is_space c = false) /\ (forall t c, v = t ++ [c] -> is_space c = false).
Definition free_of (cs : text) (t : text) : Prop := Forall (fun c => ~ In c cs) t.
(** A name, an equal sign and a value with white space around it *)
Record opt := Opt_ { key : text; before : text; val : text; after : text }.
Definition opt_text (o : opt) : text := key o ++ s "=" ++ before o ++ val o ++ after o.
Definition white (t : text) : Prop := Forall (fun c => is_space c = true) t.
Definition opt_ok (o : opt) : Prop :=
  free_of [","; "="; newline]%char (key o) /\ free_of [","; "="; newline]%char (val o) /\ trimmed (val o) /\ white (before o) /\ white (after o) /\ ~ In newline (before o) /\ ~ In newline (after o) /\ key o <> s "type".
Fixpoint between_commas (l : list text) : text := match l with [] => [] | [a] => a | a :: l' => a ++ s "," ++ between_commas l' end.
(** A frame is given in two lines; [more] is what follows its name. A field is a line *NODE or *ELEMENT *)
Inductive inp_item :=
| Other (l : text)
| Frame (pad name more : text) (x : text) (c : ascii) (y : text) (c' : ascii) (z : text)
| Field (pad : text) (node : bool) (opts : list opt).
Definition item_lines (i : inp_item) : list text :=
  match i with
  | Other l => [l]
  | Frame pad name more x c y c' z => [pad ++ s "*FRAME,NAME=" ++ name ++ more; x ++ c :: y ++ c' :: z]
  | Field pad node opts => [pad ++ s "*" ++ s (if node then "NODE" else "ELEMENT") ++ s "," ++ between_commas (map opt_text opts)]
  end.
Definition inp_text (items : list inp_item) : text := concat (map line (flat_map item_lines items)).
Definition keywords : list text := [s "*FRAME,NAME="; s "*NODE,"; s "*ELEMENT,"].
Definition white_in_line (t : text) : Prop := white t /\ ~ In newline t.
Definition a_word (t : text) : Prop := t <> [] /\ Forall (fun c => is_space c = false) t.
Definition item_ok (i : inp_item) : Prop :=
  match i with
  | Other l => ~ In newline l /\ exists p c t, l = p ++ c :: t /\ white p /\ is_space c = false /\ Forall (fun w => ~ exists r, c :: t = w ++ r) keywords
  | Frame pad name more x c y c' z =>
      white_in_line pad /\ white_in_line more /\ name <> [] /\ trimmed name /\ ~ In newline name /\
      Forall a_word [x; y; z] /\ Forall (free_of (s ",")) [x; y; z] /\ hd_error x <> Some "*"%char /\ (c = "," \/ c = " ")%char /\ (c' = "," \/ c' = " ")%char
  | Field pad _ opts => white_in_line pad /\ opts <> [] /\ Forall opt_ok opts
  end.
(** The fields of a file, with their options; the last option with a key counts *)
Definition fields (items : list inp_item) : list (bool * list opt) := flat_map (fun i => match i with Field _ node opts => [(node, opts)] | _ => [] end) items.
Definition gives (k : string) (v : text) (opts : list opt) : Prop := exists a o b, opts = a ++ o :: b /\ key o = s k /\ val o = v /\ Forall (fun o' => key o' <> s k) b.
(** The vector of a frame, read from the last definition with its name *)
Definition frame_is (dbl : N -> Z -> N * positive) (g : text) (v : list num) (items : list inp_item) : Prop :=
  exists a pad more x c y c' z b, items = a ++ Frame pad g more x c y c' z :: b /\ mapM (to_float dbl) [x; y; z] = Ok v /\
    Forall (fun i => match i with Frame _ g' _ _ _ _ _ _ => g' <> g | _ => True end) b.
(** All the vectors of frames are numbers. *)
Definition frames_ok (dbl : N -> Z -> N * positive) (items : list inp_item) : Prop :=
  Forall (fun i => match i with Frame _ _ _ x _ y _ z => exists v, mapM (to_float dbl) [x; y; z] = Ok v | _ => True end) items.

(** ** Meshes *)
(** Coordinates moved by a vector *)
Definition moved (add : num -> num -> num) (v p : list num) : list num := map (fun ab => add (fst ab) (snd ab)) (combine p v).
(** The face for an element, in a list of nodes: corners are the positions of the nodes, and the first corner of a triangle comes twice *)
Definition face_of (numbers : list nat) (cs : list nat) (row : list Z) : Prop :=
  Forall2 (fun n i => (0 <= i)%Z /\ nth_error numbers (Z.to_nat i) = Some n) (cs ++ (if length cs =? 3 then firstn 1 cs else [])) row.
