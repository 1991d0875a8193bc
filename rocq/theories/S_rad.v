(** Specification of Radioss files. *)
From Coq Require Import Ascii String List Arith NArith ZArith Bool.
From Verif Require Import M_base M_merge M_mesh M_text M_mmio M_files S_inp.
Import ListNotations.
Local Open Scope nat_scope.

Definition one_line (l : text) : Prop := ~ In newline l /\ ~ In return_char l.
(** A line that is not made of integers only: it has a character that is neither a digit nor white space. *)
Definition wordy (l : text) : Prop := one_line l /\ exists a c b, l = a ++ c :: b /\ is_digit c = false /\ is_space c = false.
(** A text whose first character that is not blank is not a digit *)
Definition titled (t : text) : Prop := exists p c r, t = p ++ c :: r /\ blanks p /\ is_digit c = false /\ is_space c = false.
(** Characters of decimal numbers and the white space between them *)
Definition of_number (c : ascii) : bool := is_digit c || existsb (Ascii.eqb c) (s "+-.").
Definition of_numbers (c : ascii) : bool := of_number c || is_space c || existsb (Ascii.eqb c) (s "eE").
(** What stands before the nodes: nowhere three points with nothing but numbers and white space between them, and a last character
    that is not part of a number *)
Definition heading (ls : list text) : Prop :=
  Forall wordy ls /\ (forall a u b, concat (map line ls) = a ++ u ++ b -> Forall (fun c => of_numbers c = true) u -> count_occ ascii_dec u "."%char <= 2) /\
  exists ls' l c, ls = ls' ++ [l ++ [c]] /\ of_number c = false /\ is_space c = false.
(** An element: seven integers, the last four of them are the corners. *)
Definition rad_element (l : text) (cs : list nat) : Prop :=
  exists p0 d cells, l = p0 ++ d ++ concat (map (fun c => fst c ++ snd c) cells) /\ blanks p0 /\ number d /\ length cells = 6 /\
    Forall (fun c => some_blanks (fst c) /\ number (snd c)) cells /\ Forall2 (fun c n => to_int (snd c) = Ok (Z.of_nat n)) (skipn 2 cells) cs.
Definition rad_file (head nodes mid els : list text) (rest : text) : text := concat (map line (head ++ nodes ++ mid ++ els)) ++ rest.
Record is_rad (dbl : N -> Z -> N * positive) (head nodes mid els : list text) (ps : list (list num)) (css : list (list nat)) : Prop := {
  rad_head : heading head;
  rad_nodes : Forall2 (fun l p => exists n, dat_node_line dbl l n p) nodes ps;
  rad_some : nodes <> [];
  rad_mid : Forall wordy mid /\ exists m mid', mid = m :: mid' /\ titled m;
  rad_els : Forall2 rad_element els css }.
(** The face for the corners: they are counted from one. *)
Definition rad_face (cs : list nat) : list Z := map (fun n => (Z.of_nat n - 1)%Z) cs.
