(** Regular expressions as the module re of Python matches them: backtracking, alternatives in order, greedy or lazy
    repetitions. *)
From Coq Require Import Ascii String List Arith NArith Bool.
From Verif Require Import M_base M_text.
Import ListNotations.
Local Open Scope nat_scope.

(** Patterns. Flags: [Bol] and [Eol] are ^ and $ with re.MULTILINE. *)
Inductive re :=
| Chr (p : ascii -> bool)   (** one character of a class *)
| Bol | Eol
| Empty
| Seq (a b : re)
| Alt (a b : re)            (** a|b *)
| Star (a : re)             (** a*, greedy *)
| Lazy (a : re)             (** a*? *)
| Group (n : nat) (a : re). (** (a), the group number n *)

Definition Lit (c : ascii) : re := Chr (Ascii.eqb c).
Fixpoint Word (t : text) : re := match t with [] => Empty | [c] => Lit c | c :: t' => Seq (Lit c) (Word t') end.
Definition Plus (a : re) : re := Seq a (Star a).
Definition Opt (a : re) : re := Alt a Empty.
(** a{n} and a{n,} *)
Fixpoint Times (n : nat) (a : re) : re := match n with 0 => Empty | 1 => a | S n' => Seq a (Times n' a) end.
Definition AtLeast (n : nat) (a : re) : re := Seq (Times n a) (Star a).
(** \d \s \S and . without re.DOTALL; of ASCII characters *)
Definition digit_re : re := Chr is_digit.
Definition space_re : re := Chr is_space.
Definition nonspace_re : re := Chr (fun c => negb (is_space c)).
Definition dot_re : re := Chr (fun c => negb (Ascii.eqb c newline)).
Definition any_re : re := Chr (fun _ => true).

(** A position in the text, and the texts of the groups so far, the last one first *)
Record state := St { prev : option ascii; rest : text; caps : list (nat * text) }.
(** The text between two positions *)
Definition between (a b : text) : text := firstn (length a - length b) a.
Definition further (st st' : state) : bool := length (rest st') <? length (rest st).
(** The first that succeeds *)
Notation orelse a b := (match a with Some x => Some x | None => b end).

(** Repetitions of a pattern matched by [step], at most [n]; one that makes no progress is refused. *)
Fixpoint greedy {X} (step : state -> (state -> option X) -> option X) (k : state -> option X) (n : nat) (st : state) : option X :=
  match n with
  | O => k st
  | S n' => orelse (step st (fun st' => if further st st' then greedy step k n' st' else None)) (k st)
  end.
Fixpoint lazy {X} (step : state -> (state -> option X) -> option X) (k : state -> option X) (n : nat) (st : state) : option X :=
  match n with
  | O => k st
  | S n' => orelse (k st) (step st (fun st' => if further st st' then lazy step k n' st' else None))
  end.
(** The first way to match followed by success of [k]. There are no more repetitions than characters left. *)
Fixpoint run {X} (r : re) (st : state) (k : state -> option X) {struct r} : option X :=
  match r with
  | Chr p => match rest st with c :: t => if p c then k (St (Some c) t (caps st)) else None | [] => None end
  | Bol => match prev st with None => k st | Some c => if Ascii.eqb c newline then k st else None end
  | Eol => match rest st with [] => k st | c :: _ => if Ascii.eqb c newline then k st else None end
  | Empty => k st
  | Seq a b => run a st (fun st' => run b st' k)
  | Alt a b => orelse (run a st k) (run b st k)
  | Star a => greedy (run a) k (length (rest st)) st
  | Lazy a => lazy (run a) k (length (rest st)) st
  | Group n a => run a st (fun st' => k (St (prev st') (rest st') ((n, between (rest st) (rest st')) :: caps st')))
  end.

(** A match: its text and its groups *)
Definition found := (text * list (nat * text))%type.
(** The leftmost match from a position, and the position after it *)
Fixpoint scan (r : re) (before : option ascii) (t : text) : option (found * state) :=
  match run r (St before t []) Some with
  | Some st => Some (between t (rest st), caps st, st)
  | None => match t with [] => None | c :: t' => scan r (Some c) t' end
  end.
(** re.search *)
Definition search (r : re) (t : text) : option found := option_map fst (scan r None t).
(** re.finditer, re.findall: matches that do not overlap. After an empty match the search goes on at the next
    character (none of the patterns of meshmagick can match nothing). *)
Fixpoint matches_from (n : nat) (r : re) (before : option ascii) (t : text) : list found :=
  match n with
  | O => []
  | S n' =>
      match scan r before t with
      | None => []
      | Some (m, st) =>
          m :: match fst m with
               | [] => match rest st with [] => [] | c :: t' => matches_from n' r (Some c) t' end
               | _ => matches_from n' r (prev st) (rest st)
               end
      end
  end.
Definition matches (r : re) (t : text) : list found := matches_from (S (length t)) r None t.
(** match.group(n) *)
Fixpoint assoc_nat (n : nat) (l : list (nat * text)) : option text :=
  match l with [] => None | (m, t) :: l' => if n =? m then Some t else assoc_nat n l' end.
Definition group (n : nat) (m : found) : text := match assoc_nat n (snd m) with Some t => t | None => [] end.
(** re.findall with one group, with none *)
Definition findall1 (r : re) (t : text) : list text := map (group 1) (matches r t).
Definition findall (r : re) (t : text) : list text := map fst (matches r t).
