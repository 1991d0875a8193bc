(** Text of numbers, and lines of text, as Python writes and reads them. *)
From Coq Require Import Ascii String List Arith NArith ZArith Bool.
From Verif Require Import M_base.
Import ListNotations.
Local Open Scope N_scope.

(** A text is a list of characters. Files are read in text mode: the translation of "\r\n" and "\r" by Python is not
    modelled, and there are only 8 bit characters. *)
Definition text := list ascii.
Definition s (x : string) : text := list_ascii_of_string x.

(** A finite double: a sign and a fraction. Infinities and NaN are not modelled. *)
Record num := Num { neg : bool; top : N; bot : positive }.

(** The decimal digit *)
Definition digit (d : N) : ascii := ascii_of_N (48 + d).
(** The [k] last digits of [n] *)
Fixpoint fixed (k : nat) (n : N) : text :=
  match k with
  | O => []
  | S k' => fixed k' (n / 10) ++ [digit (n mod 10)]
  end.
(** The number of digits of [n]; [fuel] is more than the number of digits. *)
Fixpoint ndigits_with (fuel : nat) (n : N) : nat :=
  match fuel with
  | O => 1
  | S fuel' => if n <? 10 then 1 else S (ndigits_with fuel' (n / 10))
  end.
Definition ndigits (n : N) : nat := ndigits_with (N.size_nat n) n.
(** '%u', '{:d}', str: of a non negative integer *)
Definition digits (n : N) : text := fixed (ndigits n) n.

(** '%w...', '{:w}', '{:>w}' of numbers: at least [w] characters, aligned on the right *)
Definition rjust (w : nat) (t : text) : text := repeat " "%char (w - length t)%nat ++ t.

(** The integer nearest to [a / b], the even one when there are two. *)
Definition nearest (a : N) (b : positive) : N :=
  let q := a / Npos b in let r := a mod Npos b in
  match 2 * r ?= Npos b with
  | Lt => q
  | Gt => q + 1
  | Eq => if N.even q then q else q + 1
  end.
Definition sign (b : bool) : text := if b then ["-"%char] else [].
(** '%.kf', '{:.kf}': the exact value is rounded to [k] decimals, half to even, as the C library and CPython do. *)
Definition fixed_point (k : nat) (x : num) : text :=
  let m := nearest (top x * 10 ^ N.of_nat k) (bot x) in
  sign (neg x) ++ digits (m / 10 ^ N.of_nat k) ++ "."%char :: fixed k m.

(** The exponent [e] such that 10^e <= a/b < 10^(e+1), for [a] not zero. *)
Definition pow10_le (e : Z) (a : N) (b : positive) : bool :=
  if (0 <=? e)%Z then 10 ^ Z.to_N e * Npos b <=? a else Npos b <=? a * 10 ^ Z.to_N (- e).
Definition exponent (a : N) (b : positive) : Z :=
  let k := (Z.of_nat (ndigits a) - Z.of_nat (ndigits (Npos b)))%Z in
  if pow10_le k a b then k else (k - 1)%Z.
(** a / b * 10^(k-e), rounded *)
Definition mantissa (k : nat) (e : Z) (a : N) (b : positive) : N :=
  if (e <=? Z.of_nat k)%Z then nearest (a * 10 ^ Z.to_N (Z.of_nat k - e)) b
  else nearest a (b * Pos.pow 10 (Z.to_pos (e - Z.of_nat k))).
(** '%.kE', '%.ke' with the letter [c]: [k] + 1 digits, the exponent with a sign and at least two digits *)
Definition scientific (c : ascii) (k : nat) (x : num) : text :=
  let '(m, e) :=
    if top x =? 0 then (0, 0%Z) else
    let e := exponent (top x) (bot x) in
    let m := mantissa k e (top x) (bot x) in
    if m =? 10 ^ N.of_nat (S k) then (10 ^ N.of_nat k, (e + 1)%Z) else (m, e) in
  let a := Z.abs_N e in
  sign (neg x) ++ digits (m / 10 ^ N.of_nat k) ++ "."%char :: fixed k m ++
  c :: (if (e <? 0)%Z then "-"%char else "+"%char) :: (if a <? 10 then fixed 2 a else digits a).

(** ** Reading *)

(** str.isspace, for ASCII characters *)
Definition is_space (c : ascii) : bool :=
  let n := N_of_ascii c in ((9 <=? n) && (n <=? 13)) || ((28 <=? n) && (n <=? 32)).
Definition is_digit (c : ascii) : bool := let n := N_of_ascii c in (48 <=? n) && (n <=? 57).
(** The longest prefix of digits, and the rest *)
Fixpoint span_digits (t : text) : text * text :=
  match t with
  | c :: t' => if is_digit c then let (d, r) := span_digits t' in (c :: d, r) else ([], t)
  | [] => ([], [])
  end.
Definition digits_value (t : text) : N := fold_left (fun acc c => 10 * acc + (N_of_ascii c - 48)) t 0.
Definition read_sign (t : text) : bool * text :=
  match t with
  | "-"%char :: r => (true, r)
  | "+"%char :: r => (false, r)
  | _ => (false, t)
  end.

(** int() of a word; underscores are not modelled *)
Definition to_int (t : text) : res Z :=
  let (n, r) := read_sign t in
  match span_digits r with
  | ((_ :: _) as d, []) => let v := Z.of_N (digits_value d) in Ok (if n then (- v)%Z else v)
  | _ => Raise ValueError
  end.

(** The exponent of a decimal number, or nothing *)
Definition read_exponent (t : text) : res Z :=
  match t with
  | [] => Ok 0%Z
  | c :: r => if (Ascii.eqb c "e" || Ascii.eqb c "E")%char then to_int r else Raise ValueError
  end.

Section Float.
  (** The double read from digits of value [m] and a power of ten [e]: any function *)
  Variable dbl : N -> Z -> N * positive.
  (** float() of a word: decimal numbers only. Underscores, "nan" and "inf" are not modelled. *)
  Definition to_float (t : text) : res num :=
    let (n, r) := read_sign t in
    let (i, r1) := span_digits r in
    let (f, r2) := match r1 with "."%char :: r' => span_digits r' | _ => ([], r1) end in
    match i ++ f with
    | [] => Raise ValueError
    | ds => do e <- read_exponent r2;
            let (a, b) := dbl (digits_value ds) (e - Z.of_nat (length f)) in Ok (Num n a b)
    end.
End Float.

(** str.split(): the words between white space *)
Fixpoint words_from (word : text) (t : text) : list text :=
  match t with
  | [] => match word with [] => [] | _ => [rev word] end
  | c :: t' => if is_space c then match word with [] => words_from [] t' | _ => rev word :: words_from [] t' end
               else words_from (c :: word) t'
  end.
Definition words (t : text) : list text := words_from [] t.

(** The lines of a file, without their end. When the text ends with a newline the last one is empty: reading it or
    reading beyond the end gives no word. *)
Definition newline : ascii := "010"%char.
Fixpoint lines_from (line : text) (t : text) : list text :=
  match t with
  | [] => [rev line]
  | c :: t' => if Ascii.eqb c newline then rev line :: lines_from [] t' else lines_from (c :: line) t'
  end.
Definition lines (t : text) : list text := lines_from [] t.
(** readline().split() *)
Definition readline (ls : list text) : list text * list text :=
  match ls with
  | l :: ls' => (words l, ls')
  | [] => ([], [])
  end.
