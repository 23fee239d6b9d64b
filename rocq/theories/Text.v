(** * Text: Python's str, as used by kalmankit/_version.py

    A text is the sequence of its code points.  Simplified: the regular
    expression class \d and int() know the ASCII digits only. *)
From Coq Require Import ZArith String Ascii.
From Coq Require DecimalNat.
From mathcomp Require Import ssreflect ssrfun ssrbool eqtype ssrnat seq path.

Set Warnings "-abstract-large-number".
Set Implicit Arguments.
Unset Strict Implicit.
Unset Printing Implicit Defensive.

Definition text := seq nat.

(** A string literal. *)
Fixpoint txt (s : string) : text :=
  match s with EmptyString => [::] | String c s' => nat_of_ascii c :: txt s' end.
Definition chr (s : string) : nat := head 0 (txt s).

(** str.isspace of one character *)
Definition is_space (c : nat) : bool :=
  [|| (9 <= c <= 13), (28 <= c <= 32), c == 133, c == 160, c == 5760, (8192 <= c <= 8202),
      c == 8232, c == 8233, c == 8239, c == 8287 | c == 12288].

(** \d and [0-9a-f] *)
Definition is_digit (c : nat) : bool := 48 <= c <= 57.
Definition is_hex (c : nat) : bool := is_digit c || (97 <= c <= 102).

(** s.lstrip / rstrip / strip of the characters satisfying [p] *)
Definition lstrip (p : pred nat) (s : text) : text := drop (find (predC p) s) s.
Definition rstrip (p : pred nat) (s : text) : text := rev (lstrip p (rev s)).
Definition strip_of (p : pred nat) (s : text) : text := rstrip p (lstrip p s).
(** s.strip() *)
Definition strip (s : text) : text := strip_of is_space s.

(** b.strip() of bytes: ASCII white space only *)
Definition is_bspace (c : nat) : bool := (9 <= c <= 13) || (c == 32).
Definition bstrip (s : text) : text := strip_of is_bspace s.

(** s.split(c) for a one-character separator *)
Fixpoint split (c : nat) (s : text) : seq text :=
  match s with
  | [::] => [:: [::]]
  | d :: s' =>
    if d == c then [::] :: split c s'
    else match split c s' with p :: ps => (d :: p) :: ps | [::] => [:: [:: d]] end
  end.

(** s.split(sep) for a non-empty separator: [skip] characters of a separator
    just found remain to be passed over. *)
Fixpoint split_sub_from (sep : text) (skip : nat) (cur s : text) : seq text :=
  match s with
  | [::] => [:: rev cur]
  | d :: s' =>
    if skip is k.+1 then split_sub_from sep k cur s'
    else if prefix sep s then rev cur :: split_sub_from sep (size sep).-1 [::] s'
    else split_sub_from sep 0 (d :: cur) s'
  end.
Definition split_sub (sep s : text) : seq text := split_sub_from sep 0 [::] s.

(** len(s.split()): the number of words *)
Fixpoint words_from (in_word : bool) (s : text) : nat :=
  match s with
  | [::] => 0
  | c :: s' => if is_space c then words_from false s'
               else (if in_word then 0 else 1) + words_from true s'
  end.
Definition words (s : text) : nat := words_from false s.

(** s.splitlines() *)
Definition is_break (c : nat) : bool :=
  [|| (10 <= c <= 13), (28 <= c <= 30), c == 133, c == 8232 | c == 8233].
Fixpoint lines_from (cur s : text) : seq text :=
  match s with
  | [::] => if cur is [::] then [::] else [:: rev cur]
  | c :: s' =>
    if c == 13 then
      match s' with
      | 10 :: s'' => rev cur :: lines_from [::] s''
      | _ => rev cur :: lines_from [::] s'
      end
    else if is_break c then rev cur :: lines_from [::] s'
    else lines_from (c :: cur) s'
  end.
Definition splitlines (s : text) : seq text := lines_from [::] s.

(** s.replace(c, new, 1) for a single character c *)
Fixpoint replace1 (c : nat) (new s : text) : text :=
  match s with [::] => [::] | d :: s' => if d == c then new ++ s' else d :: replace1 c new s' end.

(** s <= t, Python's order on strings *)
Fixpoint text_le (s t : text) : bool :=
  match s, t with
  | [::], _ => true
  | _ :: _, [::] => false
  | c :: s', d :: t' => (c < d) || ((c == d) && text_le s' t')
  end.

(** '%d' % n *)
Fixpoint uint_text (u : Decimal.uint) : text :=
  match u with
  | Decimal.Nil => [::]
  | Decimal.D0 u => 48 :: uint_text u | Decimal.D1 u => 49 :: uint_text u
  | Decimal.D2 u => 50 :: uint_text u | Decimal.D3 u => 51 :: uint_text u
  | Decimal.D4 u => 52 :: uint_text u | Decimal.D5 u => 53 :: uint_text u
  | Decimal.D6 u => 54 :: uint_text u | Decimal.D7 u => 55 :: uint_text u
  | Decimal.D8 u => 56 :: uint_text u | Decimal.D9 u => 57 :: uint_text u
  end.
Definition dec (n : nat) : text := uint_text (Nat.to_uint n).
Definition decZ (z : Z) : text :=
  if (z <? 0)%Z then chr "-" :: dec (Z.to_nat (- z)) else dec (Z.to_nat z).

(** int(s) for a text of ASCII digits *)
Definition digits_value (s : text) : nat := foldl (fun n c => n * 10 + (c - 48)) 0 s.

(** int(s) for any text: surrounding white space, a sign, digits that single
    underscores may separate; [None] for ValueError. *)
Definition int_of (s : text) : option Z :=
  let t := strip s in
  let: (neg, u) := match t with
                   | 45 :: u => (true, u)
                   | 43 :: u => (false, u)
                   | _ => (false, t)
                   end in
  let groups := split (chr "_") u in
  if all (fun g => (g != [::]) && all is_digit g) groups then
    let n := Z.of_nat (digits_value (flatten groups)) in Some (if neg then (- n)%Z else n)
  else None.

(** posixpath.basename *)
Definition basename (p : text) : text := last [::] (split (chr "/") p).
(** posixpath.dirname: everything up to the last slash, without trailing
    slashes unless it is all slashes *)
Definition dirname (p : text) : text :=
  let h := take (size p - size (basename p)) p in
  if all (pred1 (chr "/")) h then h else rstrip (pred1 (chr "/")) h.
