(** The archives that turn values into one line of text and back:
    src/utUtil/SimpleStringOArchive.h and src/utUtil/SimpleStringIArchive.h, for
    int, unsigned int, unsigned long long and char in the "C" locale (the decimal
    rendering of floating point numbers is treated separately, by contract). *)
From Coq Require Import ZArith NArith List Ascii Decimal Bool.
From Coq Require Import DecimalFacts DecimalN.
Import ListNotations.

Inductive item := Int (z : Z) | UInt (n : N) | ULong (n : N) | Char (c : ascii).
Inductive kind := KInt | KUInt | KULong | KChar.
Definition kind_of (i : item) : kind := match i with Int _ => KInt | UInt _ => KUInt | ULong _ => KULong | Char _ => KChar end.

(** ** std::ostream << value *)
Fixpoint digits (u : uint) : list ascii :=
  match u with
  | Nil => []
  | D0 u => "0"%char :: digits u | D1 u => "1"%char :: digits u | D2 u => "2"%char :: digits u
  | D3 u => "3"%char :: digits u | D4 u => "4"%char :: digits u | D5 u => "5"%char :: digits u
  | D6 u => "6"%char :: digits u | D7 u => "7"%char :: digits u | D8 u => "8"%char :: digits u
  | D9 u => "9"%char :: digits u
  end.
Definition show_N (n : N) : list ascii := digits (N.to_uint n).
Definition text (i : item) : list ascii :=
  match i with
  | Int z => if (z <? 0)%Z then "-"%char :: show_N (Z.to_N (- z)) else show_N (Z.to_N z)
  | UInt n | ULong n => show_N n
  | Char c => [c]
  end.
(** the operators 98-111 with pre (66-70): a blank unless m_count was zero; m_count is a 32 bit unsigned (80) *)
Fixpoint write_from (count : N) (l : list item) : list ascii :=
  match l with
  | [] => []
  | i :: l => (if (count =? 0)%N then [] else [" "%char]) ++ text i ++ write_from ((count + 1) mod 2 ^ 32)%N l
  end.
(** a new archive (52-54), the values, str() (57-58) *)
Definition write (l : list item) : list ascii := write_from 0 l.

(** ** std::istream >> value *)
(** the characters left, and eofbit *)
Definition stream := (list ascii * bool)%type.
Definition space (c : ascii) : bool := let n := N_of_ascii c in ((n =? 32) || (9 <=? n) && (n <=? 13))%N.
Fixpoint skip (s : list ascii) : list ascii := match s with c :: s' => if space c then skip s' else s | [] => [] end.
Definition digit (c : ascii) : option (uint -> uint) :=
  match c with
  | "0"%char => Some D0 | "1"%char => Some D1 | "2"%char => Some D2 | "3"%char => Some D3 | "4"%char => Some D4
  | "5"%char => Some D5 | "6"%char => Some D6 | "7"%char => Some D7 | "8"%char => Some D8 | "9"%char => Some D9
  | _ => None
  end.
(** num_get: as many digits as there are *)
Fixpoint take_digits (s : list ascii) : uint * list ascii :=
  match s with
  | [] => (Nil, [])
  | c :: s' => match digit c with Some d => let (u, r) := take_digits s' in (d u, r) | None => (Nil, s) end
  end.
(** an optional sign and digits; reaching the end sets eofbit.  [None]: no digits, failbit *)
Definition number (s : list ascii) : option (bool * N * stream) :=
  let s := skip s in
  let '(neg, s) := match s with "-"%char :: s' => (true, s') | "+"%char :: s' => (false, s') | _ => (false, s) end in
  let (u, r) := take_digits s in
  match u with Nil => None | _ => Some (neg, N.of_uint u, (r, match r with [] => true | _ => false end)) end.
Definition unsigned (w : N) (neg : bool) (n : N) : option N :=
  if (n <? 2 ^ w)%N then Some (if neg then ((2 ^ w - n) mod 2 ^ w)%N else n) else None.
Definition bind {A B} (o : option A) (f : A -> option B) : option B := match o with Some a => f a | None => None end.
(** the operators 98-111 with pre (63-67) and post (70-74); [None]: an exception *)
Definition read (k : kind) (st : stream) : option (item * stream) :=
  let (s, eof) := st in
  if eof then None else
  match k with
  | KInt => bind (number s) (fun '(neg, n, st) => let z := if neg then (- Z.of_N n)%Z else Z.of_N n in
      if ((- 2 ^ 31 <=? z) && (z <? 2 ^ 31))%Z then Some (Int z, st) else None)
  | KUInt => bind (number s) (fun '(neg, n, st) => bind (unsigned 32 neg n) (fun v => Some (UInt v, st)))
  | KULong => bind (number s) (fun '(neg, n, st) => bind (unsigned 64 neg n) (fun v => Some (ULong v, st)))
  | KChar => match skip s with [] => None | c :: s' => Some (Char c, (s', false)) end
  end.
Fixpoint read_all (ks : list kind) (st : stream) : option (list item * stream) :=
  match ks with
  | [] => Some ([], st)
  | k :: ks => bind (read k st) (fun '(i, st) => bind (read_all ks st) (fun '(l, st) => Some (i :: l, st)))
  end.
(** an archive on a string (52-55) *)
Definition open (s : list ascii) : stream := (s, false).
