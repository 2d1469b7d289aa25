(** Timestamps and their text: src/utMeasurement/Timestamp.cpp, the branches for Unix. *)
From Coq Require Import ZArith List Ascii String.
Import ListNotations.
Open Scope Z_scope.
Open Scope list_scope.

(** now, 101-103: seconds and microseconds of gettimeofday; Timestamp is unsigned long long (Timestamp.h:42) *)
Definition now (tv_sec tv_usec : Z) : Z := ((tv_sec mod 2 ^ 64) * 1000000000 + (tv_usec mod 2 ^ 64) * 1000) mod 2 ^ 64.

(** struct tm *)
Record tm := Tm { tm_sec : Z; tm_min : Z; tm_hour : Z; tm_mday : Z; tm_mon : Z; tm_year : Z; tm_wday : Z }.

(** printf "%0wd" of a non-negative number below 10^w *)
Definition digit (d : Z) : ascii := ascii_of_N (Z.to_N (48 + d)).
Fixpoint show (w : nat) (n : Z) : list ascii := match w with O => [] | S w => show w (n / 10) ++ [digit (n mod 10)] end.
Definition colon : ascii := ":". Definition dot : ascii := ".". Definition blank : ascii := " ". Definition newline : ascii := "010".

(** timestampToShortString, 137-156; [localtime] fills the tm for a number of seconds *)
Definition short_string (localtime : Z -> tm) (t : Z) : list ascii :=
  let temp := localtime (t / 1000000000) in
  show 2 (tm_hour temp) ++ [colon] ++ show 2 (tm_min temp) ++ [colon] ++ show 2 (tm_sec temp) ++ [dot] ++ show 6 ((t / 1000) mod 1000000).

(** asctime_r: "%.3s %.3s%3d %.2d:%.2d:%.2d %d\n" with years of four digits *)
Definition day_name (d : Z) : list ascii := list_ascii_of_string (nth (Z.to_nat d) ["Sun"; "Mon"; "Tue"; "Wed"; "Thu"; "Fri"; "Sat"] "???")%string.
Definition month_name (m : Z) : list ascii := list_ascii_of_string
  (nth (Z.to_nat m) ["Jan"; "Feb"; "Mar"; "Apr"; "May"; "Jun"; "Jul"; "Aug"; "Sep"; "Oct"; "Nov"; "Dec"] "???")%string.
Definition pad3 (n : Z) : list ascii := if n <? 10 then [blank; blank; digit n] else blank :: show 2 n.
Definition asctime (a : tm) : list ascii :=
  day_name (tm_wday a) ++ [blank] ++ month_name (tm_mon a) ++ pad3 (tm_mday a) ++ [blank] ++
  show 2 (tm_hour a) ++ [colon] ++ show 2 (tm_min a) ++ [colon] ++ show 2 (tm_sec a) ++ [blank] ++ show 4 (1900 + tm_year a) ++ [newline].
(** std::string::replace( pos, n, s ) for pos within the string *)
Definition replace (s : list ascii) (pos n : nat) (r : list ascii) : list ascii := firstn pos s ++ r ++ skipn (pos + n) s.
(** timestampToString, 109-134 *)
Definition long_string (gmtime : Z -> tm) (t : Z) : list ascii :=
  let result := asctime (gmtime (t / 1000000000)) in
  replace result (List.length result - 1) 4 (list_ascii_of_string " UTC").
