(** Model of utMath/Stochastic/Correlation.h and index_iterator.h. *)
From Coq Require Import Reals List Arith.
Import ListNotations.
Open Scope R_scope.

(** left-to-right accumulation over the common prefix of two sequences *)
Definition acc2 (f : R -> R -> R) (l : list (R * R)) : R :=
  fold_left (fun s p => s + f (fst p) (snd p)) l 0.

(** [correlation], Correlation.h:31-83.  [None] is NaN (0/0 in the release build: a
    sequence without elements or without variance). *)
Definition correlation (l1 l2 : list R) : option R :=
  match l1, l2 with
  | [], [] => Some 1
  | _, _ =>
    let n := Nat.min (length l1) (length l2) in
    match n with
    | O => None
    | S _ =>
      let l := combine l1 l2 in
      let m1 := acc2 (fun x _ => x) l / INR n in
      let m2 := acc2 (fun _ y => y) l / INR n in
      let res := acc2 (fun x y => (x - m1) * (y - m2)) l in
      let var1 := acc2 (fun x y => (x - m1) * (x - m1)) l in
      let var2 := acc2 (fun x y => (y - m2) * (y - m2)) l in
      let denom := sqrt (var1 * var2) in
      if Req_EM_T denom 0 then None else Some (res / denom)
    end
  end.

(** [indexed_iterator], index_iterator.h:41-161.  Value and index iterators advance
    together, so the state is one position; the labels are a list. *)
Section iterator.
Context {V : Type}.
Variable labels : list nat.
Variable comp : nat.

(** std::find( pIndex, pIndexEnd, comp_value ) as a distance *)
Fixpoint find_from (l : list nat) : nat :=
  match l with
  | [] => 0
  | k :: r => if Nat.eqb k comp then 0%nat else S (find_from r)
  end.
(** operator++, lines 139-146 *)
Definition next (pos : nat) : nat := (pos + find_from (skipn pos labels))%nat.
(** operator!= with the end iterator, lines 149-152 *)
Definition not_end (pos : nat) : bool := negb (Nat.eqb pos (length labels)).
(** size(), lines 111-114 *)
Definition it_size (pos : nat) : nat := count_occ Nat.eq_dec (skipn pos labels) comp.

(** [for( it = begin(); it != end(); ++it ) visit( *it )] for at most [fuel] steps: the
    visited values, and whether the loop has ended *)
Fixpoint visit (values : list V) (d : V) (fuel pos : nat) : list V * bool :=
  if not_end pos then
    match fuel with
    | O => ([], false)
    | S f => let r := visit values d f (next pos) in (nth pos values d :: fst r, snd r)
    end
  else ([], true).
End iterator.
