(** The container that repeats one value: utMath/Stochastic/identity_iterator.h, with std::transform, which it is used with in
    PointProjection.h:198-199, PointTransformation.h:251-253, k_means.h:221 and 245 and DataSelection.h:546-548.
    The counter is a std::size_t of 64 bits; the reference is a value (nothing here writes through it). *)
From Coq Require Import ZArith List.
Import ListNotations.
Open Scope Z_scope.

Definition word (n : Z) : Z := n mod 2 ^ 64.
Section Iterator.
Context {A B C : Type}.
(** members of identity, lines 62-64, and of identity::iterator, lines 91-94 *)
Record ident := Ident { held : A; size : Z }.
Record iter := Iter { at_ : A; counter : Z }.
(** constructors, lines 66-74 *)
Definition ident1 (v : A) : ident := Ident v 0.
Definition ident2 (v : A) (n : Z) : ident := Ident v n.
(** begin and end, lines 223-232 (cbegin and cend, 235-244, are the same) *)
Definition begin_ (c : ident) : iter := Iter (held c) 0.
Definition end_ (c : ident) : iter := Iter (held c) (size c).
(** dereferencing, lines 125-134, and operator[], 189-193 *)
Definition deref (i : iter) : A := at_ i.
Definition subscript (i : iter) (k : Z) : A := at_ i.
(** the operators return a reference to the iterator itself: the result is the new state of the operand.
    ++ and --, 175-186; += and -=, 162-172; + and - with a number, 149-160; with an iterator (its counter is the number), 136-146 *)
Definition incr (i : iter) : iter := Iter (at_ i) (word (counter i + 1)).
Definition decr (i : iter) : iter := Iter (at_ i) (word (counter i - 1)).
Definition advance (i : iter) (k : Z) : iter := Iter (at_ i) (word (counter i + k)).
Definition retreat (i : iter) (k : Z) : iter := Iter (at_ i) (word (counter i - k)).
(** [i + k] as an expression: the new state of i and the value, a reference to i *)
Definition plus_expr (i : iter) (k : Z) : iter * iter := let i' := advance i k in (i', i').
Definition minus_expr (i : iter) (k : Z) : iter * iter := let i' := retreat i k in (i', i').
(** comparisons, 196-217 *)
Definition differ (i j : iter) : bool := negb (counter i =? counter j).
Definition same (i j : iter) : bool := counter i =? counter j.
Definition less (i j : iter) : bool := counter i <? counter j.
Definition greater (i j : iter) : bool := counter j <? counter i.

(** std::transform with the identity as second range: while first1 != last1: *result++ = op( *first1, *first2 ), ++first1, ++first2.
    The output and the second iterator at the end *)
Fixpoint transform_second (op : B -> A -> C) (l : list B) (it : iter) : list C * iter :=
  match l with
  | [] => ([], it)
  | x :: l => let (out, it') := transform_second op l (incr it) in (op x (deref it) :: out, it')
  end.
(** with the identity as first range; [l] is what the second iterator can still read, reading more is undefined behaviour
    ([None]), as is running for longer than [fuel] rounds *)
Fixpoint transform_first (fuel : nat) (op : A -> B -> C) (it last : iter) (l : list B) : option (list C * list B) :=
  match fuel with
  | O => None
  | S fuel =>
    if differ it last then
      match l with
      | [] => None
      | x :: l => match transform_first fuel op (incr it) last l with
                  | Some (out, rest) => Some (op (deref it) x :: out, rest)
                  | None => None
                  end
      end
    else Some ([], l)
  end.
End Iterator.
Arguments ident : clear implicits.
Arguments iter : clear implicits.
