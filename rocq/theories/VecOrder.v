(** Model of the comparison operators of src/utMath/Vector.h and of ErrorVector::getRMS, src/utMath/ErrorVector.h.
    A number is [None] if it is NaN: every comparison with it is false except [!=]. *)
From Coq Require Import Reals Bool.
From Verif Require Import Mat.
Open Scope R_scope.

Definition num := option R.
Definition lt (x y : num) : bool := match x, y with Some a, Some b => if Rlt_dec a b then true else false | _, _ => false end.
Definition neq (x y : num) : bool := match x, y with Some a, Some b => if Req_EM_T a b then false else true | _, _ => true end.

(** Vector::operator<, Vector.h:192-200: the loop from component i with k components left *)
Fixpoint less_from (i k : nat) (a b : nat -> num) : bool :=
  match k with
  | O => false
  | S k => if lt (a i) (b i) then true else if lt (b i) (a i) then false else less_from (S i) k a b
  end.
Definition less (n : nat) (a b : nat -> num) : bool := less_from 0 n a b.
(** operator==, Vector.h:335-341 *)
Fixpoint equal_from (i k : nat) (a b : nat -> num) : bool := match k with O => true | S k => if neq (a i) (b i) then false else equal_from (S i) k a b end.
Definition equal (n : nat) (a b : nat -> num) : bool := equal_from 0 n a b.

(** getRMS, ErrorVector.h:76-85; [None]: the root of a negative number *)
Definition rms (n : nat) (covariance : nat -> nat -> R) : num := let t := sum n (fun i => covariance i i) in if Rlt_dec t 0 then None else Some (sqrt t).
