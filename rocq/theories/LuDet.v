(** Model of Math::determinant (utMath/MatrixOperations.h:59-78).  lapack::getrf is a function
    argument: it returns the packed factors (U on and above the diagonal, the unit lower triangular L
    below it) and the row interchanges, one-based.  Real arithmetic. *)
From Coq Require Import Reals Arith List.
Import ListNotations.
From Verif Require Import Mat.
Open Scope R_scope.

Definition getrf_result := (mat * list nat)%type.
(** the loop 71-76: one step *)
Definition det_step (f : getrf_result) (det : R) (i : nat) : R :=
  (if (nth i (snd f) O =? i + 1)%nat then det else det * -1) * fst f i i.
Definition determinant (getrf : nat -> mat -> getrf_result) (n : nat) (A : mat) : R :=
  let f := getrf n A in fold_left (det_step f) (seq 0 (length (snd f))) 1.
