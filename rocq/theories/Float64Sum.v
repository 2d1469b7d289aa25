(** Sums, means and inner products in double precision: the functions of Average.h and Blas1.h
    again, with [double] an IEEE 754 binary64 number rounded to nearest even after every operation. *)
From Coq Require Import ZArith List.
Import ListNotations.
From Flocq Require Import Binary Bits.
From Verif Require Import Float64 Float64Sync.
Open Scope Z_scope.

(** m_mean after feeding the values one by one, Average.h:103-105 and 140-142
    (one entry of the vector): m_mean = 0, then m_mean += value *)
Definition dtotal (xs : list dbl) : dbl := fold_left dadd xs d0.
(** getAverage: m_mean / m_counter, Average.h:117-120 and 146-149; the counter is a
    std::size_t that is converted to double for the division *)
Definition davg (xs : list dbl) : dbl := ddiv (dtotal xs) (of_Z (Z.of_nat (length xs))).

(** one entry of m_covariance, Average.h:219-223: the products of the two entries summed up *)
Definition dproducts (xs ys : list dbl) : list dbl := map (fun p => dmul (fst p) (snd p)) (combine xs ys).
(** one entry of the covariance of Average< ErrorVector >::getAverage, Average.h:225-230;
    xs and ys are the sequences of the two entries of the values *)
Definition dcov (xs ys : list dbl) : dbl :=
  dsub (ddiv (dtotal (dproducts xs ys)) (of_Z (Z.of_nat (length xs)))) (dmul (davg xs) (davg ys)).

(** InnerProduct for dynamic storage, Blas1.h:108-126: result = 0, then in index order
    result += vec1[ i ] * vec2[ i ] *)
Definition dinner_dyn (a b : list dbl) : dbl :=
  fold_left (fun r p => dadd r (dmul (fst p) (snd p))) (combine a b) d0.
(** inner_product_impl for fixed storage, Blas1.h:138-162: from index N-1 down to 0 *)
Fixpoint dinner_impl (n : nat) (a b : list dbl) (sqsum : dbl) : dbl :=
  match n with
  | O => sqsum
  | S m => dinner_impl m a b (dadd sqsum (dmul (nth m a d0) (nth m b d0)))
  end.
Definition dinner_fix (a b : list dbl) : dbl := dinner_impl (length a) a b d0.
(** Norm_2, Blas1.h:276-279, for the two kinds of storage *)
Definition dnorm_dyn (a : list dbl) : dbl := dsqrt (dinner_dyn a a).
Definition dnorm_fix (a : list dbl) : dbl := dsqrt (dinner_fix a a).
