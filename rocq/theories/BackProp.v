(** Model of utMath/Stochastic/BackwardPropagation.h: the covariance of parameters from the
    covariance of measurements.  Matrices are functions of their indices, [double] is a real number.
    lapack::gesvd( 'N', 'O', ... ) and syev are function arguments.  [None]: a quotient with divisor zero. *)
From Coq Require Import Reals List Arith Bool.
Import ListNotations.
From Verif Require Import Mat.
Open Scope R_scope.

(** gesvd of an m x n matrix: singular values and V^T, which replaces the first n rows *)
Definition gesvd_o := nat -> nat -> mat -> vect * mat.
(** syev( 'V', 'U', ... ): eigenvalues and the matrix whose columns are the eigenvectors *)
Definition syev_v := nat -> mat -> vect * mat.

(** x < first * 1e-8 ? 0 : c / x; the loops 97-102, 115-120, 166-172, 248-253 *)
Definition limit (first x c : R) : option R :=
  if Rlt_dec x (first * / 100000000) then Some 0 else if Req_EM_T x 0 then None else Some (c / x).
Fixpoint limits (first c : R) (s : vect) (n : nat) : option vect :=
  match n with
  | O => Some (fun _ => 0)
  | S n => match limits first c s n, limit first (s n) c with
           | Some v, Some x => Some (fun i => if (i =? n)%nat then x else v i)
           | _, _ => None
           end
  end.
(** syrk into the upper half, 126, 178, 259, and the copy to the lower half, 129-131, 181-183, 262-264 *)
Definition upper_product (n : nat) (A : mat) : mat := fun i j =>
  if (i <=? j)%nat then sum n (fun k => A k i * A k j) else sum n (fun k => A k j * A k i).
(** 108-131, 159-183, 241-264 *)
Definition from_svd (c : R) (n : nat) (sv : vect * mat) : option mat :=
  option_map (fun v => upper_product n (fun k i => snd sv k i * v k)) (limits (fst sv 0%nat) c (fst sv) n).

(** backwardPropagationIdentity, 150-184 *)
Definition back_identity (gesvd : gesvd_o) (m n : nat) (s : R) (J : mat) : option mat :=
  from_svd (sqrt s) n (gesvd m n J).
(** backwardPropagationDiagonal, 228-265; the loop 238-239 runs over the parameters *)
Definition weigh_rows (n : nat) (e : vect) (J : mat) : mat := fun i j =>
  if (i <? n)%nat then J i j * (1 / sqrt (e i)) else J i j.
Definition back_diagonal (gesvd : gesvd_o) (m n : nat) (e : vect) (J : mat) : option mat :=
  from_svd 1 n (gesvd m n (weigh_rows n e J)).
(** backwardPropagation, 71-132: the factors T^(-1/2), 97-102, the rows, 92-94 and 105-106, the rest *)
Fixpoint inv_roots (first : R) (t : vect) (n : nat) : option vect :=
  match n with
  | O => Some t
  | S n => match inv_roots first t n with
           | Some v =>
             if Rlt_dec (t n) (first * / 100000000) then Some (fun i => if (i =? n)%nat then 0 else v i)
             else if Rle_dec (t n) 0 then None
             else Some (fun i => if (i =? n)%nat then 1 / sqrt (t n) else v i)
           | None => None
           end
  end.
Definition back_general (syev : syev_v) (gesvd : gesvd_o) (m n : nat) (E J : mat) : option mat :=
  let (t, Q) := syev m E in
  let QJ := mmul m Q J in
  match inv_roots (t 0%nat) t n with
  | None => None
  | Some t => from_svd 1 n (gesvd m n (fun i j => if (i <? n)%nat then QJ i j * t i else QJ i j))
  end.
