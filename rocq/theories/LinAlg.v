(** Models of the small linear-algebra helpers: utMath/Functors/MatrixFunctors.h, utMath/Blas1.h,
    Blas2.h, Blas3.h, VectorFunctions.h, Geometry/PointTransformation.h, PointProjection.h,
    PointNormalization.h, MatrixOperations.h, Matrix.h.  [double] is a real number. *)
From Coq Require Import Reals List Arith Bool.
Import ListNotations.
From Verif Require Import Mat Quat.
Open Scope R_scope.

(** ** Functors/MatrixFunctors.h *)

(** matrix_determinant, 2x2: MatrixFunctors.h:61-64; 3x3: 74-85 *)
Definition det2 (m : mat) : R := m 0%nat 0%nat * m 1%nat 1%nat - m 0%nat 1%nat * m 1%nat 0%nat.
Definition det3 (m : mat) : R :=
  let val1 := m 0%nat 0%nat * m 1%nat 1%nat * m 2%nat 2%nat in
  let val2 := m 0%nat 0%nat * m 1%nat 2%nat * m 2%nat 1%nat in
  let val3 := m 0%nat 1%nat * m 1%nat 2%nat * m 2%nat 0%nat in
  let val4 := m 0%nat 1%nat * m 1%nat 0%nat * m 2%nat 2%nat in
  let val5 := m 0%nat 2%nat * m 1%nat 0%nat * m 2%nat 1%nat in
  let val6 := m 0%nat 2%nat * m 1%nat 1%nat * m 2%nat 0%nat in
  val1 - val2 + val3 - val4 + val5 - val6.

(** Matrix( const T* pFirst ), Matrix.h:117-123: row-major array with N columns *)
Definition of_array (n : nat) (p : vect) : mat := fun i j => p (i * n + j)%nat.

(** matrix_inverse, 2x2: MatrixFunctors.h:120-136; [None]: division by zero *)
Definition inverse2 (m : mat) : option mat :=
  let A11 := m 0%nat 0%nat in let A12 := m 0%nat 1%nat in
  let A21 := m 1%nat 0%nat in let A22 := m 1%nat 1%nat in
  let d := A11 * A22 - A12 * A21 in
  if Req_EM_T d 0 then None
  else Some (of_array 2 (vlist [ A22 / d; - A12 / d; - A21 / d; A11 / d ])).
(** matrix_inverse, 3x3: MatrixFunctors.h:145-174 *)
Definition inverse3 (m : mat) : option mat :=
  let A11 := m 0%nat 0%nat in let A12 := m 0%nat 1%nat in let A13 := m 0%nat 2%nat in
  let A21 := m 1%nat 0%nat in let A22 := m 1%nat 1%nat in let A23 := m 1%nat 2%nat in
  let A31 := m 2%nat 0%nat in let A32 := m 2%nat 1%nat in let A33 := m 2%nat 2%nat in
  let d := A11 * A22 * A33 - A11 * A23 * A32 - A12 * A21 * A33 + A12 * A23 * A31 + A13 * A21 * A32
           - A13 * A22 * A31 in
  if Req_EM_T d 0 then None
  else Some (of_array 3 (vlist [
    (A22 * A33 - A23 * A32) / d; - (A12 * A33 - A13 * A32) / d; (A12 * A23 - A13 * A22) / d;
    - (A21 * A33 - A23 * A31) / d; (A11 * A33 - A13 * A31) / d; - (A11 * A23 - A13 * A21) / d;
    (A21 * A32 - A22 * A31) / d; - (A11 * A32 - A12 * A31) / d; (A11 * A22 - A12 * A21) / d ])).

(** ** Blas1.h *)

(** inner_product_impl, Blas1.h:138-162: template recursion with accumulator, from the last entry *)
Fixpoint inner_impl (n : nat) (a b : vect) (sqsum : R) : R :=
  match n with
  | O => sqsum
  | S n' => inner_impl n' a b (sqsum + a n' * b n')
  end.
Definition inner_fixed (n : nat) (a b : vect) : R := inner_impl n a b 0.
(** the loop for dynamic vectors, Blas1.h:109-126; [None]: the assert on the sizes fails *)
Definition inner_dynamic (a b : list R) : option R :=
  if (length a =? length b)%nat
  then Some (fold_left (fun r i => r + nth i a 0 * nth i b 0) (seq 0 (length a)) 0)
  else None.
(** norm_1_impl, Blas1.h:230-254, and Norm_2, Blas1.h:264-280 *)
Fixpoint norm1_impl (n : nat) (a : vect) (s : R) : R :=
  match n with O => s | S n' => norm1_impl n' a (s + Rabs (a n')) end.
Definition norm1 (n : nat) (a : vect) : R := norm1_impl n a 0.
Definition norm2 (n : nat) (a : vect) : R := sqrt (inner_fixed n a a).
(** VectorFunctions.h: Normalize 60-79 ([None]: division by zero), Distance 89-121,
    SquaredDistance 132-164, cross_product 367-376 *)
Definition normalize (n : nat) (a : vect) : option vect :=
  if Req_EM_T (norm2 n a) 0 then None else Some (fun i => a i / norm2 n a).
Definition distance (n : nat) (a b : vect) : R := norm2 n (vsub a b).
Definition squared_distance (n : nat) (a b : vect) : R := inner_fixed n (vsub a b) (vsub a b).
Definition cross_product (a b : vect) : vect := vlist [
  a 1%nat * b 2%nat - a 2%nat * b 1%nat; a 2%nat * b 0%nat - a 0%nat * b 2%nat;
  a 0%nat * b 1%nat - a 1%nat * b 0%nat ].

(** ** Blas2.h and Blas3.h: template recursions that write into raw column-major storage.
    A template instance is a state; [fuel] bounds the instantiation depth. *)
Definition upd (m : vect) (i : nat) (x : R) : vect := fun k => if (k =? i)%nat then x else m k.
(** column-major storage of an M x N matrix *)
Definition col_major (M : nat) (A : mat) : vect := fun k => A (k mod M)%nat (k / M)%nat.

(** outer_product_impl< M_NOW, M, N >, Blas2.h:134-176 *)
Fixpoint outer_impl (fuel mnow M N : nat) (v1 v2 : vect) (res : vect) : option vect :=
  match fuel with
  | O => None
  | S f =>
    match N, mnow with
    | O, _ => Some res                                           (* 167-176 *)
    | S n, O => outer_impl f M M n v1 v2 res                     (* 151-159 *)
    | S n, S m => outer_impl f m M N v1 v2 (upd res (M * n + m) (v1 m * v2 n)) (* 134-143 *)
    end
  end.
(** mat_vec_product_impl_forward< M_MAX, N_MAX, M, N >, Blas2.h:236-281 *)
Fixpoint mv_forward (fuel MM NM M N : nat) (A v : vect) (res : vect) : option vect :=
  match fuel with
  | O => None
  | S f =>
    if ((M =? MM) && (N =? 0))%nat then Some res                 (* 272-281 *)
    else if (N =? NM)%nat then mv_forward f MM NM (M + 1) 0 A v res (* 261-269 *)
    else if (N =? 0)%nat
    then mv_forward f MM NM M 1 A v (upd res M (A M * v 0%nat))   (* 248-257 *)
    else mv_forward f MM NM M (N + 1) A v (upd res M (res M + A (N * MM + M)%nat * v N)) (* 236-245 *)
  end.
(** mat_vec_product_impl_backward, Blas2.h:297-341 (the one that is used, 209) *)
Fixpoint mv_backward (fuel MM NM M N : nat) (A v : vect) (res : vect) : option vect :=
  match fuel with
  | O => None
  | S f =>
    if ((M =? 0) && (N =? NM))%nat then Some res
    else if (N =? NM)%nat
    then mv_backward f MM NM M (NM - 1) A v
           (upd res (M - 1) (A ((NM - 1) * MM + (M - 1))%nat * v (NM - 1)%nat))
    else if (N =? 0)%nat then mv_backward f MM NM (M - 1) NM A v res
    else mv_backward f MM NM M (N - 1) A v
           (upd res (M - 1) (res (M - 1)%nat + A ((N - 1) * MM + (M - 1))%nat * v (N - 1)%nat))
  end.
(** mat_mat_product_impl_forward< M1_MAX, N1_MAX, N2_MAX, M, N, STEP >, Blas3.h:114-181 *)
Fixpoint mm_forward (fuel M1 N1 N2 M N st : nat) (A B : vect) (res : vect) : option vect :=
  match fuel with
  | O => None
  | S f =>
    if ((M =? 0) && (N =? N2) && (st =? 0))%nat then Some res
    else if ((M =? M1) && (st =? 0))%nat then mm_forward f M1 N1 N2 0 (N + 1) 0 A B res
    else if (st =? 0)%nat
    then mm_forward f M1 N1 N2 M N 1 A B (upd res (N * M1 + M) (A M * B (N * N1)%nat))
    else if (st =? N1)%nat then mm_forward f M1 N1 N2 (M + 1) N 0 A B res
    else mm_forward f M1 N1 N2 M N (st + 1) A B
           (upd res (N * M1 + M) (res (N * M1 + M)%nat + A (st * M1 + M)%nat * B (N * N1 + st)%nat))
  end.

(** ** Geometry/PointTransformation.h: the overloads of TransformPoint *)

(** rows of the form m(i,0) v(0) + ... ; suffixes: matrix rows x columns, length of the point *)
Definition tp23_2 (m : mat) (v : vect) : vect := fun i => m i 0%nat * v 0%nat + m i 1%nat * v 1%nat + m i 2%nat.  (* 84-91 *)
Definition tp23_3 (m : mat) (v : vect) : vect := fun i => m i 0%nat * v 0%nat + m i 1%nat * v 1%nat + m i 2%nat * v 2%nat. (* 93-100 *)
Definition tp33_2 (m : mat) (v : vect) : vect := tp23_2 m v.  (* 102-110 *)
Definition tp33_3 (m : mat) (v : vect) : vect := tp23_3 m v.  (* 112-120 *)
Definition tp34_2 (m : mat) (v : vect) : vect := fun i => m i 0%nat * v 0%nat + m i 1%nat * v 1%nat + m i 3%nat. (* 122-130 *)
Definition tp34_3 (m : mat) (v : vect) : vect := fun i =>
  m i 0%nat * v 0%nat + m i 1%nat * v 1%nat + m i 2%nat * v 2%nat + m i 3%nat.  (* 132-140 *)
Definition tp34_4 (m : mat) (v : vect) : vect := fun i =>
  m i 0%nat * v 0%nat + m i 1%nat * v 1%nat + m i 2%nat * v 2%nat + m i 3%nat * v 3%nat. (* 142-150 *)
Definition tp44_2 (m : mat) (v : vect) : vect := tp34_2 m v.  (* 152-161 *)
Definition tp44_3 (m : mat) (v : vect) : vect := tp34_3 m v.  (* 163-172 *)
(** 174-183: the last row uses transMat( 3, 3 ) twice *)
Definition tp44_4 (m : mat) (v : vect) : vect := fun i =>
  match i with
  | 3%nat => m 3%nat 0%nat * v 0%nat + m 3%nat 1%nat * v 1%nat + m 3%nat 3%nat * v 2%nat + m 3%nat 3%nat * v 3%nat
  | _ => tp34_4 m v i
  end.

(** ProjectPoint, PointProjection.h:75-118; [None]: division by zero *)
Definition project (e : vect) : option vect :=
  if Req_EM_T (e 2%nat) 0 then None else Some (vlist [ e 0%nat / e 2%nat; e 1%nat / e 2%nat ]).
Definition pp33_2 (m : mat) (v : vect) := project (tp23_2 m v).
Definition pp34_2 (m : mat) (v : vect) := project (tp34_2 m v).
Definition pp34_3 (m : mat) (v : vect) := project (tp34_3 m v).
Definition pp34_4 (m : mat) (v : vect) := project (tp34_4 m v).

(** ** Geometry/PointNormalization.h *)

(** estimateNormalizationParameters, PointNormalization.h:63-84: shift and scale of coordinate i;
    [None]: no points (division by zero) *)
Definition norm_params (pts : list vect) : option (vect * vect) :=
  match pts with
  | [] => None
  | _ =>
    let n := INR (length pts) in
    let shift := fold_left (fun s p => vadd s p) pts (fun _ => 0) in
    let scale := fold_left (fun s p => vadd s (fun i => p i * p i)) pts (fun _ => 0) in
    let shift := vscale (1 / n) shift in
    let scale := vscale (1 / n) scale in
    Some (shift, fun i => sqrt (scale i - shift i * shift i))
  end.
(** generateNormalizationMatrix, PointNormalization.h:103-123 *)
Definition norm_matrix (n : nat) (shift scale : vect) (inv : bool) : mat := fun i j =>
  if (i =? n)%nat then (if (j =? n)%nat then 1 else 0)
  else if (j =? n)%nat then (if inv then shift i else - (1 / scale i) * shift i)
  else if (i =? j)%nat then (if inv then scale i else 1 / scale i)
  else 0.

(** ** Matrix.h and MatrixOperations.h *)

(** leftHandToRightHandMatrix, Matrix.h:393-406: the six assignments *)
Definition neg_at (r c : nat) (m : mat) : mat := fun i j =>
  if ((i =? r) && (j =? c))%nat then - m i j else m i j.
Definition lh_to_rh (m : mat) : mat :=
  neg_at 3 2 (neg_at 1 2 (neg_at 0 2 (neg_at 2 3 (neg_at 2 1 (neg_at 2 0 m))))).

(** pseudoInvert_matrix, MatrixOperations.h:105-148, for an n x m matrix whose singular value
    decomposition (U, s, Vt) has been computed by gesvd *)
Definition pinv_s (s : vect) : vect := fun i => if Req_EM_T (s i) 0 then s i else 1 / s i.
Definition pseudo_invert (n m : nat) (U : mat) (s : vect) (Vt : mat) : mat :=
  let s' := pinv_s s in
  let a := if (m <? n)%nat
    then mmul m U (fun i j => if (i <? m)%nat then Vt i j * s' i else Vt i j)   (* 132-138 *)
    else mmul n (fun i j => if (j <? n)%nat then U i j * s' j else U i j) Vt in (* 139-145 *)
  tr a.
