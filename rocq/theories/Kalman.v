(** Model of utMath/Stochastic/Kalman.h.  The LAPACK calls are function arguments:
    [chol] is potrf followed by potri with 'U' ([None]: potrf reports a failure; only
    the upper triangle of the result is meaningful), [gen] is getrf followed by getri.
    The function object is represented by what [evaluateWithJacobian] writes, as in
    CovTransform.v. *)
From Coq Require Import Reals Bool Arith.
From Verif Require Import Mat CovTransform.
Open Scope R_scope.

(** [blas::symm( 'R', 'U', A, B, C )]: C = B A, reading only the upper triangle of A *)
Definition from_upper (A : mat) : mat := fun i j => if (i <=? j)%nat then A i j else A j i.
Definition symm_right_upper (m : nat) (A B : mat) : mat := mmul m B (from_upper A).

Section lapack.
Variables (chol : mat -> option mat) (gen : mat -> mat).

(** Kalman.h:103-118: invert, falling back to the general inversion of the rebuilt matrix *)
Definition invert_innovation (S : mat) : mat :=
  match chol S with
  | Some W => W
  | None => gen S
  end.

(** [kalmanMeasurementUpdate], Kalman.h:71-136; n is the state size, m the size of the
    measurement, [f] the measurement function on state[ib .. ie) *)
Definition kalman_update (n m : nat) (f : cfun) (ib ie : nat) (st meas : errvec) : errvec :=
  let k := (ie - ib)%nat in
  let '(predicted, jacobian) := f (vsub_range (value st) ib) in
  let im := mmul k jacobian (sub (covariance st) ib ib) in
  let matInv := invert_innovation (madd (mmul k im (tr jacobian)) (covariance meas)) in
  let matTemp := mmul k (sub (covariance st) 0 ib) (tr jacobian) in
  let gain := symm_right_upper m matInv matTemp in
  EV (vadd (value st) (mvec m gain (vsub (value meas) predicted)))
     (msub (covariance st) (mmul m gain (tr matTemp))).

(** [kalmanMeasurementUpdateIdentity], Kalman.h:163-219 *)
Definition kalman_update_identity (n m : nat) (ib ie : nat) (st meas : errvec) : errvec :=
  let predicted := vsub_range (value st) ib in
  let matInv := invert_innovation (madd (sub (covariance st) ib ib) (covariance meas)) in
  let matTemp := sub (covariance st) 0 ib in
  let gain := symm_right_upper m matInv matTemp in
  EV (vadd (value st) (mvec m gain (vsub (value meas) predicted)))
     (msub (covariance st) (mmul m gain (tr matTemp))).
End lapack.

(** ** Specification vocabulary *)

(** the measurement Jacobian as a function of the whole state: zero outside [ib .. ie) *)
Definition whole (H : mat) (ib ie : nat) : mat := fun i j =>
  if (ib <=? j) && (j <? ie) then H i (j - ib)%nat else 0.

(** expected covariance when the state is corrected with an arbitrary gain L:
    the error is (I - L H) e - L v *)
Definition corrected_cov (n m : nat) (H P R L : mat) : mat :=
  madd (sandwich n (msub eye (mmul m L H)) P) (sandwich m L R).
