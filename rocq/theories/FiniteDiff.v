(** Model of utMath/Optimization/Function/DiscreteJacobianApproximation.h and LinearFunction.h,
    utMath/Optimization/GaussNewton.h. *)
From Coq Require Import Reals Arith.
From Verif Require Import Mat.
Open Scope R_scope.

(** the step for coordinate [i], DiscreteJacobianApproximation.h:102-106 *)
Definition fd_eps (width : R) (x : vect) (i : nat) : R :=
  if Req_EM_T (x i) 0 then width else x i * width.
(** testInput, 98-116: only coordinate [i] differs from the input *)
Definition fd_input (width : R) (x : vect) (i : nat) : vect := fun k =>
  if (k =? i)%nat then x i + fd_eps width x i else x k.
(** evaluateWithJacobian, 88-118; a vanishing width divides by zero *)
Definition discrete_jacobian (f : vect -> vect) (width : R) (x : vect) : option mat :=
  if Req_EM_T width 0 then None
  else Some (fun r c => (f (fd_input width x c) r - f x r) / fd_eps width x c).

(** LinearFunction::evaluateWithJacobian, LinearFunction.h:81-86 *)
Definition linear_function (n : nat) (A : mat) (x : vect) : vect * mat := (mvec n A x, A).

(** GaussNewton.h:86-114.  [solve] is lapack::gels on the normal equations (None: an exception);
    [eval] returns value and Jacobian; [m] measurements. *)
Section GaussNewton.
Variable m : nat.
Variable eval : vect -> vect * mat.
Variable normalize : vect -> vect.
Variable solve : mat -> vect -> option vect.
Variable measurement : vect.
Definition gn_step (p : vect) : option vect :=
  let '(e, J) := eval p in
  let d := vsub measurement e in
  match solve (mmul m (tr J) J) (mvec m (tr J) d) with
  | None => None
  | Some dx => Some (normalize (vadd p dx))
  end.
Fixpoint gauss_newton (iterations : nat) (p : vect) : option vect :=
  match iterations with
  | O => Some p
  | S k => match gn_step p with Some p => gauss_newton k p | None => None end
  end.
End GaussNewton.

(** ** Specification *)
Definition affine (n : nat) (f : vect -> vect) (A : mat) (b : vect) : Prop :=
  forall x r, f x r = b r + mvec n A x r.
Definition shift (x : vect) (c : nat) (h : R) : vect := fun k => if (k =? c)%nat then x k + h else x k.
Definition sq_error (m : nat) (f : vect -> vect) (meas x : vect) : R :=
  vdot m (vsub meas (f x)) (vsub meas (f x)).
(** [solve] returns solutions of the systems J^T J x = J^T d it is asked to solve *)
Definition solves_normal (m n : nat) (solve : mat -> vect -> option vect) (J : mat) : Prop :=
  forall d, exists x, solve (mmul m (tr J) J) (mvec m (tr J) d) = Some x /\
    veq n (mvec n (mmul m (tr J) J) x) (mvec m (tr J) d).
