(** Model of utMath/Optimization/LevenbergMarquardt.h and of OptTerminate.
    A parameter vector, estimate or residual that contains NaN is [None]; every comparison
    with NaN is false.  The problem, the weight function, the normalisation and the linear
    solvers of LAPACK are arbitrary functions. *)
From Coq Require Import Reals List Bool Arith.
From Verif Require Import Mat.
Open Scope R_scope.

(** LmSolverType, LevenbergMarquardt.h:61 *)
Inductive solver := Cholesky | QR | SVD.

(** outcome of posv / gels / gelss: a solution (with or without NaN) or an error code *)
Inductive lapack := Solution (x : option vect) | Failure.

(** OptTerminate::operator(), Optimization.h:72-76; the second argument is called resPrev,
    the third resNow *)
Definition Rltb (x y : R) : bool := if Rlt_dec x y then true else false.
Definition opt_terminate (max_iterations : nat) (precision : R)
  (iterations : nat) (res_prev res_now : option R) : bool :=
  ((0 <? max_iterations)%nat && (max_iterations <=? iterations)%nat) ||
  ((if Req_EM_T precision 0 then false else true) &&
   match res_prev, res_now with
   | Some p, Some n => Rltb (Rabs (p - n)) (precision * n)
   | _, _ => false
   end).

Section LM.
Variable n_meas n_params : nat.
Variable eval : vect -> option (vect * mat).       (** problem.evaluateWithJacobian *)
Variable weights : option (vect -> vect).          (** weightFunction; None: noWeights() *)
Variable normalize : vect -> vect.                 (** normalize.evaluate *)
Variable lin : solver -> option (mat * vect) -> lapack.
Variable term : nat -> option R -> option R -> bool.   (** terminationCriteria *)
Variable measurement : vect.
Variable factor : R.                               (** fStepFactor *)

(** weighted difference and Jacobian, LevenbergMarquardt.h:106-122 and 185-200 *)
Definition linearise (p : option vect) : option (vect * mat) :=
  match p with
  | None => None
  | Some p =>
    match eval p with
    | None => None
    | Some (e, J) =>
      let d := vsub measurement e in
      match weights with
      | None => Some (d, J)
      | Some wf => let w := wf d in
                   Some (fun i => d i * sqrt (w i), fun i j => J i j * sqrt (w i))
      end
    end
  end.

(** inner_prod of the difference with itself, LevenbergMarquardt.h:124, 202 *)
Definition residual (l : option (vect * mat)) : option R :=
  option_map (fun dj => vdot n_meas (fst dj) (fst dj)) l.

(** local variables of the loop *)
Record state := St {
  params : option vect; err_prev : option R; lin_prev : option (vect * mat);
  lambda : R; kind : solver; iteration : nat }.

(** J^T J + lambda I and J^T d, LevenbergMarquardt.h:136-145 *)
Definition normal_equations (lambda : R) (l : option (vect * mat)) : option (mat * vect) :=
  option_map (fun dj => (madd (mmul n_meas (tr (snd dj)) (snd dj)) (mscale lambda eye),
                         mvec n_meas (tr (snd dj)) (fst dj))) l.

(** fErr >= fErrPrev *)
Definition ge (a b : option R) : bool :=
  match a, b with Some a, Some b => if Rle_dec b a then true else false | _, _ => false end.

(** one pass through the loop, LevenbergMarquardt.h:131-226: the new state and bTerminate,
    or [None] for an exception *)
Definition round (s : state) : option (state * bool) :=
  let it := S (iteration s) in
  match lin (kind s) (normal_equations (lambda s) (lin_prev s)) with
  | Failure =>
    match kind s with
    | Cholesky => Some (St (params s) (err_prev s) (lin_prev s) (lambda s) SVD it, false)
    | _ => None
    end
  | Solution dx =>
    let new_params := match params s, dx with
      | Some p, Some dx => Some (normalize (vadd p dx)) | _, _ => None end in
    let l := linearise new_params in
    let err := residual l in
    let stop := term it err (err_prev s) in
    if ge err (err_prev s)
    then Some (St (params s) (err_prev s) (lin_prev s) (lambda s * factor) (kind s) it, stop)
    else Some (St new_params err l (lambda s / factor) (kind s) it, stop)
  end.

Definition initial (p : vect) (step_size : R) (k : solver) : state :=
  St (Some p) (residual (linearise (Some p))) (linearise (Some p)) step_size k 0.

(** result of the call: parameters and return value, an exception, or still running after
    [fuel] passes *)
Inductive result := Done (p : option vect) (err : option R) | Throw | Running (s : state).

Fixpoint loop (fuel : nat) (s : state) : result :=
  match fuel with
  | O => Running s
  | S fuel =>
    match round s with
    | None => Throw
    | Some (s, true) => Done (params s) (err_prev s)
    | Some (s, false) => loop fuel s
    end
  end.
Definition levenberg_marquardt (fuel : nat) (p : vect) (step_size : R) (k : solver) : result :=
  loop fuel (initial p step_size k).

(** ** Specification: weighted sum of squared differences *)
Definition sum_of_squares (p : vect) : option R :=
  match eval p with
  | None => None
  | Some (e, _) =>
    let d := fun i => measurement i - e i in
    match weights with
    | None => Some (sum n_meas (fun i => d i * d i))
    | Some wf => Some (sum n_meas (fun i => wf d i * (d i * d i)))
    end
  end.
Definition weights_nonneg : Prop :=
  match weights with None => True | Some wf => forall d i, (i < n_meas)%nat -> 0 <= wf d i end.
End LM.
