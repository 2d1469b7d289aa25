(** Rotation-only hand-eye calibration, one measurement at a time. *)
From Coq Require Import Reals List Arith Lra.
Import ListNotations.
From Verif Require Import Mat Quat Jacobians CovTransform Kalman.
Open Scope R_scope.

(** * utAlgorithm/OnlineRotHec.cpp *)
(** skewMatrix, 47-58 *)
Definition skew (v : vec3) : mat :=
  mlist [ [ 0; - vz v; vy v ];
          [ vz v; 0; - vx v ];
          [ - vy v; vx v; 0 ] ].
(** LinearFunction< 3, 3 >, utMath/Optimization/Function/LinearFunction.h:83-88 *)
Definition linear_function (h : mat) : cfun := fun v => (mvec 3 h v, h).
(** the constructor, 61-65; 1e6 *)
Definition online_init : errvec := EV (vlist [0; 0; 0]) (mscale 1000000 eye).
(** the factor of lines 71-72 *)
Definition w_sign (q : quat) : R := if Rlt_dec (qw q) 0 then -1 else 1.
(** addMeasurement, 68-85; [chol] and [gen] are the LAPACK calls of the Kalman filter (Kalman.v) *)
Definition online_add (chol : mat -> option mat) (gen : mat -> mat) (st : errvec) (qr : quat * quat) : errvec :=
  let (q, r) := qr in
  let nq := w_sign q in let nr := w_sign r in
  let z := vlist [ qx r * nr - qx q * nq; qy r * nr - qy q * nq; qz r * nr - qz q * nq ] in
  let h := skew (V3 (qx q * nq + qx r * nr) (qy q * nq + qy r * nr) (qz q * nq + qz r * nr)) in
  kalman_update chol gen 3 3 (linear_function h) 0 3 st (EV z eye).
(** computeResult, 88-94 *)
Definition online_result (st : errvec) : quat :=
  let n := norm 3 (value st) in
  let s := 1 / sqrt (1 + n * n) in
  let c := sqrt (1 - n * s * (n * s)) in
  Q (value st 0%nat * s) (value st 1%nat * s) (value st 2%nat * s) c.
Definition online_run chol gen (ms : list (quat * quat)) : errvec := fold_left (online_add chol gen) ms online_init.

(** * utAlgorithm/RotationHecKalmanFilter.cpp *)
(** the constructor, 46-50; 1e2 *)
Definition rhk_init : errvec := EV (vlist [0; 0; 0; 1]) (mscale 100 eye).
(** addMeasurement, 52-67; RotHecMeasurement is [rothec] and [rothec_jac] (Jacobians.v); [None] is the division by zero in VectorNormalize *)
Definition rhk_add (chol : mat -> option mat) (gen : mat -> mat) (st : errvec) (ab : quat * quat) : option errvec :=
  let (a, b) := ab in
  let b' := negate_if_closer b a in
  let st1 := kalman_update chol gen 4 4 (fun v => (rothec a b' v, rothec_jac a b')) 0 4 st
               (EV (fun _ => 0) (mscale (1 / 100) eye)) in
  if Req_EM_T (norm 4 (value st1)) 0 then None
  else
    let st2 := transform_cov 4 (fun v => (vnormalize 4 v, vnormalize_jac 4 v)) st1 in
    Some (EV (value st2) (madd (covariance st2) (mscale (1 / 1000000000000) eye))).
Fixpoint rhk_run (chol : mat -> option mat) (gen : mat -> mat) (st : errvec) (ms : list (quat * quat)) : option errvec :=
  match ms with
  | [] => Some st
  | m :: ms => match rhk_add chol gen st m with Some st' => rhk_run chol gen st' ms | None => None end
  end.
(** getResult, RotationHecKalmanFilter.h:65-66 *)
Definition rhk_result (st : errvec) : quat := quat_of (value st) 0.
