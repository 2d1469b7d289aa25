(** Model of utTracking/PoseKalmanFilter.cpp and utTracking/RotationOnlyKf.cpp.
    [P] is posOrder + 1 and [D] is oriOrder + 1.  LAPACK is a pair of
    function arguments as in Kalman.v, indexed by the size of the measurement.  The
    process noise is an argument because LinearPoseMotionModel leaves it uninitialised
    until the setters are called (LinearPoseMotionModel.h:51-56). *)
From Coq Require Import Reals Bool Arith ZArith List.
Import ListNotations.
From Verif Require Import Mat Quat CovTransform Jacobians ErrorPose Kalman TimeUpdate.
Open Scope R_scope.

(** ** Measurement and time update functions *)

(** local class PoseMeasurement, PoseKalmanFilter.cpp:50-73; the Jacobian is 7 x (rotStart + 4)
    and every entry of it is written *)
Definition pose_measurement (rotStart : nat) : cfun := fun x =>
  ((fun i => if (i <? 3)%nat then x i else x (rotStart + (i - 3))%nat),
   (fun i j => if (i <? 3)%nat then (if (j <? 3)%nat then eye i j else 0)
               else (if (j <? rotStart)%nat then 0 else eye (i - 3)%nat (j - rotStart)%nat))).

(** [PoseTimeUpdate] as a function of the state; [true]: the filter passes the state as input
    and as result (219-227); [J0] is the uninitialised Jacobian of CovarianceTransform.h:79 *)
Definition pose_time_fun (alias : bool) (dt : R) (P O : nat) (J0 : mat) : cfun := fun x =>
  let '(m, J) := pose_update alias dt P O (Mem x x) J0 in (out m, J).

(** [InsideOutPoseTimeUpdate::evaluateWithJacobian], InsideOutPoseTimeUpdate.h:84-183, for
    posOrder 0 and 1.  Nothing is read after it has been overwritten, so one definition serves
    for both the aliased and the separate call. *)
Definition inside_out_fun (dt : R) (P : nat) (J0 : mat) : cfun := fun x =>
  let rs := rot_start P in
  let q := vsub_range x rs in let w := vsub_range x (rs + 4) in
  let av := quat_rotate w q in
  let jAQ := quat_vec_jac_q q w in let jAV := quat_vec_jac_v q w in
  let rotation := integration_functor dt (vec_of av 0) in
  let tu := to4 rotation in
  let jI := integration_functor_jac dt (vec_of av 0) in
  let p0 := quat_rotate x tu in
  let jRQ := quat_vec_jac_q tu x in let jRV := quat_vec_jac_v tu x in
  let p := if (P =? 2)%nat then vadd p0 (vscale dt (vsub_range x 3)) else p0 in
  let J1 := set_sub J0 0 3 0 3 jRV in
  let J2 := if (P =? 2)%nat then set_sub J1 0 3 3 6 (mscale dt eye) else J1 in
  let jAcc := mmul 4 jRQ jI in
  let J3 := set_sub J2 0 3 rs (rs + 4) (mmul 3 jAcc jAQ) in
  let J4 := set_sub J3 0 3 (rs + 4) (rs + 7) (mmul 3 jAcc jAV) in
  let v := vsub_range x 3 in
  let jRQ' := quat_vec_jac_q tu v in let jRV' := quat_vec_jac_v tu v in
  let jAcc' := mmul 4 jRQ' jI in
  let J5 := if (P =? 2)%nat then
      set_sub (set_sub (set_sub (set_sub J4 3 6 0 3 mzero) 3 6 3 6 jRV')
        3 6 rs (rs + 4) (mmul 3 jAcc' jAQ)) 3 6 (rs + 4) (rs + 7) (mmul 3 jAcc' jAV)
    else J4 in
  let y1 := vset_range x 0 3 p in
  let y2 := if (P =? 2)%nat then vset_range y1 3 6 (quat_rotate v tu) else y1 in
  (* 160-181 *)
  let '(m2, J6) := quat_update false dt 1 rs (Mem x y2) J5 in
  let J7 := set_sub J6 rs (rs + 4) 0 rs mzero in
  let '(m3, J8) := linear_update false dt 3 0 (rs + 4) m2 J7 in
  (out m3, set_sub J8 (rs + 4) (rs + 7) 0 (rs + 4) mzero).

(** ** The pose filter *)
Record filter := Filter { fstate : errvec; ftime : Z }.

Section filter.
Variables (chol : nat -> mat -> option mat) (gen : nat -> mat -> mat).
Variables (P D : nat) (insideOut : bool) (noise : vect) (J0 : mat).

Definition fsize : nat := total_size P D.
(** iR, lines 98, 133, 200, 238 *)
Definition iR : nat := (3 * P)%nat.
(** iV, line 176 *)
Definition iV : nat := (4 + 3 * P)%nat.

(** constructor, 79-92 *)
Definition filter_init : filter :=
  Filter (EV (fun i => if (1 <=? D)%nat && (i =? 3 + 3 * P)%nat then 1 else 0) eye) 0.

(** the time update function selected in 220-227 and 284-291 *)
Definition time_fun (alias : bool) (dt : R) : cfun :=
  if insideOut then inside_out_fun dt P J0 else pose_time_fun alias dt P D J0.

(** forward by dt and add process noise, 217-230 and 281-294 *)
Definition forward (alias : bool) (dt : R) (x : errvec) : errvec :=
  let y := transform_cov fsize (time_fun alias dt) x in
  EV (value y) (add_noise fsize noise dt (covariance y)).

(** [timeUpdate], 208-233 *)
Definition time_update (t : Z) (f : filter) : filter :=
  if (ftime f =? 0)%Z || (ftime f =? t)%Z then Filter (fstate f) t
  else Filter (forward true (dt_update t (ftime f)) (fstate f)) t.

(** [VectorNormalize( 4 )] on state[b .. b+4); [None]: division by a zero norm *)
Definition normalize_at (n b : nat) (x : errvec) : option errvec :=
  if Req_EM_T (norm 4 (vsub_range (value x) b)) 0 then None
  else Some (transform_range n (fun v => (vnormalize 4 v, vnormalize_jac 4 v)) b (b + 4) b (b + 4) x).

(** [normalize], 236-266 *)
Definition filter_normalize (x : errvec) : option errvec :=
  match (if (1 <=? D)%nat then normalize_at fsize iR x else Some x) with
  | None => None
  | Some y =>
      if (2 <=? D)%nat then
        if Rgt_dec (norm 3 (vsub_range (value y) (iR + 4))) 10
        then Some (EV (vset_range (value y) (iR + 4) fsize (fun _ => 0)) (covariance y))
        else Some y
      else Some y
  end.

Definition finish (t : Z) (x : errvec) : option filter :=
  match filter_normalize x with Some y => Some (Filter y t) | None => None end.

(** 118-120: only the value is negated *)
Definition negate_rotation (b : nat) (ref : vect) (v : errvec) : errvec :=
  if Rlt_dec (vdot 4 ref (vsub_range (value v) b)) 0
  then EV (vset_range (value v) b (b + 4) (vscale (-1) (vsub_range (value v) b))) (covariance v)
  else v.

(** [addPoseMeasurement], 95-127 *)
Definition add_pose (t : Z) (m : epose) (f : filter) : option filter :=
  let f1 := if (ftime f =? 0)%Z then
      Filter (EV (vset_range (vset_range (value (fstate f)) 0 3 (of3 (tra (ep m)))) iR (iR + 4) (to4 (rot (ep m))))
                 (covariance (fstate f))) (ftime f)
    else f in
  let f2 := time_update t f1 in
  let v := negate_rotation 3 (vsub_range (value (fstate f2)) iR) (to_additive m) in
  finish t (kalman_update (chol 7) (gen 7) fsize 7 (pose_measurement iR) 0 (iR + 4) (fstate f2) v).

(** [addRotationMeasurement], 130-157 *)
Definition add_rotation (t : Z) (q : quat) (f : filter) : option filter :=
  let f1 := if (ftime f =? 0)%Z then
      Filter (EV (vset_range (value (fstate f)) iR (iR + 4) (to4 q)) (covariance (fstate f))) (ftime f)
    else f in
  let f2 := time_update t f1 in
  let v := negate_rotation 0 (vsub_range (value (fstate f2)) iR) (EV (to4 q) (mscale (4 / 1000) eye)) in
  finish t (kalman_update_identity (chol 4) (gen 4) fsize 4 iR (iR + 4) (fstate f2) v).

(** [addRotationVelocityMeasurement], 160-181 *)
Definition add_velocity (t : Z) (w : vec3) (f : filter) : option filter :=
  if (ftime f =? 0)%Z then Some f
  else
    let f2 := time_update t f in
    finish t (kalman_update_identity (chol 3) (gen 3) fsize 3 iV (iV + 3) (fstate f2)
                (EV (of3 w) (mscale (/ 10 ^ 11) eye))).

(** [addInverseRotationVelocityMeasurement], 184-205 *)
Definition add_inverse_velocity (t : Z) (w : vec3) (f : filter) : option filter :=
  if (ftime f =? 0)%Z then Some f
  else
    let f2 := time_update t f in
    finish t (kalman_update (chol 3) (gen 3) fsize 3 (fun x => (invert_velocity x, invert_velocity_jac x))
                iR (iR + 7) (fstate f2) (EV (of3 w) (mscale (/ 10 ^ 11) eye))).

(** the seven entries copied in 297-304 *)
Definition pose_entry (i : nat) : nat := if (i <? 3)%nat then i else (iR + (i - 3))%nat.
Definition pose_part (x : errvec) : errvec :=
  EV (fun i => value x (pose_entry i)) (fun i j => covariance x (pose_entry i) (pose_entry j)).
(** [predictPose], 269-308; [None]: throws *)
Definition predict_pose (t : Z) (f : filter) : option epose :=
  if (ftime f =? 0)%Z then None
  else Some (from_additive (pose_part (forward false (dt_update t (ftime f)) (fstate f)))).
End filter.

(** ** The orientation filter, RotationOnlyKf.cpp *)
Section rotation_only.
Variables (chol : nat -> mat -> option mat) (gen : nat -> mat -> mat) (J0 : mat).

(** constructor, 51-59 *)
Definition rkf_init : filter := Filter (EV (fun i => if (i =? 3)%nat then 1 else 0) eye) 0.

(** [QuaternionTimeUpdate( dt )] on the whole state, four results *)
Definition rkf_time_fun (alias : bool) (dt : R) : cfun := fun x =>
  let '(m, J) := quat_update alias dt 1 0 (Mem x x) J0 in (out m, J).

(** 115-120 *)
Definition rkf_noise (dt : R) (C : mat) : mat := fun i j =>
  if (i <? 4)%nat && (j <? 4)%nat then C i j + eye i j * (1 / 1000 * (dt * dt))
  else if (4 <=? i)%nat && (i <? 7)%nat && (4 <=? j)%nat && (j <? 7)%nat then C i j + eye i j * (4 * (dt * dt))
  else C i j.

(** [timeUpdate], 102-123; CovarianceTransform.h:133 evaluates into a separate vector *)
Definition rkf_time_update (t : Z) (f : filter) : filter :=
  if (ftime f =? 0)%Z then Filter (fstate f) t
  else
    let dt := dt_update t (ftime f) in
    let y := transform_range 7 (rkf_time_fun false dt) 0 4 0 7 (fstate f) in
    Filter (EV (value y) (rkf_noise dt (covariance y))) t.

Definition rkf_finish (t : Z) (x : errvec) : option filter :=
  match normalize_at 7 0 x with Some y => Some (Filter y t) | None => None end.

(** [addRotationMeasurement], 62-81 *)
Definition rkf_add_rotation (t : Z) (q : quat) (f : filter) : option filter :=
  let f1 := if (ftime f =? 0)%Z then
      Filter (EV (vset_range (value (fstate f)) 0 4 (to4 q)) (covariance (fstate f))) (ftime f)
    else f in
  let f2 := rkf_time_update t f1 in
  let z := negate_if_closer q (quat_of (value (fstate f2)) 0) in
  rkf_finish t (kalman_update_identity (chol 4) (gen 4) 7 4 0 4 (fstate f2) (EV (to4 z) (mscale (4 / 1000) eye))).

(** [addVelocityMeasurement], 84-99 *)
Definition rkf_add_velocity (t : Z) (w : vec3) (f : filter) : option filter :=
  let f2 := rkf_time_update t f in
  rkf_finish t (kalman_update_identity (chol 3) (gen 3) 7 3 4 7 (fstate f2) (EV (of3 w) (mscale (1 / 100000) eye))).

(** [predict], 126-133; the normalisation divides by the norm *)
Definition rkf_predict (t : Z) (f : filter) : option quat :=
  let dt := dt_predict t (ftime f) in
  qnormalize (quat_of (fst (rkf_time_fun false dt (value (fstate f)))) 0).
End rotation_only.
