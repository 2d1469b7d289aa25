(** Model of the motion models of utTracking: LinearPoseMotionModel.h,
    Function/LinearTimeUpdate.h, Function/QuaternionTimeUpdate.h,
    Function/PoseTimeUpdate.h, Function/InsideOutPoseTimeUpdate.h,
    Function/InvertRotationVelocity.h, and of utMath/RotationVelocity.h and
    utMath/Optimization/Function/RotationVelocityIntegration.h. *)
From Coq Require Import Reals Bool Arith ZArith List.
Import ListNotations.
From Verif Require Import Mat Quat CovTransform Jacobians.
Open Scope R_scope.

(** ** Memory

    The filter passes the same vector as input and as result
    (PoseKalmanFilter.cpp:219-227), so the two are modelled as memory: with
    [alias] an assignment to the result changes the input as well. *)
Record mem := Mem { inp : vect; out : vect }.
Definition assign (alias : bool) (m : mem) (b e : nat) (y : vect) : mem :=
  let o := vset_range (out m) b e y in Mem (if alias then o else inp m) o.

(** ** Linear motion *)

(** the loop of LinearTimeUpdate.h:75-84; the result is state[s .. s+size), the input
    state[s ..), the Jacobian starts at (s, s); [k] passes remain *)
Fixpoint lin_loop (alias : bool) (dt : R) (size s k i : nat) (t : R) (m : mem) (J : mat) : mem * mat :=
  match k with
  | O => (m, J)
  | S k' =>
      let t' := t * (dt / INR i) in
      let m' := assign alias m s (s + size)
                  (vadd (vsub_range (out m) s) (vscale t' (vsub_range (inp m) (s + size * i)))) in
      let J' := set_sub J s (s + size) (s + size * i) (s + size * (i + 1)) (mscale t' eye) in
      lin_loop alias dt size s k' (i + 1) t' m' J'
  end.

(** [LinearTimeUpdate::evaluateWithJacobian], LinearTimeUpdate.h:66-85 *)
Definition linear_update (alias : bool) (dt : R) (size order s : nat) (m : mem) (J : mat) : mem * mat :=
  lin_loop alias dt size s order 1 1
    (assign alias m s (s + size) (vsub_range (inp m) s))
    (set_sub J s (s + size) s (s + size) eye).

(** ** Rotation *)

(** [RotationVelocity::integrate], RotationVelocity.h:85-88 *)
Definition integrate (v : vec3) (dt : R) : quat := from_log (v3scale dt v).

(** [RotationVelocity( a, b, interval )], RotationVelocity.h:75-79; [None]: division by zero *)
Definition velocity_between (a b : quat) (interval : R) : option vec3 :=
  if Req_EM_T interval 0 then None
  else Some (v3scale (/ interval) (to_log (qmul (qconj (negate_if_closer a b)) b))).

(** the block of the Jacobian written in one pass, QuaternionTimeUpdate.h:79-93 *)
Definition quat_vel_block (t : R) (q : quat) : mat := mlist [
  [   t * qw q / 2; - t * qz q / 2;   t * qy q / 2 ];
  [   t * qz q / 2;   t * qw q / 2; - t * qx q / 2 ];
  [ - t * qy q / 2;   t * qx q / 2;   t * qw q / 2 ];
  [ - t * qx q / 2; - t * qy q / 2; - t * qz q / 2 ] ].

(** the loop of QuaternionTimeUpdate.h:73-94; the Jacobian starts at (b, b) *)
Fixpoint quat_loop (dt : R) (q : quat) (x : vect) (b k i : nat) (t : R) (r : quat) (J : mat) : quat * mat :=
  match k with
  | O => (r, J)
  | S k' =>
      let r' := qmul r (integrate (vec_of x (4 + 3 * i)) t) in
      let t' := t * dt in
      let J' := set_sub J b (b + 4) (b + 4 + i * 3) (b + 4 + i * 3 + 3) (quat_vel_block t' q) in
      quat_loop dt q x b k' (i + 1) t' r' J'
  end.

(** [QuaternionTimeUpdate::evaluateWithJacobian], QuaternionTimeUpdate.h:64-99 *)
Definition quat_update (alias : bool) (dt : R) (order b : nat) (m : mem) (J : mat) : mem * mat :=
  let x := vsub_range (inp m) b in
  let q := quat_of x 0 in
  let '(r, J1) := quat_loop dt q x b order 0 dt q J in
  (assign alias m b (b + 4) (to4 r), set_sub J1 b (b + 4) b (b + 4) eye).

(** ** Pose

    [P] is posOrder + 1 and [O] is rotOrder + 1, so zero stands for the -1 that
    means "no position" or "no rotation". *)
Definition rot_start (P : nat) : nat := (3 * P)%nat.
Definition total_size (P O : nat) : nat :=
  (rot_start P + match O with O => 0 | S o => 4 + 3 * o end)%nat.

(** PoseTimeUpdate.h:79-92 *)
Fixpoint pos_loop (alias : bool) (dt : R) (P O k i : nat) (m : mem) (J : mat) : mem * mat :=
  match k with
  | O => (m, J)
  | S k' =>
      let s := (3 * i)%nat in
      let '(m1, J1) := linear_update alias dt 3 (P - 1 - i) s m J in
      let J2 := set_sub J1 s (s + 3) 0 s mzero in
      let J3 := set_sub J2 s (s + 3) (rot_start P) (total_size P O) mzero in
      pos_loop alias dt P O k' (i + 1) m1 J3
  end.

(** PoseTimeUpdate.h:106-117 *)
Fixpoint rot_loop (alias : bool) (dt : R) (P o k i : nat) (m : mem) (J : mat) : mem * mat :=
  match k with
  | O => (m, J)
  | S k' =>
      let s := (rot_start P + 1 + 3 * i)%nat in
      let '(m1, J1) := linear_update alias dt 3 (o - i) s m J in
      let J2 := set_sub J1 s (s + 3) 0 s mzero in
      rot_loop alias dt P o k' (i + 1) m1 J2
  end.

(** [PoseTimeUpdate::evaluateWithJacobian], PoseTimeUpdate.h:72-119 *)
Definition pose_update (alias : bool) (dt : R) (P O : nat) (m : mem) (J : mat) : mem * mat :=
  let '(m1, J1) := pos_loop alias dt P O P 0 m J in
  match O with
  | O => (m1, J1)
  | S o =>
      let rs := rot_start P in
      let '(m2, J2) := quat_update alias dt o rs m1 J1 in
      let J3 := set_sub J2 rs (rs + 4) 0 rs mzero in
      rot_loop alias dt P o o 1 m2 J3
  end.

(** ** Motion model, LinearPoseMotionModel.h:42-113 (integer arithmetic as in the source) *)
Open Scope Z_scope.
(** constructor 51-56, [stateSize] 59-60 *)
Definition state_size (p o : Z) : Z := 3 + 3 * p + (if o >=? 0 then 4 + 3 * o else 0).
(** [PoseTimeUpdate::size], PoseTimeUpdate.h:60-61 *)
Definition update_size (p o : Z) : Z := 6 + 3 * p + 3 * o + (if o >=? 0 then 1 else 0).

Definition set_range_z (f : Z -> R) (b e : Z) (v : R) : Z -> R :=
  fun i => if (b <=? i) && (i <? e) then v else f i.
(** [setPosPN] 75-79 *)
Definition set_pos_noise (f : Z -> R) (order : Z) (v : R) : Z -> R :=
  set_range_z f (3 * order) (3 + 3 * order) (v * v).
(** [setOriPN] 86-94 *)
Definition set_ori_noise (p : Z) (f : Z -> R) (order : Z) (v : R) : Z -> R :=
  if order =? 0 then set_range_z f (3 + 3 * p) (7 + 3 * p) (v * v)
  else set_range_z f (4 + 3 * (p + order)) (7 + 3 * (p + order)) (v * v).
Open Scope R_scope.

(** [addNoise] 101-107 *)
Definition add_noise (n : nat) (noise : vect) (dt : R) (C : mat) : mat := fun i j =>
  if (i =? j)%nat && (i <? n)%nat then C i j + Rabs dt * noise i else C i j.

(** ** Function objects *)

(** [RotationVelocityIntegration::evaluate], RotationVelocityIntegration.h:66-78.  The
    source compares with 1e12. *)
Definition integration_functor (dt : R) (v : vec3) : quat :=
  let n := norm3 v in
  let s := if Rgt_dec (Rabs (n * dt)) (10 ^ 12) then sin (n * dt * (1 / 2)) / n else dt * (1 / 2) in
  Q (vx v * s) (vy v * s) (vz v * s) (cos (n * dt * (1 / 2))).
(** [jacobian], RotationVelocityIntegration.h:99-104 *)
Definition integration_functor_jac (dt : R) (v : vec3) : mat := mlist [
  [ dt * (1 / 2); 0; 0 ]; [ 0; dt * (1 / 2); 0 ]; [ 0; 0; dt * (1 / 2) ];
  [ dt * - (1 / 4) * vx v; dt * - (1 / 4) * vy v; dt * - (1 / 4) * vz v ] ].

(** [InvertRotationVelocity::evaluateWithJacobian], InvertRotationVelocity.h:60-80 *)
Definition invert_velocity (x : vect) : vect :=
  quat_rotate (fun i => - x (4 + i)%nat) x.
Definition invert_velocity_jac (x : vect) : mat := fun i j =>
  if (j <? 4)%nat then quat_vec_jac_q x (fun i => - x (4 + i)%nat) i j
  else quat_vec_jac_v x (fun i => - x (4 + i)%nat) i (j - 4)%nat * -1.

(** the position part of [InsideOutPoseTimeUpdate::evaluateWithJacobian],
    InsideOutPoseTimeUpdate.h:91-115, 133-140; [vel] is absent for posOrder 0 *)
Definition inside_out_rotation (dt : R) (q : quat) (w : vec3) : quat :=
  integration_functor dt (qrot q w).
Definition inside_out_position (dt : R) (p : vec3) (vel : option vec3) (q : quat) (w : vec3) : vec3 :=
  let p' := qrot (inside_out_rotation dt q w) p in
  match vel with Some d => v3add p' (v3scale dt d) | None => p' end.
Definition inside_out_velocity (dt : R) (vel : vec3) (q : quat) (w : vec3) : vec3 :=
  qrot (inside_out_rotation dt q w) vel.
(** the rotation part, 150-159, is [QuaternionTimeUpdate] of order 1 *)
Definition inside_out_orientation (dt : R) (q : quat) (w : vec3) : quat := qmul q (integrate w dt).

(** ** Timestamps of the orientation filter, RotationOnlyKf.cpp *)
Open Scope Z_scope.
Definition u64 (z : Z) : Z := z mod 2 ^ 64.
Definition s64 (z : Z) : Z := if u64 z <? 2 ^ 63 then u64 z else u64 z - 2 ^ 64.
(** [timeUpdate] 101-102: (long long int)( t - m_time ) * 1e-9 *)
Definition dt_update (t m_time : Z) : R := IZR (s64 (t - m_time)) * / 10 ^ 9.
(** [predict] 126: ( t - m_time ) * 1e-9 *)
Definition dt_predict (t m_time : Z) : R := IZR (u64 (t - m_time)) * / 10 ^ 9.

(** ** Specification vocabulary *)
Open Scope R_scope.
(** Taylor coefficient *)
Definition tay (dt : R) (k : nat) : R := dt ^ k / INR (fact k).
(** entry i of a state that consists of n blocks of three numbers, each the derivative of
    the one before, advanced by dt *)
Definition advance (dt : R) (n : nat) (x : vect) : vect := fun i =>
  sum (n - i / 3) (fun k => tay dt k * x (i + 3 * k)%nat).
