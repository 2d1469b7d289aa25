(** Model of utMath/Util/RotationCast.h over the reals.  A result that would be NaN or
    infinite because of a division by zero is [None]. *)
From Coq Require Import Reals List.
Import ListNotations.
From Verif Require Import Mat Quat.
Open Scope R_scope.

(** Vector< T, 4 >: rotation axis and angle *)
Record aa4 := AA { axis : vec3; angle : R }.

(** 1e-10 *)
Definition eps10 : R := / 10 ^ 10.

(** matrix to quaternion, RotationCast.h:96-111 *)
Definition cast_mat_quat (m : mat) : quat :=
  let a := m 0%nat 0%nat / 4 in let b := m 1%nat 1%nat / 4 in let c := m 2%nat 2%nat / 4 in
  let w := sqrt (Rmax 0 (1/4 + a + b + c)) in
  let xt := sqrt (Rmax 0 (1/4 + a - b - c)) in
  let yt := sqrt (Rmax 0 (1/4 - a + b - c)) in
  let zt := sqrt (Rmax 0 (1/4 - a - b + c)) in
  Q (if Rlt_dec (m 2%nat 1%nat - m 1%nat 2%nat) 0 then - xt else xt)
    (if Rlt_dec (m 0%nat 2%nat - m 2%nat 0%nat) 0 then - yt else yt)
    (if Rlt_dec (m 1%nat 0%nat - m 0%nat 1%nat) 0 then - zt else zt) w.

(** axis and angle to quaternion, RotationCast.h:113-125 *)
Definition cast_aa_quat (v : aa4) : quat :=
  let s := sin (angle v / 2) in
  Q (vx (axis v) * s) (vy (axis v) * s) (vz (axis v) * s) (cos (angle v / 2)).

(** rotation vector to quaternion, RotationCast.h:127-142 *)
Definition cast_vec_quat (v : vec3) : quat :=
  let a := sqrt (vx v * vx v + vy v * vy v + vz v * vz v) in
  if Rlt_dec a eps10 then Q 0 0 0 1
  else cast_aa_quat (AA (V3 (vx v / a) (vy v / a) (vz v / a)) a).

(** quaternion to axis and angle, RotationCast.h:166-174 *)
Definition cast_quat_aa (q : quat) : option aa4 :=
  let a := 2 * acos (qw q) in
  let d := sqrt (1 - qw q * qw q) in
  if Req_EM_T d 0 then None
  else Some (AA (V3 (qx q / d) (qy q / d) (qz q / d)) a).

(** rotation vector to axis and angle, RotationCast.h:176-186 *)
Definition cast_vec_aa (v : vec3) : aa4 :=
  let a := sqrt (vx v * vx v + vy v * vy v + vz v * vz v) in
  if Rlt_dec a eps10 then AA v3zero 0
  else AA (V3 (vx v / a) (vy v / a) (vz v / a)) a.

(** matrix to axis and angle, RotationCast.h:190-223; [std::acos] outside of [-1,1] is
    NaN, which the test [angle != angle] turns into the zero result *)
Definition cast_mat_aa (m : mat) : option aa4 :=
  let c := (m 0%nat 0%nat + m 1%nat 1%nat + m 2%nat 2%nat - 1) / 2 in
  if Rlt_dec 1 (Rabs c) then Some (AA v3zero 0)
  else if Rlt_dec (acos c) eps10 then Some (AA v3zero 0)
  else
    let p := m 2%nat 1%nat - m 1%nat 2%nat in
    let q := m 0%nat 2%nat - m 2%nat 0%nat in
    let r := m 1%nat 0%nat - m 0%nat 1%nat in
    let d := sqrt (p * p + q * q + r * r) in
    if Req_EM_T d 0 then None else Some (AA (V3 (p / d) (q / d) (r / d)) (acos c)).

(** axis and angle to rotation vector, RotationCast.h:248-259 *)
Definition cast_aa_vec (v : aa4) : vec3 :=
  let d := sqrt (vx (axis v) * vx (axis v) + vy (axis v) * vy (axis v) + vz (axis v) * vz (axis v)) in
  if Rlt_dec d eps10 then v3zero
  else V3 (angle v * vx (axis v) / d) (angle v * vy (axis v) / d) (angle v * vz (axis v) / d).

(** quaternion and matrix to rotation vector, RotationCast.h:261-272 *)
Definition cast_quat_vec (q : quat) : option vec3 := option_map cast_aa_vec (cast_quat_aa q).
Definition cast_mat_vec (m : mat) : option vec3 := option_map cast_aa_vec (cast_mat_aa m).

(** quaternion to matrix, RotationCast.h:300-340 *)
Definition cast_quat_mat (q : quat) : mat :=
  let ww := qw q * qw q in let xx := qx q * qx q in let yy := qy q * qy q in let zz := qz q * qz q in
  let xy := qx q * qy q in let yz := qy q * qz q in let zx := qz q * qx q in
  let wx := qw q * qx q in let wy := qw q * qy q in let wz := qw q * qz q in
  mk33 (ww + xx - yy - zz) (2 * (xy - wz)) (2 * (zx + wy))
       (2 * (xy + wz)) (ww - xx + yy - zz) (2 * (yz - wx))
       (2 * (zx - wy)) (2 * (yz + wx)) (ww - xx - yy + zz).

(** axis and angle to matrix, RotationCast.h:343-374 *)
Definition cast_aa_mat (v : aa4) : mat :=
  let rx := vx (axis v) in let ry := vy (axis v) in let rz := vz (axis v) in
  let c := cos (angle v) in let s := sin (angle v) in let t := 1 - c in
  mk33 (c + rx * rx * t) (rx * ry * t - rz * s) (rz * rx * t + ry * s)
       (rx * ry * t + rz * s) (c + ry * ry * t) (ry * rz * t - rx * s)
       (rz * rx * t - ry * s) (ry * rz * t + rx * s) (c + rz * rz * t).

(** rotation vector to matrix, RotationCast.h:376-380 *)
Definition cast_vec_mat (v : vec3) : mat := cast_aa_mat (cast_vec_aa v).

(** ** Specification vocabulary *)
Definition unit_axis (v : vec3) : Prop := dot3 v v = 1.
Definition trace33 (m : mat) : R := m 0%nat 0%nat + m 1%nat 1%nat + m 2%nat 2%nat.
