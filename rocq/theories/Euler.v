(** Model of the Euler angle accessors of utMath/Quaternion.cpp. *)
From Coq Require Import Reals.
From Verif Require Import Mat Quat.
Open Scope R_scope.

(** C library [atan2]; the origin gives 0 *)
Definition atan2 (y x : R) : R :=
  let r := sqrt (x * x + y * y) in
  if Req_EM_T r 0 then 0
  else if Rle_dec 0 y then acos (x / r) else - acos (x / r).

(** clamping of the sine value, Quaternion.cpp:98-100 *)
Definition clamp1 (s : R) : R :=
  let s := if Rgt_dec s 1 then 1 else s in if Rlt_dec s (-1) then -1 else s.

(** [getEulerAngles()], Quaternion.cpp:85-129.  The result holds the angles about the
    x, y and z axis; the threshold 10e-6 is 1/100000. *)
Definition euler_angles (q : quat) : vec3 :=
  let m := qmat q in
  let ry := asin (clamp1 (- m 2%nat 0%nat)) in
  let cy := cos ry in
  if Rgt_dec (Rabs cy) (1 / 100000) then
    V3 (atan2 (m 2%nat 1%nat / cy) (m 2%nat 2%nat / cy)) ry
       (atan2 (m 1%nat 0%nat / cy) (m 0%nat 0%nat / cy))
  else V3 0 ry (atan2 (- m 0%nat 1%nat) (m 1%nat 1%nat)).

(** [t_EulerSequence], Quaternion.h:233-240 *)
Inductive sequence := XYZ | YZX | ZXY | ZYX | XZY | YXZ.

(** choice of x_, y_, z_ and sign, Quaternion.cpp:145-174 *)
Definition seq_select (s : sequence) (q : quat) : R * R * R * R :=
  match s with
  | XYZ => (qx q, qy q, qz q, -1)
  | YZX => (qy q, qz q, qx q, -1)
  | ZXY => (qz q, qx q, qy q, -1)
  | ZYX => (qz q, qy q, qx q, 1)
  | XZY => (qx q, qz q, qy q, 1)
  | YXZ => (qy q, qx q, qz q, 1)
  end.

(** [getEulerAngles( seq )], Quaternion.cpp:138-203; the components of the result are
    alpha, beta and gamma *)
Definition euler_angles_seq (s : sequence) (q : quat) : vec3 :=
  let '(x, y, z, sign) := seq_select s q in
  let w := qw q in
  let beta := 2 * (w * y + sign * x * z) in
  if Rgt_dec beta (998 / 1000) then V3 (2 * atan2 x w) (PI / 2) 0
  else if Rlt_dec beta (- (998 / 1000)) then V3 (-2 * atan2 x w) (- PI / 2) 0
  else V3 (atan2 (2 * (w * x - sign * y * z)) (1 - 2 * (x * x + y * y))) (asin beta)
          (atan2 (2 * (w * z - sign * x * y)) (1 - 2 * (y * y + z * z))).

(** ** Specification: rotation matrices about the coordinate axes *)
Inductive coord := CX | CY | CZ.
Definition axis_rotation (c : coord) (a : R) : mat :=
  match c with
  | CX => mk33 1 0 0 0 (cos a) (- sin a) 0 (sin a) (cos a)
  | CY => mk33 (cos a) 0 (sin a) 0 1 0 (- sin a) 0 (cos a)
  | CZ => mk33 (cos a) (- sin a) 0 (sin a) (cos a) 0 0 0 1
  end.

(** "rotation about X comes before rotation about Y before rotation about Z",
    Quaternion.h:227-232 *)
Definition seq_axes (s : sequence) : coord * coord * coord :=
  match s with
  | XYZ => (CX, CY, CZ) | YZX => (CY, CZ, CX) | ZXY => (CZ, CX, CY)
  | ZYX => (CZ, CY, CX) | XZY => (CX, CZ, CY) | YXZ => (CY, CX, CZ)
  end.
Definition seq_rotation (s : sequence) (v : vec3) : mat :=
  let '(a, b, c) := seq_axes s in
  mmul 3 (axis_rotation c (vz v)) (mmul 3 (axis_rotation b (vy v)) (axis_rotation a (vx v))).

(** half angle quaternion of a rotation about a coordinate axis *)
Definition axis_quat (c : coord) (a : R) : quat :=
  match c with
  | CX => Q (sin (a / 2)) 0 0 (cos (a / 2))
  | CY => Q 0 (sin (a / 2)) 0 (cos (a / 2))
  | CZ => Q 0 0 (sin (a / 2)) (cos (a / 2))
  end.
