(** Model of Ubitrack::Math::Quaternion and Ubitrack::Math::Pose.
    [double] is idealised as a real number throughout; a result that would be
    infinite or NaN because of a division by zero is the outcome [None]. *)
From Coq Require Import Reals Bool.
From Verif Require Import Mat.
Open Scope R_scope.

(** ** Vectors with three entries (Vector.h, Vector< double, 3 >) *)
Record vec3 := V3 { vx : R; vy : R; vz : R }.
Definition v3add (a b : vec3) := V3 (vx a + vx b) (vy a + vy b) (vz a + vz b).
Definition v3opp (a : vec3) := V3 (- vx a) (- vy a) (- vz a).
Definition v3scale (c : R) (a : vec3) := V3 (c * vx a) (c * vy a) (c * vz a).
Definition v3zero := V3 0 0 0.

(** specification vocabulary *)
Definition dot3 (a b : vec3) : R := vx a * vx b + vy a * vy b + vz a * vz b.
Definition cross3 (a b : vec3) : vec3 :=
  V3 (vy a * vz b - vz a * vy b) (vz a * vx b - vx a * vz b) (vx a * vy b - vy a * vx b).

(** [norm_2] of boost::numeric::ublas *)
Definition norm3 (a : vec3) : R := sqrt (vx a * vx a + vy a * vy a + vz a * vz a).

(** ** Quaternions *)

(** Members a, b, c, d of boost::math::quaternion are w, x, y, z; the constructor
    takes x, y, z, w (Quaternion.h:115-117). *)
Record quat := Q { qx : R; qy : R; qz : R; qw : R }.

(** default constructor, Quaternion.h:72-74 *)
Definition qone : quat := Q 0 0 0 1.

(** boost::math::quaternion [operator*] (Hamilton product), [conj]
    (Quaternion.h:165-167 and 156-159), [norm] (the squared length) and [abs]. *)
Definition qmul (p q : quat) : quat :=
  Q (qw p * qx q + qx p * qw q + qy p * qz q - qz p * qy q)
    (qw p * qy q - qx p * qz q + qy p * qw q + qz p * qx q)
    (qw p * qz q + qx p * qy q - qy p * qx q + qz p * qw q)
    (qw p * qw q - qx p * qx q - qy p * qy q - qz p * qz q).
Definition qconj (q : quat) : quat := Q (- qx q) (- qy q) (- qz q) (qw q).
Definition qopp (q : quat) : quat := Q (- qx q) (- qy q) (- qz q) (- qw q).
Definition qnorm (q : quat) : R := qx q * qx q + qy q * qy q + qz q * qz q + qw q * qw q.
Definition qadd (p q : quat) : quat := Q (qx p + qx q) (qy p + qy q) (qz p + qz q) (qw p + qw q).
Definition qsub (p q : quat) : quat := Q (qx p - qx q) (qy p - qy q) (qz p - qz q) (qw p - qw q).
Definition qscale (c : R) (q : quat) : quat := Q (c * qx q) (c * qy q) (c * qz q) (c * qw q).
Definition qdot (p q : quat) : R := qx p * qx q + qy p * qy q + qz p * qz q + qw p * qw q.

(** [normalize], Quaternion.h:147-150 *)
Definition qnormalize (q : quat) : option quat :=
  let n := sqrt (qnorm q) in
  if Req_EM_T n 0 then None
  else Some (Q (qx q / n) (qy q / n) (qz q / n) (qw q / n)).

(** [operator*( Vector< double, 3 > )], Quaternion.cpp:207-226 *)
Definition qrot (q : quat) (v : vec3) : vec3 :=
  let xy := qx q * qy q in let xz := qx q * qz q in let yz := qy q * qz q in
  let ww := qw q * qw q in let wx := qw q * qx q in let wy := qw q * qy q in
  let wz := qw q * qz q in
  V3 (vx v * (2 * (qx q * qx q + ww) - 1) + vy v * 2 * (xy - wz) + vz v * 2 * (wy + xz))
     (vx v * 2 * (xy + wz) + vy v * (2 * (qy q * qy q + ww) - 1) + vz v * 2 * (yz - wx))
     (vx v * 2 * (xz - wy) + vy v * 2 * (wx + yz) + vz v * (2 * (qz q * qz q + ww) - 1)).

(** 3x3 matrix given by its entries *)
Definition mk33 (a b c d e f g h i : R) : mat := fun r s =>
  match r, s with
  | 0, 0 => a | 0, 1 => b | 0, 2 => c
  | 1, 0 => d | 1, 1 => e | 1, 2 => f
  | 2, 0 => g | 2, 1 => h | 2, 2 => i
  | _, _ => 0%R
  end%nat.

(** [toMatrix], Quaternion.h:289-318 *)
Definition qmat (q : quat) : mat :=
  let X := qx q in let Y := qy q in let Z := qz q in let W := qw q in
  let xx := X * X in let xy := X * Y in let xz := X * Z in let xw := X * W in
  let yy := Y * Y in let yz := Y * Z in let yw := Y * W in
  let zz := Z * Z in let zw := Z * W in
  mk33 (1 - 2 * (yy + zz)) (2 * (xy - zw)) (2 * (xz + yw))
       (2 * (xy + zw)) (1 - 2 * (xx + zz)) (2 * (yz - xw))
       (2 * (xz - yw)) (2 * (yz + xw)) (1 - 2 * (xx + yy)).

Definition Rgtb (x y : R) : bool := if Rgt_dec x y then true else false.

(** [Quaternion( Matrix )], Quaternion.cpp:35-74.  The divisions by S inside the
    selected branch are left as real divisions; that S is nonzero is proved for
    every rotation matrix. *)
Definition quat_of_mat (m : mat) : option quat :=
  let T := 1 + m 0%nat 0%nat + m 1%nat 1%nat + m 2%nat 2%nat in
  let '(X, Y, Z, W) :=
    if Rgtb T 0 then
      let S := sqrt T * 2 in
      ((m 1%nat 2%nat - m 2%nat 1%nat) / S, (m 2%nat 0%nat - m 0%nat 2%nat) / S,
       (m 0%nat 1%nat - m 1%nat 0%nat) / S, 1 / 4 * S)
    else if Rgtb (m 0%nat 0%nat) (m 1%nat 1%nat) && Rgtb (m 0%nat 0%nat) (m 2%nat 2%nat) then
      let S := sqrt (1 + m 0%nat 0%nat - m 1%nat 1%nat - m 2%nat 2%nat) * 2 in
      (1 / 4 * S, (m 0%nat 1%nat + m 1%nat 0%nat) / S,
       (m 2%nat 0%nat + m 0%nat 2%nat) / S, (m 1%nat 2%nat - m 2%nat 1%nat) / S)
    else if Rgtb (m 1%nat 1%nat) (m 2%nat 2%nat) then
      let S := sqrt (1 + m 1%nat 1%nat - m 0%nat 0%nat - m 2%nat 2%nat) * 2 in
      ((m 0%nat 1%nat + m 1%nat 0%nat) / S, 1 / 4 * S,
       (m 1%nat 2%nat + m 2%nat 1%nat) / S, (m 2%nat 0%nat - m 0%nat 2%nat) / S)
    else
      let S := sqrt (1 + m 2%nat 2%nat - m 0%nat 0%nat - m 1%nat 1%nat) * 2 in
      ((m 2%nat 0%nat + m 0%nat 2%nat) / S, (m 1%nat 2%nat + m 2%nat 1%nat) / S,
       1 / 4 * S, (m 0%nat 1%nat - m 1%nat 0%nat) / S) in
  qnormalize (Q X Y Z (- W)).

(** [Quaternion( axis, angle )], Quaternion.h:97-106 *)
Definition quat_of_axis_angle (axis : vec3) (angle : R) : option quat :=
  let length := norm3 axis in
  if Req_EM_T length 0 then None
  else
    let f := sin (angle / 2) / length in
    Some (Q (vx axis * f) (vy axis * f) (vz axis * f) (cos (angle / 2))).

(** [Quaternion( x, y, z )] from three Euler angles, Quaternion.h:76-90 *)
Definition quat_of_euler (x y z : R) : quat :=
  let c1 := cos (y / 2) in let s1 := sin (y / 2) in
  let c2 := cos (x / 2) in let s2 := sin (x / 2) in
  let c3 := cos (z / 2) in let s3 := sin (z / 2) in
  Q (c1 * c2 * s3 + s1 * s2 * c3) (s1 * c2 * c3 + c1 * s2 * s3)
    (c1 * s2 * c3 - s1 * c2 * s3) (c1 * c2 * c3 - s1 * s2 * s3).

(** [toAxisAngle], Quaternion.h:323-340 *)
Definition to_axis_angle (q : quat) : vec3 * R :=
  let angle := 2 * acos (qw q) in
  let s := sqrt (1 - qw q * qw q) in
  if Rlt_dec s (1 / 1000) then (V3 (qx q) (qy q) (qz q), angle)
  else (V3 (qx q / s) (qy q / s) (qz q / s), angle).

(** [angle], Quaternion.h:179-180 *)
Definition qangle (q : quat) : R := 2 * acos (if Rgt_dec (qw q) 0 then qw q else - qw q).

(** 1e-12, the threshold of the logarithm functions *)
Definition eps12 : R := / 10 ^ 12.

(** [toLogarithm], Quaternion.cpp:229-247 *)
Definition to_log (q : quat) : vec3 :=
  let s := if Rge_dec (qw q) 0 then 1 else -1 in
  let omega := if Rlt_dec (qw q * s) 1 then 2 * acos (qw q * s) else 0 in
  let imagLen := sqrt (qx q * qx q + qy q * qy q + qz q * qz q) in
  if Rgt_dec imagLen eps12 then
    let s' := s * omega / imagLen in V3 (qx q * s') (qy q * s') (qz q * s')
  else V3 0 0 0.

(** [fromLogarithm], Quaternion.cpp:250-260 *)
Definition from_log (v : vec3) : quat :=
  let omega := norm3 v in
  if Rgt_dec omega eps12 then
    let s := sin (omega / 2) / omega in
    Q (s * vx v) (s * vy v) (s * vz v) (cos (omega / 2))
  else Q 0 0 0 1.

(** [negateIfCloser], Quaternion.h:213-220 *)
Definition negate_if_closer (q ref : quat) : quat :=
  if Rge_dec (qdot q ref) 0 then q else qopp q.

(** [slerp], Quaternion.cpp:275-325.  [boost::math::norm] is the squared length. *)
Definition slerp (a b : quat) (t : R) : option quat :=
  let x := if Rgt_dec (qnorm (qsub a b)) 2 then qopp a else a in
  let dotp := qdot x b in
  if Rgt_dec dotp (9999 / 10000) then
    qnormalize (qadd (qscale (1 - t) x) (qscale t b))
  else
    let omega := acos dotp in
    let sinO := sin omega in
    if Req_EM_T sinO 0 then None
    else qnormalize (qadd (qscale (sin ((1 - t) * omega) / sinO) x)
                          (qscale (sin (t * omega) / sinO) b)).

(** ** Poses *)

(** Pose.h:59-99 *)
Record pose := P { rot : quat; tra : vec3 }.
(** default constructor, Pose.h:84-87 *)
Definition pone : pose := P qone v3zero.
(** [operator~], Pose.cpp:40-44 *)
Definition pinv (p : pose) : pose :=
  let rinv := qconj (rot p) in P rinv (v3opp (qrot rinv (tra p))).
(** [operator*( Pose )], Pose.cpp:46-52 *)
Definition pmul (p q : pose) : pose :=
  P (qmul (rot p) (rot q)) (v3add (qrot (rot p) (tra q)) (tra p)).
(** [operator*( Vector )], Pose.cpp:54-57 *)
Definition papp (p : pose) (x : vec3) : vec3 := v3add (qrot (rot p) x) (tra p).
(** [scalePose], Pose.h:113-120 *)
Definition pscale (p : pose) (c : R) : pose :=
  P (rot p) (V3 (vx (tra p) * c) (vy (tra p) * c) (vz (tra p) * c)).

(** [toVector] and [fromVector], Pose.h:140-156 with Quaternion.h:253-269 *)
Definition pose_to_vector (p : pose) : vect := fun i =>
  match i with
  | 0 => vx (tra p) | 1 => vy (tra p) | 2 => vz (tra p)
  | 3 => qx (rot p) | 4 => qy (rot p) | 5 => qz (rot p) | 6 => qw (rot p)
  | _ => 0%R
  end%nat.
Definition pose_of_vector (v : vect) : pose :=
  P (Q (v 3%nat) (v 4%nat) (v 5%nat) (v 6%nat)) (V3 (v 0%nat) (v 1%nat) (v 2%nat)).

(** [Matrix( Pose )] with M = 4, Matrix.h:154-174 (and 130-148); the 3x4 matrix
    consists of its first three rows. *)
Definition pose_mat (p : pose) : mat := fun i j =>
  match i, j with
  | 0, 3 => vx (tra p) | 1, 3 => vy (tra p) | 2, 3 => vz (tra p)
  | 3, 3 => 1%R | 3, _ => 0%R
  | _, _ => qmat (rot p) i j
  end%nat.

(** [Pose( Matrix )], Pose.cpp:31-38 *)
Definition pose_of_mat (m : mat) : option pose :=
  match quat_of_mat m with
  | None => None
  | Some q => Some (P q (V3 (m 0%nat 3%nat) (m 1%nat 3%nat) (m 2%nat 3%nat)))
  end.

(** [linearInterpolate( Vector )], Vector.h:326-332 *)
Definition v3lerp (x y : vec3) (t : R) : vec3 := v3add (v3scale (1 - t) x) (v3scale t y).
(** [linearInterpolate( Pose )], Pose.cpp:79-85 *)
Definition pose_lerp (x y : pose) (t : R) : option pose :=
  match slerp (rot x) (rot y) t with
  | None => None
  | Some q => Some (P q (v3lerp (tra x) (tra y) t))
  end.

(** ** Specification vocabulary *)

Definition unit (q : quat) : Prop := qnorm q = 1.
(** a rigid motion: the pose's quaternion has length one *)
Definition rigid (p : pose) : Prop := unit (rot p).
(** the two quaternions represent the same rotation *)
Definition same_rotation (p q : quat) : Prop := forall v, qrot p v = qrot q v.
(** orthogonal with determinant one *)
Definition det33 (m : mat) : R :=
  m 0%nat 0%nat * (m 1%nat 1%nat * m 2%nat 2%nat - m 1%nat 2%nat * m 2%nat 1%nat)
  - m 0%nat 1%nat * (m 1%nat 0%nat * m 2%nat 2%nat - m 1%nat 2%nat * m 2%nat 0%nat)
  + m 0%nat 2%nat * (m 1%nat 0%nat * m 2%nat 1%nat - m 1%nat 1%nat * m 2%nat 0%nat).
Definition rotation (m : mat) : Prop :=
  meq 3 3 (mmul 3 m (tr m)) eye /\ meq 3 3 (mmul 3 (tr m) m) eye /\ det33 m = 1.
(** matrix times 3-vector *)
Definition mv3 (m : mat) (v : vec3) : vec3 :=
  V3 (m 0%nat 0%nat * vx v + m 0%nat 1%nat * vy v + m 0%nat 2%nat * vz v)
     (m 1%nat 0%nat * vx v + m 1%nat 1%nat * vy v + m 1%nat 2%nat * vz v)
     (m 2%nat 0%nat * vx v + m 2%nat 1%nat * vy v + m 2%nat 2%nat * vz v).
(** homogeneous coordinates of a point *)
Definition hom (v : vec3) : vect := fun i =>
  match i with 0 => vx v | 1 => vy v | 2 => vz v | _ => 1%R end%nat.
