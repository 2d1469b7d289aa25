(** Models of the function objects with analytic Jacobians: utMath/Optimization/Function/*,
    utAlgorithm/Function/*.  Vectors and matrices are functions of their indices; [double] is a
    real number.  Divisions are real divisions: the theorems carry the condition that the
    divisor is not zero. *)
From Coq Require Import Reals List Arith Bool.
Import ListNotations.
From Coquelicot Require Import Coquelicot.
From Verif Require Import Mat Quat.
Open Scope R_scope.

(** ** Lens distortion *)

(** radialDistortion, RadialDistortion.h:40-47 *)
Definition distort (p d : vect) : vect :=
  let r2 := p 0%nat * p 0%nat + p 1%nat * p 1%nat in
  let s := 1 + d 0%nat * r2 + d 1%nat * r2 * r2 in
  vlist [ p 0%nat * s + (2 * d 2%nat * p 0%nat * p 1%nat + d 3%nat * (r2 + 2 * p 0%nat * p 0%nat));
          p 1%nat * s + (2 * d 3%nat * p 0%nat * p 1%nat + d 2%nat * (r2 + 2 * p 1%nat * p 1%nat)) ].

(** RadialDistortionWrtP::jacobian, RadialDistortion.h:101-126 *)
Definition distort_jac_p (d p : vect) : mat :=
  let x := p 0%nat in let y := p 1%nat in
  let t331 := x * x in let t332 := y * y in let t340 := d 2%nat * x in
  let t341 := t331 + t332 in let t342 := 2 * d 1%nat * t341 in let t343 := d 0%nat + t342 in
  let t344 := x * t343 in let t345 := d 3%nat + t344 in let t346 := y * t345 in
  let t347 := t340 + t346 in let t348 := 2 * t347 in let t328 := t331 * t331 in
  let t333 := 6 * d 1%nat * t331 * t332 in let t334 := t332 * t332 in
  mlist [ [ 1 + 6 * d 3%nat * x + 2 * d 2%nat * y + 5 * d 1%nat * t328
              + d 0%nat * (3 * t331 + t332) + t333 + d 1%nat * t334; t348 ];
          [ t348; 1 + 2 * d 3%nat * x + 6 * d 2%nat * y + d 1%nat * t328
              + d 0%nat * (t331 + 3 * t332) + t333 + 5 * d 1%nat * t334 ] ].

(** RadialDistortionWrtD::jacobian, RadialDistortion.h:184-202 *)
Definition distort_jac_d (p d : vect) : mat :=
  let x := p 0%nat in let y := p 1%nat in
  let t380 := x * x in let t381 := y * y in let t382 := t380 + t381 in
  let t384 := t382 * t382 in let t386 := 2 * x * y in
  mlist [ [ x * t382; x * t384; t386; 3 * t380 + t381 ];
          [ y * t382; y * t384; t380 + 3 * t381; t386 ] ].

(** CameraIntrinsicsMultiplication, utAlgorithm/Function/CameraIntrinsicsMultiplication.h:64-100 *)
Definition intrinsics_mul (p k : vect) : vect :=
  vlist [ - (k 0%nat * p 0%nat + k 1%nat * p 1%nat + k 2%nat); - (k 3%nat * p 1%nat + k 4%nat) ].
Definition intrinsics_mul_jac (p k : vect) : mat :=
  mlist [ [ - p 0%nat; - p 1%nat; -1; 0; 0 ]; [ 0; 0; 0; - p 1%nat; -1 ] ].

(** ** Dehomogenization and normalisation *)

(** utAlgorithm/Function/Dehomogenization.h:54-95; [n] is N - 1 *)
Definition dehom (n : nat) (v : vect) : vect := fun i => v i * (1 / v n).
Definition dehom_jac (n : nat) (v : vect) : mat := fun i j =>
  let tz := 1 / v n in
  if (j =? n)%nat then - v i * (tz * tz) else eye i j * tz.

(** norm_2, and VectorNormalize.h:56-98 *)
Definition norm (n : nat) (v : vect) : R := sqrt (sum n (fun k => v k * v k)).
Definition vnormalize (n : nat) (v : vect) : vect := fun i => v i * (1 / norm n v).
Definition vnormalize_jac (n : nat) (v : vect) : mat :=
  let nm := norm n v in let normSq := nm * nm in let f := 1 / (normSq * nm) in
  let below i j := - v i * v j * f in
  fun i j => if (i =? j)%nat then (normSq - v i * v i) * f
             else if (j <? i)%nat then below i j else below j i.

(** ** Rotation of a point by a quaternion given as a 4-vector *)
Definition quat_of (v : vect) (b : nat) : quat := Q (v b) (v (b + 1)%nat) (v (b + 2)%nat) (v (b + 3)%nat).
Definition vec_of (v : vect) (b : nat) : vec3 := V3 (v b) (v (b + 1)%nat) (v (b + 2)%nat).
Definition of3 (v : vec3) : vect := vlist [ vx v; vy v; vz v ].

(** QuaternionRotation::evaluate, utAlgorithm/Function/QuaternionRotation.h:66-70, and
    QuaternionVectorRotation::evaluate, utMath/Optimization/Function/QuaternionVectorRotation.h:51-66 *)
Definition quat_rotate (v q : vect) : vect := of3 (qrot (quat_of q 0) (vec_of v 0)).
(** QuaternionRotation::jacobian, QuaternionRotation.h:88-136 *)
Definition quat_rotate_jac (v q : vect) : mat :=
  let qx := q 0%nat in let qy := q 1%nat in let qz := q 2%nat in let qw := q 3%nat in
  let x := v 0%nat in let y := v 1%nat in let z := v 2%nat in
  let t2 := qx * y * 2 in let t3 := qw * z * 2 in let t4 := qx * x * 2 in let t5 := qy * y * 2 in
  let t6 := qz * z * 2 in let t7 := t4 + t5 + t6 in let t8 := qw * x * 2 in let t9 := qy * z * 2 in
  let t15 := qz * y * 2 in let t10 := t8 + t9 - t15 in let t11 := qx * z * 2 in let t12 := qz * x * 2 in
  let t13 := qw * y * 2 in let t14 := - t11 + t12 + t13 in let t16 := qy * x * 2 in
  mlist [ [ t7; t2 + t3 - qy * x * 2; t11 - qz * x * 2 - qw * y * 2; t10 ];
          [ - t2 - t3 + t16; t7; t10; t14 ];
          [ t14; - t8 - t9 + t15; t7; t2 + t3 - t16 ] ].
(** QuaternionVectorRotation::jacobian, first matrix, QuaternionVectorRotation.h:88-126 *)
Definition quat_vec_jac_q (q v : vect) : mat :=
  let q0 := q 0%nat in let q1 := q 1%nat in let q2 := q 2%nat in let q3 := q 3%nat in
  let v0 := v 0%nat in let v1 := v 1%nat in let v2 := v 2%nat in
  let t196 := 2 * q0 * v0 + 2 * q1 * v1 + 2 * q2 * v2 in
  let t209 := 2 * v0 * q3 + - 2 * v1 * q2 + 2 * q1 * v2 in
  let t217 := 2 * v0 * q2 + 2 * v1 * q3 + - 2 * q0 * v2 in
  let t201 := - 2 * v0 * q1 + 2 * q0 * v1 + 2 * v2 * q3 in
  mlist [ [ t196; t201; - 2 * v0 * q2 + 2 * q0 * v2 - 2 * v1 * q3; t209 ];
          [ 2 * v0 * q1 - 2 * q0 * v1 - 2 * v2 * q3; t196; t209; t217 ];
          [ t217; 2 * v1 * q2 - 2 * q1 * v2 - 2 * v0 * q3; t196; t201 ] ].
(** second matrix, QuaternionVectorRotation.h:128-150 *)
Definition quat_vec_jac_v (q v : vect) : mat :=
  let q0 := q 0%nat in let q1 := q 1%nat in let q2 := q 2%nat in let q3 := q 3%nat in
  let t341 := - 2 * (q2 * q2) in let t357 := - 2 * (q0 * q0) in let t338 := - 2 * (q1 * q1) in
  mlist [ [ 1 + t338 + t341; 2 * q1 * q0 - 2 * q2 * q3; 2 * (q2 * q0 + q1 * q3) ];
          [ 2 * (q1 * q0 + q2 * q3); 1 + t341 + t357; 2 * q1 * q2 - 2 * q0 * q3 ];
          [ 2 * q2 * q0 - 2 * q1 * q3; 2 * (q1 * q2 + q0 * q3); 1 + t338 + t357 ] ].

(** QuaternionRotationError::jacobian, QuaternionRotationError.h:66-96 *)
Definition quat_error_jac (v q : vect) : mat :=
  let t203 := q 1%nat in let t201 := v 1%nat in let t200 := q 2%nat in let t204 := v 2%nat in
  let t208 := q 3%nat in let t199 := q 0%nat in let t215 := v 0%nat in
  let t219 := 2 * (t203 * t203) in let t221 := 2 * (t200 * t200) in
  let t222 := - 1 + t219 + t221 in let t210 := t200 * t204 in let t233 := 2 * (t199 * t199) in
  let t234 := - 1 + t221 + t233 in let t241 := t199 * t215 in let t209 := t201 * t203 in
  mlist [ [ 4 * (t199 * (t200 * t201 - t203 * t204) + t208 * (t209 + t210));
            - 2 * (2 * t199 * t200 * t215 + 2 * t203 * t208 * t215 + t204 * t222);
            4 * t199 * t203 * t215 - 4 * t200 * t208 * t215 + 2 * t201 * t222 ];
          [ 4 * t200 * t201 * t203 - 4 * t199 * t201 * t208 + 2 * t204 * t234;
            4 * (t203 * (t199 * t204 - t200 * t215) + t208 * (t210 + t241));
            - 2 * (2 * t201 * (t199 * t203 + t200 * t208) + t215 * t234) ];
          [ - 2 * (2 * t204 * (t200 * t203 + t199 * t208) + t201 * (- 1 + t219 + t233));
            4 * t204 * (t199 * t200 - t203 * t208) + t215 * (- 2 + 4 * (t203 * t203) + 4 * (t199 * t199));
            4 * (t200 * (- (t199 * t201) + t203 * t215) + t208 * (t209 + t241)) ] ].

(** ** Exponential map *)

(** LieRotation::evaluate, utAlgorithm/Function/LieRotation.h:64-68 *)
Definition lie_rotate (v r : vect) : vect := of3 (qrot (from_log (vec_of r 0)) (vec_of v 0)).
(** LieRotation::jacobian, small rotations, LieRotation.h:98-110 *)
Definition lie_jac_small (v : vect) : mat :=
  mlist [ [ 0; v 2%nat; - v 1%nat ]; [ - v 2%nat; 0; v 0%nat ]; [ v 1%nat; - v 0%nat; 0 ] ].
(** LieRotation::jacobian, general case, LieRotation.h:113-206 (and 89-96) *)
Definition lie_jac_general (v r : vect) : mat :=
  let t51944 := r 0%nat in let t51945 := t51944 * t51944 in let t51946 := r 1%nat in
  let t51947 := t51946 * t51946 in let t51948 := r 2%nat in let t51949 := t51948 * t51948 in
  let t51950 := t51945 + t51947 + t51949 in let t51952 := sqrt(t51950) in let t51953 := cos(t51952) in
  let t51955 := v 1%nat in let t51957 := v 2%nat in let t51963 := t51946 * t51955 in
  let t51964 := t51948 * t51957 in let t51965 := t51963 + t51964 in let t51962 := t51947 + t51949 in
  let t51967 := sin(t51952) in let t51971 := v 0%nat in let t51956 := - (t51948 * t51955) in
  let t51958 := t51946 * t51957 in let t51951 := 1 / (t51950 * t51950) in
  let t51954 := t51944 * t51944 * t51944 in let t51959 := t51956 + t51958 in let t52004 := - t51949 in
  let t52001 := 2 * t51971 in let t52002 := t51956 + t51958 + t52001 in let t51961 := - 1 + t51953 in
  let t52058 := - (t51946 * t51971) in let t52015 := t51948 * t51948 * t51948 in
  let t51984 := t51946 * t51946 * t51946 in let t52022 := t51944 * t51971 in let t52023 := t51963 + t52022 in
  let t52024 := - 2 * t51948 * t52023 in let t52025 := t51945 + t51947 + t52004 in
  let t52026 := t51957 * t52025 in let t52027 := t52024 + t52026 in
  let t52045 := (t51944 * t51944) * (t51944 * t51944) in let t52042 := - (t51952 * t51955 * t51967) in
  let t52083 := - (t51948 * t51971) in let t52090 := t51948 * t51971 in
  let t52048 := t51952 * t51957 * t51967 in let t52059 := t51946 * t51952 * t51967 * t51971 in
  let t51988 := t51946 * t51948 * t51952 * t51955 * t51967 in
  let t52110 := t51944 * t51946 * t51948 * t51952 * t51967 * t51971 in
  let t51974 := - (t51949 * t51952 * t51967 * t51971) in let t51992 := - 2 * t51944 * t51946 * t51971 in
  let t51993 := t51945 * t51955 in let t51994 := - (t51947 * t51955) in let t51995 := t51949 * t51955 in
  let t51996 := - 2 * t51946 * t51948 * t51957 in let t51997 := t51992 + t51993 + t51994 + t51995 + t51996 in
  let t52139 := t51955 * t51962 in let t52067 := t51954 * t51971 in let t52191 := t51956 + t51971 in
  let t52167 := t51948 * t51955 in let t52198 := t51955 + t52090 in
  let t52007 := 2 * t51946 * t51948 * t51957 in
  mlist [
   [ t51951 * (t51953 * t51954 * t51959 - t51961 * t51962 * t51965 + t51945 * t51965 * (- 1 + t51953 +
       t51952 * t51967) + t51944 * (t51948 * t51952 * t51955 * t51967 - t51946 * t51952 * t51957 * t51967 +
       t51953 * t51962 * (t51956 + t51958 - 2 * t51971) + 2 * t51962 * t51971 - t51947 * t51952 * t51967 *
       t51971 + t51974));
     t51951 * (t51944 * t51947 * t51952 * t51955 * t51967 + t51945 * t51952 * t51957 * t51967 + t51944 *
       t51946 * t51948 * t51952 * t51957 * t51967 + t51949 * t51952 * t51957 * t51967 - t51946 * t51949 *
       t51952 * t51967 * t51971 - t51952 * t51967 * t51971 * t51984 + t51988 + t51944 * t51997 + t51953 * (-
       (t51954 * t51955) + t51946 * t51959 * t51962 + t51945 * t51946 * t52002 + t51944 * (t51955 * (t51947
       + t52004) + t52007)));
     t51951 * (- (t51945 * t51952 * t51955 * t51967) - t51947 * t51952 * t51955 * t51967 + t51944 * t51946
       * t51948 * t51952 * t51955 * t51967 - t51946 * t51948 * t51952 * t51957 * t51967 + t51944 * t51949 *
       t51952 * t51957 * t51967 - t51947 * t51948 * t51952 * t51967 * t51971 + t51953 * (- (t51954 * t51957)
       + t51944 * (2 * t51946 * t51948 * t51955 - t51947 * t51957 + t51949 * t51957) + t51948 * t51959 *
       t51962 + t51945 * t51948 * t52002) - t51952 * t51967 * t51971 * t52015 + t51944 * t52027) ];
   [ t51951 * (t51944 * (2 * t51946 * t51961 * t51965 - t51949 * t51952 * t51955 * t51967 + t51946 *
       t51948 * t51952 * t51957 * t51967 + t51948 * t51953 * t51962 * t51971 - t51948 * t51952 * t51967 *
       t51971) + t51954 * (t51948 * t51953 * t51971 + t52042) - t51953 * t51957 * t52045 - t51962 * (t51946
       * t51961 * t51971 + t52048) + t51945 * (t52058 - t51953 * (t51957 * t51962 + t52058) + t52059));
     t51951 * (2 * t51945 * t51946 * t51955 + 2 * t51946 * t51949 * t51955 + t51945 * t51948 * t51957 -
       t51947 * t51948 * t51957 - t51945 * t51946 * t51952 * t51955 * t51967 - t51946 * t51949 * t51952 *
       t51955 * t51967 + t51944 * t51946 * t51952 * t51957 * t51967 + t51947 * t51948 * t51952 * t51957 *
       t51967 - t51944 * t51947 * t51971 + t51944 * t51949 * t51971 + t51944 * t51947 * t51952 * t51967 *
       t51971 - t51946 * t51948 * t51952 * t51967 * t51971 + t51957 * t52015 + t52067 - t51953 * (t51954 *
       (t51958 + t51971) + t51944 * (t51946 * t51957 * t51962 + (- t51947 + t51949) * t51971) + t51945 *
       (t51964 + t51946 * (2 * t51955 + t52083)) - t51948 * (t51947 * t51957 - t51949 * t51957 + t51971 *
       t51984 + t51946 * t51948 * (- 2 * t51955 + t52090))));
     t51951 * (- (t51945 * t51948 * t51952 * t51955 * t51967) + t51944 * t51948 * t51952 * t51957 * t51967
       + t51946 * t51949 * t51952 * t51957 * t51967 + t51945 * t51952 * t51967 * t51971 + t51947 * t51952 *
       t51967 * t51971 - t51952 * t51955 * t51967 * t52015 + t51953 * (- (t51957 * (t51945 * t51946 - t51946
       * t51949 + t51948 * t51954 + t51944 * t51948 * t51962 + t51984)) + t51948 * (2 * t51947 * t51955 +
       t51971 * (2 * t51944 * t51946 + (t51945 + t51947) * t51948 + t52015))) + t51946 * t52027 + t52110) ];
   [ t51951 * (- (t51962 * (t51948 * t51961 * t51971 + t52042)) + t51953 * t51955 * t52045 - t51954 *
       (t51946 * t51953 * t51971 + t52048) + t51944 * (2 * t51948 * t51961 * t51965 - t51947 * t51952 *
       t51957 * t51967 - t51946 * t51953 * t51962 * t51971 + t51988 + t52059) + t51945 * (t51948 * t51952 *
       t51967 * t51971 + t52083 + t51953 * (t52090 + t52139)));
     t51951 * (- (t51944 * t51946 * t51952 * t51955 * t51967) + t51947 * t51948 * t51952 * t51955 * t51967
       - t51945 * t51946 * t51952 * t51957 * t51967 - t51945 * t51952 * t51967 * t51971 + t51974 - t51952 *
       t51957 * t51967 * t51984 + t51948 * t51997 + t52110 + t51953 * (t51946 * t51954 * t51955 + 2 * t51946
       * t51949 * t51957 - t51955 * t52015 + t51947 * t51948 * (t51955 + t52083) + t51944 * t51946 * (2 *
       t51948 * t51971 + t52139) - t51945 * (t51947 * t51971 + t52167) - t51971 * (t51946 * t51946) *
       (t51946 * t51946)));
     t51951 * (t51945 * t51946 * t51955 - t51946 * t51949 * t51955 + 2 * t51945 * t51948 * t51957 + 2 *
       t51947 * t51948 * t51957 - t51944 * t51948 * t51952 * t51955 * t51967 + t51946 * t51949 * t51952 *
       t51955 * t51967 - t51945 * t51948 * t51952 * t51957 * t51967 - t51947 * t51948 * t51952 * t51957 *
       t51967 + t51944 * t51947 * t51971 - t51944 * t51949 * t51971 + t51946 * t51948 * t51952 * t51967 *
       t51971 + t51944 * t51949 * t51952 * t51967 * t51971 + t51955 * t51984 + t52067 - t51953 * (t51954 *
       t52191 + t51944 * (- (t51949 * (t51971 + t52167)) + t51947 * t52191) + t51945 * (2 * t51948 * t51957
       + t51946 * t52198) + t51946 * (t52007 + t51949 * (- t51955 + t52090) + t51947 * t52198))) ] ].
Definition lie_jac (v r : vect) : mat :=
  if Rlt_dec (sqrt (r 0%nat * r 0%nat + r 1%nat * r 1%nat + r 2%nat * r 2%nat)) (/ 10 ^ 6)
  then lie_jac_small v else lie_jac_general v r.

(** ** Hand-eye rotation, utAlgorithm/Function/RotHecFunction.h *)

(** RotHecMeasurement::evaluateWithJacobian, RotHecFunction.h:56-84 *)
Definition to4 (q : quat) : vect := vlist [ qx q; qy q; qz q; qw q ].
Definition rothec (a b : quat) (x : vect) : vect :=
  to4 (qsub (qmul a (quat_of x 0)) (qmul (quat_of x 0) b)).
Definition rothec_jac (a b : quat) : mat := mlist [
  [ qw a - qw b; - qz a - qz b; qy a + qy b; qx a - qx b ];
  [ qz a + qz b; qw a - qw b; - qx a - qx b; qy a - qy b ];
  [ - qy a - qy b; qx a + qx b; qw a - qw b; qz a - qz b ];
  [ - qx a + qx b; - qy a + qy b; - qz a + qz b; qw a - qw b ] ].
(** RotHecCombine::jacobian, RotHecFunction.h:108-132: Jacobians with respect to a and b *)
Definition rothec_jac_a (x : quat) : mat := mlist [
  [ qw x; qz x; - qy x; qx x ]; [ - qz x; qw x; qx x; qy x ];
  [ qy x; - qx x; qw x; qz x ]; [ - qx x; - qy x; - qz x; qw x ] ].
Definition rothec_jac_b (x : quat) : mat := mopp (rothec_jac_a x).

(** ** Projections *)

(** SinglePointMultiProjection, utAlgorithm/Function/SinglePointMultiProjection.h:85-137, with
    ProjectPoint and TransformPoint for a 3x4 matrix and a 3-vector *)
Definition hom_transform (P : mat) (v : vect) : vect := fun i =>
  P i 0%nat * v 0%nat + P i 1%nat * v 1%nat + P i 2%nat * v 2%nat + P i 3%nat.
Definition single_point (Ps : nat -> mat) (v : vect) : vect := fun k =>
  let P := Ps (k / 2)%nat in
  let p := hom_transform P v in p (k mod 2)%nat / p 2%nat.
Definition single_point_jac (Ps : nat -> mat) (v : vect) : mat := fun k c =>
  let P := Ps (k / 2)%nat in
  let p := hom_transform P v in
  let w := 1 / (p 2%nat * p 2%nat) in
  P (k mod 2)%nat c / p 2%nat - P 2%nat c * (w * p (k mod 2)%nat).

(** MultiplePointProjection, utAlgorithm/Function/MultiplePointProjection.h:82-150: translation in
    0..2, quaternion in 3..6 *)
Definition pose_point (p input : vect) : vect := fun i =>
  mvec 3 (qmat (quat_of input 3)) p i + input i.
Definition point_projection (cam : mat) (p input : vect) : vect :=
  dehom 2 (mvec 3 cam (pose_point p input)).
Definition point_projection_jac (cam : mat) (p input : vect) : mat :=
  let projJ := dehom_jac 2 (mvec 3 cam (pose_point p input)) in
  let rotJ := quat_rotate_jac p (fun i => input (3 + i)%nat) in
  let A := mmul 3 projJ cam in
  fun i j => if (j <? 3)%nat then A i j else mmul 3 A rotJ i (j - 3)%nat.
Definition multi_point (cam : mat) (ps : nat -> vect) (input : vect) : vect := fun k =>
  point_projection cam (ps (k / 2)%nat) input (k mod 2)%nat.
Definition multi_point_jac (cam : mat) (ps : nat -> vect) (input : vect) : mat := fun k =>
  point_projection_jac cam (ps (k / 2)%nat) input (k mod 2)%nat.

(** MultipleCameraProjection, utAlgorithm/Function/MultipleCameraProjection.h:84-204: one
    visible point [p] in a camera with pose [cp], intrinsics [ci] and distortion [cd] *)
Definition cam_frame (cp : pose) (p input : vect) : vect := fun i =>
  of3 (papp cp (vec_of (pose_point p input) 0)) i.
Definition camera_projection (cp : pose) (ci : mat) (cd : vect) (p input : vect) : vect := fun i =>
  (mvec 2 ci (distort (dehom 2 (cam_frame cp p input)) cd) i + ci i 2%nat) * ci 2%nat 2%nat.
Definition camera_projection_jac (cp : pose) (ci : mat) (cd : vect) (p input : vect) : mat :=
  let cc := cam_frame cp p input in
  let rotJ := quat_rotate_jac p (fun i => input (3 + i)%nat) in
  let rotCamJ := qmat (rot cp) in
  let dehomJ := dehom_jac 2 cc in
  let distJ := distort_jac_p cd (dehom 2 cc) in
  let jA := mscale (ci 2%nat 2%nat) (mmul 2 ci distJ) in
  let jB := mmul 2 jA dehomJ in
  let jC := mmul 3 jB rotCamJ in
  fun i j => if (j <? 3)%nat then jC i j else mmul 3 jC rotJ i (j - 3)%nat.

(** MultiplePointProjectionError::jacobian, utAlgorithm/Function/MultiplePointProjectionError.h:77-109 *)
Definition point_error_jac (cam : mat) (p input : vect) : mat :=
  let projJ := dehom_jac 2 (mvec 3 cam (pose_point p input)) in
  let rotJ := quat_error_jac p (fun i => input (3 + i)%nat) in
  let A := mmul 3 projJ cam in
  fun i j => if (j <? 3)%nat then A i j else mmul 3 A rotJ i (j - 3)%nat.
(** MultipleCameraProjectionError::jacobian, utAlgorithm/Function/MultipleCameraProjectionError.h:83-119:
    3x4 cameras *)
Definition camera_error_jac (cam : mat) (p input : vect) : mat :=
  let projJ := dehom_jac 2 (fun i => mvec 3 cam (pose_point p input) i + cam i 3%nat) in
  let rotJ := quat_error_jac p (fun i => input (3 + i)%nat) in
  let A := mmul 3 projJ cam in
  fun i j => if (j <? 3)%nat then A i j else mmul 3 A rotJ i (j - 3)%nat.

(** MultipleCameraProjectionErrorART::jacobian,
    utAlgorithm/Function/MultipleCameraProjectionErrorART.h:85-130: rotation as an exponential map in
    3..5, [cog] is m_centerOfGravity *)
Definition art_rotated (cog p input : vect) : vect :=
  mvec 3 (qmat (from_log (vec_of input 3))) (vsub p cog).
Definition art_projected (cam : mat) (cog p input : vect) : vect := fun i =>
  mvec 3 cam (fun j => art_rotated cog p input j + input j
    + mvec 3 (qmat (from_log (vec_of input 3))) cog j) i + cam i 3%nat.
Definition art_error_jac (cam : mat) (cog p input : vect) : mat :=
  let rotated := art_rotated cog p input in
  let rotJ := mlist [ [ 0; rotated 2%nat; - rotated 1%nat ]; [ - rotated 2%nat; 0; rotated 0%nat ];
                      [ rotated 1%nat; - rotated 0%nat; 0 ] ] in
  let projJ := dehom_jac 2 (art_projected cam cog p input) in
  let A := mmul 3 projJ cam in
  fun i j => if (j <? 3)%nat then A i j else mmul 3 A rotJ i (j - 3)%nat.

(** ProjectivePoseNormalize::evaluate, utAlgorithm/Function/ProjectivePoseNormalize.h:53-66;
    [None] when the quaternion is zero (division by zero) *)
Definition pose_normalize (v : vect) : option vect :=
  let l2 := v 3%nat * v 3%nat + v 4%nat * v 4%nat + v 5%nat * v 5%nat + v 6%nat * v 6%nat in
  if Req_EM_T l2 0 then None
  else Some (fun i => if (i <? 3)%nat then v i / l2 else v i / sqrt l2).

(** ** Specification: derivative along curves *)

(** the curve g through x with velocity e *)
Definition curve (n : nat) (g : nat -> R -> R) (x e : vect) : Prop :=
  forall i, (i < n)%nat -> g i 0 = x i /\ is_derive (g i) 0 (e i).
Definition at_time (g : nat -> R -> R) (h : R) : vect := fun i => g i h.
(** [J] maps the velocity of every curve through [x] inside [S] to the velocity of its image
    under [f]; n inputs, m outputs.  With S = everything this is the (Hadamard) derivative; in
    particular all partial derivatives are entries of J. *)
Definition derivative_on (S : vect -> Prop) (n m : nat) (f : vect -> vect) (x : vect) (J : mat) : Prop :=
  forall g e, curve n g x e -> (forall h, S (at_time g h)) ->
  forall r, (r < m)%nat -> is_derive (fun h => f (at_time g h) r) 0 (mvec n J e r).
Definition derivative := derivative_on (fun _ => True).
(** the four entries starting at [b] are a unit quaternion *)
Definition unit_at (b : nat) (v : vect) : Prop := unit (quat_of v b).
