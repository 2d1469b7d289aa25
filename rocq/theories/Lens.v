(** Model of the lens distortion code: utAlgorithm/LensDistortion.cpp,
    utAlgorithm/CameraLens/Distortion.h, Undistortion.h and utMath/Geometry/PointUndistortion.h.
    Points are [vect]s of which entries 0 and 1 are used, [double] is a real number.  A quotient of
    the rational distortion model with divisor zero (infinity or NaN) is [None].  The divisions by
    K(0,0), K(1,1), K(2,2) and by the depth are real divisions; the theorems carry the condition. *)
From Coq Require Import Reals List Arith.
Import ListNotations.
From Verif Require Import Mat Jacobians LevMarq.
Open Scope R_scope.

(** unproject_impl, Distortion.h:43-53; the same lines in LensDistortion.cpp:78-80, 111-113 *)
Definition unproject (K : mat) (p : vect) : vect :=
  let y := (p 1%nat - K 1%nat 2%nat * K 2%nat 2%nat) / K 1%nat 1%nat in
  let x := (p 0%nat - K 0%nat 1%nat * y - K 0%nat 2%nat * K 2%nat 2%nat) / K 0%nat 0%nat in
  vlist [x; y].
(** project_impl, Distortion.h:57-65; the same lines in LensDistortion.cpp:87, 121 *)
Definition project (K : mat) (p : vect) : vect :=
  vlist [p 0%nat * K 0%nat 0%nat + p 1%nat * K 0%nat 1%nat + K 0%nat 2%nat * K 2%nat 2%nat;
         p 1%nat * K 1%nat 1%nat + K 1%nat 2%nat * K 2%nat 2%nat].

(** upper and lower of distort_impl, Distortion.h:77-81 *)
Definition upper6 (k p : vect) : R :=
  let r2 := p 0%nat * p 0%nat + p 1%nat * p 1%nat in let r4 := r2 * r2 in let r6 := r4 * r2 in
  1 + k 0%nat * r2 + k 1%nat * r4 + k 2%nat * r6.
Definition lower6 (k p : vect) : R :=
  let r2 := p 0%nat * p 0%nat + p 1%nat * p 1%nat in let r4 := r2 * r2 in let r6 := r4 * r2 in
  1 + k 3%nat * r2 + k 4%nat * r4 + k 5%nat * r6.
(** distort_impl, Distortion.h:69-86 *)
Definition distort6_value (k t p : vect) : vect :=
  let x := p 0%nat in let y := p 1%nat in
  let xx := x * x in let xy2 := x * y * 2 in let yy := y * y in let r2 := xx + yy in
  let ratio := upper6 k p / lower6 k p in
  vlist [x * ratio + t 0%nat * xy2 + t 1%nat * (r2 + xx * 2);
         y * ratio + t 1%nat * xy2 + t 0%nat * (r2 + yy * 2)].
Definition distort6 (k t p : vect) : option vect :=
  if Req_EM_T (lower6 k p) 0 then None else Some (distort6_value k t p).
(** distort_impl for image points, Distortion.h:90-97 *)
Definition camera_distort (K : mat) (k t p : vect) : option vect :=
  option_map (project K) (distort6 k t (unproject K p)).

(** the overloads for std::vector, Distortion.h:114-122, 132-140 and Undistortion.h:227-235: the
    output iterator starts at result.begin() and runs along with the input; [None] is a write past
    the end of [out].  Elements behind the last one written are kept. *)
Fixpoint transform_all {A} (f : vect -> A) (pts : list vect) (out : list A) : option (list A) :=
  match pts, out with
  | [], _ => Some out
  | _ :: _, [] => None
  | p :: pts, _ :: out => option_map (cons (f p)) (transform_all f pts out)
  end.

(** PointUndistortion::jacobian, Undistortion.h:114-177 *)
Definition distort6_jac (k t p : vect) : mat :=
  let x := p 0%nat in let y := p 1%nat in
  let k1 := k 0%nat in let k2 := k 1%nat in let k3 := k 2%nat in
  let k4 := k 3%nat in let k5 := k 4%nat in let k6 := k 5%nat in
  let p1 := t 0%nat in let p2 := t 1%nat in
  let t3 := x * x in let t4 := y * y in let t2 := t3 + t4 in let t5 := t2 * t2 in
  let t6 := k5 * t5 in let t7 := k6 * t2 * t5 in let t8 := k4 * t2 in
  let t9 := t6 + t7 + t8 + 1 in let t10 := 1 / t9 in
  let t11 := k2 * t5 in let t12 := k3 * t2 * t5 in let t13 := k1 * t2 in
  let t14 := t11 + t12 + t13 + 1 in let t15 := 1 / (t9 * t9) in
  let t16 := p1 * x * 2 in let t17 := p2 * y * 2 in
  let t18 := k1 * x * 2 in let t19 := k2 * t2 * x * 4 in let t20 := k3 * t5 * x * 6 in
  let t21 := t18 + t19 + t20 in
  let t22 := k4 * x * 2 in let t23 := k5 * t2 * x * 4 in let t24 := k6 * t5 * x * 6 in
  let t25 := t22 + t23 + t24 in let t26 := t10 * t14 in
  let t27 := k1 * y * 2 in let t28 := k2 * t2 * y * 4 in let t29 := k3 * t5 * y * 6 in
  let t30 := t27 + t28 + t29 in
  let t31 := k4 * y * 2 in let t32 := k5 * t2 * y * 4 in let t33 := k6 * t5 * y * 6 in
  let t34 := t31 + t32 + t33 in
  mlist [ [ t26 + p2 * x * 6 + p1 * y * 2 + t10 * t21 * x - t14 * t15 * t25 * x;
            t16 + t17 + t10 * t30 * x - t14 * t15 * t34 * x ];
          [ t16 + t17 + t10 * t21 * y - t14 * t15 * t25 * y;
            t26 + p2 * x * 2 + p1 * y * 6 + t10 * t30 * y - t14 * t15 * t34 * y ] ].

(** levenbergMarquardt as called in LensDistortion.cpp:118 and Undistortion.h:208: no weights, no
    normalisation, OptTerminate( 5, 1e-5 ), Cholesky, step size 1 and factor 10
    (LevenbergMarquardt.h:249-252), started at the measurement.  [lin]: posv / gelss; six passes
    are enough by [undistort_terminates]. *)
Definition invert_distortion (eval : vect -> option (vect * mat)) (lin : solver -> option (mat * vect) -> lapack) (p : vect) : result :=
  levenberg_marquardt 2 eval None (fun x => x) lin (opt_terminate 5 (1 / 100000)) p 10 6 p 1 Cholesky.
(** PointUndistortion::evaluateWithJacobian, Undistortion.h:103-107 *)
Definition eval6 (k t p : vect) : option (vect * mat) :=
  option_map (fun e => (e, distort6_jac k t p)) (distort6 k t p).
(** RadialDistortionWrtP::evaluateWithJacobian, Function/RadialDistortion.h *)
Definition eval4 (d p : vect) : option (vect * mat) := Some (distort p d, distort_jac_p d p).
(** the image point of a result: undistort_impl for camera intrinsics, Undistortion.h:213-224 *)
Definition image_result (K : mat) (r : result) : result :=
  match r with Done p e => Done (option_map (project K) p) e | r => r end.
Definition camera_undistort (lin : solver -> option (mat * vect) -> lapack) (K : mat) (k t p : vect) : result :=
  image_result K (invert_distortion (eval6 k t) lin (unproject K p)).

(** projectWithDistortionImpl, LensDistortion.cpp:42-56 *)
Definition project_with_distortion (p d : vect) (K : mat) : vect :=
  let dp := distort (vlist [p 0%nat / p 2%nat; p 1%nat / p 2%nat]) d in
  vlist [(dp 0%nat * K 0%nat 0%nat + dp 1%nat * K 0%nat 1%nat + K 0%nat 2%nat) / K 2%nat 2%nat;
         (dp 1%nat * K 1%nat 1%nat + K 1%nat 2%nat) / K 2%nat 2%nat].
(** lensDistortImpl, LensDistortion.cpp:74-88 *)
Definition lens_distort (p d : vect) (K : mat) : vect := project K (distort (unproject K p) d).
(** lensUnDistortImpl, LensDistortion.cpp:107-122 *)
Definition lens_undistort (lin : solver -> option (mat * vect) -> lapack) (p d : vect) (K : mat) : result :=
  image_result K (invert_distortion (eval4 d) lin (unproject K p)).

(** Geometry::PointUndistortion::operator(), utMath/Geometry/PointUndistortion.h:71-101 *)
Definition undistort_point (K : mat) (k t p : vect) : option vect :=
  let x := (p 0%nat + K 0%nat 2%nat) / K 0%nat 0%nat in
  let y := (p 1%nat + K 1%nat 2%nat) / K 1%nat 1%nat in
  let r2 := x * x + y * y in let r4 := r2 * r2 in let r6 := r4 * r2 in
  let nom := 1 + k 0%nat * r2 + k 1%nat * r4 + k 2%nat * r6 in
  let denom := 1 + k 3%nat * r2 + k 4%nat * r4 + k 5%nat * r6 in
  if Req_EM_T denom 0 then None else
  let scale := nom / denom in
  let xu := x * scale + 2 * t 0%nat * x * y + t 1%nat * (r2 + 2 * x * x) in
  let yu := y * scale + 2 * t 1%nat * x * y + t 0%nat * (r2 + 2 * y * y) in
  Some (vlist [K 0%nat 0%nat * xu - K 0%nat 2%nat; K 1%nat 1%nat * yu - K 1%nat 2%nat]).
