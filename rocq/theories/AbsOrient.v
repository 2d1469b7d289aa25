(** Model of utAlgorithm/PoseEstimation3D3D: scale (Scale.h), rotation by Horn's method
    (Rotation3D.h), pose (Pose6D.h, AbsoluteOrientation.cpp), residual (ErrorEstimation.h) and the
    function minimised by the non-linear refinement (Optimization.h).  Real arithmetic; sums are
    taken from the right. *)
From Coq Require Import Reals Bool Arith List.
Import ListNotations.
From Verif Require Import Mat Quat QuatProofs.
Open Scope R_scope.

Definition v3sub (a b : vec3) : vec3 := V3 (vx a - vx b) (vy a - vy b) (vz a - vz b).
Definition lsum {A} (f : A -> R) (l : list A) : R := fold_right (fun x acc => f x + acc) 0 l.
Definition v3sum (l : list vec3) : vec3 := fold_right v3add v3zero l.
(** std::accumulate( ..., zeros ) / n, Scale.h:101-102, Pose6D.h:92-93 *)
Definition centroid (n : nat) (l : list vec3) : vec3 := v3scale (/ INR n) (v3sum l).

(** ** Scale.h *)
(** 50-87; [None]: division by zero *)
Definition spread (c : vec3) (l : list vec3) : R := lsum (fun x => dot3 (v3sub x c) (v3sub x c)) l.
Definition estimate_scale_about (left right : list vec3) (lc rc : vec3) : option R :=
  if Req_EM_T (spread rc right) 0 then None else Some (sqrt (spread lc left / spread rc right)).
(** 89-108 *)
Definition estimate_scale (left right : list vec3) : option R :=
  let n := length left in estimate_scale_about left right (centroid n left) (centroid n right).

(** ** Rotation3D.h *)
(** M = sum of outer products, 74-85 *)
Definition v3nth (v : vec3) (i : nat) : R := match i with 0 => vx v | 1 => vy v | _ => vz v end%nat.
Definition horn_m (ps : list (vec3 * vec3)) (lc rc : vec3) : mat := fun i j =>
  lsum (fun lr => v3nth (v3sub (snd lr) rc) i * v3nth (v3sub (fst lr) lc) j) ps.
(** N, 110-123; only the upper triangle is filled and read ('U') *)
Definition horn_n (m : mat) : mat :=
  let e i j := m i j in
  let n00 := e 0%nat 0%nat + e 1%nat 1%nat + e 2%nat 2%nat in
  let n11 := e 0%nat 0%nat - e 1%nat 1%nat - e 2%nat 2%nat in
  let n22 := - e 0%nat 0%nat + e 1%nat 1%nat - e 2%nat 2%nat in
  let n33 := - e 0%nat 0%nat - e 1%nat 1%nat + e 2%nat 2%nat in
  let n01 := e 1%nat 2%nat - e 2%nat 1%nat in
  let n02 := e 2%nat 0%nat - e 0%nat 2%nat in
  let n03 := e 0%nat 1%nat - e 1%nat 0%nat in
  let n12 := e 0%nat 1%nat + e 1%nat 0%nat in
  let n13 := e 2%nat 0%nat + e 0%nat 2%nat in
  let n23 := e 1%nat 2%nat + e 2%nat 1%nat in
  mlist [[n00; n01; n02; n03]; [n01; n11; n12; n13]; [n02; n12; n22; n23]; [n03; n13; n23; n33]].
(** lapack::syev( 'V', 'U', ... ): eigenvalues W and, in place of N, the eigenvectors in columns *)
Definition syev4_oracle := mat -> option (vect * mat).
(** 125-141 *)
Definition estimate_rotation (syev : syev4_oracle) (left right : list vec3) (lc rc : vec3) : option quat :=
  match syev (horn_n (horn_m (combine left right) lc rc)) with
  | None => None
  | Some (w, v) =>
    if Rle_dec (w 3%nat) 0 then None else Some (Q (v 1%nat 3%nat) (v 2%nat 3%nat) (v 3%nat 3%nat) (v 0%nat 3%nat))
  end.

(** ** Pose6D.h, 55-95 *)
Definition estimate_pose (syev : syev4_oracle) (left right : list vec3) : option pose :=
  let n := length left in let lc := centroid n left in let rc := centroid n right in
  match estimate_rotation syev left right lc rc with
  | None => None
  | Some q => Some (P q (v3sub lc (qrot q rc)))
  end.
(** AbsoluteOrientation.cpp:43-50: the arguments are exchanged and the flag is ignored *)
Definition calculate_absolute_orientation (syev : syev4_oracle) (left right : list vec3) : pose :=
  match estimate_pose syev right left with Some p => p | None => pone end.

(** ** ErrorEstimation.h *)
(** ErrorFunction, 50-66, also Ransac.h Evaluator, 72-82 *)
Definition point_error (p : pose) (a b : vec3) : R := norm3 (v3sub a (papp p b)).
(** estimatePose6DResidual, 68-88; [None]: no points, 0/0 *)
Definition pose_residual (p : pose) (a b : list vec3) : option R :=
  if (length a =? 0)%nat then None
  else Some (lsum (fun ab => point_error p (fst ab) (snd ab)) (combine a b) / (3 * INR (length a))).

(** ** Optimization.h: PointCorrespodencesSinglePose for one point *)
(** evaluate, 84-105, parameters tx ty tz qx qy qz qw; [None]: the quaternion has length zero *)
Definition opt_evaluate (pt : vec3) (v : vect) : option vec3 :=
  let q := Q (v 3%nat) (v 4%nat) (v 5%nat) (v 6%nat) in
  if Req_EM_T (qnorm q) 0 then None
  else Some (papp (P (qscale (/ sqrt (qnorm q)) q) (V3 (v 0%nat) (v 1%nat) (v 2%nat))) pt).
(** jacobian, 123-182 *)
Definition opt_jacobian (pt : vec3) (v : vect) : mat :=
  let n := sqrt (v 3%nat * v 3%nat + v 4%nat * v 4%nat + v 5%nat * v 5%nat + v 6%nat * v 6%nat) in
  let qx := v 3%nat / n in let qy := v 4%nat / n in let qz := v 5%nat / n in let qw := v 6%nat / n in
  let x := vx pt in let y := vy pt in let z := vz pt in
  let t2 := qx*y*2 in let t3 := qw*z*2 in let t4 := qx*x*2 in let t5 := qy*y*2 in let t6 := qz*z*2 in
  let t7 := t4+t5+t6 in let t8 := qw*x*2 in let t9 := qy*z*2 in let t15 := qz*y*2 in
  let t10 := t8+t9-t15 in let t11 := qx*z*2 in let t12 := qz*x*2 in let t13 := qw*y*2 in
  let t14 := -t11+t12+t13 in let t16 := qy*x*2 in
  mlist [[1; 0; 0; t7; t2+t3-qy*x*2; t11-qz*x*2-qw*y*2; t10];
         [0; 1; 0; -t2-t3+t16; t7; t10; t14];
         [0; 0; 1; t14; -t8+t9+t15; t4+t5-t6; t2+t3-t16]].
