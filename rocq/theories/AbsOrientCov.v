(** Model of utAlgorithm/PoseEstimation3D3D/CovarianceEstimation.h: the covariance of a pose that was
    estimated from pairs of points.  [double] is a real number. *)
From Coq Require Import Reals List Arith Bool.
Import ListNotations.
From Verif Require Import Quat Mat Jacobians AbsOrient BackProp.
Open Scope R_scope.

(** MultiplePointTransformationError::jacobian, 89-123: three rows for each point, the identity beside the
    Jacobian of QuaternionRotationError; of the parameters only the quaternion, entries 3..6 of
    Pose::toVector, is used *)
Definition points_jac (q : quat) (b : list vec3) : mat := fun i j =>
  if (j <? 3)%nat then eye (i mod 3)%nat j
  else quat_error_jac (of3 (nth (i / 3) b v3zero)) (vlist [qx q; qy q; qz q; qw q]) (i mod 3)%nat (j - 3)%nat.
(** estimatePose6DCovariance, 131-158.  [None]: the matrix is not defined: no points (0 / 0), or one point
    (the loop BackwardPropagation.h:175-176 scales the rows 3, 4 and 5 of a Jacobian with three rows) *)
Definition pose_covariance (gesvd : gesvd_o) (a : list vec3) (p : pose) (b : list vec3) : option mat :=
  if (3 * length b <? 6)%nat then None
  else match pose_residual p a b with
       | None => None
       | Some err => back_identity gesvd (3 * length b) 6 err (points_jac (rot p) b)
       end.
