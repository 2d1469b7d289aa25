(** The two RANSAC calibrations of the library: robust absolute orientation
    (src/utAlgorithm/PoseEstimation3D3D/Ransac.h) and robust tool tip
    calibration (src/utAlgorithm/ToolTip/Ransac.h). *)
From Coq Require Import Reals List Arith.
Import ListNotations.
From Verif Require Import Mat Quat AbsOrient Dlt Ransac.
Open Scope R_scope.

(** [d < params.threshold] on numbers (utMath/Optimization/Ransac.h:197, 339) *)
Definition below (d t : R) : bool := if Rlt_dec d t then true else false.

(** ** PoseEstimation3D3D/Ransac.h *)
(** Estimator, 57-66: the pose is assigned only when the estimation succeeds
    (Pose6D.h:72-78).  The items are pairs of a point of each range. *)
Definition pose_estimator (syev : syev4_oracle) (h : pose) (l : list (vec3 * vec3)) : bool * pose :=
  match estimate_pose syev (map fst l) (map snd l) with
  | Some p => (true, p)
  | None => (false, h)
  end.
(** Evaluator, 71-82 *)
Definition pose_evaluator (h : pose) (x : vec3 * vec3) : R := point_error h (fst x) (snd x).
(** estimatePose6D_3D3D, 85-93.  [Pose()] of a hypothesis is the identity.
    [None]: undefined behaviour. *)
Definition ransac_pose (syev : syev4_oracle) (threshold : R) (setSize nMin nMax : nat) (sched : nat -> list nat)
    (data : list (vec3 * vec3)) (pose0 : pose) : option (bool * pose) :=
  match ransac _ _ _ below threshold (pose_estimator syev) pose_evaluator pone data setSize nMin nMax sched pose0 with
  | Done n r _ _ => Some (0 <? n, r)%nat
  | _ => None
  end.

(** ** ToolTip/Ransac.h; a calibration is the pair (pw, pm) *)
(** Estimator, 59-80 *)
Definition tip_estimator (gels : gels6) (h : vec3 * vec3) (l : list pose) : bool * (vec3 * vec3) :=
  match tool_tip gels l with
  | Some w => (true, w)
  | None => (false, h)
  end.
(** Evaluator, 84-95 *)
Definition tip_evaluator (h : vec3 * vec3) (p : pose) : R := norm3 (v3sub (fst h) (papp p (snd h))).
(** estimatePosition3D_6D, 98-113: [junk] is what the fresh [resultVector] (105)
    contains, [junk'] the fresh hypothesis of the loop; both outputs are assigned
    whatever the outcome (108-109). *)
Definition ransac_tip (gels : gels6) (junk junk' : vec3 * vec3) (threshold : R) (setSize nMin nMax : nat) (sched : nat -> list nat)
    (data : list pose) : option (bool * (vec3 * vec3)) :=
  match ransac _ _ _ below threshold (tip_estimator gels) tip_evaluator junk' data setSize nMin nMax sched junk with
  | Done n r _ _ => Some (0 <? n, r)%nat
  | _ => None
  end.
