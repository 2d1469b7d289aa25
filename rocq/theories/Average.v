(** Model of utMath/Stochastic/Average.h: the averaging function objects are fed through
    std::for_each; the list is the sequence of values in the order they arrive.
    [double] is a real; dividing by a zero count or normalising a zero quaternion is [None]. *)
From Coq Require Import Reals List.
Import ListNotations.
From Verif Require Import Mat Quat CovTransform ErrorPose.
Open Scope R_scope.

(** [Average], members m_counter and m_mean, Average.h:83-121; the scalar
    specialisation 125-150 is the case of one entry *)
Record avg := Avg { counter : nat; total : vect }.
Definition avg0 : avg := Avg 0 (fun _ => 0).
Definition avg_push (a : avg) (v : vect) : avg := Avg (S (counter a)) (vadd (total a) v).
Definition avg_mean (a : avg) : option vect :=
  match counter a with
  | O => None
  | S _ => Some (fun i => total a i / INR (counter a))
  end.
Definition average (l : list vect) : option vect := avg_mean (fold_left avg_push l avg0).

(** [castToVector] of a quaternion, TypeToVector.h:166-174 *)
Definition qvec (q : quat) : vect := vlist [qx q; qy q; qz q; qw q].

(** [Average< Quaternion >::operator()], Average.h:153-160 *)
Definition avg_push_quat (a : avg) (q : quat) : avg :=
  let tmp := qvec q in
  Avg (S (counter a)) (vadd (total a) (if Rle_dec 0 (qw q) then tmp else fun i => tmp i * (-1))).
(** [Average< Quaternion >::getAverage], Average.h:163-168 *)
Definition average_quat (l : list quat) : option quat :=
  match avg_mean (fold_left avg_push_quat l avg0) with
  | None => None
  | Some m => qnormalize (Q (m 0%nat) (m 1%nat) (m 2%nat) (m 3%nat))
  end.

(** the sign correction of Average.h:179-185 and 260-266 *)
Definition hemisphere7 (v : vect) : vect := fun i =>
  if Rlt_dec (v 6%nat) 0 then (if andb (Nat.leb 3 i) (Nat.leb i 6) then v i * (-1) else v i) else v i.

(** [Average< Pose >], Average.h:171-197 *)
Definition avg_push_pose (a : avg) (p : pose) : avg :=
  Avg (S (counter a)) (vadd (total a) (hemisphere7 (pose_to_vector p))).
Definition avg_get_pose (a : avg) : option pose :=
  match avg_mean a with
  | None => None
  | Some m => match qnormalize (rot (pose_of_vector m)) with
              | None => None
              | Some q => Some (P q (tra (pose_of_vector m)))
              end
  end.
Definition average_pose (l : list pose) : option pose := avg_get_pose (fold_left avg_push_pose l avg0).

Definition outer (x y : vect) : mat := fun i j => x i * y j.

(** [Average< ErrorVector >], Average.h:200-230 *)
Record avgc := AvgC { base : avg; second : mat }.
Definition avgc_push (a : avgc) (v : vect) : avgc :=
  AvgC (avg_push (base a) v) (madd (second a) (outer v v)).
Definition avgc_get (a : avgc) : option errvec :=
  match avg_mean (base a) with
  | None => None
  | Some m => Some (EV m (msub (fun i j => second a i j / INR (counter (base a))) (outer m m)))
  end.
Definition average_errvec (l : list vect) : option errvec :=
  avgc_get (fold_left avgc_push l (AvgC avg0 mzero)).

(** [Average< ErrorPose >], Average.h:233-318 *)
Definition avgc_push_pose (a : avgc) (p : pose) : avgc :=
  let tmp := hemisphere7 (pose_to_vector p) in
  AvgC (Avg (S (counter (base a))) (vadd (total (base a)) tmp)) (madd (second a) (outer tmp tmp)).
Definition avgc_get_pose (a : avgc) : option epose :=
  match avg_get_pose (base a) with
  | None => None
  | Some meanPose =>
      let meanVec := pose_to_vector meanPose in
      let invMeanVec := pose_to_vector (pinv meanPose) in
      let covarianz := fun i j => second a i j / INR (counter (base a)) in
      let invEp := from_additive (EV invMeanVec (msub covarianz (outer meanVec meanVec))) in
      Some (EP meanPose (cov invEp))
  end.
Definition average_errpose (l : list pose) : option epose :=
  avgc_get_pose (fold_left avgc_push_pose l (AvgC avg0 mzero)).
