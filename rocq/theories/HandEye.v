(** Model of utAlgorithm/PoseEstimation6D6D: pose representations and relative poses
    (DataSelection.h, DataSelection.cpp), the incremental list of HandEyeCalibration.h and the
    dual quaternion method (DualQuaternion.cpp).  Real arithmetic. *)
From Coq Require Import Reals Bool Arith List.
Import ListNotations.
From Verif Require Import Mat Quat RotationCast LinAlg.
Open Scope R_scope.

(** ** Representations, DataSelection.h *)
(** Vector< T, 8 >: (qw qx qy qz | q'w q'x q'y q'z) *)
Record dquat := DQ { dre : quat; ddu : quat }.
(** Vector< T, 6 >: rotation vector and translation *)
Record v6 := V6 { v6rot : vec3; v6tra : vec3 }.
(** pose_cast< Pose > of an 8-vector, 116-124 *)
Definition pose_of_dq (d : dquat) : pose :=
  let t := qmul (ddu d) (qconj (dre d)) in
  P (dre d) (V3 (2 * qx t) (2 * qy t) (2 * qz t)).
(** pose_cast< Vector< T, 8 > >, 225-269 *)
Definition dq_of_pose (p : pose) : dquat :=
  let q := rot p in let t := tra p in
  DQ q (Q (1 / 2 * ((vy t * qz q - vz t * qy q) + qw q * vx t))
          (1 / 2 * ((vz t * qx q - vx t * qz q) + qw q * vy t))
          (1 / 2 * ((vx t * qy q - vy t * qx q) + qw q * vz t))
          (- (1 / 2) * (vx t * qx q + vy t * qy q + vz t * qz q))).
(** pose_cast< Pose > of a 6-vector, 106-113 *)
Definition pose_of_v6 (v : v6) : pose := P (cast_vec_quat (v6rot v)) (v6tra v).
(** pose_cast< Vector< T, 6 > > of a pose, 182-193; [None]: division by zero *)
Definition v6_of_pose (p : pose) : option v6 :=
  match cast_quat_vec (rot p) with Some a => Some (V6 a (tra p)) | None => None end.
(** pose_cast< Vector< T, 6 > > of an 8-vector, 195-208 *)
Definition v6_of_dq (d : dquat) : option v6 := v6_of_pose (pose_of_dq d).
(** pose_cast< Vector< T, 7 > >, 146-159 *)
Definition v7_of_pose (p : pose) : option (aa4 * vec3) :=
  match cast_quat_aa (rot p) with Some a => Some (a, tra p) | None => None end.
(** hemisphere_alignment< Vector< T, 6 >, true >, 304-321; the literal is pi *)
Definition hemisphere_alignment (v : v6) : v6 :=
  let angle := norm3 (v6rot v) in
  if Rlt_dec PI angle then V6 (v3scale ((2 * PI - angle) / angle) (v6rot v)) (v6tra v) else v.
(** RotationDistance< Vector< T, 6 > >, 55-66 *)
Definition rotation_distance (a b : v6) : R := norm3 (v3add (v6rot a) (v3opp (v6rot b))).

(** relative_pose< Pose, inv >( pose1, pose2 ), 340-363 *)
Definition relative (inv : bool) (p1 p2 : pose) : pose :=
  if inv then pmul (pinv p2) p1 else pmul p2 (pinv p1).

(** generate_relative_pose6D_impl, 530-551, into a back inserter: all pairs *)
Fixpoint relative_all (inv : bool) (l : list pose) : list pose :=
  match l with
  | [] => []
  | p :: t => map (fun q => relative inv q p) t ++ relative_all inv t
  end.
(** and neighbours (Util::adjacent_difference, 374-389) *)
Fixpoint relative_adjacent (inv : bool) (prev : pose) (l : list pose) : list pose :=
  match l with
  | [] => []
  | p :: t => relative inv p prev :: relative_adjacent inv p t
  end.
Definition relative_neighbours (inv : bool) (l : list pose) : list pose :=
  match l with [] => [] | p :: t => relative_adjacent inv p t end.
(** generate_relative_6DPoses, DataSelection.cpp:148-163, appends to the given list *)
Definition generate_relative (poses : list pose) (out : list dquat) (direction : bool) : list dquat :=
  out ++ map dq_of_pose (relative_all direction poses).

(** HandEyeCalibration.h: updateRelativePoses from [last] on, by new pose *)
Definition relative_to_old (inv : bool) (l : list pose) (k : nat) : list pose :=
  map (fun o => relative inv o (nth k l pone)) (firstn k l).
Definition relative_from (inv : bool) (l : list pose) (last : nat) : list pose :=
  flat_map (relative_to_old inv l) (seq last (length l - last)).
(** the members filled by updateRelativePoses: hands (direction true), eyes (direction false) *)
Record he_state := HE { last_index : nat; rel_hand : list pose; rel_eye : list pose }.
Definition he_init : he_state := HE 0 [] [].
Definition he_update (eyes hands : list pose) (s : he_state) : he_state :=
  HE (length eyes) (rel_hand s ++ relative_from true hands (last_index s))
                   (rel_eye s ++ relative_from false eyes (last_index s)).

(** ** The dual quaternion method, DualQuaternion.cpp *)
(** SolveQuadratic, 47-63, for the vector (c b a); [None]: not a number or infinite *)
Definition solve_quadratic (c b a : R) : option (R * R) :=
  let m2a := 2 * a in
  let d := b * b - 2 * m2a * c in
  if Rlt_dec d 0 then None else if Req_EM_T m2a 0 then None else
  let root := sqrt d in
  Some ((- b + root) / m2a, - (b + root) / m2a).

(** the six rows of one pair of motions, 87-156 *)
Definition he_block (a b : dquat) : mat :=
  let ax := qx (dre a) in let ay := qy (dre a) in let az := qz (dre a) in
  let apx := qx (ddu a) in let apy := qy (ddu a) in let apz := qz (ddu a) in
  let bx := qx (dre b) in let by_ := qy (dre b) in let bz := qz (dre b) in
  let bpx := qx (ddu b) in let bpy := qy (ddu b) in let bpz := qz (ddu b) in
  mlist [
   [ax - bx; 0; - (az + bz); ay + by_; 0; 0; 0; 0];
   [ay - by_; az + bz; 0; - (ax + bx); 0; 0; 0; 0];
   [az - bz; - (ay + by_); ax + bx; 0; 0; 0; 0; 0];
   [apx - bpx; 0; - (apz + bpz); apy + bpy; ax - bx; 0; - (az + bz); ay + by_];
   [apy - bpy; apz + bpz; 0; - (apx + bpx); ay - by_; az + bz; 0; - (ax + bx)];
   [apz - bpz; - (apy + bpy); apx + bpx; 0; az - bz; - (ay + by_); ax + bx; 0]].
Definition dq0 : dquat := DQ (Q 0 0 0 0) (Q 0 0 0 0).
Definition he_matrix (la lb : list dquat) : mat := fun i j =>
  he_block (nth (i / 6) la dq0) (nth (i / 6) lb dq0) (i mod 6) j.

(** lapack::gesvd( 'N', 'S', ... ) of a matrix with the given number of rows: the singular values
    and Vt, or a non-zero return value *)
Definition svd8_oracle := nat -> mat -> option (vect * mat).
Definition quad_of_row (m : mat) (r c : nat) : quat := Q (m r (c + 1)%nat) (m r (c + 2)%nat) (m r (c + 3)%nat) (m r c).

Inductive outcome := Failed (* returns false *) | NotANumber (* returns true, an infinite pose *) | Found (p : pose).
(** 182-214 *)
Definition combine (u1 v1 u2 v2 : quat) : outcome :=
  match solve_quadratic (qdot u2 v2) (qdot u1 v2 + qdot u2 v1) (qdot u1 v1) with
  | None => Failed
  | Some (x1, x2) =>
    let s1 := x1 * x1 * qdot u1 u1 + x1 * (qdot u1 u2 * 2) + qdot u2 u2 in
    let s2 := x2 * x2 * qdot u1 u1 + x2 * (qdot u1 u2 * 2) + qdot u2 u2 in
    let '(s, x) := if Rlt_dec s2 s1 then (s1, x1) else (s2, x2) in
    if Rlt_dec 0 s then
      let lambda2 := sqrt (1 / s) in
      let lambda1 := lambda2 * x in
      let q := qadd (qscale lambda1 u1) (qscale lambda2 u2) in
      let qp := qadd (qscale lambda1 v1) (qscale lambda2 v2) in
      let t := qmul qp (qconj q) in
      Found (P q (V3 (2 * qx t) (2 * qy t) (2 * qz t)))
    else if Rlt_dec s 0 then Failed else NotANumber
  end.
(** estimatePose6D_6D6D_impl, 68-214 *)
Definition he_dual (svd : svd8_oracle) (la lb : list dquat) : outcome :=
  match svd (6 * length la)%nat (he_matrix la lb) with
  | None => Failed
  | Some (s, vt) =>
    let eps := 1 / 100 in
    if Rlt_dec eps (s 7%nat) then Failed else if Rlt_dec eps (s 6%nat) then Failed else if Rlt_dec (s 5%nat) eps then Failed
    else combine (quad_of_row vt 6 0) (quad_of_row vt 6 4) (quad_of_row vt 7 0) (quad_of_row vt 7 4)
  end.
(** estimatePose6D_6D6D, 221-252: all pairs, eyes forward and hands backward *)
Definition he_estimate (svd : svd8_oracle) (eyes hands : list pose) : outcome :=
  he_dual svd (map dq_of_pose (relative_all true eyes)) (map dq_of_pose (relative_all false hands)).

(** ** Selection of motions *)
(** pose6D_selection_impl, DataSelection.cpp:92-127: for every cluster the motion nearest to its
    centre; [None]: no motion belongs to the cluster, an uninitialised vector is returned *)
Fixpoint nearest (i : nat) (centre : v6) (idx : list nat) (a b : list v6) (best : R * option (v6 * v6)) : option (v6 * v6) :=
  match idx, a, b with
  | k :: idx', x :: a', y :: b' =>
    nearest i centre idx' a' b'
      (if (i =? k)%nat && (if Rlt_dec (rotation_distance centre x) (fst best) then true else false)
       then (rotation_distance centre x, Some (x, y)) else best)
  | _, _, _ => snd best
  end.
Definition select_nearest (n_cluster : nat) (means : list v6) (idx : list nat) (a b : list v6) : list (option (v6 * v6)) :=
  map (fun i => nearest i (nth i means (V6 v3zero v3zero)) idx a b (10000, None)) (seq 0 n_cluster).

(** DataSelection::resetIndices, DataSelection.h:491-527, after k_means has returned [idx]: the pose
    iterator is dereferenced in the loop increment, not advanced, so every distance is that of
    the first pose *)
Fixpoint reset_indices_loop (means : list v6) (p0 : v6) (idx : list nat) (i : nat) (dist : nat -> R) (out : nat -> nat) : nat -> nat :=
  match idx with
  | [] => out
  | k :: idx' =>
    let d := rotation_distance (nth k means (V6 v3zero v3zero)) p0 in
    if Rlt_dec d (dist k) then
      reset_indices_loop means p0 idx' (S i) (fun j => if (j =? k)%nat then d else dist j) (fun j => if (j =? k)%nat then i else out j)
    else reset_indices_loop means p0 idx' (S i) dist out
  end.
Definition reset_indices (means : list v6) (poses : list v6) (idx : list nat) : list nat :=
  map (reset_indices_loop means (nth 0 poses (V6 v3zero v3zero)) idx 0 (fun _ => 10000) (fun _ => 0%nat)) (seq 0 (length means)).
