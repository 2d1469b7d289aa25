(** Model of the hand-eye calibration of Tsai and Lenz, utAlgorithm/PoseEstimation6D6D/TsaiLenz.cpp.
    Real arithmetic.  The overloads for matrices and poses agree but for the conversion of poses to
    matrices (473-481).  Math::invert_matrix and lapack::gels (whose return value is ignored) are
    function arguments. *)
From Coq Require Import Reals Bool Arith List.
Import ListNotations.
From Verif Require Import Mat Quat Dlt.
Open Scope R_scope.

(** getQuaternion, 223-294: the imaginary part.  The divisions are by the square root of the largest
    of four numbers which for a rotation matrix sum up to one. *)
Definition gq_q (m : mat) (c : nat) : R :=
  let d0 := m 0%nat 0%nat in let d1 := m 1%nat 1%nat in let d2 := m 2%nat 2%nat in
  match c with
  | 0%nat => (1 + d0 + d1 + d2) / 4
  | 1%nat => (1 + d0 - d1 - d2) / 4
  | 2%nat => (1 - d0 + d1 - d2) / 4
  | _ => (1 - d0 - d1 + d2) / 4
  end.
(** 236-241 *)
Definition gq_largest (q : nat -> R) : nat :=
  let c := if Rlt_dec (q 0%nat) (q 1%nat) then 1%nat else 0%nat in
  let c := if Rlt_dec (q c) (q 2%nat) then 2%nat else c in
  if Rlt_dec (q c) (q 3%nat) then 3%nat else c.
Definition get_quaternion (m : mat) : vec3 :=
  let q := gq_q m in
  let c := gq_largest q in
  let qoff0 := (m 2%nat 1%nat - m 1%nat 2%nat) / 4 in
  let qoff1 := (m 0%nat 2%nat - m 2%nat 0%nat) / 4 in
  let qoff2 := (m 1%nat 0%nat - m 0%nat 1%nat) / 4 in
  let qoff3 := (m 1%nat 0%nat + m 0%nat 1%nat) / 4 in
  let qoff4 := (m 0%nat 2%nat + m 2%nat 0%nat) / 4 in
  let qoff5 := (m 2%nat 1%nat + m 1%nat 2%nat) / 4 in
  let s := sqrt (q c) in
  let '(q0, q1, q2, q3) := match c with
    | 0%nat => (qoff0 / s, qoff1 / s, qoff2 / s, s)
    | 1%nat => (s, qoff3 / s, qoff4 / s, qoff0 / s)
    | 2%nat => (qoff3 / s, s, qoff5 / s, qoff1 / s)
    | _ => (qoff4 / s, qoff5 / s, s, qoff2 / s)
    end in
  if Rlt_dec q3 0 then V3 (- q0) (- q1) (- q2) else V3 q0 q1 q2.

(** skew, 151-165 *)
Definition skew_v (v : vec3) : mat := mk33 0 (- vz v) (vy v) (vz v) 0 (- vx v) (- vy v) (vx v) 0.
(** getMatrix, 168-195 *)
Definition get_matrix (p : vec3) : mat :=
  let length := vx p * vx p + vy p * vy p + vz p * vz p in
  let a := 1 - length / 2 in
  let alpha := sqrt (4 - length) in
  let e i := match i with 0%nat => vx p | 1%nat => vy p | _ => vz p end in
  fun i j => eye i j * a + (e i * e j + skew_v p i j * alpha) * (1 / 2).
(** getRcg, 198-220 *)
Definition get_rcg (p : vec3) : mat :=
  let divisor := sqrt (1 + (vx p * vx p + vy p * vy p + vz p * vz p)) in
  get_matrix (V3 (2 * vx p / divisor) (2 * vy p / divisor) (2 * vz p / divisor)).

(** computeTransformation, 371-386 *)
Definition relative_hand (inv : mat -> mat) (hi hj : mat) : mat := mmul 4 (inv hj) hi.
Definition relative_eye (inv : mat -> mat) (hi hj : mat) : mat := mmul 4 hj (inv hi).
(** fillTransformationVectors, 389-416: the pairs of indices *)
Definition pairs (n : nat) (all : bool) : list (nat * nat) :=
  flat_map (fun i => map (fun k => (i, k)) (seq (i + 1) ((if all then n else i + 2) - (i + 1)))) (seq 0 (n - 1)).
Definition motions (inv : mat -> mat) (hand eye_ : list mat) (all : bool) : list (mat * mat) :=
  map (fun ik => (relative_hand inv (nth (fst ik) hand mzero) (nth (snd ik) hand mzero),
                  relative_eye inv (nth (fst ik) eye_ mzero) (nth (snd ik) eye_ mzero))) (pairs (length hand) all).

(** three rows of a matrix *)
Definition rows3 (m : mat) : list vect := [fun j => m 0%nat j; fun j => m 1%nat j; fun j => m 2%nat j].
Definition list3 (v : vec3) : list R := [vx v; vy v; vz v].
Definition vec_add (a b : vec3) : vec3 := V3 (vx a + vx b) (vy a + vy b) (vz a + vz b).
Definition vec_sub (a b : vec3) : vec3 := V3 (vx a - vx b) (vy a - vy b) (vz a - vz b).
(** computeSidesRot, 297-320 *)
Definition rot_rows (gc : mat * mat) : list vect := rows3 (skew_v (vec_add (get_quaternion (fst gc)) (get_quaternion (snd gc)))).
Definition rot_rhs (gc : mat * mat) : list R := list3 (vec_sub (get_quaternion (snd gc)) (get_quaternion (fst gc))).
(** computeSidesTrans, 86-99 *)
Definition column3 (m : mat) : vec3 := V3 (m 0%nat 3%nat) (m 1%nat 3%nat) (m 2%nat 3%nat).
Definition tra_rows (gc : mat * mat) : list vect := rows3 (msub (fst gc) eye).
Definition tra_rhs (rcg : mat) (gc : mat * mat) : list R := list3 (vec_sub (mv3 rcg (column3 (snd gc))) (column3 (fst gc))).

Definition gels3 := nat -> mat -> vect -> vect.
Definition solve3 (gels : gels3) (rows : list vect) (b : list R) : vec3 :=
  let v := gels (length rows) (rows_mat rows) (fun i => nth i b 0) in V3 (v 0%nat) (v 1%nat) (v 2%nat).
(** computePcg, 323-368 *)
Definition compute_rcg (gels : gels3) (ms : list (mat * mat)) : mat :=
  get_rcg (solve3 gels (flat_map rot_rows ms) (flat_map rot_rhs ms)).
(** computeTcg, 102-148 *)
Definition compute_tcg (gels : gels3) (ms : list (mat * mat)) (rcg : mat) : vec3 :=
  solve3 gels (flat_map tra_rows ms) (flat_map (tra_rhs rcg) ms).
(** performHandEyeCalibrationImp, 419-446; outer [None]: exception, [Some None]: not a number *)
Definition tsai_lenz (inv : mat -> mat) (gels : gels3) (hand eye_ : list mat) (all : bool) : option (option pose) :=
  if negb (length eye_ =? length hand)%nat then None
  else if (length eye_ <=? 2)%nat then Some (Some pone)
  else
    let ms := motions inv hand eye_ all in
    let rcg := compute_rcg gels ms in
    match quat_of_mat rcg with
    | None => Some None
    | Some q => Some (Some (P q (compute_tcg gels ms rcg)))
    end.
(** the overload for poses, 461-516 *)
Definition tsai_lenz_poses (inv : mat -> mat) (gels : gels3) (hand eye_ : list pose) (all : bool) : option (option pose) :=
  tsai_lenz inv gels (map pose_mat hand) (map pose_mat eye_) all.
