(** Model of poseFromFundamentalMatrix, utAlgorithm/FundamentalMatrix.cpp:221-300: the pose of a second
    camera from a fundamental matrix and one pair of image points.  Real arithmetic; lapack::gesvd is a
    function argument. *)
From Coq Require Import Reals Bool Arith List.
Import ListNotations.
From Verif Require Import Mat Quat LinAlg Dlt Triangulate PlanarPose.
Open Scope R_scope.

(** 223-226 *)
Definition essential (F K1 K2 : mat) : mat := mmul 3 (mmul 3 (tr K2) F) K1.
(** 234-242 *)
Definition quarter_turn : mat := mlist [[0; -1; 0]; [1; 0; 0]; [0; 0; 1]].
(** 253-257; [det3] for Math::determinant, see LuDetProps *)
Definition positive (M : mat) : mat := if Rlt_dec (det3 M) 0 then mscale (-1) M else M.
(** the 3 x 4 matrix with a rotation and a translation, 260-263 and 270-273 *)
Definition motion_mat (W : mat) (t : vect) : mat := fun i j => if (j =? 3)%nat then t i else W i j.
(** the tests 277, 286, 295 *)
Definition in_view (W : mat) (t : vect) (s : vec3) : bool :=
  if Rlt_dec (mvec 3 W (vlist [vx s; vy s; vz s]) 2%nat + t 2%nat) 0 then if Rlt_dec (vz s) 0 then true else false else false.
Definition result_pose (W : mat) (t : vect) : option pose :=
  option_map (fun q => P q (V3 (t 0%nat) (t 1%nat) (t 2%nat))) (quat_of_mat W).
(** 259-299; [None]: a triangulated point has a divisor zero, or Quaternion( W ) is not defined.  The
    inverse of the first pose, 265-267, is not used. *)
Definition pose_from_fundamental (svd : gesvd_vt) (svd3 : gesvd3) (F : mat) (x x' : vect) (K1 K2 : mat) : option pose :=
  let '(_, U, Vt) := svd3 (essential F K1 K2) in
  let W := positive (mmul 3 U (mmul 3 quarter_turn Vt)) in
  let Wt := positive (mmul 3 U (mmul 3 (tr quarter_turn) Vt)) in
  let u := fun i => U i 2%nat in
  let nu := fun i => - U i 2%nat in
  let P1 := mmul 3 K1 (motion_mat eye (fun _ => 0)) in
  let point W t := get3d_two svd P1 (mmul 3 K2 (motion_mat W t)) x x' in
  match point W u with
  | None => None
  | Some s => if in_view W u s then result_pose W u else
  match point W nu with
  | None => None
  | Some s => if in_view W nu s then result_pose W nu else
  match point Wt nu with
  | None => None
  | Some s => if in_view Wt nu s then result_pose Wt nu else result_pose Wt u
  end end end.
