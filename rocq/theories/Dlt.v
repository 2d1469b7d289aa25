(** Model of the linear calibration systems: homography and projection matrix by direct linear
    transformation (Homography.cpp, Projection.cpp), the eight-point algorithm and the matrix from
    two poses (FundamentalMatrix.cpp) and the tool tip system (ToolTip/LeastSquare.h).  Real
    arithmetic.  A point is a vector of which only the first two (three) entries are used.
    lapack::gesvd and gels are function arguments. *)
From Coq Require Import Reals Bool Arith List.
Import ListNotations.
From Verif Require Import Mat Quat LinAlg.
Open Scope R_scope.

(** a matrix stored row by row *)
Definition rows_mat (rows : list vect) : mat := fun i j => nth i rows (fun _ => 0) j.
(** lapack::gesvd( 'N', 'A', A, s, U, Vt ) for A with the given number of rows: Vt *)
Definition gesvd_vt := nat -> mat -> mat.
(** element_div( p - shift, scale ) *)
Definition normalize_point (sh sc p : vect) : vect := fun i => (p i - sh i) / sc i.
(** a scale that is divided by vanishes *)
Definition scale_ok (n : nat) (sc : vect) : bool :=
  forallb (fun i => if Req_EM_T (sc i) 0 then false else true) (seq 0 n).

(** ** Homography.cpp, homographyDLTImpl, 45-106 *)
(** the two rows of a correspondence, 65-84 *)
Definition homography_rows (from to : vect) : list vect :=
  let x := from 0%nat in let y := from 1%nat in let u := to 0%nat in let v := to 1%nat in
  [vlist [0; 0; 0; - x; - y; -1; v * x; v * y; v];
   vlist [x; y; 1; 0; 0; 0; - u * x; - u * y; - u]].
Definition homography_system (fs fc ts tc : vect) (from to : list vect) : list vect :=
  flat_map (fun ft => homography_rows (normalize_point fs fc (fst ft)) (normalize_point ts tc (snd ft)))
    (combine from to).
(** [None]: the division by a zero scale; the result of gesvd is not checked by the code *)
Definition homography_dlt (svd : gesvd_vt) (from to : list vect) : option mat :=
  match norm_params from, norm_params to with
  | Some (fs, fc), Some (ts, tc) =>
    if scale_ok 2 fc && scale_ok 2 tc then
      let rows := homography_system fs fc ts tc from to in
      let vt := svd (length rows) (rows_mat rows) in
      let h : mat := fun i j => vt 8%nat (3 * i + j)%nat in
      Some (mmul 3 (mmul 3 (norm_matrix 2 ts tc true) h) (norm_matrix 2 fs fc false))
    else None
  | _, _ => None
  end.

(** ** Projection.cpp, projectionDLTImpl, 57-131 *)
Definition projection_rows (from to : vect) : list vect :=
  let x := from 0%nat in let y := from 1%nat in let z := from 2%nat in
  let u := to 0%nat in let v := to 1%nat in
  [vlist [0; 0; 0; 0; - x; - y; - z; -1; v * x; v * y; v * z; v];
   vlist [x; y; z; 1; 0; 0; 0; 0; - u * x; - u * y; - u * z; - u]].
Definition projection_system (fs fc ts tc : vect) (from to : list vect) : list vect :=
  flat_map (fun ft => projection_rows (normalize_point fs fc (fst ft)) (normalize_point ts tc (snd ft)))
    (combine from to).
(** 118-128; [None]: the viewing row has length zero *)
Definition unit_view (p : mat) (first : vect) : option mat :=
  let len := sqrt (p 2%nat 0%nat * p 2%nat 0%nat + p 2%nat 1%nat * p 2%nat 1%nat + p 2%nat 2%nat * p 2%nat 2%nat) in
  let len := if Rlt_dec (p 2%nat 0%nat * first 0%nat + p 2%nat 1%nat * first 1%nat + p 2%nat 2%nat * first 2%nat + p 2%nat 3%nat) 0
             then - len else len in
  if Req_EM_T len 0 then None else Some (mscale (1 / len) p).
Definition projection_dlt (svd : gesvd_vt) (from to : list vect) : option mat :=
  match norm_params from, norm_params to with
  | Some (fs, fc), Some (ts, tc) =>
    if scale_ok 3 fc && scale_ok 2 tc then
      let rows := projection_system fs fc ts tc from to in
      let vt := svd (length rows) (rows_mat rows) in
      let p : mat := fun i j => vt 11%nat (4 * i + j)%nat in
      unit_view (mmul 4 (mmul 3 (norm_matrix 2 ts tc true) p) (norm_matrix 3 fs fc false)) (hd (fun _ => 0) from)
    else None
  | _, _ => None
  end.

(** ** FundamentalMatrix.cpp *)
(** normalize, 51-81: shift and scale; [None]: all points coincide, or there are none *)
Definition mean2 (pts : list vect) : vect := fun i =>
  fold_left (fun s p => s + p i) pts 0 / INR (length pts).
Definition mean_distance (sh : vect) (pts : list vect) : R :=
  fold_left (fun s (p : vect) => s + sqrt ((p 0%nat - sh 0%nat) * (p 0%nat - sh 0%nat) + (p 1%nat - sh 1%nat) * (p 1%nat - sh 1%nat))) pts 0
  / INR (length pts).
Definition fm_normalize (pts : list vect) : option (vect * R) :=
  let sh := mean2 pts in
  if (length pts =? 0)%nat then None
  else if Req_EM_T (mean_distance sh pts) 0 then None else Some (sh, sqrt 2 / mean_distance sh pts).
(** modMatrix, 72-80 *)
Definition mod_matrix (sh : vect) (s : R) : mat :=
  mlist [[s; 0; - s * sh 0%nat]; [0; s; - s * sh 1%nat]; [0; 0; 1]].
Definition fm_point (sh : vect) (s : R) (p : vect) : vect := fun i => (p i - sh i) * s.
(** a row, 126-136 *)
Definition fm_row (from to : vect) : vect :=
  let x := from 0%nat in let y := from 1%nat in let x' := to 0%nat in let y' := to 1%nat in
  vlist [x' * x; x' * y; x'; y' * x; y' * y; y'; x; y; 1].
(** 119-137: every stepSize-th correspondence, size / stepSize of them *)
Definition every (step : nat) {A} (l : list A) (d : A) : list A :=
  map (fun i => nth (i * step) l d) (seq 0 (length l / step)).
Definition zero2 : vect := fun _ => 0.
Definition fm_system (fs : vect) (fc : R) (ts : vect) (tc : R) (from to : list vect) (step : nat) : list vect :=
  map (fun ft => fm_row (fm_point fs fc (fst ft)) (fm_point ts tc (snd ft))) (combine (every step from zero2) (every step to zero2)).
(** gesvd( 'A', 'A', F, s, U, Vt ) of a 3x3 matrix *)
Definition gesvd3 := mat -> option (mat * vect * mat).
(** 165-171: the smallest singular value is replaced by zero *)
Definition rank_two (u : mat) (s : vect) (vt : mat) : mat :=
  mmul 3 (fun i j => u i j * (if (j =? 2)%nat then 0 else s j)) vt.
(** getFundamentalMatrixImpl, 83-177; outer [None]: exception, [Some None]: division by zero *)
Definition fundamental_matrix (svd : nat -> mat -> option mat) (svd3 : gesvd3) (from to : list vect) (step : nat) : option (option mat) :=
  if (step <? 1)%nat then None
  else if negb (length from =? length to)%nat then None
  else if (length from <? 8)%nat then None
  else match fm_normalize from, fm_normalize to with
  | Some (fs, fc), Some (ts, tc) =>
    let rows := fm_system fs fc ts tc from to step in
    match svd (length rows) (rows_mat rows) with
    | None => None
    | Some vt =>
      match svd3 (fun i j => vt 8%nat (3 * i + j)%nat) with
      | None => None
      | Some (u, s, v) =>
        Some (Some (mmul 3 (mmul 3 (tr (mod_matrix ts tc)) (rank_two u s v)) (mod_matrix fs fc)))
      end
    end
  | _, _ => Some None
  end.

(** fundamentalMatrixFromPoses, 191-219: E1, E2 are the first three rows of the pose matrices; the
    inverse of the 4x4 pose matrix and the pseudo-inverse are arguments *)
Definition skew3 (e : vect) : mat :=
  mlist [[0; - e 2%nat; e 1%nat]; [e 2%nat; 0; - e 0%nat]; [- e 1%nat; e 0%nat; 0]].
Definition fundamental_from_poses (inv4 : mat -> mat) (pinv : mat -> mat) (cam1 cam2 : pose) (k1 k2 : mat) : mat :=
  let e1 := mmul 3 k1 (pose_mat cam1) in
  let e2 := mmul 3 k2 (pose_mat cam2) in
  let p1i := inv4 (pose_mat cam1) in
  let c := vlist [p1i 0%nat 3%nat; p1i 1%nat 3%nat; p1i 2%nat 3%nat; 1] in
  mmul 3 (skew3 (mvec 4 e2 c)) (mmul 4 e2 (pinv e1)).

(** ** ToolTip/LeastSquare.h, estimatePosition3D_6D, 83-128 *)
(** rows 3i .. 3i+2: [ R_i | -I ], right-hand side -t_i *)
Definition tip_rows (p : pose) : list vect :=
  map (fun r => fun j => if (j <? 3)%nat then qmat (rot p) r j else if (j =? 3 + r)%nat then -1 else 0) [0; 1; 2]%nat.
Definition tip_rhs (p : pose) : list R := [- vx (tra p); - vy (tra p); - vz (tra p)].
Definition tip_system (ps : list pose) : list vect := flat_map tip_rows ps.
Definition tip_right (ps : list pose) : list R := flat_map tip_rhs ps.
(** lapack::gels( 'N', a, v ): the solution in the first six entries of v *)
Definition gels6 := nat -> mat -> vect -> option vect.
(** (pw, pm) *)
Definition tool_tip (gels : gels6) (ps : list pose) : option (vec3 * vec3) :=
  match gels (length (tip_system ps)) (rows_mat (tip_system ps)) (fun i => nth i (tip_right ps) 0) with
  | None => None
  | Some v => Some (V3 (v 3%nat) (v 4%nat) (v 5%nat), V3 (v 0%nat) (v 1%nat) (v 2%nat))
  end.
