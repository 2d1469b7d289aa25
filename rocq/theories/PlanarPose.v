(** Model of utAlgorithm/PoseEstimation2D3D/PlanarPoseEstimation.cpp: pose from a homography, its
    refinement, its covariance and computePose.  The LAPACK routines are function arguments. *)
From Coq Require Import Reals List Arith Bool.
Import ListNotations.
From Verif Require Import Mat Quat LinAlg AbsOrient Dlt Jacobians LevMarq BackProp.
Open Scope R_scope.

(** gesvd( 'A', 'A', ... ): singular values, u and v^T; 3x2 and 3x3 *)
Definition gesvd3 := mat -> vect * mat * mat.

Definition col3 (m : mat) (j : nat) : vec3 := V3 (m 0%nat j) (m 1%nat j) (m 2%nat j).
Definition det2 (m : mat) : R := m 0%nat 0%nat * m 1%nat 1%nat - m 0%nat 1%nat * m 1%nat 0%nat.

(** poseFromHomographyImpl, 72-133.  The sign, 77-85 *)
Definition signed (H invK : mat) : mat :=
  let r := mmul 3 invK H in if Rlt_dec 0 (r 2%nat 2%nat) then mscale (-1) r else r.
(** 88-93; [None]: division by zero *)
Definition homography_translation (r : mat) : option vec3 :=
  let len := norm3 (col3 r 0) + norm3 (col3 r 1) in
  if Req_EM_T len 0 then None else Some (v3scale (2 / len) (col3 r 2)).
(** with LAPACK, 95-112 *)
Definition orthogonal_svd (svd : gesvd3) (r : mat) : mat :=
  let '(_, u, vt) := svd r in
  mmul 3 u (mk33 (vt 0%nat 0%nat) (vt 0%nat 1%nat) 0
                 (vt 1%nat 0%nat) (vt 1%nat 1%nat) 0
                 0 0 (det2 vt * det3 u)).
Definition pose_from_homography (svd : gesvd3) (H invK : mat) : option pose :=
  let r := signed H invK in
  match homography_translation r, quat_of_mat (orthogonal_svd svd r) with
  | Some t, Some q => Some (P q t)
  | _, _ => None
  end.
(** without, 116-129; [None]: division by zero *)
Definition orthogonal_cross (r : mat) : option mat :=
  let fx := norm3 (col3 r 0) in let fy := norm3 (col3 r 1) in
  if Req_EM_T fx 0 then None else if Req_EM_T fy 0 then None else
  let x := v3scale (/ fx) (col3 r 0) in
  let c := cross3 x (v3scale (/ fy) (col3 r 1)) in
  let fz := norm3 c in
  if Req_EM_T fz 0 then None else
  let z := v3scale (/ fz) c in
  let y := cross3 z x in
  Some (mk33 (vx x) (vx y) (vx z) (vy x) (vy y) (vy z) (vz x) (vz y) (vz z)).
Definition pose_from_homography_plain (H invK : mat) : option pose :=
  let r := signed H invK in
  match homography_translation r, orthogonal_cross r with
  | Some t, Some m => match quat_of_mat m with Some q => Some (P q t) | None => None end
  | _, _ => None
  end.

(** parameter vector: Pose::toVector and fromVector, Pose.h *)
Definition pose_vector (p : pose) : vect :=
  vlist [vx (tra p); vy (tra p); vz (tra p); qx (rot p); qy (rot p); qz (rot p); qw (rot p)].
Definition vector_pose (v : vect) : pose := P (quat_of v 3) (vec_of v 0).

Definition image := (R * R)%type.
Definition points (p3d : list vec3) : nat -> vect := fun i => of3 (nth i p3d (V3 0 0 0)).
Definition measured (p2d : list image) : vect := vlist (flat_map (fun uv => [fst uv; snd uv]) p2d).

(** the projection with its Jacobian; [None]: a depth is zero or the quaternion is (NaN) *)
Definition visible (cam : mat) (p3d : list vec3) (v : vect) : bool :=
  negb (if Req_EM_T (qnorm (quat_of v 3)) 0 then true else false) &&
  forallb (fun x => if Req_EM_T (mvec 3 cam (pose_point (of3 x) v) 2%nat) 0 then false else true) p3d.
Definition projection_eval (cam : mat) (p3d : list vec3) (v : vect) : option (vect * mat) :=
  if visible cam p3d v then Some (multi_point cam (points p3d) v, multi_point_jac cam (points p3d) v) else None.
(** ProjectivePoseNormalize; a zero quaternion is kept, [projection_eval] reports it *)
Definition normalized (v : vect) : vect := match pose_normalize v with Some w => w | None => v end.

(** optimizePoseImpl, 149-171: the pose and the residual, None: NaN *)
Inductive refined := Refined (p : option pose) (res : option R) | Refine_throws | Refine_runs.
Definition optimize_pose (lin : solver -> option (mat * vect) -> lapack) (p : pose) (p2d : list image) (p3d : list vec3)
  (cam : mat) (iterations : nat) : refined :=
  match levenberg_marquardt (2 * length p2d) (projection_eval cam p3d) None normalized lin
          (opt_terminate iterations (1 / 1000000)) (measured p2d) 10 (S iterations) (pose_vector p) 1 Cholesky with
  | Done v e => Refined (option_map vector_pose v) e
  | Throw => Refine_throws
  | Running _ => Refine_runs
  end.

(** singleCameraPoseErrorImpl, 189-204 *)
Definition multi_point_error_jac (cam : mat) (p3d : list vec3) (v : vect) : mat := fun k =>
  point_error_jac cam (points p3d (k / 2)%nat) v (k mod 2)%nat.
Definition single_camera_error (gesvd : gesvd_o) (p : pose) (p3d : list vec3) (cam : mat) (image_error : R) : option mat :=
  back_identity gesvd (2 * length p3d) 6 image_error (multi_point_error_jac cam p3d (pose_vector p)).

(** reprojectionError, 258-305: [None]: division by zero *)
Definition projection34 (cam : mat) (p : pose) : mat :=
  mmul 3 cam (fun i j => if (j <? 3)%nat then qmat (rot p) i j else of3 (tra p) i).
Fixpoint reprojection_error (p2d : list image) (p3d : list vec3) (p : pose) (cam : mat) : option R :=
  match p2d, p3d with
  | uv :: p2d, x :: p3d =>
    let tmp := hom_transform (projection34 cam p) (of3 x) in
    if Req_EM_T (tmp 2%nat) 0 then None else
    let dx := tmp 0%nat / tmp 2%nat - fst uv in let dy := tmp 1%nat / tmp 2%nat - snd uv in
    match reprojection_error p2d p3d p cam with
    | Some r => Some (dx * dx + dy * dy + r)
    | None => None
    end
  | _, _ => Some 0
  end.

(** ** computePose, 319-512 *)
Inductive attempt (A : Type) := Got (a : A) | Bad | Thrown_out.    (** a value, NaN, an exception *)
Arguments Got {A} _. Arguments Bad {A}. Arguments Thrown_out {A}.
Definition of_option {A} (o : option A) : attempt A := match o with Some a => Got a | None => Bad end.

Definition image_vect (uv : image) : vect := vlist [fst uv; snd uv].

(** initialisation from a 3x4 projection matrix, 345-391: [Got None]: the matrix is too far from a
    rotation.  The call of decomposeProjection is for the log only and is left out *)
Definition init_projection (svd : gesvd_vt) (svd33 : gesvd3) (invK : mat) (p2d : list image) (p3d : list vec3) : attempt (option pose) :=
  match projection_dlt svd (map of3 p3d) (map image_vect p2d) with
  | None => Bad
  | Some p =>
    let rt0 := mmul 3 invK p in
    let rt := if Rlt_dec (det3 rt0) 0 then mscale (-1) rt0 else rt0 in
    let '(s, u, vt) := svd33 rt in
    if Req_EM_T (s 2%nat) 0 then Got None
    else if Rlt_dec (s 0%nat / s 2%nat) 2 then
      let t := v3scale (/ (s 0%nat * s 1%nat * s 2%nat)) (col3 rt 3) in
      match quat_of_mat (mmul 3 u vt) with
      | Some q => Got (Some (P q t))
      | None => Bad
      end
    else Got None
  end.

(** the leading points with the same z, 402-414 *)
Fixpoint same_level (z : R) (l : list vec3) : list vect :=
  match l with
  | [] => []
  | x :: l => if Req_EM_T (vz x) z then vlist [vx x; vy x] :: same_level z l else []
  end.

(** alignment of the plane of the first three points, 439-468: rotation and translation *)
Definition scaled_to_one (v : vec3) : option vec3 :=
  let f := norm3 v in if Req_EM_T f 0 then None else Some (v3scale (/ f) v).
Definition align_plane (a b c : vec3) : attempt (mat * vec3) :=
  match scaled_to_one (v3sub b a), scaled_to_one (v3sub c a) with
  | Some x, Some z =>
    if Rlt_dec (8 / 10) (dot3 x z) then Thrown_out
    else match scaled_to_one (cross3 x z) with
    | None => Bad
    | Some z =>
      let y := cross3 z x in
      let p := mk33 (vx x) (vy x) (vz x) (vx y) (vy y) (vz y) (vx z) (vy z) (vz z) in
      Got (p, v3opp (mv3 p a))
    end
  | _, _ => Bad
  end.

(** initialisation from a homography, 393-487 *)
Definition init_homography (svd : gesvd_vt) (svd32 : gesvd3) (invK : mat) (p2d : list image) (p3d : list vec3) : attempt pose :=
  match p3d with
  | a :: b :: c :: d :: _ =>
    let level := same_level (vz a) p3d in
    if (3 <? length level)%nat then
      match homography_dlt svd level (map image_vect (firstn (length level) p2d)) with
      | None => Bad
      | Some H => of_option (pose_from_homography svd32 H invK)
      end
    else
      match align_plane a b c with
      | Thrown_out => Thrown_out
      | Bad => Bad
      | Got (p, t) =>
        let flat := map (fun x => let y := v3add (mv3 p x) t in vlist [vx y; vy y]) [a; b; c; d] in
        match homography_dlt svd flat (map image_vect (firstn 4 p2d)) with
        | None => Bad
        | Some H =>
          match pose_from_homography svd32 H invK, quat_of_mat p with
          | Some h, Some q => Got (pmul h (P q t))
          | _, _ => Bad
          end
        end
      end
  | _ => Bad
  end.

Definition init_pose (svd : gesvd_vt) (svd32 svd33 : gesvd3) (inv : mat -> mat) (nonplanar : bool)
  (p2d : list image) (p3d : list vec3) (cam : mat) : attempt pose :=
  if (length p2d <? 4)%nat then Thrown_out else
  let invK := inv cam in
  let first := if nonplanar && (6 <=? length p2d)%nat then init_projection svd svd33 invK p2d p3d else Got None in
  match first with
  | Got (Some p) => Got p
  | Got None => init_homography svd svd32 invK p2d p3d
  | Bad => Bad
  | Thrown_out => Thrown_out
  end.

(** 489-511: pose, covariance (None: NaN), residual *)
Definition compute_pose (svd : gesvd_vt) (svd32 svd33 : gesvd3) (inv : mat -> mat) (gesvd : gesvd_o)
  (lin : solver -> option (mat * vect) -> lapack) (nonplanar optimize : bool)
  (p2d : list image) (p3d : list vec3) (cam : mat) : attempt (pose * option mat * R) :=
  match init_pose svd svd32 svd33 inv nonplanar p2d p3d cam with
  | Bad => Bad
  | Thrown_out => Thrown_out
  | Got p0 =>
    let fit :=
      if optimize then
        match optimize_pose lin p0 p2d p3d cam 6 with
        | Refined (Some p) (Some r) => Got (p, r)
        | Refined _ _ => Bad
        | Refine_throws => Thrown_out
        | Refine_runs => Bad
        end
      else match reprojection_error p2d p3d p0 cam with Some r => Got (p0, r) | None => Bad end in
    match fit with
    | Bad => Bad
    | Thrown_out => Thrown_out
    | Got (p, r) => Got (p, single_camera_error gesvd p p3d cam r, sqrt (r / INR (length p2d * 2)))
    end
  end.
