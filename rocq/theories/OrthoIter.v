(** Model of utAlgorithm/PoseEstimation2D3D/NonPlanarPoseEstimation.cpp: pose from 2D-3D
    correspondences by orthogonal iteration (Lu, Hager and Mjolsness).  The rotation of each round
    comes from the model of Rotation3D.h in AbsOrient.v; the LAPACK routines behind it and behind
    invert_matrix are function arguments. *)
From Coq Require Import Reals List Arith Bool.
Import ListNotations.
From Verif Require Import Mat Quat AbsOrient.
Open Scope R_scope.

(** std::transform over two ranges *)
Definition zip_with {A B C} (f : A -> B -> C) (l : list A) (m : list B) : list C :=
  map (fun ab => f (fst ab) (snd ab)) (combine l m).

(** shiftToCenter, NonPlanarPoseEstimation.cpp:72-88: the shifted points; the centroid is
    [centroid (length l) l] *)
Definition shift_to_center (l : list vec3) : list vec3 := map (fun x => v3sub x (centroid (length l) l)) l.

(** lineOfSightProjectionMatrix, 167-177 *)
Definition los (v : vec3) : mat := fun i j => v3nth v i * (v3nth v j * (1 / dot3 v v)).

(** calculateTFactorMatrix, 91-100; [inv] is Math::invert_matrix *)
Definition msum (l : list mat) : mat := fold_right madd mzero l.
Definition t_factor (inv : mat -> mat) (vs : list mat) : mat :=
  mscale (/ INR (length vs)) (inv (msub eye (mscale (/ INR (length vs)) (msum vs)))).

(** estimateTranslation, 130-140 *)
Definition estimate_translation (vs : list mat) (rot : mat) (pts : list vec3) (tm : mat) : vec3 :=
  mv3 tm (v3sum (zip_with mv3 vs (map (mv3 rot) pts))).

(** object_space_error and calculateObjectSpaceError, 143-164 *)
Definition object_space_error (v : mat) (x : vec3) : R :=
  let y := mv3 (msub eye v) x in dot3 y y.
Definition total_error (vs : list mat) (pts : list vec3) : R :=
  fold_right Rplus 0 (zip_with object_space_error vs pts).

Section Impl.
Variable syev : syev4_oracle.
Variable inv : mat -> mat.
Variable big : R.                 (** std::numeric_limits< T >::max() *)
Variable images : list (R * R).
Variable object : list vec3.

(** 187-207 *)
Definition homogeneous : list vec3 := map (fun uv => V3 (fst uv) (snd uv) 1) images.
Definition center : vec3 := centroid (length object) object.
Definition p3d : list vec3 := shift_to_center object.
Definition sights : list mat := map los homogeneous.

(** one pass of the loop, 218-239: rotation, translation, transformed points and error; [None]:
    the rotation could not be estimated (break) *)
Definition oi_step (pts : list vec3) : option (quat * vec3 * list vec3 * R) :=
  let left := shift_to_center (zip_with mv3 sights pts) in
  match estimate_rotation syev left p3d (centroid (length left) left) (centroid (length left) p3d) with
  | None => None
  | Some q =>
    let r := qmat q in
    let t := estimate_translation sights r p3d (t_factor inv sights) in
    let pts' := map (fun x => v3add (mv3 r x) t) p3d in
    Some (q, t, pts', total_error sights pts')
  end.

(** the pose that is returned, 246-248 *)
Definition oi_pose (q : quat) (t : vec3) : option pose :=
  match quat_of_mat (qmat q) with
  | None => None
  | Some q' =>
    match qnormalize q' with
    | None => None
    | Some q'' => Some (P q'' (v3sub t (mv3 (qmat q) center)))
    end
  end.

(** what the call leaves behind: the return value, the pose (None: not written, Some None: NaN),
    max_error and max_iter *)
Record oi_result := OI { oi_flag : bool; oi_out : option (option pose); oi_error : R; oi_iter : nat }.

(** the loop, 213-263; [fuel] is max_iter - iterations *)
Fixpoint oi_loop (max_error : R) (fuel iterations : nat) (pts : list vec3) (error_old : R) : oi_result :=
  match fuel with
  | O => OI false None error_old iterations
  | S fuel =>
    match oi_step pts with
    | None => OI false None error_old iterations
    | Some (q, t, pts', error_new) =>
      if Rle_dec (Rabs (error_old - error_new)) max_error
      then OI true (Some (oi_pose q t)) error_new iterations
      else oi_loop max_error fuel (S iterations) pts' error_new
    end
  end.
Definition estimate_pose_2d3d (max_iter : nat) (max_error : R) : oi_result :=
  oi_loop max_error max_iter 0 homogeneous big.
End Impl.
