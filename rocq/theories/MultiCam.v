(** Pose of an object seen by several cameras, utAlgorithm/MultipleCameraPoseOptimization.cpp.  The objective
    function is [objective] (NewFunction.v).  The LAPACK routines are function arguments. *)
From Coq Require Import Reals List ZArith Arith Bool.
Import ListNotations.
From Verif Require Import Mat Quat Jacobians LevMarq BackProp Dlt NewFunction PlanarPose.
Open Scope R_scope.

(** int to size_t, 64 bit *)
Definition size_t (z : Z) : Z := (z mod 2 ^ 64)%Z.

Definition nonzero (x : R) : bool := if Req_EM_T x 0 then false else true.
Definition look {A} (l : list (list A)) (i j : nat) : option A :=
  match nth_error l i with Some r => nth_error r j | None => None end.

(** the local variables of 78-94; the vectors with one entry per camera are functions *)
Record collected := Col {
  observations : list (nat * nat); p3d_local : list vec3; p3d_filtered : nat -> list vec3;
  p2d_local : nat -> list image; total : nat; count : nat -> nat }.
Definition nothing : collected := Col [] [] (fun _ => []) (fun _ => []) 0 (fun _ => O).
Definition at_camera {A} (f : nat -> A) (cam : nat) (a : A) : nat -> A := fun c => if (c =? cam)%nat then a else f c.

(** the body of the loops, 99-116; [None]: an index is out of range (operator[] of weights: undefined
    behaviour, at() of the others: an exception) *)
Definition visit (p3d : list vec3) (p2d : list (list image)) (w : list (list R)) (start cam : nat)
  (s : option collected) (i : nat) : option collected :=
  match s, look w cam i with
  | Some s, Some wi =>
    let s1 :=
      if nonzero wi then
        match look p2d cam i, nth_error p3d i with
        | Some m, Some x => Some (Col (observations s ++ [((i - start)%nat, cam)]) (p3d_local s)
            (at_camera (p3d_filtered s) cam (p3d_filtered s cam ++ [x])) (at_camera (p2d_local s) cam (p2d_local s cam ++ [m]))
            (S (total s)) (at_camera (count s) cam (S (count s cam))))
        | _, _ => None
        end
      else Some s in
    match s1 with
    | Some s1 =>
      if (cam =? 0)%nat then
        match nth_error p3d i with
        | Some x => Some (Col (observations s1) (p3d_local s1 ++ [x]) (p3d_filtered s1) (p2d_local s1) (total s1) (count s1))
        | None => None
        end
      else Some s1
    | None => None
    end
  | _, _ => None
  end.
(** 97-117: size_t pointIndex from startIndex to endIndex inclusive, both converted from int.  An end
    beyond the list is an index out of range (unless there is no camera) *)
Definition collect (p3d : list vec3) (p2d : list (list image)) (w : list (list R)) (start fin : Z) : option collected :=
  let s := size_t start in let e := size_t fin in
  let cameras := seq 0 (length w) in
  if (s <=? e)%Z then
    if (e <? Z.of_nat (length p3d))%Z then
      fold_left (fun acc cam => fold_left (visit p3d p2d w (Z.to_nat s) cam) (seq (Z.to_nat s) (Z.to_nat (e - s + 1))) acc) cameras (Some nothing)
    else match w with [] => Some nothing | _ => None end
  else Some nothing.

(** std::min_element, max_element: the value of the smallest, the index of the first largest *)
Definition minimum (l : list nat) : option nat := match l with [] => None | x :: l => Some (fold_left Nat.min l x) end.
Fixpoint max_index_from (l : list nat) (i best : nat) (bestval : nat) : nat :=
  match l with [] => best | x :: l => if (bestval <? x)%nat then max_index_from l (S i) i x else max_index_from l (S i) best bestval end.
Definition max_index (l : list nat) : nat := match l with [] => 0%nat | x :: l => max_index_from l 1 0 x end.

(** 138-147 *)
Definition measurement_list (cameras : nat) (c : collected) : list image := flat_map (p2d_local c) (seq 0 cameras).
(** 149-159 *)
Definition cam_rotation (poses : list pose) (c : nat) : mat := qmat (rot (nth c poses pone)).
Definition cam_translation (poses : list pose) (c : nat) : vect := of3 (tra (nth c poses pone)).
Definition cam_matrix (mats : list mat) (c : nat) : mat := nth c mats eye.
(** ObjectiveFunction::evaluateWithJacobian; [None]: a depth is zero (NaN) *)
Definition depth (poses : list pose) (mats : list mat) (p3d : list vec3) (input : vect) (o : nat * nat) : R :=
  mvec 3 (cam_matrix mats (snd o)) (vadd (cam_translation poses (snd o)) (mvec 3 (cam_rotation poses (snd o))
    (vadd input (lie_rotate (points p3d (fst o)) (fun i => input (3 + i)%nat))))) 2%nat.
Definition multi_eval (poses : list pose) (mats : list mat) (p3d : list vec3) (obs : list (nat * nat)) (input : vect) : option (vect * mat) :=
  if forallb (fun o => nonzero (depth poses mats p3d input o)) obs
  then Some (objective (fun _ _ => 0) (points p3d) (cam_rotation poses) (cam_translation poses) (cam_matrix mats) obs input (fun _ => 0) (fun _ _ => 0))
  else None.
(** 165-167 and 172 *)
Definition log_vector (p : pose) : vect :=
  let l := to_log (rot p) in vlist [vx (tra p); vy (tra p); vz (tra p); vx l; vy l; vz l].
Definition log_pose (v : vect) : pose := P (from_log (vec_of v 3)) (vec_of v 0).

(** the result: pose, covariance and residual; the default pose with -1; NaN; an exception of LAPACK or of
    computePose; an index out of range, or the dereferenced end of an empty vector *)
Inductive estimate := Estimate (p : pose) (cov : mat) (res : R) | Too_few | Not_a_number | Failed | Undefined_.

Section solvers.
Variables (svd : gesvd_vt) (svd32 svd33 : gesvd3) (inv : mat -> mat).
Variable lin : solver -> option (mat * vect) -> lapack.

(** 129-136.  The fourth argument of computePose in 133-134 is the bool [optimize]: the enumeration constant
    PLANAR_HOMOGRAPHY is 0, so the pose is not refined and computePose returns the pose of [init_pose]
    (PlanarPose.v, [compute_pose]); its residual and covariance are not used *)
Definition first_pose (poses : list pose) (mats : list mat) (best : nat) (has_initial : bool) (initial_pose : pose) (c : collected) : attempt pose :=
  if has_initial then Got initial_pose
  else match nth_error poses best, nth_error mats best with
       | Some cp, Some cm =>
         match init_pose svd svd32 svd33 inv false (p2d_local c best) (p3d_filtered c best) cm with
         | Got p => Got (pmul cp p)
         | Bad => Bad
         | Thrown_out => Thrown_out
         end
       | _, _ => Thrown_out
       end.

(** multipleCameraEstimatePose, 58-183 *)
Definition estimate_pose (p3d : list vec3) (p2d : list (list image)) (w : list (list R)) (poses : list pose) (mats : list mat)
  (min_corr : Z) (has_initial : bool) (initial_pose : pose) (start fin : Z) : estimate :=
  let fin := if (fin =? -1)%Z then (Z.of_nat (length p3d) - 1)%Z else fin in
  let n := length w in
  match collect p3d p2d w start fin with
  | None => Undefined_
  | Some c =>
    let counts := map (count c) (seq 0 n) in
    match minimum counts with
    | None => Undefined_
    | Some min_obs =>
      let best := max_index counts in
      if ((size_t min_corr <=? Z.of_nat min_obs)%Z && (has_initial || (4 <=? count c best)%nat))%bool then
        match first_pose poses mats best has_initial initial_pose c with
        | Got p0 =>
          match levenberg_marquardt (2 * length (observations c)) (multi_eval poses mats (p3d_local c) (observations c)) None (fun v => v) lin
                  (opt_terminate 10 (1 / 1000000)) (measured (measurement_list n c)) 10 11 (log_vector p0) 1 Cholesky with
          | Done (Some v) (Some r) => Estimate (log_pose v) (mscale r eye) r
          | Done _ _ => Not_a_number
          | Throw => Failed
          | Running _ => Failed
          end
        | Bad => Not_a_number
        | Thrown_out => Failed
        end
      else Too_few
    end
  end.

(** checkConsistency, 185-211: true, or an exception *)
Definition check_consistency (p3d : list vec3) (p2d : list (list image)) (w : list (list R)) (poses : list pose) (mats : list mat) : bool :=
  ((3 <=? length p3d)%nat && (length p2d =? length w)%nat && (length p2d =? length poses)%nat && (length p2d =? length mats)%nat &&
   forallb (fun c => (length p3d =? length (nth c w []))%nat && (length p3d =? length (nth c p2d []))%nat) (seq 0 (length w)))%bool.

(** multipleCameraPoseEstimationWithLocalBundles, 214-252: the estimates up to the first that does not return;
    [None]: checkConsistency throws.  The sizes are int *)
Fixpoint bundles_from p3d p2d w poses mats (min_corr : Z) (offset : Z) (sizes : list Z) : list estimate :=
  match sizes with
  | [] => []
  | n :: sizes =>
    let e := estimate_pose p3d p2d w poses mats min_corr false pone offset (offset + n - 1) in
    match e with
    | Failed | Undefined_ => [e]
    | _ => e :: bundles_from p3d p2d w poses mats min_corr (offset + n) sizes
    end
  end.
Definition local_bundles p3d p2d w poses mats min_corr (sizes : list Z) : option (list estimate) :=
  if check_consistency p3d p2d w poses mats then Some (bundles_from p3d p2d w poses mats min_corr 0 sizes) else None.
(** multipleCameraPoseEstimation, 255-275 *)
Definition multi_camera_pose p3d p2d w poses mats min_corr has_initial initial_pose : option estimate :=
  if check_consistency p3d p2d w poses mats
  then Some (estimate_pose p3d p2d w poses mats min_corr has_initial initial_pose 0 (-1)) else None.
End solvers.
