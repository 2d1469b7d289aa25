(** Model of utAlgorithm/BundleAdjustment.cpp: the projection of every point into every camera
    with its Jacobian, and simpleBundleAdjustment around it.  [double] is a real number; a
    coordinate divided by a zero depth is NaN, so the whole evaluation is [None]. *)
From Coq Require Import Reals List Arith Bool.
Import ListNotations.
From Verif Require Import Mat Quat LevMarq.
Open Scope R_scope.

(** the pose and the point the loops read, BundleAdjustment.cpp:112-121 and 126-131 *)
Definition bundle_camera (input : vect) (c : nat) : pose :=
  let k := (c * 7)%nat in
  P (Q (input (k + 0)%nat) (input (k + 1)%nat) (input (k + 2)%nat) (input (k + 3)%nat))
    (V3 (input (k + 4)%nat) (input (k + 5)%nat) (input (k + 6)%nat)).
Definition bundle_point (n_cams : nat) (input : vect) (p : nat) : vec3 :=
  let k := (n_cams * 7 + p * 3)%nat in
  V3 (input (k + 0)%nat) (input (k + 1)%nat) (input (k + 2)%nat).

(** the entries written into the two rows of the Jacobian, in the order of the assignments:
    (column, value); BundleAdjustment.cpp:139-207 *)
Definition bundle_rows (camera point : nat) (pose : pose) (pt : vec3) : list (nat * R) * list (nat * R) :=
  let qx := qx (rot pose) in let qy := qy (rot pose) in let qz := qz (rot pose) in let qw := qw (rot pose) in
  let tx := vx (tra pose) in let ty := vy (tra pose) in let tz := vz (tra pose) in
  let x := vx pt in let y := vy pt in let z := vz pt in
  let t2 := qw*qw in
  let t3 := qx*qx in
  let t4 := qy*qy in
  let t5 := qz*qz in
  let t6 := qw*qy*2 in
  let t7 := t2-t3-t4+t5 in
  let t8 := t7*z in
  let t9 := qx*qz*2 in
  let t10 := qw*qx*2 in
  let t11 := qy*qz*2 in
  let t12 := t10+t11 in
  let t13 := t12*y in
  let t14 := t6-t9 in
  let t23 := t14*x in
  let t15 := t8+t13-t23+tz in
  let t16 := t2+t3-t4-t5 in
  let t17 := t16*x in
  let t18 := qw*qz*2 in
  let t33 := qx*qy*2 in
  let t19 := t18-t33 in
  let t20 := t6+t9 in
  let t21 := t20*z in
  let t34 := t19*y in
  let t22 := t17+t21-t34+tx in
  let t24 := 1/(t15*t15) in
  let t25 := qz*x*2 in
  let t26 := qw*y*2 in
  let t43 := qx*z*2 in
  let t27 := t25+t26-t43 in
  let t28 := 1/t15 in
  let t29 := qx*x*2 in
  let t30 := qy*y*2 in
  let t31 := qz*z*2 in
  let t32 := t29+t30+t31 in
  let t35 := qw*x*2 in
  let t36 := qy*z*2 in
  let t44 := qz*y*2 in
  let t37 := t35+t36-t44 in
  let t38 := qx*y*2 in
  let t39 := qw*z*2 in
  let t41 := qy*x*2 in
  let t40 := t38+t39-t41 in
  let t42 := t28*t40 in
  let t45 := t2-t3+t4-t5 in
  let t46 := t45*y in
  let t47 := t18+t33 in
  let t48 := t47*x in
  let t49 := t10-t11 in
  let t52 := t49*z in
  let t50 := t46+t48-t52+ty in
  let t51 := t28*t37 in
  ([ ((camera + 0)%nat, t32/(t8+t13+tz-x*(t6-qx*qz*2))-t22*t24*t27);
     ((camera + 1)%nat, t42+t22*t24*t37);
     ((camera + 2)%nat, -t27*t28-t22*t24*t32);
     ((camera + 3)%nat, t51-t22*t24*t40);
     ((camera + 4)%nat, t28);
     ((camera + 6)%nat, -t22*t24);
     ((point + 0)%nat, t16*t28+t14*t22*t24);
     ((point + 1)%nat, -t19*t28-t12*t22*t24);
     ((point + 2)%nat, t20*t28-t7*t22*t24) ],
   [ ((camera + 0)%nat, -t42-t24*t27*t50);
     ((camera + 1)%nat, t28*t32+t24*t37*t50);
     ((camera + 2)%nat, t51-t24*t32*t50);
     ((camera + 3)%nat, t27*t28-t24*t40*t50);
     ((camera + 5)%nat, t28);
     ((camera + 6)%nat, -t24*t50);
     ((point + 0)%nat, t28*t47+t14*t24*t50);
     ((point + 1)%nat, t28*t45-t12*t24*t50);
     ((point + 2)%nat, -t28*t49-t7*t24*t50) ]).

(** J( row, column ) = value, one after the other *)
Definition write1 (v : vect) (cv : nat * R) : vect := fun j => if (j =? fst cv)%nat then snd cv else v j.
Definition set_row (r : nat) (l : list (nat * R)) (J : mat) : mat := fun i =>
  if (i =? r)%nat then fold_left write1 l (J i) else J i.
Definition set_entry (r : nat) (x : R) (v : vect) : vect := fun i => if (i =? r)%nat then x else v i.

(** result( . ) = pts( . ) / pts( 2 ), BundleAdjustment.cpp:131-134 *)
Definition image_x (pose : pose) (pt : vec3) : R := vx (papp pose pt) / vz (papp pose pt).
Definition image_y (pose : pose) (pt : vec3) : R := vy (papp pose pt) / vz (papp pose pt).
Definition depth (pose : pose) (pt : vec3) : R := vz (papp pose pt).

(** one pass of the inner loop; the state is row_index, result and J; BundleAdjustment.cpp:123-208 *)
Definition bundle_step (n_cams : nat) (input : vect) (s : nat * vect * mat) (cp : nat * nat) : nat * vect * mat :=
  let '(row, result, J) := s in let (c, p) := cp in
  let pose := bundle_camera input c in let pt := bundle_point n_cams input p in
  let rows := bundle_rows (c * 7) (n_cams * 7 + p * 3) pose pt in
  ((row + 2)%nat,
   set_entry (row + 1) (image_y pose pt) (set_entry row (image_x pose pt) result),
   set_row (row + 1) (snd rows) (set_row row (fst rows) J)).
(** the two nested loops, from the zero matrix; BundleAdjustment.cpp:105-209 *)
Definition bundle_loops (n_cams n_pts : nat) (result input : vect) : vect * mat :=
  let '(_, result, J) :=
    fold_left (bundle_step n_cams input) (list_prod (seq 0 n_cams) (seq 0 n_pts)) (0%nat, result, mzero) in
  (result, J).

(** evaluateWithJacobian as the optimizer sees it: NaN when a depth is zero *)
Definition depths_ok (n_cams n_pts : nat) (input : vect) : bool :=
  forallb (fun cp => if Req_EM_T (depth (bundle_camera input (fst cp)) (bundle_point n_cams input (snd cp))) 0
                     then false else true) (list_prod (seq 0 n_cams) (seq 0 n_pts)).
Definition bundle_eval (n_cams n_pts : nat) (input : vect) : option (vect * mat) :=
  if depths_ok n_cams n_pts input then Some (bundle_loops n_cams n_pts (fun _ => 0) input) else None.

(** ** simpleBundleAdjustmentImpl *)

(** the measurement vector, BundleAdjustment.cpp:243-266: the observations of the cameras one
    after the other, however many there are of each *)
Definition pack_observations (obs : list (list (R * R))) : list R :=
  flat_map (fun uv => [fst uv; snd uv]) (concat obs).

(** the parameter vector, BundleAdjustment.cpp:274-297 *)
Definition pack_pose (p : pose) : list R :=
  [qx (rot p); qy (rot p); qz (rot p); qw (rot p); vx (tra p); vy (tra p); vz (tra p)].
Definition pack_point (v : vec3) : list R := [vx v; vy v; vz v].
Definition pack (n_cams : nat) (poses : list pose) (pts : list vec3) : list R :=
  flat_map pack_pose (firstn n_cams poses) ++ flat_map pack_point pts.

(** the points and poses read back, BundleAdjustment.cpp:310-326; [None]: the quaternion is zero
    and its normalisation NaN *)
Definition unpack_pose (v : vect) (c : nat) : option pose :=
  match qnormalize (rot (bundle_camera v c)) with
  | None => None
  | Some q => Some (P q (tra (bundle_camera v c)))
  end.
Definition unpack_points (n_cams n_pts : nat) (v : vect) : list vec3 := map (bundle_point n_cams v) (seq 0 n_pts).
Definition unpack_poses (n_cams : nat) (v : vect) : list (option pose) := map (unpack_pose v) (seq 0 n_cams).

(** what a call leaves behind.  [Undefined]: an iterator runs past the end of the poses, the
    projections are written past the end of the result vector, or part of it is read before it
    is written.  [Finished]: the parameters of the optimizer (None: NaN), the poses and the
    points. *)
Inductive bundle_outcome :=
| Undefined
| Thrown
| Unfinished
| Finished (v : option vect) (error : option R).

(** simpleBundleAdjustment up to the optimizer, BundleAdjustment.cpp:237-305 *)
Definition simple_bundle (lin : solver -> option (mat * vect) -> lapack)
  (obs : list (list (R * R))) (poses : list pose) (pts : list vec3) : bundle_outcome :=
  let n_cams := length obs in let n_pts := length pts in
  if (length poses <? n_cams)%nat then Undefined
  else if (length (concat obs) =? n_cams * n_pts)%nat then
    match levenberg_marquardt (2 * length (concat obs)) (bundle_eval n_cams n_pts) None (fun x => x) lin
            (opt_terminate 10 (1 / 1000000)) (vlist (pack_observations obs)) 10 11
            (vlist (pack n_cams poses pts)) 1 Cholesky with
    | Done v e => Finished v e
    | Throw => Thrown
    | Running _ => Unfinished
    end
  else Undefined.
