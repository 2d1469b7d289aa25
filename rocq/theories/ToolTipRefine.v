(** Model of the nonlinear refinement of a tool tip calibration, utAlgorithm/ToolTip/Optimization.h, and of
    its error estimate, utAlgorithm/ToolTip/ErrorEstimation.h.  Doubles are real numbers, NaN is [None]. *)
From Coq Require Import Reals List Arith Bool.
Import ListNotations.
From Verif Require Import Mat Quat AbsOrient Dlt LevMarq.
Open Scope R_scope.

(** the first three parameters are the point in the world, the other three the tip on the tool *)
Definition world_of (x : vect) : vec3 := V3 (x 0%nat) (x 1%nat) (x 2%nat).
Definition tip_of (x : vect) : vec3 := V3 (x 3%nat) (x 4%nat) (x 5%nat).
(** ErrorFunction::operator(), ErrorEstimation.h:61-65, and the body of evaluate, Optimization.h:95-98 *)
Definition tip_distance (pw pm : vec3) (p : pose) : R :=
  let v := v3sub pw (papp p pm) in sqrt (vx v * vx v + vy v * vy v + vz v * vz v).
Definition nth_pose (ps : list pose) (i : nat) : pose := nth i ps (P qone (V3 0 0 0)).
(** MultiplePoseSinglePointTransformation::evaluate, Optimization.h:90-101 *)
Definition tip_evaluate (ps : list pose) (x : vect) : vect := fun i => tip_distance (world_of x) (tip_of x) (nth_pose ps i).

(** jacobian, Optimization.h:122-206, names of the code; [None]: a quotient 0 / 0 in the row *)
Definition tip_jacobian_row (p : pose) (x : vect) : option vect :=
  let x1 := x 0%nat in let y1 := x 1%nat in let z1 := x 2%nat in let x2 := x 3%nat in let y2 := x 4%nat in let z2 := x 5%nat in
  let qx := qx (rot p) in let qy := qy (rot p) in let qz := qz (rot p) in let qw := qw (rot p) in
  let tx := vx (tra p) in let ty := vy (tra p) in let tz := vz (tra p) in
  let t2 := qy*qy in let t3 := t2*2 in let t4 := qz*qz in let t5 := t4*2 in let t6 := t3+t5-1 in let t7 := t6*x2 in
  let t8 := qw*qz*2 in let t15 := qx*qy*2 in let t9 := t8-t15 in let t10 := t9*y2 in
  let t11 := qw*qy*2 in let t12 := qx*qz*2 in let t13 := t11+t12 in let t16 := t13*z2 in
  let t14 := t7+t10-t16-tx+x1 in let t17 := Rabs t14 in
  let t19 := qx*qx in let t20 := t19*2 in let t21 := qw*qx*2 in let t22 := qy*qz*2 in
  let t24 := t5+t20-1 in let t25 := t24*y2 in let t26 := t8+t15 in let t27 := t26*x2 in let t28 := t21-t22 in let t29 := t28*z2 in
  let t30 := t25-t27+t29-ty+y1 in let t18 := Rabs t30 in
  let t33 := t3+t20-1 in let t34 := t33*z2 in let t35 := t11-t12 in let t36 := t35*x2 in let t37 := t21+t22 in let t38 := t37*y2 in
  let t39 := t34+t36-t38-tz+z1 in let t23 := Rabs t39 in
  let t31 := t17*t17 in let t32 := t18*t18 in let t40 := t23*t23 in let t41 := t31+t32+t40 in let t42 := 1 / sqrt t41 in
  if Req_EM_T t14 0 then None else if Req_EM_T t30 0 then None else if Req_EM_T t39 0 then None else
  let t43 := t14 / Rabs t14 in let t44 := t30 / Rabs t30 in let t45 := t39 / Rabs t39 in
  Some (vlist [t17*t42*t43; t18*t42*t44; t23*t42*t45;
               t42*(t6*t17*t43*2-t18*t26*t44*2+t23*t35*t45*2)*(1/2);
               t42*(t9*t17*t43*2+t18*t24*t44*2-t23*t37*t45*2)*(1/2);
               t42*(t13*t17*t43*(-2)+t18*t28*t44*2+t23*t33*t45*2)*(1/2)]).
(** all rows; [None]: some entry is NaN *)
Fixpoint tip_jacobian (ps : list pose) (x : vect) : option (list vect) :=
  match ps with
  | [] => Some []
  | p :: ps => match tip_jacobian_row p x, tip_jacobian ps x with Some r, Some rs => Some (r :: rs) | _, _ => None end
  end.
Definition jac_mat (rows : list vect) : mat := fun i j => nth i rows (fun _ => 0) j.

(** levenbergMarquardt of this function with measurement zero (LevenbergMarquardt.h:82-229, arguments of
    Optimization.h:241: no weights, no normalisation, Cholesky, step size 1, factor 10).  Unlike in LevMarq.v
    the Jacobian may be NaN where the distances are numbers. *)
Section refine.
Variable ps : list pose.
Variable lin : solver -> option (mat * vect) -> lapack.
Variable term : nat -> option R -> option R -> bool.
Record tstate := TSt { tparams : option vect; terr : option R; tlin : option (vect * mat); tlambda : R; tkind : solver; titer : nat }.
Definition squares (x : vect) : R := sum (length ps) (fun i => tip_evaluate ps x i * tip_evaluate ps x i).
(** measurement difference (0 - distance) and Jacobian *)
Definition tlinearise (x : vect) : option (vect * mat) :=
  option_map (fun rows => (fun i => 0 - tip_evaluate ps x i, jac_mat rows)) (tip_jacobian ps x).
Definition tround (s : tstate) : option (tstate * bool) :=
  let it := S (titer s) in
  match lin (tkind s) (normal_equations (length ps) (tlambda s) (tlin s)) with
  | Failure =>
    match tkind s with
    | Cholesky => Some (TSt (tparams s) (terr s) (tlin s) (tlambda s) SVD it, false)
    | _ => None
    end
  | Solution dx =>
    let new_params := match tparams s, dx with Some p, Some dx => Some (vadd p dx) | _, _ => None end in
    let err := option_map squares new_params in
    let stop := term it err (terr s) in
    if ge err (terr s)
    then Some (TSt (tparams s) (terr s) (tlin s) (tlambda s * 10) (tkind s) it, stop)
    else Some (TSt new_params err (match new_params with Some p => tlinearise p | None => None end) (tlambda s / 10) (tkind s) it, stop)
  end.
Inductive tresult := TDone (p : option vect) (err : option R) | TThrow | TRunning.
Fixpoint tloop (fuel : nat) (s : tstate) : tresult :=
  match fuel with
  | O => TRunning
  | S fuel =>
    match tround s with
    | None => TThrow
    | Some (s, true) => TDone (tparams s) (terr s)
    | Some (s, false) => tloop fuel s
    end
  end.
Definition tinitial (x : vect) : tstate := TSt (Some x) (Some (squares x)) (tlinearise x) 1 Cholesky 0.

(** estimatePosition3D_6D with a termination criterion, Optimization.h:214-255: false, an exception, still
    running, or the point in the world and the tip, [None] if they are NaN *)
Inductive refined := NoEstimate | Exception | StillRunning | Estimate (w : option (vec3 * vec3)).
Definition tool_tip_refined (gels : gels6) (fuel : nat) : refined :=
  match tool_tip gels ps with
  | None => NoEstimate
  | Some (pw, pm) =>
    match tloop fuel (tinitial (vlist [vx pw; vy pw; vz pw; vx pm; vy pm; vz pm])) with
    | TDone p _ => Estimate (option_map (fun x => (world_of x, tip_of x)) p)
    | TThrow => Exception
    | TRunning => StillRunning
    end
  end.
End refine.

(** estimatePosition3DError_6D, ErrorEstimation.h:75-109: mean and standard deviation.  n - 1 is unsigned:
    without poses the deviation is 0 / (2^64 - 1) *)
Definition tip_errors (pw : vec3) (ps : list pose) (pm : vec3) : option R * option R :=
  let d := map (tip_distance pw pm) ps in
  let n := INR (length ps) in
  match ps with
  | [] => (None, Some 0)
  | _ => let err := fold_left Rplus d 0 / n in
         (Some err,
          match ps with
          | [_] => None
          | _ => Some (sqrt (fold_left (fun s e => s + (e - err) * (e - err)) d 0 / (n - 1)))
          end)
  end.
