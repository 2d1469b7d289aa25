(** Model of the opening angles and of flipHandiness, src/utMath/CameraIntrinsics.h:236-274.
    [w], [h]: the image dimension (size_t; the products of line 260 are taken not to overflow), [fx], [fy]: matrix( 0, 0 ) and matrix( 1, 1 ).
    A division by zero gives [None]. *)
From Coq Require Import Reals ZArith.
Open Scope R_scope.

(** [acos( -1 )], 240 *)
Definition pi_of : R := acos (-1).
Definition factor : R := 360 / pi_of.
(** angleVertical 237-243 and angleHorizontal 246-252: one image side and its focal length *)
Definition angle_side (d : Z) (f : R) : option R := if Req_EM_T (2 * f) 0 then None else Some (factor * atan (IZR d / (2 * f))).
Definition angle_horizontal (w h : Z) (fx fy : R) : option R := angle_side w fx.
Definition angle_vertical (w h : Z) (fx fy : R) : option R := angle_side h fy.
(** angleDiagonal, 255-263 *)
Definition angle_diagonal (w h : Z) (fx fy : R) : option R :=
  let squaredDiag := (w * w + h * h)%Z in
  let squaredFocal := fx * fx + fy * fy in
  if Req_EM_T (4 * squaredFocal) 0 then None else Some (factor * atan (sqrt (IZR squaredDiag / (4 * squaredFocal)))).

(** flipHandiness, 267-273: the last column changes its sign *)
Definition flip_handiness (a : nat -> nat -> R) : nat -> nat -> R := fun i j => if Nat.eqb j 2 then a i j * -1 else a i j.
