(** Model of Ubitrack::Math::ErrorPose: a pose with a 6x6 covariance of the errors of
    its translation (indices 0-2) and rotation (indices 3-5).  [double] is a real. *)
From Coq Require Import Reals List.
Import ListNotations.
From Coquelicot Require Import Coquelicot.
From Verif Require Import Mat Quat CovTransform.
Open Scope R_scope.

(** ErrorPose.h:58-137 *)
Record epose := EP { ep : pose; cov : mat }.

(** [inversionJacobian], ErrorPose.cpp:45-132 *)
Definition inv_jac (p : pose) : mat :=
  let t5364 := qx (rot p) in let t5362 := qw (rot p) in let t5369 := qy (rot p) in
  let t5371 := qz (rot p) in let t5378 := vx (tra p) in let t5380 := vy (tra p) in
  let t5365 := t5364 * t5364 in let t5386 := vz (tra p) in let t5382 := t5369 * t5378 in
  let t5363 := t5362 * t5362 in let t5388 := t5369 * t5369 in
  let t5379 := 2 * t5364 * t5371 * t5378 in let t5381 := 2 * t5369 * t5371 * t5380 in
  let t5383 := - (t5364 * t5380) in let t5384 := t5382 + t5383 in let t5385 := 2 * t5362 * t5384 in
  let t5387 := - 2 * t5365 * t5386 in let t5389 := - 2 * t5386 * t5388 in
  let t5390 := t5379 + t5381 + t5385 + t5386 + t5387 + t5389 in let t5394 := t5371 * t5371 in
  let t5392 := - 2 * t5362 * t5371 * t5378 in let t5393 := - 2 * t5365 * t5380 in
  let t5395 := - 2 * t5380 * t5394 in let t5396 := 2 * t5369 * t5371 * t5386 in
  let t5397 := t5362 * t5386 in let t5398 := t5382 + t5397 in let t5399 := 2 * t5364 * t5398 in
  let t5400 := t5380 + t5392 + t5393 + t5395 + t5396 + t5399 in let t5417 := t5371 * t5380 in
  let t5418 := - (t5369 * t5386) in let t5419 := t5417 + t5418 in let t5420 := t5362 * t5419 in
  let t5421 := t5369 * t5380 in let t5422 := t5371 * t5386 in let t5423 := t5421 + t5422 in
  let t5424 := t5364 * t5423 in let t5425 := t5420 + t5424 in let t5428 := t5362 * t5369 in
  let t5429 := t5364 * t5371 in let t5430 := t5428 + t5429 in let t5370 := t5364 * t5369 in
  let t5372 := t5362 * t5371 in let t5373 := t5370 + t5372 in let t5446 := - 2 * t5394 in
  let t5408 := t5362 * t5364 in let t5409 := t5369 * t5371 in let t5410 := t5408 + t5409 in
  let t5453 := - 2 * t5365 in let t5445 := - 2 * t5388 in
  mlist [
   [ 1 - 2 * (t5363 + t5365);
     - 2 * t5373;
     2 * t5362 * t5369 - 2 * t5364 * t5371;
     0;
     2 * t5390;
     - 2 * t5400 ];
   [ - 2 * t5364 * t5369 + 2 * t5362 * t5371;
     1 - 2 * (t5363 + t5388);
     - 2 * t5410;
     - 2 * t5390;
     0;
     t5378 * (2 - 4 * t5388 - 4 * t5394) + 4 * t5425 ];
   [ - 2 * t5430;
     2 * t5362 * t5364 - 2 * t5369 * t5371;
     1 - 2 * (t5363 + t5394);
     2 * t5400;
     t5378 * (- 2 + 4 * t5388 + 4 * t5394) - 4 * t5425;
     0 ];
   [ 0;
     0;
     0;
     1 + t5445 + t5446;
     2 * t5364 * t5369 - 2 * t5362 * t5371;
     2 * t5430 ];
   [ 0;
     0;
     0;
     2 * t5373;
     1 + t5446 + t5453;
     - 2 * t5362 * t5364 + 2 * t5369 * t5371 ];
   [ 0;
     0;
     0;
     - 2 * t5362 * t5369 + 2 * t5364 * t5371;
     2 * t5410;
     1 + t5445 + t5453 ]
  ].

(** [multiplicationJacobians], first matrix, ErrorPose.cpp:135-212 *)
Definition mul_jac1 (p1 p2 : pose) : mat :=
  let t5559 := qy (rot p1) in let t5557 := vy (tra p2) in let t5556 := qz (rot p1) in
  let t5560 := vz (tra p2) in let t5564 := qw (rot p1) in let t5555 := qx (rot p1) in
  let t5573 := vx (tra p2) in let t5576 := t5555 * t5555 in let t5588 := t5556 * t5556 in
  let t5589 := 2 * t5588 in let t5566 := t5556 * t5560 in let t5575 := t5564 * t5564 in
  let t5586 := t5559 * t5559 in let t5582 := t5555 * t5559 in let t5609 := 4 * t5575 in
  let t5594 := t5556 * t5559 in let t5610 := 4 * t5586 in let t5571 := t5555 * t5556 in
  let t5605 := t5555 * t5573 in let t5565 := t5557 * t5559 in let t5638 := qy (rot p2) in
  let t5641 := qz (rot p2) in let t5647 := qw (rot p2) in let t5645 := qx (rot p2) in
  let t5642 := t5641 * t5641 in let t5643 := - 2 * t5642 in let t5657 := t5645 * t5645 in
  let t5658 := - 2 * t5657 in let t5639 := t5638 * t5638 in let t5640 := - 2 * t5639 in
  let t5577 := t5575 + t5576 in let t5578 := 2 * t5577 in let t5579 := - 1 + t5578 in
  let t5570 := t5559 * t5564 in let t5572 := t5570 + t5571 in let t5613 := t5556 * t5564 in
  let t5614 := t5582 + t5613 in let t5620 := t5555 * t5564 in let t5621 := t5594 + t5620 in
  mlist [
   [ 1;
     0;
     0;
     4 * t5555 * (t5556 * t5557 - t5559 * t5560) + 4 * t5564 * (t5565 + t5566);
     - 4 * t5572 * t5573 + 2 * t5560 * t5579;
     4 * t5573 * (- (t5556 * t5564) + t5582) + 2 * t5557 * (- 1 + 2 * t5586 + t5589) ];
   [ 0;
     1;
     0;
     2 * t5560 * (- 1 + 2 * t5576 + t5589) + 4 * t5557 * (- (t5555 * t5564) + t5594);
     4 * t5559 * (t5555 * t5560 - t5556 * t5573) + 4 * t5564 * (t5566 + t5605);
     t5573 * (- 2 + t5609 + t5610) - 4 * t5557 * t5614 ];
   [ 0;
     0;
     1;
     t5557 * (- 2 + 4 * t5588 + t5609) - 4 * t5560 * t5621;
     4 * t5560 * (- (t5559 * t5564) + t5571) + t5573 * (- 2 + 4 * t5576 + t5610);
     4 * t5556 * (- (t5555 * t5557) + t5559 * t5573) + 4 * t5564 * (t5565 + t5605) ];
   [ 0;
     0;
     0;
     1 + t5640 + t5643;
     2 * (t5638 * t5645 + t5641 * t5647);
     2 * t5641 * t5645 - 2 * t5638 * t5647 ];
   [ 0;
     0;
     0;
     2 * t5638 * t5645 - 2 * t5641 * t5647;
     1 + t5643 + t5658;
     2 * (t5638 * t5641 + t5645 * t5647) ];
   [ 0;
     0;
     0;
     2 * (t5641 * t5645 + t5638 * t5647);
     2 * t5638 * t5641 - 2 * t5645 * t5647;
     1 + t5640 + t5658 ]
  ].

(** [multiplicationJacobians], second matrix, ErrorPose.cpp:135-175 and 214-249 *)
Definition mul_jac2 (p1 p2 : pose) : mat :=
  let t5559 := qy (rot p1) in let t5556 := qz (rot p1) in let t5564 := qw (rot p1) in
  let t5555 := qx (rot p1) in let t5576 := t5555 * t5555 in let t5588 := t5556 * t5556 in
  let t5575 := t5564 * t5564 in let t5586 := t5559 * t5559 in let t5582 := t5555 * t5559 in
  let t5594 := t5556 * t5559 in let t5571 := t5555 * t5556 in let t5577 := t5575 + t5576 in
  let t5578 := 2 * t5577 in let t5579 := - 1 + t5578 in let t5570 := t5559 * t5564 in
  let t5572 := t5570 + t5571 in let t5613 := t5556 * t5564 in let t5614 := t5582 + t5613 in
  let t5620 := t5555 * t5564 in let t5621 := t5594 + t5620 in
  mlist [
   [ t5579;
     2 * t5555 * t5559 - 2 * t5556 * t5564;
     2 * t5572;
     0;
     0;
     0 ];
   [ 2 * t5614;
     - 1 + 2 * (t5575 + t5586);
     2 * t5556 * t5559 - 2 * t5555 * t5564;
     0;
     0;
     0 ];
   [ 2 * t5555 * t5556 - 2 * t5559 * t5564;
     2 * t5621;
     - 1 + 2 * (t5575 + t5588);
     0;
     0;
     0 ];
   [ 0; 0; 0; 1; 0; 0 ];
   [ 0; 0; 0; 0; 1; 0 ];
   [ 0; 0; 0; 0; 0; 1 ]
  ].

(** [errorPoseTimesVectorJacobian], ErrorPose.cpp:252-291 *)
Definition vec_jac (p : pose) (v : vec3) : mat :=
  let t216 := qy (rot p) in let t214 := vy v in let t213 := qz (rot p) in let t217 := vz v in
  let t221 := qw (rot p) in let t212 := qx (rot p) in let t228 := vx v in
  let t231 := t221 * t221 in let t233 := t212 * t212 in let t235 := t216 * t216 in
  let t236 := t213 * t213 in let t237 := t235 + t236 in let t223 := t213 * t217 in
  let t264 := - (t228 * t231) in let t265 := t228 * t233 in let t259 := t212 * t228 in
  let t222 := t214 * t216 in
  mlist [
   [ 1;
     0;
     0;
     4 * (t212 * (t213 * t214 - t216 * t217) + t221 * (t222 + t223));
     2 * (- 2 * t212 * t213 * t228 - 2 * t216 * t221 * t228 + t217 * t231 + t217 * t233 - t217 * t237);
     4 * t212 * t216 * t228 - 4 * t213 * t221 * t228 - 2 * t214 * t231 - 2 * t214 * t233 + 2 * t214 * t237 ];
   [ 0;
     1;
     0;
     2 * (2 * t213 * t214 * t216 - 2 * t212 * t214 * t221 - t217 * t231 - t217 * t235 + t217 * (t233 + t236));
     4 * (t216 * (t212 * t217 - t213 * t228) + t221 * (t223 + t259));
     - 2 * (2 * t212 * t214 * t216 + 2 * t213 * t214 * t221 + t228 * (- t235 + t236) + t264 + t265) ];
   [ 0;
     0;
     1;
     - 2 * (2 * t213 * t216 * t217 + 2 * t212 * t217 * t221 - t214 * t231 + t214 * t233 + t214 * t235 - t214 * t236);
     2 * (2 * t212 * t213 * t217 - 2 * t216 * t217 * t221 + t228 * (t235 - t236) + t264 + t265);
     4 * (t213 * (- (t212 * t214) + t216 * t228) + t221 * (t222 + t259)) ]
  ].

(** [ErrorConversion], ErrorPose.cpp:464-485 *)
Definition conv_jac (r : quat) : mat := mlist [
   [ qw r; qz r; - qy r; - qx r ];
   [ - qz r; qw r; qx r; - qy r ];
   [ qy r; - qx r; qw r; - qz r ];
   [ qx r; qy r; qz r; qw r ] ].
Definition error_conversion (r : quat) : cfun := fun v => (v, conv_jac r).

(** [operator~], ErrorPose.cpp:490-501 *)
Definition ep_inv (p : epose) : epose :=
  let j := inv_jac (ep p) in
  EP (pinv (ep p)) (mmul 6 (mmul 6 j (cov p)) (tr j)).

(** [operator*( ErrorPose, ErrorPose )], ErrorPose.cpp:504-520 *)
Definition ep_mul (a b : epose) : epose :=
  let j1 := mul_jac1 (ep a) (ep b) in let j2 := mul_jac2 (ep a) (ep b) in
  EP (pmul (ep a) (ep b))
     (madd (mmul 6 (mmul 6 j1 (cov a)) (tr j1)) (mmul 6 (mmul 6 j2 (cov b)) (tr j2))).

(** [operator*( Pose, ErrorPose )], ErrorPose.cpp:523-537 *)
Definition p_ep_mul (a : pose) (b : epose) : epose :=
  let j2 := mul_jac2 a (ep b) in
  EP (pmul a (ep b)) (mmul 6 (mmul 6 j2 (cov b)) (tr j2)).

(** [operator*( ErrorPose, Pose )], ErrorPose.cpp:540-554 *)
Definition ep_p_mul (a : epose) (b : pose) : epose :=
  let j1 := mul_jac1 (ep a) b in
  EP (pmul (ep a) b) (mmul 6 (mmul 6 j1 (cov a)) (tr j1)).

(** [operator*( ErrorPose, Vector )], ErrorPose.cpp:557-570: value and 3x3 covariance *)
Definition ep_vec (a : epose) (b : vec3) : vec3 * mat :=
  let j := vec_jac (ep a) b in
  (papp (ep a) b, mmul 6 (mmul 6 j (cov a)) (tr j)).

(** [operator*( ErrorPose, ErrorVector )], ErrorPose.cpp:574-588 (marked TODO in the source) *)
Definition ep_errvec (a : epose) (b : vec3) (bcov : mat) : vec3 * mat :=
  let j := vec_jac (ep a) b in
  (papp (ep a) b, mmul 6 (mmul 6 j (cov a)) (tr j)).

(** [invertMultiply], ErrorPose.cpp:591-607 *)
Definition invert_multiply (a b : epose) : epose :=
  let j1 := mul_jac1 (ep a) (ep b) in let j2 := mul_jac2 (ep a) (ep b) in
  EP (pmul (pinv (ep a)) (ep b))
     (madd (mmul 6 (mmul 6 j1 (cov a)) (tr j1)) (mmul 6 (mmul 6 j2 (cov b)) (tr j2))).

(** the loop of ErrorPose.cpp:614-618: copy the 6x6 covariance, clear row and column 6,
    put the sum of the rotation variances in the corner *)
Definition pad7 (C : mat) : mat := fun i j =>
  if andb (Nat.eqb i 6) (Nat.eqb j 6) then C 3%nat 3%nat + C 4%nat 4%nat + C 5%nat 5%nat
  else if orb (Nat.eqb i 6) (Nat.eqb j 6) then 0 else C i j.

(** [toAdditiveErrorVector], ErrorPose.cpp:610-621 *)
Definition to_additive (p : epose) : errvec :=
  transform_range 7 (error_conversion (rot (ep p))) 3 7 3 7
    (EV (pose_to_vector (ep p)) (pad7 (cov p))).

(** [fromAdditiveErrorVector], ErrorPose.cpp:624-631 *)
Definition from_additive (v : errvec) : epose :=
  let q := Q (value v 3%nat) (value v 4%nat) (value v 5%nat) (value v 6%nat) in
  let p := transform_range 7 (error_conversion (qconj q)) 3 7 3 7 v in
  EP (pose_of_vector (value p)) (covariance p).

(** [linearInterpolate], ErrorPose.cpp:633-640 *)
Definition ep_lerp (x y : epose) (t : R) : option epose :=
  let a := (1 - t) * (1 - t) in let b := t * t in
  match pose_lerp (ep x) (ep y) t with
  | None => None
  | Some p => Some (EP p (madd (mscale a (cov x)) (mscale b (cov y))))
  end.

(** ** Specification vocabulary *)

(** the squared length of the rotation part of an error vector *)
Definition rot2 (e : vect) : R :=
  e 3%nat * e 3%nat + e 4%nat * e 4%nat + e 5%nat * e 5%nat.

(** The pose [p] with the error [e]: the translation is off by [e 0..2], the rotation
    is followed (on the right) by the unit quaternion whose vector part is [e 3..5].
    This is the error model documented in ErrorPose.h and used by both Jacobians of
    the product. *)
Definition perturb (p : pose) (e : vect) : pose :=
  P (qmul (rot p) (Q (e 3%nat) (e 4%nat) (e 5%nat) (sqrt (1 - rot2 e))))
    (v3add (tra p) (V3 (e 0%nat) (e 1%nat) (e 2%nat))).

(** the error vector that leads from [p] to [p'] *)
Definition pose_error (p p' : pose) : vect :=
  let dq := qmul (qconj (rot p)) (rot p') in
  vlist [ vx (tra p') - vx (tra p); vy (tra p') - vy (tra p); vz (tra p') - vz (tra p);
          qx dq; qy dq; qz dq ].

Definition vec_of3 (v : vec3) : vect := vlist [ vx v; vy v; vz v ].

(** J is the matrix of the derivative at zero of a map from n-vectors to m-vectors,
    taken along every direction *)
Definition is_jacobian (n m : nat) (f : vect -> vect) (J : mat) : Prop :=
  forall e i, (i < m)%nat -> is_derive (fun h => f (vscale h e) i) 0 (mvec n J e i).

(** the matrix of left multiplication by a quaternion: the error of [q] as four numbers,
    from the error [r] in [q r] *)
Definition qleft (q : quat) : mat := mlist [
   [ qw q; - qz q; qy q; qx q ];
   [ qz q; qw q; - qx q; qy q ];
   [ - qy q; qx q; qw q; qz q ];
   [ - qx q; - qy q; - qz q; qw q ] ].
