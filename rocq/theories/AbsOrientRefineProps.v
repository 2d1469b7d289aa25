(** Jacobian of the non-linear refinement of 3D-3D poses, Optimization.h (C98). *)
From Coq Require Import Reals Lra Lia List Arith.
From Coquelicot Require Import Coquelicot.
Import ListNotations.
From Verif Require Import Mat Quat QuatProofs AbsOrient AbsOrientProofs Jacobians JacobiansProofs.
Open Scope R_scope.

(** the function evaluated by the code as a map from 7 parameters to 3 values *)
Definition opt_function (pt : vec3) (v : vect) : vect :=
  match opt_evaluate pt v with Some p => vlist [vx p; vy p; vz p] | None => fun _ => 0 end.
Lemma opt_on_sphere pt v : unit_at 3 v ->
  opt_evaluate pt v = Some (papp (P (quat_of v 3) (V3 (v 0%nat) (v 1%nat) (v 2%nat))) pt).
Proof.
  unfold unit_at, unit, opt_evaluate, quat_of. cbn [Nat.add]. set (q := Q _ _ _ _). intros U.
  rewrite U. destruct (Req_EM_T 1 0); [lra|]. rewrite sqrt_1, Rinv_1. do 3 f_equal. unfold qscale. destruct q. cbn. f_equal; ring.
Qed.
(** the velocity of a curve of unit quaternions is orthogonal to the quaternion *)
Lemma sphere_tangent g x e : curve 7 g x e -> (forall h, unit_at 3 (at_time g h)) ->
  x 3%nat * e 3%nat + x 4%nat * e 4%nat + x 5%nat * e 5%nat + x 6%nat * e 6%nat = 0.
Proof.
  intros Hc HS.
  assert (D1 : is_derive (fun h => g 3%nat h * g 3%nat h + g 4%nat h * g 4%nat h + g 5%nat h * g 5%nat h + g 6%nat h * g 6%nat h) 0
    (2 * (x 3%nat * e 3%nat + x 4%nat * e 4%nat + x 5%nat * e 5%nat + x 6%nat * e 6%nat))).
  { take_curve Hc 7%nat. clear Hc HS. use_curve. auto_derive; ex_curve; ring. }
  assert (D2 : is_derive (fun h => g 3%nat h * g 3%nat h + g 4%nat h * g 4%nat h + g 5%nat h * g 5%nat h + g 6%nat h * g 6%nat h) 0 0).
  { apply is_derive_ext with (fun _ => 1); [|auto_derive; [exact I|reflexivity]]. intros h. specialize (HS h). unfold unit_at, unit, qnorm, quat_of, at_time in HS. cbn in HS. symmetry. exact HS. }
  assert (E := is_derive_unique _ _ _ D1). rewrite (is_derive_unique _ _ _ D2) in E. lra.
Qed.
(** x and y rows: the derivative along every curve of unit quaternions; the z row is missing, see below *)
Theorem opt_jacobian_xy_partial pt v : unit_at 3 v -> derivative_on (unit_at 3) 7 2 (opt_function pt) v (opt_jacobian pt v).
Proof.
  intros U g e Hc HS r Hr. assert (T := sphere_tangent g v e Hc HS).
  apply is_derive_ext with (fun h => vlist [vx (papp (P (quat_of (at_time g h) 3) (V3 (g 0%nat h) (g 1%nat h) (g 2%nat h))) pt);
    vy (papp (P (quat_of (at_time g h) 3) (V3 (g 0%nat h) (g 1%nat h) (g 2%nat h))) pt)] r).
  { intros h. unfold opt_function. rewrite opt_on_sphere by apply HS. idx r Hr; reflexivity. }
  assert (N : sqrt (v 3%nat * v 3%nat + v 4%nat * v 4%nat + v 5%nat * v 5%nat + v 6%nat * v 6%nat) = 1).
  { unfold unit_at, unit, qnorm, quat_of in U. cbn in U. rewrite U. apply sqrt_1. }
  assert (EJ : mvec 7 (opt_jacobian pt v) e r = mvec 7 (
    let qx := v 3%nat in let qy := v 4%nat in let qz := v 5%nat in let qw := v 6%nat in let x := vx pt in let y := vy pt in let z := vz pt in
    mlist [[1; 0; 0; 2 * (qx * x + qy * y + qz * z); 2 * (qx * y + qw * z - qy * x); 2 * (qx * z - qz * x - qw * y); 2 * (qw * x + qy * z - qz * y)];
           [0; 1; 0; 2 * (qy * x - qx * y - qw * z); 2 * (qx * x + qy * y + qz * z); 2 * (qw * x + qy * z - qz * y); 2 * (qz * x + qw * y - qx * z)]]) e r).
  { unfold opt_jacobian. rewrite N, !Rdiv_1. unfold mvec, mlist. idx r Hr; cbn [sum List.nth]; ring. }
  rewrite EJ. clear EJ N U HS. take_curve Hc 7%nat. clear Hc. unfold papp, quat_of, at_time, qrot, vlist, mvec, mlist.
  idx r Hr; cbn [List.nth sum Nat.add vx vy vz v3add rot tra qx qy qz qw]; use_curve; auto_derive; ex_curve.
  - transitivity (2 * vx pt * (v 3%nat * e 3%nat + v 4%nat * e 4%nat + v 5%nat * e 5%nat + v 6%nat * e 6%nat) + mvec 7 (mlist [[1; 0; 0; 2 * (v 3%nat * vx pt + v 4%nat * vy pt + v 5%nat * vz pt); 2 * (v 3%nat * vy pt + v 6%nat * vz pt - v 4%nat * vx pt); 2 * (v 3%nat * vz pt - v 5%nat * vx pt - v 6%nat * vy pt); 2 * (v 6%nat * vx pt + v 4%nat * vz pt - v 5%nat * vy pt)]]) e 0%nat).
    + unfold mvec, mlist. cbn [List.nth sum]. ring.
    + rewrite T. unfold mvec, mlist. cbn [List.nth sum]. ring.
  - transitivity (2 * vy pt * (v 3%nat * e 3%nat + v 4%nat * e 4%nat + v 5%nat * e 5%nat + v 6%nat * e 6%nat) + mvec 7 (mlist [[0; 1; 0; 2 * (v 4%nat * vx pt - v 3%nat * vy pt - v 6%nat * vz pt); 2 * (v 3%nat * vx pt + v 4%nat * vy pt + v 5%nat * vz pt); 2 * (v 6%nat * vx pt + v 4%nat * vz pt - v 5%nat * vy pt); 2 * (v 5%nat * vx pt + v 6%nat * vy pt - v 3%nat * vz pt)]]) e 0%nat).
    + unfold mvec, mlist. cbn [List.nth sum]. ring.
    + rewrite T. unfold mvec, mlist. cbn [List.nth sum]. ring.
Qed.

(** z row: false.  A turn about the y axis at 45 degrees moves the point (0,0,1) with z velocity -2;
    the code's row gives 0. *)
Definition turn_y (i : nat) (h : R) : R := match i with 4%nat => sin (PI/4 + h) | 6%nat => cos (PI/4 + h) | _ => 0 end.
Theorem opt_jacobian_refuted : exists pt v, unit_at 3 v /\ ~ derivative_on (unit_at 3) 7 3 (opt_function pt) v (opt_jacobian pt v).
Proof.
  exists (V3 0 0 1), (vlist [0; 0; 0; 0; sin (PI/4); 0; cos (PI/4)]).
  set (v := vlist _). assert (SC : forall a, sin a * sin a + cos a * cos a = 1) by (intros a; apply (sin2_cos2 a)).
  assert (U : unit_at 3 v) by (unfold unit_at, unit, qnorm, quat_of, v, vlist; cbn; rewrite <- (SC (PI/4)); ring).
  split; [exact U|]. intros H.
  set (e := vlist [0; 0; 0; 0; cos (PI/4); 0; - sin (PI/4)]).
  assert (HC : curve 7 turn_y v e).
  { intros i Hi. unfold v, e, vlist, turn_y. idx i Hi; cbn [List.nth]; rewrite ?Rplus_0_r; split; try reflexivity; auto_derive; try exact I; rewrite ?Rplus_0_r; ring. }
  assert (HS : forall h, unit_at 3 (at_time turn_y h)).
  { intros h. unfold unit_at, unit, qnorm, quat_of, at_time, turn_y. cbn. rewrite <- (SC (PI/4 + h)). ring. }
  assert (D := H turn_y e HC HS 2%nat ltac:(lia)).
  assert (D2 : is_derive (fun h => opt_function (V3 0 0 1) (at_time turn_y h) 2%nat) 0 (4 * cos (PI/4) * - sin (PI/4))).
  { apply is_derive_ext with (fun h => 2 * (cos (PI/4 + h) * cos (PI/4 + h)) - 1).
    - intros h. unfold opt_function. rewrite opt_on_sphere by apply HS. unfold papp, qrot, quat_of, at_time, turn_y, vlist. cbn. ring.
    - auto_derive; [exact I|]. rewrite Rplus_0_r. ring. }
  assert (E := is_derive_unique _ _ _ D). rewrite (is_derive_unique _ _ _ D2) in E.
  assert (N : sqrt (v 3%nat * v 3%nat + v 4%nat * v 4%nat + v 5%nat * v 5%nat + v 6%nat * v 6%nat) = 1).
  { unfold unit_at, unit, qnorm, quat_of in U. cbn [Nat.add qx qy qz qw] in U. rewrite U. apply sqrt_1. }
  assert (Z : mvec 7 (opt_jacobian (V3 0 0 1) v) e 2%nat = 0).
  { unfold opt_jacobian. rewrite N. unfold mvec, mlist, v, e, vlist. cbn [sum List.nth vx vy vz]. field. }
  rewrite Z, sin_PI4, cos_PI4 in E.
  assert (Q2 : 0 < sqrt 2) by (apply sqrt_lt_R0; lra).
  assert (0 < 1 / sqrt 2) by (apply Rdiv_lt_0_compat; lra). nra.
Qed.

Print Assumptions opt_jacobian_xy_partial.
Print Assumptions opt_jacobian_refuted.
