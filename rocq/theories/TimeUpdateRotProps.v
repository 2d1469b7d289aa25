(** Properties of the rotational motion models (C41-C44, C55, C81, C82). *)
From Coq Require Import Reals Lra Lia Bool Arith ZArith List.
Import ListNotations.
From Coquelicot Require Import Coquelicot.
From Verif Require Import Mat Quat QuatProofs QuatTrigProofs QuatProps CovTransform Jacobians JacobiansProofs
  TimeUpdate TimeUpdateProofs.
Open Scope R_scope.

Lemma norm3_v3scale c v : norm3 (v3scale c v) = Rabs c * norm3 v.
Proof.
  destruct v as [x y z]. unfold v3scale. cbn [vx vy vz]. rewrite <- norm3_scale.
  f_equal. f_equal; ring.
Qed.
Lemma norm3_zero v : norm3 v = 0 -> v = v3zero.
Proof.
  intros H. pose proof (norm3_sq v) as E. rewrite H in E. destruct v as [x y z]. cbn [vx vy vz] in E.
  assert (x = 0 /\ y = 0 /\ z = 0) as (-> & -> & ->); [|reflexivity].
  repeat split; nra.
Qed.

(** the angle of one step is zero or above the cut-off of fromLogarithm *)
Definition resolved (v : vec3) (dt : R) : Prop := norm3 v * dt = 0 \/ eps12 < norm3 v * Rabs dt.

Lemma eps12_gt0 : 0 < eps12.
Proof. apply eps12_pos. Qed.

Lemma integrate_zero v dt : norm3 v * dt = 0 -> integrate v dt = qone.
Proof.
  intros H. unfold integrate, from_log. rewrite norm3_v3scale.
  assert (E : Rabs dt * norm3 v = 0).
  { apply Rmult_integral in H. destruct H as [->| ->]; [ring|rewrite Rabs_R0; ring]. }
  rewrite E. destruct (Rgt_dec 0 eps12) as [G|_]; [pose proof eps12_gt0; lra|reflexivity].
Qed.

Lemma integrate_exact v dt : eps12 < norm3 v * Rabs dt ->
  let s := sin (norm3 v * dt / 2) / norm3 v in
  integrate v dt = Q (s * vx v) (s * vy v) (s * vz v) (cos (norm3 v * dt / 2)).
Proof.
  intros H s. unfold integrate, from_log. rewrite norm3_v3scale.
  pose proof eps12_gt0 as P12. pose proof (norm3_nonneg v) as Hn.
  assert (Hv : 0 < norm3 v) by (destruct Hn as [L|E]; [exact L|rewrite <- E in H; lra]).
  destruct (Rgt_dec (Rabs dt * norm3 v) eps12) as [G|G]; [|exfalso; lra].
  unfold v3scale. cbn [vx vy vz]. unfold s. clear s.
  unfold Rabs in *. destruct (Rcase_abs dt) as [L|L].
  - replace (- dt * norm3 v / 2) with (- (norm3 v * dt / 2)) by field.
    rewrite sin_neg, cos_neg. f_equal; field; lra.
  - assert (dt <> 0) by (intros ->; lra).
    replace (dt * norm3 v / 2) with (norm3 v * dt / 2) by field.
    f_equal; field; lra.
Qed.

(** ** C55: integration of an angular velocity *)
Theorem integration_unit v dt : unit (integrate v dt).
Proof. apply exponential_is_unit. Qed.

(** it is the rotation about the axis v by the angle |v| dt (whose action on vectors is given
    by axis_angle_is_rodrigues) *)
Theorem integration_axis_angle v dt : eps12 < norm3 v * Rabs dt ->
  quat_of_axis_angle v (norm3 v * dt) = Some (integrate v dt).
Proof.
  intros H. rewrite (integrate_exact v dt H). unfold quat_of_axis_angle.
  pose proof eps12_gt0 as P12.
  destruct (Req_EM_T (norm3 v) 0) as [E|E]; [rewrite E in H; lra|].
  f_equal. f_equal; ring.
Qed.

Theorem integration_rodrigues v dt x : eps12 < norm3 v * Rabs dt ->
  let n := v3scale (/ norm3 v) v in let a := norm3 v * dt in
  qrot (integrate v dt) x =
  v3add (v3scale (cos a) x) (v3add (v3scale (sin a) (cross3 n x)) (v3scale ((1 - cos a) * dot3 n x) n)).
Proof.
  intros H n a.
  assert (Hv : 0 < norm3 v).
  { pose proof eps12_gt0. pose proof (norm3_nonneg v) as [L|E]; [exact L|rewrite <- E in H; lra]. }
  assert (N1 : norm3 n = 1).
  { unfold n. rewrite norm3_v3scale, Rabs_right by (apply Rle_ge, Rlt_le, Rinv_0_lt_compat, Hv).
    field. lra. }
  assert (Q : quat_of_axis_angle n a = Some (integrate v dt)).
  { rewrite <- (integration_axis_angle v dt H). unfold quat_of_axis_angle. rewrite N1.
    destruct (Req_EM_T 1 0); [lra|]. destruct (Req_EM_T (norm3 v) 0); [lra|].
    fold a. unfold n, v3scale. cbn [vx vy vz]. f_equal. f_equal; field; lra. }
  assert (D1 : dot3 n n = 1).
  { unfold dot3. rewrite <- norm3_sq, N1. ring. }
  pose proof (axis_angle_is_rodrigues n a (integrate v dt) x D1 Q) as E. exact E.
Qed.

(** The optimisation functor returns the same quaternion only for zero rotations and for more
    than 1e12 radians, because its threshold reads 1e12 instead of 1e-12. *)
Lemma functor_norm dt v : 0 < Rabs (norm3 v * dt) <= 10 ^ 12 ->
  qnorm (integration_functor dt v) = 1 + ((norm3 v * dt / 2) * (norm3 v * dt / 2)
    - sin (norm3 v * dt / 2) * sin (norm3 v * dt / 2)).
Proof.
  intros [_ H]. unfold integration_functor, qnorm. cbn [qx qy qz qw].
  destruct (Rgt_dec (Rabs (norm3 v * dt)) (10 ^ 12)) as [G|_]; [lra|].
  pose proof (norm3_sq v) as E.
  replace (norm3 v * dt * (1 / 2)) with (norm3 v * dt / 2) by field.
  pose proof (sin2_cos2 (norm3 v * dt / 2)) as SC. unfold Rsqr in SC.
  replace ((norm3 v * dt / 2) * (norm3 v * dt / 2)) with
    (norm3 v * norm3 v * (dt * (1 / 2) * (dt * (1 / 2)))) by field.
  rewrite E. lra.
Qed.

Lemma sin_sq_lt x : x <> 0 -> sin x * sin x < x * x.
Proof.
  assert (P : forall y, 0 < y -> sin y * sin y < y * y).
  { intros y Hy. pose proof (sin_lt_x y Hy) as L. pose proof (SIN_bound y).
    destruct (Rle_lt_dec y 1) as [L1|L1].
    - assert (0 <= sin y) by (apply sin_ge_0; pose proof PI2_1; pose proof PI_4; lra). nra.
    - nra. }
  intros Hx. destruct (Rtotal_order x 0) as [L|[E|L]]; [|contradiction|apply P, L].
  pose proof (P (- x) ltac:(lra)) as H. rewrite sin_neg in H. lra.
Qed.

Theorem integration_functor_correct_iff dt v :
  integration_functor dt v = integrate v dt <->
  (norm3 v * dt = 0 \/ 10 ^ 12 < Rabs (norm3 v * dt)).
Proof.
  pose proof (norm3_nonneg v) as Hn. split.
  - intros E. destruct (Rle_lt_dec (Rabs (norm3 v * dt)) (10 ^ 12)) as [L|L]; [left|right; exact L].
    destruct (Req_EM_T (norm3 v * dt) 0) as [Z|NZ]; [exact Z|exfalso].
    assert (H : 0 < Rabs (norm3 v * dt) <= 10 ^ 12) by (split; [apply Rabs_pos_lt, NZ|exact L]).
    pose proof (functor_norm dt v H) as F. rewrite E in F.
    pose proof (integration_unit v dt) as U. unfold unit in U. rewrite U in F.
    pose proof (sin_sq_lt (norm3 v * dt / 2) ltac:(lra)). lra.
  - intros [Z|L].
    + rewrite (integrate_zero v dt Z). unfold integration_functor. rewrite Z, Rabs_R0.
      destruct (Rgt_dec 0 (10 ^ 12)) as [G|_]; [exfalso; assert (0 < 10 ^ 12) by (apply pow_lt; lra); lra|].
      apply Rmult_integral in Z. rewrite Rmult_0_l, cos_0.
      destruct Z as [Z| ->].
      * apply norm3_zero in Z. subst v. unfold v3zero, qone. cbn [vx vy vz]. f_equal; ring.
      * unfold qone. f_equal; ring.
    + assert (B : eps12 < norm3 v * Rabs dt).
      { rewrite Rabs_mult, (Rabs_right (norm3 v)) in L by lra.
        assert (1 <= 10 ^ 12) by (apply pow_R1_Rle; lra). pose proof eps12_small. lra. }
      rewrite (integrate_exact v dt B). unfold integration_functor.
      destruct (Rgt_dec (Rabs (norm3 v * dt)) (10 ^ 12)) as [_|G]; [|exfalso; lra].
      replace (norm3 v * dt * (1 / 2)) with (norm3 v * dt / 2) by field.
      f_equal; ring.
Qed.

(** in between its result is longer than one, for every velocity and time step *)
Theorem integration_functor_refuted dt v : 0 < Rabs (norm3 v * dt) <= 10 ^ 12 ->
  1 < qnorm (integration_functor dt v) /\ integration_functor dt v <> integrate v dt.
Proof.
  intros H. assert (NZ : norm3 v * dt <> 0).
  { intros Z. rewrite Z, Rabs_R0 in H. lra. }
  split.
  - rewrite (functor_norm dt v H). pose proof (sin_sq_lt (norm3 v * dt / 2) ltac:(lra)). lra.
  - intros E. apply integration_functor_correct_iff in E. destruct E; [contradiction|lra].
Qed.

Example integration_case : 0 < Rabs (norm3 (V3 0 0 1) * 1) <= 10 ^ 12 /\ eps12 < norm3 (V3 0 0 1) * Rabs 1.
Proof.
  assert (N : norm3 (V3 0 0 1) = 1).
  { unfold norm3. cbn [vx vy vz]. replace (0 * 0 + 0 * 0 + 1 * 1) with 1 by ring. apply sqrt_1. }
  rewrite N, Rmult_1_l, Rabs_R1. assert (1 <= 10 ^ 12) by (apply pow_R1_Rle; lra).
  pose proof eps12_small. lra.
Qed.

(** its Jacobian: the first three rows belong to the value it computes; the last row is right to
    first order in v exactly for time steps of 0 or 1 *)
Theorem integration_functor_jacobian_rows dt v : norm3 v * Rabs dt < 10 ^ 12 ->
  derivative 3 3 (fun x => to4 (integration_functor dt (vec_of x 0))) (of3 v) (integration_functor_jac dt v).
Proof.
  intros H g e Hc _ r Hr.
  assert (C : continuous (fun h => Rabs (norm3 (vec_of (at_time g h) 0) * dt)) 0).
  { apply (continuous_comp (fun h => norm3 (vec_of (at_time g h) 0) * dt) Rabs); [|apply continuous_Rabs].
    apply (continuous_mult (fun h => norm3 (vec_of (at_time g h) 0)) (fun _ => dt)); [|apply continuous_const].
    unfold norm3, vec_of, at_time. cbn [vx vy vz Nat.add].
    apply (continuous_comp (fun h => g 0%nat h * g 0%nat h + g 1%nat h * g 1%nat h + g 2%nat h * g 2%nat h) sqrt);
      [|apply continuous_sqrt].
    apply (ex_derive_continuous (fun h => g 0%nat h * g 0%nat h + g 1%nat h * g 1%nat h + g 2%nat h * g 2%nat h)).
    take_curve Hc 3%nat. use_curve. auto_derive. ex_curve. }
  assert (E0 : Rabs (norm3 (vec_of (at_time g 0) 0) * dt) < 10 ^ 12).
  { replace (vec_of (at_time g 0) 0) with v.
    - rewrite Rabs_mult, (Rabs_right (norm3 v)) by (apply Rle_ge, norm3_nonneg). exact H.
    - unfold vec_of, at_time. cbn [Nat.add].
      rewrite (proj1 (Hc 0%nat ltac:(lia))), (proj1 (Hc 1%nat ltac:(lia))), (proj1 (Hc 2%nat ltac:(lia))).
      destruct v; reflexivity. }
  apply (is_derive_ext_loc (fun h => g r h * (dt * (1 / 2)))).
  - assert (O : locally (Rabs (norm3 (vec_of (at_time g 0) 0) * dt)) (fun y => y < 10 ^ 12)) by (apply open_lt, E0).
    apply (filter_imp (fun h => Rabs (norm3 (vec_of (at_time g h) 0) * dt) < 10 ^ 12)); [|exact (C _ O)].
    intros h Hh. unfold integration_functor.
    destruct (Rgt_dec (Rabs (norm3 (vec_of (at_time g h) 0) * dt)) (10 ^ 12)) as [G|_]; [lra|].
    unfold to4. cbn [qx qy qz qw]. idx r Hr; unfold vlist; cbn [nth]; unfold vec_of, at_time; cbn [vx vy vz Nat.add]; reflexivity.
  - take_curve Hc 3%nat. clear Hc C E0.
    idx r Hr; unfold mvec, integration_functor_jac, mlist; cbn [nth sum]; use_curve; auto_derive; ex_curve; ring.
Qed.

Theorem integration_functor_jacobian_iff dt n : dot3 n n = 1 ->
  (is_derive (fun s => Derive (fun h => qw (integration_functor dt (v3scale h n))) s) 0
     (dt * - (1 / 4)) <-> dt = 0 \/ dt = 1) /\
  forall s, mvec 3 (integration_functor_jac dt (v3scale s n)) (of3 n) 3%nat = s * (dt * - (1 / 4)).
Proof.
  intros N. split.
  - assert (E : forall h, qw (integration_functor dt (v3scale h n)) = cos (h * dt * (1 / 2))).
    { intros h. unfold integration_functor. cbn [qw]. rewrite norm3_v3scale.
      assert (N1 : norm3 n = 1) by (unfold norm3; unfold dot3 in N; rewrite N; apply sqrt_1).
      rewrite N1, Rmult_1_r. unfold Rabs. destruct (Rcase_abs h); [|reflexivity].
      replace (- h * dt * (1 / 2)) with (- (h * dt * (1 / 2))) by field. apply cos_neg. }
    assert (D : forall s, Derive (fun h => qw (integration_functor dt (v3scale h n))) s
                = - (dt * (1 / 2)) * sin (s * dt * (1 / 2))).
    { intros s. rewrite (Derive_ext _ (fun h => cos (h * dt * (1 / 2)))) by exact E.
      apply is_derive_unique. auto_derive; [exact I|ring]. }
    assert (D2 : is_derive (fun s => Derive (fun h => qw (integration_functor dt (v3scale h n))) s) 0
                   (- (dt * (1 / 2)) * (dt * (1 / 2)))).
    { apply (is_derive_ext (fun s => - (dt * (1 / 2)) * sin (s * dt * (1 / 2)))).
      - intros s. symmetry. apply D.
      - auto_derive; [exact I|]. rewrite !Rmult_0_l, cos_0. ring. }
    split.
    + intros H. apply is_derive_unique in H. apply is_derive_unique in D2. rewrite D2 in H.
      assert (P : dt * (dt - 1) = 0) by lra. apply Rmult_integral in P. destruct P; [left|right]; lra.
    + intros H. replace (dt * - (1 / 4)) with (- (dt * (1 / 2)) * (dt * (1 / 2))); [exact D2|].
      destruct H as [->| ->]; field.
  - intros s. unfold mvec, integration_functor_jac, mlist, of3, vlist, v3scale. cbn [nth sum vx vy vz].
    unfold dot3 in N. replace (s * (dt * - (1 / 4))) with (s * (dt * - (1 / 4)) * 1) by ring. rewrite <- N. ring.
Qed.

(** velocity from two orientations: integrating it over the interval leads from the first to
    the second *)
Theorem velocity_between_exact a b T v : unit a -> unit b -> velocity_between a b T = Some v ->
  let d := qmul (qconj a) b in
  eps12 < sqrt (qx d * qx d + qy d * qy d + qz d * qz d) ->
  same_rotation (qmul a (integrate v T)) b.
Proof.
  intros Ua Ub Hv d Hd. unfold velocity_between in Hv.
  destruct (Req_EM_T T 0) as [Z|NZ]; [discriminate|].
  assert (Hv' : v = v3scale (/ T) (to_log (qmul (qconj (negate_if_closer a b)) b))) by congruence.
  clear Hv. set (a' := negate_if_closer a b) in *.
  assert (A : a' = a \/ a' = qopp a) by (unfold a', negate_if_closer; destruct (Rge_dec _ _); auto).
  set (d' := qmul (qconj a') b) in *.
  assert (Dd : d' = d \/ d' = qopp d).
  { destruct A as [->| ->]; [left; reflexivity|right]. unfold d', d, qmul, qconj, qopp. cbn [qx qy qz qw].
    f_equal; ring. }
  assert (Ud : unit d') by (unfold d'; apply unit_mul; [apply unit_conj; destruct A as [->| ->]; [exact Ua|apply unit_opp, Ua]|exact Ub]).
  assert (Hd' : eps12 < sqrt (qx d' * qx d' + qy d' * qy d' + qz d' * qz d')).
  { destruct Dd as [->| ->]; [exact Hd|]. unfold qopp. cbn [qx qy qz].
    replace (- qx d * - qx d + - qy d * - qy d + - qz d * - qz d) with
      (qx d * qx d + qy d * qy d + qz d * qz d) by ring. exact Hd. }
  pose proof (logarithm_roundtrip_partial d' Ud Hd') as [_ R].
  assert (I : integrate v T = from_log (to_log d')).
  { unfold integrate. f_equal. rewrite Hv'. destruct (to_log d') as [x y z]. unfold v3scale. cbn [vx vy vz].
    f_equal; field; exact NZ. }
  intros x. rewrite qrot_mul by (exact Ua || apply integration_unit). rewrite I.
  rewrite (R x). destruct Dd as [->| ->].
  - unfold d. rewrite qrot_mul by (try apply unit_conj; assumption). apply qrot_conj_r, Ua.
  - rewrite qrot_qopp. unfold d. rewrite qrot_mul by (try apply unit_conj; assumption). apply qrot_conj_r, Ua.
Qed.

(** ** C42, rotation part: composition of steps *)
Lemma integrate_add v d1 d2 : resolved v d1 -> resolved v d2 -> resolved v (d1 + d2) ->
  qmul (integrate v d1) (integrate v d2) = integrate v (d1 + d2).
Proof.
  assert (G : forall d, resolved v d -> norm3 v <> 0 ->
    integrate v d = Q (sin (norm3 v * d / 2) / norm3 v * vx v) (sin (norm3 v * d / 2) / norm3 v * vy v)
                      (sin (norm3 v * d / 2) / norm3 v * vz v) (cos (norm3 v * d / 2))).
  { intros d [Z|L] NZ; [|apply integrate_exact, L]. rewrite (integrate_zero v d Z), Z.
    replace (0 / 2) with 0 by field. rewrite sin_0, cos_0. unfold qone. f_equal; field; exact NZ. }
  intros H1 H2 H3. destruct (Req_EM_T (norm3 v) 0) as [Z|NZ].
  - rewrite !integrate_zero by (rewrite Z; ring). apply qmul_one_l.
  - rewrite (G d1 H1 NZ), (G d2 H2 NZ), (G _ H3 NZ). clear G H1 H2 H3.
    replace (norm3 v * (d1 + d2) / 2) with (norm3 v * d1 / 2 + norm3 v * d2 / 2) by field.
    rewrite sin_plus, cos_plus. pose proof (norm3_sq v) as E.
    set (s1 := sin (norm3 v * d1 / 2)). set (c1 := cos (norm3 v * d1 / 2)).
    set (s2 := sin (norm3 v * d2 / 2)). set (c2 := cos (norm3 v * d2 / 2)).
    set (n := norm3 v) in *. clearbody s1 s2 c1 c2 n.
    unfold qmul. cbn [qx qy qz qw]. f_equal; try (field; exact NZ).
    replace (c1 * c2 - s1 / n * vx v * (s2 / n * vx v) - s1 / n * vy v * (s2 / n * vy v) -
             s1 / n * vz v * (s2 / n * vz v)) with
      (c1 * c2 - s1 * s2 * ((vx v * vx v + vy v * vy v + vz v * vz v) / (n * n))) by (field; exact NZ).
    rewrite <- E. field. exact NZ.
Qed.

(** Two steps with constant angular velocity are one long step, if none of the three angles
    falls below the cut-off. *)
Theorem rotation_update_composes q v d1 d2 :
  resolved v d1 -> resolved v d2 -> resolved v (d1 + d2) ->
  let step d r := quat_pred d (fun i => vlist [qx r; qy r; qz r; qw r; vx v; vy v; vz v] i) 1 0 d r in
  step d2 (step d1 q) = step (d1 + d2) q.
Proof.
  intros H1 H2 H3 step. unfold step. cbn [quat_pred]. unfold vec_of, vlist. cbn [nth Nat.add Nat.mul].
  replace (V3 (vx v) (vy v) (vz v)) with v by (destruct v; reflexivity).
  rewrite <- qmul_assoc. f_equal. apply integrate_add; assumption.
Qed.

Example resolved_case : resolved (V3 0 0 1) 1 /\ resolved (V3 0 0 1) (1 + -1).
Proof.
  destruct integration_case as [_ H]. split; [right; exact H|left; ring].
Qed.

(** below the cut-off it fails: many tiny steps do not rotate at all *)
Theorem rotation_update_tiny_refuted (n : vec3) : norm3 n = 1 ->
  qmul (integrate n eps12) (integrate n eps12) <> integrate n (eps12 + eps12).
Proof.
  intros N E. pose proof eps12_gt0 as P. pose proof eps12_small as S.
  assert (A : integrate n eps12 = qone).
  { unfold integrate, from_log. rewrite norm3_v3scale, N, Rabs_right by lra.
    destruct (Rgt_dec (eps12 * 1) eps12); [lra|reflexivity]. }
  rewrite A, qmul_one_l in E.
  rewrite (integrate_exact n (eps12 + eps12)) in E by (rewrite N, Rabs_right; lra).
  assert (C : cos (norm3 n * (eps12 + eps12) / 2) = 1) by (apply (f_equal qw) in E; symmetry; exact E).
  rewrite N in C. replace (1 * (eps12 + eps12) / 2) with eps12 in C by field.
  assert (L : cos eps12 < cos 0) by (apply cos_decreasing_1; pose proof PI2_1; lra).
  rewrite cos_0 in L. lra.
Qed.

(** With an angular acceleration the steps do not compose (the class comment admits that only
    order 1 works): two unit steps from rest give three units of rotation, one double step
    four. *)
Theorem rotation_update_order2_refuted (n : vec3) : norm3 n = 1 ->
  let step d r v a := quat_pred d (fun i => vlist [qx r; qy r; qz r; qw r; vx v; vy v; vz v; vx a; vy a; vz a] i) 2 0 d r in
  step 1 (step 1 qone v3zero n) n n <> step 2 qone v3zero n.
Proof.
  intros N step. unfold step. cbn [quat_pred]. unfold vec_of, vlist. cbn [nth Nat.add Nat.mul].
  replace (V3 (vx n) (vy n) (vz n)) with n by (destruct n; reflexivity).
  replace (V3 (vx v3zero) (vy v3zero) (vz v3zero)) with v3zero by reflexivity.
  assert (Z : norm3 v3zero = 0).
  { unfold norm3, v3zero. cbn [vx vy vz]. replace (0 * 0 + 0 * 0 + 0 * 0) with 0 by ring. apply sqrt_0. }
  pose proof eps12_small as S. pose proof eps12_gt0 as P.
  rewrite !(integrate_zero v3zero) by (rewrite Z; ring). rewrite !qmul_one_l.
  replace (1 * 1) with 1 by ring. replace (2 * 2) with 4 by ring.
  assert (R : forall d, 1 <= d -> resolved n d).
  { intros d Hd. right. rewrite N, Rabs_right; lra. }
  rewrite !integrate_add by (apply R; lra).
  intros E. rewrite !integrate_exact in E by (rewrite N, Rabs_right; lra).
  apply (f_equal qw) in E. cbn [qw] in E. rewrite N in E.
  replace (1 * (1 + 1 + 1) / 2) with (3 / 2) in E by field.
  replace (1 * 4 / 2) with 2 in E by field.
  assert (L : cos 2 < cos (3 / 2)) by (apply cos_decreasing_1; pose proof PI2_1; pose proof PI_RGT_0; lra).
  lra.
Qed.

(** ** C44: the Jacobian of the quaternion *)

(** the exponential map without the cut-off, with the velocity as a vector *)
Definition exp_step (tau : R) (v : vect) : quat :=
  let w := sqrt (nsq v) in
  let s := tau / 2 * sinc (w * (tau / 2)) in
  Q (s * v 0%nat) (s * v 1%nat) (s * v 2%nat) (1 - tau * tau / 8 * (sinc (w * (tau / 4)) * sinc (w * (tau / 4)) * nsq v)).

(** it agrees with [integrate] above the cut-off *)
Lemma exp_step_integrate tau v : eps12 < norm3 (vec_of v 0) * Rabs tau ->
  exp_step tau v = integrate (vec_of v 0) tau.
Proof.
  intros H. rewrite (integrate_exact _ _ H).
  assert (N : norm3 (vec_of v 0) = sqrt (nsq v)) by reflexivity.
  rewrite N in *. unfold exp_step.
  pose proof eps12_gt0 as P. pose proof (sqrt_pos (nsq v)) as Hs.
  assert (Hw : sqrt (nsq v) <> 0) by (intros Z; rewrite Z in H; lra).
  assert (Ht : tau <> 0) by (intros Z; rewrite Z, Rabs_R0 in H; lra).
  assert (E : sqrt (nsq v) * sqrt (nsq v) = nsq v) by (apply sqrt_sqrt, nsq_nonneg).
  set (w := sqrt (nsq v)) in *. clearbody w. rewrite <- E.
  assert (N2 : w * (tau / 2) <> 0) by (apply Rmult_integral_contrapositive; lra).
  assert (N4 : w * (tau / 4) <> 0) by (apply Rmult_integral_contrapositive; lra).
  cbv zeta. unfold sinc. destruct (Req_EM_T (w * (tau / 2)) 0); [contradiction|].
  destruct (Req_EM_T (w * (tau / 4)) 0); [contradiction|].
  replace (w * tau / 2) with (w * (tau / 2)) by field. unfold vec_of. cbn [vx vy vz Nat.add].
  f_equal; try (field; split; assumption).
  replace (w * (tau / 2)) with (2 * (w * (tau / 4))) by field. rewrite cos_2a_sin. field. split; assumption.
Qed.

Lemma exp_step_zero_deriv tau q :
  derivative 3 4 (fun v => to4 (qmul q (exp_step tau v))) (fun _ => 0) (quat_vel_block tau q).
Proof.
  intros g e Hc _ i Hi.
  set (w := fun h => sqrt (nsq (at_time g h))).
  assert (Cn : continuous (fun h => nsq (at_time g h)) 0).
  { apply (ex_derive_continuous (fun h => nsq (at_time g h))). unfold nsq, at_time.
    take_curve Hc 3%nat. use_curve. auto_derive. ex_curve. }
  assert (E0 : w 0 = 0).
  { unfold w, nsq, at_time. rewrite (proj1 (Hc 0%nat ltac:(lia))), (proj1 (Hc 1%nat ltac:(lia))),
      (proj1 (Hc 2%nat ltac:(lia))). replace (_ + _) with 0 by ring. apply sqrt_0. }
  assert (Cw : continuous w 0).
  { apply (continuous_comp (fun h => nsq (at_time g h)) sqrt); [exact Cn|apply continuous_sqrt]. }
  assert (CS : forall c, continuous (fun h => sinc (w h * c)) 0).
  { intros c. apply (continuous_comp (fun h => w h * c) sinc).
    - apply (continuous_mult w (fun _ => c)); [exact Cw|apply continuous_const].
    - rewrite E0, Rmult_0_l. exact sinc_continuous_0. }
  assert (C3 : continuous (fun h => sinc (w h * (tau / 4)) * sinc (w h * (tau / 4))) 0).
  { apply (continuous_mult (fun h => sinc (w h * (tau / 4))) (fun h => sinc (w h * (tau / 4)))); apply CS. }
  assert (S0 : forall c, sinc (w 0 * c) = 1).
  { intros c. rewrite E0, Rmult_0_l. unfold sinc; destruct (Req_EM_T 0 0); lra. }
  assert (G : forall k u1 u2 d2, u1 0 = 0 -> is_derive u1 0 0 -> u2 0 = 0 -> is_derive u2 0 d2 ->
    is_derive (fun h => k + sinc (w h * (tau / 4)) * sinc (w h * (tau / 4)) * u1 h + sinc (w h * (tau / 2)) * u2 h) 0 d2).
  { intros k u1 u2 d2 Z1 D1 Z2 D2.
    pose proof (is_derive_vanish _ u1 _ Z1 D1 C3) as V1.
    pose proof (is_derive_vanish _ u2 _ Z2 D2 (CS (tau / 2))) as V2. cbn beta in V1, V2.
    rewrite S0, Rmult_1_l in V2. rewrite Rmult_0_r in V1.
    replace d2 with (plus (plus 0 0) d2) by (unfold plus; cbn; ring).
    apply (is_derive_plus (fun h => k + sinc (w h * (tau / 4)) * sinc (w h * (tau / 4)) * u1 h)); [|exact V2].
    apply (is_derive_plus (fun _ => k)); [apply (is_derive_const k 0)|exact V1]. }
  set (c := fun r => nth r [ [qw q; - qz q; qy q]; [qz q; qw q; - qx q]; [- qy q; qx q; qw q]; [- qx q; - qy q; - qz q] ] []).
  set (k := fun r => nth r [qx q; qy q; qz q; qw q] 0).
  apply (is_derive_ext (fun h => k i
      + sinc (w h * (tau / 4)) * sinc (w h * (tau / 4)) * (- (tau * tau / 8) * k i * nsq (at_time g h))
      + sinc (w h * (tau / 2)) * (tau / 2 * (nth 0 (c i) 0 * g 0%nat h + nth 1 (c i) 0 * g 1%nat h + nth 2 (c i) 0 * g 2%nat h)))).
  { intros h. match goal with |- ?a = ?b => change (@eq R a b) end.
    unfold exp_step. fold (w h). idx i Hi; unfold k, c, to4, qmul, vlist, at_time; cbn [nth qx qy qz qw]; ring. }
  apply (G (k i) (fun h => - (tau * tau / 8) * k i * nsq (at_time g h))
           (fun h => tau / 2 * (nth 0 (c i) 0 * g 0%nat h + nth 1 (c i) 0 * g 1%nat h + nth 2 (c i) 0 * g 2%nat h)));
    take_curve Hc 3%nat; clear Hc G C3 S0 CS Cw E0 Cn w; unfold nsq, at_time; use_curve.
  - rew_curve. ring.
  - auto_derive; ex_curve. ring.
  - rew_curve. ring.
  - auto_derive; ex_curve. unfold mvec, quat_vel_block, mlist.
    idx i Hi; unfold c; cbn [nth sum]; field.
Qed.

(** The block written for derivative l is the derivative of the prediction at zero velocity
    exactly when the time step is 0 or 1: it has one factor dt too many. *)
Theorem quaternion_update_velocity_jacobian_iff dt l q : q <> Q 0 0 0 0 ->
  derivative 3 4 (fun v => to4 (qmul q (exp_step (dt ^ S l) v))) (fun _ => 0) (quat_vel_block (dt ^ S (S l)) q)
  <-> dt = 0 \/ dt = 1.
Proof.
  intros Hq. pose proof (exp_step_zero_deriv (dt ^ S l) q) as D. split.
  - intros H. pose proof (derivative_unique _ _ _ _ _ _ D H) as U.
    assert (M : forall a, a * dt ^ S l / 2 = a * dt ^ S (S l) / 2 -> a <> 0 -> dt = 0 \/ dt = 1).
    { intros a Ha Na. rewrite <- (tech_pow_Rmult dt (S l)) in Ha.
      assert (P : a * (dt ^ S l * (dt - 1)) = 0) by lra.
      apply Rmult_integral in P. destruct P as [P|P]; [contradiction|].
      apply Rmult_integral in P. destruct P as [P|P]; [left|right; lra].
      destruct (Req_EM_T dt 0) as [Z|NZ]; [exact Z|]. exfalso. apply (pow_nonzero dt (S l) NZ), P. }
    set (p1 := dt ^ S l) in *. set (p2 := dt ^ S (S l)) in *.
    pose proof (U 0%nat 0%nat ltac:(lia) ltac:(lia)) as U0.
    pose proof (U 3%nat 0%nat ltac:(lia) ltac:(lia)) as U1.
    pose proof (U 3%nat 1%nat ltac:(lia) ltac:(lia)) as U2.
    pose proof (U 3%nat 2%nat ltac:(lia) ltac:(lia)) as U3.
    unfold quat_vel_block, mlist in U0, U1, U2, U3. cbn [nth] in U0, U1, U2, U3.
    destruct (Req_EM_T (qw q) 0) as [Zw|N]; [|apply (M (qw q)); [lra|exact N]].
    destruct (Req_EM_T (qx q) 0) as [Zx|N]; [|apply (M (qx q)); [lra|exact N]].
    destruct (Req_EM_T (qy q) 0) as [Zy|N]; [|apply (M (qy q)); [lra|exact N]].
    destruct (Req_EM_T (qz q) 0) as [Zz|N]; [|apply (M (qz q)); [lra|exact N]].
    exfalso. apply Hq. destruct q as [a b c d]. cbn [qx qy qz qw] in *. subst. reflexivity.
  - intros H. replace (dt ^ S (S l)) with (dt ^ S l); [exact D|].
    destruct H as [->| ->]; [rewrite !pow_i by lia; reflexivity|rewrite !pow1; reflexivity].
Qed.

(** what would be right: one factor less *)
Theorem quaternion_update_velocity_jacobian_corrected dt l q :
  derivative 3 4 (fun v => to4 (qmul q (exp_step (dt ^ S l) v))) (fun _ => 0) (quat_vel_block (dt ^ S l) q).
Proof. apply exp_step_zero_deriv. Qed.

(** The block with respect to the quaternion is the identity: right only if nothing rotates. *)
Definition right_mul (e : quat) : mat := mlist [
  [ qw e; qz e; - qy e; qx e ];
  [ - qz e; qw e; qx e; qy e ];
  [ qy e; - qx e; qw e; qz e ];
  [ - qx e; - qy e; - qz e; qw e ] ].

Lemma right_mul_deriv e x : derivative 4 4 (fun q => to4 (qmul (quat_of q 0) e)) x (right_mul e).
Proof.
  intros g d Hc _ r Hr. take_curve Hc 4%nat. clear Hc.
  idx r Hr; unfold to4, qmul, right_mul; un_rot; use_curve; auto_derive; ex_curve; ring.
Qed.

Theorem quaternion_update_rotation_jacobian_iff e x :
  derivative 4 4 (fun q => to4 (qmul (quat_of q 0) e)) x eye <-> e = qone.
Proof.
  pose proof (right_mul_deriv e x) as D. split.
  - intros H. pose proof (derivative_unique _ _ _ _ _ _ D H) as U.
    pose proof (U 0%nat 0%nat ltac:(lia) ltac:(lia)) as U0.
    pose proof (U 0%nat 1%nat ltac:(lia) ltac:(lia)) as U1.
    pose proof (U 0%nat 2%nat ltac:(lia) ltac:(lia)) as U2.
    pose proof (U 0%nat 3%nat ltac:(lia) ltac:(lia)) as U3.
    unfold right_mul, mlist, eye in U0, U1, U2, U3. cbn [nth Nat.eqb] in U0, U1, U2, U3.
    destruct e as [a b c d]. cbn [qx qy qz qw] in *. unfold qone. f_equal; lra.
  - intros ->. apply (derivative_meq _ _ _ _ _ (right_mul qone)); [|exact D].
    intros i j Hi Hj. idx i Hi; idx j Hj; unfold right_mul, mlist, eye, qone; cbn [nth Nat.eqb qx qy qz qw]; ring.
Qed.

(** ** C43: prediction at an earlier time *)
Open Scope Z_scope.
Theorem prediction_interval_iff t m :
  0 <= t < 2 ^ 64 -> 0 <= m < 2 ^ 64 ->
  (dt_predict t m = IZR (t - m) * / 10 ^ 9)%R <-> m <= t.
Proof.
  intros Ht Hm. unfold dt_predict, u64.
  assert (N : (/ 10 ^ 9 <> 0)%R).
  { apply Rinv_neq_0_compat, pow_nonzero. lra. }
  split.
  - intros E. apply Rmult_eq_reg_r in E; [|exact N]. apply eq_IZR in E.
    pose proof (Z.mod_pos_bound (t - m) (2 ^ 64) ltac:(lia)). lia.
  - intros L. rewrite Z.mod_small by lia. reflexivity.
Qed.

(** for an earlier time the interval is off by 2^64 ns, more than 584 years *)
Theorem prediction_earlier_refuted t m :
  0 <= t -> t < m -> m < 2 ^ 64 -> (dt_predict t m = IZR (t - m + 2 ^ 64) * / 10 ^ 9)%R.
Proof.
  intros H1 H2 H3. unfold dt_predict, u64.
  replace ((t - m) mod 2 ^ 64) with (t - m + 2 ^ 64); [reflexivity|].
  symmetry. rewrite <- (Z_mod_plus_full (t - m) 1 (2 ^ 64)).
  rewrite Z.mul_1_l. apply Z.mod_small. lia.
Qed.

(** the time update of both filters is right on either side, up to 292 years *)
Theorem update_interval_exact t m :
  - 2 ^ 63 <= t - m < 2 ^ 63 -> dt_update t m = (IZR (t - m) * / 10 ^ 9)%R.
Proof.
  intros H. unfold dt_update, s64, u64. do 2 f_equal.
  destruct (Z.ltb_spec ((t - m) mod 2 ^ 64) (2 ^ 63)) as [L|L];
    pose proof (Z_div_mod_eq_full (t - m) (2 ^ 64)) as E;
    pose proof (Z.mod_pos_bound (t - m) (2 ^ 64) ltac:(lia)) as B;
    set (k := (t - m) / 2 ^ 64) in *; set (r := (t - m) mod 2 ^ 64) in *; clearbody k r; lia.
Qed.

(** ** C41: layout of the state vector *)

(** Specification: the quantities of the state and the indices they occupy *)
Inductive quantity := Position (order : Z) | Orientation | AngularDerivative (order : Z).
Definition exists_in (p o : Z) (a : quantity) : Prop :=
  match a with
  | Position k => 0 <= k <= p
  | Orientation => 0 <= o
  | AngularDerivative k => 1 <= k <= o
  end.
(** as documented in PoseTimeUpdate.h:66-67: p, p', p'', ..., q, q', q'', ... *)
Definition occupies (p : Z) (a : quantity) (i : Z) : Prop :=
  match a with
  | Position k => 3 * k <= i < 3 * k + 3
  | Orientation => 3 * (p + 1) <= i < 3 * (p + 1) + 4
  | AngularDerivative k => 3 * (p + 1) + 4 + 3 * (k - 1) <= i < 3 * (p + 1) + 4 + 3 * (k - 1) + 3
  end.

Theorem state_layout_partition p o : -1 <= p -> -1 <= o ->
  (forall a i, exists_in p o a -> occupies p a i -> 0 <= i < state_size p o) /\
  (forall i, 0 <= i < state_size p o -> exists a, exists_in p o a /\ occupies p a i) /\
  (forall a b i, exists_in p o a -> exists_in p o b -> occupies p a i -> occupies p b i -> a = b) /\
  state_size p o = update_size p o.
Proof.
  intros Hp Ho. unfold state_size, update_size. split; [|split; [|split]].
  - intros a i Ha Hi. destruct (Z.geb_spec o 0); destruct a; cbn [exists_in occupies] in *; lia.
  - intros i Hi. destruct (Z_lt_dec i (3 * (p + 1))) as [L|L].
    { exists (Position (i / 3)). cbn [exists_in occupies].
      pose proof (Z_div_mod_eq_full i 3). pose proof (Z.mod_pos_bound i 3 ltac:(lia)). lia. }
    destruct (Z.geb_spec o 0) as [G|G]; [|lia].
    destruct (Z_lt_dec i (3 * (p + 1) + 4)) as [L2|L2].
    { exists Orientation. cbn [exists_in occupies]. lia. }
    set (j := i - (3 * (p + 1) + 4)). exists (AngularDerivative (j / 3 + 1)). cbn [exists_in occupies].
    pose proof (Z_div_mod_eq_full j 3). pose proof (Z.mod_pos_bound j 3 ltac:(lia)). unfold j in *. lia.
  - intros a b i Ha Hb Hi Hj. destruct a, b; cbn [exists_in occupies] in *;
      try (exfalso; lia); try reflexivity; f_equal; lia.
  - destruct (Z.geb_spec o 0); lia.
Qed.

(** the noise setters write the square of their argument to the entries of the quantity they
    name and to no other *)
Theorem noise_setters_exact p o f v i : -1 <= p -> -1 <= o -> 0 <= i < state_size p o ->
  (forall k, 0 <= k <= p ->
     (occupies p (Position k) i -> set_pos_noise f k v i = (v * v)%R) /\
     (~ occupies p (Position k) i -> set_pos_noise f k v i = f i)) /\
  (0 <= o ->
     (occupies p Orientation i -> set_ori_noise p f 0 v i = (v * v)%R) /\
     (~ occupies p Orientation i -> set_ori_noise p f 0 v i = f i)) /\
  (forall k, 1 <= k <= o ->
     (occupies p (AngularDerivative k) i -> set_ori_noise p f k v i = (v * v)%R) /\
     (~ occupies p (AngularDerivative k) i -> set_ori_noise p f k v i = f i)).
Proof.
  intros Hp Ho Hi. unfold set_pos_noise, set_ori_noise, set_range_z. cbn [occupies].
  split; [|split].
  - intros k Hk. destruct (Z.leb_spec (3 * k) i); destruct (Z.ltb_spec i (3 + 3 * k)); cbn [andb];
      split; intros; try reflexivity; exfalso; lia.
  - intros _. cbn [Z.eqb]. destruct (Z.leb_spec (3 + 3 * p) i); destruct (Z.ltb_spec i (7 + 3 * p)); cbn [andb];
      split; intros; try reflexivity; exfalso; lia.
  - intros k Hk. destruct (Z.eqb_spec k 0) as [E|_]; [lia|].
    destruct (Z.leb_spec (4 + 3 * (p + k)) i); destruct (Z.ltb_spec i (7 + 3 * (p + k))); cbn [andb];
      split; intros; try reflexivity; exfalso; lia.
Qed.

(** the blocks of the time update (3 i, rs, rs + 1 + 3 i) and of the measurement updates
    (iR, iV; PoseKalmanFilter.cpp:99, 136, 179) start where the quantities do *)
Theorem update_offsets p k :
  (forall i, occupies p (Position k) i <-> 3 * k <= i < 3 * k + 3) /\
  (forall i, occupies p Orientation i <-> 3 + 3 * p <= i < 3 + 3 * p + 4) /\
  (forall i, occupies p (AngularDerivative k) i <-> 3 + 3 * p + 1 + 3 * k <= i < 3 + 3 * p + 1 + 3 * k + 3) /\
  (forall i, occupies p (AngularDerivative 1) i <-> 4 + 3 * (p + 1) <= i < 4 + 3 * (p + 1) + 3).
Proof. cbn [occupies]. repeat split; intros; lia. Qed.

(** an order that the model does not have silently changes another quantity *)
Theorem noise_setter_order_refuted p o f v : -1 <= p -> 0 <= o ->
  exists i, occupies p Orientation i /\ set_pos_noise f (p + 1) v i = (v * v)%R.
Proof.
  intros Hp Ho. exists (3 * (p + 1)). cbn [occupies]. split; [lia|].
  unfold set_pos_noise, set_range_z.
  destruct (Z.leb_spec (3 * (p + 1)) (3 * (p + 1))); [|lia].
  destruct (Z.ltb_spec (3 * (p + 1)) (3 + 3 * (p + 1))); [|lia]. reflexivity.
Qed.
Open Scope R_scope.

(** ** C82: the inverse angular velocity *)
Lemma integrate_conjugate q v t : unit q -> integrate (qrot q v) t = qmul (qmul q (integrate v t)) (qconj q).
Proof.
  intros U.
  assert (N : norm3 (qrot q v) = norm3 v).
  { pose proof (qrot_dot q v v U) as D. unfold norm3. unfold dot3 in D. rewrite D. reflexivity. }
  unfold integrate, from_log. rewrite !norm3_v3scale, N.
  destruct (Rgt_dec (Rabs t * norm3 v) eps12) as [G|G].
  2:{ rewrite qmul_one_r. symmetry. apply qmul_conj_r, U. }
  set (s := sin (Rabs t * norm3 v / 2) / (Rabs t * norm3 v)).
  set (c := cos (Rabs t * norm3 v / 2)). clearbody s c.
  pose proof (qrot_conjugation q v U) as C.
  pose proof (qmul_conj_r q U) as I.
  unfold unit, qnorm in U. destruct q as [a b e d]. destruct v as [x y z].
  unfold qrot, qmul, qconj, imag, v3scale, qone in *. cbn [qx qy qz qw vx vy vz] in *.
  assert (C1 := f_equal qx C). assert (C2 := f_equal qy C). assert (C3 := f_equal qz C).
  cbn [qx qy qz] in C1, C2, C3. rewrite C1, C2, C3.
  f_equal; try ring.
  transitivity (c * (a * a + b * b + e * e + d * d)); [rewrite U; ring|ring].
Qed.

Theorem inverse_velocity_exact q w t : unit q ->
  qconj (qmul q (integrate w t)) = qmul (qconj q) (integrate (v3opp (qrot q w)) t).
Proof.
  intros U.
  assert (O : integrate (v3opp (qrot q w)) t = qconj (integrate (qrot q w) t)).
  { unfold integrate.
    replace (v3scale t (v3opp (qrot q w))) with (v3opp (v3scale t (qrot q w)))
      by (unfold v3scale, v3opp; cbn [vx vy vz]; f_equal; ring).
    set (u := v3scale t (qrot q w)). unfold from_log.
    assert (N : norm3 (v3opp u) = norm3 u).
    { unfold norm3, v3opp. cbn [vx vy vz]. f_equal. ring. }
    rewrite N. destruct (Rgt_dec (norm3 u) eps12); unfold qconj, qone, v3opp; cbn [qx qy qz qw vx vy vz]; f_equal; ring. }
  rewrite O, (integrate_conjugate q w t U).
  set (e := integrate w t).
  assert (CM : forall a b, qconj (qmul a b) = qmul (qconj b) (qconj a)).
  { intros a b. unfold qconj, qmul. cbn [qx qy qz qw]. f_equal; ring. }
  rewrite !CM. replace (qconj (qconj q)) with q by (destruct q as [k1 k2 k3 k4]; unfold qconj; cbn [qx qy qz qw]; f_equal; ring).
  rewrite qmul_assoc, (qmul_conj_l q U), qmul_one_l. reflexivity.
Qed.

Theorem invert_velocity_value x : unit_at 0 x ->
  veq 3 (invert_velocity x) (of3 (v3opp (qrot (quat_of x 0) (vec_of x 4)))).
Proof.
  intros _ i Hi. unfold invert_velocity. idx i Hi; unfold v3opp; un_rot; ring.
Qed.

Theorem invert_velocity_jacobian x : unit_at 0 x ->
  derivative_on (unit_at 0) 7 3 invert_velocity x (invert_velocity_jac x).
Proof.
  intros U.
  apply (derivative_ext _ _ _ (fun y => hom_rotate (fun i => - y (4 + i)%nat) y)).
  - intros y Hy. apply hom_rotate_unit, Hy.
  - intros g e Hc _ r Hr. take_curve Hc 7%nat. clear Hc. revert U. un_rot. intros U.
    assert (E : x 3%nat * x 3%nat = 1 - x 0%nat * x 0%nat - x 1%nat * x 1%nat - x 2%nat * x 2%nat) by lra.
    unfold hom_rotate, invert_velocity_jac, mvec. cbn [sum Nat.ltb Nat.leb Nat.sub].
    idx r Hr; un_rot; use_curve; auto_derive; ex_curve; ring [E].
Qed.

(** ** C81: inside-out tracking *)

(** if the functor returned the rotation it is meant to return, the position would turn with the
    orientation *)
Theorem inside_out_exact dt p vel q w : unit q ->
  norm3 w * dt = 0 \/ 10 ^ 12 < Rabs (norm3 w * dt) ->
  inside_out_position dt p vel q w =
  v3add (qrot (inside_out_orientation dt q w) (qrot (qconj q) p))
        (match vel with Some d => v3scale dt d | None => v3zero end).
Proof.
  intros U H. unfold inside_out_position, inside_out_rotation, inside_out_orientation.
  assert (N : norm3 (qrot q w) = norm3 w).
  { pose proof (qrot_dot q w w U) as D. unfold norm3. unfold dot3 in D. rewrite D. reflexivity. }
  assert (E : integration_functor dt (qrot q w) = integrate (qrot q w) dt).
  { apply integration_functor_correct_iff. rewrite N. exact H. }
  rewrite E, (integrate_conjugate q w dt U).
  assert (Ui := integration_unit w dt).
  rewrite qrot_mul by (try apply unit_mul; try apply unit_conj; assumption).
  destruct vel; [reflexivity|]. rewrite v3add_zero. reflexivity.
Qed.

(** and the velocity would turn as well *)
Theorem inside_out_velocity_exact dt vel q w : unit q ->
  norm3 w * dt = 0 \/ 10 ^ 12 < Rabs (norm3 w * dt) ->
  inside_out_velocity dt vel q w = qrot (inside_out_orientation dt q w) (qrot (qconj q) vel) /\
  dot3 (inside_out_velocity dt vel q w) (inside_out_velocity dt vel q w) = dot3 vel vel.
Proof.
  intros U H. assert (E := inside_out_exact dt vel None q w U H). unfold inside_out_position in E. rewrite v3add_zero in E.
  unfold inside_out_velocity. split; [exact E|]. rewrite E. rewrite !qrot_dot; try reflexivity; [apply unit_conj; exact U|].
  unfold inside_out_orientation. apply unit_mul; [exact U|apply integration_unit].
Qed.

(** It does not: a point on the axis of rotation, which does not move, is pushed outwards in
    every step, for every orientation and angular velocity. *)
Theorem inside_out_axis_refuted dt q w : unit q -> 0 < Rabs (norm3 w * dt) <= 10 ^ 12 ->
  let p := qrot q w in
  let p' := inside_out_position dt p None q w in
  dot3 p p < dot3 p' p' /\
  qrot (inside_out_orientation dt q w) (qrot (qconj q) p) = p.
Proof.
  intros U H p p'.
  assert (N : norm3 p = norm3 w).
  { pose proof (qrot_dot q w w U) as D. unfold p, norm3. unfold dot3 in D. rewrite D. reflexivity. }
  split.
  - unfold p', inside_out_position, inside_out_rotation. fold p.
    assert (Hp : 0 < Rabs (norm3 p * dt) <= 10 ^ 12) by (rewrite N; exact H).
    destruct (integration_functor_refuted dt p Hp) as [L _].
    set (s := integration_functor dt p) in *.
    assert (P : exists k, qx s = vx p * k /\ qy s = vy p * k /\ qz s = vz p * k).
    { unfold s, integration_functor. cbn [qx qy qz]. eexists. repeat split; reflexivity. }
    destruct P as (k & Ex & Ey & Ez).
    assert (NZ : 0 < dot3 p p).
    { assert (Q : norm3 p <> 0) by (intros Z; rewrite Z, Rmult_0_l, Rabs_R0 in Hp; lra).
      pose proof (norm3_sq p) as SQ. unfold dot3. rewrite <- SQ. pose proof (norm3_nonneg p). nra. }
    assert (F : qrot s p = v3scale (2 * qnorm s - 1) p).
    { unfold qrot, v3scale, qnorm. rewrite Ex, Ey, Ez. cbn [vx vy vz]. f_equal; ring. }
    rewrite F. set (m := 2 * qnorm s - 1). assert (Hm : 1 < m) by (unfold m; lra).
    replace (dot3 (v3scale m p) (v3scale m p)) with (m * m * dot3 p p)
      by (unfold dot3, v3scale; cbn [vx vy vz]; ring).
    assert (1 < m * m) by (clear - Hm; nra). set (X := dot3 p p) in *. clearbody X m. clear - NZ H0. nra.
  - unfold p. rewrite (qrot_conj_l q w U). unfold inside_out_orientation.
    rewrite qrot_mul by (try apply integration_unit; exact U). f_equal.
    destruct (Rle_lt_dec (norm3 w * Rabs dt) eps12) as [L|L].
    + unfold integrate, from_log. rewrite norm3_v3scale.
      destruct (Rgt_dec (Rabs dt * norm3 w) eps12); [lra|]. apply qrot_one.
    + rewrite (integration_rodrigues w dt w L). cbv zeta.
      assert (Hw : norm3 w <> 0) by (intros Z; rewrite Z in L; pose proof eps12_gt0; lra).
      pose proof (norm3_sq w) as SQ.
      assert (DD : dot3 (v3scale (/ norm3 w) w) w = norm3 w).
      { unfold dot3, v3scale. cbn [vx vy vz].
        transitivity (/ norm3 w * (norm3 w * norm3 w)); [rewrite SQ; ring|field; exact Hw]. }
      rewrite DD. destruct w as [x y z]. unfold v3add, v3scale, cross3. cbn [vx vy vz].
      set (n := norm3 _) in *. set (c := cos _). set (si := sin _). clearbody c si.
      f_equal; field; exact Hw.
Qed.

Print Assumptions integration_functor_correct_iff.
Print Assumptions velocity_between_exact.
Print Assumptions rotation_update_composes.
Print Assumptions quaternion_update_velocity_jacobian_iff.
Print Assumptions quaternion_update_rotation_jacobian_iff.
Print Assumptions prediction_interval_iff.
Print Assumptions state_layout_partition.
Print Assumptions noise_setters_exact.
Print Assumptions inverse_velocity_exact.
Print Assumptions invert_velocity_jacobian.
Print Assumptions inside_out_axis_refuted.
Print Assumptions inside_out_velocity_exact.
