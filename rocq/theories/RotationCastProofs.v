From Coq Require Import Reals Lra Lia Psatz List.
From Verif Require Import Mat Quat QuatProofs QuatMatProofs QuatTrigProofs RotationCast.
Open Scope R_scope.

Lemma eps10_pos : 0 < eps10.
Proof. unfold eps10. apply Rinv_0_lt_compat, pow_lt. lra. Qed.

Lemma sqrt_max_sq x : sqrt (Rmax 0 (x * x)) = Rabs x.
Proof. rewrite Rmax_right by apply Rle_0_sqr. apply sqrt_Rsqr_abs. Qed.

Lemma sign_abs x w : 0 < w -> (if Rlt_dec (4 * (w * x)) 0 then - Rabs x else Rabs x) = x.
Proof.
  intros Hw. destruct (Rlt_dec (4 * (w * x)) 0) as [H|H].
  - assert (x < 0) by (apply Rnot_le_lt; intros Hx; assert (0 <= w * x) by (apply Rmult_le_pos; lra); lra).
    rewrite Rabs_left by assumption. ring.
  - assert (0 <= x). { apply Rnot_lt_le. intros Hx. assert (0 < w * - x) by (apply Rmult_lt_0_compat; lra). lra. }
    rewrite Rabs_right by lra. reflexivity.
Qed.

(** the four radicands are the squares of the quaternion's entries *)
Lemma cast_mat_quat_form q : unit q ->
  cast_mat_quat (qmat q) =
  Q (if Rlt_dec (4 * (qw q * qx q)) 0 then - Rabs (qx q) else Rabs (qx q))
    (if Rlt_dec (4 * (qw q * qy q)) 0 then - Rabs (qy q) else Rabs (qy q))
    (if Rlt_dec (4 * (qw q * qz q)) 0 then - Rabs (qz q) else Rabs (qz q)) (Rabs (qw q)).
Proof.
  intros H. destruct q as [x y z w]. un.
  assert (E : w * w = 1 - x * x - y * y - z * z) by lra.
  unfold cast_mat_quat, qmat, mk33. cbn [qx qy qz qw].
  replace (1/4 + (1 - 2 * (y * y + z * z)) / 4 + (1 - 2 * (x * x + z * z)) / 4 + (1 - 2 * (x * x + y * y)) / 4)
    with (w * w) by lra.
  replace (1/4 + (1 - 2 * (y * y + z * z)) / 4 - (1 - 2 * (x * x + z * z)) / 4 - (1 - 2 * (x * x + y * y)) / 4)
    with (x * x) by lra.
  replace (1/4 - (1 - 2 * (y * y + z * z)) / 4 + (1 - 2 * (x * x + z * z)) / 4 - (1 - 2 * (x * x + y * y)) / 4)
    with (y * y) by lra.
  replace (1/4 - (1 - 2 * (y * y + z * z)) / 4 - (1 - 2 * (x * x + z * z)) / 4 + (1 - 2 * (x * x + y * y)) / 4)
    with (z * z) by lra.
  rewrite !sqrt_max_sq.
  replace (2 * (y * z + x * w) - 2 * (y * z - x * w)) with (4 * (w * x)) by ring.
  replace (2 * (x * z + y * w) - 2 * (x * z - y * w)) with (4 * (w * y)) by ring.
  replace (2 * (x * y + z * w) - 2 * (x * y - z * w)) with (4 * (w * z)) by ring.
  reflexivity.
Qed.

Lemma cast_mat_quat_pos q : unit q -> 0 < qw q -> cast_mat_quat (qmat q) = q.
Proof.
  intros H Hw. rewrite (cast_mat_quat_form q H), !sign_abs by assumption.
  rewrite Rabs_right by lra. destruct q; reflexivity.
Qed.

Lemma qmat_opp q : qmat (qopp q) = qmat q.
Proof. destruct q as [x y z w]. unfold qmat, qopp. cbn [qx qy qz qw]. f_equal; ring. Qed.

Lemma cast_mat_quat_ext m m' : meq 3 3 m m' -> cast_mat_quat m = cast_mat_quat m'.
Proof. intros H. unfold cast_mat_quat. rewrite !H by lia. reflexivity. Qed.

Lemma trace_qmat q : unit q -> trace33 (qmat q) = 4 * (qw q * qw q) - 1.
Proof. destruct q as [x y z w]. un. unfold trace33. cbn. intros H. lra. Qed.

Lemma cast_mat_quat_half q : unit q -> qw q = 0 ->
  cast_mat_quat (qmat q) = Q (Rabs (qx q)) (Rabs (qy q)) (Rabs (qz q)) 0.
Proof.
  intros H Hw. rewrite (cast_mat_quat_form q H), Hw. rewrite !Rmult_0_l, !Rmult_0_r.
  destruct (Rlt_dec 0 0); [lra|]. rewrite Rabs_R0. reflexivity.
Qed.

(** rotation matrices are the matrices of unit quaternions *)
Lemma rotation_has_quat m : rotation m -> exists q, unit q /\ meq 3 3 (qmat q) m.
Proof. intros H. destruct (quat_of_mat_rotation m H) as (q & _ & Hq & HM). exists q. auto. Qed.

Lemma cast_mat_quat_ok m : rotation m -> trace33 m <> -1 ->
  unit (cast_mat_quat m) /\ 0 < qw (cast_mat_quat m) /\ meq 3 3 (qmat (cast_mat_quat m)) m.
Proof.
  intros H Ht. destruct (rotation_has_quat m H) as (q & Hq & HM).
  assert (Htr : trace33 m = 4 * (qw q * qw q) - 1).
  { rewrite <- trace_qmat by assumption. unfold trace33. rewrite !HM by lia. reflexivity. }
  assert (Hw : qw q <> 0). { intros E. apply Ht. rewrite Htr, E. ring. }
  rewrite <- (cast_mat_quat_ext _ _ HM).
  destruct (Rlt_dec 0 (qw q)) as [Hp|Hn].
  - rewrite cast_mat_quat_pos by assumption. auto.
  - assert (Hp : 0 < qw (qopp q)) by (destruct q; cbn in *; lra).
    rewrite <- (qmat_opp q). rewrite cast_mat_quat_pos by (try apply unit_opp; assumption).
    split; [apply unit_opp, Hq|]. split; [exact Hp|]. rewrite qmat_opp. exact HM.
Qed.

(** ** quaternion to matrix *)
Lemma cast_quat_mat_ok q : unit q -> cast_quat_mat q = qmat q.
Proof.
  intros H. destruct q as [x y z w]. unfold unit, qnorm in H. unfold cast_quat_mat, qmat.
  cbn [qx qy qz qw] in *. f_equal; lra.
Qed.

(** ** axis and angle *)
Lemma cast_aa_quat_unit v : unit_axis (axis v) -> unit (cast_aa_quat v).
Proof.
  destruct v as [[x y z] a]. unfold unit_axis, dot3, unit, qnorm, cast_aa_quat. cbn. intros H.
  pose proof (sin2_cos2 (a / 2)) as E. unfold Rsqr in E.
  replace (x * sin (a / 2) * (x * sin (a / 2)) + y * sin (a / 2) * (y * sin (a / 2)) +
     z * sin (a / 2) * (z * sin (a / 2)) + cos (a / 2) * cos (a / 2))
    with ((x * x + y * y + z * z) * (sin (a / 2) * sin (a / 2)) + cos (a / 2) * cos (a / 2)) by ring.
  rewrite H. lra.
Qed.

Lemma cast_aa_quat_is_ctor v : unit_axis (axis v) ->
  quat_of_axis_angle (axis v) (angle v) = Some (cast_aa_quat v).
Proof.
  destruct v as [[x y z] a]. unfold unit_axis, dot3, quat_of_axis_angle, norm3, cast_aa_quat. cbn.
  intros H. rewrite H, sqrt_1. destruct (Req_EM_T 1 0); [lra|]. unfold Rdiv. rewrite Rinv_1, Rmult_1_r. reflexivity.
Qed.

Lemma cast_aa_mat_ok v : unit_axis (axis v) -> cast_aa_mat v = qmat (cast_aa_quat v).
Proof.
  destruct v as [[x y z] a]. unfold unit_axis, dot3, cast_aa_mat, cast_aa_quat, qmat. cbn. intros H.
  pose proof (sin2_cos2 (a / 2)) as E. unfold Rsqr in E.
  assert (C : cos a = 1 - 2 * (sin (a / 2) * sin (a / 2))).
  { replace a with (2 * (a / 2)) at 1 by lra. rewrite cos_2a. lra. }
  assert (S : sin a = 2 * sin (a / 2) * cos (a / 2)).
  { replace a with (2 * (a / 2)) at 1 by lra. apply sin_2a. }
  rewrite C, S. set (s := sin (a / 2)) in *. set (c := cos (a / 2)) in *. clearbody s c. clear C S.
  assert (Hx : x * x = 1 - y * y - z * z) by lra.
  f_equal; try ring; ring [Hx].
Qed.

Lemma cast_quat_aa_ok q : unit q -> qw q <> 1 -> qw q <> -1 ->
  exists v, cast_quat_aa q = Some v /\ unit_axis (axis v) /\ cast_aa_quat v = q /\ 0 < angle v < 2 * PI.
Proof.
  intros H H1 H2. pose proof (unit_w_range q H) as Hr.
  assert (Hd : 0 < 1 - qw q * qw q) by nra.
  pose proof (sqrt_lt_R0 _ Hd) as Hs.
  unfold cast_quat_aa. destruct (Req_EM_T (sqrt (1 - qw q * qw q)) 0) as [E|_]; [lra|].
  eexists. split; [reflexivity|]. destruct q as [x y z w]. cbn in *.
  assert (Ha : 2 * acos w / 2 = acos w) by lra.
  pose proof (sqrt_sqrt (1 - w * w) ltac:(lra)) as Hq.
  set (d := sqrt (1 - w * w)) in *.
  assert (HN : x * x + y * y + z * z = d * d). { unfold unit, qnorm in H. cbn in H. lra. }
  split; [|split].
  - unfold unit_axis, dot3. cbn.
    replace (x / d * (x / d) + y / d * (y / d) + z / d * (z / d))
      with ((x * x + y * y + z * z) / (d * d)) by (field; lra).
    rewrite HN. field. lra.
  - unfold cast_aa_quat. cbn. rewrite Ha, cos_acos, sin_acos by lra.
    replace (1 - w²) with (1 - w * w) by (unfold Rsqr; ring). fold d.
    f_equal; field; lra.
  - pose proof (acos_bound w). pose proof (acos_pos w ltac:(lra)).
    split; [lra|]. assert (acos w <> PI).
    { intros E. apply H2. rewrite <- (cos_acos w) by lra. rewrite E. apply cos_PI. }
    lra.
Qed.

Lemma cast_quat_aa_undefined q : qw q = 1 \/ qw q = -1 -> cast_quat_aa q = None.
Proof.
  intros H. unfold cast_quat_aa. replace (1 - qw q * qw q) with 0 by (destruct H as [-> | ->]; ring).
  rewrite sqrt_0. destruct (Req_EM_T 0 0); [reflexivity|congruence].
Qed.

(** ** rotation vectors *)
Lemma norm3_div v : norm3 v <> 0 ->
  unit_axis (V3 (vx v / norm3 v) (vy v / norm3 v) (vz v / norm3 v)).
Proof.
  intros H. unfold unit_axis, dot3. cbn. pose proof (norm3_sq v) as E.
  replace (vx v / norm3 v * (vx v / norm3 v) + vy v / norm3 v * (vy v / norm3 v) + vz v / norm3 v * (vz v / norm3 v))
    with ((vx v * vx v + vy v * vy v + vz v * vz v) / (norm3 v * norm3 v)) by (field; exact H).
  rewrite <- E. field. exact H.
Qed.

Lemma cast_vec_quat_aa v : cast_vec_quat v = cast_aa_quat (cast_vec_aa v).
Proof.
  unfold cast_vec_quat, cast_vec_aa.
  destruct (Rlt_dec _ eps10); [|reflexivity].
  unfold cast_aa_quat, v3zero. cbn. replace (0 / 2) with 0 by lra. rewrite sin_0, cos_0.
  f_equal; ring.
Qed.

Lemma cast_vec_quat_unit v : unit (cast_vec_quat v).
Proof.
  unfold cast_vec_quat. destruct (Rlt_dec _ eps10) as [|H]; [unfold unit, qnorm; cbn; ring|].
  apply cast_aa_quat_unit. cbn [axis]. apply norm3_div. fold (norm3 v) in H. pose proof eps10_pos. lra.
Qed.

Lemma cast_vec_mat_ok v : cast_vec_mat v = qmat (cast_vec_quat v).
Proof.
  unfold cast_vec_mat. rewrite cast_vec_quat_aa.
  unfold cast_vec_aa. destruct (Rlt_dec _ eps10) as [H|H].
  - unfold cast_aa_mat, cast_aa_quat, qmat, v3zero. cbn. replace (0 / 2) with 0 by lra.
    rewrite sin_0, cos_0. f_equal; ring.
  - apply cast_aa_mat_ok. cbn [axis]. apply norm3_div. fold (norm3 v) in H. pose proof eps10_pos. lra.
Qed.

Lemma cast_vec_quat_log v : eps10 <= norm3 v -> eps12 < norm3 v -> cast_vec_quat v = from_log v.
Proof.
  intros H H'. unfold cast_vec_quat, from_log. fold (norm3 v).
  destruct (Rlt_dec (norm3 v) eps10) as [|_]; [lra|].
  destruct (Rgt_dec (norm3 v) eps12) as [_|]; [|lra].
  pose proof eps10_pos. unfold cast_aa_quat. cbn. f_equal; field; lra.
Qed.

Lemma cast_aa_vec_unit v : unit_axis (axis v) -> cast_aa_vec v = v3scale (angle v) (axis v).
Proof.
  destruct v as [[x y z] a]. unfold unit_axis, dot3, cast_aa_vec. cbn. intros H. rewrite H, sqrt_1.
  destruct (Rlt_dec 1 eps10) as [E|_].
  - exfalso. unfold eps10 in E. assert (1 <= 10 ^ 10) by (apply pow_R1_Rle; lra).
    assert (/ 10 ^ 10 <= 1). { rewrite <- Rinv_1. apply Rinv_le_contravar; lra. } lra.
  - unfold v3scale. cbn. f_equal; field.
Qed.

Lemma norm3_axis a u : unit_axis u -> norm3 (v3scale a u) = Rabs a.
Proof.
  destruct u as [x y z]. unfold unit_axis, dot3, norm3, v3scale. cbn. intros H.
  replace (a * x * (a * x) + a * y * (a * y) + a * z * (a * z)) with (a * a * (x * x + y * y + z * z)) by ring.
  rewrite H, Rmult_1_r. apply sqrt_Rsqr_abs.
Qed.

(** the rotation vector describes the same quaternion as its axis and angle *)
Lemma cast_aa_vec_quat v : unit_axis (axis v) -> eps10 <= Rabs (angle v) ->
  cast_vec_quat (cast_aa_vec v) = cast_aa_quat v.
Proof.
  intros H Ha. rewrite (cast_aa_vec_unit v H). pose proof (norm3_axis (angle v) _ H) as HN.
  unfold cast_vec_quat. fold (norm3 (v3scale (angle v) (axis v))). rewrite HN.
  destruct (Rlt_dec (Rabs (angle v)) eps10) as [|_]; [lra|].
  pose proof eps10_pos.
  destruct v as [[x y z] a]. unfold cast_aa_quat, v3scale. cbn in *.
  destruct (Rle_dec 0 a) as [Hp|Hn].
  - rewrite Rabs_right in * by lra. f_equal; field; lra.
  - rewrite Rabs_left in * by lra. replace (- a / 2) with (- (a / 2)) by lra.
    rewrite sin_neg, cos_neg. f_equal; field; lra.
Qed.

(** ** matrix to axis and angle *)
Lemma cast_mat_aa_ext m m' : meq 3 3 m m' -> cast_mat_aa m = cast_mat_aa m'.
Proof. intros H. unfold cast_mat_aa. rewrite !H by lia. reflexivity. Qed.

Lemma cast_mat_aa_quat q : unit q -> 0 < qw q -> eps10 <= acos (2 * (qw q * qw q) - 1) ->
  exists v, cast_mat_aa (qmat q) = Some v /\ unit_axis (axis v) /\ cast_aa_quat v = q.
Proof.
  intros H Hw Ha. pose proof (unit_w_range q H) as Hr. pose proof eps10_pos as He.
  pose proof (unit_imag q H) as HI.
  destruct q as [x y z w]. cbn in *.
  unfold cast_mat_aa, qmat, mk33. cbn [qx qy qz qw].
  assert (HN : x * x + y * y + z * z + w * w = 1) by (unfold unit, qnorm in H; cbn in H; exact H).
  replace ((1 - 2 * (y * y + z * z) + (1 - 2 * (x * x + z * z)) + (1 - 2 * (x * x + y * y)) - 1) / 2)
    with (2 * (w * w) - 1) by lra.
  replace (2 * (y * z + x * w) - 2 * (y * z - x * w)) with (4 * w * x) by ring.
  replace (2 * (x * z + y * w) - 2 * (x * z - y * w)) with (4 * w * y) by ring.
  replace (2 * (x * y + z * w) - 2 * (x * y - z * w)) with (4 * w * z) by ring.
  assert (Hww : 0 < w * w <= 1) by nra.
  destruct (Rlt_dec 1 (Rabs (2 * (w * w) - 1))) as [B|_].
  { exfalso. revert B. unfold Rabs. destruct (Rcase_abs _); lra. }
  destruct (Rlt_dec (acos (2 * (w * w) - 1)) eps10) as [B|_]; [lra|].
  assert (Hw1 : w <> 1). { intros ->. replace (2 * (1 * 1) - 1) with 1 in Ha by ring. rewrite acos_1 in Ha. lra. }
  assert (Hs : 0 < 1 - w * w) by nra.
  set (s := sqrt (1 - w * w)).
  assert (Hs0 : 0 < s) by (apply sqrt_lt_R0; lra).
  assert (Hss : s * s = 1 - w * w) by (apply sqrt_sqrt; lra).
  assert (HD : sqrt (4 * w * x * (4 * w * x) + 4 * w * y * (4 * w * y) + 4 * w * z * (4 * w * z)) = 4 * w * s).
  { apply Rsqr_inj; [apply sqrt_pos|assert (0 < w * s) by (apply Rmult_lt_0_compat; lra); lra|].
    unfold Rsqr. rewrite sqrt_sqrt.
    - replace (4 * w * s * (4 * w * s)) with (16 * (w * w) * (s * s)) by ring. rewrite Hss.
      replace (1 - w * w) with (x * x + y * y + z * z) by lra. ring.
    - pose proof (sq3_nonneg (4 * w * x) (4 * w * y) (4 * w * z)). lra. }
  rewrite HD.
  assert (0 < 4 * w * s) by (assert (0 < w * s) by (apply Rmult_lt_0_compat; lra); lra).
  destruct (Req_EM_T (4 * w * s) 0) as [B|_]; [lra|].
  eexists. split; [reflexivity|]. split.
  - unfold unit_axis, dot3. cbn.
    replace (4 * w * x / (4 * w * s) * (4 * w * x / (4 * w * s)) + 4 * w * y / (4 * w * s) * (4 * w * y / (4 * w * s)) +
        4 * w * z / (4 * w * s) * (4 * w * z / (4 * w * s))) with ((x * x + y * y + z * z) / (s * s)) by (field; lra).
    rewrite Hss. replace (x * x + y * y + z * z) with (1 - w * w) by lra. field. lra.
  - assert (HA : acos (2 * (w * w) - 1) = 2 * acos w).
    { replace (2 * (w * w) - 1) with (cos (2 * acos w)).
      - apply acos_cos. pose proof (acos_bound w).
        assert (acos w <= PI / 2).
        { destruct (Rle_dec (acos w) (PI / 2)) as [|N]; [assumption|]. exfalso.
          assert (cos (acos w) < cos (PI / 2)).
          { apply cos_decreasing_1; pose proof PI_RGT_0; lra. }
          rewrite cos_acos, cos_PI2 in H2 by lra. lra. }
        lra.
      - rewrite cos_2a_cos, cos_acos by lra. ring. }
    unfold cast_aa_quat. cbn. rewrite HA. replace (2 * acos w / 2) with (acos w) by lra.
    rewrite cos_acos, sin_acos by lra. replace (1 - w²) with (1 - w * w) by (unfold Rsqr; ring). fold s.
    f_equal; field; lra.
Qed.

Lemma cast_mat_aa_ok m : rotation m -> trace33 m <> -1 -> eps10 <= acos ((trace33 m - 1) / 2) ->
  exists v, cast_mat_aa m = Some v /\ unit_axis (axis v) /\ meq 3 3 (cast_aa_mat v) m.
Proof.
  intros H Ht Ha. destruct (cast_mat_quat_ok m H Ht) as (Hu & Hw & HM).
  set (q := cast_mat_quat m) in *.
  rewrite <- (cast_mat_aa_ext _ _ HM).
  destruct (cast_mat_aa_quat q Hu Hw) as (v & Hv & Hx & Hq).
  - replace (2 * (qw q * qw q) - 1) with ((trace33 m - 1) / 2); [exact Ha|].
    assert (E : trace33 m = trace33 (qmat q)) by (unfold trace33; rewrite !HM by lia; reflexivity).
    rewrite E, trace_qmat by exact Hu. lra.
  - exists v. split; [exact Hv|]. split; [exact Hx|]. rewrite (cast_aa_mat_ok v Hx), Hq. exact HM.
Qed.

Lemma cast_mat_aa_half q : unit q -> qw q = 0 -> cast_mat_aa (qmat q) = None.
Proof.
  intros H Hw. destruct q as [x y z w]. cbn in Hw. subst w.
  assert (HN : x * x + y * y + z * z = 1) by (unfold unit, qnorm in H; cbn in H; lra).
  unfold cast_mat_aa, qmat, mk33. cbn [qx qy qz qw].
  replace ((1 - 2 * (y * y + z * z) + (1 - 2 * (x * x + z * z)) + (1 - 2 * (x * x + y * y)) - 1) / 2)
    with (-1) by lra.
  destruct (Rlt_dec 1 (Rabs (-1))) as [B|_]; [rewrite Rabs_left in B by lra; lra|].
  replace (-1) with (- (1)) by ring. rewrite acos_opp, acos_1. destruct (Rlt_dec (PI - 0) eps10) as [B|_].
  { exfalso. pose proof PI2_1. unfold eps10 in B.
    assert (1 <= 10 ^ 10) by (apply pow_R1_Rle; lra).
    assert (/ 10 ^ 10 <= 1). { rewrite <- Rinv_1. apply Rinv_le_contravar; lra. } lra. }
  match goal with |- context [sqrt ?e] => replace e with 0 by ring end.
  rewrite sqrt_0. destruct (Req_EM_T 0 0); [reflexivity|congruence].
Qed.
