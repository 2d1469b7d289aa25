(** Logarithm, axis-angle form and spherical interpolation. *)
From Coq Require Import Reals Lra Lia Psatz Nsatz Bool.
From Verif Require Import Mat Quat QuatProofs QuatMatProofs.
Open Scope R_scope.

Lemma eps12_pos : 0 < eps12.
Proof. unfold eps12. apply Rinv_0_lt_compat. apply pow_lt. lra. Qed.

Lemma eps12_small : eps12 <= 1 / 1000.
Proof.
  unfold eps12. replace (1 / 1000) with (/ 10 ^ 3) by field.
  apply Rinv_le_contravar; [apply pow_lt; lra|]. apply Rle_pow; [lra|lia].
Qed.

Lemma norm3_scale c x y z : norm3 (V3 (x * c) (y * c) (z * c)) = Rabs c * norm3 (V3 x y z).
Proof.
  unfold norm3; cbn [vx vy vz].
  replace (x * c * (x * c) + y * c * (y * c) + z * c * (z * c)) with (c * c * (x * x + y * y + z * z)) by ring.
  rewrite sqrt_mult_alt by apply Rle_0_sqr.
  f_equal. change (c * c) with (Rsqr c). apply sqrt_Rsqr_abs.
Qed.

Lemma sq3_nonneg x y z : 0 <= x * x + y * y + z * z.
Proof.
  pose proof (Rle_0_sqr x); pose proof (Rle_0_sqr y); pose proof (Rle_0_sqr z).
  unfold Rsqr in *. lra.
Qed.

Lemma norm3_nonneg v : 0 <= norm3 v.
Proof. apply sqrt_pos. Qed.

Lemma norm3_sq v : norm3 v * norm3 v = vx v * vx v + vy v * vy v + vz v * vz v.
Proof. unfold norm3. apply sqrt_sqrt. apply sq3_nonneg. Qed.

Lemma unit_w_range q : unit q -> -1 <= qw q <= 1.
Proof.
  destruct q as [x y z w]. un. intros H. pose proof (sq3_nonneg x y z).
  assert (w * w <= 1) by lra. nra.
Qed.

Lemma unit_imag q : unit q ->
  qx q * qx q + qy q * qy q + qz q * qz q = 1 - qw q * qw q.
Proof. destruct q; un; intros; lra. Qed.

Lemma sq_eq_1_cases w : w * w = 1 -> w = 1 \/ w = -1.
Proof.
  intros H. assert (E : (w - 1) * (w + 1) = 0) by lra.
  apply Rmult_integral in E. destruct E; [left|right]; lra.
Qed.

(** ** Axis and angle *)

Lemma quat_of_axis_angle_unit axis angle q :
  quat_of_axis_angle axis angle = Some q -> unit q.
Proof.
  unfold quat_of_axis_angle. destruct (Req_EM_T (norm3 axis) 0) as [|Hn]; [discriminate|].
  intros H. injection H as <-. un.
  pose proof (norm3_sq axis) as Hs. pose proof (sin2_cos2 (angle / 2)) as Ht. unfold Rsqr in Ht.
  set (s := sin (angle / 2)) in *. set (c := cos (angle / 2)) in *. set (n := norm3 axis) in *.
  transitivity ((vx axis * vx axis + vy axis * vy axis + vz axis * vz axis) * (s * s / (n * n)) + c * c).
  - field. exact Hn.
  - rewrite <- Hs. rewrite <- Ht. field. exact Hn.
Qed.

Lemma quat_of_axis_angle_defined axis angle :
  axis <> v3zero <-> exists q, quat_of_axis_angle axis angle = Some q.
Proof.
  unfold quat_of_axis_angle. split.
  - intros H. destruct (Req_EM_T (norm3 axis) 0) as [E|E]; [|eexists; reflexivity].
    exfalso. apply H. pose proof (norm3_sq axis) as Hs. rewrite E in Hs.
    destruct axis as [x y z]. cbn in Hs.
    pose proof (Rle_0_sqr x); pose proof (Rle_0_sqr y); pose proof (Rle_0_sqr z). unfold Rsqr in *.
    unfold v3zero. f_equal; apply Rsqr_0_uniq; unfold Rsqr; lra.
  - intros [q H] ->. unfold norm3, v3zero in H. cbn [vx vy vz] in H.
    replace (0 * 0 + 0 * 0 + 0 * 0) with 0 in H by ring. rewrite sqrt_0 in H.
    destruct (Req_EM_T 0 0); [discriminate|contradiction].
Qed.

(** Rodrigues' formula *)
Lemma axis_angle_rodrigues n angle q v :
  dot3 n n = 1 -> quat_of_axis_angle n angle = Some q ->
  qrot q v = v3add (v3scale (cos angle) v)
               (v3add (v3scale (sin angle) (cross3 n v))
                      (v3scale ((1 - cos angle) * dot3 n v) n)).
Proof.
  intros Hn. unfold quat_of_axis_angle.
  assert (E : norm3 n = 1).
  { unfold norm3. unfold dot3 in Hn. rewrite Hn. apply sqrt_1. }
  rewrite E. destruct (Req_EM_T 1 0); [lra|]. intros H. injection H as <-.
  replace (cos angle) with (cos (2 * (angle / 2))) by (f_equal; field).
  replace (sin angle) with (sin (2 * (angle / 2))) by (f_equal; field).
  rewrite cos_2a, sin_2a. pose proof (sin2_cos2 (angle / 2)) as Ht. unfold Rsqr in Ht.
  set (s := sin (angle / 2)) in *. set (c := cos (angle / 2)) in *.
  destruct n as [x y z], v as [p r u]. un.
  replace (s / 1) with s by field. f_equal; nsatz.
Qed.

Lemma axis_angle_roundtrip q : unit q -> q <> qone -> q <> qopp qone ->
  let '(axis, angle) := to_axis_angle q in quat_of_axis_angle axis angle = Some q.
Proof.
  intros Hu H1 H2. pose proof (unit_w_range q Hu) as Hw. pose proof (unit_imag q Hu) as Hi.
  destruct q as [x y z w]. cbn [qx qy qz qw] in *.
  assert (HL : 0 < 1 - w * w).
  { destruct (Rle_lt_dec (1 - w * w) 0) as [Hle|]; [|assumption]. exfalso.
    pose proof (sq3_nonneg x y z).
    assert (Hww : w * w = 1) by lra.
    pose proof (Rle_0_sqr x); pose proof (Rle_0_sqr y); pose proof (Rle_0_sqr z). unfold Rsqr in *.
    assert (x = 0) by (apply Rsqr_0_uniq; unfold Rsqr; lra).
    assert (y = 0) by (apply Rsqr_0_uniq; unfold Rsqr; lra).
    assert (z = 0) by (apply Rsqr_0_uniq; unfold Rsqr; lra). subst.
    destruct (sq_eq_1_cases w Hww) as [->| ->]; [apply H1|apply H2]; un; f_equal; ring. }
  pose proof (sqrt_lt_R0 _ HL) as Hs.
  assert (Hsin : sin (2 * acos w / 2) = sqrt (1 - w * w)).
  { replace (2 * acos w / 2) with (acos w) by field. rewrite sin_acos by exact Hw. reflexivity. }
  assert (Hcos : cos (2 * acos w / 2) = w).
  { replace (2 * acos w / 2) with (acos w) by field. apply cos_acos. exact Hw. }
  unfold to_axis_angle; cbn [qx qy qz qw].
  destruct (Rlt_dec (sqrt (1 - w * w)) (1 / 1000)) as [Hsm|Hsm]; unfold quat_of_axis_angle; cbn [vx vy vz].
  - assert (En : norm3 (V3 x y z) = sqrt (1 - w * w)) by (unfold norm3; cbn; rewrite Hi; reflexivity).
    rewrite En. destruct (Req_EM_T (sqrt (1 - w * w)) 0); [lra|].
    rewrite Hsin, Hcos. f_equal. f_equal; field; lra.
  - assert (En : norm3 (V3 (x / sqrt (1 - w * w)) (y / sqrt (1 - w * w)) (z / sqrt (1 - w * w))) = 1).
    { unfold norm3; cbn [vx vy vz]. transitivity (sqrt 1); [f_equal|apply sqrt_1].
      pose proof (sqrt_sqrt (1 - w * w) (Rlt_le _ _ HL)) as Hss.
      transitivity ((x * x + y * y + z * z) / (sqrt (1 - w * w) * sqrt (1 - w * w))); [field; lra|].
      rewrite Hss, Hi. field. lra. }
    rewrite En. destruct (Req_EM_T 1 0); [lra|].
    rewrite Hsin, Hcos. f_equal. f_equal; field; lra.
Qed.

Lemma axis_angle_identity_undefined q : q = qone \/ q = qopp qone ->
  let '(axis, angle) := to_axis_angle q in quat_of_axis_angle axis angle = None.
Proof.
  intros H.
  assert (E : qx q = 0 /\ qy q = 0 /\ qz q = 0 /\ qw q * qw q = 1).
  { destruct H as [-> | ->]; un; repeat split; ring. }
  destruct E as (Ex & Ey & Ez & Ew). unfold to_axis_angle. rewrite Ew, Ex, Ey, Ez.
  replace (1 - 1) with 0 by ring. rewrite sqrt_0. destruct (Rlt_dec 0 (1 / 1000)); [|lra].
  unfold quat_of_axis_angle, norm3; cbn [vx vy vz].
  replace (0 * 0 + 0 * 0 + 0 * 0) with 0 by ring. rewrite sqrt_0.
  destruct (Req_EM_T 0 0); [reflexivity|contradiction].
Qed.

(** ** Logarithm *)

Lemma from_log_unit v : unit (from_log v).
Proof.
  unfold from_log. destruct (Rgt_dec (norm3 v) eps12) as [H|H]; [|un; ring].
  pose proof eps12_pos as He. pose proof (norm3_sq v) as Hs.
  pose proof (sin2_cos2 (norm3 v / 2)) as Ht. unfold Rsqr in Ht. un.
  set (s := sin (norm3 v / 2)) in *. set (c := cos (norm3 v / 2)) in *. set (n := norm3 v) in *.
  transitivity ((vx v * vx v + vy v * vy v + vz v * vz v) * (s * s / (n * n)) + c * c).
  - field. lra.
  - rewrite <- Hs, <- Ht. field. lra.
Qed.

Lemma acos_pos w : -1 <= w < 1 -> 0 < acos w.
Proof.
  intros H. destruct (acos_bound w) as [[Hp|Hz] _]; [exact Hp|].
  exfalso. pose proof (cos_acos w ltac:(lra)) as E. rewrite <- Hz, cos_0 in E. lra.
Qed.

Lemma log_roundtrip q : unit q ->
  eps12 < sqrt (qx q * qx q + qy q * qy q + qz q * qz q) ->
  from_log (to_log q) = if Rge_dec (qw q) 0 then q else qopp q.
Proof.
  intros Hu HL. pose proof (unit_w_range q Hu) as Hw. pose proof (unit_imag q Hu) as Hi.
  pose proof eps12_pos as He.
  unfold to_log. destruct (Rgt_dec _ eps12) as [_|Hn]; [|lra].
  destruct q as [x y z w]. cbn [qx qy qz qw] in *.
  set (L := sqrt (x * x + y * y + z * z)) in *.
  assert (HL2 : L * L = 1 - w * w).
  { unfold L. rewrite sqrt_sqrt by apply sq3_nonneg. exact Hi. }
  assert (Hw1 : w * w < 1) by nra.
  set (s := if Rge_dec w 0 then 1 else -1).
  assert (Hs : s * s = 1 /\ 0 <= w * s < 1 /\ (s = 1 \/ s = -1)).
  { unfold s. destruct (Rge_dec w 0); repeat split; try lra; try nra. }
  destruct Hs as (Hss & Hws & Hs1).
  destruct (Rlt_dec (w * s) 1) as [_|]; [|lra].
  set (om := 2 * acos (w * s)).
  assert (Hom : 0 < om) by (unfold om; pose proof (acos_pos (w * s) ltac:(lra)); lra).
  assert (Hcos : cos (om / 2) = w * s).
  { unfold om. replace (2 * acos (w * s) / 2) with (acos (w * s)) by field. apply cos_acos. lra. }
  assert (Hsin : sin (om / 2) = L).
  { unfold om. replace (2 * acos (w * s) / 2) with (acos (w * s)) by field.
    rewrite sin_acos by lra. unfold Rsqr. replace (1 - w * s * (w * s)) with (1 - w * w * (s * s)) by ring.
    rewrite Hss, Rmult_1_r, <- HL2. apply sqrt_square. lra. }
  assert (Hlt : L < om / 2) by (rewrite <- Hsin; apply sin_lt_x; lra).
  assert (Hnorm : norm3 (V3 (x * (s * om / L)) (y * (s * om / L)) (z * (s * om / L))) = om).
  { rewrite norm3_scale. unfold norm3; cbn [vx vy vz]. fold L.
    replace (s * om / L) with (s * (om / L)) by (field; lra).
    rewrite Rabs_mult, (Rabs_pos_eq (om / L)) by (apply Rlt_le, Rdiv_lt_0_compat; lra).
    replace (Rabs s) with 1 by (destruct Hs1 as [-> | ->]; [rewrite Rabs_R1|rewrite Rabs_left]; lra).
    field. lra. }
  unfold from_log. rewrite Hnorm. cbn [vx vy vz].
  destruct (Rgt_dec om eps12) as [_|]; [|lra].
  rewrite Hsin, Hcos. unfold s. destruct (Rge_dec w 0).
  - f_equal; field; lra.
  - un. f_equal; try (field; lra).
Qed.

(** below the threshold the rotation is replaced by the identity, with an error of
    at most the threshold in every component *)
Lemma log_roundtrip_small q : unit q ->
  sqrt (qx q * qx q + qy q * qy q + qz q * qz q) <= eps12 ->
  from_log (to_log q) = qone /\
  Rabs (qx q) <= eps12 /\ Rabs (qy q) <= eps12 /\ Rabs (qz q) <= eps12 /\ 1 - eps12 <= Rabs (qw q) <= 1.
Proof.
  intros Hu HL. pose proof (unit_w_range q Hu) as Hw. pose proof (unit_imag q Hu) as Hi.
  pose proof eps12_pos as He. pose proof eps12_small as Hes.
  split.
  - unfold to_log. destruct (Rgt_dec _ eps12) as [Hn|_]; [lra|].
    unfold from_log, norm3; cbn [vx vy vz]. replace (0 * 0 + 0 * 0 + 0 * 0) with 0 by ring.
    rewrite sqrt_0. destruct (Rgt_dec 0 eps12); [lra|reflexivity].
  - destruct q as [x y z w]. cbn [qx qy qz qw] in *.
    set (L := sqrt (x * x + y * y + z * z)) in *.
    assert (HL0 : 0 <= L) by apply sqrt_pos.
    assert (HL2 : L * L = x * x + y * y + z * z) by (apply sqrt_sqrt, sq3_nonneg).
    pose proof (Rle_0_sqr x); pose proof (Rle_0_sqr y); pose proof (Rle_0_sqr z). unfold Rsqr in *.
    assert (B : forall u, u * u <= L * L -> Rabs u <= eps12).
    { intros u Hu'. apply Rle_trans with L; [|exact HL].
      rewrite <- (Rabs_pos_eq L HL0). apply Rsqr_le_abs_0. unfold Rsqr. lra. }
    repeat split; try (apply B; lra).
    + assert (Hww : w * w = 1 - L * L) by lra.
      assert (L * L <= eps12) by nra.
      unfold Rabs. destruct (Rcase_abs w); nra.
    + unfold Rabs. destruct (Rcase_abs w); lra.
Qed.

Lemma sin_quarter x : 0 <= x <= PI / 2 -> x / 4 <= sin x.
Proof.
  intros [H0 H1]. pose proof PI_4 as HP. pose proof PI_RGT_0 as HPI.
  destruct (Rle_lt_or_eq_dec 0 x H0) as [Hp|<-]; [|rewrite sin_0; lra].
  destruct (Rle_lt_dec x (PI / 3)) as [Hs|Hs].
  - destruct (MVT_cor2 sin cos 0 x Hp) as (c & E & Hc).
    { intros; apply derivable_pt_lim_sin. }
    rewrite sin_0 in E.
    assert (1 / 2 <= cos c).
    { rewrite <- cos_PI3. destruct (Req_dec c (PI / 3)) as [->|]; [lra|].
      apply Rlt_le. apply cos_decreasing_1; lra. }
    nra.
  - assert (sin (PI / 3) <= sin x).
    { apply Rlt_le. apply sin_increasing_1; lra. }
    rewrite sin_PI3 in H.
    assert (1 < sqrt 3). { rewrite <- sqrt_1. apply sqrt_lt_1; lra. }
    lra.
Qed.

Lemma log_roundtrip_vector v : 8 * eps12 < norm3 v <= PI -> to_log (from_log v) = v.
Proof.
  intros [Hlo Hhi]. pose proof eps12_pos as He. pose proof PI_RGT_0 as HPI.
  unfold from_log. destruct (Rgt_dec (norm3 v) eps12) as [_|]; [|lra].
  set (n := norm3 v) in *.
  assert (Hsin : n / 8 <= sin (n / 2)).
  { replace (n / 8) with (n / 2 / 4) by field. apply sin_quarter. lra. }
  assert (Hcos : 0 <= cos (n / 2)).
  { apply cos_ge_0; lra. }
  unfold to_log; cbn [qx qy qz qw].
  destruct (Rge_dec (cos (n / 2)) 0) as [_|]; [|lra]. rewrite Rmult_1_r.
  pose proof (sin2_cos2 (n / 2)) as Ht. unfold Rsqr in Ht.
  destruct (Rlt_dec (cos (n / 2)) 1) as [_|Hn]; [|exfalso; nra].
  rewrite acos_cos by lra.
  pose proof (norm3_sq v) as Hs. fold n in Hs.
  set (s := sin (n / 2)) in *.
  assert (HL : sqrt (s / n * vx v * (s / n * vx v) + s / n * vy v * (s / n * vy v) + s / n * vz v * (s / n * vz v)) = s).
  { replace (s / n * vx v * (s / n * vx v) + s / n * vy v * (s / n * vy v) + s / n * vz v * (s / n * vz v))
      with (s * s * ((vx v * vx v + vy v * vy v + vz v * vz v) / (n * n))) by (field; lra).
    rewrite <- Hs. replace (s * s * (n * n / (n * n))) with (s * s) by (field; lra).
    apply sqrt_square. lra. }
  rewrite HL. destruct (Rgt_dec s eps12) as [_|]; [|lra].
  destruct v as [a b c]. cbn [vx vy vz]. f_equal; field; lra.
Qed.

(** ** Spherical interpolation *)

Lemma qdot_sub a b : qnorm (qsub a b) = qnorm a + qnorm b - 2 * qdot a b.
Proof. d4. un. ring. Qed.

Lemma qdot_opp a b : qdot (qopp a) b = - qdot a b.
Proof. d4. un. ring. Qed.

Lemma qdot_cauchy a b : unit a -> unit b -> -1 <= qdot a b <= 1.
Proof.
  intros Ha Hb.
  assert (H1 : 0 <= qnorm (qsub a b)) by (destruct (qsub a b); unfold qnorm; cbn; nra).
  assert (H2 : 0 <= qnorm (qsub (qopp a) b)) by (destruct (qsub (qopp a) b); unfold qnorm; cbn; nra).
  rewrite qdot_sub in *. rewrite qdot_opp in H2. apply unit_opp in Ha as Ha'.
  unfold unit in *. lra.
Qed.

Definition slerp_first (a b : quat) : quat := if Rgt_dec (qnorm (qsub a b)) 2 then qopp a else a.

Lemma slerp_first_spec a b : unit a -> unit b ->
  let x := slerp_first a b in unit x /\ 0 <= qdot x b <= 1 /\ (x = a \/ x = qopp a).
Proof.
  intros Ha Hb. cbv zeta. unfold slerp_first. rewrite qdot_sub.
  pose proof (qdot_cauchy a b Ha Hb) as Hc. pose proof (unit_opp a Ha) as Ho.
  unfold unit in *. destruct (Rgt_dec _ 2) as [H|H].
  - rewrite qdot_opp. split; [exact Ho|]. split; [lra|right; reflexivity].
  - split; [exact Ha|]. split; [lra|left; reflexivity].
Qed.

Lemma qnorm_comb w1 w2 x y : unit x -> unit y ->
  qnorm (qadd (qscale w1 x) (qscale w2 y)) = w1 * w1 + w2 * w2 + 2 * w1 * w2 * qdot x y.
Proof.
  intros Hx Hy.
  transitivity (w1 * w1 * qnorm x + w2 * w2 * qnorm y + 2 * w1 * w2 * qdot x y).
  - d4. un. ring.
  - unfold unit in *. rewrite Hx, Hy. ring.
Qed.

Lemma qdot_comb_l w1 w2 x y : unit x ->
  qdot (qadd (qscale w1 x) (qscale w2 y)) x = w1 + w2 * qdot x y.
Proof.
  intros Hx. transitivity (w1 * qnorm x + w2 * qdot x y).
  - d4. un. ring.
  - unfold unit in Hx. rewrite Hx. ring.
Qed.

(** the weights of the spherical formula *)
Lemma slerp_weights D t : 0 <= D <= 9999 / 10000 ->
  let om := acos D in
  sin om <> 0 /\ 0 < om <= PI / 2 /\
  let w1 := sin ((1 - t) * om) / sin om in
  let w2 := sin (t * om) / sin om in
  w1 * w1 + w2 * w2 + 2 * w1 * w2 * D = 1 /\ w1 + w2 * D = cos (t * om) /\
  w2 + w1 * D = cos ((1 - t) * om).
Proof.
  intros HD. cbv zeta.
  pose proof (cos_acos D ltac:(lra)) as Hc.
  pose proof (acos_pos D ltac:(lra)) as Hp.
  pose proof (acos_bound D) as Hb.
  set (om := acos D) in *.
  assert (Hs : 0 < sin om).
  { apply sin_gt_0; [exact Hp|]. destruct Hb as [_ [Hb|Hb]]; [exact Hb|].
    rewrite Hb, cos_PI in Hc. lra. }
  assert (Hpi : om <= PI / 2).
  { destruct (Rle_lt_dec om (PI / 2)) as [|H]; [assumption|]. exfalso.
    assert (cos om < 0) by (apply cos_lt_0; lra). lra. }
  split; [lra|]. split; [lra|].
  pose proof (sin2_cos2 om) as H1. unfold Rsqr in H1. rewrite Hc in H1.
  pose proof (sin2_cos2 (t * om)) as H2. unfold Rsqr in H2.
  assert (E1 : sin ((1 - t) * om) = sin om * cos (t * om) - D * sin (t * om)).
  { replace ((1 - t) * om) with (om - t * om) by ring. rewrite sin_minus, Hc. ring. }
  assert (E2 : cos ((1 - t) * om) = D * cos (t * om) + sin om * sin (t * om)).
  { replace ((1 - t) * om) with (om - t * om) by ring. rewrite cos_minus, Hc. ring. }
  rewrite E1, E2.
  set (so := sin om) in *. set (st := sin (t * om)) in *. set (ct := cos (t * om)) in *.
  assert (Hso : so * so = 1 - D * D) by lra.
  assert (Hst : st * st = 1 - ct * ct) by lra.
  split; [|split].
  - transitivity ((so * so * (ct * ct) + (1 - D * D) * (st * st)) / (so * so)); [field; lra|].
    rewrite Hst. rewrite <- Hso. field. lra.
  - field. lra.
  - transitivity ((st * (1 - D * D) + D * so * ct) / so); [field; lra|].
    rewrite <- Hso. field. lra.
Qed.

Lemma qnormalize_pos q : 0 < qnorm q ->
  exists q', qnormalize q = Some q' /\ unit q' /\ q' = qscale (/ sqrt (qnorm q)) q.
Proof.
  intros H. unfold qnormalize. pose proof (sqrt_lt_R0 _ H) as Hs.
  destruct (Req_EM_T _ 0) as [|_]; [lra|]. eexists. split; [reflexivity|].
  pose proof (sqrt_sqrt (qnorm q) (Rlt_le _ _ H)) as Hss.
  set (n := sqrt (qnorm q)) in *. destruct q as [x y z w]. un. split.
  - transitivity ((x*x+y*y+z*z+w*w) / (n * n)); [field; lra|]. rewrite Hss. field. lra.
  - f_equal; field; lra.
Qed.

Lemma slerp_spherical a b t : unit a -> unit b ->
  let x := slerp_first a b in let D := qdot x b in
  D <= 9999 / 10000 ->
  exists r, slerp a b t = Some r /\ unit r /\
    qdot r x = cos (t * acos D) /\ qdot r b = cos ((1 - t) * acos D).
Proof.
  intros Ha Hb. cbv zeta. intros HD.
  destruct (slerp_first_spec a b Ha Hb) as (Hx & HDr & _).
  unfold slerp. fold (slerp_first a b). set (x := slerp_first a b) in *.
  destruct (slerp_weights (qdot x b) t ltac:(lra)) as (Hs & _ & Hw & Hc1 & Hc2).
  set (D := qdot x b) in *. set (om := acos D) in *.
  destruct (Rgt_dec D (9999 / 10000)); [lra|].
  destruct (Req_EM_T (sin om) 0); [contradiction|].
  set (w1 := sin ((1 - t) * om) / sin om) in *. set (w2 := sin (t * om) / sin om) in *.
  assert (Hu : unit (qadd (qscale w1 x) (qscale w2 b))).
  { unfold unit. rewrite qnorm_comb by assumption. exact Hw. }
  eexists. split; [apply qnormalize_unit; exact Hu|]. split; [exact Hu|]. split.
  - rewrite qdot_comb_l by exact Hx. exact Hc1.
  - rewrite <- Hc2. unfold D.
    transitivity (w2 * qnorm b + w1 * qdot x b); [destruct x, b; un; ring|].
    unfold unit in Hb. rewrite Hb. ring.
Qed.

Lemma slerp_unit a b t : unit a -> unit b -> exists r, slerp a b t = Some r /\ unit r.
Proof.
  intros Ha Hb. destruct (Rle_dec (qdot (slerp_first a b) b) (9999 / 10000)) as [H|H].
  - destruct (slerp_spherical a b t Ha Hb H) as (r & E & U & _). exists r. split; assumption.
  - destruct (slerp_first_spec a b Ha Hb) as (Hx & HDr & _).
    unfold slerp. fold (slerp_first a b). set (x := slerp_first a b) in *.
    destruct (Rgt_dec (qdot x b) (9999 / 10000)) as [Hgt|]; [|lra].
    destruct (qnormalize_pos (qadd (qscale (1 - t) x) (qscale t b))) as (r & E & U & _).
    + rewrite qnorm_comb by assumption. set (D := qdot x b) in *.
      replace ((1 - t) * (1 - t) + t * t + 2 * (1 - t) * t * D)
        with (1 - (1 - D) / 2 + (1 - D) / 2 * ((1 - 2 * t) * (1 - 2 * t))) by field.
      assert (0 <= (1 - D) / 2 * ((1 - 2 * t) * (1 - 2 * t))) by (apply Rmult_le_pos; [lra|apply Rle_0_sqr]).
      lra.
    + exists r. split; assumption.
Qed.

Lemma slerp_at_0 a b : unit a -> unit b -> slerp a b 0 = Some (slerp_first a b).
Proof.
  intros Ha Hb. destruct (slerp_first_spec a b Ha Hb) as (Hx & HDr & _).
  unfold slerp. fold (slerp_first a b). set (x := slerp_first a b) in *.
  destruct (Rgt_dec (qdot x b) (9999 / 10000)) as [H|H].
  - rewrite <- (qnormalize_unit x Hx). f_equal. destruct x, b. un. f_equal; ring.
  - destruct (slerp_weights (qdot x b) 0 ltac:(lra)) as (Hs & _ & _).
    destruct (Req_EM_T _ 0); [contradiction|].
    rewrite <- (qnormalize_unit x Hx). f_equal.
    replace ((1 - 0) * acos (qdot x b)) with (acos (qdot x b)) by ring.
    rewrite Rmult_0_l, sin_0. set (so := sin (acos (qdot x b))) in *.
    replace (so / so) with 1 by (field; exact Hs). replace (0 / so) with 0 by (field; exact Hs).
    destruct x, b. un. f_equal; ring.
Qed.

Lemma slerp_at_1 a b : unit a -> unit b -> slerp a b 1 = Some b.
Proof.
  intros Ha Hb. destruct (slerp_first_spec a b Ha Hb) as (Hx & HDr & _).
  unfold slerp. fold (slerp_first a b). set (x := slerp_first a b) in *.
  destruct (Rgt_dec (qdot x b) (9999 / 10000)) as [H|H].
  - rewrite <- (qnormalize_unit b Hb). f_equal. destruct x, b. un. f_equal; ring.
  - destruct (slerp_weights (qdot x b) 0 ltac:(lra)) as (Hs & _ & _).
    destruct (Req_EM_T _ 0); [contradiction|].
    rewrite <- (qnormalize_unit b Hb). f_equal.
    replace ((1 - 1) * acos (qdot x b)) with 0 by ring.
    rewrite Rmult_1_l, sin_0. set (so := sin (acos (qdot x b))) in *.
    replace (so / so) with 1 by (field; exact Hs). replace (0 / so) with 0 by (field; exact Hs).
    destruct x, b. un. f_equal; ring.
Qed.

Lemma slerp_endpoints a b : unit a -> unit b ->
  (exists r, slerp a b 0 = Some r /\ same_rotation r a) /\ slerp a b 1 = Some b.
Proof.
  intros Ha Hb. split; [|apply slerp_at_1; assumption].
  exists (slerp_first a b). split; [apply slerp_at_0; assumption|].
  destruct (slerp_first_spec a b Ha Hb) as (_ & _ & [-> | ->]); intros v; [reflexivity|].
  apply qrot_qopp.
Qed.

(** ** negateIfCloser *)
Lemma negate_if_closer_spec q ref :
  let r := negate_if_closer q ref in
  same_rotation r q /\ 0 <= qdot r ref /\
  qnorm (qsub r ref) <= qnorm (qsub q ref) /\ qnorm (qsub r ref) <= qnorm (qsub (qopp q) ref).
Proof.
  cbv zeta. unfold negate_if_closer. rewrite !qdot_sub, qdot_opp.
  assert (E : qnorm (qopp q) = qnorm q) by (destruct q; un; ring). rewrite E.
  destruct (Rge_dec (qdot q ref) 0).
  - repeat split; lra.
  - rewrite ?qdot_opp, ?E. split; [intros v; apply qrot_qopp|]. lra.
Qed.

(** ** Matrices of poses *)
Lemma pose_vector_roundtrip p : pose_of_vector (pose_to_vector p) = p.
Proof. destruct p as [[] []]. reflexivity. Qed.
Lemma vector_pose_roundtrip v : veq 7 (pose_to_vector (pose_of_vector v)) v.
Proof. intros i Hi. idx i Hi; reflexivity. Qed.

Lemma pose_mat_app p x : rigid p -> veq 4 (mvec 4 (pose_mat p) (hom x)) (hom (papp p x)).
Proof.
  intros H. destruct p as [q t]. unfold rigid in H. cbn [rot] in H.
  unfold papp. cbn [rot tra]. rewrite (qrot_mat q x H).
  intros i Hi. destruct q, t, x. unfold mvec, pose_mat, hom. un. cbn [sum].
  idx i Hi; cbn; ring.
Qed.

Lemma pose_mat_mul p q : rigid p -> rigid q ->
  meq 4 4 (pose_mat (pmul p q)) (mmul 4 (pose_mat p) (pose_mat q)).
Proof.
  intros Hp Hq. pose proof (qmat_mul _ _ Hp Hq) as HM.
  assert (HT : v3add (qrot (rot p) (tra q)) (tra p) = v3add (mv3 (qmat (rot p)) (tra q)) (tra p)).
  { rewrite (qrot_mat _ _ Hp). reflexivity. }
  intros i j Hi Hj.
  assert (Hi' : (i < 3 \/ i = 3)%nat) by lia. assert (Hj' : (j < 3 \/ j = 3)%nat) by lia.
  destruct Hi' as [Hi'| ->].
  - destruct Hj' as [Hj'| ->].
    + specialize (HM i j Hi' Hj').
      transitivity (qmat (qmul (rot p) (rot q)) i j).
      { idx i Hi'; idx j Hj'; reflexivity. }
      rewrite HM. unfold mmul. cbn [sum]. idx i Hi'; idx j Hj'; cbn; ring.
    + unfold mmul. cbn [sum]. unfold pose_mat at 1. unfold pmul. cbn [rot tra].
      rewrite HT. idx i Hi'; cbn; ring.
  - unfold mmul. cbn [sum]. unfold pose_mat. idx j Hj; cbn; ring.
Qed.

Lemma pose_mat_one : meq 4 4 (pose_mat pone) eye.
Proof. intros i j Hi Hj. unfold pose_mat, pone. un. unfold eye. idx i Hi; idx j Hj; cbn; ring. Qed.

Lemma pose_mat_inv p : rigid p ->
  meq 4 4 (mmul 4 (pose_mat p) (pose_mat (pinv p))) eye /\
  meq 4 4 (mmul 4 (pose_mat (pinv p)) (pose_mat p)) eye.
Proof.
  intros H. split.
  - apply meq_trans with (pose_mat (pmul p (pinv p))).
    + apply meq_sym. apply pose_mat_mul; [exact H|apply rigid_inv; exact H].
    + rewrite (pmul_inv_r p H). apply pose_mat_one.
  - apply meq_trans with (pose_mat (pmul (pinv p) p)).
    + apply meq_sym. apply pose_mat_mul; [apply rigid_inv; exact H|exact H].
    + rewrite (pmul_inv_l p H). apply pose_mat_one.
Qed.

Lemma pose_of_pose_mat p : rigid p ->
  exists p', pose_of_mat (pose_mat p) = Some p' /\ rigid p' /\ forall x, papp p' x = papp p x.
Proof.
  intros H.
  assert (E : quat_of_mat (pose_mat p) = quat_of_mat (qmat (rot p))) by reflexivity.
  destruct (quat_of_mat_of_quat (rot p) H) as (q' & E1 & Hq).
  unfold pose_of_mat. rewrite E, E1. eexists. split; [reflexivity|].
  destruct p as [q [a b c]]. cbn [rot tra] in *. unfold rigid in *. cbn [rot] in *.
  destruct Hq as [-> | ->].
  - split; [exact H|]. intros x. reflexivity.
  - split; [apply unit_opp; exact H|]. intros x. unfold papp. cbn [rot tra]. rewrite qrot_qopp. reflexivity.
Qed.

(** interpolation of poses *)
Lemma pose_lerp_ends x y : rigid x -> rigid y ->
  (exists r, pose_lerp x y 0 = Some r /\ forall v, papp r v = papp x v) /\
  (exists r, pose_lerp x y 1 = Some r /\ r = y).
Proof.
  intros Hx Hy. destruct (slerp_endpoints _ _ Hx Hy) as [(r & E & Hr) E1].
  unfold pose_lerp. rewrite E, E1. split; eexists; (split; [reflexivity|]).
  - intros v. unfold papp. cbn [rot tra]. rewrite Hr. f_equal.
    destruct x as [q [a b c]], y as [q' [a' b' c']]. unfold v3lerp. un. f_equal; ring.
  - destruct x as [q [a b c]], y as [q' [a' b' c']]. unfold v3lerp. un. f_equal. f_equal; ring.
Qed.

Lemma log_tiny_refuted : exists q, unit q /\ ~ same_rotation (from_log (to_log q)) q.
Proof.
  pose proof eps12_pos as He. pose proof eps12_small as Hs.
  set (t := eps12 / 2). assert (Ht : 0 < t <= 1 / 2000) by (unfold t; lra).
  assert (Hd : 0 < 1 + t * t) by nra.
  exists (Q (2 * t / (1 + t * t)) 0 0 ((1 - t * t) / (1 + t * t))).
  assert (Hu : unit (Q (2 * t / (1 + t * t)) 0 0 ((1 - t * t) / (1 + t * t)))).
  { un. field. lra. }
  split; [exact Hu|]. intros H.
  assert (Hx : 0 < 2 * t / (1 + t * t) <= eps12).
  { split; [apply Rdiv_lt_0_compat; lra|].
    apply (Rmult_le_reg_r (1 + t * t)); [lra|].
    replace (2 * t / (1 + t * t) * (1 + t * t)) with (2 * t) by (field; lra).
    assert (0 <= eps12 * (t * t)) by nra. unfold t in *. nra. }
  destruct (log_roundtrip_small _ Hu) as [E _].
  { cbn [qx qy qz]. replace (2 * t / (1 + t * t) * (2 * t / (1 + t * t)) + 0 * 0 + 0 * 0)
      with (2 * t / (1 + t * t) * (2 * t / (1 + t * t))) by ring.
    rewrite sqrt_square by lra. lra. }
  rewrite E in H. specialize (H (V3 0 1 0)). rewrite qrot_one in H.
  apply (f_equal vz) in H. revert H. un. intros H.
  assert (Hw : 0 < (1 - t * t) / (1 + t * t)) by (apply Rdiv_lt_0_compat; nra).
  set (x := 2 * t / (1 + t * t)) in *. set (w := (1 - t * t) / (1 + t * t)) in *.
  assert (0 < w * x) by (apply Rmult_lt_0_compat; lra). lra.
Qed.
