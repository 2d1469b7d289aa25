From Coq Require Import Reals Lra Lia Psatz.
From Verif Require Import Mat Quat QuatProofs QuatMatProofs QuatTrigProofs Euler.
Open Scope R_scope.

Lemma hypot_pos x y : 0 < x * x + y * y -> 0 < sqrt (x * x + y * y).
Proof. apply sqrt_lt_R0. Qed.

Lemma hypot_ratio x y : 0 < x * x + y * y -> -1 <= x / sqrt (x * x + y * y) <= 1.
Proof.
  intros H. pose proof (hypot_pos x y H) as Hr. set (r := sqrt (x * x + y * y)) in *.
  assert (E : r * r = x * x + y * y) by (apply sqrt_sqrt; lra).
  assert (-r <= x <= r). { split; nra. }
  split.
  - apply (Rmult_le_reg_r r); [lra|]. unfold Rdiv. rewrite Rmult_assoc, Rinv_l by lra. lra.
  - apply (Rmult_le_reg_r r); [lra|]. unfold Rdiv. rewrite Rmult_assoc, Rinv_l by lra. lra.
Qed.

Lemma atan2_cos y x : 0 < x * x + y * y -> cos (atan2 y x) = x / sqrt (x * x + y * y).
Proof.
  intros H. pose proof (hypot_pos x y H) as Hr. pose proof (hypot_ratio x y H) as Hb.
  unfold atan2. destruct (Req_EM_T (sqrt (x * x + y * y)) 0); [lra|].
  destruct (Rle_dec 0 y); rewrite ?cos_neg; apply cos_acos; exact Hb.
Qed.

Lemma atan2_sin y x : 0 < x * x + y * y -> sin (atan2 y x) = y / sqrt (x * x + y * y).
Proof.
  intros H. pose proof (hypot_pos x y H) as Hr. pose proof (hypot_ratio x y H) as Hb.
  set (r := sqrt (x * x + y * y)) in *.
  assert (E : r * r = x * x + y * y) by (apply sqrt_sqrt; lra).
  assert (S : sin (acos (x / r)) = Rabs (y / r)).
  { rewrite sin_acos by exact Hb. rewrite <- sqrt_Rsqr_abs. f_equal. unfold Rsqr.
    replace (1 - x / r * (x / r)) with ((r * r - x * x) / (r * r)) by (field; lra).
    rewrite E. rewrite <- E at 2. field. lra. }
  unfold atan2. fold r. destruct (Req_EM_T r 0); [lra|].
  assert (0 < / r) by (apply Rinv_0_lt_compat; lra).
  destruct (Rle_dec 0 y) as [Hy|Hy].
  - rewrite S. apply Rabs_right. apply Rle_ge, Rmult_le_pos; lra.
  - rewrite sin_neg, S, Rabs_left; [ring|]. unfold Rdiv. nra.
Qed.

Lemma atan2_bound y x : - PI < atan2 y x <= PI.
Proof.
  unfold atan2. pose proof PI_RGT_0. destruct (Req_EM_T _ 0); [lra|].
  set (r := sqrt (x * x + y * y)) in *.
  pose proof (acos_bound (x / r)) as Ha.
  destruct (Rle_dec 0 y) as [|Hy]; [lra|]. split; [|lra].
  assert (Hp : 0 < x * x + y * y) by nra.
  pose proof (hypot_ratio x y Hp) as Hb. fold r in Hb.
  pose proof (hypot_pos x y Hp) as Hr. fold r in Hr.
  assert (Hne : x / r <> -1).
  { intros E. assert (Hx : x = - r) by (apply (Rmult_eq_compat_r r) in E; unfold Rdiv in E; rewrite Rmult_assoc, Rinv_l in E; lra).
    assert (E2 : r * r = x * x + y * y) by (apply sqrt_sqrt; lra). nra. }
  assert (acos (x / r) <> PI).
  { intros E. apply Hne. rewrite <- (cos_acos (x / r)) by exact Hb. rewrite E. apply cos_PI. }
  lra.
Qed.

(** common positive factors do not matter *)
Lemma atan2_polar y x r : 0 < r -> x * x + y * y = r * r ->
  cos (atan2 y x) = x / r /\ sin (atan2 y x) = y / r.
Proof.
  intros Hr E. assert (Hp : 0 < x * x + y * y) by (rewrite E; nra).
  rewrite atan2_cos, atan2_sin by exact Hp.
  rewrite E, sqrt_square by lra. auto.
Qed.

(** uniqueness: an angle in (-pi, pi] is determined by its cosine and sine *)
Lemma angle_unique a b : - PI < a <= PI -> - PI < b <= PI -> cos a = cos b -> sin a = sin b -> a = b.
Proof.
  intros Ha Hb Hc Hs.
  assert (H1 : sin (a - b) = 0) by (rewrite sin_minus, Hc, Hs; ring).
  assert (H2 : cos (a - b) = 1).
  { rewrite cos_minus, Hc, Hs. pose proof (sin2_cos2 b). unfold Rsqr in *. lra. }
  assert (H3 : sin ((a - b) / 2) = 0).
  { assert (E : cos (a - b) = 1 - 2 * (sin ((a - b) / 2) * sin ((a - b) / 2))).
    { replace (a - b) with (2 * ((a - b) / 2)) at 1 by lra. rewrite cos_2a.
      pose proof (sin2_cos2 ((a - b) / 2)). unfold Rsqr in *. lra. }
    rewrite H2 in E. assert (sin ((a - b) / 2) * sin ((a - b) / 2) = 0) by lra.
    apply Rmult_integral in H. tauto. }
  destruct (Rtotal_order a b) as [L|[L|L]]; [|exact L|]; exfalso.
  - assert (0 < sin (- ((a - b) / 2))) by (apply sin_gt_0; lra).
    rewrite sin_neg in H. lra.
  - assert (0 < sin ((a - b) / 2)) by (apply sin_gt_0; lra). lra.
Qed.

Lemma atan2_of_angle r a : 0 < r -> - PI < a <= PI -> atan2 (r * sin a) (r * cos a) = a.
Proof.
  intros Hr Ha.
  destruct (atan2_polar (r * sin a) (r * cos a) r Hr) as [C S].
  { pose proof (sin2_cos2 a) as E. unfold Rsqr in E. replace (r * cos a * (r * cos a) + r * sin a * (r * sin a))
      with (r * r * (sin a * sin a + cos a * cos a)) by ring. rewrite E. ring. }
  apply angle_unique; [apply atan2_bound|exact Ha| |].
  - rewrite C. field. lra.
  - rewrite S. field. lra.
Qed.

Lemma cos_asin_pos s : -1 < s < 1 -> 0 < cos (asin s) /\ cos (asin s) * cos (asin s) = 1 - s * s.
Proof.
  intros H. rewrite cos_asin by lra. unfold Rsqr. split; [apply sqrt_lt_R0; nra|apply sqrt_sqrt; nra].
Qed.

(** ** The constructor *)
Lemma quat_of_euler_product x y z :
  quat_of_euler x y z = qmul (qmul (axis_quat CY y) (axis_quat CZ x)) (axis_quat CX z).
Proof. unfold quat_of_euler, axis_quat. un. f_equal; ring. Qed.

Lemma axis_quat_unit c a : unit (axis_quat c a).
Proof.
  pose proof (sin2_cos2 (a / 2)) as E. unfold Rsqr in E.
  destruct c; unfold axis_quat; un; lra.
Qed.

Lemma axis_quat_mat c a : meq 3 3 (qmat (axis_quat c a)) (axis_rotation c a).
Proof.
  pose proof (sin2_cos2 (a / 2)) as E. unfold Rsqr in E.
  assert (C : cos a = 1 - 2 * (sin (a / 2) * sin (a / 2))).
  { replace a with (2 * (a / 2)) at 1 by lra. rewrite cos_2a. lra. }
  assert (S : sin a = 2 * sin (a / 2) * cos (a / 2)).
  { replace a with (2 * (a / 2)) at 1 by lra. apply sin_2a. }
  intros i j Hi Hj. destruct c; unfold axis_rotation, axis_quat; rewrite ?C, ?S;
    un; idx i Hi; idx j Hj; cbn; ring.
Qed.

Lemma quat_of_euler_unit x y z : unit (quat_of_euler x y z).
Proof. rewrite quat_of_euler_product. repeat apply unit_mul; apply axis_quat_unit. Qed.

Lemma quat_of_euler_matrix x y z :
  meq 3 3 (qmat (quat_of_euler x y z)) (seq_rotation XZY (V3 z x y)).
Proof.
  rewrite quat_of_euler_product. cbn [seq_rotation seq_axes vx vy vz].
  eapply meq_trans; [apply qmat_mul; [apply unit_mul|]; apply axis_quat_unit|].
  eapply meq_trans; [apply mmul_ext; [apply qmat_mul; apply axis_quat_unit|apply axis_quat_mat]|].
  eapply meq_trans; [apply mmul_ext; [apply mmul_ext; apply axis_quat_mat|apply meq_refl]|].
  intros i j _ _. apply mmul_assoc.
Qed.

(** ** The accessors *)

(** One lemma for all sequences: if the angles have the stated cosines and sines, the
    product of the three axis rotations is the matrix of the quaternion. *)
Lemma seq_rotation_core s q al be ga : unit q ->
  let '(x, y, z, sign) := seq_select s q in
  let w := qw q in
  sin be = 2 * (w * y + sign * x * z) -> 0 < cos be ->
  cos al * cos be = 1 - 2 * (x * x + y * y) -> sin al * cos be = 2 * (w * x - sign * y * z) ->
  cos ga * cos be = 1 - 2 * (y * y + z * z) -> sin ga * cos be = 2 * (w * z - sign * x * y) ->
  meq 3 3 (qmat q) (seq_rotation s (V3 al be ga)).
Proof.
  destruct q as [x y z w]. intros H. un. 
  assert (E : w * w = 1 - x * x - y * y - z * z) by lra. clear H.
  destruct s; cbn [seq_select qx qy qz qw seq_rotation seq_axes vx vy vz]; intros Sb Cb Ca Sa Cg Sg;
    pose proof (sin2_cos2 be) as P; unfold Rsqr in P;
    assert (HK : cos be * cos be = 1 - sin be * sin be) by lra; rewrite Sb in HK;
    intros i j Hi Hj; unfold mmul, axis_rotation, mk33; cbn [sum];
    generalize dependent (cos be); intros c Cb Ca Sa Cg Sg P HK;
    generalize dependent (cos al); intros ca; generalize dependent (sin al); intros sa;
    generalize dependent (cos ga); intros cg; generalize dependent (sin ga); intros sg;
    intros Cg Sg Ca Sa;
    idx i Hi; idx j Hj; cbn; rewrite ?Sb; clear Sb P;
    first [ ring [E] | lra
     | apply (Rmult_eq_reg_r (c * c)); [|apply Rgt_not_eq, Rmult_lt_0_compat; exact Cb];
       rewrite HK at 1; ring_simplify [Cg Sg]; ring_simplify [Ca Sa]; ring [E] ].
Qed.

(** the two arguments of each [atan2] have norm cos(beta) *)
Lemma seq_hypot s q : unit q ->
  let '(x, y, z, sign) := seq_select s q in
  let w := qw q in
  let b := 2 * (w * y + sign * x * z) in
  let A := 1 - 2 * (x * x + y * y) in let B := 2 * (w * x - sign * y * z) in
  let C := 1 - 2 * (y * y + z * z) in let D := 2 * (w * z - sign * x * y) in
  A * A + B * B = 1 - b * b /\ C * C + D * D = 1 - b * b.
Proof.
  destruct q as [x y z w]. intros H. un.
  assert (E : w * w = 1 - x * x - y * y - z * z) by lra. clear H.
  destruct s; cbn [seq_select qx qy qz qw]; split; ring [E].
Qed.

Lemma euler_seq_regular s q : unit q ->
  Rabs (vy (euler_angles_seq s q)) < PI / 2 ->
  meq 3 3 (qmat q) (seq_rotation s (euler_angles_seq s q)).
Proof.
  intros H. pose proof (seq_rotation_core s q) as Core. pose proof (seq_hypot s q H) as Hy.
  unfold euler_angles_seq. destruct (seq_select s q) as [[[x y] z] sign].
  cbn zeta in Hy. set (b := 2 * (qw q * y + sign * x * z)) in *. pose proof PI_RGT_0 as HPI.
  destruct (Rgt_dec b (998 / 1000)) as [G|G].
  { cbn [vy]. rewrite Rabs_right by lra. intros; lra. }
  destruct (Rlt_dec b (- (998 / 1000))) as [L|L].
  { cbn [vy]. rewrite Rabs_left by lra. intros; lra. }
  intros _. assert (Hb : -1 < b < 1) by lra.
  destruct (cos_asin_pos b Hb) as [Cp Cs].
  destruct Hy as [Hy1 Hy2]. rewrite <- Cs in Hy1, Hy2.
  destruct (atan2_polar _ _ _ Cp Hy1) as [Ca Sa].
  destruct (atan2_polar _ _ _ Cp Hy2) as [Cg Sg].
  apply Core; try assumption.
  - exact (sin_asin b ltac:(lra)).
  - rewrite Ca. field. lra.
  - rewrite Sa. field. lra.
  - rewrite Cg. field. lra.
  - rewrite Sg. field. lra.
Qed.

(** the north pole itself *)
Lemma half_atan2 x w : x * x + w * w = 1 / 2 ->
  cos (2 * atan2 x w) = 2 * (w * w - x * x) /\ sin (2 * atan2 x w) = 4 * (x * w).
Proof.
  intros E. assert (Hp : 0 < w * w + x * x) by lra.
  assert (Hr : sqrt (w * w + x * x) * sqrt (w * w + x * x) = 1 / 2) by (rewrite sqrt_sqrt; lra).
  pose proof (hypot_pos _ _ Hp) as Hs.
  rewrite cos_2a, sin_2a, atan2_cos, atan2_sin by exact Hp.
  set (r := sqrt (w * w + x * x)) in *.
  assert (Hi : / r * / r = 2).
  { rewrite <- Rinv_mult, Hr. lra. }
  unfold Rdiv. split.
  - replace (w * / r * (w * / r) - x * / r * (x * / r)) with ((w * w - x * x) * (/ r * / r)) by ring.
    rewrite Hi. ring.
  - replace (2 * (x * / r) * (w * / r)) with (2 * (x * w) * (/ r * / r)) by ring. rewrite Hi. ring.
Qed.

Definition seq_beta (s : sequence) (q : quat) : R :=
  let '(x, y, z, sign) := seq_select s q in 2 * (qw q * y + sign * x * z).

Lemma sq2_zero a b : a * a + b * b = 0 -> a = 0 /\ b = 0.
Proof. intros H. split; nra. Qed.

Lemma euler_seq_north s q : unit q -> seq_beta s q = 1 ->
  meq 3 3 (qmat q) (seq_rotation s (euler_angles_seq s q)).
Proof.
  intros H Hb. unfold euler_angles_seq. unfold seq_beta in Hb.
  assert (Hp : let '(x, y, z, sign) := seq_select s q in qw q = y /\ x = sign * z /\ x * x + qw q * qw q = 1 / 2).
  { destruct q as [x y z w]. un. destruct s; cbn [seq_select qx qy qz qw] in *;
    match type of Hb with 2 * (w * ?y + ?s * ?x * ?z) = 1 =>
      destruct (sq2_zero (w - y) (x - s * z)) as [E1 E2]; [nra|]; split; [lra|]; split; [lra|];
      assert (x = s * z) by lra; assert (w = y) by lra; subst w; nra end. }
  destruct (seq_select s q) as [[[x y] z] sign] eqn:ES. cbn zeta. rewrite Hb.
  destruct (Rgt_dec 1 (998 / 1000)) as [_|]; [|lra].
  destruct Hp as (Hy & Hx & Hn). destruct (half_atan2 _ _ Hn) as [C S].
  destruct q as [qx0 qy0 qz0 w]. cbn [qw] in *.
  intros i j Hi Hj.
  destruct s; cbn in ES; injection ES as <- <- <- <-; un;
    unfold seq_rotation, seq_axes, axis_rotation, mmul, mk33; cbn [sum vx vy vz];
    rewrite ?cos_PI2, ?sin_PI2, ?cos_0, ?sin_0; rewrite ?C, ?S; subst w;
    idx i Hi; idx j Hj; cbn; rewrite ?C, ?S, ?cos_PI2, ?sin_PI2, ?cos_0, ?sin_0; nra.
Qed.

(** the south pole: the sign of the first angle is wrong *)
Lemma euler_seq_south s : exists q, unit q /\ seq_beta s q = -1 /\
  ~ meq 3 3 (qmat q) (seq_rotation s (euler_angles_seq s q)).
Proof.
  set (q := match s with
    | XYZ => Q (1/2) (-1/2) (1/2) (1/2) | YZX => Q (1/2) (1/2) (-1/2) (1/2) | ZXY => Q (-1/2) (1/2) (1/2) (1/2)
    | ZYX => Q (-1/2) (-1/2) (1/2) (1/2) | XZY => Q (1/2) (-1/2) (-1/2) (1/2) | YXZ => Q (-1/2) (1/2) (-1/2) (1/2)
    end).
  exists q. split; [unfold unit, qnorm, q; destruct s; cbn; lra|].
  assert (Hb : seq_beta s q = -1) by (unfold seq_beta, q; destruct s; cbn; lra).
  split; [exact Hb|]. intros H.
  unfold euler_angles_seq in H. unfold seq_beta in Hb.
  assert (Hx : let '(x, y, z, sign) := seq_select s q in x = 1 / 2 /\ qw q = 1 / 2).
  { unfold q; destruct s; cbn; lra. }
  destruct (seq_select s q) as [[[x y] z] sign]. cbn zeta in H. rewrite Hb in H.
  destruct (Rgt_dec (-1) (998 / 1000)) as [G|_]; [lra|].
  destruct (Rlt_dec (-1) (- (998 / 1000))) as [_|G]; [|lra].
  destruct Hx as [-> Hw]. rewrite Hw in H.
  destruct (half_atan2 (1/2) (1/2) ltac:(lra)) as [C S].
  set (a := 2 * atan2 (1/2) (1/2)) in *.
  replace (-2 * atan2 (1/2) (1/2)) with (- a) in H by (unfold a; ring).
  assert (Ca : cos (- a) = 0) by (rewrite cos_neg; lra).
  assert (Sa : sin (- a) = -1) by (rewrite sin_neg; lra).
  replace (- PI / 2) with (- (PI / 2)) in H by lra.
  unfold seq_rotation, q in H.
  destruct s; cbn [seq_axes vx vy vz] in H.
  - specialize (H 0%nat 1%nat ltac:(lia) ltac:(lia)).
    unfold mmul, axis_rotation, mk33 in H. cbn in H.
    rewrite ?Ca, ?Sa, ?cos_neg, ?sin_neg, ?cos_PI2, ?sin_PI2, ?cos_0, ?sin_0 in H. lra.
  - specialize (H 1%nat 2%nat ltac:(lia) ltac:(lia)).
    unfold mmul, axis_rotation, mk33 in H. cbn in H.
    rewrite ?Ca, ?Sa, ?cos_neg, ?sin_neg, ?cos_PI2, ?sin_PI2, ?cos_0, ?sin_0 in H. lra.
  - specialize (H 2%nat 0%nat ltac:(lia) ltac:(lia)).
    unfold mmul, axis_rotation, mk33 in H. cbn in H.
    rewrite ?Ca, ?Sa, ?cos_neg, ?sin_neg, ?cos_PI2, ?sin_PI2, ?cos_0, ?sin_0 in H. lra.
  - specialize (H 2%nat 1%nat ltac:(lia) ltac:(lia)).
    unfold mmul, axis_rotation, mk33 in H. cbn in H.
    rewrite ?Ca, ?Sa, ?cos_neg, ?sin_neg, ?cos_PI2, ?sin_PI2, ?cos_0, ?sin_0 in H. lra.
  - specialize (H 0%nat 2%nat ltac:(lia) ltac:(lia)).
    unfold mmul, axis_rotation, mk33 in H. cbn in H.
    rewrite ?Ca, ?Sa, ?cos_neg, ?sin_neg, ?cos_PI2, ?sin_PI2, ?cos_0, ?sin_0 in H. lra.
  - specialize (H 1%nat 0%nat ltac:(lia) ltac:(lia)).
    unfold mmul, axis_rotation, mk33 in H. cbn in H.
    rewrite ?Ca, ?Sa, ?cos_neg, ?sin_neg, ?cos_PI2, ?sin_PI2, ?cos_0, ?sin_0 in H. lra.
Qed.

(** ** The accessor without sequence *)
Lemma m20_range q : unit q -> -1 <= - qmat q 2%nat 0%nat <= 1.
Proof. 
  destruct q as [x y z w]. intros H. un.
  pose proof (Rle_0_sqr (x - z)). pose proof (Rle_0_sqr (x + z)).
  pose proof (Rle_0_sqr (y - w)). pose proof (Rle_0_sqr (y + w)). unfold Rsqr in *. lra.
Qed.

Lemma clamp1_id s : -1 <= s <= 1 -> clamp1 s = s.
Proof.
  intros H. unfold clamp1. destruct (Rgt_dec s 1) as [|_]; [lra|].
  destruct (Rlt_dec s (-1)) as [|_]; [lra|reflexivity].
Qed.

Lemma cos_asin_nonneg s : -1 <= s <= 1 -> 0 <= cos (asin s) /\ cos (asin s) * cos (asin s) = 1 - s * s.
Proof.
  intros H. rewrite cos_asin by lra. unfold Rsqr. split; [apply sqrt_pos|apply sqrt_sqrt; nra].
Qed.

Lemma euler_regular q : unit q ->
  1 / 100000 < cos (asin (- qmat q 2%nat 0%nat)) ->
  meq 3 3 (qmat q) (seq_rotation XYZ (euler_angles q)).
Proof.
  intros H Hc. pose proof (m20_range q H) as Hr.
  pose proof (seq_rotation_core XYZ q) as Core. pose proof (seq_hypot XYZ q H) as Hy.
  cbn [seq_select] in Core, Hy. cbn zeta in Core, Hy.
  unfold euler_angles. cbn zeta. rewrite (clamp1_id _ Hr).
  assert (Eb : - qmat q 2%nat 0%nat = 2 * (qw q * qy q + -1 * qx q * qz q)).
  { destruct q as [x y z w]; un; ring. }
  destruct (cos_asin_nonneg _ Hr) as [_ Cs].
  set (c := cos (asin (- qmat q 2%nat 0%nat))) in *.
  destruct (Rgt_dec (Rabs c) (1 / 100000)) as [_|G]; [|rewrite Rabs_right in G; lra].
  assert (Cp : 0 < c) by lra.
  rewrite Eb in Cs. rewrite <- Cs in Hy. destruct Hy as [Hy1 Hy2].
  assert (E22 : qmat q 2%nat 2%nat = 1 - 2 * (qx q * qx q + qy q * qy q)) by (destruct q as [x y z w]; un; ring).
  assert (E21 : qmat q 2%nat 1%nat = 2 * (qw q * qx q - -1 * qy q * qz q)) by (destruct q as [x y z w]; un; ring).
  assert (E00 : qmat q 0%nat 0%nat = 1 - 2 * (qy q * qy q + qz q * qz q)) by (destruct q as [x y z w]; un; ring).
  assert (E10 : qmat q 1%nat 0%nat = 2 * (qw q * qz q - -1 * qx q * qy q)) by (destruct q as [x y z w]; un; ring).
  rewrite <- E22, <- E21 in Hy1. rewrite <- E00, <- E10 in Hy2.
  destruct (atan2_polar (qmat q 2%nat 1%nat / c) (qmat q 2%nat 2%nat / c) 1 ltac:(lra)) as [Ca Sa].
  { replace (qmat q 2%nat 2%nat / c * (qmat q 2%nat 2%nat / c) + qmat q 2%nat 1%nat / c * (qmat q 2%nat 1%nat / c))
      with ((qmat q 2%nat 2%nat * qmat q 2%nat 2%nat + qmat q 2%nat 1%nat * qmat q 2%nat 1%nat) / (c * c)) by (field; lra).
    rewrite Hy1. field. lra. }
  destruct (atan2_polar (qmat q 1%nat 0%nat / c) (qmat q 0%nat 0%nat / c) 1 ltac:(lra)) as [Cg Sg].
  { replace (qmat q 0%nat 0%nat / c * (qmat q 0%nat 0%nat / c) + qmat q 1%nat 0%nat / c * (qmat q 1%nat 0%nat / c))
      with ((qmat q 0%nat 0%nat * qmat q 0%nat 0%nat + qmat q 1%nat 0%nat * qmat q 1%nat 0%nat) / (c * c)) by (field; lra).
    rewrite Hy2. field. lra. }
  apply Core; try assumption; fold c.
  - rewrite sin_asin by exact Hr. exact Eb.
  - rewrite Ca, <- E22. field. lra.
  - rewrite Sa, <- E21. field. lra.
  - rewrite Cg, <- E00. field. lra.
  - rewrite Sg, <- E10. field. lra.
Qed.

(** gimbal lock proper *)
Lemma euler_locked q : unit q -> cos (asin (- qmat q 2%nat 0%nat)) = 0 ->
  meq 3 3 (qmat q) (seq_rotation XYZ (euler_angles q)).
Proof.
  intros H Hc. pose proof (m20_range q H) as Hr.
  destruct (cos_asin_nonneg _ Hr) as [_ Cs]. rewrite Hc in Cs.
  unfold euler_angles. cbn zeta. rewrite (clamp1_id _ Hr), Hc, Rabs_R0.
  destruct (Rgt_dec 0 (1 / 100000)) as [|_]; [lra|].
  pose proof (sin_asin _ Hr) as Sb.
  assert (HN : (qmat q 1%nat 1%nat) * (qmat q 1%nat 1%nat) + (- qmat q 0%nat 1%nat) * (- qmat q 0%nat 1%nat) = 1 * 1).
  { destruct q as [x y z w]. un.
    assert (Z : (1 - 2 * (x * x + y * y)) * (1 - 2 * (x * x + y * y)) + (2 * (y * z + x * w)) * (2 * (y * z + x * w)) = 0).
    { assert (E : w * w = 1 - x * x - y * y - z * z) by lra.
      transitivity (1 - (2 * (x * z - y * w)) * (2 * (x * z - y * w))); [ring [E]|lra]. }
    assert (E : w * w = 1 - x * x - y * y - z * z) by lra.
    destruct (sq2_zero _ _ Z) as [_ Z2].
    transitivity (1 - (2 * (y * z + x * w)) * (2 * (y * z + x * w))); [ring [E]|rewrite Z2; ring]. }
  destruct (atan2_polar _ _ 1 ltac:(lra) HN) as [Cg Sg].
  assert (HB : - qmat q 2%nat 0%nat = 1 \/ - qmat q 2%nat 0%nat = -1).
  { apply sq_eq_1_cases. lra. }
  set (ga := atan2 _ _) in *. set (be := asin _) in *. clearbody ga be.
  destruct q as [x y z w]. un.
  assert (E : w * w = 1 - x * x - y * y - z * z) by lra.
  intros i j Hi Hj. unfold seq_rotation, seq_axes, axis_rotation, mmul, mk33; cbn [sum vx vy vz].
  destruct HB as [HB|HB].
  - destruct (sq2_zero (w - y) (x + z)) as [E1 E2]; [lra|].
    assert (w = y) by lra. assert (x = - z) by lra. subst w x.
    idx i Hi; idx j Hj; cbn; rewrite ?Sb, ?Hc, ?Cg, ?Sg, ?cos_0, ?sin_0; nra.
  - destruct (sq2_zero (w + y) (x - z)) as [E1 E2]; [lra|].
    assert (w = - y) by lra. assert (x = z) by lra. subst w x.
    idx i Hi; idx j Hj; cbn; rewrite ?Sb, ?Hc, ?Cg, ?Sg, ?cos_0, ?sin_0; nra.
Qed.

(** just beside gimbal lock the first angle is dropped *)
Lemma euler_near_lock q : unit q -> cos (asin (- qmat q 2%nat 0%nat)) <= 1 / 100000 ->
  qmat q 2%nat 1%nat <> 0 ->
  ~ meq 3 3 (qmat q) (seq_rotation XYZ (euler_angles q)).
Proof.
  intros H Hc Hm E. pose proof (m20_range q H) as Hr.
  destruct (cos_asin_nonneg _ Hr) as [Cp _]. apply Hm.
  rewrite (E 2%nat 1%nat) by lia. unfold euler_angles. cbn zeta. rewrite (clamp1_id _ Hr).
  destruct (Rgt_dec (Rabs (cos (asin (- qmat q 2%nat 0%nat)))) (1 / 100000)) as [G|_].
  { rewrite Rabs_right in G; lra. }
  unfold seq_rotation, mmul. cbn. rewrite sin_0. ring.
Qed.

(** ** Constructor then accessor *)
Lemma euler_ctor_accessor x y z : - PI / 2 < x < PI / 2 -> Rabs (sin x) <= 998 / 1000 ->
  - PI < y <= PI -> - PI < z <= PI ->
  euler_angles_seq XZY (quat_of_euler x y z) = V3 z x y.
Proof.
  intros Hx Hs Hy Hz.
  pose proof (quat_of_euler_unit x y z) as HU. pose proof (quat_of_euler_matrix x y z) as HM.
  set (q := quat_of_euler x y z) in *. clearbody q.
  assert (Hc : 0 < cos x) by (apply cos_gt_0; lra).
  assert (Eb : 2 * (qw q * qz q + 1 * qx q * qy q) = sin x).
  { pose proof (HM 1%nat 0%nat ltac:(lia) ltac:(lia)) as E. destruct q as [a b c d].
    unfold qmat, seq_rotation, mmul in E. cbn in E. cbn. rewrite <- Rplus_0_r, <- Rplus_0_r.
    lra. }
  assert (Ea1 : 2 * (qw q * qx q - 1 * qz q * qy q) = cos x * sin z).
  { pose proof (HM 1%nat 2%nat ltac:(lia) ltac:(lia)) as E. destruct q as [a b c d].
    unfold qmat, seq_rotation, mmul in E. cbn in E. cbn. lra. }
  assert (Ea2 : 1 - 2 * (qx q * qx q + qz q * qz q) = cos x * cos z).
  { pose proof (HM 1%nat 1%nat ltac:(lia) ltac:(lia)) as E. destruct q as [a b c d].
    unfold qmat, seq_rotation, mmul in E. cbn in E. cbn. lra. }
  assert (Eg1 : 2 * (qw q * qy q - 1 * qx q * qz q) = cos x * sin y).
  { pose proof (HM 2%nat 0%nat ltac:(lia) ltac:(lia)) as E. destruct q as [a b c d].
    unfold qmat, seq_rotation, mmul in E. cbn in E. cbn. lra. }
  assert (Eg2 : 1 - 2 * (qz q * qz q + qy q * qy q) = cos x * cos y).
  { pose proof (HM 0%nat 0%nat ltac:(lia) ltac:(lia)) as E. destruct q as [a b c d].
    unfold qmat, seq_rotation, mmul in E. cbn in E. cbn. lra. }
  unfold euler_angles_seq. cbn [seq_select]. cbn zeta. rewrite Eb, Ea1, Ea2, Eg1, Eg2.
  apply Rabs_le_between in Hs || (assert (- (998/1000) <= sin x <= 998/1000) by (unfold Rabs in Hs; destruct (Rcase_abs (sin x)); lra)).
  destruct (Rgt_dec (sin x) (998 / 1000)) as [G|_]; [lra|].
  destruct (Rlt_dec (sin x) (- (998 / 1000))) as [G|_]; [lra|].
  rewrite asin_sin by lra. rewrite !atan2_of_angle by assumption. reflexivity.
Qed.
