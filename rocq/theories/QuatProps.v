(** C01 - C06: quaternions and poses. *)
From Coq Require Import Reals Lra Lia.
From Verif Require Import Mat Quat QuatProofs QuatMatProofs QuatTrigProofs.
Open Scope R_scope.

(** A non-trivial rotation and pose used to show that hypotheses can be met. *)
Example unit_case : unit (Q (3/5) 0 0 (4/5)).
Proof. unfold unit, qnorm. cbn. lra. Qed.
Example unit_case_half_turn : unit (Q (3/5) (-4/5) 0 0).
Proof. unfold unit, qnorm. cbn. lra. Qed.
Example rigid_case : rigid (P (Q (1/2) (-1/2) (1/2) (1/2)) (V3 1 2 3)).
Proof. unfold rigid, unit, qnorm. cbn. lra. Qed.

(** C01 *)
Theorem pose_action_compose : forall p q x, rigid p -> rigid q ->
  papp (pmul p q) x = papp p (papp q x).
Proof. exact papp_mul. Qed.
Print Assumptions pose_action_compose.

Theorem pose_mul_assoc : forall p q r, rigid p -> rigid q -> rigid r ->
  pmul p (pmul q r) = pmul (pmul p q) r.
Proof. exact pmul_assoc. Qed.
Print Assumptions pose_mul_assoc.

Theorem pose_neutral : forall p x, pmul pone p = p /\ pmul p pone = p /\ papp pone x = x.
Proof. intros p x. split; [apply pmul_one_l|split; [apply pmul_one_r|apply papp_one]]. Qed.
Print Assumptions pose_neutral.

Theorem pose_inverse : forall p, rigid p ->
  pmul p (pinv p) = pone /\ pmul (pinv p) p = pone /\ pinv (pinv p) = p /\
  (forall x, papp (pinv p) (papp p x) = x) /\ (forall x, papp p (papp (pinv p) x) = x).
Proof.
  intros p H. pose proof (rigid_inv p H) as Hi.
  split; [apply pmul_inv_r; exact H|]. split; [apply pmul_inv_l; exact H|].
  split; [apply pinv_inv; exact H|]. split; intros x.
  - rewrite <- papp_mul, pmul_inv_l by assumption. apply papp_one.
  - rewrite <- papp_mul, pmul_inv_r by assumption. apply papp_one.
Qed.
Print Assumptions pose_inverse.

Theorem pose_inverse_product : forall p q, rigid p -> rigid q ->
  pinv (pmul p q) = pmul (pinv q) (pinv p).
Proof. exact pinv_mul. Qed.
Print Assumptions pose_inverse_product.

(** closure: products and inverses of rigid motions are rigid motions *)
Theorem pose_rigid_closed : forall p q, rigid p -> rigid q -> rigid (pmul p q) /\ rigid (pinv p).
Proof. intros p q Hp Hq. split; [apply rigid_mul; assumption|apply rigid_inv; assumption]. Qed.
Print Assumptions pose_rigid_closed.

(** C02 *)
Theorem rotation_preserves_geometry : forall q a b, unit q ->
  dot3 (qrot q a) (qrot q b) = dot3 a b /\ qrot q (cross3 a b) = cross3 (qrot q a) (qrot q b).
Proof. intros q a b H. split; [apply qrot_dot; exact H|apply qrot_cross; exact H]. Qed.
Print Assumptions rotation_preserves_geometry.

Theorem rotation_agrees_with_matrix : forall q v, unit q ->
  qrot q v = mv3 (qmat q) v /\ rotation (qmat q).
Proof. intros q v H. split; [apply qrot_mat; exact H|apply qmat_rotation; exact H]. Qed.
Print Assumptions rotation_agrees_with_matrix.

Theorem rotation_product : forall p q, unit p -> unit q ->
  (forall v, qrot (qmul p q) v = qrot p (qrot q v)) /\
  meq 3 3 (qmat (qmul p q)) (mmul 3 (qmat p) (qmat q)).
Proof. intros p q Hp Hq. split; [intros v; apply qrot_mul; assumption|apply qmat_mul; assumption]. Qed.
Print Assumptions rotation_product.

Theorem rotation_sign_irrelevant : forall q, same_rotation (qopp q) q.
Proof. intros q v. apply qrot_qopp. Qed.
Print Assumptions rotation_sign_irrelevant.

(** the vector rotation is the sandwich product q v q* *)
Theorem rotation_is_conjugation : forall q v, unit q ->
  imag (qrot q v) = qmul (qmul q (imag v)) (qconj q).
Proof. exact qrot_conjugation. Qed.
Print Assumptions rotation_is_conjugation.

(** C03: every rotation matrix, through every branch *)
Theorem quaternion_of_rotation_matrix : forall m, rotation m ->
  exists q, quat_of_mat m = Some q /\ unit q /\ meq 3 3 (qmat q) m.
Proof. exact quat_of_mat_rotation. Qed.
Print Assumptions quaternion_of_rotation_matrix.

Theorem quaternion_matrix_roundtrip : forall q, unit q ->
  exists q', quat_of_mat (qmat q) = Some q' /\ (q' = q \/ q' = qopp q).
Proof. exact quat_of_mat_of_quat. Qed.
Print Assumptions quaternion_matrix_roundtrip.

Example rotation_case : rotation (qmat (Q (3/5) (-4/5) 0 0)).
Proof. apply qmat_rotation. exact unit_case_half_turn. Qed.

(** C04 *)
Theorem axis_angle_gives_unit : forall axis angle q,
  quat_of_axis_angle axis angle = Some q -> unit q.
Proof. exact quat_of_axis_angle_unit. Qed.
Print Assumptions axis_angle_gives_unit.

(** the constructor fails only for the zero axis *)
Theorem axis_angle_defined : forall axis angle,
  axis <> v3zero <-> exists q, quat_of_axis_angle axis angle = Some q.
Proof. exact quat_of_axis_angle_defined. Qed.
Print Assumptions axis_angle_defined.

(** it really is the rotation about that axis by that angle *)
Theorem axis_angle_is_rodrigues : forall n angle q v,
  dot3 n n = 1 -> quat_of_axis_angle n angle = Some q ->
  qrot q v = v3add (v3scale (cos angle) v)
               (v3add (v3scale (sin angle) (cross3 n v))
                      (v3scale ((1 - cos angle) * dot3 n v) n)).
Proof. exact axis_angle_rodrigues. Qed.
Print Assumptions axis_angle_is_rodrigues.

Theorem axis_angle_roundtrip_partial : forall q, unit q -> q <> qone -> q <> qopp qone ->
  let '(axis, angle) := to_axis_angle q in quat_of_axis_angle axis angle = Some q.
Proof. exact axis_angle_roundtrip. Qed.
Print Assumptions axis_angle_roundtrip_partial.

Example axis_angle_case : let q := Q (3/5) 0 0 (4/5) in unit q /\ q <> qone /\ q <> qopp qone.
Proof.
  cbv zeta. split; [exact unit_case|]. unfold qone, qopp.
  split; intros H; injection H; cbn; intros; lra.
Qed.

(** the identity rotation does not survive: its axis is the zero vector, by whose
    length the constructor divides *)
Theorem axis_angle_identity_refuted : forall q, q = qone \/ q = qopp qone ->
  let '(axis, angle) := to_axis_angle q in quat_of_axis_angle axis angle = None.
Proof. exact axis_angle_identity_undefined. Qed.

(** angle() is the angle of the rotation, between 0 and pi, and does not depend on the sign of the quaternion: the trace of the
    rotation is 1 + 2 cos angle *)
Theorem angle_of_rotation : forall q, unit q -> 0 <= qangle q <= PI /\ qangle (qopp q) = qangle q /\
  vx (qrot q (V3 1 0 0)) + vy (qrot q (V3 0 1 0)) + vz (qrot q (V3 0 0 1)) = 1 + 2 * cos (qangle q).
Proof.
  intros q U. set (a := if Rgt_dec (qw q) 0 then qw q else - qw q).
  assert (A2 : a * a = qw q * qw q) by (unfold a; destruct (Rgt_dec (qw q) 0); ring).
  assert (A0 : 0 <= a) by (unfold a; destruct (Rgt_dec (qw q) 0); lra).
  assert (N : qx q * qx q + qy q * qy q + qz q * qz q + qw q * qw q = 1) by (unfold unit, qnorm in U; lra).
  assert (S1 := Rle_0_sqr (qx q)). assert (S2 := Rle_0_sqr (qy q)). assert (S3 := Rle_0_sqr (qz q)). unfold Rsqr in *.
  assert (A1 : a <= 1) by nra. assert (PP := PI_RGT_0). assert (AB := acos_bound a).
  assert (AH : acos a <= PI / 2).
  { destruct (Rle_or_lt (acos a) (PI / 2)) as [L|L]; [exact L|]. exfalso. assert (C := cos_acos a ltac:(lra)).
    assert (cos (acos a) < cos (PI / 2)) by (apply cos_decreasing_1; lra). rewrite cos_PI2 in H. lra. }
  change (qangle q) with (2 * acos a). split; [lra|]. split.
  - unfold qangle, qopp. cbn [qw]. fold a. f_equal. f_equal. unfold a. destruct (Rgt_dec (- qw q) 0), (Rgt_dec (qw q) 0); lra.
  - rewrite cos_2a_cos. rewrite cos_acos by lra. rewrite (Rmult_assoc 2 a a), A2. unfold qrot. cbn [vx vy vz]. destruct q as [x y z w]. cbn [qx qy qz qw] in *. lra.
Qed.
Example angle_case : unit (Q (3/5) 0 0 (-4/5)).
Proof. unfold unit, qnorm. cbn. lra. Qed.
Print Assumptions angle_of_rotation.
Print Assumptions axis_angle_identity_refuted.

Theorem logarithm_roundtrip_partial : forall q, unit q ->
  eps12 < sqrt (qx q * qx q + qy q * qy q + qz q * qz q) ->
  from_log (to_log q) = (if Rge_dec (qw q) 0 then q else qopp q) /\ same_rotation (from_log (to_log q)) q.
Proof.
  intros q Hu HL. rewrite (log_roundtrip q Hu HL). split; [reflexivity|].
  destruct (Rge_dec (qw q) 0); intros v; [reflexivity|apply qrot_qopp].
Qed.
Print Assumptions logarithm_roundtrip_partial.

Example logarithm_case : let q := Q 0 1 0 0 in
  unit q /\ eps12 < sqrt (qx q * qx q + qy q * qy q + qz q * qz q).
Proof.
  cbv zeta. split; [unfold unit, qnorm; cbn; lra|]. cbn [qx qy qz].
  replace (0 * 0 + 1 * 1 + 0 * 0) with 1 by ring. rewrite sqrt_1.
  pose proof eps12_small. lra.
Qed.

(** rotations below the threshold come back as the identity, off by at most 1e-12
    in every component *)
Theorem logarithm_small_rotations : forall q, unit q ->
  sqrt (qx q * qx q + qy q * qy q + qz q * qz q) <= eps12 ->
  from_log (to_log q) = qone /\
  Rabs (qx q) <= eps12 /\ Rabs (qy q) <= eps12 /\ Rabs (qz q) <= eps12 /\ 1 - eps12 <= Rabs (qw q) <= 1.
Proof. exact log_roundtrip_small. Qed.
Print Assumptions logarithm_small_rotations.

Theorem logarithm_exact_refuted : exists q, unit q /\ ~ same_rotation (from_log (to_log q)) q.
Proof. exact log_tiny_refuted. Qed.
Print Assumptions logarithm_exact_refuted.

Theorem logarithm_of_exponential : forall v, 8 * eps12 < norm3 v <= PI -> to_log (from_log v) = v.
Proof. exact log_roundtrip_vector. Qed.
Print Assumptions logarithm_of_exponential.

Theorem exponential_is_unit : forall v, unit (from_log v).
Proof. exact from_log_unit. Qed.
Print Assumptions exponential_is_unit.

(** C05 *)
Theorem slerp_stays_on_sphere : forall a b t, unit a -> unit b ->
  exists r, slerp a b t = Some r /\ unit r.
Proof. exact slerp_unit. Qed.
Print Assumptions slerp_stays_on_sphere.

Theorem slerp_hits_endpoints : forall a b, unit a -> unit b ->
  (exists r, slerp a b 0 = Some r /\ same_rotation r a) /\ slerp a b 1 = Some b.
Proof. exact slerp_endpoints. Qed.
Print Assumptions slerp_hits_endpoints.

(** constant angular speed: with x the representative of a on b's hemisphere and
    theta the angle between x and b, the result is at angle t theta from x and
    (1-t) theta from b *)
Theorem slerp_constant_speed : forall a b t, unit a -> unit b ->
  let x := if Rgt_dec (qnorm (qsub a b)) 2 then qopp a else a in
  0 <= qdot x b /\
  (qdot x b <= 9999 / 10000 ->
   exists r, slerp a b t = Some r /\
    qdot r x = cos (t * acos (qdot x b)) /\ qdot r b = cos ((1 - t) * acos (qdot x b))).
Proof.
  intros a b t Ha Hb. cbv zeta. fold (slerp_first a b). split.
  - apply slerp_first_spec; assumption.
  - intros HD. destruct (slerp_spherical a b t Ha Hb HD) as (r & E & _ & H1 & H2).
    exists r. split; [exact E|split; assumption].
Qed.
Print Assumptions slerp_constant_speed.

Theorem pose_interpolation_endpoints : forall x y, rigid x -> rigid y ->
  (exists r, pose_lerp x y 0 = Some r /\ forall v, papp r v = papp x v) /\
  (exists r, pose_lerp x y 1 = Some r /\ r = y).
Proof. exact pose_lerp_ends. Qed.
Print Assumptions pose_interpolation_endpoints.

Theorem negate_if_closer_correct : forall q ref,
  let r := negate_if_closer q ref in
  same_rotation r q /\ 0 <= qdot r ref /\
  qnorm (qsub r ref) <= qnorm (qsub q ref) /\ qnorm (qsub r ref) <= qnorm (qsub (qopp q) ref).
Proof. exact negate_if_closer_spec. Qed.
Print Assumptions negate_if_closer_correct.

(** C06 *)
Theorem pose_vector_roundtrips : forall p v,
  pose_of_vector (pose_to_vector p) = p /\ veq 7 (pose_to_vector (pose_of_vector v)) v.
Proof. intros p v. split; [apply pose_vector_roundtrip|apply vector_pose_roundtrip]. Qed.
Print Assumptions pose_vector_roundtrips.

Theorem pose_matrix_acts_as_pose : forall p x, rigid p ->
  veq 4 (mvec 4 (pose_mat p) (hom x)) (hom (papp p x)).
Proof. exact pose_mat_app. Qed.
Print Assumptions pose_matrix_acts_as_pose.

Theorem pose_matrix_homomorphism : forall p q, rigid p -> rigid q ->
  meq 4 4 (pose_mat (pmul p q)) (mmul 4 (pose_mat p) (pose_mat q)) /\
  meq 4 4 (mmul 4 (pose_mat p) (pose_mat (pinv p))) eye /\
  meq 4 4 (mmul 4 (pose_mat (pinv p)) (pose_mat p)) eye.
Proof.
  intros p q Hp Hq. split; [apply pose_mat_mul; assumption|]. apply pose_mat_inv. exact Hp.
Qed.
Print Assumptions pose_matrix_homomorphism.

Theorem pose_matrix_roundtrip : forall p, rigid p ->
  exists p', pose_of_mat (pose_mat p) = Some p' /\ rigid p' /\ forall x, papp p' x = papp p x.
Proof. exact pose_of_pose_mat. Qed.
Print Assumptions pose_matrix_roundtrip.
