(** C53, C60: conversions between rotation representations. *)
From Coq Require Import Reals Lra Lia.
From Verif Require Import Mat Quat QuatProofs QuatMatProofs QuatTrigProofs RotationCast RotationCastProofs.
Open Scope R_scope.

(** the matrix of a unit quaternion is the same as that of [toMatrix] *)
Theorem cast_quaternion_to_matrix : forall q, unit q ->
  rotation (cast_quat_mat q) /\ forall v, mv3 (cast_quat_mat q) v = qrot q v.
Proof.
  intros q H. rewrite (cast_quat_mat_ok q H). split; [apply qmat_rotation; exact H|].
  intros v. symmetry. apply qrot_mat. exact H.
Qed.
Print Assumptions cast_quaternion_to_matrix.

(** C53 for everything but half turns *)
Theorem cast_matrix_to_quaternion_partial : forall m, rotation m -> trace33 m <> -1 ->
  unit (cast_mat_quat m) /\ forall v, qrot (cast_mat_quat m) v = mv3 m v.
Proof.
  intros m H Ht. destruct (cast_mat_quat_ok m H Ht) as (Hu & _ & HM).
  split; [exact Hu|]. intros v. rewrite (qrot_mat _ v Hu). unfold mv3. rewrite !HM by lia. reflexivity.
Qed.
Print Assumptions cast_matrix_to_quaternion_partial.

(** the hypotheses are met by the matrix of any unit quaternion with real part *)
Example cast_matrix_case : rotation (qmat (Q (3/5) 0 0 (4/5))) /\ trace33 (qmat (Q (3/5) 0 0 (4/5))) <> -1.
Proof.
  assert (H : unit (Q (3/5) 0 0 (4/5))) by (unfold unit, qnorm; cbn; lra).
  split; [apply qmat_rotation; exact H|]. rewrite trace_qmat by exact H. cbn. lra.
Qed.

(** the effect on half turns: all signs are lost *)
Theorem cast_half_turn : forall q, unit q -> qw q = 0 ->
  cast_mat_quat (qmat q) = Q (Rabs (qx q)) (Rabs (qy q)) (Rabs (qz q)) 0.
Proof. exact cast_mat_quat_half. Qed.
Print Assumptions cast_half_turn.

(** C53 is false of half turns about an axis with components of both signs *)
Theorem cast_matrix_to_quaternion_refuted :
  exists m v, rotation m /\ qrot (cast_mat_quat m) v <> mv3 m v.
Proof.
  assert (H : unit (Q (3/5) (-4/5) 0 0)) by (unfold unit, qnorm; cbn; lra).
  exists (qmat (Q (3/5) (-4/5) 0 0)), (V3 1 0 0). split; [apply qmat_rotation; exact H|].
  rewrite (cast_mat_quat_half _ H) by reflexivity. cbn [qx qy qz].
  rewrite (Rabs_right (3/5)), (Rabs_left (-4/5)), (Rabs_right 0) by lra.
  unfold qrot, mv3, qmat, mk33. cbn. intros E. injection E as E1 E2 E3. lra.
Qed.
Print Assumptions cast_matrix_to_quaternion_refuted.

(** C60: axis and angle, rotation vector *)
Theorem cast_axis_angle_consistent : forall v, unit_axis (axis v) ->
  unit (cast_aa_quat v) /\ quat_of_axis_angle (axis v) (angle v) = Some (cast_aa_quat v) /\
  forall u, mv3 (cast_aa_mat v) u = qrot (cast_aa_quat v) u.
Proof.
  intros v H. split; [apply cast_aa_quat_unit; exact H|].
  split; [apply cast_aa_quat_is_ctor; exact H|]. intros u.
  rewrite (cast_aa_mat_ok v H). symmetry. apply qrot_mat. apply cast_aa_quat_unit. exact H.
Qed.
Print Assumptions cast_axis_angle_consistent.

Theorem cast_rotation_vector_consistent : forall v u,
  unit (cast_vec_quat v) /\ mv3 (cast_vec_mat v) u = qrot (cast_vec_quat v) u /\
  cast_aa_quat (cast_vec_aa v) = cast_vec_quat v.
Proof.
  intros v u. split; [apply cast_vec_quat_unit|]. split; [|symmetry; apply cast_vec_quat_aa].
  rewrite cast_vec_mat_ok. symmetry. apply qrot_mat. apply cast_vec_quat_unit.
Qed.
Print Assumptions cast_rotation_vector_consistent.

Lemma eps12_lt_eps10 : eps12 < eps10.
Proof.
  unfold eps12, eps10. apply Rinv_lt_contravar.
  - apply Rmult_lt_0_compat; apply pow_lt; lra.
  - apply Rlt_pow; [lra|lia].
Qed.

(** the rotation vector is half of the argument of [fromLogarithm]'s angle convention *)
Theorem cast_rotation_vector_is_exponential : forall v, eps10 <= norm3 v ->
  cast_vec_quat v = from_log v.
Proof. intros v H. apply cast_vec_quat_log; [exact H|]. pose proof eps12_lt_eps10. lra. Qed.
Print Assumptions cast_rotation_vector_is_exponential.

(** quaternion to axis and angle and back, except for the two identity quaternions *)
Theorem cast_axis_angle_roundtrip_partial : forall q, unit q -> q <> qone -> q <> qopp qone ->
  exists v, cast_quat_aa q = Some v /\ unit_axis (axis v) /\ cast_aa_quat v = q.
Proof.
  intros q H H1 H2.
  assert (D : forall s, s * s = 1 -> qw q = s -> q = Q 0 0 0 s).
  { intros s Hs E. destruct q as [x y z w]. cbn in E. subst w. unfold unit, qnorm in H. cbn in H.
    pose proof (Rle_0_sqr x). pose proof (Rle_0_sqr y). pose proof (Rle_0_sqr z). unfold Rsqr in *.
    assert (x * x = 0) by lra. assert (y * y = 0) by lra. assert (z * z = 0) by lra.
    f_equal; apply Rsqr_0_uniq; assumption. }
  destruct (cast_quat_aa_ok q H) as (v & Hv & Hu & Hq & _).
  - intros E. apply H1. rewrite (D 1); [reflexivity|ring|exact E].
  - intros E. apply H2. rewrite (D (-1)); [unfold qopp, qone; cbn; f_equal; ring|ring|exact E].
  - exists v. auto.
Qed.
Print Assumptions cast_axis_angle_roundtrip_partial.

(** ... for which the conversion divides by zero *)
Theorem cast_identity_refuted : exists q, unit q /\ cast_quat_aa q = None /\ cast_quat_vec q = None.
Proof.
  exists qone. split; [apply unit_one|].
  assert (E : cast_quat_aa qone = None) by (apply cast_quat_aa_undefined; left; reflexivity).
  unfold cast_quat_vec. rewrite E. auto.
Qed.
Print Assumptions cast_identity_refuted.

Theorem cast_rotation_vector_roundtrip : forall v, unit_axis (axis v) -> eps10 <= Rabs (angle v) ->
  cast_vec_quat (cast_aa_vec v) = cast_aa_quat v.
Proof. exact cast_aa_vec_quat. Qed.
Print Assumptions cast_rotation_vector_roundtrip.

(** matrix to axis and angle and back *)
Theorem cast_matrix_axis_angle_partial : forall m, rotation m -> trace33 m <> -1 ->
  eps10 <= acos ((trace33 m - 1) / 2) ->
  exists v, cast_mat_aa m = Some v /\ unit_axis (axis v) /\ meq 3 3 (cast_aa_mat v) m.
Proof. exact cast_mat_aa_ok. Qed.
Print Assumptions cast_matrix_axis_angle_partial.

Theorem cast_matrix_axis_angle_half_turn_refuted : forall q, unit q -> qw q = 0 ->
  rotation (qmat q) /\ cast_mat_aa (qmat q) = None /\ cast_mat_vec (qmat q) = None.
Proof.
  intros q H Hw. split; [apply qmat_rotation; exact H|].
  assert (E := cast_mat_aa_half q H Hw). unfold cast_mat_vec. rewrite E. auto.
Qed.
Print Assumptions cast_matrix_axis_angle_half_turn_refuted.

Example unit_axis_case : unit_axis (V3 (2/3) (-1/3) (2/3)).
Proof. unfold unit_axis, dot3. cbn. lra. Qed.
