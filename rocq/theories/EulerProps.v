(** C56, C61: Euler angles. *)
From Coq Require Import Reals Lra Lia.
From Verif Require Import Mat Quat QuatProofs QuatMatProofs QuatTrigProofs Euler EulerProofs.
Open Scope R_scope.

(** C56: the constructor's parameters are, in this order, the rotations about z, y and x;
    the rotation about x comes first, then z, then y. *)
Theorem euler_constructor : forall x y z,
  unit (quat_of_euler x y z) /\
  quat_of_euler x y z = qmul (qmul (axis_quat CY y) (axis_quat CZ x)) (axis_quat CX z) /\
  forall v, qrot (quat_of_euler x y z) v =
    mv3 (axis_rotation CY y) (mv3 (axis_rotation CZ x) (mv3 (axis_rotation CX z) v)).
Proof.
  intros x y z. split; [apply quat_of_euler_unit|]. split; [apply quat_of_euler_product|].
  intros v. rewrite (qrot_mat _ v (quat_of_euler_unit x y z)).
  assert (E : meq 3 3 (qmat (quat_of_euler x y z))
    (mmul 3 (axis_rotation CY y) (mmul 3 (axis_rotation CZ x) (axis_rotation CX z)))) by apply quat_of_euler_matrix.
  unfold mv3 at 1. rewrite !E by lia. unfold mmul. cbn [sum]. unfold mv3. cbn [vx vy vz].
  f_equal; ring.
Qed.
Print Assumptions euler_constructor.

Theorem euler_constructor_accessor : forall x y z,
  - PI / 2 < x < PI / 2 -> Rabs (sin x) <= 998 / 1000 -> - PI < y <= PI -> - PI < z <= PI ->
  euler_angles_seq XZY (quat_of_euler x y z) = V3 z x y.
Proof. exact euler_ctor_accessor. Qed.
Print Assumptions euler_constructor_accessor.

Example euler_constructor_case :
  - PI / 2 < 0 < PI / 2 /\ Rabs (sin 0) <= 998 / 1000 /\ - PI < 1 <= PI /\ - PI < -1 <= PI.
Proof.
  pose proof PI_RGT_0. pose proof PI2_1. rewrite sin_0, Rabs_R0. lra.
Qed.

(** C61: the angles of an accessor reproduce the rotation, for all six sequences *)
Theorem euler_sequence_partial : forall s q, unit q ->
  Rabs (vy (euler_angles_seq s q)) < PI / 2 \/ seq_beta s q = 1 ->
  forall v, mv3 (seq_rotation s (euler_angles_seq s q)) v = qrot q v.
Proof.
  intros s q H Hb v. rewrite (qrot_mat _ v H).
  assert (E : meq 3 3 (qmat q) (seq_rotation s (euler_angles_seq s q))).
  { destruct Hb as [Hb|Hb]; [apply euler_seq_regular|apply euler_seq_north]; assumption. }
  unfold mv3. rewrite !E by lia. reflexivity.
Qed.
Print Assumptions euler_sequence_partial.

(** C61 is false at the south pole, where alpha has the wrong sign *)
Theorem euler_south_pole_refuted : forall s, exists q, unit q /\ seq_beta s q = -1 /\
  ~ forall v, mv3 (seq_rotation s (euler_angles_seq s q)) v = qrot q v.
Proof.
  intros s. destruct (euler_seq_south s) as (q & H & Hb & HN).
  exists q. split; [exact H|]. split; [exact Hb|]. intros A. apply HN. intros i j Hi Hj.
  set (m := seq_rotation s (euler_angles_seq s q)) in *.
  pose proof (A (V3 1 0 0)) as X. pose proof (A (V3 0 1 0)) as Y. pose proof (A (V3 0 0 1)) as Z.
  rewrite (qrot_mat q _ H) in X. rewrite (qrot_mat q _ H) in Y. rewrite (qrot_mat q _ H) in Z. set (n := qmat q) in *. clearbody m n.
  unfold mv3 in *. cbn [vx vy vz] in *. injection X as X1 X2 X3. injection Y as Y1 Y2 Y3. injection Z as Z1 Z2 Z3.
  idx i Hi; idx j Hj; lra.
Qed.
Print Assumptions euler_south_pole_refuted.

(** the accessor without sequence: exact away from gimbal lock and in gimbal lock proper *)
Theorem euler_accessor_partial : forall q, unit q ->
  1 / 100000 < cos (asin (- qmat q 2%nat 0%nat)) \/ cos (asin (- qmat q 2%nat 0%nat)) = 0 ->
  forall v, mv3 (seq_rotation XYZ (euler_angles q)) v = qrot q v.
Proof.
  intros q H Hb v. rewrite (qrot_mat _ v H).
  assert (E : meq 3 3 (qmat q) (seq_rotation XYZ (euler_angles q))).
  { destruct Hb as [Hb|Hb]; [apply euler_regular|apply euler_locked]; assumption. }
  unfold mv3. rewrite !E by lia. reflexivity.
Qed.
Print Assumptions euler_accessor_partial.

(** both accessors give the same matrix where both are exact *)
Theorem euler_accessors_agree : forall q, unit q ->
  1 / 100000 < cos (asin (- qmat q 2%nat 0%nat)) -> Rabs (vy (euler_angles_seq XYZ q)) < PI / 2 ->
  meq 3 3 (seq_rotation XYZ (euler_angles q)) (seq_rotation XYZ (euler_angles_seq XYZ q)).
Proof.
  intros q H H1 H2. eapply meq_trans; [apply meq_sym, euler_regular; assumption|].
  apply euler_seq_regular; assumption.
Qed.
Print Assumptions euler_accessors_agree.

(** beside gimbal lock an angle is dropped *)
Theorem euler_near_lock_refuted : exists q, unit q /\
  ~ meq 3 3 (qmat q) (seq_rotation XYZ (euler_angles q)).
Proof.
  set (t := acos (1 / 100000)).
  assert (Hc : cos t = 1 / 100000) by (apply cos_acos; lra).
  exists (qmul (axis_quat CY t) (axis_quat CX (PI / 2))).
  assert (HU : unit (qmul (axis_quat CY t) (axis_quat CX (PI / 2)))) by (apply unit_mul; apply axis_quat_unit).
  assert (HM : meq 3 3 (qmat (qmul (axis_quat CY t) (axis_quat CX (PI / 2))))
                 (mmul 3 (axis_rotation CY t) (axis_rotation CX (PI / 2)))).
  { eapply meq_trans; [apply qmat_mul; apply axis_quat_unit|].
    apply mmul_ext; apply axis_quat_mat. }
  split; [exact HU|].
  assert (E20 := HM 2%nat 0%nat ltac:(lia) ltac:(lia)). assert (E21 := HM 2%nat 1%nat ltac:(lia) ltac:(lia)).
  set (q := qmul _ _) in *. clearbody q.
  unfold mmul, axis_rotation in E20, E21. cbn -[qmat] in E20, E21. rewrite cos_PI2, sin_PI2 in *.
  apply euler_near_lock; [exact HU| |].
  - rewrite E20. replace (- (0 + - sin t * 1 + 0 * 0 + cos t * 0)) with (sin t) by ring.
    destruct (cos_asin_nonneg (sin t)) as [P1 P2]; [apply SIN_bound|].
    pose proof (sin2_cos2 t) as P. unfold Rsqr in P. rewrite Hc in P.
    set (c := cos (asin (sin t))) in *. apply Rnot_lt_le. intros N. nra.
  - rewrite E21, Hc. lra.
Qed.
Print Assumptions euler_near_lock_refuted.
