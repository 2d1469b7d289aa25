(** Hand-eye calibration with dual quaternions, DualQuaternion.cpp (C91, C92). *)
From Coq Require Import Reals Lra Lia List Arith.
Import ListNotations.
From Verif Require Import Mat Quat QuatProofs LinAlg HandEye HandEyeProofs HandEyeProps.
Open Scope R_scope.

(** a pose is determined up to the sign of its quaternion *)
Definition same_pose (p q : pose) : Prop := tra p = tra q /\ (rot p = rot q \/ rot p = qopp (rot q)).
(** X takes every hand pose to the same place, as quaternions *)
Definition hand_eye_exact (eyes hands : list pose) (X : pose) : Prop :=
  forall j k, (j < k < length eyes)%nat ->
    pmul (pmul (nth j eyes pone) X) (nth j hands pone) = pmul (pmul (nth k eyes pone) X) (nth k hands pone).
Definition motions_matrix (eyes hands : list pose) : mat :=
  he_matrix (map dq_of_pose (relative_all true eyes)) (map dq_of_pose (relative_all false hands)).
Definition motions_rows (eyes : list pose) : nat := (6 * length (relative_all true eyes))%nat.
(** the singular value decomposition is right where it is used *)
Definition svd_correct (svd : svd8_oracle) (rows : nat) (A : mat) : Prop :=
  forall s vt, svd rows A = Some (s, vt) -> svd8_contract rows A s vt.

Lemma exact_kernel eyes hands X : length eyes = length hands -> Forall rigid eyes -> Forall rigid hands -> rigid X ->
  hand_eye_exact eyes hands X ->
  (forall i, (i < motions_rows eyes)%nat -> mvec 8 (motions_matrix eyes hands) (vec8 (dq_of_pose X)) i = 0) /\
  (forall i, (i < motions_rows eyes)%nat -> mvec 8 (motions_matrix eyes hands) (vec8 (dq_eps (dq_of_pose X))) i = 0).
Proof.
  intros L RE RH RX EX. assert (M := proj2 (hand_eye_motions eyes hands X L RE RH RX) EX).
  assert (LL := forall2_length _ _ _ M). unfold motions_matrix, motions_rows.
  assert (LM : length (map dq_of_pose (relative_all true eyes)) = length (map dq_of_pose (relative_all false hands))) by (rewrite !map_length; exact LL).
  assert (B : forall k i, (k < length (map dq_of_pose (relative_all true eyes)))%nat -> (i < 6)%nat ->
    mvec 8 (he_block (nth k (map dq_of_pose (relative_all true eyes)) dq0) (nth k (map dq_of_pose (relative_all false hands)) dq0)) (vec8 (dq_of_pose X)) i = 0 /\
    mvec 8 (he_block (nth k (map dq_of_pose (relative_all true eyes)) dq0) (nth k (map dq_of_pose (relative_all false hands)) dq0)) (vec8 (dq_eps (dq_of_pose X))) i = 0).
  { intros k i Hk Hi. rewrite map_length in Hk.
    rewrite (nth_indep _ dq0 (dq_of_pose pone)), (nth_indep _ dq0 (dq_of_pose pone)) by (rewrite map_length; lia).
    rewrite !map_nth. apply block_kernel; [apply dq_of_pose_unit, RX| |exact Hi].
    rewrite Forall_forall in RE, RH.
    assert (RA : rigid (nth k (relative_all true eyes) pone)).
    { assert (F := relative_all_Forall true rigid eyes (fun p q Hp Hq => relative_rigid true p q (RE p Hp) (RE q Hq))).
      rewrite Forall_forall in F. apply F, nth_In, Hk. }
    rewrite <- !dq_of_pmul by assumption. f_equal.
    clear -M Hk. revert k Hk. induction M as [|a b la lb H M IH]; intros k Hk; [cbn in Hk; lia|].
    destruct k as [|k]; [exact H|]. cbn [nth length] in *. apply IH. lia. }
  split; rewrite <- (map_length dq_of_pose); apply (he_matrix_rows _ _ _ LM); intros k i Hk Hi; apply (B k i Hk Hi).
Qed.

(** what the solver does with a kernel that contains X and e X *)
Lemma solver_on_kernel svd la lb s vt X :
  svd (6 * length la)%nat (he_matrix la lb) = Some (s, vt) -> svd8_contract (6 * length la) (he_matrix la lb) s vt -> dq_unit X ->
  (forall i, (i < 6 * length la)%nat -> mvec 8 (he_matrix la lb) (vec8 X) i = 0) ->
  (forall i, (i < 6 * length la)%nat -> mvec 8 (he_matrix la lb) (vec8 (dq_eps X)) i = 0) ->
  (s 5%nat < 1 / 100 -> he_dual svd la lb = Failed) /\
  (1 / 100 <= s 5%nat -> qdot (quad_of_row vt 6 0) (quad_of_row vt 6 4) = 0 -> he_dual svd la lb = Failed) /\
  (1 / 100 <= s 5%nat -> qdot (quad_of_row vt 6 0) (quad_of_row vt 6 4) <> 0 ->
    exists p, he_dual svd la lb = Found p /\ same_pose p (pose_of_dq X)).
Proof.
  intros ES C UX K1 K2. unfold he_dual. rewrite ES. cbv zeta.
  split; [intros H; destruct (Rlt_dec _ _); [reflexivity|]; destruct (Rlt_dec _ _); [reflexivity|]; destruct (Rlt_dec (s 5%nat) (1/100)); [reflexivity|lra]|].
  assert (G : 1 / 100 <= s 5%nat -> s 6%nat = 0 /\ s 7%nat = 0 /\
    (qdot (quad_of_row vt 6 0) (quad_of_row vt 6 4) = 0 -> combine (quad_of_row vt 6 0) (quad_of_row vt 6 4) (quad_of_row vt 7 0) (quad_of_row vt 7 4) = Failed) /\
    (qdot (quad_of_row vt 6 0) (quad_of_row vt 6 4) <> 0 -> exists e, (e = 1 \/ e = -1) /\
      combine (quad_of_row vt 6 0) (quad_of_row vt 6 4) (quad_of_row vt 7 0) (quad_of_row vt 7 4) = Found (pose_of_dq (DQ (qscale e (dre X)) (qscale e (ddu X)))))).
  { intros H5. destruct (svd8_kernel _ _ _ _ _ C ltac:(lra) K1) as (c6 & c7 & E1). destruct (svd8_kernel _ _ _ _ _ C ltac:(lra) K2) as (d6 & d7 & E2).
    destruct (svd8_residual _ _ _ _ _ _ _ C E1) as [Z1 _]. destruct (svd8_residual _ _ _ _ _ _ _ C E2) as [Z2 _].
    assert (V : forall x, (forall i, (i < 6 * length la)%nat -> mvec 8 (he_matrix la lb) x i = 0) ->
      vdot (6 * length la) (mvec 8 (he_matrix la lb) x) (mvec 8 (he_matrix la lb) x) = 0).
    { intros x K. transitivity (vdot (6 * length la) (fun _ => 0) (fun _ => 0)); [apply vdot_ext; intros i Hi; apply K, Hi|].
      unfold vdot. generalize (6 * length la)%nat as n. induction n as [|n IH]; cbn; [reflexivity|rewrite IH; ring]. }
    rewrite (V _ K1) in Z1. rewrite (V _ K2) in Z2.
    assert (N := two_kernel_vectors X (row_dq vt 6) (row_dq vt 7) c6 c7 d6 d7 (proj1 UX) (vec8_lin _ _ _ _ E1) (vec8_lin _ _ _ _ E2)).
    assert (SQ : forall a b, 0 = a * a + b * b -> a = 0 /\ b = 0) by (intros; split; nra).
    destruct (SQ _ _ Z1) as [A1 A2]. destruct (SQ _ _ Z2) as [B1 B2].
    split; [|split].
    - destruct (Req_dec (s 6%nat) 0) as [|S6]; [assumption|]. exfalso. apply N.
      apply Rmult_integral in A1. apply Rmult_integral in B1. destruct A1 as [|A1]; [contradiction|]. destruct B1 as [|B1]; [contradiction|]. rewrite A1, B1. ring.
    - destruct (Req_dec (s 7%nat) 0) as [|S7]; [assumption|]. exfalso. apply N.
      apply Rmult_integral in A2. apply Rmult_integral in B2. destruct A2 as [|A2]; [contradiction|]. destruct B2 as [|B2]; [contradiction|]. rewrite A2, B2. ring.
    - exact (kernel_combine X (row_dq vt 6) (row_dq vt 7) c6 c7 d6 d7 UX (vec8_lin _ _ _ _ E1) (vec8_lin _ _ _ _ E2)). }
  split; intros H5 A; destruct (G H5) as (S6 & S7 & G1 & G2);
    (destruct (Rlt_dec (1/100) (s 7%nat)); [lra|]; destruct (Rlt_dec (1/100) (s 6%nat)); [lra|]; destruct (Rlt_dec (s 5%nat) (1/100)); [lra|]).
  - exact (G1 A).
  - destruct (G2 A) as (e & He & E). rewrite E. eexists. split; [reflexivity|].
    unfold same_pose, pose_of_dq. cbn [rot tra dre ddu]. split.
    + assert (EE : e * e = 1) by (destruct He as [-> | ->]; ring).
      assert (T : qmul (qscale e (ddu X)) (qconj (qscale e (dre X))) = qmul (ddu X) (qconj (dre X))).
      { transitivity (qscale (e * e) (qmul (ddu X) (qconj (dre X)))); [apply quat_ext; cbn; ring|rewrite EE; apply quat_ext; cbn; ring]. }
      rewrite T. reflexivity.
    + destruct He as [-> | ->]; [left|right]; apply quat_ext; cbn; ring.
Qed.

(** * C91: exact data *)
(** on exact data the answer is never wrong: the true pose, or none *)
Theorem dual_quaternion_sound svd eyes hands X : length eyes = length hands -> Forall rigid eyes -> Forall rigid hands -> rigid X ->
  hand_eye_exact eyes hands X -> svd_correct svd (motions_rows eyes) (motions_matrix eyes hands) ->
  he_estimate svd eyes hands = Failed \/ exists p, he_estimate svd eyes hands = Found p /\ same_pose p X.
Proof.
  intros L RE RH RX EX SC. unfold svd_correct in SC. destruct (exact_kernel eyes hands X L RE RH RX EX) as [K1 K2].
  unfold he_estimate. unfold motions_rows, motions_matrix in *. rewrite <- (map_length dq_of_pose) in SC, K1, K2.
  set (la := map dq_of_pose (relative_all true eyes)) in *. set (lb := map dq_of_pose (relative_all false hands)) in *.
  destruct (svd (6 * length la)%nat (he_matrix la lb)) as [[s vt]|] eqn:ES; [|left; unfold he_dual; rewrite ES; reflexivity].
  destruct (solver_on_kernel svd la lb s vt (dq_of_pose X) ES (SC s vt eq_refl) (dq_of_pose_unit X RX) K1 K2) as (F1 & F2 & F3).
  destruct (Rlt_dec (s 5%nat) (1/100)) as [H5|H5]; [left; apply F1, H5|].
  destruct (Req_dec (qdot (quad_of_row vt 6 0) (quad_of_row vt 6 4)) 0) as [A|A]; [left; apply F2; [lra|exact A]|].
  right. destruct (F3 ltac:(lra) A) as (p & E & S). exists p. split; [exact E|]. rewrite pose_of_dq_of_pose in S by exact RX. exact S.
Qed.
(** and it is found exactly when the sixth singular value is not small and the real and dual part
    of the seventh right singular vector are not orthogonal *)
Theorem dual_quaternion_complete svd eyes hands X s vt : length eyes = length hands -> Forall rigid eyes -> Forall rigid hands -> rigid X ->
  hand_eye_exact eyes hands X ->
  svd (motions_rows eyes) (motions_matrix eyes hands) = Some (s, vt) -> svd8_contract (motions_rows eyes) (motions_matrix eyes hands) s vt ->
  ((exists p, he_estimate svd eyes hands = Found p) <->
   1 / 100 <= s 5%nat /\ vt 6%nat 0%nat * vt 6%nat 4%nat + vt 6%nat 1%nat * vt 6%nat 5%nat + vt 6%nat 2%nat * vt 6%nat 6%nat + vt 6%nat 3%nat * vt 6%nat 7%nat <> 0).
Proof.
  intros L RE RH RX EX ES SC. destruct (exact_kernel eyes hands X L RE RH RX EX) as [K1 K2].
  unfold he_estimate. unfold motions_rows, motions_matrix in *. rewrite <- (map_length dq_of_pose) in ES, SC, K1, K2.
  set (la := map dq_of_pose (relative_all true eyes)) in *. set (lb := map dq_of_pose (relative_all false hands)) in *.
  destruct (solver_on_kernel svd la lb s vt (dq_of_pose X) ES SC (dq_of_pose_unit X RX) K1 K2) as (F1 & F2 & F3).
  assert (EQ : qdot (quad_of_row vt 6 0) (quad_of_row vt 6 4) =
    vt 6%nat 0%nat * vt 6%nat 4%nat + vt 6%nat 1%nat * vt 6%nat 5%nat + vt 6%nat 2%nat * vt 6%nat 6%nat + vt 6%nat 3%nat * vt 6%nat 7%nat).
  { unfold qdot, quad_of_row. cbn [qx qy qz qw Nat.add]. ring. }
  rewrite EQ in *. split.
  - intros (p & E). split.
    + apply Rnot_lt_le. intros H. rewrite (F1 H) in E. discriminate.
    + intros A. destruct (Rlt_dec (s 5%nat) (1/100)) as [H|H]; [rewrite (F1 H) in E|rewrite (F2 ltac:(lra) A) in E]; discriminate.
  - intros [H A]. destruct (F3 H A) as (p & E & _). exists p. exact E.
Qed.

(** ** any data: what is accepted is a rigid pose that satisfies the equations up to the threshold *)
Theorem dual_quaternion_accuracy svd eyes hands p : svd_correct svd (motions_rows eyes) (motions_matrix eyes hands) ->
  he_estimate svd eyes hands = Found p ->
  rigid p /\
  vdot (motions_rows eyes) (mvec 8 (motions_matrix eyes hands) (vec8 (dq_of_pose p))) (mvec 8 (motions_matrix eyes hands) (vec8 (dq_of_pose p)))
    <= 1 / 10000 * vdot 8 (vec8 (dq_of_pose p)) (vec8 (dq_of_pose p)).
Proof.
  unfold he_estimate, svd_correct, motions_rows, motions_matrix. rewrite <- (map_length dq_of_pose).
  set (la := map dq_of_pose (relative_all true eyes)). set (lb := map dq_of_pose (relative_all false hands)). intros SC. unfold he_dual.
  destruct (svd (6 * length la)%nat (he_matrix la lb)) as [[s vt]|]; [|discriminate]. specialize (SC s vt eq_refl). cbv zeta.
  destruct (Rlt_dec (1/100) (s 7%nat)) as [|H7]; [discriminate|]. destruct (Rlt_dec (1/100) (s 6%nat)) as [|H6]; [discriminate|].
  destruct (Rlt_dec (s 5%nat) (1/100)) as [|H5]; [discriminate|]. intros E.
  destruct (combine_unit _ _ _ _ _ E) as (c6 & c7 & UX & ->). cbv zeta in UX.
  set (X := DQ _ _) in *.
  assert (LX : X = dq_lin c6 (row_dq vt 6) c7 (row_dq vt 7)) by reflexivity.
  split; [exact (proj1 UX)|]. rewrite dq_of_pose_of_dq by exact UX.
  destruct (svd8_residual _ _ _ _ _ c6 c7 SC (vec8_lin_iff _ _ _ _ LX)) as [R1 R2]. rewrite R1, R2.
  destruct SC as (_ & _ & _ & DS). pose proof (DS 6%nat 6%nat ltac:(lia)). pose proof (DS 7%nat 7%nat ltac:(lia)).
  assert (Q6 : s 6%nat * s 6%nat <= 1 / 10000) by nra. assert (Q7 : s 7%nat * s 7%nat <= 1 / 10000) by nra.
  pose proof (Rle_0_sqr c6) as N6. pose proof (Rle_0_sqr c7) as N7. unfold Rsqr in N6, N7.
  assert (s 6%nat * s 6%nat * (c6 * c6) <= 1 / 10000 * (c6 * c6)) by (apply Rmult_le_compat_r; assumption).
  assert (s 7%nat * s 7%nat * (c7 * c7) <= 1 / 10000 * (c7 * c7)) by (apply Rmult_le_compat_r; assumption). lra.
Qed.

(** * C91: motions about one axis do not determine X and are rejected *)
Lemma block_kernel_any a b Y : qw (dre a) = qw (dre b) -> qw (ddu a) = qw (ddu b) -> dq_mul a Y = dq_mul Y b ->
  forall i, (i < 6)%nat -> mvec 8 (he_block a b) (vec8 Y) i = 0.
Proof.
  intros W1 W2 E i Hi. rewrite he_block_residual by assumption. unfold he_residual.
  assert (E1 : qmul (dre a) (dre Y) = qmul (dre Y) (dre b)) by exact (f_equal dre E).
  rewrite E, E1. assert (Z : forall q, qsub q q = Q 0 0 0 0) by (intros q; apply quat_ext; cbn; ring). rewrite !Z.
  idx i Hi; reflexivity.
Qed.
Lemma three_kernel_vectors X r6 r7 n c6 c7 d6 d7 f6 f7 : unit (dre X) -> dot3 n n = 1 ->
  X = dq_lin c6 r6 c7 r7 -> dq_eps X = dq_lin d6 r6 d7 r7 ->
  DQ (Q 0 0 0 0) (qmul (imag n) (dre X)) = dq_lin f6 r6 f7 r7 -> False.
Proof.
  intros U UN E1 E2 E3. set (q := dre X) in *. set (y := qmul (imag n) q) in *.
  assert (UI : unit (imag n)) by (unfold unit, qnorm; unfold dot3 in UN; cbn; lra).
  assert (UY : unit y) by (apply unit_mul; assumption).
  assert (OY : qdot q y = 0) by (unfold y, qdot; destruct q, n; cbn; ring).
  assert (LIN : forall a b, dq_lin a (dq_eps X) b (DQ (Q 0 0 0 0) y) = DQ (Q 0 0 0 0) (qadd (qscale a q) (qscale b y))).
  { intros a b. unfold dq_lin, dq_eps. cbn [dre ddu]. f_equal. apply quat_ext; cbn; ring. }
  set (D := d6 * f7 - d7 * f6).
  assert (L6 : dq_lin f7 (dq_eps X) (- d7) (DQ (Q 0 0 0 0) y) = dq_lin D r6 0 r6).
  { rewrite E2, E3. unfold D, dq_lin. cbn [dre ddu]. f_equal; apply quat_ext; cbn; ring. }
  assert (L7 : dq_lin f6 (dq_eps X) (- d6) (DQ (Q 0 0 0 0) y) = dq_lin (- D) r7 0 r6).
  { rewrite E2, E3. unfold D, dq_lin. cbn [dre ddu]. f_equal; apply quat_ext; cbn; ring. }
  rewrite LIN in L6, L7.
  assert (IND : forall a b, qadd (qscale a q) (qscale b y) = Q 0 0 0 0 -> a = 0 /\ b = 0).
  { intros a b E. assert (HQ : qdot q (qadd (qscale a q) (qscale b y)) = a).
    { transitivity (a * qnorm q + b * qdot q y); [unfold qnorm, qdot; cbn; ring|rewrite U, OY; ring]. }
    assert (HY : qdot y (qadd (qscale a q) (qscale b y)) = b).
    { transitivity (b * qnorm y + a * qdot q y); [unfold qnorm, qdot; cbn; ring|rewrite UY, OY; ring]. }
    rewrite E in HQ, HY. unfold qdot in HQ, HY. cbn in HQ, HY. split; lra. }
  assert (N0 : forall r, dq_lin 0 r 0 r6 = DQ (Q 0 0 0 0) (Q 0 0 0 0)).
  { intros r. unfold dq_lin. f_equal; apply quat_ext; cbn; ring. }
  destruct (Req_dec D 0) as [D0|D0].
  - rewrite D0 in L6, L7. rewrite Ropp_0 in L7. rewrite N0 in L6, L7.
    destruct (IND f7 (- d7)) as [_ Z7]; [congruence|]. destruct (IND f6 (- d6)) as [_ Z6]; [congruence|].
    assert (Z : dq_eps X = DQ (Q 0 0 0 0) (Q 0 0 0 0)).
    { rewrite E2. replace d6 with 0 by lra. replace d7 with 0 by lra. unfold dq_lin. f_equal; apply quat_ext; cbn; ring. }
    assert (QZ : q = Q 0 0 0 0) by exact (f_equal ddu Z). rewrite QZ in U. unfold unit, qnorm in U. cbn in U. lra.
  - assert (R6 : dre r6 = Q 0 0 0 0).
    { assert (H := f_equal dre L6). unfold dq_lin in H. cbn [dre] in H.
      transitivity (qscale (/ D) (qadd (qscale D (dre r6)) (qscale 0 (dre r6)))); [apply quat_ext; cbn; field; exact D0|].
      rewrite <- H. apply quat_ext; cbn; ring. }
    assert (R7 : dre r7 = Q 0 0 0 0).
    { assert (H := f_equal dre L7). unfold dq_lin in H. cbn [dre] in H.
      transitivity (qscale (- / D) (qadd (qscale (- D) (dre r7)) (qscale 0 (dre r6)))); [apply quat_ext; cbn; field; exact D0|].
      rewrite <- H. apply quat_ext; cbn; ring. }
    assert (QZ : q = Q 0 0 0 0).
    { unfold q. rewrite E1. unfold dq_lin. cbn [dre]. rewrite R6, R7. apply quat_ext; cbn; ring. }
    rewrite QZ in U. unfold unit, qnorm in U. cbn in U. lra.
Qed.
(** if all eye motions turn about one axis n (or do not turn), the calibration reports failure *)
Theorem single_axis_rejected svd eyes hands X n : length eyes = length hands -> Forall rigid eyes -> Forall rigid hands -> rigid X ->
  hand_eye_exact eyes hands X -> svd_correct svd (motions_rows eyes) (motions_matrix eyes hands) ->
  dot3 n n = 1 ->
  Forall (fun a => exists c, V3 (qx (rot a)) (qy (rot a)) (qz (rot a)) = v3scale c n) (relative_all true eyes) ->
  he_estimate svd eyes hands = Failed.
Proof.
  intros L RE RH RX EX SC UN AX. unfold svd_correct in SC. destruct (exact_kernel eyes hands X L RE RH RX EX) as [K1 K2].
  assert (M := proj2 (hand_eye_motions eyes hands X L RE RH RX) EX).
  assert (LL := forall2_length _ _ _ M).
  assert (K3 : forall i, (i < motions_rows eyes)%nat -> mvec 8 (motions_matrix eyes hands) (vec8 (DQ (Q 0 0 0 0) (qmul (imag n) (rot X)))) i = 0).
  { unfold motions_rows, motions_matrix. rewrite <- (map_length dq_of_pose). apply he_matrix_rows; [rewrite !map_length; exact LL|].
    intros k i Hk Hi. rewrite map_length in Hk.
    rewrite (nth_indep _ dq0 (dq_of_pose pone)), (nth_indep _ dq0 (dq_of_pose pone)) by (rewrite map_length; lia). rewrite !map_nth.
    rewrite Forall_forall in RE, RH, AX.
    assert (RA : rigid (nth k (relative_all true eyes) pone)).
    { assert (F := relative_all_Forall true rigid eyes (fun p q Hp Hq => relative_rigid true p q (RE p Hp) (RE q Hq))).
      rewrite Forall_forall in F. apply F, nth_In, Hk. }
    destruct (AX _ (nth_In _ pone Hk)) as (c & EC).
    assert (EM : pmul (nth k (relative_all true eyes) pone) X = pmul X (nth k (relative_all false hands) pone)).
    { clear -M Hk. revert k Hk. induction M as [|a b la lb H M IH]; intros k Hk; [cbn in Hk; lia|].
      destruct k as [|k]; [exact H|]. cbn [nth length] in *. apply IH. lia. }
    set (a := nth k (relative_all true eyes) pone) in *. set (b := nth k (relative_all false hands) pone) in *.
    assert (ED : dq_mul (dq_of_pose a) (dq_of_pose X) = dq_mul (dq_of_pose X) (dq_of_pose b)) by (rewrite <- !dq_of_pmul by assumption; rewrite EM; reflexivity).
    destruct (conjugate_real_parts _ _ _ (dq_of_pose_unit X RX) ED) as [W1 W2].
    apply block_kernel_any; [exact W1|exact W2| |exact Hi].
    assert (ER : qmul (rot a) (rot X) = qmul (rot X) (rot b)) by exact (f_equal rot EM).
    assert (CM : qmul (rot a) (imag n) = qmul (imag n) (rot a)).
    { assert (X1 := f_equal vx EC). assert (X2 := f_equal vy EC). assert (X3 := f_equal vz EC). cbn in X1, X2, X3.
      apply quat_ext; cbn; rewrite X1, X2, X3; ring. }
    unfold dq_mul. cbn [dre ddu dq_of_pose]. f_equal; [apply quat_ext; cbn; ring|].
    assert (EQ : qmul (rot a) (qmul (imag n) (rot X)) = qmul (qmul (imag n) (rot X)) (rot b)).
    { rewrite qmul_assoc, CM, <- !qmul_assoc, ER. reflexivity. }
    rewrite EQ. apply quat_ext; cbn; ring. }
  unfold he_estimate. unfold motions_rows, motions_matrix in *. rewrite <- (map_length dq_of_pose) in SC, K1, K2, K3.
  set (la := map dq_of_pose (relative_all true eyes)) in *. set (lb := map dq_of_pose (relative_all false hands)) in *.
  destruct (svd (6 * length la)%nat (he_matrix la lb)) as [[s vt]|] eqn:ES; [|unfold he_dual; rewrite ES; reflexivity].
  specialize (SC s vt eq_refl).
  destruct (solver_on_kernel svd la lb s vt (dq_of_pose X) ES SC (dq_of_pose_unit X RX) K1 K2) as (F1 & _ & _). apply F1.
  apply Rnot_le_lt. intros H5.
  destruct (svd8_kernel _ _ _ _ _ SC ltac:(lra) K1) as (c6 & c7 & E1). destruct (svd8_kernel _ _ _ _ _ SC ltac:(lra) K2) as (d6 & d7 & E2).
  destruct (svd8_kernel _ _ _ _ _ SC ltac:(lra) K3) as (f6 & f7 & E3).
  exact (three_kernel_vectors (dq_of_pose X) (row_dq vt 6) (row_dq vt 7) n c6 c7 d6 d7 f6 f7 RX UN (vec8_lin _ _ _ _ E1) (vec8_lin _ _ _ _ E2) (vec8_lin _ _ _ _ E3)).
Qed.

Print Assumptions dual_quaternion_sound.
Print Assumptions dual_quaternion_complete.
Print Assumptions dual_quaternion_accuracy.
Print Assumptions single_axis_rejected.
