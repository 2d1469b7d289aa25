(** Properties of the pose filter, continued: prediction, sign of measured quaternions, and the
    orientation filter (C84-C86). *)
From Coq Require Import Reals Lra Lia Bool Arith ZArith List Setoid Morphisms FunctionalExtensionality.
Import ListNotations.
From Verif Require Import Mat MatSetoid MatPd Quat QuatProofs QuatProps CovTransform CovTransformProofs CovTransformProps
  QuatMatProofs Jacobians JacobiansProofs ErrorPose ErrorPoseCovProofs Kalman KalmanProofs KalmanProps TimeUpdate TimeUpdateProofs TimeUpdateProps
  TimeUpdateRotProps PoseFilter PoseFilterProofs PoseFilterProps.
Open Scope R_scope.

(** ** C85: sign of the measured quaternion in a pose *)
Definition negated (m : epose) : epose := EP (P (qopp (rot (ep m))) (tra (ep m))) (cov m).
Definition sg (i : nat) : R := if (i <? 3)%nat then 1 else -1.

Lemma negated_cov m : symm 6 (cov m) -> forall i j, (i < 7)%nat -> (j < 7)%nat ->
  covariance (to_additive (negated m)) i j = sg i * sg j * covariance (to_additive m) i j.
Proof.
  intros S i j Hi Hj. rewrite (to_additive_cov (negated m) S i j Hi Hj), (to_additive_cov m S i j Hi Hj).
  cbn [negated ep cov rot]. set (C := pad7 (cov m)).
  set (B := block_map (conv_jac (rot (ep m))) 3 7 3 7).
  set (B' := block_map (conv_jac (qopp (rot (ep m)))) 3 7 3 7).
  assert (E : forall i l, (i < 7)%nat -> B' i l = sg i * B i l).
  { intros a l Ha. unfold B, B', block_map, sg.
    destruct (Nat.leb_spec 3 a); destruct (Nat.ltb_spec a 7); destruct (Nat.ltb_spec a 3); try lia; cbn [andb]; [|ring].
    destruct (Nat.leb_spec 3 l); destruct (Nat.ltb_spec l 7); cbn [andb]; try ring.
    assert (Ha' : (a - 3 < 4)%nat) by lia. assert (Hl' : (l - 3 < 4)%nat) by lia.
    set (a' := (a - 3)%nat) in *. set (l' := (l - 3)%nat) in *. clearbody a' l'.
    idx a' Ha'; idx l' Hl'; unfold conv_jac, mlist, qopp; cbn [nth qx qy qz qw]; ring. }
  unfold sandwich, mmul, tr. rewrite <- sum_scal_l. apply sum_ext. intros k Hk.
  rewrite (E j k Hj). replace (sum 7 (fun l => B' i l * C l k)) with (sg i * sum 7 (fun l => B i l * C l k)); [ring|].
  rewrite <- sum_scal_l. apply sum_ext. intros l Hl. rewrite (E i l Hi). ring.
Qed.

Lemma conv_row_zero r y : unit r -> (forall k, (k < 4)%nat -> sum 4 (fun l => conv_jac r k l * y l) = 0) ->
  forall k, (k < 4)%nat -> y k = 0.
Proof.
  intros U H k Hk.
  assert (E : sum 4 (fun j => conv_jac r j k * sum 4 (fun l => conv_jac r j l * y l)) = qnorm r * y k).
  { unfold conv_jac, mlist, qnorm. idx k Hk; cbn [sum nth]; ring. }
  rewrite sum_zero in E by (intros j Hj; rewrite (H j Hj); ring).
  unfold unit in U. rewrite U in E. lra.
Qed.

(** The value handed to the measurement update does not depend on the sign, but the covariance
    does: it is the same exactly for poses whose position and orientation errors are
    uncorrelated. *)
Theorem pose_sign_measurement m ref : rigid (ep m) -> symm 6 (cov m) ->
  vdot 4 ref (to4 (rot (ep m))) <> 0 ->
  let v := negate_rotation 3 ref (to_additive m) in
  let v' := negate_rotation 3 ref (to_additive (negated m)) in
  veq 7 (value v) (value v') /\
  (meq 7 7 (covariance v) (covariance v') <->
   forall i j, (i < 3)%nat -> (3 <= j < 6)%nat -> cov m i j = 0).
Proof.
  intros U S H v v'.
  pose proof (to_additive_value m) as TV. pose proof (to_additive_value (negated m)) as TV'.
  assert (D : vdot 4 ref (vsub_range (value (to_additive m)) 3) = vdot 4 ref (to4 (rot (ep m)))).
  { unfold vdot. apply sum_ext. intros k Hk. unfold vsub_range. rewrite TV by lia.
    idx k Hk; reflexivity. }
  assert (D' : vdot 4 ref (vsub_range (value (to_additive (negated m))) 3) = - vdot 4 ref (to4 (rot (ep m)))).
  { unfold vdot. rewrite <- sum_opp. apply sum_ext. intros k Hk. unfold vsub_range. rewrite TV' by lia.
    idx k Hk; unfold pose_to_vector, negated, qopp, to4, vlist; cbn; ring. }
  split.
  - intros i Hi. unfold v, v', negate_rotation. rewrite D, D'.
    set (d := vdot 4 ref (to4 (rot (ep m)))) in *.
    assert (N : forall x, (i < 7)%nat -> vset_range x 3 (3 + 4) (vscale (-1) (vsub_range x 3)) i = if (i <? 3)%nat then x i else - x i).
    { intros x _. destruct (Nat.ltb_spec i 3).
      - apply vset_out. unfold inr. lia.
      - rewrite vset_in by (unfold inr; lia). unfold vscale, vsub_range. replace (3 + (i - 3))%nat with i by lia. ring. }
    assert (X : pose_to_vector (ep (negated m)) i = if (i <? 3)%nat then pose_to_vector (ep m) i else - pose_to_vector (ep m) i).
    { idx i Hi; unfold negated, pose_to_vector, qopp; cbn; reflexivity. }
    destruct (Rlt_dec d 0) as [L|L], (Rlt_dec (- d) 0) as [L'|L']; cbn [value]; try (exfalso; lra).
    + rewrite (N _ Hi), (TV' i Hi), (TV i Hi), X. reflexivity.
    + rewrite (N _ Hi), (TV' i Hi), (TV i Hi), X. destruct (i <? 3)%nat; ring.
  - unfold v, v'. rewrite !negate_cov.
    pose proof (to_additive_cov m S) as TC. set (B := block_map (conv_jac (rot (ep m))) 3 7 3 7) in TC.
    assert (R : forall i k, (i < 3)%nat -> (k < 4)%nat ->
       covariance (to_additive m) i (3 + k)%nat = sum 4 (fun l => conv_jac (rot (ep m)) k l * pad7 (cov m) i (3 + l)%nat)).
    { intros i k Hi Hk. rewrite (TC i (3 + k)%nat) by lia.
      unfold sandwich, mmul, tr, B, block_map, eye. idx i Hi; idx k Hk;
        cbn [sum Nat.leb Nat.ltb andb Nat.eqb Nat.sub Nat.add]; ring. }
    split.
    + intros E i j Hi Hj.
      assert (Z : forall k, (k < 4)%nat -> covariance (to_additive m) i (3 + k)%nat = 0).
      { intros k Hk. pose proof (E i (3 + k)%nat ltac:(lia) ltac:(lia)) as Ek.
        rewrite (negated_cov m S i (3 + k)%nat) in Ek by lia. unfold sg in Ek.
        destruct (Nat.ltb_spec i 3); [|lia]. destruct (Nat.ltb_spec (3 + k) 3); [lia|]. lra. }
      pose proof (conv_row_zero (rot (ep m)) (fun l => pad7 (cov m) i (3 + l)%nat) U
        ltac:(intros k Hk; cbn beta; rewrite <- (R i k Hi Hk); apply Z, Hk) (j - 3)%nat ltac:(lia)) as G.
      cbn beta in G. replace (3 + (j - 3))%nat with j in G by lia.
      unfold pad7 in G. destruct (Nat.eqb_spec i 6); [lia|]. destruct (Nat.eqb_spec j 6); [lia|]. exact G.
    + intros Z i j Hi Hj. rewrite (negated_cov m S i j Hi Hj).
      assert (Zp : forall i k, (i < 3)%nat -> (k < 4)%nat -> covariance (to_additive m) i (3 + k)%nat = 0).
      { intros i' k Hi' Hk. rewrite (R i' k Hi' Hk). apply sum_zero. intros l Hl. unfold pad7.
        destruct (Nat.eqb_spec i' 6); [lia|]. destruct (Nat.eqb_spec (3 + l) 6); cbn [andb orb]; [ring|].
        rewrite Z by lia. ring. }
      assert (SY : symm 7 (covariance (to_additive m))).
      { apply (symm_ext 7 _ _ (meq_sym _ _ _ _ TC)), symm_sandwich, pad7_symm, S. }
      unfold sg. destruct (Nat.ltb_spec i 3) as [Li|Li], (Nat.ltb_spec j 3) as [Lj|Lj]; try ring.
      * replace j with (3 + (j - 3))%nat by lia. rewrite Zp by lia. ring.
      * rewrite (SY i j Hi Hj). replace i with (3 + (i - 3))%nat by lia. rewrite Zp by lia. ring.
Qed.

(** hence the result of a correlated pose measurement depends on the sign of its quaternion *)
Theorem pose_sign_refuted : exists m ref, rigid (ep m) /\ symm 6 (cov m) /\ pd 6 (cov m) /\
  vdot 4 ref (to4 (rot (ep m))) <> 0 /\
  ~ meq 7 7 (covariance (negate_rotation 3 ref (to_additive m)))
            (covariance (negate_rotation 3 ref (to_additive (negated m)))).
Proof.
  set (C := fun i j => if (i =? j)%nat then 2 else if ((i =? 0) && (j =? 3) || (i =? 3) && (j =? 0))%nat then 1 else 0 : R).
  exists (EP pone C), (to4 qone).
  assert (U : rigid (ep (EP pone C))) by (unfold rigid, unit, qnorm, pone, qone; cbn; ring).
  assert (S : symm 6 C) by (intros i j Hi Hj; idx i Hi; idx j Hj; reflexivity).
  assert (D : vdot 4 (to4 qone) (to4 (rot (ep (EP pone C)))) <> 0).
  { unfold vdot, to4, vlist, qone, pone. cbn. lra. }
  split; [exact U|]. split; [exact S|]. split; [|split; [exact D|]].
  - cbn [cov]. intros x (i & Hi & Hx).
    assert (E : quad 6 C x = x 0%nat * x 0%nat + x 3%nat * x 3%nat + (x 0%nat + x 3%nat) * (x 0%nat + x 3%nat)
      + 2 * (x 1%nat * x 1%nat) + 2 * (x 2%nat * x 2%nat) + 2 * (x 4%nat * x 4%nat) + 2 * (x 5%nat * x 5%nat)).
    { unfold quad, vdot, mvec, C. cbn [sum Nat.eqb andb orb]. ring. }
    rewrite E.
    assert (Q : forall y, 0 <= y * y) by (intros; nra).
    pose proof (Q (x 0%nat)); pose proof (Q (x 1%nat)); pose proof (Q (x 2%nat)); pose proof (Q (x 3%nat));
    pose proof (Q (x 4%nat)); pose proof (Q (x 5%nat)); pose proof (Q (x 0%nat + x 3%nat)).
    assert (0 < x i * x i) by nra. idx i Hi; lra.
  - intros E.
    destruct (pose_sign_measurement (EP pone C) (to4 qone) U S D) as [_ [F _]].
    pose proof (F E 0%nat 3%nat ltac:(lia) ltac:(lia)) as G. cbn [cov] in G. unfold C in G. cbn in G. lra.
Qed.

(** ** C84: prediction *)
Section predict.
Variables (P D : nat) (io : bool) (noise : vect) (J0 : mat).
Hypothesis Hnoise : forall i, (i < total_size P D)%nat -> 0 <= noise i.
Notation n := (total_size P D).

Lemma forward_alias dt x : valid n (covariance x) ->
  veq n (value (forward P D io noise J0 true dt x)) (value (forward P D io noise J0 false dt x)) /\
  meq n n (covariance (forward P D io noise J0 true dt x)) (covariance (forward P D io noise J0 false dt x)).
Proof.
  intros V. unfold forward, time_fun, fsize. destruct io; [split; [intros i _|intros i j _ _]; reflexivity|].
  cbn [value covariance].
  pose proof (time_update_in_place dt P D (value x) (value x) J0 J0) as H.
  unfold transform_cov, pose_time_fun.
  destruct (pose_update true dt P D (Mem (value x) (value x)) J0) as [m1 K1].
  destruct (pose_update false dt P D (Mem (value x) (value x)) J0) as [m2 K2].
  destruct H as [Hv HJ]. cbn [value covariance]. split; [exact Hv|].
  intros i j Hi Hj. unfold add_noise.
  assert (E : mmul n (mmul n K1 (covariance x)) (tr K1) i j = mmul n (mmul n K2 (covariance x)) (tr K2) i j).
  { apply (sandwich_ext n n K1 K2 (covariance x) (covariance x) HJ (meq_refl _ _ _) i j Hi Hj). }
  rewrite E. reflexivity.
Qed.

Lemma tay_zero k : tay 0 k = if (k =? 0)%nat then 1 else 0.
Proof.
  destruct k as [|k]; [apply tay_0|]. cbn [Nat.eqb]. unfold tay. rewrite pow_i by lia.
  unfold Rdiv. apply Rmult_0_l.
Qed.

Lemma quat_pred_zero x k : forall i r, quat_pred 0 x k i 0 r = r.
Proof.
  induction k as [|k IH]; intros i r; cbn [quat_pred]; [reflexivity|].
  rewrite Rmult_0_r, integrate_zero by ring. rewrite IH. apply qmul_one_r.
Qed.

Lemma advance_zero k x j : (j < 3 * k)%nat -> advance 0 k x j = x j.
Proof.
  intros Hj. unfold advance. rewrite (sum_single _ _ 0%nat).
  - rewrite tay_zero. cbn [Nat.eqb]. replace (j + 3 * 0)%nat with j by lia. ring.
  - pose proof (Nat.div_mod j 3 ltac:(lia)). pose proof (Nat.mod_upper_bound j 3 ltac:(lia)). lia.
  - intros i _ Hi. rewrite tay_zero. destruct (Nat.eqb_spec i 0); [contradiction|]. ring.
Qed.

Lemma lin_rows_zero J s k ts a j : lin_rows 0 J s k ts -> (1 <= k)%nat -> (a < 3)%nat -> (s + 3 * k <= ts)%nat ->
  (j < ts)%nat -> J (s + a)%nat j = eye (s + a)%nat j.
Proof.
  intros [A B] Hk Ha Hs Hj.
  destruct (Nat.lt_ge_cases j s) as [L|L].
  { rewrite B by lia. unfold eye. destruct (Nat.eqb_spec (s + a) j); [lia|reflexivity]. }
  destruct (Nat.lt_ge_cases j (s + 3 * k)) as [L2|L2].
  2:{ rewrite B by lia. unfold eye. destruct (Nat.eqb_spec (s + a) j); [lia|reflexivity]. }
  set (j' := (j - s)%nat). pose proof (Nat.div_mod j' 3 ltac:(lia)) as E. pose proof (Nat.mod_upper_bound j' 3 ltac:(lia)) as M.
  assert (Hd : (j' / 3 < k)%nat) by (unfold j' in *; lia).
  replace j with (s + 3 * (j' / 3) + j' mod 3)%nat by (unfold j' in *; lia).
  rewrite A by lia. rewrite tay_zero. unfold eye.
  set (b := (j' / 3)%nat) in *. set (c := (j' mod 3)%nat) in *. clearbody b c.
  destruct (Nat.eqb_spec b 0) as [->|Hb].
  - rewrite Rmult_1_l. destruct (Nat.eqb_spec a c), (Nat.eqb_spec (s + a) (s + 3 * 0 + c)); try reflexivity; lia.
  - rewrite Rmult_0_l. destruct (Nat.eqb_spec (s + a) (s + 3 * b + c)); [lia|reflexivity].
Qed.

(** a step of length zero changes nothing *)
Lemma pose_time_zero alias x m J : pose_update alias 0 P D (Mem x x) J0 = (m, J) ->
  veq n (out m) x /\ meq n n J eye.
Proof.
  intros E. assert (C : coherent alias (Mem x x)) by (intros _ j; reflexivity).
  pose proof (pose_update_spec _ _ _ _ x _ _ _ _ C (fun _ => eq_refl) E) as S.
  assert (TS : n = (3 * P + match D with 0%nat => 0 | S o => 4 + 3 * o end)%nat) by reflexivity.
  split.
  - intros i Hi. destruct (Nat.lt_ge_cases i (3 * P)) as [L|L].
    { rewrite (pu_pos _ _ _ _ _ _ S i L). apply advance_zero, L. }
    destruct D as [|o]; [lia|].
    destruct (Nat.lt_ge_cases i (3 * P + 4)) as [L2|L2].
    + replace i with (rot_start P + (i - 3 * P))%nat by (unfold rot_start; lia).
      rewrite (pu_quat _ _ _ _ _ _ S (i - 3 * P)%nat) by lia. rewrite quat_pred_zero.
      assert (Ha : (i - 3 * P < 4)%nat) by lia. set (a := (i - 3 * P)%nat) in *. clearbody a.
      unfold quat_of, to4, vlist. idx a Ha; cbn [nth qx qy qz qw]; try reflexivity.
      f_equal; lia.
    + replace i with (rot_start P + 4 + (i - (3 * P + 4)))%nat by (unfold rot_start; lia).
      rewrite (pu_rot _ _ _ _ _ _ S (i - (3 * P + 4))%nat) by lia.
      rewrite advance_zero by lia. unfold vsub_range. reflexivity.
  - intros i j Hi Hj. destruct (Nat.lt_ge_cases i (3 * P)) as [L|L].
    { pose proof (Nat.div_mod i 3 ltac:(lia)) as Ei. pose proof (Nat.mod_upper_bound i 3 ltac:(lia)) as M.
      rewrite Ei. apply (lin_rows_zero _ _ (P - i / 3) n); try lia.
      apply (pu_jpos _ _ _ _ _ _ S). lia. }
    destruct D as [|o]; [lia|].
    destruct (Nat.lt_ge_cases i (3 * P + 4)) as [L2|L2].
    + replace i with (rot_start P + (i - 3 * P))%nat by (unfold rot_start; lia).
      assert (Ha : (i - 3 * P < 4)%nat) by lia. set (a := (i - 3 * P)%nat) in *. clearbody a.
      destruct (Nat.lt_ge_cases j (3 * P)) as [L3|L3].
      { rewrite (pu_jquat_pos _ _ _ _ _ _ S) by (unfold rot_start; lia). unfold eye.
        destruct (Nat.eqb_spec (rot_start P + a) j); [unfold rot_start in *; lia|reflexivity]. }
      destruct (Nat.lt_ge_cases j (3 * P + 4)) as [L4|L4].
      * replace j with (rot_start P + (j - 3 * P))%nat by (unfold rot_start; lia).
        rewrite (pu_jquat_quat _ _ _ _ _ _ S) by lia. unfold eye.
        destruct (Nat.eqb_spec a (j - 3 * P)), (Nat.eqb_spec (rot_start P + a) (rot_start P + (j - 3 * P)));
          try reflexivity; lia.
      * set (j' := (j - (3 * P + 4))%nat).
        pose proof (Nat.div_mod j' 3 ltac:(lia)) as Ej. pose proof (Nat.mod_upper_bound j' 3 ltac:(lia)) as Mj.
        replace j with (rot_start P + 4 + (j' / 3) * 3 + j' mod 3)%nat by (unfold rot_start, j' in *; lia).
        rewrite (pu_jquat_vel _ _ _ _ _ _ S) by (unfold j' in *; lia).
        rewrite pow_i by lia. unfold eye.
        set (c := (j' mod 3)%nat) in *. clearbody c.
        destruct (Nat.eqb_spec (rot_start P + a) (rot_start P + 4 + j' / 3 * 3 + c)); [lia|].
        unfold quat_vel_block, mlist. idx a Ha; idx c Mj; cbn [nth]; field.
    + set (i' := (i - (3 * P + 4))%nat).
      pose proof (Nat.div_mod i' 3 ltac:(lia)) as Ei. pose proof (Nat.mod_upper_bound i' 3 ltac:(lia)) as Mi.
      replace i with (rot_start P + 1 + 3 * (i' / 3 + 1) + i' mod 3)%nat by (unfold rot_start, i' in *; lia).
      apply (lin_rows_zero _ _ (Datatypes.S o - (i' / 3 + 1)) (total_size P (Datatypes.S o))); try (unfold rot_start, i' in *; lia).
      apply (pu_jrot _ _ _ _ _ _ S). unfold i' in *. lia.
Qed.

Lemma forward_zero alias x : io = false -> valid n (covariance x) ->
  veq n (value (forward P D io noise J0 alias 0 x)) (value x) /\
  meq n n (covariance (forward P D io noise J0 alias 0 x)) (covariance x).
Proof.
  intros Hio V. unfold forward, time_fun, fsize. rewrite Hio. cbn [value covariance].
  unfold transform_cov, pose_time_fun.
  destruct (pose_update alias 0 P D (Mem (value x) (value x)) J0) as [m J] eqn:E.
  destruct (pose_time_zero alias (value x) m J E) as [Hv HJ]. cbn [value covariance]. split; [exact Hv|].
  intros i j Hi Hj. unfold add_noise. rewrite Rabs_R0.
  assert (C : mmul n (mmul n J (covariance x)) (tr J) i j = covariance x i j).
  { change (sandwich n J (covariance x) i j = covariance x i j).
    rewrite (sandwich_ext n n J eye (covariance x) (covariance x) HJ (meq_refl _ _ _) i j Hi Hj).
    unfold sandwich. rewrite (mmul_ext n n n (mmul n eye (covariance x)) (covariance x) (tr eye) eye
      (m1l n n _) (symm_tr n eye (eye_symm n)) i j Hi Hj). apply mmul_eye_r, Hj. }
  rewrite C. destruct (_ && _); ring.
Qed.

Lemma from_additive_ext x y : symm 7 (covariance x) -> veq 7 (value x) (value y) ->
  meq 7 7 (covariance x) (covariance y) ->
  ep (from_additive x) = ep (from_additive y) /\ meq 7 7 (cov (from_additive x)) (cov (from_additive y)).
Proof.
  intros S V C. unfold from_additive. cbn [ep cov]. rewrite !V by lia.
  assert (S' : symm 7 (covariance y)) by (apply (symm_ext 7 _ _ C), S).
  split.
  - unfold pose_of_vector. rewrite !transform_range_value. cbn [Nat.leb Nat.ltb andb Nat.sub].
    unfold error_conversion, vsub_range. cbn [fst Nat.add]. rewrite !V by lia. reflexivity.
  - set (q := qconj _). intros i j Hi Hj.
    rewrite (transform_range_cov 7 (error_conversion q) 3 7 3 7 x ltac:(lia) ltac:(lia) ltac:(lia) ltac:(lia) S i j Hi Hj).
    rewrite (transform_range_cov 7 (error_conversion q) 3 7 3 7 y ltac:(lia) ltac:(lia) ltac:(lia) ltac:(lia) S' i j Hi Hj).
    cbn [error_conversion snd]. apply (sandwich_ext 7 7); [apply meq_refl|exact C|exact Hi|exact Hj].
Qed.

(** Predicting for time t gives the pose and covariance that the filter itself would have after
    the time update of a measurement at t; also for the time of the last measurement. *)
Theorem prediction_is_time_update t f : (1 <= P)%nat -> (1 <= D)%nat -> valid n (covariance (fstate f)) ->
  ftime f <> 0%Z -> (io = false \/ t <> ftime f) ->
  let g := time_update P D io noise J0 t f in
  exists p, predict_pose P D io noise J0 t f = Some p /\
    ep p = ep (from_additive (pose_part P (fstate g))) /\
    meq 6 6 (cov p) (cov (from_additive (pose_part P (fstate g)))) /\
    tra (ep p) = vec_of (value (fstate g)) 0 /\ rot (ep p) = quat_of (value (fstate g)) (3 * P).
Proof.
  intros HP HD V NZ Ht g. unfold predict_pose. destruct (Z.eqb_spec (ftime f) 0) as [|_]; [contradiction|].
  eexists. split; [reflexivity|].
  set (dt := dt_update t (ftime f)).
  assert (A : veq n (value (forward P D io noise J0 false dt (fstate f))) (value (fstate g)) /\
              meq n n (covariance (forward P D io noise J0 false dt (fstate f))) (covariance (fstate g))).
  { unfold g, time_update. destruct (Z.eqb_spec (ftime f) 0) as [|_]; [contradiction|]. cbn [orb].
    destruct (Z.eqb_spec (ftime f) t) as [Et|Nt]; cbn [fstate].
    - destruct Ht as [Hio|Ht]; [|congruence].
      assert (Z0 : dt = 0).
      { unfold dt. rewrite Et, update_interval_exact by lia. replace (t - t)%Z with 0%Z by lia. ring. }
      rewrite Z0. apply forward_zero; assumption.
    - fold dt. destruct (forward_alias dt (fstate f) V) as [A B]. split.
      + intros i Hi. symmetry. apply A, Hi.
      + intros i j Hi Hj. symmetry. apply B; assumption. }
  destruct A as [A B].
  pose proof (total_size_1 P D HD) as T1.
  assert (PE : forall i, (i < 7)%nat -> (pose_entry P i < n)%nat).
  { intros i Hi. unfold pose_entry, iR. destruct (Nat.ltb_spec i 3); lia. }
  pose proof (forward_valid P D io noise J0 false dt (fstate f) Hnoise V) as [SF _].
  assert (SP : symm 7 (covariance (pose_part P (forward P D io noise J0 false dt (fstate f))))).
  { intros i j Hi Hj. unfold pose_part. cbn [covariance]. apply SF; apply PE; assumption. }
  destruct (from_additive_ext (pose_part P (forward P D io noise J0 false dt (fstate f))) (pose_part P (fstate g)) SP) as [E1 E2].
  { intros i Hi. unfold pose_part. cbn [value]. apply A, PE, Hi. }
  { intros i j Hi Hj. unfold pose_part. cbn [covariance]. apply B; apply PE; assumption. }
  split; [exact E1|]. split; [intros i j Hi Hj; apply E2; lia|].
  rewrite E1. unfold from_additive. cbn [ep]. unfold pose_of_vector. rewrite !transform_range_value.
  cbn [Nat.leb Nat.ltb andb Nat.sub]. unfold error_conversion, vsub_range. cbn [fst Nat.add].
  unfold pose_part, pose_entry, iR. cbn [value Nat.ltb Nat.leb Nat.sub tra rot].
  split; [reflexivity|]. unfold quat_of. f_equal; f_equal; lia.
Qed.
End predict.

(** ** C86: the orientation filter *)
Section rkf.
Variables (chol : nat -> mat -> option mat) (gen : nat -> mat -> mat).
Hypothesis LA : forall m, lapack_ok m (chol m) (gen m).
Variable J0 : mat.

Inductive rkf_op := RRotation (t : Z) (q : quat) | RVelocity (t : Z) (w : vec3).
Definition rkf_step (o : rkf_op) (f : filter) : option filter :=
  match o with
  | RRotation t q => rkf_add_rotation chol gen J0 t q f
  | RVelocity t w => rkf_add_velocity chol gen J0 t w f
  end.
Definition rkf_admissible (o : rkf_op) : Prop := match o with RRotation _ q => unit q | RVelocity _ _ => True end.
Fixpoint rkf_run (l : list rkf_op) (f : filter) : option filter :=
  match l with
  | [] => Some f
  | o :: l' => match rkf_step o f with Some f' => rkf_run l' f' | None => None end
  end.
Definition rkf_inv (f : filter) : Prop := valid 7 (covariance (fstate f)) /\ quat_unit_at 0 (fstate f).

Lemma rkf_init_inv : rkf_inv rkf_init.
Proof.
  split; [split|].
  - apply eye_symm.
  - intros x. unfold rkf_init. cbn [fstate covariance].
    assert (E : quad 7 eye x = vdot 7 x x).
    { unfold quad. apply vdot_ext; [intros i _; reflexivity|apply v1]. }
    rewrite E. unfold vdot. apply sum_nonneg. intros; nra.
  - unfold quat_unit_at, unit, qnorm, quat_of, rkf_init. cbn. ring.
Qed.

Lemma rkf_time_fun_value dt x :
  quat_of (fst (rkf_time_fun J0 false dt x)) 0 = quat_pred dt x 1 0 dt (quat_of x 0).
Proof.
  unfold rkf_time_fun. destruct (quat_update false dt 1 0 (Mem x x) J0) as [m J] eqn:E. cbn [fst].
  destruct (quat_update_spec false dt 1 0 (Mem x x) J0 m J ltac:(intros H; discriminate H) E) as (_ & V & _).
  apply quat_of_to4. intros a Ha. rewrite (V (0 + a)%nat ltac:(unfold inr; lia)). f_equal. lia.
Qed.

Lemma rkf_noise_valid dt C : valid 7 C -> valid 7 (rkf_noise dt C).
Proof.
  intros V. set (d := fun i => if (i <? 4)%nat then 1 / 1000 * (dt * dt) else 4 * (dt * dt)).
  apply (valid_ext 7 (add_noise 7 d 1 C)).
  - intros i j Hi Hj. unfold add_noise, rkf_noise, d, eye. rewrite Rabs_R1.
    idx i Hi; idx j Hj; cbn [Nat.ltb Nat.leb Nat.eqb andb]; ring.
  - apply add_noise_valid; [|exact V]. intros i _. unfold d. destruct (i <? 4)%nat; nra.
Qed.

Lemma rkf_time_update_value t f a : (a < 4)%nat -> ftime f <> 0%Z ->
  value (fstate (rkf_time_update J0 t f)) a =
  fst (rkf_time_fun J0 false (dt_update t (ftime f)) (vsub_range (value (fstate f)) 0)) a.
Proof.
  intros Ha NZ. unfold rkf_time_update. destruct (Z.eqb_spec (ftime f) 0) as [|_]; [contradiction|].
  cbn [fstate value]. rewrite transform_range_value.
  destruct (Nat.leb_spec 0 a); [|lia]. destruct (Nat.ltb_spec a 4); [|lia]. cbn [andb]. f_equal. lia.
Qed.

Lemma rkf_time_update_inv t f : rkf_inv f -> rkf_inv (rkf_time_update J0 t f).
Proof.
  intros [V U]. destruct (Z.eq_dec (ftime f) 0) as [Z|NZ].
  { unfold rkf_time_update. rewrite Z. cbn [Z.eqb]. split; assumption. }
  split.
  - unfold rkf_time_update. destruct (Z.eqb_spec (ftime f) 0) as [|_]; [contradiction|]. cbn [fstate covariance].
    apply rkf_noise_valid. destruct V as [S Pp]. apply transform_range_valid; try lia; assumption.
  - unfold quat_unit_at. rewrite (quat_of_ext _ (fst (rkf_time_fun J0 false (dt_update t (ftime f)) (vsub_range (value (fstate f)) 0)))).
    + rewrite rkf_time_fun_value. apply quat_pred_unit. exact U.
    + intros a Ha. apply rkf_time_update_value; assumption.
Qed.

Lemma rkf_finish_inv t x f : valid 7 (covariance x) -> rkf_finish t x = Some f -> rkf_inv f /\ ftime f = t.
Proof.
  intros V E. unfold rkf_finish in E. destruct (normalize_at 7 0 x) as [y|] eqn:N; [|discriminate].
  assert (f = Filter y t) by congruence. subst f.
  destruct (normalize_spec 7 0 x y ltac:(lia) V N) as (A & B & _). repeat split; cbn [fstate]; try apply A. exact B.
Qed.

Lemma rkf_seed_inv f q : unit q -> rkf_inv f ->
  rkf_inv (if (ftime f =? 0)%Z then
      Filter (EV (vset_range (value (fstate f)) 0 4 (to4 q)) (covariance (fstate f))) (ftime f) else f).
Proof.
  intros U I. destruct (ftime f =? 0)%Z; [|exact I]. split; [apply I|].
  unfold quat_unit_at. cbn [fstate value]. rewrite (quat_of_to4 _ 0 q); [exact U|].
  intros a Ha. rewrite vset_in by (unfold inr; lia). f_equal. lia.
Qed.

(** every state reached has a unit quaternion and a symmetric positive semidefinite covariance *)
Theorem rkf_step_invariant o f f' : rkf_inv f -> rkf_admissible o -> rkf_step o f = Some f' ->
  rkf_inv f' /\ ftime f' = match o with RRotation t _ | RVelocity t _ => t end.
Proof.
  intros I A E. destruct o as [t q|t w]; cbn [rkf_step rkf_admissible] in *.
  - unfold rkf_add_rotation in E.
    pose proof (rkf_time_update_inv t _ (rkf_seed_inv f q A I)) as [V _].
    apply (fun H => rkf_finish_inv t _ f' H E).
    apply identity_valid; try lia; [apply LA|exact V|apply scaled_eye_symm|apply scaled_eye_pd; lra].
  - unfold rkf_add_velocity in E. pose proof (rkf_time_update_inv t _ I) as [V _].
    apply (fun H => rkf_finish_inv t _ f' H E).
    apply identity_valid; try lia; [apply LA|exact V|apply scaled_eye_symm|apply scaled_eye_pd; lra].
Qed.

Theorem rkf_invariant l f : Forall rkf_admissible l -> rkf_run l rkf_init = Some f -> rkf_inv f.
Proof.
  assert (G : forall l f0 f, rkf_inv f0 -> Forall rkf_admissible l -> rkf_run l f0 = Some f -> rkf_inv f).
  { clear l f. induction l as [|o l IH]; intros f0 f I A E; cbn [rkf_run] in E.
    - assert (f = f0) by congruence. subst. exact I.
    - inversion A as [|? ? A1 A2]; subst. destruct (rkf_step o f0) as [f1|] eqn:E1; [|discriminate].
      destruct (rkf_step_invariant o f0 f1 I A1 E1) as [I1 _]. apply (IH f1 f I1 A2 E). }
  intros A E. apply (G l _ f rkf_init_inv A E).
Qed.

(** an orientation measurement never makes the quaternion vanish, and prediction never divides
    by zero *)
Theorem rkf_rotation_never_degenerate t q f : rkf_inv f -> unit q ->
  exists f', rkf_add_rotation chol gen J0 t q f = Some f'.
Proof.
  intros I U. unfold rkf_add_rotation.
  pose proof (rkf_time_update_inv t _ (rkf_seed_inv f q U I)) as [V U2].
  set (f2 := rkf_time_update J0 t _) in *. set (z := negate_if_closer q _).
  assert (Hz : 0 <= vdot 4 (vsub_range (value (fstate f2)) 0) (to4 z)).
  { destruct (negate_if_closer_correct q (quat_of (value (fstate f2)) 0)) as (_ & H & _). fold z in H.
    unfold qdot, quat_of in H. cbn [qx qy qz qw] in H. unfold vdot, vsub_range, to4, vlist. cbn [sum nth Nat.add] in *. lra. }
  pose proof (observation_nonzero (chol 4) (gen 4) 7 0 (fstate f2) (to4 z) (4 / 1000) (LA 4) ltac:(lia) V ltac:(lra) U2 Hz) as N.
  unfold rkf_finish, normalize_at. cbn [Nat.add] in N. destruct (Req_EM_T _ 0) as [E|_]; [contradiction|].
  eexists; reflexivity.
Qed.

Theorem rkf_predict_total t f : rkf_inv f -> exists q, rkf_predict J0 t f = Some q /\ unit q /\
  q = quat_pred (dt_predict t (ftime f)) (value (fstate f)) 1 0 (dt_predict t (ftime f)) (quat_of (value (fstate f)) 0).
Proof.
  intros [_ U]. unfold rkf_predict. rewrite rkf_time_fun_value.
  set (p := quat_pred _ _ _ _ _ _). assert (Up : unit p) by (apply quat_pred_unit; exact U).
  exists p. split; [apply qnormalize_unit, Up|]. split; [exact Up|reflexivity].
Qed.

(** the first orientation is taken over exactly if it is the first measurement of any kind *)
Theorem rkf_first_rotation_adopted t q f : rkf_inv f -> ftime f = 0%Z -> unit q ->
  exists f', rkf_add_rotation chol gen J0 t q f = Some f' /\ quat_of (value (fstate f')) 0 = q /\ ftime f' = t.
Proof.
  intros I Z U. unfold rkf_add_rotation. rewrite Z. cbn [Z.eqb].
  set (x1 := EV _ (covariance (fstate f))).
  assert (E2 : rkf_time_update J0 t (Filter x1 0) = Filter x1 t) by reflexivity. rewrite E2. cbn [fstate].
  assert (X : forall a, (a < 4)%nat -> value x1 a = to4 q a).
  { intros a Ha. unfold x1. cbn [value]. rewrite vset_in by (unfold inr; lia). f_equal. lia. }
  assert (Q1 : quat_of (value x1) 0 = q) by (apply quat_of_to4; exact X).
  assert (Ez : negate_if_closer q (quat_of (value x1) 0) = q).
  { rewrite Q1. unfold negate_if_closer. destruct (Rge_dec (qdot q q) 0) as [|N]; [reflexivity|exfalso].
    apply N. assert (E : qdot q q = qnorm q) by reflexivity. rewrite E, U. lra. }
  rewrite Ez.
  assert (V1 : valid 7 (covariance x1)) by (unfold x1; cbn [covariance]; apply I).
  destruct (identity_value (chol 4) (gen 4) 7 4 0 4 x1 (EV (to4 q) (mscale (4 / 1000) eye)) (LA 4)
    ltac:(lia) ltac:(lia) ltac:(lia) V1 (scaled_eye_symm 4 _) (scaled_eye_pd 4 (4 / 1000) ltac:(lra))) as (W & _ & Y).
  cbv zeta in Y. cbn [value] in Y.
  set (y := kalman_update_identity _ _ _ _ _ _ _ _) in *.
  assert (Yx : forall i, (i < 7)%nat -> value y i = value x1 i).
  { intros i Hi. rewrite (Y i Hi). rewrite sum_zero; [ring|]. intros k Hk.
    assert (M0 : mvec 4 W (vsub (to4 q) (vsub_range (value x1) 0)) k = 0).
    { unfold mvec. apply sum_zero. intros l Hl. unfold vsub, vsub_range. cbn [Nat.add]. rewrite (X l Hl). ring. }
    rewrite M0. ring. }
  assert (Uy : quat_unit_at 0 y).
  { unfold quat_unit_at. rewrite (quat_of_ext _ (value x1)); [rewrite Q1; exact U|]. intros a Ha. apply Yx. lia. }
  destruct (normalize_unit_id 7 0 y Uy) as (w & Ew & Vw). unfold rkf_finish. rewrite Ew.
  eexists. split; [reflexivity|]. split; [|reflexivity]. cbn [fstate].
  rewrite (quat_of_ext _ (value x1)); [exact Q1|]. intros a Ha. rewrite Vw. apply Yx. lia.
Qed.

(** A velocity measurement that arrives first is not ignored, unlike in PoseKalmanFilter
    (169, 193): it starts the clock, so the initial guess counts as an estimate and the first
    orientation is blended with it. *)
Theorem rkf_velocity_first_refuted : exists t w q f1 f2, t <> 0%Z /\ unit q /\
  rkf_add_velocity chol gen J0 t w rkf_init = Some f1 /\
  rkf_add_rotation chol gen J0 t q f1 = Some f2 /\
  ~ same_rotation (quat_of (value (fstate f2)) 0) q /\ qw (quat_of (value (fstate f2)) 0) <> 0.
Proof.
  assert (Uq : unit (Q 1 0 0 0)) by (unfold unit, qnorm; cbn; ring).
  exists 1%Z, (V3 0 0 0), (Q 1 0 0 0).
  (* the velocity measurement leaves the values alone *)
  destruct (identity_value (chol 3) (gen 3) 7 3 4 7 (fstate rkf_init) (EV (of3 (V3 0 0 0)) (mscale (1 / 100000) eye)) (LA 3)
    ltac:(lia) ltac:(lia) ltac:(lia) (proj1 rkf_init_inv) (scaled_eye_symm 3 _) (scaled_eye_pd 3 (1 / 100000) ltac:(lra))) as (W & _ & Y).
  cbv zeta in Y. cbn [value] in Y. set (y := kalman_update_identity _ _ _ _ _ _ _ _) in *.
  assert (Yx : forall i, (i < 4)%nat -> value y i = value (fstate rkf_init) i).
  { intros i Hi. rewrite (Y i ltac:(lia)). rewrite sum_zero; [ring|]. intros k Hk.
    unfold rkf_init at 1. cbn [fstate covariance]. unfold eye. destruct (Nat.eqb_spec i (4 + k)); [lia|ring]. }
  assert (Vy : valid 7 (covariance y)).
  { apply identity_valid; try lia; [apply LA|apply rkf_init_inv|apply scaled_eye_symm|apply scaled_eye_pd; lra]. }
  assert (Uy : quat_unit_at 0 y).
  { unfold quat_unit_at. rewrite (quat_of_ext _ (value (fstate rkf_init))); [apply rkf_init_inv|]. exact Yx. }
  destruct (normalize_unit_id 7 0 y Uy) as (y' & Ey & Vy').
  assert (E1 : rkf_add_velocity chol gen J0 1 (V3 0 0 0) rkf_init = Some (Filter y' 1)).
  { unfold rkf_add_velocity, rkf_finish.
    assert (T0 : fstate (rkf_time_update J0 1 rkf_init) = fstate rkf_init) by reflexivity. rewrite T0. fold y. rewrite Ey. reflexivity. }
  (* ... but the quaternion now has no variance along itself *)
  assert (C3 : forall j, (j < 7)%nat -> covariance y' 3%nat j = 0).
  { intros j Hj. pose proof (normalize_tangent 7 0 y y' ltac:(lia) Vy Ey j Hj) as T. cbn [sum Nat.add] in T.
    rewrite !Vy', !Yx in T by lia. unfold rkf_init in T. cbn [fstate value Nat.eqb] in T. lra. }
  pose proof (rkf_finish_inv 1 y (Filter y' 1) Vy ltac:(unfold rkf_finish; rewrite Ey; reflexivity)) as [I1 _].
  destruct (rkf_rotation_never_degenerate 1 (Q 1 0 0 0) (Filter y' 1) I1 Uq) as [f2 E2].
  exists (Filter y' 1), f2. split; [lia|]. split; [exact Uq|]. split; [exact E1|]. split; [exact E2|].
  (* the second measurement *)
  unfold rkf_add_rotation in E2. cbn [ftime Z.eqb] in E2.
  set (g := rkf_time_update J0 1 (Filter y' 1)) in E2.
  assert (D0 : dt_update 1 1 = 0) by (rewrite update_interval_exact by lia; replace (1 - 1)%Z with 0%Z by lia; ring).
  assert (Gv : quat_of (value (fstate g)) 0 = qone).
  { rewrite (quat_of_ext _ (fst (rkf_time_fun J0 false (dt_update 1 1) (vsub_range (value y') 0)))).
    - rewrite rkf_time_fun_value, D0, quat_pred_zero. apply quat_of_to4. intros a Ha.
      unfold vsub_range. cbn [Nat.add]. rewrite Vy', Yx by lia. idx a Ha; reflexivity.
    - intros a Ha. apply (rkf_time_update_value 1 (Filter y' 1) a Ha). cbn. lia. }
  destruct I1 as [V1 U1]. cbn [fstate] in V1.
  assert (Gc : forall k, (k < 4)%nat -> covariance (fstate g) 3%nat k = 0).
  { intros k Hk. unfold g, rkf_time_update. cbn [ftime Z.eqb fstate covariance]. rewrite D0.
    unfold rkf_noise at 1. destruct (Nat.ltb_spec k 4); [|lia]. cbn [Nat.ltb Nat.leb andb].
    rewrite (transform_range_cov 7 _ 0 4 0 7 y' ltac:(lia) ltac:(lia) ltac:(lia) ltac:(lia) (proj1 V1) 3%nat k ltac:(lia) ltac:(lia)).
    set (B := block_map _ 0 4 0 7).
    assert (B3 : forall l, (l < 7)%nat -> B 3%nat l = eye 3%nat l).
    { intros l Hl.
      assert (Bl : B 3%nat l = snd (rkf_time_fun J0 false 0 (vsub_range (value y') 0)) 3%nat l).
      { unfold B, block_map. clear - Hl. idx l Hl; reflexivity. }
      rewrite Bl. unfold rkf_time_fun.
      destruct (quat_update false 0 1 0 (Mem (vsub_range (value y') 0) (vsub_range (value y') 0)) J0) as [m J] eqn:E. cbn [snd].
      destruct (quat_update_spec false 0 1 0 _ J0 m J ltac:(intros Hal; discriminate Hal) E) as (_ & _ & _ & Jv & Jq & _).
      destruct (Nat.lt_ge_cases l 4) as [L|L].
      - apply (Jq 3%nat l); lia.
      - pose proof (Jv 3%nat (l - 4)%nat 0%nat ltac:(lia) ltac:(lia) ltac:(lia)) as G.
        replace (0 + 4 + 0 * 3 + (l - 4))%nat with l in G by lia. cbn [Nat.add] in G. rewrite G.
        rewrite pow_i by lia. assert (Hl' : (l - 4 < 3)%nat) by lia.
        unfold eye. destruct (Nat.eqb_spec 3 l); [lia|]. set (c := (l - 4)%nat) in *. clearbody c.
        unfold quat_vel_block, mlist. idx c Hl'; cbn [nth]; field. }
    unfold sandwich, mmul, tr. rewrite (sum_zero 7); [ring|]. intros c Hc.
    rewrite (sum_ext 7 _ (fun l => eye 3%nat l * covariance y' l c)) by (intros l Hl; rewrite (B3 l Hl); reflexivity).
    assert (Z3 : sum 7 (fun l => eye 3%nat l * covariance y' l c) = covariance y' 3%nat c)
      by (apply (mmul_eye_l 7 (covariance y') 3%nat c); lia).
    rewrite Z3, (C3 c Hc). ring. }
  pose proof (rkf_time_update_inv 1 (Filter y' 1) (conj V1 U1)) as [Vg Ug]. fold g in Vg, Ug.
  set (z := negate_if_closer (Q 1 0 0 0) (quat_of (value (fstate g)) 0)) in E2.
  destruct (identity_value (chol 4) (gen 4) 7 4 0 4 (fstate g) (EV (to4 z) (mscale (4 / 1000) eye)) (LA 4)
    ltac:(lia) ltac:(lia) ltac:(lia) Vg (scaled_eye_symm 4 _) (scaled_eye_pd 4 (4 / 1000) ltac:(lra))) as (W2 & _ & Y2).
  cbv zeta in Y2. cbn [value] in Y2. set (y2 := kalman_update_identity _ _ _ _ _ _ (fstate g) _) in *.
  assert (W3 : value y2 3%nat = 1).
  { rewrite (Y2 3%nat ltac:(lia)). rewrite sum_zero.
    - assert (qw (quat_of (value (fstate g)) 0) = 1) by (rewrite Gv; reflexivity). unfold quat_of in H. cbn [qw Nat.add] in H. lra.
    - intros k Hk. cbn [Nat.add]. rewrite (Gc k Hk). ring. }
  assert (Vy2 : valid 7 (covariance y2)).
  { apply identity_valid; try lia; [apply LA|exact Vg|apply scaled_eye_symm|apply scaled_eye_pd; lra]. }
  unfold rkf_finish in E2. destruct (normalize_at 7 0 y2) as [w2|] eqn:E3; [|discriminate].
  assert (f2 = Filter w2 1) by congruence. subst f2. cbn [fstate].
  destruct (normalize_spec 7 0 y2 w2 ltac:(lia) Vy2 E3) as (_ & Uw & _ & N2 & Vw).
  assert (Hw : qw (quat_of (value w2) 0) <> 0).
  { unfold quat_of. cbn [qw]. rewrite (Vw 3%nat ltac:(lia)). cbn [Nat.add]. rewrite W3. unfold Rdiv. rewrite Rmult_1_l.
    apply Rinv_neq_0_compat, N2. }
  split; [|exact Hw]. intros SR. apply Hw.
  set (p := quat_of (value w2) 0) in *.
  pose proof (SR (V3 1 0 0)) as S1. pose proof (SR (V3 0 1 0)) as S2. pose proof (SR (V3 0 0 1)) as S3.
  unfold quat_unit_at in Uw. fold p in Uw. clearbody p. destruct p as [a b c d].
  unfold qrot in S1, S2, S3. cbn in S1, S2, S3. unfold unit, qnorm in Uw. cbn [qx qy qz qw] in *.
  injection S1 as A1 A2 A3. injection S2 as B1 B2 B3'. injection S3 as C1 C2 C3'.
  ring_simplify in A1. nra.
Qed.
End rkf.

(** ** Non-vacuity *)
(** an inversion routine with the promised behaviour exists *)
From Coq Require Import ClassicalEpsilon.
Definition some_inverse (m : nat) (A : mat) : mat := epsilon (inhabits eye) (inverse_of m A).
Example lapack_exists : forall m, lapack_ok m (fun _ => None) (some_inverse m).
Proof.
  intros m. split; [discriminate|]. intros A W H. unfold some_inverse.
  apply (epsilon_spec (inhabits eye) (inverse_of m A)). exists W. exact H.
Qed.
(** a session of a filter with linear and angular velocity *)
Definition example_pose : epose := EP pone eye.
Example admissible_session : Forall (admissible 2 2)
  [OPose 10 example_pose; ORotation 20 qone; OVelocity 30 (V3 1 2 3); OPose 40 example_pose].
Proof.
  assert (A : admissible 2 2 (OPose 10 example_pose)).
  { cbn [admissible]. split; [lia|]. split; [lia|]. split; [unfold rigid, unit, qnorm, example_pose, pone, qone; cbn; ring|].
    split; [apply eye_symm|]. intros x H. pose proof (scaled_eye_pd 6 1 ltac:(lra) x H) as G.
    rewrite quad_scale in G. unfold example_pose. cbn [cov]. lra. }
  constructor; [exact A|]. constructor; [split; [lia|unfold unit, qnorm; cbn; ring]|].
  constructor; [cbn; lia|]. constructor; [exact A|constructor].
Qed.
(** ... whose first measurement succeeds *)
Example first_step_succeeds : exists f, step (fun _ _ => None) some_inverse 2 2 false (fun _ => 1) eye
  (OPose 10 example_pose) (filter_init 2 2) = Some f.
Proof.
  pose proof admissible_session as A. pose proof (Forall_inv A) as (_ & _ & R & S & Pd).
  destruct (first_pose_adopted (fun _ _ => None) some_inverse lapack_exists 2 2 false (fun _ => 1) eye 10 example_pose
    (filter_init 2 2) ltac:(lia) ltac:(lia) (init_inv 2 2) eq_refl R S Pd) as (f & E & _).
  exists f. exact E.
Qed.
Example rkf_session : exists f, rkf_run (fun _ _ => None) some_inverse eye [RRotation 5 qone; RRotation 9 (Q 1 0 0 0)] rkf_init = Some f.
Proof.
  assert (U1 : unit qone) by (unfold unit, qnorm; cbn; ring).
  assert (U2 : unit (Q 1 0 0 0)) by (unfold unit, qnorm; cbn; ring).
  destruct (rkf_rotation_never_degenerate _ _ lapack_exists eye 5 qone rkf_init rkf_init_inv U1) as [f1 E1].
  assert (I1 : rkf_inv f1) by (apply (rkf_step_invariant _ _ lapack_exists eye (RRotation 5 qone) rkf_init f1 rkf_init_inv U1 E1)).
  destruct (rkf_rotation_never_degenerate _ _ lapack_exists eye 9 (Q 1 0 0 0) f1 I1 U2) as [f2 E2].
  exists f2. cbn [rkf_run rkf_step]. rewrite E1. rewrite E2. reflexivity.
Qed.

Print Assumptions filter_step_invariant.
Print Assumptions filter_invariant.
Print Assumptions rotation_filter_never_degenerate.
Print Assumptions first_pose_adopted.
Print Assumptions rotation_sign_irrelevant.
Print Assumptions pose_sign_measurement.
Print Assumptions pose_sign_refuted.
Print Assumptions prediction_is_time_update.
Print Assumptions rkf_invariant.
Print Assumptions rkf_rotation_never_degenerate.
Print Assumptions rkf_first_rotation_adopted.
Print Assumptions rkf_velocity_first_refuted.
Print Assumptions lapack_exists.
