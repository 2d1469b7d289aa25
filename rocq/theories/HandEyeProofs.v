(** Lemmas about dual quaternions and relative poses. *)
From Coq Require Import Reals Lra Lia Bool Arith List.
Import ListNotations.
From Verif Require Import Mat Quat QuatProofs RotationCast RotationCastProofs LinAlg HandEye.
Open Scope R_scope.

(** ** dual quaternion algebra *)
Definition dq_mul (a b : dquat) : dquat :=
  DQ (qmul (dre a) (dre b)) (qadd (qmul (dre a) (ddu b)) (qmul (ddu a) (dre b))).
Definition dq_unit (d : dquat) : Prop := unit (dre d) /\ qdot (dre d) (ddu d) = 0.
Definition dq_opp (d : dquat) : dquat := DQ (qopp (dre d)) (qopp (ddu d)).

Lemma quat_ext p q : qx p = qx q -> qy p = qy q -> qz p = qz q -> qw p = qw q -> p = q.
Proof. destruct p, q. cbn. intros -> -> -> ->. reflexivity. Qed.
Lemma vec3_ext a b : vx a = vx b -> vy a = vy b -> vz a = vz b -> a = b.
Proof. destruct a, b. cbn. intros -> -> ->. reflexivity. Qed.

Lemma dq_of_pose_orthogonal p : qdot (dre (dq_of_pose p)) (ddu (dq_of_pose p)) = 0.
Proof. destruct p as [[a b c d] [x y z]]. unfold dq_of_pose, qdot. cbn. field. Qed.

Lemma pose_of_dq_of_pose p : rigid p -> pose_of_dq (dq_of_pose p) = p.
Proof.
  destruct p as [[a b c d] [x y z]]. unfold rigid, unit, qnorm. cbn. intros U.
  unfold pose_of_dq, dq_of_pose. cbn. f_equal. apply vec3_ext; cbn.
  - transitivity (x * (a * a + b * b + c * c + d * d)); [field|rewrite U; ring].
  - transitivity (y * (a * a + b * b + c * c + d * d)); [field|rewrite U; ring].
  - transitivity (z * (a * a + b * b + c * c + d * d)); [field|rewrite U; ring].
Qed.
Lemma dq_of_pose_of_dq d : dq_unit d -> dq_of_pose (pose_of_dq d) = d.
Proof.
  destruct d as [[a b c d] [x y z w]]. unfold dq_unit, unit, qnorm, qdot. cbn. intros [U O].
  unfold pose_of_dq, dq_of_pose. cbn. f_equal. apply quat_ext; cbn.
  - transitivity (x * (a * a + b * b + c * c + d * d) - a * (a * x + b * y + c * z + d * w)); [field|rewrite U, O; ring].
  - transitivity (y * (a * a + b * b + c * c + d * d) - b * (a * x + b * y + c * z + d * w)); [field|rewrite U, O; ring].
  - transitivity (z * (a * a + b * b + c * c + d * d) - c * (a * x + b * y + c * z + d * w)); [field|rewrite U, O; ring].
  - transitivity (w * (a * a + b * b + c * c + d * d) - d * (a * x + b * y + c * z + d * w)); [field|rewrite U, O; ring].
Qed.
(** the dual part is half the translation times the rotation *)
Lemma ddu_imag p : ddu (dq_of_pose p) = qscale (1/2) (qmul (imag (tra p)) (rot p)).
Proof. destruct p as [[a b c d] [x y z]]. apply quat_ext; cbn; field. Qed.
Lemma qscale_qmul_l c p q : qmul (qscale c p) q = qscale c (qmul p q).
Proof. apply quat_ext; cbn; ring. Qed.
Lemma qscale_qmul_r c p q : qmul p (qscale c q) = qscale c (qmul p q).
Proof. apply quat_ext; cbn; ring. Qed.
Lemma qmul_qadd_l p q r : qmul (qadd p q) r = qadd (qmul p r) (qmul q r).
Proof. apply quat_ext; cbn; ring. Qed.
Lemma qmul_qadd_r p q r : qmul p (qadd q r) = qadd (qmul p q) (qmul p r).
Proof. apply quat_ext; cbn; ring. Qed.
Lemma qscale_qadd c p q : qscale c (qadd p q) = qadd (qscale c p) (qscale c q).
Proof. apply quat_ext; cbn; ring. Qed.
Lemma imag_add a b : imag (v3add a b) = qadd (imag a) (imag b).
Proof. apply quat_ext; cbn; ring. Qed.
Lemma dq_of_pmul p q : rigid p -> dq_of_pose (pmul p q) = dq_mul (dq_of_pose p) (dq_of_pose q).
Proof.
  intros U. unfold dq_mul.
  assert (E : ddu (dq_of_pose (pmul p q)) = qadd (qmul (rot p) (ddu (dq_of_pose q))) (qmul (ddu (dq_of_pose p)) (rot q))).
  { rewrite !ddu_imag. cbn [pmul rot tra]. rewrite imag_add, qrot_conjugation by exact U.
    rewrite qmul_qadd_l, qscale_qadd, qscale_qmul_l, qscale_qmul_r. f_equal; f_equal.
    - rewrite <- !qmul_assoc. rewrite (qmul_assoc (qconj (rot p))), qmul_conj_l, qmul_one_l by exact U. reflexivity.
    - rewrite qmul_assoc. reflexivity. }
  change (dq_of_pose (pmul p q)) with (DQ (dre (dq_of_pose (pmul p q))) (ddu (dq_of_pose (pmul p q)))). rewrite E. reflexivity.
Qed.
Lemma dq_of_pose_unit p : rigid p -> dq_unit (dq_of_pose p).
Proof. intros U. split; [exact U|apply dq_of_pose_orthogonal]. Qed.
Lemma dq_of_pose_inj p q : rigid p -> rigid q -> dq_of_pose p = dq_of_pose q -> p = q.
Proof. intros A B E. rewrite <- (pose_of_dq_of_pose p A), <- (pose_of_dq_of_pose q B), E. reflexivity. Qed.

Lemma relative_rigid inv p q : rigid p -> rigid q -> rigid (relative inv p q).
Proof. intros A B. destruct inv; apply rigid_mul; try apply rigid_inv; assumption. Qed.

(** ** all pairs *)
Lemma forall2_length {A B} (Pr : A -> B -> Prop) l1 l2 : Forall2 Pr l1 l2 -> length l1 = length l2.
Proof. induction 1; cbn; congruence. Qed.
Lemma relative_all_length inv l : (2 * length (relative_all inv l) = length l * (length l - 1))%nat.
Proof.
  induction l as [|p t IH]; [reflexivity|]. cbn [relative_all length]. rewrite app_length, map_length.
  destruct (length t) as [|k]; [cbn [relative_all length] in *; lia|]. cbn [Nat.sub] in *. rewrite Nat.sub_0_r in *. nia.
Qed.
Lemma relative_all_Forall inv (Pr : pose -> Prop) l : (forall p q, In p l -> In q l -> Pr (relative inv p q)) -> Forall Pr (relative_all inv l).
Proof.
  induction l as [|p t IH]; intros H; [constructor|]. cbn [relative_all]. apply Forall_app. split.
  - apply Forall_forall. intros x Hx. apply in_map_iff in Hx. destruct Hx as (q & <- & Hq). apply H; [right; exact Hq|left; reflexivity].
  - apply IH. intros. apply H; right; assumption.
Qed.
Lemma relative_all_Forall2 i1 i2 (Pr : pose -> pose -> Prop) : forall l1 l2, length l1 = length l2 ->
  (Forall2 Pr (relative_all i1 l1) (relative_all i2 l2) <->
   forall j k, (j < k < length l1)%nat -> Pr (relative i1 (nth k l1 pone) (nth j l1 pone)) (relative i2 (nth k l2 pone) (nth j l2 pone))).
Proof.
  induction l1 as [|p t IH]; intros [|p2 t2] L; try discriminate.
  - split; [intros _ j k H; cbn in H; lia|constructor].
  - cbn [relative_all length] in *. apply Nat.succ_inj in L.
    assert (M : Forall2 Pr (map (fun q => relative i1 q p) t) (map (fun q => relative i2 q p2) t2) <->
      forall k, (k < length t)%nat -> Pr (relative i1 (nth k t pone) p) (relative i2 (nth k t2 pone) p2)).
    { clear IH. revert t2 L. induction t as [|q t IH]; intros [|q2 t2] L; try discriminate.
      - split; [intros _ k H; cbn in H; lia|constructor].
      - cbn [map length] in *. apply Nat.succ_inj in L. split.
        + intros H. inversion H; subst. intros [|k] Hk; [assumption|]. apply (IH t2 L); [assumption|lia].
        + intros H. constructor; [apply (H 0%nat); lia|]. apply (IH t2 L). intros k Hk. apply (H (S k)). lia. }
    split.
    + intros H. apply Forall2_app_inv_l in H. destruct H as (y1 & y2 & H1 & H2 & E).
      assert (LE : length y1 = length (map (fun q => relative i2 q p2) t2)) by (apply forall2_length in H1; rewrite <- H1, !map_length; exact L).
      assert (y1 = map (fun q => relative i2 q p2) t2 /\ y2 = relative_all i2 t2) as [-> ->].
      { clear -E LE. revert y1 E LE. generalize (map (fun q => relative i2 q p2) t2). induction l as [|x l IH]; intros [|y y1] E LE; try discriminate; cbn in *.
        - split; [reflexivity|symmetry; exact E].
        - injection E as -> E. apply Nat.succ_inj in LE. destruct (IH y1 E LE) as [-> ->]. split; reflexivity. }
      intros [|j] [|k] Hjk; try lia.
      * cbn [nth]. apply M; [exact H1|lia].
      * cbn [nth]. apply (IH t2 L); [exact H2|lia].
    + intros H. apply Forall2_app.
      * apply M. intros k Hk. apply (H 0%nat (S k)). lia.
      * apply (IH t2 L). intros j k Hjk. apply (H (S j) (S k)). lia.
Qed.

(** ** the linear system *)
Definition vec8 (d : dquat) : vect := fun i =>
  match i with
  | 0 => qw (dre d) | 1 => qx (dre d) | 2 => qy (dre d) | 3 => qz (dre d)
  | 4 => qw (ddu d) | 5 => qx (ddu d) | 6 => qy (ddu d) | 7 => qz (ddu d) | _ => 0%R
  end%nat.
(** imaginary parts of a X - X b when the real parts of a and b agree *)
Definition he_residual (a b X : dquat) : nat -> R := fun i =>
  let r := qsub (qmul (dre a) (dre X)) (qmul (dre X) (dre b)) in
  let d := qsub (ddu (dq_mul a X)) (ddu (dq_mul X b)) in
  match i with 0 => qx r | 1 => qy r | 2 => qz r | 3 => qx d | 4 => qy d | 5 => qz d | _ => 0%R end%nat.
Lemma he_block_residual a b X : qw (dre a) = qw (dre b) -> qw (ddu a) = qw (ddu b) ->
  forall i, (i < 6)%nat -> mvec 8 (he_block a b) (vec8 X) i = he_residual a b X i.
Proof.
  destruct a as [[ax ay az aw] [px py pz pw]], b as [[bx by_ bz bw] [rx ry rz rw]], X as [[x y z w] [k l m n]].
  cbn [dre ddu qw]. intros -> -> i Hi.
  unfold mvec. cbn [sum]. unfold he_block, mlist, he_residual, vec8, qsub, qmul, dq_mul, qadd. cbn [dre ddu qx qy qz qw].
  idx i Hi; cbn [List.nth qmul qx qy qz qw]; ring.
Qed.

Lemma qw_cyclic p q : qw (qmul p q) = qw (qmul q p).
Proof. cbn. ring. Qed.
Lemma qmul_cancel_r p q x : unit x -> qmul p x = qmul q x -> p = q.
Proof.
  intros U E. rewrite <- (qmul_one_r p), <- (qmul_one_r q), <- (qmul_conj_r x U), !qmul_assoc, E. reflexivity.
Qed.
Lemma qsub_zero p q : qsub p q = Q 0 0 0 0 -> p = q.
Proof. destruct p as [a b c d], q as [e f g h]. unfold qsub. cbn. intros H. injection H as A B C D. f_equal; lra. Qed.
(** conjugate dual quaternions have equal real parts *)
Lemma conjugate_real_parts a b X : dq_unit X -> dq_mul a X = dq_mul X b ->
  qw (dre a) = qw (dre b) /\ qw (ddu a) = qw (ddu b).
Proof.
  intros [U _] E. destruct a as [a a'], b as [b b'], X as [q q']. unfold dq_mul in E. cbn [dre ddu] in *.
  assert (E1 : qmul a q = qmul q b) by congruence. assert (E2 : qadd (qmul a q') (qmul a' q) = qadd (qmul q b') (qmul q' b)) by congruence. clear E.
  assert (Ea : a = qmul (qmul q b) (qconj q)).
  { apply (qmul_cancel_r _ _ q U). rewrite E1, <- qmul_assoc, qmul_conj_l, qmul_one_r by exact U. reflexivity. }
  split.
  - rewrite Ea, qw_cyclic, qmul_assoc, qmul_conj_l, qmul_one_l by exact U. reflexivity.
  - assert (Ea' : qadd (qmul (qmul a q') (qconj q)) a' = qadd (qmul (qmul q b') (qconj q)) (qmul (qmul q' b) (qconj q))).
    { assert (H := f_equal (fun z => qmul z (qconj q)) E2). cbv beta in H. rewrite !qmul_qadd_l in H.
      rewrite <- (qmul_assoc a' q), qmul_conj_r, qmul_one_r in H by exact U. exact H. }
    assert (H := f_equal qw Ea'). cbn [qadd qw] in H.
    assert (A : qw (qmul (qmul a q') (qconj q)) = qw (qmul (qmul q' b) (qconj q))).
    { rewrite Ea. rewrite qw_cyclic. rewrite <- !qmul_assoc. rewrite (qmul_assoc (qconj q) q), qmul_conj_l, qmul_one_l by exact U.
      rewrite qw_cyclic. rewrite <- !qmul_assoc. rewrite qw_cyclic. rewrite <- !qmul_assoc. rewrite qw_cyclic, <- !qmul_assoc. reflexivity. }
    assert (B : qw (qmul (qmul q b') (qconj q)) = qw b').
    { rewrite qw_cyclic, qmul_assoc, qmul_conj_l, qmul_one_l by exact U. reflexivity. }
    rewrite A, B in H. lra.
Qed.

(** ** a singular value decomposition with 8 columns *)
Definition svd8_contract (rows : nat) (A : mat) (s : vect) (vt : mat) : Prop :=
  (exists U, meq rows 8 A (mmul 8 U (fun k j => s k * vt k j)) /\ meq 8 8 (mmul rows (tr U) U) eye) /\
  meq 8 8 (mmul 8 vt (tr vt)) eye /\ meq 8 8 (mmul 8 (tr vt) vt) eye /\
  (forall i j, (i <= j < 8)%nat -> 0 <= s j <= s i).

Lemma svd8_kernel rows A s vt x : svd8_contract rows A s vt -> 0 < s 5%nat ->
  (forall i, (i < rows)%nat -> mvec 8 A x i = 0) ->
  exists c6 c7, veq 8 x (fun j => c6 * vt 6%nat j + c7 * vt 7%nat j).
Proof.
  intros ((U & EA & OU) & _ & OV & DS) P K.
  assert (Z : forall k, (k < 8)%nat -> s k * mvec 8 vt x k = 0).
  { intros k Hk. set (D := fun k j => s k * vt k j) in *.
    assert (Y : s k * mvec 8 vt x k = mvec 8 D x k).
    { unfold mvec, D. cbn [sum]. ring. }
    rewrite Y, <- (mvec_eye 8 (mvec 8 D x) k Hk).
    transitivity (mvec 8 (mmul rows (tr U) U) (mvec 8 D x) k).
    { apply (mvec_ext 8 8); [|intros ? ?; reflexivity|exact Hk]. intros i j Hi Hj. symmetry. apply OU; assumption. }
    rewrite mvec_mmul. unfold mvec at 1. transitivity (sum rows (fun _ => 0)).
    - apply sum_ext. intros i Hi. rewrite <- mvec_mmul. rewrite <- (mvec_ext 8 rows A _ x x EA ltac:(intros ? ?; reflexivity) i Hi), (K i Hi). ring.
    - clear. induction rows; cbn [sum]; lra. }
  assert (Z' : forall k, (k < 6)%nat -> mvec 8 vt x k = 0).
  { intros k Hk. pose proof (Z k ltac:(lia)) as H. apply Rmult_integral in H. destruct H; [|assumption].
    pose proof (DS k 5%nat ltac:(lia)). lra. }
  exists (mvec 8 vt x 6%nat), (mvec 8 vt x 7%nat). intros j Hj.
  rewrite <- (mvec_eye 8 x j Hj). transitivity (mvec 8 (mmul 8 (tr vt) vt) x j).
  { apply (mvec_ext 8 8); [|intros ? ?; reflexivity|exact Hj]. intros a b Ha Hb. symmetry. apply OV; assumption. }
  rewrite mvec_mmul. unfold mvec at 1. cbn [sum]. rewrite !Z' by lia. unfold tr. ring.
Qed.

Lemma svd8_residual rows A s vt x c6 c7 : svd8_contract rows A s vt ->
  veq 8 x (fun j => c6 * vt 6%nat j + c7 * vt 7%nat j) ->
  vdot rows (mvec 8 A x) (mvec 8 A x) = (s 6%nat * c6) * (s 6%nat * c6) + (s 7%nat * c7) * (s 7%nat * c7) /\
  vdot 8 x x = c6 * c6 + c7 * c7.
Proof.
  intros ((U & EA & OU) & OV & _ & _) X.
  assert (Z : forall k, (k < 8)%nat -> mvec 8 vt x k = c6 * eye k 6%nat + c7 * eye k 7%nat).
  { intros k Hk. rewrite <- (OV k 6%nat Hk ltac:(lia)), <- (OV k 7%nat Hk ltac:(lia)).
    transitivity (mvec 8 vt (fun j => c6 * vt 6%nat j + c7 * vt 7%nat j) k).
    { apply (mvec_ext 8 8); [intros ? ? ? ?; reflexivity|exact X|exact Hk]. }
    unfold mvec, mmul, tr. cbn [sum]. ring. }
  split.
  - set (y := mvec 8 (fun k j => s k * vt k j) x).
    assert (Y : forall k, (k < 8)%nat -> y k = s k * (c6 * eye k 6%nat + c7 * eye k 7%nat)).
    { intros k Hk. rewrite <- (Z k Hk). unfold y, mvec. cbn [sum]. ring. }
    assert (AX : veq rows (mvec 8 A x) (mvec 8 U y)).
    { intros i Hi. unfold y. rewrite <- mvec_mmul. apply (mvec_ext 8 rows); [exact EA|intros ? ?; reflexivity|exact Hi]. }
    rewrite (vdot_ext rows _ _ _ _ AX AX), vdot_tr.
    transitivity (vdot 8 y y).
    { apply vdot_ext; [|intros ? ?; reflexivity]. intros k Hk. rewrite <- mvec_mmul. rewrite <- (mvec_eye 8 y k Hk).
      apply (mvec_ext 8 8); [exact OU|intros ? ?; reflexivity|exact Hk]. }
    unfold vdot. cbn [sum]. rewrite !Y by lia. unfold eye. cbn. ring.
  - rewrite (vdot_ext 8 _ _ _ _ X X).
    pose proof (OV 6%nat 6%nat ltac:(lia) ltac:(lia)) as A66. pose proof (OV 6%nat 7%nat ltac:(lia) ltac:(lia)) as A67.
    pose proof (OV 7%nat 7%nat ltac:(lia) ltac:(lia)) as A77.
    unfold mmul, tr, eye in A66, A67, A77. cbn [Nat.eqb] in A66, A67, A77.
    transitivity (c6 * c6 * sum 8 (fun l => vt 6%nat l * vt 6%nat l) + 2 * (c6 * c7) * sum 8 (fun l => vt 6%nat l * vt 7%nat l) + c7 * c7 * sum 8 (fun l => vt 7%nat l * vt 7%nat l)).
    + unfold vdot. cbn [sum]. ring.
    + rewrite A66, A67, A77. ring.
Qed.

(** ** the combination of the last two singular vectors *)
Lemma qdot_scale c d p q : qdot (qscale c p) (qscale d q) = c * d * qdot p q.
Proof. unfold qdot. cbn. ring. Qed.

Lemma combine_found q q' a1 b1 a2 b2 : unit q -> qdot q q' = 0 -> a1 * b2 - a2 * b1 <> 0 -> a1 * b1 <> 0 ->
  exists e, (e = 1 \/ e = -1) /\
  combine (qscale a1 q) (qadd (qscale a1 q') (qscale b1 q)) (qscale a2 q) (qadd (qscale a2 q') (qscale b2 q))
    = Found (pose_of_dq (DQ (qscale e q) (qscale e q'))).
Proof.
  intros U O D N. assert (A0 : a1 <> 0) by (intros ->; apply N; ring). assert (B0 : b1 <> 0) by (intros ->; apply N; ring).
  assert (UU : qdot q q = 1) by exact U.
  set (u1 := qscale a1 q). set (v1 := qadd (qscale a1 q') (qscale b1 q)). set (u2 := qscale a2 q). set (v2 := qadd (qscale a2 q') (qscale b2 q)).
  assert (D1 : qdot u1 v1 = a1 * b1).
  { transitivity (a1 * a1 * qdot q q' + a1 * b1 * qdot q q); [unfold u1, v1, qdot; cbn; ring|rewrite O, UU; ring]. }
  assert (D2 : qdot u1 v2 + qdot u2 v1 = a1 * b2 + a2 * b1).
  { transitivity (2 * a1 * a2 * qdot q q' + (a1 * b2 + a2 * b1) * qdot q q); [unfold u1, v1, u2, v2, qdot; cbn; ring|rewrite O, UU; ring]. }
  assert (D3 : qdot u2 v2 = a2 * b2).
  { transitivity (a2 * a2 * qdot q q' + a2 * b2 * qdot q q); [unfold u2, v2, qdot; cbn; ring|rewrite O, UU; ring]. }
  assert (N11 : qdot u1 u1 = a1 * a1) by (unfold u1; rewrite qdot_scale, UU; ring).
  assert (N12 : qdot u1 u2 = a1 * a2) by (unfold u1, u2; rewrite qdot_scale, UU; ring).
  assert (N22 : qdot u2 u2 = a2 * a2) by (unfold u2; rewrite qdot_scale, UU; ring).
  set (r := a1 * b2 - a2 * b1) in *. set (good := - b2 / b1). set (bad := - a2 / a1).
  (* what the chosen root gives *)
  assert (FIN : forall s x, s = r / b1 * (r / b1) -> x = good ->
    exists e, (e = 1 \/ e = -1) /\
    (if Rlt_dec 0 s then
      let lambda2 := sqrt (1 / s) in let lambda1 := lambda2 * x in
      let q := qadd (qscale lambda1 u1) (qscale lambda2 u2) in
      let qp := qadd (qscale lambda1 v1) (qscale lambda2 v2) in
      let t := qmul qp (qconj q) in
      Found (P q (V3 (2 * qx t) (2 * qy t) (2 * qz t)))
    else if Rlt_dec s 0 then Failed else NotANumber) = Found (pose_of_dq (DQ (qscale e q) (qscale e q')))).
  { intros s x -> ->. assert (P : 0 < r / b1 * (r / b1)).
    { assert (r / b1 <> 0) by (unfold Rdiv; apply Rmult_integral_contrapositive_currified; [exact D|apply Rinv_neq_0_compat, B0]). nra. }
    destruct (Rlt_dec 0 _) as [_|]; [|lra].
    assert (SQ : sqrt (1 / (r / b1 * (r / b1))) = Rabs (b1 / r)).
    { rewrite <- sqrt_Rsqr_abs. f_equal. unfold Rsqr. field. split; assumption. }
    rewrite SQ. set (l := Rabs (b1 / r)). exists (- l * (r / b1)).
    assert (L : l * good * a1 + l * a2 = - l * (r / b1)) by (unfold good, r; field; exact B0).
    assert (M : l * good * b1 + l * b2 = 0) by (unfold good; field; exact B0).
    split.
    - unfold l. destruct (Rle_dec 0 (b1 / r)) as [G|G].
      + right. rewrite Rabs_right by lra. field. split; assumption.
      + left. rewrite Rabs_left by lra. field. split; assumption.
    - unfold pose_of_dq. cbn [dre ddu]. cbv zeta.
      assert (Q1 : qadd (qscale (l * good) u1) (qscale l u2) = qscale (- l * (r / b1)) q).
      { rewrite <- L. unfold u1, u2. apply quat_ext; cbn; ring. }
      assert (Q2 : qadd (qscale (l * good) v1) (qscale l v2) = qscale (- l * (r / b1)) q').
      { assert (H : qadd (qscale (l * good) v1) (qscale l v2) = qadd (qscale (l * good * a1 + l * a2) q') (qscale (l * good * b1 + l * b2) q))
          by (unfold v1, v2; apply quat_ext; cbn; ring).
        rewrite H, L, M. apply quat_ext; cbn; ring. }
      rewrite Q1, Q2. reflexivity. }
  unfold combine, solve_quadratic. rewrite D1, D2, D3, N11, N12, N22.
  assert (DI : (a1 * b2 + a2 * b1) * (a1 * b2 + a2 * b1) - 2 * (2 * (a1 * b1)) * (a2 * b2) = r * r) by (unfold r; ring).
  rewrite DI. destruct (Rlt_dec (r * r) 0) as [H|_]; [nra|]. destruct (Req_EM_T (2 * (a1 * b1)) 0) as [H|_]; [lra|].
  assert (SR : sqrt (r * r) = Rabs r) by apply sqrt_Rsqr_abs. rewrite SR. cbv beta iota zeta.
  assert (SB : bad * bad * (a1 * a1) + bad * (a1 * a2 * 2) + a2 * a2 = 0) by (unfold bad; field; exact A0).
  assert (SG : good * good * (a1 * a1) + good * (a1 * a2 * 2) + a2 * a2 = r / b1 * (r / b1)) by (unfold good, r; field; exact B0).
  assert (PG : 0 < r / b1 * (r / b1)).
  { assert (r / b1 <> 0) by (unfold Rdiv; apply Rmult_integral_contrapositive_currified; [exact D|apply Rinv_neq_0_compat, B0]). nra. }
  destruct (Rle_dec 0 r) as [G|G].
  - rewrite (Rabs_right r) by lra.
    replace ((- (a1 * b2 + a2 * b1) + r) / (2 * (a1 * b1))) with bad by (unfold bad, r; field; split; assumption).
    replace (- (a1 * b2 + a2 * b1 + r) / (2 * (a1 * b1))) with good by (unfold good, r; field; split; assumption).
    rewrite SB, SG. destruct (Rlt_dec (r / b1 * (r / b1)) 0) as [H|_]; [lra|]. apply FIN; reflexivity.
  - rewrite (Rabs_left r) by lra.
    replace ((- (a1 * b2 + a2 * b1) + - r) / (2 * (a1 * b1))) with good by (unfold good, r; field; split; assumption).
    replace (- (a1 * b2 + a2 * b1 + - r) / (2 * (a1 * b1))) with bad by (unfold bad, r; field; split; assumption).
    rewrite SB, SG. destruct (Rlt_dec 0 (r / b1 * (r / b1))) as [H|]; [|lra].
    destruct (FIN _ _ eq_refl eq_refl) as (e & He & F). exists e. split; [exact He|].
    destruct (Rlt_dec 0 (r / b1 * (r / b1))); [|lra]. exact F.
Qed.

(** whatever is returned is a combination of the two vectors, unit with orthogonal dual part *)
Lemma combine_unit u1 v1 u2 v2 p : combine u1 v1 u2 v2 = Found p ->
  exists c6 c7, let X := DQ (qadd (qscale c6 u1) (qscale c7 u2)) (qadd (qscale c6 v1) (qscale c7 v2)) in
    dq_unit X /\ p = pose_of_dq X.
Proof.
  unfold combine, solve_quadratic.
  set (c := qdot u2 v2). set (b := qdot u1 v2 + qdot u2 v1). set (a := qdot u1 v1).
  destruct (Rlt_dec (b * b - 2 * (2 * a) * c) 0) as [|Dp]; [discriminate|].
  destruct (Req_EM_T (2 * a) 0) as [|A0]; [discriminate|]. cbv zeta.
  set (root := sqrt (b * b - 2 * (2 * a) * c)).
  assert (RR : root * root = b * b - 2 * (2 * a) * c) by (apply sqrt_sqrt; lra).
  set (x1 := (- b + root) / (2 * a)). set (x2 := - (b + root) / (2 * a)).
  assert (A0' : a <> 0) by lra.
  assert (X1 : a * (x1 * x1) + b * x1 + c = 0).
  { unfold x1. transitivity ((root * root - (b * b - 2 * (2 * a) * c)) / (4 * a)); [field; exact A0'|rewrite RR; field; exact A0']. }
  assert (X2 : a * (x2 * x2) + b * x2 + c = 0).
  { unfold x2. transitivity ((root * root - (b * b - 2 * (2 * a) * c)) / (4 * a)); [field; exact A0'|rewrite RR; field; exact A0']. }
  assert (G : forall s x, a * (x * x) + b * x + c = 0 -> s = x * x * qdot u1 u1 + x * (qdot u1 u2 * 2) + qdot u2 u2 ->
    (if Rlt_dec 0 s then
      let lambda2 := sqrt (1 / s) in let lambda1 := lambda2 * x in
      let q := qadd (qscale lambda1 u1) (qscale lambda2 u2) in
      let qp := qadd (qscale lambda1 v1) (qscale lambda2 v2) in
      let t := qmul qp (qconj q) in
      Found (P q (V3 (2 * qx t) (2 * qy t) (2 * qz t)))
    else if Rlt_dec s 0 then Failed else NotANumber) = Found p ->
    exists c6 c7, let X := DQ (qadd (qscale c6 u1) (qscale c7 u2)) (qadd (qscale c6 v1) (qscale c7 v2)) in dq_unit X /\ p = pose_of_dq X).
  { intros s x EX Es. destruct (Rlt_dec 0 s) as [SP|]; [|destruct (Rlt_dec s 0); discriminate].
    cbv zeta. intros E. set (l := sqrt (1 / s)) in *.
    assert (LL : l * l = / s) by (unfold l; rewrite sqrt_sqrt; [field; lra|]; unfold Rdiv; rewrite Rmult_1_l; left; apply Rinv_0_lt_compat, SP).
    exists (l * x), l. split; [split|].
    - unfold unit. cbn [dre].
      transitivity (l * l * (x * x * qdot u1 u1 + x * (qdot u1 u2 * 2) + qdot u2 u2)); [unfold qnorm, qdot; cbn; ring|].
      rewrite <- Es, LL. field. lra.
    - cbn [dre ddu]. transitivity (l * l * (a * (x * x) + b * x + c)); [unfold a, b, c, qdot; cbn; ring|]. rewrite EX. ring.
    - assert (E' := f_equal (fun o => match o with Found y => y | _ => p end) E). cbv beta iota in E'. rewrite <- E'. reflexivity. }
  destruct (Rlt_dec _ _) as [_|_]; apply G; auto.
Qed.

(** ** the two-dimensional kernel *)
Definition dq_eps (d : dquat) : dquat := DQ (Q 0 0 0 0) (dre d).
Definition row_dq (vt : mat) (r : nat) : dquat := DQ (quad_of_row vt r 0) (quad_of_row vt r 4).
Definition dq_lin (c : R) (x : dquat) (d : R) (y : dquat) : dquat :=
  DQ (qadd (qscale c (dre x)) (qscale d (dre y))) (qadd (qscale c (ddu x)) (qscale d (ddu y))).

Lemma vec8_lin X vt c6 c7 : veq 8 (vec8 X) (fun j => c6 * vt 6%nat j + c7 * vt 7%nat j) ->
  X = dq_lin c6 (row_dq vt 6) c7 (row_dq vt 7).
Proof.
  intros H. destruct X as [[x y z w] [k l m n]]. unfold dq_lin, row_dq, quad_of_row. cbn [dre ddu Nat.add].
  pose proof (H 0%nat ltac:(lia)) as H0. pose proof (H 1%nat ltac:(lia)) as H1. pose proof (H 2%nat ltac:(lia)) as H2. pose proof (H 3%nat ltac:(lia)) as H3.
  pose proof (H 4%nat ltac:(lia)) as H4. pose proof (H 5%nat ltac:(lia)) as H5. pose proof (H 6%nat ltac:(lia)) as H6. pose proof (H 7%nat ltac:(lia)) as H7.
  unfold vec8 in *. cbn [dre ddu qx qy qz qw] in *. f_equal; apply quat_ext; cbn [qadd qscale qx qy qz qw]; assumption.
Qed.
Lemma vec8_lin_iff X vt c6 c7 : X = dq_lin c6 (row_dq vt 6) c7 (row_dq vt 7) ->
  veq 8 (vec8 X) (fun j => c6 * vt 6%nat j + c7 * vt 7%nat j).
Proof.
  intros -> i Hi. unfold dq_lin, row_dq, quad_of_row, vec8, qadd, qscale. cbn [dre ddu qx qy qz qw Nat.add]. idx i Hi; reflexivity.
Qed.
Lemma unit_nonzero q c : unit q -> qscale c q = Q 0 0 0 0 -> c = 0.
Proof.
  intros U E. assert (H : qdot (qscale c q) (qscale c q) = 0) by (rewrite E; unfold qdot; cbn; ring).
  rewrite qdot_scale in H. change (qdot q q) with (qnorm q) in H. rewrite U in H. nra.
Qed.
Lemma qadd_zero_scale c q d r : qadd (qscale c q) (qscale d (Q 0 0 0 0)) = Q 0 0 0 0 -> qadd (qscale c r) (qscale d q) = Q 0 0 0 0 ->
  unit q -> c = 0 /\ d = 0.
Proof.
  intros E1 E2 U. assert (C : c = 0).
  { apply (unit_nonzero q c U). rewrite <- E1. apply quat_ext; cbn; ring. }
  split; [exact C|]. apply (unit_nonzero q d U). rewrite <- E2, C. apply quat_ext; cbn; ring.
Qed.

Lemma two_kernel_vectors X r6 r7 c6 c7 d6 d7 : unit (dre X) ->
  X = dq_lin c6 r6 c7 r7 -> dq_eps X = dq_lin d6 r6 d7 r7 ->
  c6 * d7 - c7 * d6 <> 0.
Proof.
  intros U E1 E2 Z.
  assert (G1 : dq_lin d7 X (- c7) (dq_eps X) = DQ (Q 0 0 0 0) (Q 0 0 0 0)).
  { transitivity (dq_lin d7 (dq_lin c6 r6 c7 r7) (- c7) (dq_lin d6 r6 d7 r7)); [congruence|].
    transitivity (dq_lin (c6 * d7 - c7 * d6) r6 0 r6); [unfold dq_lin; cbn [dre ddu]; f_equal; apply quat_ext; cbn; ring|].
    rewrite Z. unfold dq_lin; cbn [dre ddu]; f_equal; apply quat_ext; cbn; ring. }
  assert (G2 : dq_lin d6 X (- c6) (dq_eps X) = DQ (Q 0 0 0 0) (Q 0 0 0 0)).
  { transitivity (dq_lin d6 (dq_lin c6 r6 c7 r7) (- c6) (dq_lin d6 r6 d7 r7)); [congruence|].
    transitivity (dq_lin (- (c6 * d7 - c7 * d6)) r7 0 r6); [unfold dq_lin; cbn [dre ddu]; f_equal; apply quat_ext; cbn; ring|].
    rewrite Z. unfold dq_lin; cbn [dre ddu]; f_equal; apply quat_ext; cbn; ring. }
  unfold dq_lin, dq_eps in G1, G2. cbn [dre ddu] in G1, G2.
  assert (D7 : c7 = 0) by (destruct (qadd_zero_scale d7 (dre X) (- c7) (ddu X)); [congruence|congruence|exact U|lra]).
  assert (D6 : c6 = 0) by (destruct (qadd_zero_scale d6 (dre X) (- c6) (ddu X)); [congruence|congruence|exact U|lra]).
  assert (R0 : dre X = Q 0 0 0 0). { rewrite E1, D6, D7. unfold dq_lin. cbn [dre]. apply quat_ext; cbn; ring. }
  unfold unit in U. rewrite R0 in U. unfold qnorm in U. cbn in U. lra.
Qed.

Lemma kernel_combine X r6 r7 c6 c7 d6 d7 : dq_unit X ->
  X = dq_lin c6 r6 c7 r7 -> dq_eps X = dq_lin d6 r6 d7 r7 ->
  (qdot (dre r6) (ddu r6) = 0 -> combine (dre r6) (ddu r6) (dre r7) (ddu r7) = Failed) /\
  (qdot (dre r6) (ddu r6) <> 0 -> exists e, (e = 1 \/ e = -1) /\
     combine (dre r6) (ddu r6) (dre r7) (ddu r7) = Found (pose_of_dq (DQ (qscale e (dre X)) (qscale e (ddu X))))).
Proof.
  intros [U O] E1 E2. split.
  { intros A0. unfold combine, solve_quadratic. rewrite A0.
    destruct (Rlt_dec _ 0); [reflexivity|]. destruct (Req_EM_T (2 * 0) 0) as [|N]; [reflexivity|]. exfalso. apply N. ring. }
  intros A0. pose proof (two_kernel_vectors X r6 r7 c6 c7 d6 d7 U E1 E2) as D. set (D0 := c6 * d7 - c7 * d6) in *.
  assert (R6 : r6 = dq_lin (d7 / D0) X (- c7 / D0) (dq_eps X)).
  { transitivity (dq_lin (d7 / D0) (dq_lin c6 r6 c7 r7) (- c7 / D0) (dq_lin d6 r6 d7 r7)); [|congruence].
    destruct r6 as [r r'], r7 as [t t']. unfold dq_lin. cbn [dre ddu]. f_equal; apply quat_ext; cbn; unfold D0; field; exact D. }
  assert (R7 : r7 = dq_lin (- d6 / D0) X (c6 / D0) (dq_eps X)).
  { transitivity (dq_lin (- d6 / D0) (dq_lin c6 r6 c7 r7) (c6 / D0) (dq_lin d6 r6 d7 r7)); [|congruence].
    destruct r6 as [r r'], r7 as [t t']. unfold dq_lin. cbn [dre ddu]. f_equal; apply quat_ext; cbn; unfold D0; field; exact D. }
  assert (FD : forall c d, dre (dq_lin c X d (dq_eps X)) = qscale c (dre X)).
  { intros c d. unfold dq_lin, dq_eps. cbn [dre]. apply quat_ext; cbn; ring. }
  assert (FU : forall c d, ddu (dq_lin c X d (dq_eps X)) = qadd (qscale c (ddu X)) (qscale d (dre X))) by reflexivity.
  assert (A1 : qdot (dre r6) (ddu r6) = d7 / D0 * (- c7 / D0)).
  { rewrite R6, FD, FU. transitivity (d7 / D0 * (d7 / D0) * qdot (dre X) (ddu X) + d7 / D0 * (- c7 / D0) * qdot (dre X) (dre X)).
    - unfold qdot. cbn. ring.
    - change (qdot (dre X) (dre X)) with (qnorm (dre X)). rewrite U, O. ring. }
  rewrite R6, R7, !FD, !FU. apply combine_found; [exact U|exact O| |rewrite <- A1; exact A0].
  replace (d7 / D0 * (c6 / D0) - - d6 / D0 * (- c7 / D0)) with (/ D0) by (unfold D0; field; exact D). apply Rinv_neq_0_compat, D.
Qed.

(** the matrix of all motions vanishes on a vector when every block does *)
Lemma he_matrix_rows la lb x : length la = length lb ->
  ((forall i, (i < 6 * length la)%nat -> mvec 8 (he_matrix la lb) x i = 0) <->
   forall k i, (k < length la)%nat -> (i < 6)%nat -> mvec 8 (he_block (nth k la dq0) (nth k lb dq0)) x i = 0).
Proof.
  intros L. split.
  - intros H k i Hk Hi. specialize (H (k * 6 + i)%nat ltac:(lia)). unfold mvec, he_matrix in *.
    rewrite Nat.div_add_l, (Nat.div_small i 6), Nat.add_0_r in H by lia.
    rewrite Nat.add_comm, Nat.mod_add, (Nat.mod_small i 6) in H by lia. exact H.
  - intros H i Hi. unfold he_matrix, mvec in *. apply (H (i / 6)%nat (i mod 6)%nat).
    + apply Nat.div_lt_upper_bound; lia.
    + apply Nat.mod_upper_bound. lia.
Qed.
(** a motion pair a X = X b puts X and e X into the kernel of its block *)
Lemma block_kernel a b X : dq_unit X -> dq_mul a X = dq_mul X b -> forall i, (i < 6)%nat ->
  mvec 8 (he_block a b) (vec8 X) i = 0 /\ mvec 8 (he_block a b) (vec8 (dq_eps X)) i = 0.
Proof.
  intros UX E i Hi. destruct (conjugate_real_parts a b X UX E) as [W1 W2].
  rewrite !he_block_residual by assumption. unfold he_residual, dq_eps. cbn [dre ddu dq_mul].
  assert (E1 : qmul (dre a) (dre X) = qmul (dre X) (dre b)) by exact (f_equal dre E).
  assert (E2 : ddu (dq_mul a X) = ddu (dq_mul X b)) by exact (f_equal ddu E). unfold dq_mul in E2. cbn [ddu] in E2.
  assert (Z : forall q, qsub q q = Q 0 0 0 0) by (intros q; apply quat_ext; cbn; ring).
  rewrite E1, E2, !Z. split; idx i Hi; cbn; try reflexivity; try ring.
  all: pose proof (f_equal qx E1) as F1; pose proof (f_equal qy E1) as F2; pose proof (f_equal qz E1) as F3; cbn in F1, F2, F3; lra.
Qed.
