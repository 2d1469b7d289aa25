(** Concrete hand-eye calibrations: the hypotheses of DualQuaternionProps.v are met, an exact
    data set on which the method fails (C92) and one on which the signs of the quaternions make
    it return a wrong pose (C93). *)
From Coq Require Import Reals Lra Lia List Arith.
Import ListNotations.
From Verif Require Import Mat Quat QuatProofs LinAlg HandEye HandEyeProofs HandEyeProps DualQuaternionProps.
Open Scope R_scope.

(** three eye poses turned by half turns about x and y; X is the identity *)
Definition half_eyes : list pose := [pone; P (Q 1 0 0 0) v3zero; P (Q 0 1 0 0) v3zero].
Definition half_hands : list pose := [pone; P (Q (-1) 0 0 0) v3zero; P (Q 0 (-1) 0 0) v3zero].
Definition half_dq : list dquat := [DQ (Q 1 0 0 0) (Q 0 0 0 0); DQ (Q 0 1 0 0) (Q 0 0 0 0); DQ (Q 0 0 (-1) 0) (Q 0 0 0 0)].
Definition axis_vt (c s : R) : mat := mlist [
  [0;1;0;0;0;0;0;0]; [0;0;1;0;0;0;0;0]; [0;0;0;1;0;0;0;0]; [0;0;0;0;0;1;0;0]; [0;0;0;0;0;0;1;0]; [0;0;0;0;0;0;0;1];
  [c;0;0;0;s;0;0;0]; [-s;0;0;0;c;0;0;0]].
Definition half_s : vect := fun k => if (k <? 6)%nat then sqrt 8 else 0.
Definition half_u : mat :=
  let t := 2 / sqrt 8 in let m := - t in
  mlist [[0;0;0;0;0;0;1;0]; [0;0;m;0;0;0;0;0]; [0;t;0;0;0;0;0;0]; [0;0;0;0;0;0;0;1]; [0;0;0;0;0;m;0;0]; [0;0;0;0;t;0;0;0];
         [0;0;t;0;0;0;0;0]; [0;0;0;0;0;0;0;0]; [m;0;0;0;0;0;0;0]; [0;0;0;0;0;t;0;0]; [0;0;0;0;0;0;0;0]; [0;0;0;m;0;0;0;0];
         [0;t;0;0;0;0;0;0]; [m;0;0;0;0;0;0;0]; [0;0;0;0;0;0;0;0]; [0;0;0;0;t;0;0;0]; [0;0;0;m;0;0;0;0]; [0;0;0;0;0;0;0;0]].

Lemma half_motions : map dq_of_pose (relative_all true half_eyes) = half_dq /\ map dq_of_pose (relative_all false half_hands) = half_dq.
Proof.
  unfold half_eyes, half_hands, half_dq, relative_all, relative, pinv, pmul, pone, dq_of_pose, qrot, v3zero. cbn.
  split; repeat match goal with
    | |- _ :: _ = _ :: _ => f_equal
    | |- DQ _ _ = DQ _ _ => f_equal
    | |- Q _ _ _ _ = _ => apply quat_ext; cbn [qx qy qz qw]
    | |- qmul _ _ = _ => apply quat_ext; cbn
    end; try reflexivity; lra.
Qed.
Example half_exact : length half_eyes = length half_hands /\ Forall rigid half_eyes /\ Forall rigid half_hands /\ rigid pone /\
  hand_eye_exact half_eyes half_hands pone.
Proof.
  assert (R : forall x y z w t, x * x + y * y + z * z + w * w = 1 -> rigid (P (Q x y z w) t)) by (intros; unfold rigid, unit, qnorm; cbn; lra).
  unfold half_eyes, half_hands, pone, qone.
  repeat split; repeat constructor; try (apply R; lra).
  intros j k H. cbn [length] in H.
  assert (J : j = 0%nat \/ j = 1%nat) by lia. assert (K : k = 1%nat \/ k = 2%nat) by lia.
  destruct J as [-> | ->], K as [-> | ->]; try lia; cbn [nth]; unfold pmul, qrot, v3zero; cbn; f_equal; try (apply quat_ext; cbn; ring); apply vec3_ext; cbn; ring.
Qed.
Lemma half_svd c s : c * c + s * s = 1 -> svd8_contract (motions_rows half_eyes) (motions_matrix half_eyes half_hands) half_s (axis_vt c s).
Proof.
  intros CS. unfold motions_matrix, motions_rows. destruct half_motions as [E1 E2]. rewrite E1, E2. cbn [relative_all half_eyes length map app Nat.mul Nat.add].
  assert (R8 : sqrt 8 * sqrt 8 = 8) by (apply sqrt_sqrt; lra). assert (P8 : 0 < sqrt 8) by (apply sqrt_lt_R0; lra).
  assert (N8 : sqrt 8 <> 0) by lra.
  assert (T8 : 2 / sqrt 8 * (2 / sqrt 8) = 1 / 2) by (transitivity (4 / (sqrt 8 * sqrt 8)); [field; exact N8|rewrite R8; field]).
  split; [exists half_u; split|split; [|split]].
  - intros i j Hi Hj. unfold mmul, he_matrix, half_u, axis_vt, half_s. cbn [sum].
    idx i Hi; cbn [Nat.div Nat.modulo Nat.divmod fst snd Nat.sub nth half_dq]; unfold he_block, mlist; cbn [dre ddu qx qy qz qw];
    idx j Hj; cbn [List.nth Nat.ltb Nat.leb]; field; exact N8.
  - intros i j Hi Hj. unfold mmul, tr, half_u, eye. cbn [sum]. set (t := 2 / sqrt 8) in *. unfold mlist.
    idx i Hi; idx j Hj; cbn [List.nth Nat.eqb]; try (ring); lra.
  - intros i j Hi Hj. unfold mmul, tr, axis_vt, eye. cbn [sum]. unfold mlist.
    idx i Hi; idx j Hj; cbn [List.nth Nat.eqb]; try (ring); lra.
  - intros i j Hi Hj. unfold mmul, tr, axis_vt, eye. cbn [sum]. unfold mlist.
    idx i Hi; idx j Hj; cbn [List.nth Nat.eqb]; try (ring); lra.
  - intros i j Hij. unfold half_s. destruct (Nat.ltb_spec i 6), (Nat.ltb_spec j 6); try lia; lra.
Qed.

Lemma half_row6 c s : axis_vt c s 6%nat 0%nat * axis_vt c s 6%nat 4%nat + axis_vt c s 6%nat 1%nat * axis_vt c s 6%nat 5%nat +
  axis_vt c s 6%nat 2%nat * axis_vt c s 6%nat 6%nat + axis_vt c s 6%nat 3%nat * axis_vt c s 6%nat 7%nat = c * s.
Proof. unfold axis_vt, mlist. cbn [List.nth]. ring. Qed.
Lemma half_s5 : 1 / 100 <= half_s 5%nat.
Proof.
  unfold half_s. cbn [Nat.ltb Nat.leb]. apply Rle_trans with (sqrt 1); [rewrite sqrt_1; lra|]. apply sqrt_le_1; lra.
Qed.
(** the premises of [dual_quaternion_complete] are met and X is found *)
Example half_found : let svd := fun _ _ => Some (half_s, axis_vt (4/5) (3/5)) in
  svd_correct svd (motions_rows half_eyes) (motions_matrix half_eyes half_hands) /\
  exists p, he_estimate svd half_eyes half_hands = Found p /\ same_pose p pone.
Proof.
  cbv zeta. set (svd := fun (_ : nat) (_ : mat) => Some (half_s, axis_vt (4/5) (3/5))).
  destruct half_exact as (L & RE & RH & RX & EX).
  assert (C := half_svd (4/5) (3/5) ltac:(lra)).
  assert (SC : svd_correct svd (motions_rows half_eyes) (motions_matrix half_eyes half_hands)).
  { intros s vt E. unfold svd in E. assert (E1 : s = half_s) by congruence. assert (E2 : vt = axis_vt (4/5) (3/5)) by congruence. rewrite E1, E2. exact C. }
  split; [exact SC|].
  destruct (proj2 (dual_quaternion_complete svd half_eyes half_hands pone half_s _ L RE RH RX EX eq_refl C)) as (p & E).
  { split; [exact half_s5|rewrite half_row6; lra]. }
  exists p. split; [exact E|].
  destruct (dual_quaternion_sound svd half_eyes half_hands pone L RE RH RX EX SC) as [F|(p' & F & S)]; rewrite E in F; [discriminate|].
  assert (p = p') by congruence. subst p'. exact S.
Qed.

(** * C92: exact, well conditioned data on which a correct decomposition makes the method fail *)
Theorem dual_quaternion_complete_refuted : exists svd eyes hands X s vt,
  length eyes = length hands /\ Forall rigid eyes /\ Forall rigid hands /\ rigid X /\ hand_eye_exact eyes hands X /\
  svd (motions_rows eyes) (motions_matrix eyes hands) = Some (s, vt) /\
  svd8_contract (motions_rows eyes) (motions_matrix eyes hands) s vt /\ 1 <= s 5%nat /\
  he_estimate svd eyes hands = Failed.
Proof.
  exists (fun _ _ => Some (half_s, axis_vt 1 0)), half_eyes, half_hands, pone, half_s, (axis_vt 1 0).
  set (svd := fun (_ : nat) (_ : mat) => Some (half_s, axis_vt 1 0)).
  destruct half_exact as (L & RE & RH & RX & EX).
  assert (C := half_svd 1 0 ltac:(lra)).
  split; [exact L|]. split; [exact RE|]. split; [exact RH|]. split; [exact RX|]. split; [exact EX|]. split; [reflexivity|]. split; [exact C|].
  split. { unfold half_s. cbn [Nat.ltb Nat.leb]. rewrite <- sqrt_1 at 1. apply sqrt_le_1; lra. }
  assert (SC : svd_correct svd (motions_rows half_eyes) (motions_matrix half_eyes half_hands)).
  { intros s vt E. unfold svd in E. assert (E1 : s = half_s) by congruence. assert (E2 : vt = axis_vt 1 0) by congruence. rewrite E1, E2. exact C. }
  destruct (dual_quaternion_sound svd half_eyes half_hands pone L RE RH RX EX SC) as [F|(p & F & _)]; [exact F|].
  exfalso. destruct (proj1 (dual_quaternion_complete svd half_eyes half_hands pone half_s _ L RE RH RX EX eq_refl C) (ex_intro _ p F)) as [_ N].
  apply N. rewrite half_row6. ring.
Qed.

(** * C93: the sign of a quaternion, which does not change the rotation, changes the result *)
Definition turn_eyes : list pose := [pone; P (Q (3/5) 0 0 (4/5)) v3zero; P (Q 0 (3/5) 0 (4/5)) v3zero].
Definition turn_hands : list pose := [pone; P (Q (-3/5) 0 0 (4/5)) v3zero; P (Q 0 (-3/5) 0 (4/5)) v3zero].
Definition flip_hands : list pose := [pone; P (Q (3/5) 0 0 (-4/5)) v3zero; P (Q 0 (-3/5) 0 (4/5)) v3zero].
Definition half_turn_y : pose := P (Q 0 1 0 0) v3zero.
Definition turn_a : list dquat := [DQ (Q (3/5) 0 0 (4/5)) (Q 0 0 0 0); DQ (Q 0 (3/5) 0 (4/5)) (Q 0 0 0 0); DQ (Q (-12/25) (12/25) (-9/25) (16/25)) (Q 0 0 0 0)].
Definition turn_b : list dquat := [DQ (Q (-3/5) 0 0 (-4/5)) (Q 0 0 0 0); DQ (Q 0 (3/5) 0 (4/5)) (Q 0 0 0 0); DQ (Q (12/25) (-12/25) (9/25) (-16/25)) (Q 0 0 0 0)].
Lemma turn_motions : map dq_of_pose (relative_all true turn_eyes) = turn_a /\ map dq_of_pose (relative_all false flip_hands) = turn_b.
Proof.
  unfold turn_eyes, flip_hands, turn_a, turn_b, relative_all, relative, pinv, pmul, pone, dq_of_pose, qrot, v3zero. cbn.
  split; repeat match goal with
    | |- _ :: _ = _ :: _ => f_equal
    | |- DQ _ _ = DQ _ _ => f_equal
    | |- Q _ _ _ _ = _ => apply quat_ext; cbn [qx qy qz qw]
    | |- qmul _ _ = _ => apply quat_ext; cbn
    end; try reflexivity; lra.
Qed.
Lemma turn_rigid : length turn_eyes = length turn_hands /\ Forall rigid turn_eyes /\ Forall rigid turn_hands /\ Forall rigid flip_hands /\ rigid pone /\
  hand_eye_exact turn_eyes turn_hands pone.
Proof.
  assert (R : forall x y z w t, x * x + y * y + z * z + w * w = 1 -> rigid (P (Q x y z w) t)) by (intros; unfold rigid, unit, qnorm; cbn; lra).
  unfold turn_eyes, turn_hands, flip_hands, pone, qone.
  repeat split; repeat constructor; try (apply R; lra).
  intros j k H. cbn [length] in H.
  assert (J : j = 0%nat \/ j = 1%nat) by lia. assert (K : k = 1%nat \/ k = 2%nat) by lia.
  destruct J as [-> | ->], K as [-> | ->]; try lia; cbn [nth]; unfold pmul, qrot, v3zero; cbn; f_equal; try (apply quat_ext; cbn; lra); apply vec3_ext; cbn; ring.
Qed.
Lemma flip_kernel : let Y := DQ (Q 0 1 0 0) (Q 0 0 0 0) in
  (forall i, (i < 6 * length turn_a)%nat -> mvec 8 (he_matrix turn_a turn_b) (vec8 Y) i = 0) /\
  (forall i, (i < 6 * length turn_a)%nat -> mvec 8 (he_matrix turn_a turn_b) (vec8 (dq_eps Y)) i = 0).
Proof.
  cbv zeta. split; apply he_matrix_rows; try reflexivity; intros k i Hk Hi; cbn [turn_a length] in Hk; unfold mvec, he_block, vec8, dq_eps, mlist; cbn [sum dre ddu qx qy qz qw];
    idx k Hk; cbn [nth turn_a turn_b dre ddu qx qy qz qw]; idx i Hi; cbn [List.nth]; lra.
Qed.
Definition flip_sigma : R := sqrt (2376/625).
Definition flip_s : vect := vlist [flip_sigma; flip_sigma; 6/5; 6/5; 6/5; 6/5; 0; 0].
Definition flip_vt : mat := mlist [
  [1;0;0;0;0;0;0;0]; [0;0;0;0;1;0;0;0]; [0;1;0;0;0;0;0;0]; [0;0;0;1;0;0;0;0]; [0;0;0;0;0;1;0;0]; [0;0;0;0;0;0;0;1];
  [0;0;4/5;0;0;0;3/5;0]; [0;0;-3/5;0;0;0;4/5;0]].
Definition flip_u : mat :=
  let s := / flip_sigma in
  mlist [[6/5*s;0;0;0;0;0;0;0]; [0;0;0;0;0;0;1;0]; [0;0;0;0;0;0;0;0]; [0;6/5*s;0;0;0;0;0;0]; [0;0;0;0;0;0;0;1]; [0;0;0;0;0;0;0;0];
         [0;0;0;1;0;0;0;0]; [0;0;0;0;0;0;0;0]; [0;0;-1;0;0;0;0;0]; [0;0;0;0;0;1;0;0]; [0;0;0;0;0;0;0;0]; [0;0;0;0;-1;0;0;0];
         [-24/25*s;0;0;0;0;0;0;0]; [24/25*s;0;0;0;0;0;0;0]; [-18/25*s;0;0;0;0;0;0;0]; [0;-24/25*s;0;0;0;0;0;0]; [0;24/25*s;0;0;0;0;0;0]; [0;-18/25*s;0;0;0;0;0;0]].
Lemma flip_svd : svd8_contract (motions_rows turn_eyes) (motions_matrix turn_eyes flip_hands) flip_s flip_vt.
Proof.
  unfold motions_matrix, motions_rows. destruct turn_motions as [E1 E2]. rewrite E1, E2. cbn [relative_all turn_eyes length map app Nat.mul Nat.add].
  assert (R8 : flip_sigma * flip_sigma = 2376/625) by (apply sqrt_sqrt; lra). assert (P8 : 0 < flip_sigma) by (apply sqrt_lt_R0; lra).
  assert (N8 : flip_sigma <> 0) by lra.
  assert (T8 : / flip_sigma * / flip_sigma = 625/2376) by (rewrite <- Rinv_mult, R8; field).
  assert (I8 : / flip_sigma * flip_sigma = 1) by (field; exact N8).
  assert (G8 : 6/5 <= flip_sigma) by nra.
  unfold flip_s, flip_vt.
  split; [exists flip_u; unfold flip_u; split|split; [|split]].
  - intros i j Hi Hj. unfold mmul, he_matrix, vlist. cbn [sum].
    idx i Hi; cbn [Nat.div Nat.modulo Nat.divmod fst snd Nat.sub nth turn_a turn_b]; unfold he_block, mlist; cbn [dre ddu qx qy qz qw];
    idx j Hj; cbn [List.nth]; try lra; field; exact N8.
  - intros i j Hi Hj. unfold mmul, tr, eye. cbn [sum]. unfold mlist.
    idx i Hi; idx j Hj; cbn [List.nth Nat.eqb]; lra.
  - intros i j Hi Hj. unfold mmul, tr, eye. cbn [sum]. unfold mlist.
    idx i Hi; idx j Hj; cbn [List.nth Nat.eqb]; lra.
  - intros i j Hi Hj. unfold mmul, tr, eye. cbn [sum]. unfold mlist.
    idx i Hi; idx j Hj; cbn [List.nth Nat.eqb]; lra.
  - intros i j Hij. assert (Hj : (j < 8)%nat) by lia. assert (Hi : (i < 8)%nat) by lia. unfold vlist.
    idx i Hi; idx j Hj; try lia; cbn [List.nth]; lra.
Qed.
Theorem quaternion_sign_refuted :
  length turn_eyes = length turn_hands /\ Forall rigid turn_eyes /\ Forall rigid turn_hands /\
  hand_eye_exact turn_eyes turn_hands pone /\
  Forall2 same_pose flip_hands turn_hands /\
  (forall svd, svd_correct svd (motions_rows turn_eyes) (motions_matrix turn_eyes flip_hands) ->
     ~ exists p, he_estimate svd turn_eyes flip_hands = Found p /\ same_pose p pone) /\
  (exists svd p, svd_correct svd (motions_rows turn_eyes) (motions_matrix turn_eyes flip_hands) /\
     he_estimate svd turn_eyes flip_hands = Found p /\ same_pose p half_turn_y).
Proof.
  destruct turn_rigid as (L & RE & RH & _ & RX & EX).
  split; [exact L|]. split; [exact RE|]. split; [exact RH|]. split; [exact EX|].
  split.
  { constructor; [split; [reflexivity|left; reflexivity]|].
    constructor; [split; [reflexivity|right; apply quat_ext; cbn; lra]|].
    constructor; [split; [reflexivity|left; reflexivity]|constructor]. }
  destruct turn_motions as [E1 E2]. destruct flip_kernel as [K1 K2].
  assert (UY : dq_unit (DQ (Q 0 1 0 0) (Q 0 0 0 0))) by (split; unfold unit, qnorm, qdot; cbn; lra).
  assert (PY : pose_of_dq (DQ (Q 0 1 0 0) (Q 0 0 0 0)) = half_turn_y).
  { unfold pose_of_dq, half_turn_y. cbn [dre ddu]. f_equal. apply vec3_ext; cbn; ring. }
  assert (RR : motions_rows turn_eyes = (6 * length turn_a)%nat) by reflexivity.
  assert (MM : motions_matrix turn_eyes flip_hands = he_matrix turn_a turn_b) by (unfold motions_matrix; rewrite E1, E2; reflexivity).
  assert (HE : forall svd, he_estimate svd turn_eyes flip_hands = he_dual svd turn_a turn_b) by (intros svd; unfold he_estimate; rewrite E1, E2; reflexivity).
  split.
  - intros svd SC (p & F & S). rewrite HE in F. unfold svd_correct in SC. rewrite RR, MM in SC.
    destruct (svd (6 * length turn_a)%nat (he_matrix turn_a turn_b)) as [[s vt]|] eqn:ES; [|unfold he_dual in F; rewrite ES in F; discriminate].
    destruct (solver_on_kernel svd turn_a turn_b s vt _ ES (SC s vt eq_refl) UY K1 K2) as (F1 & F2 & F3).
    destruct (Rlt_dec (s 5%nat) (1/100)) as [H5|H5]; [rewrite (F1 H5) in F; discriminate|].
    destruct (Req_dec (qdot (quad_of_row vt 6 0) (quad_of_row vt 6 4)) 0) as [A|A]; [rewrite F2 in F; [discriminate|lra|exact A]|].
    destruct (F3 ltac:(lra) A) as (p' & F' & S'). assert (p = p') by congruence. subst p'. rewrite PY in S'.
    destruct S as [_ S], S' as [_ S']. unfold half_turn_y, pone, qone, qopp in *. cbn [rot] in *.
    destruct S as [S|S], S' as [S'|S']; rewrite S in S'; assert (B := f_equal qy S'); cbn in B; lra.
  - exists (fun _ _ => Some (flip_s, flip_vt)). set (svd := fun (_ : nat) (_ : mat) => Some (flip_s, flip_vt)).
    assert (C := flip_svd). rewrite RR, MM in C.
    destruct (solver_on_kernel svd turn_a turn_b flip_s flip_vt _ eq_refl C UY K1 K2) as (_ & _ & F3).
    destruct F3 as (p & F & S); [unfold flip_s, vlist; cbn [List.nth]; lra|unfold qdot, quad_of_row, flip_vt, mlist; cbn [Nat.add List.nth qx qy qz qw]; lra|].
    exists p. rewrite HE. split; [|split; [exact F|rewrite <- PY; exact S]].
    intros s vt E. unfold svd in E. assert (X1 : s = flip_s) by congruence. assert (X2 : vt = flip_vt) by congruence. rewrite X1, X2. exact flip_svd.
Qed.

(** a planar motion, premises of [single_axis_rejected] *)
Example planar_motion : let eyes := [pone; P (Q (3/5) 0 0 (4/5)) (V3 1 0 0); P (Q 1 0 0 0) v3zero] in
  Forall rigid eyes /\ Forall (fun a => exists c, V3 (qx (rot a)) (qy (rot a)) (qz (rot a)) = v3scale c (V3 1 0 0)) (relative_all true eyes) /\
  hand_eye_exact eyes (map pinv eyes) pone.
Proof.
  cbv zeta. assert (R : Forall rigid [pone; P (Q (3/5) 0 0 (4/5)) (V3 1 0 0); P (Q 1 0 0 0) v3zero]) by (repeat constructor; unfold rigid, unit, qnorm; cbn; lra).
  split; [exact R|]. split.
  - repeat constructor; eexists; apply vec3_ext; cbn; try (symmetry; apply Rmult_1_r); ring.
  - intros j k H. cbn [length] in H. rewrite Forall_forall in R.
    assert (G : forall i, (i < 3)%nat -> pmul (pmul (nth i [pone; P (Q (3/5) 0 0 (4/5)) (V3 1 0 0); P (Q 1 0 0 0) v3zero] pone) pone)
      (nth i (map pinv [pone; P (Q (3/5) 0 0 (4/5)) (V3 1 0 0); P (Q 1 0 0 0) v3zero]) pone) = pone).
    { intros i Hi. rewrite pmul_one_r. idx i Hi; cbn [nth map]; apply pmul_inv_r, R; cbn; auto. }
    rewrite !G by lia. reflexivity.
Qed.

Print Assumptions half_found.
Print Assumptions dual_quaternion_complete_refuted.
Print Assumptions quaternion_sign_refuted.
