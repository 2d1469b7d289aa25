(** Lemmas about EssentialPose.v: the decomposition of an essential matrix, triangulation with the
    candidate poses. *)
From Coq Require Import Reals Lra Lia List Arith Bool Setoid Morphisms.
Import ListNotations.
From Verif Require Import Mat MatSetoid Quat QuatProofs QuatMatProofs QuatTrigProofs QuatProps LinAlg LinAlgProps Dlt DltProofs AbsOrient AbsOrientProofs HomographyProps ProjectionDltProps FundamentalProps Triangulate TriangulateProofs TriangulateProps PlanarPose PlanarPoseProofs EssentialPose.
Open Scope R_scope.

(** ** a product of a skew matrix and an orthogonal one that is diagonal *)
Lemma diagonal_core (Q : mat) (b s : vect) nu : orthonormal 3 Q -> nu <> 0 -> (exists i, (i < 3)%nat /\ b i <> 0) ->
  (forall i, (i < 3)%nat -> 0 <= s i) -> s 2%nat <= s 1%nat <= s 0%nat ->
  meq 3 3 (fun i j => s i * eye i j) (mscale nu (mmul 3 (skew3 b) Q)) ->
  b 0%nat = 0 /\ b 1%nat = 0 /\ b 2%nat <> 0 /\ Q 0%nat 0%nat = 0 /\ Q 0%nat 2%nat = 0 /\ Q 1%nat 1%nat = 0 /\ Q 1%nat 2%nat = 0 /\ Q 2%nat 0%nat = 0 /\ Q 2%nat 1%nat = 0 /\
  Q 1%nat 0%nat = - Q 0%nat 1%nat /\ Q 0%nat 1%nat * Q 0%nat 1%nat = 1 /\ Q 2%nat 2%nat * Q 2%nat 2%nat = 1.
Proof.
  intros [OC OR] Nn (i0 & Hi0 & Nb) S0 SD H.
  assert (P0 := S0 0%nat ltac:(lia)). assert (P1 := S0 1%nat ltac:(lia)). assert (P2 := S0 2%nat ltac:(lia)).
  assert (R00 := OR 0%nat 0%nat ltac:(lia) ltac:(lia)). assert (R01 := OR 0%nat 1%nat ltac:(lia) ltac:(lia)). assert (R02 := OR 0%nat 2%nat ltac:(lia) ltac:(lia)).
  assert (R11 := OR 1%nat 1%nat ltac:(lia) ltac:(lia)). assert (R12 := OR 1%nat 2%nat ltac:(lia) ltac:(lia)). assert (R22 := OR 2%nat 2%nat ltac:(lia) ltac:(lia)).
  assert (C20 := OC 2%nat 0%nat ltac:(lia) ltac:(lia)). assert (C21 := OC 2%nat 1%nat ltac:(lia) ltac:(lia)).
  assert (H00 := H 0%nat 0%nat ltac:(lia) ltac:(lia)). assert (H01 := H 0%nat 1%nat ltac:(lia) ltac:(lia)). assert (H02 := H 0%nat 2%nat ltac:(lia) ltac:(lia)).
  assert (H10 := H 1%nat 0%nat ltac:(lia) ltac:(lia)). assert (H11 := H 1%nat 1%nat ltac:(lia) ltac:(lia)). assert (H12 := H 1%nat 2%nat ltac:(lia) ltac:(lia)).
  assert (H20 := H 2%nat 0%nat ltac:(lia) ltac:(lia)). assert (H21 := H 2%nat 1%nat ltac:(lia) ltac:(lia)). assert (H22 := H 2%nat 2%nat ltac:(lia) ltac:(lia)).
  clear H OC OR S0. unfold mscale, mmul, skew3, mlist, tr, eye in *. cbn [sum nth Nat.eqb] in *.
  set (q00 := Q 0%nat 0%nat) in *. set (q01 := Q 0%nat 1%nat) in *. set (q02 := Q 0%nat 2%nat) in *. set (q10 := Q 1%nat 0%nat) in *. set (q11 := Q 1%nat 1%nat) in *. set (q12 := Q 1%nat 2%nat) in *.
  set (q20 := Q 2%nat 0%nat) in *. set (q21 := Q 2%nat 1%nat) in *. set (q22 := Q 2%nat 2%nat) in *.
  set (b0 := b 0%nat) in *. set (b1 := b 1%nat) in *. set (b2 := b 2%nat) in *. set (s0 := s 0%nat) in *. set (s1 := s 1%nat) in *. set (s2 := s 2%nat) in *.
  assert (NB : b0 <> 0 \/ b1 <> 0 \/ b2 <> 0). { unfold b0, b1, b2. destruct i0 as [|[|[|]]]; [| | |lia]; tauto. }
  clearbody q00 q01 q02 q10 q11 q12 q20 q21 q22 b0 b1 b2 s0 s1 s2. clear Nb Hi0 i0 Q b s.
  assert (NN : 0 < nu * nu) by nra.
  assert (L00 : (nu * (- b2 * q10 + b1 * q20)) = s0) by lra.
  assert (L01 : (nu * (- b2 * q11 + b1 * q21)) = 0) by lra.
  assert (L02 : (nu * (- b2 * q12 + b1 * q22)) = 0) by lra.
  assert (L10 : (nu * (b2 * q00 - b0 * q20)) = 0) by lra.
  assert (L11 : (nu * (b2 * q01 - b0 * q21)) = s1) by lra.
  assert (L12 : (nu * (b2 * q02 - b0 * q22)) = 0) by lra.
  assert (L20 : (nu * (- b1 * q00 + b0 * q10)) = 0) by lra.
  assert (L21 : (nu * (- b1 * q01 + b0 * q11)) = 0) by lra.
  assert (L22 : (nu * (- b1 * q02 + b0 * q12)) = s2) by lra.
  assert (E0 : s0 * s0 = nu * nu * (b1 * b1 + b2 * b2)).
  { transitivity ((nu * (- b2 * q10 + b1 * q20)) * (nu * (- b2 * q10 + b1 * q20)) + (nu * (- b2 * q11 + b1 * q21)) * (nu * (- b2 * q11 + b1 * q21)) + (nu * (- b2 * q12 + b1 * q22)) * (nu * (- b2 * q12 + b1 * q22))); [rewrite ?L00, ?L01, ?L02; ring|]. transitivity (nu * nu * ((- b2) * (- b2) * (0 + q10 * q10 + q11 * q11 + q12 * q12) + (- b2) * (b1) * (0 + q10 * q20 + q11 * q21 + q12 * q22) + (b1) * (- b2) * (0 + q10 * q20 + q11 * q21 + q12 * q22) + (b1) * (b1) * (0 + q20 * q20 + q21 * q21 + q22 * q22))); [ring|rewrite ?R00, ?R01, ?R02, ?R11, ?R12, ?R22; ring]. }
  assert (E1 : s1 * s1 = nu * nu * (b0 * b0 + b2 * b2)).
  { transitivity ((nu * (b2 * q00 - b0 * q20)) * (nu * (b2 * q00 - b0 * q20)) + (nu * (b2 * q01 - b0 * q21)) * (nu * (b2 * q01 - b0 * q21)) + (nu * (b2 * q02 - b0 * q22)) * (nu * (b2 * q02 - b0 * q22))); [rewrite ?L10, ?L11, ?L12; ring|]. transitivity (nu * nu * ((b2) * (b2) * (0 + q00 * q00 + q01 * q01 + q02 * q02) + (b2) * (- b0) * (0 + q00 * q20 + q01 * q21 + q02 * q22) + (- b0) * (b2) * (0 + q00 * q20 + q01 * q21 + q02 * q22) + (- b0) * (- b0) * (0 + q20 * q20 + q21 * q21 + q22 * q22))); [ring|rewrite ?R00, ?R01, ?R02, ?R11, ?R12, ?R22; ring]. }
  assert (E2 : s2 * s2 = nu * nu * (b0 * b0 + b1 * b1)).
  { transitivity ((nu * (- b1 * q00 + b0 * q10)) * (nu * (- b1 * q00 + b0 * q10)) + (nu * (- b1 * q01 + b0 * q11)) * (nu * (- b1 * q01 + b0 * q11)) + (nu * (- b1 * q02 + b0 * q12)) * (nu * (- b1 * q02 + b0 * q12))); [rewrite ?L20, ?L21, ?L22; ring|]. transitivity (nu * nu * ((- b1) * (- b1) * (0 + q00 * q00 + q01 * q01 + q02 * q02) + (- b1) * (b0) * (0 + q00 * q10 + q01 * q11 + q02 * q12) + (b0) * (- b1) * (0 + q00 * q10 + q01 * q11 + q02 * q12) + (b0) * (b0) * (0 + q10 * q10 + q11 * q11 + q12 * q12))); [ring|rewrite ?R00, ?R01, ?R02, ?R11, ?R12, ?R22; ring]. }
  assert (X01 : nu * nu * (b0 * b1) = 0).
  { transitivity (- ((nu * (- b2 * q10 + b1 * q20)) * (nu * (b2 * q00 - b0 * q20)) + (nu * (- b2 * q11 + b1 * q21)) * (nu * (b2 * q01 - b0 * q21)) + (nu * (- b2 * q12 + b1 * q22)) * (nu * (b2 * q02 - b0 * q22)))); [|rewrite ?L00, ?L01, ?L02, ?L10, ?L11, ?L12; ring]. transitivity (- (nu * nu * ((- b2) * (b2) * (0 + q00 * q10 + q01 * q11 + q02 * q12) + (- b2) * (- b0) * (0 + q10 * q20 + q11 * q21 + q12 * q22) + (b1) * (b2) * (0 + q00 * q20 + q01 * q21 + q02 * q22) + (b1) * (- b0) * (0 + q20 * q20 + q21 * q21 + q22 * q22)))); [rewrite ?R00, ?R01, ?R02, ?R11, ?R12, ?R22; ring|ring]. }
  assert (X02 : nu * nu * (b0 * b2) = 0).
  { transitivity (- ((nu * (- b2 * q10 + b1 * q20)) * (nu * (- b1 * q00 + b0 * q10)) + (nu * (- b2 * q11 + b1 * q21)) * (nu * (- b1 * q01 + b0 * q11)) + (nu * (- b2 * q12 + b1 * q22)) * (nu * (- b1 * q02 + b0 * q12)))); [|rewrite ?L00, ?L01, ?L02, ?L20, ?L21, ?L22; ring]. transitivity (- (nu * nu * ((- b2) * (- b1) * (0 + q00 * q10 + q01 * q11 + q02 * q12) + (- b2) * (b0) * (0 + q10 * q10 + q11 * q11 + q12 * q12) + (b1) * (- b1) * (0 + q00 * q20 + q01 * q21 + q02 * q22) + (b1) * (b0) * (0 + q10 * q20 + q11 * q21 + q12 * q22)))); [rewrite ?R00, ?R01, ?R02, ?R11, ?R12, ?R22; ring|ring]. }
  assert (X12 : nu * nu * (b1 * b2) = 0).
  { transitivity (- ((nu * (b2 * q00 - b0 * q20)) * (nu * (- b1 * q00 + b0 * q10)) + (nu * (b2 * q01 - b0 * q21)) * (nu * (- b1 * q01 + b0 * q11)) + (nu * (b2 * q02 - b0 * q22)) * (nu * (- b1 * q02 + b0 * q12)))); [|rewrite ?L10, ?L11, ?L12, ?L20, ?L21, ?L22; ring]. transitivity (- (nu * nu * ((b2) * (- b1) * (0 + q00 * q00 + q01 * q01 + q02 * q02) + (b2) * (b0) * (0 + q00 * q10 + q01 * q11 + q02 * q12) + (- b0) * (- b1) * (0 + q00 * q20 + q01 * q21 + q02 * q22) + (- b0) * (b0) * (0 + q10 * q20 + q11 * q21 + q12 * q22)))); [rewrite ?R00, ?R01, ?R02, ?R11, ?R12, ?R22; ring|ring]. }
  assert (Y01 : b0 * b1 = 0) by (apply Rmult_integral in X01; destruct X01; [lra|assumption]).
  assert (Y02 : b0 * b2 = 0) by (apply Rmult_integral in X02; destruct X02; [lra|assumption]).
  assert (Y12 : b1 * b2 = 0) by (apply Rmult_integral in X12; destruct X12; [lra|assumption]).
  assert (L1 : b1 * b1 <= b2 * b2).
  { assert (s2 * s2 <= s1 * s1) by (apply Rmult_le_compat; lra). assert (nu * nu * (b1 * b1) <= nu * nu * (b2 * b2)) by lra. apply (Rmult_le_reg_l (nu * nu)); assumption. }
  assert (L0 : b0 * b0 <= b1 * b1).
  { assert (s1 * s1 <= s0 * s0) by (apply Rmult_le_compat; lra). assert (nu * nu * (b0 * b0) <= nu * nu * (b1 * b1)) by lra. apply (Rmult_le_reg_l (nu * nu)); assumption. }
  assert (Z1 : b1 = 0). { destruct (Req_dec b1 0) as [Z|N]; [exact Z|exfalso]. apply Rmult_integral in Y12. destruct Y12 as [|Z2]; [contradiction|]. rewrite Z2 in L1. nra. }
  assert (Z0 : b0 = 0) by (rewrite Z1 in L0; nra). subst b0 b1. assert (N2 : b2 <> 0) by tauto.
  assert (NB2 : nu * b2 <> 0) by (intros Z; apply Rmult_integral in Z; tauto).
  assert (A11 : q11 = 0) by (apply (Rmult_eq_reg_l (nu * b2)); [lra|exact NB2]). assert (A12 : q12 = 0) by (apply (Rmult_eq_reg_l (nu * b2)); [lra|exact NB2]).
  assert (A00 : q00 = 0) by (apply (Rmult_eq_reg_l (nu * b2)); [lra|exact NB2]). assert (A02 : q02 = 0) by (apply (Rmult_eq_reg_l (nu * b2)); [lra|exact NB2]).
  subst q11 q12 q00 q02.
  assert (S01 : s0 = s1). { assert (s0 * s0 = s1 * s1) by lra. assert (0 <= s0 + s1) by lra. destruct (Req_dec (s0 + s1) 0) as [Z|N]; [lra|]. apply (Rmult_eq_reg_l (s0 + s1)); [lra|exact N]. }
  assert (A10 : q10 = - q01) by (apply (Rmult_eq_reg_l (nu * b2)); [lra|exact NB2]).
  assert (A01 : q01 * q01 = 1) by lra.
  assert (A20 : q20 = 0). { rewrite A10 in R12. assert (q01 * q20 = 0) by lra. apply Rmult_integral in H. destruct H as [Z|]; [rewrite Z in A01; lra|assumption]. }
  assert (A21 : q21 = 0). { assert (q01 * q21 = 0) by lra. apply Rmult_integral in H. destruct H as [Z|]; [rewrite Z in A01; lra|assumption]. }
  subst q20 q21. repeat split; try reflexivity; try assumption; lra.
Qed.

(** ** the decomposition *)
Lemma cancel A B X : meq 3 3 (mmul 3 A B) eye -> meq 3 3 (mmul 3 A (mmul 3 B X)) X.
Proof. intros H. rewrite <- (mA 3 3 3 3), H. apply m1l. Qed.
Lemma scale_mul c A B : meq 3 3 (mmul 3 (mscale c A) B) (mscale c (mmul 3 A B)).
Proof. intros i j _ _. unfold mmul, mscale. rewrite <- sum_scal_l. apply sum_ext. intros; ring. Qed.
Lemma mul_scale c A B : meq 3 3 (mmul 3 A (mscale c B)) (mscale c (mmul 3 A B)).
Proof. intros i j _ _. unfold mmul, mscale. rewrite <- sum_scal_l. apply sum_ext. intros; ring. Qed.
Lemma skew_conj U b : meq 3 3 (mmul 3 (tr U) (mmul 3 (skew3 (mvec 3 U b)) U)) (mscale (det3 U) (skew3 b)).
Proof.
  intros i j Hi Hj. unfold mscale, mmul, tr, skew3, mlist, mvec, det3. destruct i as [|[|[|]]]; [| | |lia]; (destruct j as [|[|[|]]]; [| | |lia]); cbn [sum nth]; ring.
Qed.
Lemma orthonormal_det A : orthonormal 3 A -> det3 A * det3 A = 1.
Proof. intros [H _]. apply det3_ext in H. rewrite det3_mul, det3_tr in H. rewrite H. unfold det3, eye. cbn. ring. Qed.
Lemma det3_33 A : det3 A = det33 A.
Proof. unfold det3, det33. ring. Qed.
Lemma det3_mscale c A : det3 (mscale c A) = c * c * c * det3 A.
Proof. unfold det3, mscale. ring. Qed.
Lemma quarter_det : det3 quarter_turn = 1.
Proof. unfold det3, quarter_turn, mlist. cbn [nth]. ring. Qed.
Lemma positive_sign A d : d * d = 1 -> det3 A = d -> meq 3 3 (positive A) (mscale d A).
Proof.
  intros D E. assert (DD : d = 1 \/ d = -1). { assert ((d - 1) * (d + 1) = 0) by lra. apply Rmult_integral in H. lra. }
  unfold positive. rewrite E. destruct (Rlt_dec d 0) as [L|L]; destruct DD as [-> | -> ]; try lra; intros i j _ _; unfold mscale; ring.
Qed.
Definition turned (U Vt : mat) : mat := mmul 3 U (mmul 3 quarter_turn Vt).
Definition turned_back (U Vt : mat) : mat := mmul 3 U (mmul 3 (tr quarter_turn) Vt).
Lemma turned_det U Vt : det3 (turned U Vt) = det3 U * det3 Vt.
Proof. unfold turned. rewrite !det3_mul, quarter_det. ring. Qed.
Lemma turned_back_det U Vt : det3 (turned_back U Vt) = det3 U * det3 Vt.
Proof. unfold turned_back. rewrite !det3_mul, det3_tr, quarter_det. ring. Qed.

Lemma essential_decomposed E U s Vt Q t mu : svd33_ok E (s, U, Vt) -> s 2%nat <= s 1%nat <= s 0%nat -> orthonormal 3 Q -> det3 Q = 1 ->
  mu <> 0 -> (exists i, (i < 3)%nat /\ t i <> 0) -> meq 3 3 E (mscale mu (mmul 3 (skew3 t) Q)) ->
  (exists c, c <> 0 /\ forall i, (i < 3)%nat -> t i = c * U i 2%nat) /\
  (meq 3 3 Q (positive (turned U Vt)) \/ meq 3 3 Q (positive (turned_back U Vt))).
Proof.
  intros (OU & OV & S0 & HE) SD OQ DQ Nm Nt EE. set (b := mvec 3 (tr U) t). set (M := mmul 3 (tr U) (mmul 3 Q (tr Vt))).
  assert (OU' := OU). assert (OV' := OV). assert (OQ' := OQ). destruct OU' as [UC UR], OV' as [VC VR], OQ' as [QC QR].
  assert (UB : forall i, (i < 3)%nat -> mvec 3 U b i = t i).
  { intros i Hi. unfold b. rewrite <- mvec_mmul. rewrite (mvec_ext 3 3 _ eye t t UR (fun _ _ => eq_refl) i Hi). apply mvec_eye, Hi. }
  assert (OM : orthonormal 3 M).
  { assert (OT : forall A, orthonormal 3 A -> orthonormal 3 (tr A)). { intros A [A1 A2]. split; intros i j Hi Hj; [exact (A2 i j Hi Hj)|exact (A1 i j Hi Hj)]. }
    apply orthonormal_mul; [apply OT, OU|]. apply orthonormal_mul; [exact OQ|apply OT, OV]. }
  assert (DM : det3 M = det3 U * det3 Vt) by (unfold M; rewrite !det3_mul, !det3_tr, DQ; ring).
  assert (DU := orthonormal_det U OU). assert (DV := orthonormal_det Vt OV).
  assert (CORE : meq 3 3 (fun i j => s i * eye i j) (mscale (mu * det3 U) (mmul 3 (skew3 b) M))).
  { assert (L : meq 3 3 (mmul 3 (tr U) (mmul 3 E (tr Vt))) (fun i j => s i * eye i j)).
    { assert (HD : meq 3 3 E (mmul 3 U (mmul 3 (fun i j => s i * eye i j) Vt))).
      { intros i j Hi Hj. rewrite (HE i j Hi Hj). unfold mmul at 1. apply sum_ext. intros k Hk. unfold mmul. rewrite (sum_ext 3 _ (fun l => (s k * Vt l j) * eye k l)) by (intros; ring). rewrite (sum_eye 3 k (fun l => s k * Vt l j) Hk). ring. }
      rewrite HD. rewrite !(mA 3 3 3 3). rewrite (cancel _ _ _ UC), VR, m1r. reflexivity. }
    assert (SK := skew_conj U b).
    assert (ES : meq 3 3 (skew3 (mvec 3 U b)) (skew3 t)). { intros i j Hi Hj. unfold skew3. rewrite !UB by lia. reflexivity. }
    rewrite ES in SK.
    rewrite <- L, EE.
    assert (EQ : meq 3 3 (mmul 3 (skew3 b) M) (mscale (det3 U) (mmul 3 (mmul 3 (tr U) (mmul 3 (skew3 t) U)) M))).
    { rewrite SK. intros i j Hi Hj. unfold mscale, mmul. rewrite <- sum_scal_l. apply sum_ext. intros k _. transitivity ((det3 U * det3 U) * skew3 b i k * M k j); [rewrite DU; ring|ring]. }
    transitivity (mscale mu (mmul 3 (mmul 3 (tr U) (mmul 3 (skew3 t) U)) M)).
    - transitivity (mscale mu (mmul 3 (tr U) (mmul 3 (mmul 3 (skew3 t) Q) (tr Vt)))).
      + rewrite scale_mul, mul_scale. reflexivity.
      + apply mscale_proper; [reflexivity|]. unfold M. rewrite !(mA 3 3 3 3). rewrite (cancel _ _ _ UR). reflexivity.
    - rewrite EQ. intros i j Hi Hj. unfold mscale. transitivity (mu * (det3 U * det3 U) * mmul 3 (mmul 3 (tr U) (mmul 3 (skew3 t) U)) M i j); [rewrite DU; ring|ring]. }
  assert (NB : exists i, (i < 3)%nat /\ b i <> 0).
  { destruct (Req_dec (b 0%nat) 0) as [Z0|N0]; [|exists 0%nat; split; [lia|exact N0]]. destruct (Req_dec (b 1%nat) 0) as [Z1|N1]; [|exists 1%nat; split; [lia|exact N1]].
    destruct (Req_dec (b 2%nat) 0) as [Z2|N2]; [|exists 2%nat; split; [lia|exact N2]]. exfalso. destruct Nt as (i & Hi & N). apply N. rewrite <- (UB i Hi). unfold mvec. cbn [sum]. rewrite Z0, Z1, Z2. ring. }
  assert (NU : mu * det3 U <> 0). { intros Z. apply Rmult_integral in Z. destruct Z as [Z|Z]; [contradiction|]. rewrite Z in DU. lra. }
  destruct (diagonal_core M b s _ OM NU NB S0 SD CORE) as (B0 & B1 & B2 & M00 & M02 & M11 & M12 & M20 & M21 & M10 & M01 & M22). split.
  - exists (b 2%nat). split; [exact B2|]. intros i Hi. rewrite <- (UB i Hi). unfold mvec. cbn [sum]. rewrite B0, B1. ring.
  - set (d := det3 U * det3 Vt) in *. assert (DD : d * d = 1) by (unfold d; transitivity ((det3 U * det3 U) * (det3 Vt * det3 Vt)); [ring|rewrite DU, DV; ring]).
    assert (M22d : M 2%nat 2%nat = d). { rewrite <- DM. unfold det3. rewrite M00, M02, M11, M12, M20, M21, M10. transitivity (M 0%nat 1%nat * M 0%nat 1%nat * M 2%nat 2%nat); [rewrite M01; ring|ring]. }
    assert (EQM : meq 3 3 Q (mmul 3 U (mmul 3 M Vt))).
    { unfold M. rewrite !(mA 3 3 3 3). rewrite (cancel _ _ _ UR), VC, m1r. reflexivity. }
    assert (SG : M 0%nat 1%nat = - d \/ M 0%nat 1%nat = d). { assert ((M 0%nat 1%nat + d) * (M 0%nat 1%nat - d) = 0) by lra. apply Rmult_integral in H. lra. }
    destruct SG as [SG|SG].
    + left. rewrite (positive_sign _ d DD (turned_det U Vt)). rewrite EQM. unfold turned.
      transitivity (mmul 3 U (mmul 3 (mscale d quarter_turn) Vt)).
      * apply mmul_proper; [reflexivity|]. apply mmul_proper; [|reflexivity]. intros i j Hi Hj. unfold mscale, quarter_turn, mlist. destruct i as [|[|[|]]]; [| | |lia]; (destruct j as [|[|[|]]]; [| | |lia]); cbn [nth]; lra.
      * rewrite scale_mul, mul_scale. reflexivity.
    + right. rewrite (positive_sign _ d DD (turned_back_det U Vt)). rewrite EQM. unfold turned_back.
      transitivity (mmul 3 U (mmul 3 (mscale d (tr quarter_turn)) Vt)).
      * apply mmul_proper; [reflexivity|]. apply mmul_proper; [|reflexivity]. intros i j Hi Hj. unfold mscale, tr, quarter_turn, mlist. destruct i as [|[|[|]]]; [| | |lia]; (destruct j as [|[|[|]]]; [| | |lia]); cbn [nth]; lra.
      * rewrite scale_mul, mul_scale. reflexivity.
Qed.
(** the two rotations differ by half a turn about the third column of U *)
Lemma turned_twist U Vt : orthonormal 3 U -> orthonormal 3 Vt ->
  meq 3 3 (positive (turned U Vt)) (mmul 3 (fun i j => 2 * U i 2%nat * U j 2%nat - eye i j) (positive (turned_back U Vt))).
Proof.
  intros OU OV. assert (DU := orthonormal_det U OU). assert (DV := orthonormal_det Vt OV). destruct OU as [UC UR].
  set (d := det3 U * det3 Vt). assert (DD : d * d = 1) by (unfold d; transitivity ((det3 U * det3 U) * (det3 Vt * det3 Vt)); [ring|rewrite DU, DV; ring]).
  rewrite (positive_sign _ d DD (turned_det U Vt)), (positive_sign _ d DD (turned_back_det U Vt)).
  set (D := mlist [[-1; 0; 0]; [0; -1; 0]; [0; 0; 1]]).
  assert (T : meq 3 3 (fun i j => 2 * U i 2%nat * U j 2%nat - eye i j) (mmul 3 U (mmul 3 D (tr U)))).
  { intros i j Hi Hj. rewrite <- (UR i j Hi Hj). unfold mmul, D, mlist, tr. cbn [sum nth]. ring. }
  rewrite T.
  transitivity (mmul 3 U (mmul 3 (mmul 3 D (mscale d (tr quarter_turn))) Vt)).
  - transitivity (mmul 3 U (mmul 3 (mscale d quarter_turn) Vt)).
    + unfold turned. rewrite scale_mul, mul_scale. reflexivity.
    + apply mmul_proper; [reflexivity|]. apply mmul_proper; [|reflexivity]. intros i j Hi Hj. unfold mmul, D, mscale, tr, quarter_turn, mlist. destruct i as [|[|[|]]]; [| | |lia]; (destruct j as [|[|[|]]]; [| | |lia]); cbn [sum nth]; ring.
  - unfold turned_back. rewrite !mul_scale, !scale_mul, !mul_scale. apply mscale_proper; [reflexivity|]. rewrite !(mA 3 3 3 3). rewrite (cancel _ _ _ UC). reflexivity.
Qed.
Lemma positive_rotation U Vt M : orthonormal 3 U -> orthonormal 3 Vt -> orthonormal 3 M -> det3 M = 1 -> rotation (positive (mmul 3 U (mmul 3 M Vt))).
Proof.
  intros OU OV OM DM. assert (DU := orthonormal_det U OU). assert (DV := orthonormal_det Vt OV).
  set (d := det3 U * det3 Vt). assert (DD : d * d = 1) by (unfold d; transitivity ((det3 U * det3 U) * (det3 Vt * det3 Vt)); [ring|rewrite DU, DV; ring]).
  set (A := mmul 3 U (mmul 3 M Vt)). assert (OA : orthonormal 3 A) by (apply orthonormal_mul; [exact OU|apply orthonormal_mul; assumption]).
  assert (DA : det3 A = d) by (unfold A, d; rewrite !det3_mul, DM; ring). assert (E := positive_sign A d DD DA).
  split; [|split].
  - rewrite E. intros i j Hi Hj. rewrite <- (proj2 OA i j Hi Hj). unfold mmul, mscale, tr. apply sum_ext. intros k _. transitivity (d * d * (A i k * A j k)); [ring|rewrite DD; ring].
  - rewrite E. intros i j Hi Hj. rewrite <- (proj1 OA i j Hi Hj). unfold mmul, mscale, tr. apply sum_ext. intros k _. transitivity (d * d * (A k i * A k j)); [ring|rewrite DD; ring].
  - rewrite <- det3_33, (det3_ext _ _ E), det3_mscale, DA. transitivity (d * d * (d * d)); [ring|rewrite DD; ring].
Qed.
Lemma quarter_orthonormal : orthonormal 3 quarter_turn /\ orthonormal 3 (tr quarter_turn).
Proof.
  split; split; intros i j Hi Hj; unfold mmul, tr, quarter_turn, mlist, eye; destruct i as [|[|[|]]]; try lia; destruct j as [|[|[|]]]; try lia; cbn [sum nth Nat.eqb]; ring.
Qed.
