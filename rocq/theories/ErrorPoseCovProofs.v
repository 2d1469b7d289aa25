From Coq Require Import Reals Lra Lia Bool List.
Import ListNotations.
From Verif Require Import Mat Quat QuatProofs CovTransform CovTransformProofs ErrorPose ErrorPoseProofs.
Open Scope R_scope.

Lemma sandwich_add n A B C i j :
  sandwich n A (madd B C) i j = sandwich n A B i j + sandwich n A C i j.
Proof.
  unfold sandwich.
  transitivity (mmul n (madd (mmul n A B) (mmul n A C)) (tr A) i j).
  - apply sum_ext. intros l Hl. f_equal. apply mmul_add_r.
  - apply mmul_add_l.
Qed.

Lemma sandwich_zero n A i j : sandwich n A mzero i j = 0.
Proof.
  unfold sandwich, mmul, mzero. apply sum_zero. intros l Hl. rewrite sum_zero; [ring|].
  intros; ring.
Qed.

Lemma sandwich_eye n C : meq n n (sandwich n eye C) C.
Proof.
  intros i j Hi Hj. unfold sandwich.
  transitivity (mmul n C (tr eye) i j).
  - apply sum_ext. intros l Hl. rewrite mmul_eye_l by assumption. reflexivity.
  - transitivity (mmul n C eye i j); [|apply mmul_eye_r; assumption].
    apply sum_ext. intros l Hl. unfold tr. rewrite (eye_symm n l j Hl Hj). reflexivity.
Qed.

(** ** the chain rule for products of three poses *)
Section Chain.
Variables (a b c : pose).
Hypotheses (Ha : rigid a) (Hb : rigid b) (Hc : rigid c).

Lemma chain11 : meq 6 6 (mmul 6 (mul_jac1 (pmul a b) c) (mul_jac1 a b)) (mul_jac1 a (pmul b c)).
Proof.
  apply mat_ext_app. intros e i Hi. rewrite mvec_mmul.
  assert (Hab : rigid (pmul a b)) by (apply rigid_mul; assumption).
  assert (Hbc : rigid (pmul b c)) by (apply rigid_mul; assumption).
  rewrite !mul_jac1_app by assumption.
  assert (E : veq 6 (mvec 6 (mul_jac1 a b) e)
       (cat6 (v3add (et e) (v3scale 2 (qrot (rot a) (cross3 (er e) (tra b))))) (qrot (qconj (rot b)) (er e)))).
  { intros k Hk. apply mul_jac1_app; assumption. }
  rewrite (et_ext _ _ E), (er_ext _ _ E), et_cat, er_cat. f_equal.
  - cbn [pmul rot tra]. rewrite qrot_mul by assumption.
    rewrite (qrot_cross (rot b)) by assumption. rewrite qrot_conj_r by assumption.
    rewrite <- v3add_assoc. f_equal.
    rewrite <- (qrot_scale (rot a)), <- (qrot_scale (rot a)), <- (qrot_scale (rot a)), <- qrot_add. f_equal.
    generalize (qrot (rot b) (tra c)), (tra b), (er e). intros x y z. d3. un. f_equal; ring.
  - cbn [pmul rot]. rewrite qconj_mul'. rewrite qrot_mul by (apply unit_conj; assumption). reflexivity.
Qed.

Lemma chain12 : meq 6 6 (mmul 6 (mul_jac1 (pmul a b) c) (mul_jac2 a b)) (mmul 6 (mul_jac2 a (pmul b c)) (mul_jac1 b c)).
Proof.
  apply mat_ext_app. intros e i Hi. rewrite !mvec_mmul.
  assert (Hab : rigid (pmul a b)) by (apply rigid_mul; assumption).
  rewrite mul_jac1_app, mul_jac2_app by assumption.
  assert (E : veq 6 (mvec 6 (mul_jac2 a b) e) (cat6 (qrot (rot a) (et e)) (er e))).
  { intros k Hk. apply mul_jac2_app; assumption. }
  assert (E' : veq 6 (mvec 6 (mul_jac1 b c) e)
       (cat6 (v3add (et e) (v3scale 2 (qrot (rot b) (cross3 (er e) (tra c))))) (qrot (qconj (rot c)) (er e)))).
  { intros k Hk. apply mul_jac1_app; assumption. }
  rewrite (et_ext _ _ E), (er_ext _ _ E), (et_ext _ _ E'), (er_ext _ _ E'), !et_cat, !er_cat. f_equal.
  cbn [pmul rot]. rewrite qrot_mul by assumption. rewrite qrot_add, (qrot_scale (rot a)). reflexivity.
Qed.

Lemma chain22 : meq 6 6 (mul_jac2 (pmul a b) c) (mmul 6 (mul_jac2 a (pmul b c)) (mul_jac2 b c)).
Proof.
  apply mat_ext_app. intros e i Hi. rewrite !mvec_mmul.
  assert (Hab : rigid (pmul a b)) by (apply rigid_mul; assumption).
  rewrite !mul_jac2_app by assumption.
  assert (E : veq 6 (mvec 6 (mul_jac2 b c) e) (cat6 (qrot (rot b) (et e)) (er e))).
  { intros k Hk. apply mul_jac2_app; assumption. }
  rewrite (et_ext _ _ E), (er_ext _ _ E), et_cat, er_cat. f_equal.
  cbn [pmul rot]. apply qrot_mul; assumption.
Qed.
End Chain.

Lemma sandwich_congr m n A B C : meq m n A B -> meq m m (sandwich n A C) (sandwich n B C).
Proof. intros H. apply sandwich_ext; [exact H|apply meq_refl]. Qed.

Lemma ep_mul_assoc_cov a b c : rigid (ep a) -> rigid (ep b) -> rigid (ep c) ->
  meq 6 6 (cov (ep_mul (ep_mul a b) c)) (cov (ep_mul a (ep_mul b c))).
Proof.
  intros Ha Hb Hc i j Hi Hj. cbn [ep_mul cov ep]. unfold madd at 1 3.
  change (sandwich 6 (mul_jac1 (pmul (ep a) (ep b)) (ep c))
      (madd (sandwich 6 (mul_jac1 (ep a) (ep b)) (cov a)) (sandwich 6 (mul_jac2 (ep a) (ep b)) (cov b))) i j
    + sandwich 6 (mul_jac2 (pmul (ep a) (ep b)) (ep c)) (cov c) i j =
    sandwich 6 (mul_jac1 (ep a) (pmul (ep b) (ep c))) (cov a) i j +
    sandwich 6 (mul_jac2 (ep a) (pmul (ep b) (ep c)))
      (madd (sandwich 6 (mul_jac1 (ep b) (ep c)) (cov b)) (sandwich 6 (mul_jac2 (ep b) (ep c)) (cov c))) i j).
  rewrite !sandwich_add, !sandwich_sandwich.
  rewrite (sandwich_congr 6 6 _ _ (cov a) (chain11 _ _ _ Ha Hb Hc) i j Hi Hj).
  rewrite (sandwich_congr 6 6 _ _ (cov b) (chain12 _ _ _ Ha Hb Hc) i j Hi Hj).
  rewrite (sandwich_congr 6 6 _ _ (cov c) (chain22 _ _ (ep c) Ha Hb) i j Hi Hj).
  ring.
Qed.

(** ** the inverse of the inverse *)
Lemma inv_inv_app p e i : (i < 6)%nat -> rigid p ->
  mvec 6 (mmul 6 (inv_jac (pinv p)) (inv_jac p)) e i =
  cat6 (v3add (et e) (v3scale 4 (cross3 (tra p) (qrot (rot p) (er e))))) (er e) i.
Proof.
  intros Hi Hp. rewrite mvec_mmul.
  assert (Hp' : rigid (pinv p)) by (apply rigid_inv; assumption).
  rewrite inv_jac_app by assumption.
  assert (E : veq 6 (mvec 6 (inv_jac p) e)
     (cat6 (v3add (v3opp (qrot (qconj (rot p)) (et e))) (v3scale 2 (cross3 (er e) (qrot (qconj (rot p)) (tra p)))))
       (qrot (rot p) (er e)))).
  { intros k Hk. apply inv_jac_app; assumption. }
  rewrite (et_ext _ _ E), (er_ext _ _ E), et_cat, er_cat. cbn [pinv rot tra].
  rewrite qconj_conj, qrot_conj_l by assumption. f_equal.
  rewrite qrot_add, !qrot_opp, qrot_scale, !qrot_conj_r by assumption.
  rewrite (qrot_cross (rot p)) by assumption. rewrite !qrot_conj_r by assumption.
  generalize (qrot (rot p) (er e)), (tra p), (et e). intros x y z. d3. un. f_equal; ring.
Qed.

Lemma inv_inv_cov p : cov (ep_inv (ep_inv p)) = sandwich 6 (inv_jac (pinv (ep p))) (sandwich 6 (inv_jac (ep p)) (cov p)).
Proof. reflexivity. Qed.

(** ** additive error vectors *)
Lemma conv_inverse q : unit q ->
  meq 4 4 (mmul 4 (conv_jac (qconj q)) (conv_jac q)) eye.
Proof.
  intros H i j Hi Hj. d4. un. unfold conv_jac, mmul, mlist.
  idx i Hi; idx j Hj; cbn -[Rmult Rplus Ropp Rminus]; unfold eye; cbn; unit_ring.
Qed.

Lemma conv_jac_left q : meq 4 4 (conv_jac (qconj q)) (qleft q).
Proof.
  intros i j Hi Hj. d4. unfold conv_jac, qleft, mlist, qconj.
  idx i Hi; idx j Hj; cbn; ring.
Qed.

(** composition of two block maps on the same range *)
Lemma block_map_compose n b e A B : (b <= e)%nat -> (e <= n)%nat ->
  meq n n (mmul n (block_map A b e b e) (block_map B b e b e))
     (block_map (mmul (e - b) A B) b e b e).
Proof.
  intros Hb He i j Hi Hj.
  destruct (Nat.leb_spec b i) as [H1|H1]; [destruct (Nat.ltb_spec i e) as [H2|H2]|].
  - rewrite block_map_row by lia. unfold block_map at 2.
    replace ((b <=? i)%nat && (i <? e)%nat) with true by (symmetry; apply andb_true_intro; split;
      [apply Nat.leb_le|apply Nat.ltb_lt]; lia).
    unfold mmul, sub, block_map. cbn [Nat.add].
    destruct (Nat.leb_spec b j), (Nat.ltb_spec j e); cbn [andb].
    + apply sum_ext. intros l Hl. bd. f_equal. f_equal; lia.
    + apply sum_zero. intros l Hl. bd. ring.
    + apply sum_zero. intros l Hl. bd. ring.
    + exfalso; lia.
  - rewrite block_map_row_out by lia. unfold block_map. bd; reflexivity.
  - rewrite block_map_row_out by lia. unfold block_map. bd; reflexivity.
Qed.

Lemma block_map_ext n b e A B : (e <= n)%nat -> meq (e - b) (e - b) A B ->
  meq n n (block_map A b e b e) (block_map B b e b e).
Proof.
  intros He H i j Hi Hj. unfold block_map. bd; try reflexivity. apply H; lia.
Qed.

Lemma block_map_eye n b e : meq n n (block_map eye b e b e) eye.
Proof.
  intros i j Hi Hj. unfold block_map, eye.
  destruct (Nat.leb_spec b i), (Nat.ltb_spec i e); cbn [andb]; try reflexivity.
  destruct (Nat.leb_spec b j), (Nat.ltb_spec j e); cbn [andb].
  - destruct (Nat.eqb_spec (i - b) (j - b)), (Nat.eqb_spec i j); try reflexivity; exfalso; lia.
  - destruct (Nat.eqb_spec i j); [exfalso; lia|reflexivity].
  - destruct (Nat.eqb_spec i j); [exfalso; lia|reflexivity].
  - destruct (Nat.eqb_spec i j); [exfalso; lia|reflexivity].
Qed.

Lemma pad7_symm C : symm 6 C -> symm 7 (pad7 C).
Proof.
  intros H i j Hi Hj. unfold pad7.
  destruct (Nat.eqb_spec i 6), (Nat.eqb_spec j 6); cbn; try reflexivity. apply H; lia.
Qed.

Lemma to_additive_cov p : symm 6 (cov p) ->
  meq 7 7 (covariance (to_additive p))
    (sandwich 7 (block_map (conv_jac (rot (ep p))) 3 7 3 7) (pad7 (cov p))).
Proof.
  intros H. apply (transform_range_cov 7 (error_conversion (rot (ep p))) 3 7 3 7); try lia.
  apply pad7_symm, H.
Qed.

Lemma to_additive_value p : veq 7 (value (to_additive p)) (pose_to_vector (ep p)).
Proof.
  intros i Hi. unfold to_additive. rewrite transform_range_value. unfold error_conversion, vsub_range.
  cbn [fst value]. bd; try reflexivity. f_equal. lia.
Qed.

Lemma from_to_additive p : rigid (ep p) -> symm 6 (cov p) ->
  ep (from_additive (to_additive p)) = ep p /\
  meq 6 6 (cov (from_additive (to_additive p))) (cov p).
Proof.
  intros Hp HS. pose proof (to_additive_value p) as HV. split.
  - unfold from_additive. cbn [ep]. unfold pose_of_vector.
    rewrite !transform_range_value. cbn [Nat.leb Nat.ltb andb Nat.sub].
    unfold error_conversion, vsub_range. cbn [fst Nat.add].
    rewrite !HV by lia. destruct p as [[q t] C]. destruct q, t. reflexivity.
  - intros i j Hi Hj. unfold from_additive. cbn [cov].
    assert (Eq : Q (value (to_additive p) 3%nat) (value (to_additive p) 4%nat)
        (value (to_additive p) 5%nat) (value (to_additive p) 6%nat) = rot (ep p)).
    { rewrite !HV by lia. destruct p as [[q t] C]. destruct q. reflexivity. }
    rewrite Eq. clear Eq.
    pose proof (pad7_symm _ HS) as HS7.
    pose proof (to_additive_cov p HS) as HC.
    assert (HSC : symm 7 (covariance (to_additive p))).
    { apply (symm_ext 7 _ _ (meq_sym _ _ _ _ HC)), symm_sandwich, HS7. }
    pose proof (transform_range_cov 7 (error_conversion (qconj (rot (ep p)))) 3 7 3 7 (to_additive p)
       ltac:(lia) ltac:(lia) ltac:(lia) ltac:(lia) HSC) as H.
    rewrite (H i j) by lia. cbn [error_conversion snd].
    rewrite (sandwich_ext 7 7 _ _ _ _ (meq_refl _ _ _) HC i j) by lia.
    rewrite sandwich_sandwich.
    assert (HE : meq 7 7 (mmul 7 (block_map (conv_jac (qconj (rot (ep p)))) 3 7 3 7)
        (block_map (conv_jac (rot (ep p))) 3 7 3 7)) eye).
    { eapply meq_trans; [apply block_map_compose; lia|].
      eapply meq_trans; [apply block_map_ext; [lia|apply conv_inverse, Hp]|]. apply block_map_eye. }
    rewrite (sandwich_congr 7 7 _ _ _ HE i j) by lia.
    rewrite sandwich_eye by lia. unfold pad7.
    destruct (Nat.eqb_spec i 6); [lia|]. destruct (Nat.eqb_spec j 6); [lia|]. reflexivity.
Qed.
