(** Properties of poses with uncertainty (C07, C08, C09, C57, C58, C59). *)
From Coq Require Import Reals Lra Lia Psatz Bool List.
Import ListNotations.
From Coquelicot Require Import Coquelicot.
From Verif Require Import Mat Quat QuatProofs CovTransform CovTransformProofs
  ErrorPose ErrorPoseProofs ErrorPoseCovProofs.
Open Scope R_scope.

(** ** C57: the Jacobians of products are the derivatives of the products, for the
    error model documented in ErrorPose.h *)

Theorem product_left_jacobian p1 p2 : rigid p1 -> rigid p2 ->
  is_jacobian 6 6 (fun e => pose_error (pmul p1 p2) (pmul (perturb p1 e) p2)) (mul_jac1 p1 p2).
Proof. intros H1 H2 e i Hi. apply mul_jac_left; assumption. Qed.

Theorem product_right_jacobian p1 p2 : rigid p1 -> rigid p2 ->
  is_jacobian 6 6 (fun e => pose_error (pmul p1 p2) (pmul p1 (perturb p2 e))) (mul_jac2 p1 p2).
Proof. intros H1 H2 e i Hi. apply mul_jac_right; assumption. Qed.

Theorem point_jacobian p v : rigid p ->
  is_jacobian 6 3 (fun e => vec_of3 (papp (perturb p e) v)) (vec_jac p v).
Proof. intros H e i Hi. apply vec_jac_right; assumption. Qed.

(** the error model itself: a pose with an error is a rigid motion, and the error can be read off again *)
Theorem perturb_error p e : rigid p -> e 3%nat * e 3%nat + e 4%nat * e 4%nat + e 5%nat * e 5%nat <= 1 ->
  rigid (perturb p e) /\ forall i, (i < 6)%nat -> pose_error p (perturb p e) i = e i.
Proof.
  intros U H. assert (S : sqrt (1 - rot2 e) * sqrt (1 - rot2 e) = 1 - (e 3%nat * e 3%nat + e 4%nat * e 4%nat + e 5%nat * e 5%nat)) by (rewrite sqrt_sqrt; unfold rot2; lra).
  set (w := sqrt (1 - rot2 e)) in *. split.
  - change (unit (qmul (rot p) (Q (e 3%nat) (e 4%nat) (e 5%nat) w))). change (unit (rot p)) in U. revert U. destruct (rot p) as [a b c d]. unfold unit. un. cbn. intros U.
    transitivity ((a * a + b * b + c * c + d * d) * (e 3%nat * e 3%nat + e 4%nat * e 4%nat + e 5%nat * e 5%nat + w * w)); [ring|]. rewrite U, S. ring.
  - intros i I. unfold pose_error, perturb. fold w. cbn [rot tra]. rewrite qmul_assoc, (qmul_conj_l (rot p) U), qmul_one_l.
    do 6 (destruct i as [|i]; [destruct p as [q [x y z]]; unfold vlist, v3add; cbn; try ring; reflexivity|]). lia.
Qed.

(** ... a Jacobian is unique, so these statements pin down every entry *)
Theorem jacobian_unique n m f J K : is_jacobian n m f J -> is_jacobian n m f K -> meq m n J K.
Proof.
  intros HJ HK. apply mat_ext_app. intros e i Hi.
  rewrite <- (is_derive_unique _ _ _ (HJ e i Hi)). apply is_derive_unique. apply HK, Hi.
Qed.

(** the covariance of a product adds both propagated covariances, is symmetric positive
    semidefinite, and does not depend on how a product of three is bracketed *)
Theorem product_associative a b c : rigid (ep a) -> rigid (ep b) -> rigid (ep c) ->
  ep (ep_mul (ep_mul a b) c) = ep (ep_mul a (ep_mul b c)) /\
  meq 6 6 (cov (ep_mul (ep_mul a b) c)) (cov (ep_mul a (ep_mul b c))).
Proof.
  intros Ha Hb Hc. split.
  - cbn [ep_mul ep]. symmetry. apply pmul_assoc; assumption.
  - apply ep_mul_assoc_cov; assumption.
Qed.

(** the variants with one exact operand are the general product with zero covariance *)
Theorem product_exact_operand a b p :
  meq 6 6 (cov (ep_p_mul a p)) (cov (ep_mul a (EP p mzero))) /\
  meq 6 6 (cov (p_ep_mul p b)) (cov (ep_mul (EP p mzero) b)) /\
  ep (ep_p_mul a p) = ep (ep_mul a (EP p mzero)) /\ ep (p_ep_mul p b) = ep (ep_mul (EP p mzero) b).
Proof.
  repeat split; intros i j Hi Hj; cbn [ep_p_mul p_ep_mul ep_mul cov ep]; unfold madd.
  - change (mmul 6 (mmul 6 (mul_jac2 (ep a) p) mzero) (tr (mul_jac2 (ep a) p)) i j)
      with (sandwich 6 (mul_jac2 (ep a) p) mzero i j). rewrite sandwich_zero. ring.
  - change (mmul 6 (mmul 6 (mul_jac1 p (ep b)) mzero) (tr (mul_jac1 p (ep b))) i j)
      with (sandwich 6 (mul_jac1 p (ep b)) mzero i j). rewrite sandwich_zero. ring.
Qed.

(** an exact identity pose is neutral, covariance included *)
Theorem product_neutral a : rigid (ep a) ->
  ep (ep_mul a (EP pone mzero)) = ep a /\ ep (ep_mul (EP pone mzero) a) = ep a /\
  meq 6 6 (cov (ep_mul a (EP pone mzero))) (cov a) /\
  meq 6 6 (cov (ep_mul (EP pone mzero) a)) (cov a).
Proof.
  intros Ha. assert (H1 : rigid pone) by apply unit_one.
  split; [apply pmul_one_r|]. split; [apply pmul_one_l|].
  assert (E1 : meq 6 6 (mul_jac1 (ep a) pone) eye).
  { apply mat_ext_app. intros e i Hi. rewrite mul_jac1_app by assumption.
    transitivity (e i); [|symmetry; apply (mmul_eye_l 6 (fun l _ => e l) i 0 Hi)].
    replace (cross3 (er e) (tra pone)) with v3zero by (unfold v3zero; un; f_equal; ring).
    replace (qrot (rot (ep a)) v3zero) with v3zero by (destruct (rot (ep a)); un; f_equal; ring).
    cbn [rot pone]. replace (qconj qone) with qone by (un; f_equal; ring). rewrite qrot_one.
    unfold cat6, vlist, et, er, v3zero. un. idx i Hi; cbn; ring. }
  assert (E2 : meq 6 6 (mul_jac2 pone (ep a)) eye).
  { apply mat_ext_app. intros e i Hi. rewrite mul_jac2_app by assumption.
    transitivity (e i); [|symmetry; apply (mmul_eye_l 6 (fun l _ => e l) i 0 Hi)].
    cbn [rot pone]. rewrite qrot_one. unfold cat6, vlist, et, er. idx i Hi; reflexivity. }
  split; intros i j Hi Hj; cbn [ep_mul cov ep]; unfold madd.
  - change (sandwich 6 (mul_jac1 (ep a) pone) (cov a) i j + sandwich 6 (mul_jac2 (ep a) pone) mzero i j = cov a i j).
    rewrite sandwich_zero, (sandwich_congr 6 6 _ _ _ E1 i j Hi Hj), sandwich_eye by assumption. ring.
  - change (sandwich 6 (mul_jac1 pone (ep a)) mzero i j + sandwich 6 (mul_jac2 pone (ep a)) (cov a) i j = cov a i j).
    rewrite sandwich_zero, (sandwich_congr 6 6 _ _ _ E2 i j Hi Hj), sandwich_eye by assumption. ring.
Qed.

Theorem product_valid a b : symm 6 (cov a) -> symm 6 (cov b) -> psd 6 (cov a) -> psd 6 (cov b) ->
  symm 6 (cov (ep_mul a b)) /\ psd 6 (cov (ep_mul a b)).
Proof.
  intros Sa Sb Pa Pb. cbn [ep_mul cov]. split.
  - intros i j Hi Hj. unfold madd.
    pose proof (symm_sandwich 6 6 (mul_jac1 (ep a) (ep b)) _ Sa i j Hi Hj) as E1.
    pose proof (symm_sandwich 6 6 (mul_jac2 (ep a) (ep b)) _ Sb i j Hi Hj) as E2.
    unfold sandwich in E1, E2. rewrite E1, E2. reflexivity.
  - apply psd_add; [exact (psd_sandwich 6 6 _ _ Pa)|exact (psd_sandwich 6 6 _ _ Pb)].
Qed.

Theorem interpolation_valid x y t r : symm 6 (cov x) -> symm 6 (cov y) -> psd 6 (cov x) -> psd 6 (cov y) ->
  ep_lerp x y t = Some r -> symm 6 (cov r) /\ psd 6 (cov r).
Proof.
  intros Sx Sy Px Py. unfold ep_lerp. destruct (pose_lerp (ep x) (ep y) t) as [p|]; [|discriminate].
  intros [= <-]. cbn [cov]. split.
  - intros i j Hi Hj. unfold madd, mscale. rewrite Sx, Sy by assumption. reflexivity.
  - apply psd_add; apply psd_scale; try assumption; apply Rle_0_sqr.
Qed.

(** ** C07: inverting twice *)

(** what the inverse's covariance should be derived from: the first three rows of the
    Jacobian are the derivative, the last three are its negative *)
Theorem inverse_jacobian_partial p : rigid p ->
  is_jacobian 6 6 (fun e => pose_error (pinv p) (pinv (perturb p e)))
    (fun i j => if Nat.ltb i 3 then inv_jac p i j else - inv_jac p i j).
Proof.
  intros H e i Hi. generalize (inv_jac_derive p e i Hi H).
  destruct (Nat.ltb_spec i 3) as [L|L]; intros HD.
  - replace (mvec 6 (fun i0 j => if Nat.ltb i0 3 then inv_jac p i0 j else - inv_jac p i0 j) e i)
      with (mvec 6 (inv_jac p) e i); [exact HD|].
    apply sum_ext. intros l Hl. destruct (Nat.ltb_spec i 3); [reflexivity|lia].
  - replace (mvec 6 (fun i0 j => if Nat.ltb i0 3 then inv_jac p i0 j else - inv_jac p i0 j) e i)
      with (- mvec 6 (inv_jac p) e i); [exact HD|].
    unfold mvec. rewrite <- sum_opp. apply sum_ext. intros l Hl.
    destruct (Nat.ltb_spec i 3); [lia|ring].
Qed.

(** the Jacobian used by [operator~] is never the derivative of the inverse *)
Theorem inverse_jacobian_refuted p : rigid p ->
  ~ is_jacobian 6 6 (fun e => pose_error (pinv p) (pinv (perturb p e))) (inv_jac p).
Proof.
  intros H HJ.
  pose proof (jacobian_unique _ _ _ _ _ HJ (inverse_jacobian_partial p H)) as E.
  assert (Z : forall i j, (3 <= i < 6)%nat -> (j < 6)%nat -> inv_jac p i j = 0).
  { intros i j Hi Hj. specialize (E i j ltac:(lia) Hj). cbn beta in E.
    destruct (Nat.ltb_spec i 3); [lia|lra]. }
  pose proof (Z 3%nat 3%nat ltac:(lia) ltac:(lia)) as Z33.
  pose proof (Z 3%nat 4%nat ltac:(lia) ltac:(lia)) as Z34.
  pose proof (Z 3%nat 5%nat ltac:(lia) ltac:(lia)) as Z35.
  pose proof (inv_jac_app p (vlist [0;0;0;1;0;0]) 3%nat ltac:(lia) H) as A3.
  pose proof (inv_jac_app p (vlist [0;0;0;1;0;0]) 4%nat ltac:(lia) H) as A4.
  pose proof (inv_jac_app p (vlist [0;0;0;1;0;0]) 5%nat ltac:(lia) H) as A5.
  unfold mvec in A3, A4, A5. cbn [sum] in A3, A4, A5.
  rewrite !Z in A3, A4, A5 by lia.
  assert (N : dot3 (qrot (rot p) (V3 1 0 0)) (qrot (rot p) (V3 1 0 0)) = 1).
  { rewrite qrot_dot by exact H. un. ring. }
  unfold er, cat6, vlist in A3, A4, A5. cbn [nth] in A3, A4, A5. unfold dot3 in N.
  rewrite <- A3, <- A4, <- A5 in N. lra.
Qed.

(** an exact description of what inverting twice does to the error: the translation
    error acquires four times the cross product of the translation with the rotated
    rotation error *)
Theorem double_inverse_map p : rigid p -> forall e,
  veq 6 (mvec 6 (mmul 6 (inv_jac (pinv p)) (inv_jac p)) e)
    (cat6 (v3add (et e) (v3scale 4 (cross3 (tra p) (qrot (rot p) (er e))))) (er e)).
Proof. intros H e i Hi. apply inv_inv_app; assumption. Qed.

Theorem double_inverse_covariance p : rigid (ep p) ->
  ep (ep_inv (ep_inv p)) = ep p /\
  meq 6 6 (cov (ep_inv (ep_inv p)))
    (sandwich 6 (mmul 6 (inv_jac (pinv (ep p))) (inv_jac (ep p))) (cov p)).
Proof.
  intros H. split.
  - cbn [ep_inv ep]. apply pinv_inv, H.
  - intros i j _ _. rewrite inv_inv_cov. apply sandwich_sandwich.
Qed.

(** so the claim holds for pure rotations ... *)
Theorem double_inverse_partial p : rigid (ep p) -> tra (ep p) = v3zero ->
  meq 6 6 (cov (ep_inv (ep_inv p))) (cov p).
Proof.
  intros H Ht. eapply meq_trans; [apply double_inverse_covariance, H|].
  eapply meq_trans; [apply sandwich_congr with (B := eye)|apply sandwich_eye].
  apply mat_ext_app. intros e i Hi. rewrite inv_inv_app by assumption. rewrite Ht.
  transitivity (e i); [|symmetry; apply (mmul_eye_l 6 (fun l _ => e l) i 0 Hi)].
  generalize (qrot (rot (ep p)) (er e)). intros w.
  unfold cat6, vlist, et, er, v3zero. un. idx i Hi; cbn; ring.
Qed.

(** ... and for the rotation part of the covariance always ... *)
Theorem double_inverse_rotation p i j : rigid (ep p) ->
  (3 <= i < 6)%nat -> (3 <= j < 6)%nat ->
  cov (ep_inv (ep_inv p)) i j = cov p i j.
Proof.
  intros H Hi Hj. destruct (double_inverse_covariance p H) as [_ E]. rewrite E by lia.
  set (K := mmul 6 (inv_jac (pinv (ep p))) (inv_jac (ep p))).
  assert (HK : forall k l, (3 <= k < 6)%nat -> (l < 6)%nat -> K k l = eye k l).
  { intros k l Hk Hl. rewrite <- (mvec_eye_col 6 K k l Hl). unfold K.
    rewrite inv_inv_app by (try assumption; lia). unfold cat6, vlist, er.
    destruct Hk as [Hk1 Hk2]. do 6 (destruct k as [|k]; [try lia; reflexivity|]). lia. }
  unfold sandwich, mmul at 1.
  transitivity (mmul 6 (mmul 6 eye (cov p)) (tr eye) i j); [|exact (sandwich_eye 6 (cov p) i j ltac:(lia) ltac:(lia))].
  apply sum_ext. intros l Hl. f_equal.
  - apply sum_ext. intros k Hk. f_equal. apply HK; lia.
  - unfold tr. apply HK; lia.
Qed.

(** ... but not in general: with identity covariance and unit translation the variance
    along y grows from 1 to 17 *)
Definition e_of (v : vect) : R := v 1%nat.
Theorem double_inverse_refuted : exists p, rigid (ep p) /\ symm 6 (cov p) /\ psd 6 (cov p) /\
  cov p 1%nat 1%nat = 1 /\ cov (ep_inv (ep_inv p)) 1%nat 1%nat = 17.
Proof.
  exists (EP (P qone (V3 1 0 0)) eye).
  assert (H : rigid (P qone (V3 1 0 0))) by apply unit_one.
  split; [exact H|]. split; [apply eye_symm|]. split.
  { apply psd_eye. }
  split; [reflexivity|].
  set (p := EP (P qone (V3 1 0 0)) eye).
  destruct (double_inverse_covariance p H) as [_ E]. rewrite E by lia.
  set (K := mmul 6 (inv_jac (pinv (ep p))) (inv_jac (ep p))).
  assert (HK : forall l, (l < 6)%nat -> K 1%nat l =
     e_of (cat6 (v3add (et (fun i => eye i l)) (v3scale 4 (cross3 (V3 1 0 0) (er (fun i => eye i l))))) v3zero)).
  { intros l Hl. rewrite <- (mvec_eye_col 6 K 1%nat l Hl). unfold K, p.
    rewrite inv_inv_app by (try exact H; lia). cbn [rot tra ep]. rewrite qrot_one. reflexivity. }
  clearbody K. unfold sandwich, tr, p, mmul. cbn [cov sum].
  rewrite !HK by lia. unfold e_of, cat6, vlist, et, er, cross3, v3add, v3scale, eye. cbn. lra.
Qed.

(** ** C08: additive error vectors and back *)
Theorem additive_round_trip p : rigid (ep p) -> symm 6 (cov p) ->
  ep (from_additive (to_additive p)) = ep p /\
  meq 6 6 (cov (from_additive (to_additive p))) (cov p).
Proof. apply from_to_additive. Qed.

Theorem additive_valid p : symm 6 (cov p) -> psd 6 (cov p) ->
  symm 7 (covariance (to_additive p)) /\ psd 7 (covariance (to_additive p)).
Proof.
  intros HS HP. pose proof (to_additive_cov p HS) as E. split.
  - apply (symm_ext 7 _ _ (meq_sym _ _ _ _ E)), symm_sandwich, pad7_symm, HS.
  - apply (psd_ext 7 _ _ (meq_sym _ _ _ _ E)), psd_sandwich.
    intros x. unfold quad, vdot, mvec. cbn [sum].
    assert (D : forall i, (i < 6)%nat -> 0 <= cov p i i).
    { intros i Hi. pose proof (HP (fun l => eye l i)) as HQ. unfold quad, vdot in HQ.
      rewrite (sum_single 6 _ i Hi) in HQ.
      - rewrite (mvec_eye_col 6 (cov p) i i Hi) in HQ. unfold eye in HQ. rewrite Nat.eqb_refl in HQ. lra.
      - intros l Hl Hne. unfold eye at 1. destruct (Nat.eqb_spec l i); [congruence|ring]. }
    pose proof (HP x) as Hx. unfold quad, vdot, mvec in Hx. cbn [sum] in Hx.
    pose proof (D 3%nat ltac:(lia)) as D3. pose proof (D 4%nat ltac:(lia)) as D4.
    pose proof (D 5%nat ltac:(lia)) as D5.
    unfold pad7. cbn [Nat.eqb andb orb].
    assert (0 <= (x 6%nat * x 6%nat) * (cov p 3%nat 3%nat + cov p 4%nat 4%nat + cov p 5%nat 5%nat)).
    { apply Rmult_le_pos; [apply Rle_0_sqr|lra]. }
    lra.
Qed.

(** ** C58: the additive error itself *)

(** the four entries of [q r] depend on the error quaternion [r] through [qleft q] ... *)
Theorem additive_error_map q x y z w :
  let d := qmul q (Q x y z w) in
  veq 4 (mvec 4 (qleft q) (vlist [x; y; z; w])) (vlist [qx d; qy d; qz d; qw d]).
Proof.
  intros d i Hi. subst d. d4. un. unfold mvec, qleft, mlist, vlist. idx i Hi; cbn; ring.
Qed.

(** ... which is the Jacobian of the opposite conversion; the function converting to
    additive errors uses the one for the conjugate rotation *)
Theorem conversion_jacobians q : unit q ->
  meq 4 4 (conv_jac (qconj q)) (qleft q) /\ meq 4 4 (conv_jac q) (qleft (qconj q)).
Proof.
  intros H. split; [apply conv_jac_left|].
  intros i j Hi Hj. rewrite <- conv_jac_left by assumption.
  rewrite qconj_conj. reflexivity.
Qed.

(** so for a rotation about x and an error about y the reported covariance of the
    quaternion's y and z entries has the wrong sign, whatever variance is assumed for
    the scalar entry *)
Theorem additive_covariance_refuted : exists p, rigid (ep p) /\ symm 6 (cov p) /\ psd 6 (cov p) /\
  covariance (to_additive p) 4%nat 5%nat = - (12 / 25) /\
  forall ww, sandwich 4 (qleft (rot (ep p)))
     (mlist [[cov p 3%nat 3%nat; cov p 3%nat 4%nat; cov p 3%nat 5%nat; 0];
             [cov p 4%nat 3%nat; cov p 4%nat 4%nat; cov p 4%nat 5%nat; 0];
             [cov p 5%nat 3%nat; cov p 5%nat 4%nat; cov p 5%nat 5%nat; 0];
             [0; 0; 0; ww]]) 1%nat 2%nat = 12 / 25.
Proof.
  exists (EP (P (Q (3/5) 0 0 (4/5)) v3zero) (fun i j => if andb (Nat.eqb i 4) (Nat.eqb j 4) then 1 else 0)).
  split. { unfold rigid, unit, qnorm. cbn. lra. }
  assert (HS : symm 6 (fun i j => if andb (Nat.eqb i 4) (Nat.eqb j 4) then 1 else 0)).
  { intros i j Hi Hj. destruct (Nat.eqb_spec i 4), (Nat.eqb_spec j 4); reflexivity. }
  split; [exact HS|]. split.
  { intros x. unfold quad, vdot, mvec. cbn. nra. }
  split.
  - rewrite (to_additive_cov (EP (P (Q (3/5) 0 0 (4/5)) v3zero) _) HS 4%nat 5%nat) by lia.
    unfold sandwich, mmul, block_map, conv_jac, mlist, tr, pad7, eye. cbn. lra.
  - intros ww. unfold sandwich, mmul, qleft, mlist, tr. cbn. lra.
Qed.

(** ** C09: uncertain pose times uncertain point *)

(** the error-free point *)
Theorem point_covariance a b : psd 6 (cov a) -> symm 6 (cov a) ->
  fst (ep_vec a b) = papp (ep a) b /\
  meq 3 3 (snd (ep_vec a b)) (sandwich 6 (vec_jac (ep a) b) (cov a)) /\
  symm 3 (snd (ep_vec a b)) /\ psd 3 (snd (ep_vec a b)).
Proof.
  intros HP HS. repeat split.
  - exact (symm_sandwich 3 6 _ _ HS).
  - exact (psd_sandwich 3 6 _ _ HP).
Qed.

(** transforming by a product is transforming twice, when the second step propagates the
    covariance of its point *)
Theorem point_product_covariance a b v : rigid (ep a) -> rigid (ep b) ->
  fst (ep_vec (ep_mul a b) v) = papp (ep a) (papp (ep b) v) /\
  meq 3 3 (snd (ep_vec (ep_mul a b) v))
    (madd (snd (ep_vec a (papp (ep b) v))) (sandwich 3 (qmat (rot (ep a))) (snd (ep_vec b v)))).
Proof.
  intros Ha Hb. split; [apply papp_mul; assumption|].
  assert (Hab : rigid (pmul (ep a) (ep b))) by (apply rigid_mul; assumption).
  assert (C1 : meq 3 6 (mmul 6 (vec_jac (pmul (ep a) (ep b)) v) (mul_jac1 (ep a) (ep b)))
     (vec_jac (ep a) (papp (ep b) v))).
  { apply mat_ext_app. intros e i Hi. rewrite mvec_mmul.
    rewrite !vec_jac_app by assumption.
    assert (E : veq 6 (mvec 6 (mul_jac1 (ep a) (ep b)) e)
       (cat6 (v3add (et e) (v3scale 2 (qrot (rot (ep a)) (cross3 (er e) (tra (ep b)))))) (qrot (qconj (rot (ep b))) (er e)))).
    { intros k Hk. apply mul_jac1_app; assumption. }
    rewrite (et_ext _ _ E), (er_ext _ _ E), et_cat, er_cat. f_equal.
    cbn [pmul rot tra]. rewrite qrot_mul by assumption.
    rewrite (qrot_cross (rot (ep b))) by assumption. rewrite qrot_conj_r by assumption.
    rewrite <- v3add_assoc. f_equal.
    rewrite <- !(qrot_scale (rot (ep a))), <- qrot_add. f_equal. unfold papp.
    generalize (qrot (rot (ep b)) v), (tra (ep b)), (er e). intros x y z. d3. un. f_equal; ring. }
  assert (C2 : meq 3 6 (mmul 6 (vec_jac (pmul (ep a) (ep b)) v) (mul_jac2 (ep a) (ep b)))
     (mmul 3 (qmat (rot (ep a))) (vec_jac (ep b) v))).
  { apply mat_ext_app. intros e i Hi. rewrite !mvec_mmul.
    rewrite vec_jac_app by assumption.
    assert (E : veq 6 (mvec 6 (mul_jac2 (ep a) (ep b)) e) (cat6 (qrot (rot (ep a)) (et e)) (er e))).
    { intros k Hk. apply mul_jac2_app; assumption. }
    rewrite (et_ext _ _ E), (er_ext _ _ E), et_cat, er_cat.
    cbn [pmul rot]. rewrite qrot_mul by assumption.
    rewrite <- (qrot_scale (rot (ep a))), <- qrot_add.
    assert (E' : veq 3 (mvec 6 (vec_jac (ep b) v) e)
      (vec_of3 (v3add (et e) (v3scale 2 (qrot (rot (ep b)) (cross3 (er e) v)))))).
    { intros k Hk. apply vec_jac_app; assumption. }
    rewrite (mvec_ext 3 3 _ _ _ _ (meq_refl _ _ _) E' i Hi).
    rewrite (qrot_mat (rot (ep a)) _ Ha).
    generalize (v3add (et e) (v3scale 2 (qrot (rot (ep b)) (cross3 (er e) v)))) (qmat (rot (ep a))).
    intros w M. unfold vec_of3, vlist, mv3, mvec. idx i Hi; cbn; ring. }
  intros i j Hi Hj. unfold madd at 1.
  change (sandwich 6 (vec_jac (pmul (ep a) (ep b)) v)
      (madd (sandwich 6 (mul_jac1 (ep a) (ep b)) (cov a)) (sandwich 6 (mul_jac2 (ep a) (ep b)) (cov b))) i j =
    sandwich 6 (vec_jac (ep a) (papp (ep b) v)) (cov a) i j
    + sandwich 3 (qmat (rot (ep a))) (sandwich 6 (vec_jac (ep b) v) (cov b)) i j).
  rewrite sandwich_add, !sandwich_sandwich.
  rewrite (sandwich_congr 3 6 _ _ (cov a) C1 i j Hi Hj), (sandwich_congr 3 6 _ _ (cov b) C2 i j Hi Hj).
  reflexivity.
Qed.

(** the claim holds when the point is exact ... *)
Theorem uncertain_point_partial a b :
  fst (ep_errvec a b mzero) = papp (ep a) b /\
  meq 3 3 (snd (ep_errvec a b mzero))
    (madd (snd (ep_vec a b)) (sandwich 3 (qmat (rot (ep a))) mzero)).
Proof.
  split; [reflexivity|]. intros i j Hi Hj. unfold madd. rewrite sandwich_zero.
  unfold ep_errvec, ep_vec. cbn [snd]. ring.
Qed.

(** ... but the point's own covariance never reaches the result *)
Theorem uncertain_point_ignored a b c c' : ep_errvec a b c = ep_errvec a b c'.
Proof. reflexivity. Qed.

Theorem uncertain_point_refuted : exists a b c, rigid (ep a) /\ symm 6 (cov a) /\ psd 6 (cov a) /\
  symm 3 c /\ psd 3 c /\
  snd (ep_errvec a b c) 0%nat 0%nat = 0 /\
  madd (snd (ep_vec a b)) (sandwich 3 (qmat (rot (ep a))) c) 0%nat 0%nat = 1.
Proof.
  exists (EP pone mzero), (V3 1 2 3), (fun i j => if andb (Nat.eqb i 0) (Nat.eqb j 0) then 1 else 0).
  split; [apply unit_one|]. split; [intros i j _ _; reflexivity|]. split; [apply psd_zero|].
  split.
  { intros i j Hi Hj. destruct (Nat.eqb_spec i 0), (Nat.eqb_spec j 0); reflexivity. }
  split.
  { intros x. unfold quad, vdot, mvec. cbn. nra. }
  split.
  - unfold ep_errvec. cbn [snd]. change (sandwich 6 (vec_jac (ep (EP pone mzero)) (V3 1 2 3)) mzero 0%nat 0%nat = 0).
    apply sandwich_zero.
  - unfold madd, ep_vec. cbn [snd cov ep].
    change (sandwich 6 (vec_jac pone (V3 1 2 3)) mzero 0%nat 0%nat +
      sandwich 3 (qmat (rot pone)) (fun i j => if andb (Nat.eqb i 0) (Nat.eqb j 0) then 1 else 0) 0%nat 0%nat = 1).
    rewrite sandwich_zero. unfold sandwich, mmul, tr. un. cbn. lra.
Qed.

(** ** C59: [invertMultiply] *)

(** The pose is [~a * b] but the covariance is computed with the Jacobians of [a * b].
    For a rotation about z with variance 1 along x the result should have variance
    49/625 along x; the function reports 1. *)
Theorem invert_multiply_refuted : exists a b J, rigid (ep a) /\ rigid (ep b) /\
  symm 6 (cov a) /\ psd 6 (cov a) /\ meq 6 6 (cov b) mzero /\
  is_jacobian 6 6 (fun e => pose_error (pmul (pinv (ep a)) (ep b)) (pmul (pinv (perturb (ep a) e)) (ep b))) J /\
  sandwich 6 J (cov a) 0%nat 0%nat = 49 / 625 /\
  cov (invert_multiply a b) 0%nat 0%nat = 1.
Proof.
  set (q := Q 0 0 (3/5) (4/5)).
  exists (EP (P q v3zero) (fun i j => if andb (Nat.eqb i 0) (Nat.eqb j 0) then 1 else 0)), (EP pone mzero),
    (fun i j => if Nat.ltb i 3 then inv_jac (P q v3zero) i j else - inv_jac (P q v3zero) i j).
  assert (Hq : rigid (P q v3zero)) by (unfold rigid, unit, qnorm; cbn; lra).
  split; [exact Hq|]. split; [apply unit_one|].
  split. { intros i j Hi Hj. cbn. destruct (Nat.eqb_spec i 0), (Nat.eqb_spec j 0); reflexivity. }
  split. { intros x. unfold quad, vdot, mvec. cbn. nra. }
  split; [apply meq_refl|].
  split.
  { intros e i Hi. cbn [ep].
    apply is_derive_ext with (fun h => pose_error (pinv (P q v3zero)) (pinv (perturb (P q v3zero) (vscale h e))) i).
    - intros t. rewrite !pmul_one_r. reflexivity.
    - apply (inverse_jacobian_partial _ Hq). exact Hi. }
  split.
  - unfold sandwich, mmul, tr, inv_jac, mlist, q, v3zero. cbn. lra.
  - unfold invert_multiply, madd, mmul, tr, mul_jac1, mul_jac2, mlist, mzero, q, v3zero, pone, qone. cbn. lra.
Qed.

(** the result covariance nevertheless stays symmetric positive semidefinite *)
Theorem invert_multiply_valid a b : symm 6 (cov a) -> symm 6 (cov b) -> psd 6 (cov a) -> psd 6 (cov b) ->
  ep (invert_multiply a b) = pmul (pinv (ep a)) (ep b) /\
  symm 6 (cov (invert_multiply a b)) /\ psd 6 (cov (invert_multiply a b)).
Proof. intros Sa Sb Pa Pb. split; [reflexivity|]. apply (product_valid a b Sa Sb Pa Pb). Qed.

(** a pose that meets the hypotheses used above *)
Example error_pose_ex :
  let p := EP (P (Q (1/2) (1/2) (1/2) (1/2)) (V3 1 2 3)) eye in
  rigid (ep p) /\ symm 6 (cov p) /\ cov (ep_inv p) 0%nat 0%nat = 41.
Proof.
  cbn zeta. split; [unfold rigid, unit, qnorm; cbn; lra|]. split; [apply eye_symm|].
  unfold ep_inv, inv_jac, mlist, mmul, tr, eye. cbn. lra.
Qed.

Print Assumptions product_left_jacobian.
Print Assumptions product_right_jacobian.
Print Assumptions point_jacobian.
Print Assumptions jacobian_unique.
Print Assumptions product_associative.
Print Assumptions product_neutral.
Print Assumptions product_valid.
Print Assumptions interpolation_valid.
Print Assumptions inverse_jacobian_partial.
Print Assumptions inverse_jacobian_refuted.
Print Assumptions double_inverse_covariance.
Print Assumptions double_inverse_partial.
Print Assumptions double_inverse_rotation.
Print Assumptions double_inverse_refuted.
Print Assumptions additive_round_trip.
Print Assumptions additive_valid.
Print Assumptions conversion_jacobians.
Print Assumptions additive_covariance_refuted.
Print Assumptions point_product_covariance.
Print Assumptions uncertain_point_refuted.
Print Assumptions invert_multiply_refuted.
