(** Properties C25, C65, C66: analytic Jacobians are the derivatives of the functions they belong to. *)
From Coq Require Import Reals List Arith Bool Lra Lia Psatz.
Import ListNotations.
From Coquelicot Require Import Coquelicot.
From Verif Require Import Mat Quat Jacobians JacobiansProofs.
Open Scope R_scope.

(** ** The specification determines the matrix *)

(** [derivative] means: the entries are the partial derivatives, and only one matrix qualifies *)
Theorem derivative_spec n m f x J : local n m f -> derivative n m f x J ->
  (forall r j, (r < m)%nat -> (j < n)%nat ->
     is_derive (fun h => f (fun i => if (i =? j)%nat then h else x i) r) (x j) (J r j)) /\
  (forall J', derivative n m f x J' -> meq m n J J').
Proof.
  intros Hl H. split.
  - intros r j Hr Hj. apply (derivative_partial n m); assumption.
  - intros J' H'. exact (derivative_unique n m f x J J' H H').
Qed.

(** on the unit sphere: two matrices that qualify agree on all tangent directions *)
Theorem sphere_derivative_spec b n m f x J J' e r : (r < m)%nat -> unit_at b x ->
  x b * e b + x (b+1)%nat * e (b+1)%nat + x (b+2)%nat * e (b+2)%nat + x (b+3)%nat * e (b+3)%nat = 0 ->
  derivative_on (unit_at b) n m f x J -> derivative_on (unit_at b) n m f x J' ->
  mvec n J e r = mvec n J' e r.
Proof.
  intros Hr U T H H'. destruct (sphere_curve b x e U T) as [g [Hc Hu]].
  rewrite <- (is_derive_unique _ _ _ (H g e (Hc n) Hu r Hr)).
  exact (is_derive_unique _ _ _ (H' g e (Hc n) Hu r Hr)).
Qed.

(** ** C25 *)

Theorem radial_distortion_jacobians p d k :
  derivative 2 2 (fun v => distort v d) p (distort_jac_p d p) /\
  derivative 4 2 (distort p) d (distort_jac_d p d) /\
  derivative 5 2 (intrinsics_mul p) k (intrinsics_mul_jac p k).
Proof.
  split; [apply distort_p_deriv|]. split; [apply distort_d_deriv|apply intrinsics_mul_deriv].
Qed.

(** any dimension N = n + 1 *)
Theorem dehomogenization_jacobian n v : v n <> 0 ->
  derivative (S n) n (dehom n) v (dehom_jac n v).
Proof. apply dehom_deriv. Qed.

(** any dimension *)
Theorem normalize_jacobian n v : (exists i, (i < n)%nat /\ v i <> 0) ->
  derivative n n (vnormalize n) v (vnormalize_jac n v).
Proof.
  intros [i [Hi Hv]]. apply vnormalize_deriv. unfold norm. intros Z.
  apply sqrt_eq_0 in Z; [|apply sum_nonneg; intros; apply Rle_0_sqr].
  pose proof (sum_nonneg_zero n (fun k => v k * v k) (fun j _ => Rle_0_sqr (v j)) Z i Hi) as E. cbn in E.
  apply Hv. nra.
Qed.

(** rotating a point: exact for all motions of the quaternion on the unit sphere *)
Theorem quaternion_rotation_jacobian v q :
  derivative_on (unit_at 0) 4 3 (quat_rotate v) q (quat_rotate_jac v q).
Proof. apply quat_rotate_deriv. Qed.

Theorem quaternion_vector_jacobians q v : unit_at 0 q ->
  derivative_on (unit_at 0) 4 3 (quat_rotate v) q (quat_vec_jac_q q v) /\
  derivative 3 3 (fun w => quat_rotate w q) v (quat_vec_jac_v q v).
Proof.
  intros U. split; [|apply quat_vec_v_deriv, U].
  apply (derivative_meq _ _ _ _ _ (quat_rotate_jac v q)).
  - intros i j Hi Hj. symmetry. apply quat_jacs_agree; assumption.
  - apply quat_rotate_deriv.
Qed.

(** ... but not for changes of its length: the functions use 2(x^2+w^2)-1, the Jacobians belong to
    w^2+x^2-y^2-z^2 *)
Theorem quaternion_rotation_jacobian_refuted :
  exists v q, unit_at 0 q /\ ~ derivative 4 3 (quat_rotate v) q (quat_rotate_jac v q).
Proof.
  exists (vlist [1; 0; 0]), (vlist [0; 0; 0; 1]). split; [unfold unit_at, unit, qnorm; un_rot; ring|].
  intros H.
  pose proof (H (fun i h => vlist [0; 0; 0; 1] i + h * vlist [0; 0; 0; 1] i) (vlist [0; 0; 0; 1])) as D.
  assert (C : curve 4 (fun i h => vlist [0; 0; 0; 1] i + h * vlist [0; 0; 0; 1] i)
     (vlist [0; 0; 0; 1]) (vlist [0; 0; 0; 1])).
  { intros i Hi. split; [ring|]. auto_derive; [exact I|ring]. }
  specialize (D C (fun _ => I) 0%nat ltac:(lia)).
  assert (D' : is_derive (fun h => quat_rotate (vlist [1; 0; 0])
     (at_time (fun i h => vlist [0; 0; 0; 1] i + h * vlist [0; 0; 0; 1] i) h) 0%nat) 0 4).
  { apply (is_derive_ext (fun h => 2 * (1 + h) * (1 + h) - 1)); [intros h; un_rot; match goal with |- @eq _ ?a ?b => change (@eq R a b) end; ring|].
    auto_derive; [exact I|ring]. }
  apply is_derive_unique in D. rewrite (is_derive_unique _ _ _ D') in D. revert D. un_rot. lra.
Qed.

(** the Jacobian with respect to a small rotation error, [disturbed_rotate] *)
Theorem quaternion_error_jacobian q v : unit_at 0 q ->
  derivative 3 3 (disturbed_rotate q v) (fun _ => 0) (quat_error_jac v q).
Proof. apply quat_error_deriv. Qed.

Lemma eps_6_12 : eps12 < / 10 ^ 6.
Proof. unfold eps12. apply Rinv_lt_contravar; lra. Qed.

(** exponential map: exact for rotation vectors of length at least 1e-6 *)
Theorem lie_jacobian_exact v r : / 10 ^ 6 <= sqrt (nsq r) ->
  derivative 3 3 (lie_rotate v) r (lie_jac v r) /\ derivative 3 3 (exp_rotate v) r (lie_jac v r).
Proof.
  intros H. pose proof eps_6_12 as E.
  assert (J : lie_jac v r = lie_jac_general v r).
  { unfold lie_jac. change (r 0%nat * r 0%nat + r 1%nat * r 1%nat + r 2%nat * r 2%nat) with (nsq r).
    destruct (Rlt_dec _ _); [lra|reflexivity]. }
  rewrite J. assert (D := lie_general_deriv v r ltac:(lra)). split; [exact D|].
  intros g e Hc HS i Hi.
  apply (is_derive_ext_loc (fun h => lie_rotate v (at_time g h) i)); [|apply D; assumption].
  assert (C : continuous (fun h => sqrt (nsq (at_time g h))) 0).
  { apply (continuous_comp (fun h => nsq (at_time g h)) sqrt); [|apply continuous_sqrt].
    apply (ex_derive_continuous (fun h => nsq (at_time g h))). unfold nsq, at_time.
    take_curve Hc 3%nat. use_curve. auto_derive. ex_curve. }
  assert (E0 : nsq (at_time g 0) = nsq r).
  { unfold nsq, at_time. rewrite (proj1 (Hc 0%nat ltac:(lia))), (proj1 (Hc 1%nat ltac:(lia))),
      (proj1 (Hc 2%nat ltac:(lia))). reflexivity. }
  assert (O : locally (sqrt (nsq (at_time g 0))) (fun y => eps12 < y)) by (apply open_gt; rewrite E0; lra).
  apply (filter_imp (fun h => eps12 < sqrt (nsq (at_time g h)))); [|apply C, O].
  intros h Hh. symmetry. apply exp_rotate_lie; [exact Hh|exact Hi].
Qed.

(** at zero it is the Jacobian of the exponential map *)
Theorem lie_jacobian_zero v :
  derivative 3 3 (exp_rotate v) (fun _ => 0) (lie_jac v (fun _ => 0)).
Proof.
  unfold lie_jac. replace (0 * 0 + 0 * 0 + 0 * 0) with 0 by ring. rewrite sqrt_0.
  destruct (Rlt_dec 0 (/ 10 ^ 6)) as [_|n]; [apply exp_rotate_zero_deriv|].
  exfalso. apply n. apply Rinv_0_lt_compat. lra.
Qed.

(** ... while [evaluate] is constant around zero (the cut-off of fromLogarithm), so the pair
    (evaluate, jacobian) disagrees there *)
Theorem lie_jacobian_zero_refuted :
  exists v, ~ derivative 3 3 (lie_rotate v) (fun _ => 0) (lie_jac v (fun _ => 0)).
Proof.
  exists (vlist [0; 0; 1]). intros H.
  assert (C : curve 3 (fun i h => h * vlist [0; 1; 0] i) (fun _ => 0) (vlist [0; 1; 0])).
  { intros i Hi. split; [ring|]. auto_derive; [exact I|ring]. }
  pose proof (H _ _ C (fun _ => I) 0%nat ltac:(lia)) as D.
  assert (P12 : 0 < eps12) by (unfold eps12; apply Rinv_0_lt_compat; lra).
  assert (D0 : is_derive (fun h => lie_rotate (vlist [0; 0; 1]) (at_time (fun i h => h * vlist [0; 1; 0] i) h) 0%nat) 0 0).
  { apply (is_derive_ext_loc (fun _ => 0)); [|apply (is_derive_const 0 0)].
    exists (mkposreal _ P12). intros h Hh. unfold lie_rotate, from_log.
    assert (Hn : norm3 (vec_of (at_time (fun i h => h * vlist [0; 1; 0] i) h) 0) < eps12).
    { unfold norm3, vec_of, at_time, vlist. cbn [vx vy vz nth Nat.add].
      replace (h * 0 * (h * 0) + h * 1 * (h * 1) + h * 0 * (h * 0)) with (Rsqr h) by (unfold Rsqr; ring).
      rewrite sqrt_Rsqr_abs. change (Rabs (h - 0) < eps12) in Hh. rewrite Rminus_0_r in Hh. exact Hh. }
    destruct (Rgt_dec _ _) as [G|_]; [lra|]. un_rot. match goal with |- @eq _ ?a ?b => change (@eq R a b) end. ring. }
  apply is_derive_unique in D. rewrite (is_derive_unique _ _ _ D0) in D.
  unfold lie_jac in D. replace (0 * 0 + 0 * 0 + 0 * 0) with 0 in D by ring. rewrite sqrt_0 in D.
  destruct (Rlt_dec 0 (/ 10 ^ 6)) as [_|n]; [|apply n, Rinv_0_lt_compat; lra].
  revert D. unfold lie_jac_small. un_rot. lra.
Qed.

(** projections of one point into several cameras, 2n results *)
Theorem single_point_multi_projection_jacobian Ps n v :
  (forall i, (i < n)%nat -> hom_transform (Ps i) v 2%nat <> 0) ->
  derivative 3 (2 * n) (single_point Ps) v (single_point_jac Ps v).
Proof. apply single_point_deriv. Qed.

(** projections of n points by one camera, as a function of the pose *)
Theorem multiple_point_projection_jacobian cam ps n x :
  (forall i, (i < n)%nat -> mvec 3 cam (pose_point (ps i) x) 2%nat <> 0) ->
  derivative_on (unit_at 3) 7 (2 * n) (multi_point cam ps) x (multi_point_jac cam ps x).
Proof. apply multi_point_deriv. Qed.

(** one row pair of MultipleCameraProjection: pose, camera pose, dehomogenization, distortion,
    intrinsics *)
Theorem multiple_camera_projection_jacobian cp ci cd p x : unit (rot cp) ->
  cam_frame cp p x 2%nat <> 0 ->
  derivative_on (unit_at 3) 7 2 (camera_projection cp ci cd p) x (camera_projection_jac cp ci cd p x).
Proof. apply camera_projection_deriv. Qed.

(** error propagation: Jacobian with respect to a disturbance of the pose *)
Theorem projection_error_jacobians cam p x : unit_at 3 x ->
  (mvec 3 cam (pose_point p x) 2%nat <> 0 ->
   derivative 6 2 (fun e => dehom 2 (mvec 3 cam (disturbed_point p x e))) (fun _ => 0) (point_error_jac cam p x)) /\
  (mvec 3 cam (pose_point p x) 2%nat + cam 2%nat 3%nat <> 0 ->
   derivative 6 2 (fun e => dehom 2 (fun i => mvec 3 cam (disturbed_point p x e) i + cam i 3%nat)) (fun _ => 0)
     (camera_error_jac cam p x)).
Proof.
  intros U. split; intros Hz.
  - pose proof (camera_error_deriv cam (fun _ => 0) p x U) as H. rewrite Rplus_0_r in H. specialize (H Hz).
    apply (derivative_meq _ _ _ _ _ _ (point_error_jac cam p x)) in H.
    + revert H. apply derivative_ext. intros v _ i Hi. unfold dehom. rewrite !Rplus_0_r. reflexivity.
    + intros i j Hi Hj. rewrite mmul_motion. unfold point_error_jac.
      assert (E : forall a b, dehom_jac 2 (fun i => mvec 3 cam (pose_point p x) i + 0) a b
        = dehom_jac 2 (mvec 3 cam (pose_point p x)) a b).
      { intros a b. unfold dehom_jac. rewrite !Rplus_0_r. reflexivity. }
      destruct (j <? 3)%nat; unfold mmul; apply sum_ext; intros l _; rewrite ?E; [reflexivity|].
      f_equal. apply sum_ext. intros l' _. rewrite E. reflexivity.
  - pose proof (camera_error_deriv cam (fun i => cam i 3%nat) p x U Hz) as H.
    revert H. apply derivative_meq. intros i j Hi Hj. rewrite mmul_motion. reflexivity.
Qed.

(** the ART variant: the disturbance rotates about the centre of gravity, in world coordinates *)
Theorem art_error_jacobian cam cog p x : art_projected cam cog p x 2%nat <> 0 ->
  derivative 6 2 (fun e => dehom 2 (fun i => mvec 3 cam (art_disturbed cog p x e) i + cam i 3%nat))
    (fun _ => 0) (art_error_jac cam cog p x).
Proof. apply art_error_deriv. Qed.

(** concrete cases: all hypotheses are met *)
Example projection_case :
  unit_at 3 (vlist [1; 2; 5; 0; 3/5; 0; 4/5]) /\
  mvec 3 (mlist [[500; 0; 320]; [0; 500; 240]; [0; 0; 1]])
    (pose_point (vlist [1; 1; 0]) (vlist [1; 2; 5; 0; 3/5; 0; 4/5])) 2%nat <> 0 /\
  cam_frame (P (Q 1 0 0 0) (V3 0 0 1)) (vlist [1; 1; 0]) (vlist [1; 2; 5; 0; 3/5; 0; 4/5]) 2%nat <> 0.
Proof.
  unfold cam_frame, papp, v3add, pose_point, unit_at, unit, qnorm, mvec, qmat, mk33, vlist, mlist,
    vec_of, quat_of, of3, qrot. cbn. repeat split; lra.
Qed.
Example lie_case : / 10 ^ 6 <= sqrt (nsq (vlist [1; 0; 0])).
Proof.
  unfold nsq, vlist. cbn [nth]. replace (1 * 1 + 0 * 0 + 0 * 0) with 1 by ring. rewrite sqrt_1.
  rewrite <- Rinv_1. apply Rinv_le_contravar; lra.
Qed.

(** ** C65: hand-eye rotation *)
Theorem rothec_measurement_jacobian a b x : derivative 4 4 (rothec a b) x (rothec_jac a b).
Proof. apply rothec_deriv. Qed.
Theorem rothec_combine_jacobian_a a b x :
  derivative 4 4 (fun v => rothec (quat_of v 0) b x) a (rothec_jac_a (quat_of x 0)).
Proof. apply rothec_a_deriv. Qed.
(** the second Jacobian is right only where the vector part of x vanishes *)
Theorem rothec_combine_jacobian_b_iff a b x :
  derivative 4 4 (fun v => rothec a (quat_of v 0) x) b (rothec_jac_b (quat_of x 0)) <->
  x 0%nat = 0 /\ x 1%nat = 0 /\ x 2%nat = 0.
Proof.
  split.
  - intros H. pose proof (derivative_unique _ _ _ _ _ _ H (rothec_b_deriv a b x)) as E.
    pose proof (E 0%nat 1%nat ltac:(lia) ltac:(lia)) as E1. pose proof (E 0%nat 2%nat ltac:(lia) ltac:(lia)) as E2.
    pose proof (E 1%nat 2%nat ltac:(lia) ltac:(lia)) as E3. revert E1 E2 E3.
    unfold rothec_jac_b_true. un_hec. unfold rothec_jac_a, mlist; cbn [nth qx qy qz qw]. intros. repeat split; lra.
  - intros [H0 [H1 H2]]. apply (derivative_meq _ _ _ _ _ (rothec_jac_b_true (quat_of x 0))); [|apply rothec_b_deriv].
    intros i j Hi Hj. idx i Hi; idx j Hj; unfold rothec_jac_b_true; un_hec; unfold rothec_jac_a, mlist; cbn [nth qx qy qz qw]; rewrite ?H0, ?H1, ?H2; ring.
Qed.
Theorem rothec_combine_jacobian_b_refuted :
  exists a b x, unit_at 0 x /\
  ~ derivative 4 4 (fun v => rothec a (quat_of v 0) x) b (rothec_jac_b (quat_of x 0)).
Proof.
  exists (Q 0 0 0 1), (vlist [0; 0; 0; 1]), (vlist [3/5; 0; 0; 4/5]).
  split; [unfold unit_at, unit, qnorm; un_rot; lra|].
  rewrite rothec_combine_jacobian_b_iff. unfold vlist. cbn. lra.
Qed.

(** ** C66: projective pose normalisation *)

(** total exactly for non-zero quaternions; the result is a unit quaternion *)
Theorem pose_normalize_unit v v' : pose_normalize v = Some v' -> unit_at 3 v'.
Proof.
  unfold pose_normalize. set (l2 := _ + v 6%nat * v 6%nat). destruct (Req_EM_T l2 0) as [|n]; [discriminate|].
  intros E. injection E as <-. unfold unit_at, unit, qnorm, quat_of. cbn [qx qy qz qw Nat.add Nat.ltb Nat.leb].
  assert (P : 0 < l2).
  { assert (0 <= l2); [|lra]. unfold l2. pose proof (Rle_0_sqr (v 3%nat)). pose proof (Rle_0_sqr (v 4%nat)).
    pose proof (Rle_0_sqr (v 5%nat)). pose proof (Rle_0_sqr (v 6%nat)). unfold Rsqr in *. lra. }
  pose proof (sqrt_sqrt l2 ltac:(lra)) as S2. pose proof (sqrt_lt_R0 l2 P) as S0. set (s := sqrt l2) in *.
  transitivity (l2 / (s * s)); [unfold l2; field; lra|]. rewrite S2. field. lra.
Qed.
(** the image of a point under the homogeneous rotation matrix does not change *)
Theorem pose_normalize_projection v v' cam p : pose_normalize v = Some v' ->
  veq 2 (dehom 2 (mvec 3 cam (fun i => hom_rotate p (fun l => v (3 + l)%nat) i + v i)))
        (dehom 2 (mvec 3 cam (pose_point p v'))) \/
  mvec 3 cam (pose_point p v') 2%nat = 0.
Proof.
  intros E. pose proof (pose_normalize_unit v v' E) as U. revert E.
  unfold pose_normalize. set (l2 := _ + v 6%nat * v 6%nat). destruct (Req_EM_T l2 0) as [|n]; [discriminate|].
  intros E. injection E as E.
  assert (P : 0 < l2).
  { assert (0 <= l2); [|lra]. unfold l2. pose proof (Rle_0_sqr (v 3%nat)). pose proof (Rle_0_sqr (v 4%nat)).
    pose proof (Rle_0_sqr (v 5%nat)). pose proof (Rle_0_sqr (v 6%nat)). unfold Rsqr in *. lra. }
  pose proof (sqrt_sqrt l2 ltac:(lra)) as S2. pose proof (sqrt_lt_R0 l2 P) as S0.
  assert (K : forall i, (i < 3)%nat -> hom_rotate p (fun l => v (3 + l)%nat) i + v i = l2 * pose_point p v' i).
  { intros i Hi. unfold pose_point. rewrite qmat_rotate by assumption.
    transitivity (l2 * (hom_rotate p (fun l => v' (3 + l)%nat) i + v' i)).
    - rewrite <- E. set (s := sqrt l2) in *. clearbody s. clearbody l2. subst l2.
      idx i Hi; unfold hom_rotate, vlist; cbn [nth Nat.ltb Nat.leb Nat.add]; field; lra.
    - f_equal. f_equal. apply (hom_rotate_unit p (fun l => v' (3 + l)%nat)); [exact U|exact Hi]. }
  destruct (Req_EM_T (mvec 3 cam (pose_point p v') 2%nat) 0) as [Z|Z]; [right; exact Z|left].
  assert (K' : forall i, mvec 3 cam (fun i => hom_rotate p (fun l => v (3 + l)%nat) i + v i) i
      = l2 * mvec 3 cam (pose_point p v') i).
  { intros i. unfold mvec. cbn [sum]. rewrite !K by lia. ring. }
  intros i Hi. unfold dehom. rewrite !K'. field. split; assumption.
Qed.
(** the projection function itself uses 1-2(y^2+z^2), for which normalising does change the image *)
Theorem pose_normalize_projection_refuted :
  exists v v' cam p, pose_normalize v = Some v' /\ mvec 3 cam (pose_point p v') 2%nat <> 0 /\
    mvec 3 cam (pose_point p v) 2%nat <> 0 /\
    point_projection cam p v 0%nat <> point_projection cam p v' 0%nat.
Proof.
  set (v := vlist [0; 0; 1; 0; 0; 0; 2]).
  exists v, (fun i => if (i <? 3)%nat then v i / 4 else v i / sqrt 4), eye, (vlist [1; 0; 0]).
  assert (S4 : sqrt 4 = 2) by (replace 4 with (2 * 2) by ring; apply sqrt_square; lra).
  split; [|rewrite S4; unfold point_projection, dehom, pose_point, mvec, qmat, mk33, quat_of, eye, v, vlist; cbn; lra].
  unfold pose_normalize. replace (_ + v 6%nat * v 6%nat) with 4 by (unfold v, vlist; cbn; ring).
  destruct (Req_EM_T 4 0); [lra|reflexivity].
Qed.

Print Assumptions derivative_spec.
Print Assumptions normalize_jacobian.
Print Assumptions lie_jacobian_exact.
Print Assumptions lie_jacobian_zero.
Print Assumptions multiple_camera_projection_jacobian.
Print Assumptions projection_error_jacobians.
Print Assumptions art_error_jacobian.
Print Assumptions rothec_combine_jacobian_b_iff.
Print Assumptions pose_normalize_projection.
