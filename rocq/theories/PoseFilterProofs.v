(** Lemmas about the pose filter. *)
From Coq Require Import Reals Lra Lia Bool Arith ZArith List Setoid Morphisms FunctionalExtensionality.
Import ListNotations.
From Verif Require Import Mat MatSetoid MatPd Quat QuatProofs QuatProps CovTransform CovTransformProofs CovTransformProps
  Jacobians ErrorPose ErrorPoseCovProofs Kalman KalmanProofs KalmanProps TimeUpdate TimeUpdateProofs TimeUpdateProps
  TimeUpdateRotProps PoseFilter.
Open Scope R_scope.

Definition valid (n : nat) (C : mat) : Prop := symm n C /\ psd n C.
Definition quat_unit_at (b : nat) (x : errvec) : Prop := unit (quat_of (value x) b).

Lemma valid_ext n A B : meq n n A B -> valid n A -> valid n B.
Proof. intros H [S P]. split; [apply (symm_ext n A), S|apply (psd_ext n A), P]; exact H. Qed.

(** ** positive semidefinite matrices *)
Lemma quad_line n A u v t : symm n A ->
  quad n A (vadd u (vscale t v)) = quad n A u + 2 * t * vdot n v (mvec n A u) + t * t * quad n A v.
Proof.
  intros S.
  assert (E : forall x, quad n A (vadd u x) = quad n A u + 2 * vdot n x (mvec n A u) + quad n A x).
  { intros x. unfold quad. rewrite vdot_add_l.
    rewrite (vdot_ext n u u (mvec n A (vadd u x)) (vadd (mvec n A u) (mvec n A x)) (fun _ _ => eq_refl) (vDr n n A u x)).
    rewrite (vdot_ext n x x (mvec n A (vadd u x)) (vadd (mvec n A u) (mvec n A x)) (fun _ _ => eq_refl) (vDr n n A u x)).
    rewrite !vdot_add_r.
    assert (F : vdot n u (mvec n A x) = vdot n x (mvec n A u)).
    { rewrite vdot_tr, vdot_comm. apply vdot_ext; [intros i _; reflexivity|].
      intros i Hi. apply (mvec_ext n n); [|intros k _; reflexivity|exact Hi]. apply symm_tr, S. }
    rewrite F. ring. }
  rewrite E. f_equal.
  - f_equal. replace (vdot n (vscale t v) (mvec n A u)) with (t * vdot n v (mvec n A u)); [ring|].
    unfold vdot, vscale. rewrite <- sum_scal_l. apply sum_ext. intros; ring.
  - unfold quad. replace (vdot n (vscale t v) (mvec n A (vscale t v))) with (t * (t * vdot n v (mvec n A v))); [ring|].
    unfold vdot, vscale. rewrite <- !sum_scal_l. apply sum_ext. intros i _.
    unfold mvec. replace (sum n (fun l => A i l * (t * v l))) with (t * sum n (fun l => A i l * v l)); [ring|].
    rewrite <- sum_scal_l. apply sum_ext. intros; ring.
Qed.

Lemma psd_kernel n A u : symm n A -> psd n A -> quad n A u = 0 -> veq n (mvec n A u) (fun _ => 0).
Proof.
  intros S P Z. set (w := mvec n A u).
  set (b := vdot n w w). set (c := quad n A w).
  assert (Hc : 0 <= c) by apply P.
  assert (Hb : 0 <= b) by (apply sum_nonneg; intros i _; nra).
  pose proof (P (vadd u (vscale (- b / (c + 1)) w))) as H.
  rewrite (quad_line n A u w _ S), Z in H. fold w b c in H.
  assert (B0 : b = 0).
  { destruct Hb as [L|E]; [exfalso|symmetry; exact E].
    assert (E : 0 + 2 * (- b / (c + 1)) * b + - b / (c + 1) * (- b / (c + 1)) * c
                = - (b * b) * ((c + 2) / ((c + 1) * (c + 1)))) by (field; lra).
    rewrite E in H.
    assert (0 < (c + 2) / ((c + 1) * (c + 1))) by (apply Rdiv_lt_0_compat; nra).
    assert (0 < b * b) by nra. nra. }
  intros i Hi. pose proof (sum_nonneg_zero n (fun i => w i * w i) ltac:(intros; nra) B0 i Hi) as E.
  cbn beta in E. fold (w i). nra.
Qed.

(** a principal block of a positive semidefinite matrix is positive semidefinite *)
Lemma psd_block n m b A : (b + m <= n)%nat -> psd n A -> psd m (sub A b b).
Proof.
  intros Hb P x. set (w := fun i => if (b <=? i)%nat && (i <? b + m)%nat then x (i - b)%nat else 0 : R).
  pose proof (P w) as Hw.
  assert (E : quad n A w = quad m (sub A b b) x); [|rewrite <- E; exact Hw].
  unfold quad, vdot.
  assert (F : forall g, sum n (fun i => w i * g i) = sum m (fun i => x i * g (b + i)%nat)).
  { intros g. rewrite (sum_ext n _ (fun i => if (b <=? i)%nat && (i <? b + m)%nat then (fun k => x k * g (b + k)%nat) (i - b)%nat else 0)).
    - rewrite (sum_range n b (b + m) (fun k => x k * g (b + k)%nat) ltac:(lia) Hb).
      replace (b + m - b)%nat with m by lia. reflexivity.
    - intros i _. unfold w. destruct (Nat.leb_spec b i); destruct (Nat.ltb_spec i (b + m)); cbn [andb]; try ring.
      replace (b + (i - b))%nat with i by lia. reflexivity. }
  rewrite F. apply sum_ext. intros i _. f_equal. unfold mvec, sub.
  rewrite (sum_ext n _ (fun l => w l * A (b + i)%nat l)) by (intros; ring).
  rewrite F. apply sum_ext. intros; ring.
Qed.

(** ** process noise *)
Definition diag_noise (n : nat) (noise : vect) (dt : R) : mat := fun i j =>
  if (i =? j)%nat && (i <? n)%nat then Rabs dt * noise i else 0.
Lemma diag_noise_quad n noise dt x :
  quad n (diag_noise n noise dt) x = sum n (fun i => Rabs dt * noise i * (x i * x i)).
Proof.
  unfold quad, vdot. apply sum_ext. intros i Hi. unfold mvec.
  rewrite (sum_single n _ i Hi).
  - unfold diag_noise. rewrite Nat.eqb_refl. apply Nat.ltb_lt in Hi. rewrite Hi. cbn [andb]. ring.
  - intros l _ Hl. unfold diag_noise. destruct (Nat.eqb_spec i l); [congruence|]. cbn [andb]. ring.
Qed.
Lemma add_noise_valid n noise dt C : (forall i, (i < n)%nat -> 0 <= noise i) ->
  valid n C -> valid n (add_noise n noise dt C).
Proof.
  intros Hn [S P]. apply (valid_ext n (madd C (diag_noise n noise dt))).
  - intros i j Hi Hj. unfold madd, add_noise, diag_noise. destruct (_ && _); ring.
  - split.
    + intros i j Hi Hj. unfold madd. rewrite (S i j Hi Hj). f_equal. unfold diag_noise.
      destruct (Nat.eqb_spec i j) as [->|]; [rewrite Nat.eqb_refl; reflexivity|].
      destruct (Nat.eqb_spec j i); [congruence|reflexivity].
    + apply psd_add; [exact P|]. intros x. rewrite diag_noise_quad. apply sum_nonneg.
      intros i Hi. apply Rmult_le_pos; [|nra]. apply Rmult_le_pos; [apply Rabs_pos|apply Hn, Hi].
Qed.

(** ** the quaternion stays a unit quaternion in a time update *)
Lemma quat_pred_unit dt x k : forall i t r, unit r -> unit (quat_pred dt x k i t r).
Proof.
  induction k as [|k IH]; intros i t r U; cbn [quat_pred]; [exact U|].
  apply IH, unit_mul; [exact U|apply integration_unit].
Qed.

Lemma quat_of_to4 f b q : (forall a, (a < 4)%nat -> f (b + a)%nat = to4 q a) -> quat_of f b = q.
Proof.
  intros H. unfold quat_of.
  replace b with (b + 0)%nat at 1 by lia. rewrite !H by lia. unfold to4, vlist. cbn [nth].
  destruct q; reflexivity.
Qed.

Lemma pose_time_unit alias dt P D J0 x : (1 <= D)%nat -> unit (quat_of x (rot_start P)) ->
  unit (quat_of (fst (pose_time_fun alias dt P D J0 x)) (rot_start P)).
Proof.
  intros HD U. unfold pose_time_fun.
  destruct (pose_update alias dt P D (Mem x x) J0) as [m J] eqn:E. cbn [fst].
  assert (C : coherent alias (Mem x x)) by (intros _ j; reflexivity).
  pose proof (pose_update_spec _ _ _ _ x _ _ _ _ C (fun _ => eq_refl) E) as S.
  erewrite quat_of_to4; [|intros a Ha; apply (pu_quat _ _ _ _ _ _ S a Ha); lia].
  apply quat_pred_unit, U.
Qed.

Lemma inside_out_orient dt P J0 x :
  quat_of (fst (inside_out_fun dt P J0 x)) (rot_start P) =
  inside_out_orientation dt (quat_of x (rot_start P)) (vec_of x (rot_start P + 4)).
Proof.
  unfold inside_out_fun. cbv zeta.
  match goal with |- context[quat_update false dt 1 ?b ?m ?J] =>
    set (m0 := m); set (K0 := J); destruct (quat_update false dt 1 b m0 K0) as [m2 J6] eqn:E2 end.
  match goal with |- context[linear_update false dt 3 0 ?b ?m ?J] =>
    set (K1 := J); destruct (linear_update false dt 3 0 b m K1) as [m3 J8] eqn:E3 end.
  cbn [fst].
  assert (C0 : coherent false m0) by (intros H; discriminate).
  destruct (quat_update_spec _ _ _ _ _ _ _ _ C0 E2) as (C2 & A2 & _).
  destruct (linear_spec false dt 3 _ 0 ltac:(lia) _ _ _ _ C2 E3) as (_ & _ & F3 & _).
  apply quat_of_to4. intros a Ha.
  rewrite (proj1 (F3 (rot_start P + a)%nat ltac:(unfold inr; lia))).
  rewrite (A2 (rot_start P + a)%nat ltac:(unfold inr; lia)).
  replace (rot_start P + a - rot_start P)%nat with a by lia.
  unfold m0. cbn [inp quat_pred]. rewrite quat_of_sub. unfold inside_out_orientation. f_equal. f_equal. f_equal.
  unfold vec_of, vsub_range. cbn [Nat.add Nat.mul].
  f_equal; f_equal; lia.
Qed.

Lemma inside_out_unit dt P J0 x : unit (quat_of x (rot_start P)) ->
  unit (quat_of (fst (inside_out_fun dt P J0 x)) (rot_start P)).
Proof.
  intros U. rewrite inside_out_orient. apply unit_mul; [exact U|apply integration_unit].
Qed.

Lemma forward_value P D io noise J0 alias dt x i :
  value (forward P D io noise J0 alias dt x) i = fst (time_fun P D io J0 alias dt (value x)) i.
Proof.
  unfold forward. cbn [value]. unfold transform_cov.
  destruct (time_fun P D io J0 alias dt (value x)); reflexivity.
Qed.

Lemma forward_valid P D io noise J0 alias dt x :
  (forall i, (i < total_size P D)%nat -> 0 <= noise i) ->
  valid (total_size P D) (covariance x) ->
  valid (total_size P D) (covariance (forward P D io noise J0 alias dt x)).
Proof.
  intros Hn [S Hp]. unfold forward. cbn [covariance]. unfold fsize. apply add_noise_valid; [exact Hn|].
  destruct (transform_cov_valid (total_size P D) (total_size P D) (time_fun P D io J0 alias dt) x) as (_ & _ & A & B).
  split; [apply A, S|apply B, Hp].
Qed.

Lemma quat_of_ext f g b : (forall a, (a < 4)%nat -> f (b + a)%nat = g (b + a)%nat) -> quat_of f b = quat_of g b.
Proof.
  intros H. unfold quat_of. pose proof (H 0%nat ltac:(lia)) as H0. rewrite Nat.add_0_r in H0.
  rewrite H0, !H by lia. reflexivity.
Qed.

Lemma forward_unit P D io noise J0 alias dt x : (1 <= D)%nat ->
  quat_unit_at (3 * P) x -> quat_unit_at (3 * P) (forward P D io noise J0 alias dt x).
Proof.
  intros HD U. unfold quat_unit_at in *.
  rewrite (quat_of_ext _ (fst (time_fun P D io J0 alias dt (value x))));
    [|intros a _; apply forward_value].
  unfold time_fun. destruct io.
  - apply inside_out_unit, U.
  - apply pose_time_unit; assumption.
Qed.

(** ** normalisation *)
Lemma norm4_unit x b : norm 4 (vsub_range x b) = sqrt (qnorm (quat_of x b)).
Proof.
  unfold norm, vsub_range, qnorm, quat_of. cbn [sum qx qy qz qw]. f_equal.
  replace (b + 0)%nat with b by lia. ring.
Qed.

Lemma vnorm_unit v : norm 4 v <> 0 ->
  vnormalize 4 v 0%nat * vnormalize 4 v 0%nat + vnormalize 4 v 1%nat * vnormalize 4 v 1%nat +
  vnormalize 4 v 2%nat * vnormalize 4 v 2%nat + vnormalize 4 v 3%nat * vnormalize 4 v 3%nat = 1.
Proof.
  intros N. unfold vnormalize.
  assert (SQ : norm 4 v * norm 4 v = v 0%nat * v 0%nat + v 1%nat * v 1%nat + v 2%nat * v 2%nat + v 3%nat * v 3%nat).
  { unfold norm. rewrite sqrt_sqrt; [cbn [sum]; ring|]. apply sum_nonneg. intros; nra. }
  set (w := norm 4 v) in *.
  replace (_ + _) with ((v 0%nat * v 0%nat + v 1%nat * v 1%nat + v 2%nat * v 2%nat + v 3%nat * v 3%nat) / (w * w))
    by (field; exact N).
  rewrite <- SQ. field. exact N.
Qed.

Lemma normalize_spec n b x y : (b + 4 <= n)%nat -> valid n (covariance x) -> normalize_at n b x = Some y ->
  valid n (covariance y) /\ quat_unit_at b y /\
  (forall i, ~ inr b (b + 4) i -> value y i = value x i) /\
  norm 4 (vsub_range (value x) b) <> 0 /\
  (forall a, (a < 4)%nat -> value y (b + a)%nat = value x (b + a)%nat / norm 4 (vsub_range (value x) b)).
Proof.
  intros Hb [S P] E. unfold normalize_at in E.
  destruct (Req_EM_T (norm 4 (vsub_range (value x) b)) 0) as [Z|N]; [discriminate|].
  assert (Ey : y = transform_range n (fun v => (vnormalize 4 v, vnormalize_jac 4 v)) b (b + 4) b (b + 4) x) by congruence.
  clear E.
  assert (V : forall a, (a < 4)%nat -> value y (b + a)%nat = vnormalize 4 (vsub_range (value x) b) a).
  { intros a Ha. rewrite Ey, transform_range_value. cbn [fst].
    destruct (Nat.leb_spec b (b + a)); [|lia]. destruct (Nat.ltb_spec (b + a) (b + 4)); [|lia]. cbn [andb].
    f_equal. lia. }
  split; [|split; [|split; [|split]]].
  - rewrite Ey. apply transform_range_valid; try lia; assumption.
  - unfold quat_unit_at, unit, qnorm, quat_of. cbn [qx qy qz qw].
    pose proof (V 0%nat ltac:(lia)) as V0. rewrite Nat.add_0_r in V0. rewrite V0, !V by lia.
    rewrite <- (vnorm_unit _ N). ring.
  - intros i Hi. rewrite Ey, transform_range_value. unfold inr in Hi.
    destruct (Nat.leb_spec b i); destruct (Nat.ltb_spec i (b + 4)); cbn [andb]; try reflexivity. lia.
  - exact N.
  - intros a Ha. rewrite (V a Ha). unfold vnormalize, vsub_range. field. exact N.
Qed.

Lemma normalize_unit_id n b x : quat_unit_at b x ->
  exists y, normalize_at n b x = Some y /\ (forall i, value y i = value x i).
Proof.
  intros U. unfold normalize_at.
  assert (N : norm 4 (vsub_range (value x) b) = 1).
  { rewrite norm4_unit. unfold quat_unit_at, unit in U. rewrite U. apply sqrt_1. }
  destruct (Req_EM_T (norm 4 (vsub_range (value x) b)) 0) as [Z|_]; [lra|].
  eexists. split; [reflexivity|]. intros i. rewrite transform_range_value. cbn [fst].
  destruct (Nat.leb_spec b i); destruct (Nat.ltb_spec i (b + 4)); cbn [andb]; try reflexivity.
  unfold vnormalize. rewrite N. unfold vsub_range. replace (b + (i - b))%nat with i by lia. field.
Qed.

(** the normalised covariance has no component along the quaternion *)
Lemma vnormalize_jac_tangent v j : norm 4 v <> 0 -> (j < 4)%nat ->
  sum 4 (fun i => v i * vnormalize_jac 4 v i j) = 0.
Proof.
  intros N Hj.
  assert (SQ : norm 4 v * norm 4 v = v 0%nat * v 0%nat + v 1%nat * v 1%nat + v 2%nat * v 2%nat + v 3%nat * v 3%nat).
  { unfold norm. rewrite sqrt_sqrt; [cbn [sum]; ring|]. apply sum_nonneg. intros; nra. }
  unfold vnormalize_jac. set (w := norm 4 v) in *.
  idx j Hj; cbn [sum Nat.eqb Nat.ltb Nat.leb]; rewrite SQ; field; (split; [exact N|rewrite <- SQ; intros Z; apply N; nra]).
Qed.

Lemma normalize_tangent n b x y : (b + 4 <= n)%nat -> valid n (covariance x) -> normalize_at n b x = Some y ->
  forall j, (j < n)%nat -> sum 4 (fun k => value y (b + k)%nat * covariance y (b + k)%nat j) = 0.
Proof.
  intros Hb HV E j Hj. destruct (normalize_spec n b x y Hb HV E) as (_ & _ & _ & N & V).
  destruct HV as [S P]. unfold normalize_at in E.
  destruct (Req_EM_T (norm 4 (vsub_range (value x) b)) 0) as [Z|_]; [contradiction|].
  assert (Ey : y = transform_range n (fun v => (vnormalize 4 v, vnormalize_jac 4 v)) b (b + 4) b (b + 4) x) by congruence.
  clear E.
  pose proof (transform_range_cov n (fun v => (vnormalize 4 v, vnormalize_jac 4 v)) b (b + 4) b (b + 4) x
     ltac:(lia) ltac:(lia) ltac:(lia) ltac:(lia) S) as C. rewrite <- Ey in C. cbn [snd] in C.
  set (v := vsub_range (value x) b) in *. set (J := block_map (vnormalize_jac 4 v) b (b + 4) b (b + 4)) in C.
  rewrite (sum_ext 4 _ (fun k => / norm 4 v * (v k * sandwich n J (covariance x) (b + k)%nat j))).
  2:{ intros k Hk. rewrite (V k Hk), (C (b + k)%nat j ltac:(lia) Hj). unfold v, vsub_range. field. exact N. }
  rewrite sum_scal_l.
  assert (Z : sum 4 (fun k => v k * sandwich n J (covariance x) (b + k)%nat j) = 0); [|rewrite Z; ring].
  assert (R : forall k, (k < 4)%nat -> sandwich n J (covariance x) (b + k)%nat j =
    sum 4 (fun l => vnormalize_jac 4 v k l * mmul n (covariance x) (tr J) (b + l)%nat j)).
  { intros k Hk. unfold sandwich. rewrite mmul_assoc. unfold J at 1.
    rewrite block_map_row by lia. unfold mmul at 1. replace (b + 4 - b)%nat with 4%nat by lia.
    apply sum_ext. intros l Hl. replace (b + k - b)%nat with k by lia. reflexivity. }
  rewrite (sum_ext 4 _ (fun k => sum 4 (fun l => (v k * vnormalize_jac 4 v k l) * mmul n (covariance x) (tr J) (b + l)%nat j))).
  2:{ intros k Hk. rewrite (R k Hk), <- sum_scal_l. apply sum_ext. intros l _. ring. }
  rewrite sum_swap. apply sum_zero. intros l Hl. rewrite sum_scal_r, (vnormalize_jac_tangent v l N Hl). ring.
Qed.

(** ** Kalman step for direct observations *)
Lemma identity_valid chol gen n m ib ie st meas : lapack_ok m chol gen ->
  (ib <= ie)%nat -> (ie <= n)%nat -> (ie - ib = m)%nat -> valid n (covariance st) ->
  symm m (covariance meas) -> pd m (covariance meas) ->
  valid n (covariance (kalman_update_identity chol gen n m ib ie st meas)).
Proof.
  intros LA H1 H2 Hm [S P] SR PR.
  destruct (kalman_well_defined n m (fun v => (v, eye)) ib ie st meas S P SR PR) as [W HW].
  destruct (kalman_identity_agrees chol gen n m LA ib ie st meas W H1 H2 Hm S SR HW) as [_ E].
  apply (valid_ext n _ _ (meq_sym _ _ _ _ E)).
  destruct (kalman_covariance_valid chol gen n m LA (fun v => (v, eye)) ib ie st meas W H1 H2 S P SR (pd_psd m _ PR) HW)
    as (A & B & _). split; assumption.
Qed.

Lemma identity_value chol gen n m ib ie st meas : lapack_ok m chol gen ->
  (ib <= ie)%nat -> (ie <= n)%nat -> (ie - ib = m)%nat -> valid n (covariance st) ->
  symm m (covariance meas) -> pd m (covariance meas) ->
  exists W, inverse_of m (madd (sub (covariance st) ib ib) (covariance meas)) W /\
  let u := mvec m W (vsub (value meas) (vsub_range (value st) ib)) in
  forall i, (i < n)%nat ->
    value (kalman_update_identity chol gen n m ib ie st meas) i =
    value st i + sum m (fun k => covariance st i (ib + k)%nat * u k).
Proof.
  intros LA H1 H2 Hm [S P] SR PR.
  set (A := madd (sub (covariance st) ib ib) (covariance meas)).
  assert (SA : symm m A).
  { intros i j Hi Hj. unfold A, madd, sub. rewrite (S (ib + i)%nat (ib + j)%nat) by lia. rewrite (SR i j Hi Hj). reflexivity. }
  assert (PA : pd m A).
  { apply pd_add_psd; [|exact PR]. apply (psd_block n m); [lia|exact P]. }
  pose proof (pd_invertible m A SA PA) as HW. exists (pd_inverse m A). split; [exact HW|].
  intros u i Hi. unfold kalman_update_identity. cbn [value]. fold A. unfold vadd. f_equal.
  unfold mvec, symm_right_upper, mmul.
  pose proof (invert_innovation_ok m chol gen A _ LA SA HW) as EW.
  rewrite (sum_ext m _ (fun k => sum m (fun l => sub (covariance st) 0 ib i l * pd_inverse m A l k *
     vsub (value meas) (vsub_range (value st) ib) k))).
  2:{ intros k Hk. rewrite <- sum_scal_r. apply sum_ext. intros l Hl. rewrite (EW l k Hl Hk). reflexivity. }
  rewrite sum_swap. apply sum_ext. intros l Hl. unfold u, mvec, sub. cbn [Nat.add].
  rewrite <- sum_scal_l. apply sum_ext. intros; ring.
Qed.

Lemma scaled_eye_symm m r : symm m (mscale r eye).
Proof. intros i j Hi Hj. unfold mscale. rewrite (eye_symm m i j Hi Hj). reflexivity. Qed.
Lemma scaled_eye_quad m r x : quad m (mscale r eye) x = r * vdot m x x.
Proof.
  rewrite quad_scale. f_equal. unfold quad. apply vdot_ext; [intros i _; reflexivity|apply v1].
Qed.
Lemma scaled_eye_pd m r : 0 < r -> pd m (mscale r eye).
Proof.
  intros Hr x (i & Hi & Hx). rewrite scaled_eye_quad. apply Rmult_lt_0_compat; [exact Hr|].
  unfold vdot. assert (0 <= sum m (fun k => x k * x k)) by (apply sum_nonneg; intros; nra).
  destruct H as [L|E]; [exact L|exfalso].
  pose proof (sum_nonneg_zero m (fun k => x k * x k) ltac:(intros; nra) (eq_sym E) i Hi). cbn beta in H. nra.
Qed.

(** A direct observation z of a unit quaternion q with equal noise in all components, on the
    same side (q . z >= 0), never leads to the zero quaternion. *)
Lemma observation_nonzero chol gen n b st z r : lapack_ok 4 chol gen -> (b + 4 <= n)%nat ->
  valid n (covariance st) -> 0 < r -> quat_unit_at b st ->
  0 <= vdot 4 (vsub_range (value st) b) z ->
  norm 4 (vsub_range (value (kalman_update_identity chol gen n 4 b (b + 4) st (EV z (mscale r eye)))) b) <> 0.
Proof.
  intros LA Hb [S P] Hr U Hz N0.
  destruct (identity_value chol gen n 4 b (b + 4) st (EV z (mscale r eye)) LA ltac:(lia) ltac:(lia) ltac:(lia) (conj S P)
     (scaled_eye_symm 4 r) (scaled_eye_pd 4 r Hr)) as (W & HW & V). cbv zeta in V. cbn [value covariance] in HW, V.
  set (q := vsub_range (value st) b) in *. set (A := sub (covariance st) b b) in *.
  set (u := mvec 4 W (vsub z q)) in *.
  set (y := kalman_update_identity chol gen n 4 b (b + 4) st (EV z (mscale r eye))) in *.
  assert (Y : forall k, (k < 4)%nat -> value y (b + k)%nat = q k + mvec 4 A u k).
  { intros k Hk. rewrite (V (b + k)%nat ltac:(lia)). reflexivity. }
  assert (Z : forall k, (k < 4)%nat -> q k + mvec 4 A u k = 0).
  { intros k Hk. rewrite <- (Y k Hk). unfold norm in N0. apply sqrt_eq_0 in N0; [|apply sum_nonneg; intros; nra].
    pose proof (sum_nonneg_zero 4 (fun k => vsub_range (value y) b k * vsub_range (value y) b k) ltac:(intros; nra) N0 k Hk) as E.
    cbn beta in E. unfold vsub_range in E. nra. }
  assert (Ez : veq 4 z (vscale r u)).
  { assert (E : veq 4 (mvec 4 (madd A (mscale r eye)) u) (vsub z q)).
    { unfold u. intros k Hk. rewrite <- (mvec_mmul 4 4 _ W _ k).
      rewrite (mvec_ext 4 4 _ eye _ (vsub z q) (proj1 HW) (fun _ _ => eq_refl) k Hk). apply mvec_eye, Hk. }
    intros k Hk. pose proof (E k Hk) as Ek. rewrite (vDl 4 4 _ _ u k Hk) in Ek. unfold vadd, vsub in Ek.
    assert (F : mvec 4 (mscale r eye) u k = r * u k).
    { unfold mvec, mscale. rewrite (sum_ext 4 _ (fun l => r * (eye k l * u l))) by (intros; ring).
      rewrite sum_scal_l. f_equal. apply (mvec_eye 4 u k Hk). }
    rewrite F in Ek. pose proof (Z k Hk). unfold vscale. lra. }
  assert (SA : symm 4 A) by (intros i j Hi Hj; apply S; lia).
  assert (PA : psd 4 A) by (apply (psd_block n 4); assumption).
  assert (Q0 : quad 4 A u = 0).
  { assert (E : vdot 4 q z = - r * quad 4 A u).
    { unfold quad, vdot. rewrite <- sum_scal_l. apply sum_ext. intros k Hk.
      rewrite (Ez k Hk). unfold vscale. pose proof (Z k Hk). replace (q k) with (- mvec 4 A u k) by lra. ring. }
    pose proof (PA u). rewrite E in Hz. nra. }
  pose proof (psd_kernel 4 A u SA PA Q0) as K.
  unfold quat_unit_at, unit, qnorm, quat_of in U. cbn [qx qy qz qw] in U.
  assert (Q : forall k, (k < 4)%nat -> value st (b + k)%nat = 0).
  { intros k Hk. pose proof (Z k Hk) as Zk. rewrite (K k Hk) in Zk. unfold q, vsub_range in Zk. lra. }
  pose proof (Q 0%nat ltac:(lia)) as Q0'. rewrite Nat.add_0_r in Q0'.
  rewrite Q0', !Q in U by lia. lra.
Qed.
