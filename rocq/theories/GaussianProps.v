(** Properties of Gaussian estimates, the Mahalanobis distance, the Gaussian probability
    and expectation maximisation (C76-C79). *)
From Coq Require Import Reals Lra Lia Bool Arith List Setoid.
Import ListNotations.
From Verif Require Import Mat MatSetoid MatPd Gaussian.
Open Scope R_scope.

(** ** Gaussian estimates *)
(** textbook weighted second moment *)
Definition moment (n : nat) (w : nat -> R) (x : nat -> vect) (m : vect) : mat :=
  fun i j => sum n (fun p => w p * ((x p i - m i) * (x p j - m j))).
Lemma cov_loop_moment n w x m i j : cov_loop n w x m i j = moment n w x m i j.
Proof.
  unfold cov_loop, moment. apply sum_ext. intros p _.
  destruct (Nat.le_gt_cases i j).
  - rewrite Nat.min_l, Nat.max_r by lia. ring.
  - rewrite Nat.min_r, Nat.max_l by lia. ring.
Qed.
Lemma moment_symm n N w x m : symm N (moment n w x m).
Proof. intros i j _ _. apply sum_ext. intros; ring. Qed.
Lemma quad_moment n N w x m y : quad N (moment n w x m) y =
  sum n (fun p => w p * (vdot N y (vsub (x p) m) * vdot N y (vsub (x p) m))).
Proof.
  unfold quad, vdot, mvec, moment.
  transitivity (sum N (fun i => sum N (fun j => sum n (fun p => y i * (w p * ((x p i - m i) * (x p j - m j)) * y j))))).
  { apply sum_ext. intros i _. rewrite <- sum_scal_l. apply sum_ext. intros j _.
    rewrite <- sum_scal_r, <- sum_scal_l. reflexivity. }
  transitivity (sum n (fun p => sum N (fun i => sum N (fun j => y i * (w p * ((x p i - m i) * (x p j - m j)) * y j))))).
  { rewrite (sum_swap n N). apply sum_ext. intros i _. apply sum_swap. }
  apply sum_ext. intros p _. unfold vsub. set (S := sum N (fun i => y i * (x p i - m i))).
  transitivity (sum N (fun i => w p * S * (y i * (x p i - m i)))).
  - apply sum_ext. intros i _. transitivity (sum N (fun j => w p * (y i * (x p i - m i)) * (y j * (x p j - m j)))).
    + apply sum_ext. intros; ring.
    + rewrite sum_scal_l. fold S. ring.
  - rewrite sum_scal_l. fold S. ring.
Qed.
Lemma moment_psd n N w x m : (forall p, (p < n)%nat -> 0 <= w p) -> psd N (moment n w x m).
Proof.
  intros H y. rewrite quad_moment. apply sum_nonneg. intros p Hp.
  apply Rmult_le_pos; [apply H, Hp|apply Rle_0_sqr].
Qed.

(** C76: weighted estimate: mean, covariance, trace, and validity *)
Theorem gaussian_weighted_exact N n w x : (0 < n)%nat -> exists g,
  estimate_weighted N n w x = (true, g) /\
  (forall i, gmean g i = sum n (fun p => w p * x p i)) /\
  (forall i j, gcov g i j = moment n w x (gmean g) i j) /\
  symm N (gcov g) /\
  ((forall p, (p < n)%nat -> 0 <= w p) -> psd N (gcov g)) /\
  gvar g = sum N (fun i => gcov g i i) /\ gsd g = sqrt (gvar g).
Proof.
  intros Hn. destruct n as [|n]; [lia|]. eexists. split; [reflexivity|]. cbn [gmean gcov gvar gsd finish].
  split; [reflexivity|]. split; [intros; apply cov_loop_moment|].
  split; [|split; [|split; reflexivity]].
  - intros i j _ _. rewrite !cov_loop_moment. apply (moment_symm (S n) (S (Nat.max i j))); lia.
  - intros Hw. eapply psd_ext; [|apply (moment_psd (S n) N w x (fun i => sum (S n) (fun p => w p * x p i)) Hw)].
    intros i j _ _. symmetry. apply cov_loop_moment.
Qed.
Lemma weighted_inv N n w x g : estimate_weighted N n w x = (true, g) ->
  g = finish N (fun i => sum n (fun p => w p * x p i)) (cov_loop n w x (fun i => sum n (fun p => w p * x p i))).
Proof. destruct n as [|n]; [discriminate|]. intros E. apply (f_equal snd) in E. exact (eq_sym E). Qed.
(** with weights that sum to one: covariance = E[xx'] - mm', and the mean is the unique
    minimiser of the weighted squared distance *)
Theorem gaussian_weighted_second_moment N n w x g : sum n w = 1 -> estimate_weighted N n w x = (true, g) ->
  forall i j, gcov g i j = sum n (fun p => w p * (x p i * x p j)) - gmean g i * gmean g j.
Proof.
  intros Hw E i j. rewrite (weighted_inv _ _ _ _ _ E). cbn [gmean gcov finish].
  rewrite cov_loop_moment. unfold moment. cbv beta.
  set (mi := sum n (fun p => w p * x p i)). set (mj := sum n (fun p => w p * x p j)).
  assert (G : forall a b, sum n (fun p => w p * ((x p i - a) * (x p j - b))) =
     sum n (fun p => w p * (x p i * x p j)) - a * sum n (fun p => w p * x p j)
     - b * sum n (fun p => w p * x p i) + a * b * sum n w).
  { intros a b. rewrite <- !sum_scal_l, <- !sum_minus, <- sum_plus. apply sum_ext. intros; ring. }
  rewrite G. fold mi mj. rewrite Hw. ring.
Qed.
Theorem gaussian_mean_optimal N n w x g c : sum n w = 1 -> estimate_weighted N n w x = (true, g) ->
  sum n (fun p => w p * vdot N (vsub (x p) c) (vsub (x p) c)) =
  sum n (fun p => w p * vdot N (vsub (x p) (gmean g)) (vsub (x p) (gmean g)))
  + vdot N (vsub (gmean g) c) (vsub (gmean g) c).
Proof.
  intros Hw E. rewrite (weighted_inv _ _ _ _ _ E). cbn [gmean finish].
  set (m := fun i => sum n (fun p => w p * x p i)).
  assert (A : forall z, sum n (fun p => w p * vdot N (vsub (x p) z) (vsub (x p) z))
     = sum N (fun i => sum n (fun p => w p * (x p i * x p i)) - 2 * z i * m i + z i * z i)).
  { intros z. transitivity (sum N (fun i => sum n (fun p => w p * ((x p i - z i) * (x p i - z i))))).
    - rewrite sum_swap. apply sum_ext. intros p _. rewrite sum_scal_l. reflexivity.
    - apply sum_ext. intros i _. unfold m. rewrite <- (Rmult_1_r (z i * z i)), <- Hw. generalize (z i). intros a.
      rewrite <- !sum_scal_l, <- !sum_minus, <- sum_plus. apply sum_ext. intros; ring. }
  rewrite !A. unfold vdot. rewrite <- sum_plus. apply sum_ext. intros i _. unfold vsub. ring.
Qed.

(** C76: the unweighted estimate is the weighted one with equal weights *)
Theorem gaussian_plain_exact N n x : (0 < n)%nat -> exists g g',
  estimate_plain N n x = (true, g) /\ estimate_weighted N n (fun _ => / INR n) x = (true, g') /\
  (forall i, gmean g i = gmean g' i) /\ (forall i j, gcov g i j = gcov g' i j) /\
  gvar g = gvar g' /\ gsd g = gsd g'.
Proof.
  intros Hn. destruct n as [|n]; [lia|]. eexists. eexists. split; [reflexivity|]. split; [reflexivity|].
  cbn [gmean gcov gvar gsd finish]. set (m := fun i => sum (S n) (fun p => x p i) / INR (S n)).
  assert (M : forall i, m i = sum (S n) (fun p => / INR (S n) * x p i)).
  { intros i. unfold m. rewrite sum_scal_l. unfold Rdiv. ring. }
  assert (CV : forall i j, cov_loop (S n) (fun _ => 1) x m i j / INR (S n) =
     cov_loop (S n) (fun _ => / INR (S n)) x (fun i => sum (S n) (fun p => / INR (S n) * x p i)) i j).
  { intros i j. rewrite !cov_loop_moment. unfold moment, Rdiv. rewrite <- sum_scal_r. apply sum_ext. intros p _.
    rewrite <- !M. ring. }
  split; [exact M|]. split; [exact CV|].
  assert (V : sum N (fun i => cov_loop (S n) (fun _ => 1) x m i i / INR (S n)) =
    sum N (fun i => cov_loop (S n) (fun _ => / INR (S n)) x (fun i => sum (S n) (fun p => / INR (S n) * x p i)) i i))
    by (apply sum_ext; intros; apply CV).
  split; [exact V|]. rewrite V. reflexivity.
Qed.

(** C76: the estimate over one label is the weighted estimate with equal weights on the
    matching elements *)
Lemma count_sum n labels c : INR (count n labels c) = sum n (sel labels c).
Proof.
  unfold count. induction n as [|n IH]; [reflexivity|].
  rewrite seq_S, filter_app, app_length, plus_INR, IH. cbn [Nat.add filter].
  change (sum (S n) (sel labels c)) with (sum n (sel labels c) + sel labels c n). f_equal.
  unfold sel. destruct (Nat.eqb (labels n) c); reflexivity.
Qed.
Theorem gaussian_index_exact N n x labels c : (0 < count n labels c)%nat -> exists g g',
  estimate_index N n x labels c = (true, Some g) /\
  estimate_weighted N n (fun p => sel labels c p / INR (count n labels c)) x = (true, g') /\
  sum n (fun p => sel labels c p / INR (count n labels c)) = 1 /\
  (forall i, gmean g i = gmean g' i) /\ (forall i j, gcov g i j = gcov g' i j) /\ gvar g = gvar g' /\ gsd g = gsd g'.
Proof.
  intros Hc. assert (Hn : (0 < n)%nat) by (destruct n; [cbn in Hc; lia|lia]).
  assert (HI : INR (count n labels c) <> 0) by (apply not_0_INR; lia).
  assert (ONE : sum n (fun p => sel labels c p / INR (count n labels c)) = 1).
  { unfold Rdiv. rewrite sum_scal_r, <- count_sum. field. exact HI. }
  unfold estimate_index. destruct (count n labels c) as [|q] eqn:Q; [lia|].
  set (a := INR (S q)) in *. clearbody a.
  destruct n as [|n]; [lia|]. eexists. eexists. split; [reflexivity|]. split; [reflexivity|]. split; [exact ONE|].
  cbn [gmean gcov gvar gsd finish]. set (m := fun i => sum (S n) (fun p => sel labels c p * x p i) / a).
  assert (M : forall i, m i = sum (S n) (fun p => sel labels c p / a * x p i)).
  { intros i. unfold m, Rdiv. rewrite <- sum_scal_r. apply sum_ext. intros; ring. }
  assert (CV : forall i j, cov_loop (S n) (sel labels c) x m i j / a =
     cov_loop (S n) (fun p => sel labels c p / a) x (fun i => sum (S n) (fun p => sel labels c p / a * x p i)) i j).
  { intros i j. rewrite !cov_loop_moment. unfold moment, Rdiv. rewrite <- sum_scal_r. apply sum_ext. intros p _.
    change (fun p0 => sel labels c p0 * / a * x p0 i) with (fun p0 => sel labels c p0 / a * x p0 i).
    change (fun p0 => sel labels c p0 * / a * x p0 j) with (fun p0 => sel labels c p0 / a * x p0 j).
    rewrite <- !M. ring. }
  split; [exact M|]. split; [exact CV|].
  match goal with |- ?u = ?v /\ _ => assert (V : u = v) by (apply sum_ext; intros; apply CV) end.
  split; [exact V|]. rewrite V. reflexivity.
Qed.
(** a label that does not occur is reported as success *)
Theorem gaussian_index_empty_refuted N x : estimate_index N 2 x (fun _ => 0%nat) 7 = (true, None).
Proof. reflexivity. Qed.
Example gaussian_case : exists g, estimate_plain 1 2 (fun p _ => 4 * INR p) = (true, g) /\ gmean g 0%nat = 2 /\ gcov g 0%nat 0%nat = 4.
Proof.
  eexists. split; [reflexivity|]. cbn [gmean gcov finish]. split; [|rewrite cov_loop_moment; unfold moment]; cbn; field.
Qed.

(** ** Mahalanobis distance *)
Definition is_inverse (N : nat) (inv : mat -> mat) (g : gaussian) : Prop := inverse_of N (gcov g) (inv (gcov g)).
Lemma vdot_quad N A d : vdot N (mvec N A d) d = quad N A d.
Proof. apply vdot_comm. Qed.

(** C77: for a positive definite covariance the distance is defined, is the root of the
    quadratic form of the inverse, and vanishes exactly at the mean *)
Theorem mahalanobis_exact N det inv g v : symm N (gcov g) -> pd N (gcov g) -> is_inverse N inv g -> det (gcov g) <> 0 ->
  exists s, mahalanobis N det inv g v = Some s /\ 0 <= s /\
    s * s = quad N (inv (gcov g)) (vsub v (gmean g)) /\
    (s = 0 <-> veq N v (gmean g)).
Proof.
  intros HS HP HI HD. unfold mahalanobis. destruct (Req_EM_T (det (gcov g)) 0) as [|_]; [contradiction|].
  rewrite vdot_quad. set (d := vsub v (gmean g)).
  pose proof (pd_of_inverse N _ _ HS HP HI) as PI. pose proof (pd_psd N _ PI d) as PQ.
  destruct (Rlt_dec (quad N (inv (gcov g)) d) 0) as [L|_]; [lra|].
  eexists. split; [reflexivity|]. split; [apply sqrt_pos|]. split; [apply sqrt_sqrt; exact PQ|]. split.
  - intros E. apply sqrt_eq_0 in E; [|exact PQ]. intros i Hi.
    destruct (Req_dec (v i) (gmean g i)) as [|N0]; [assumption|exfalso].
    assert (0 < quad N (inv (gcov g)) d); [|lra]. apply PI. exists i. split; [exact Hi|]. unfold d, vsub. lra.
  - intros E. assert (Z : quad N (inv (gcov g)) d = 0); [|rewrite Z; apply sqrt_0].
    unfold quad, vdot. apply sum_zero. intros i Hi. unfold d, vsub. rewrite (E i Hi). ring.
Qed.

(** C77: the distance does not depend on the coordinate system *)
Theorem mahalanobis_affine N det inv g g' A Ai b v :
  inverse_of N A Ai -> is_inverse N inv g -> is_inverse N inv g' ->
  veq N (gmean g') (vadd (mvec N A (gmean g)) b) ->
  meq N N (gcov g') (sandwich N A (gcov g)) ->
  det (gcov g) <> 0 -> det (gcov g') <> 0 ->
  mahalanobis N det inv g' (vadd (mvec N A v) b) = mahalanobis N det inv g v.
Proof.
  intros [HA1 HA2] [HI1 HI2] [HJ1 HJ2] HM HC HD HD'. unfold mahalanobis.
  destruct (Req_EM_T (det (gcov g)) 0) as [|_]; [contradiction|].
  destruct (Req_EM_T (det (gcov g')) 0) as [|_]; [contradiction|].
  rewrite !vdot_quad.
  assert (E : quad N (inv (gcov g')) (vsub (vadd (mvec N A v) b) (gmean g')) = quad N (inv (gcov g)) (vsub v (gmean g)));
    [|rewrite E; reflexivity].
  assert (D : veq N (vsub (vadd (mvec N A v) b) (gmean g')) (mvec N A (vsub v (gmean g)))).
  { intros i Hi. unfold vsub at 1. rewrite (HM i Hi). rewrite (vSr N N A v (gmean g) i Hi). unfold vadd, vsub. ring. }
  (* the inverse of A C A' is Ai' Ci Ai *)
  assert (V : meq N N (inv (gcov g')) (sandwich N (tr Ai) (inv (gcov g)))).
  { apply (inverse_unique N (gcov g')); [exact HJ2|]. rewrite HC. unfold sandwich.
    rewrite (mA N N N N (mmul N A (gcov g)) (tr A)).
    rewrite <- (mA N N N N (tr A) (mmul N (tr Ai) (inv (gcov g))) (tr (tr Ai))).
    rewrite <- (mA N N N N (tr A) (tr Ai) (inv (gcov g))).
    rewrite <- (mTT N N N Ai A).
    assert (T : meq N N (tr (mmul N Ai A)) eye).
    { intros i j Hi Hj. unfold tr. rewrite (HA2 j i Hj Hi). apply eye_symm with (n := N); assumption. }
    rewrite T, m1l. rewrite (mA N N N N A (gcov g)).
    rewrite <- (mA N N N N (gcov g) (inv (gcov g)) (tr (tr Ai))), HI1, m1l. exact HA1. }
  rewrite (quad_ext N _ _ _ V), quad_sandwich.
  unfold quad. apply vdot_ext.
  - intros i Hi. transitivity (mvec N Ai (mvec N A (vsub v (gmean g))) i).
    + apply (mvec_ext N N); [intros ? ? _ _; reflexivity|exact D|exact Hi].
    + rewrite <- (vA N N N Ai A (vsub v (gmean g)) i Hi). transitivity (mvec N eye (vsub v (gmean g)) i).
      * apply (mvec_ext N N); [exact HA2|intros ? _; reflexivity|exact Hi].
      * apply mvec_eye, Hi.
  - apply mvec_ext; [apply meq_refl|].
    intros i Hi. transitivity (mvec N Ai (mvec N A (vsub v (gmean g))) i).
    + apply (mvec_ext N N); [intros ? ? _ _; reflexivity|exact D|exact Hi].
    + rewrite <- (vA N N N Ai A (vsub v (gmean g)) i Hi). transitivity (mvec N eye (vsub v (gmean g)) i).
      * apply (mvec_ext N N); [exact HA2|intros ? _; reflexivity|exact Hi].
      * apply mvec_eye, Hi.
Qed.

(** ** probability *)
(** C78: positive for a covariance that passes the determinant test, largest at the mean,
    and decreasing with the Mahalanobis distance *)
Definition regular (det : mat -> R) (g : gaussian) : Prop := 1 / 10000000000 < Rabs (det (gcov g)).
Lemma constant_pos N det g : regular det g -> 0 < constant N det g.
Proof.
  intros H. unfold constant, regular in *. destruct (Rlt_dec _ _) as [_|X]; [|contradiction].
  assert (0 < Rpower two_pi (INR N * (1 / 2))) by apply exp_pos.
  assert (0 < sqrt (Rpower two_pi (INR N * (1 / 2)) * Rabs (det (gcov g)))) by (apply sqrt_lt_R0; nra).
  unfold Rdiv. rewrite Rmult_1_l. apply Rinv_0_lt_compat. assumption.
Qed.
Lemma probability_regular N det inv g v : regular det g -> probability N det inv g v =
  constant N det g * exp (- (1 / 2) * quad N (inv (gcov g)) (vsub v (gmean g))).
Proof.
  intros H. unfold probability. pose proof (constant_pos N det g H).
  destruct (Req_EM_T (constant N det g) 0); [lra|]. rewrite vdot_quad. reflexivity.
Qed.
Theorem probability_shape N det inv g v v' : regular det g -> 
  0 < probability N det inv g v /\
  (quad N (inv (gcov g)) (vsub v (gmean g)) <= quad N (inv (gcov g)) (vsub v' (gmean g)) <->
   probability N det inv g v' <= probability N det inv g v).
Proof.
  intros H. rewrite !probability_regular by exact H. pose proof (constant_pos N det g H) as P.
  split; [apply Rmult_lt_0_compat; [exact P|apply exp_pos]|].
  set (a := quad N _ (vsub v _)). set (b := quad N _ (vsub v' _)). split.
  - intros L. apply Rmult_le_compat_l; [lra|]. destruct L as [L|L]; [|rewrite L; right; reflexivity].
    left. apply exp_increasing. lra.
  - intros L. apply Rmult_le_reg_l in L; [|exact P]. destruct (Rle_dec a b) as [|X]; [assumption|exfalso].
    assert (exp (- (1 / 2) * a) < exp (- (1 / 2) * b)) by (apply exp_increasing; lra). lra.
Qed.
(** a covariance that fails the test (for example of small scale) gives zero everywhere *)
Theorem probability_degenerate N det inv g v : ~ regular det g -> probability N det inv g v = 0.
Proof.
  intros H. unfold probability, constant, regular in *. destruct (Rlt_dec _ _) as [|_]; [contradiction|].
  destruct (Req_EM_T 0 0); [reflexivity|congruence].
Qed.
(** C78: up to a factor that depends only on the dimension, the value is the normal
    density; for dimension one it is not the density itself *)
Definition normal_density (N : nat) (dt : R) (q : R) : R := 1 / sqrt (Rpower (2 * PI) (INR N) * dt) * exp (- (1 / 2) * q).
Theorem probability_proportional N : exists f, 0 < f /\ forall det inv g v, regular det g -> 0 < det (gcov g) ->
  probability N det inv g v = f * normal_density N (det (gcov g)) (quad N (inv (gcov g)) (vsub v (gmean g))).
Proof.
  set (A := Rpower two_pi (INR N * (1 / 2))). set (B := Rpower (2 * PI) (INR N)).
  assert (HA : 0 < A) by apply exp_pos. assert (HB : 0 < B) by apply exp_pos.
  exists (sqrt B / sqrt A). assert (SA : 0 < sqrt A) by (apply sqrt_lt_R0, HA).
  assert (SB : 0 < sqrt B) by (apply sqrt_lt_R0, HB). split.
  - apply Rmult_lt_0_compat; [exact SB|apply Rinv_0_lt_compat, SA].
  - intros det inv g v HR HD. rewrite probability_regular by exact HR.
    unfold normal_density, constant. fold A. fold B. unfold regular in HR.
    destruct (Rlt_dec _ _) as [_|X]; [|contradiction]. rewrite Rabs_pos_eq by lra.
    rewrite !sqrt_mult by lra. assert (SD : 0 < sqrt (det (gcov g))) by (apply sqrt_lt_R0, HD).
    field. repeat split; lra.
Qed.
Definition unit_gauss : gaussian := G (fun _ => 0) eye 1 1.
Theorem probability_density_refuted :
  probability 1 (fun A => A 0%nat 0%nat) (fun A => A) unit_gauss (fun _ => 0) <> normal_density 1 1 0.
Proof.
  rewrite probability_regular.
  2:{ unfold regular, unit_gauss, eye. cbn. rewrite Rabs_R1. lra. }
  unfold normal_density. intros E.
  assert (Q : quad 1 (gcov unit_gauss) (vsub (fun _ => 0) (gmean unit_gauss)) = 0).
  { unfold quad, vdot, mvec, vsub, unit_gauss. cbn. ring. }
  rewrite Q in E. apply Rmult_eq_reg_r in E; [|apply Rgt_not_eq, exp_pos].
  unfold constant in E. destruct (Rlt_dec _ _) as [_|X].
  2:{ apply X. unfold unit_gauss, eye. cbn. rewrite Rabs_R1. lra. }
  cbn [unit_gauss gcov eye Nat.eqb] in E. rewrite Rabs_R1, !Rmult_1_r in E.
  assert (H1 : INR 1 * (1 / 2) = / 2) by (cbn; field). rewrite H1 in E.
  rewrite Rpower_sqrt in E by (unfold two_pi; lra). rewrite Rpower_1 in E by (pose proof PI_RGT_0; lra).
  assert (T1 : 0 < two_pi) by (unfold two_pi; lra).
  assert (T2 : sqrt two_pi < 4). { replace 4 with (sqrt (4 * 4)) by (apply sqrt_square; lra). apply sqrt_lt_1_alt. unfold two_pi. lra. }
  assert (T3 : 0 < sqrt two_pi) by (apply sqrt_lt_R0, T1).
  assert (P3 : 3 < PI). { pose proof PI2_3_2. lra. }
  assert (L : sqrt (sqrt two_pi) < sqrt (2 * PI)) by (apply sqrt_lt_1_alt; lra).
  assert (T4 : 0 < sqrt (sqrt two_pi)) by (apply sqrt_lt_R0, T3).
  unfold Rdiv in E. rewrite !Rmult_1_l in E. apply (f_equal Rinv) in E. rewrite !Rinv_inv in E. lra.
Qed.

(** ** expectation maximisation *)
Lemma all_below_spec n f : all_below n f = true <-> forall i, (i < n)%nat -> f i = true.
Proof.
  unfold all_below. rewrite forallb_forall. split.
  - intros H i Hi. apply H, in_seq. lia.
  - intros H i Hi. apply in_seq in Hi. apply H. lia.
Qed.

Section em.
Variable N K n : nat.
Variable det : mat -> R.
Variable inv : mat -> mat.
Variable x : nat -> vect.
Notation mix := (mixture N det inv K).
Notation resp := (responsibility N det inv K).
Notation step := (em_step N det inv K n x).

Lemma probability_nonneg g v : 0 <= probability N det inv g v.
Proof.
  destruct (Rlt_dec (1 / 10000000000) (Rabs (det (gcov g)))) as [H|H].
  - left. apply (proj1 (probability_shape N det inv g v v H)).
  - rewrite probability_degenerate by exact H. lra.
Qed.

Lemma resp_sum c v : mix c v <> 0 -> sum K (resp c v) = 1.
Proof. intros H. unfold responsibility, Rdiv. rewrite sum_scal_r. fold (mix c v). field. exact H. Qed.

Definition covered (c : nat -> comp) : Prop := forall i, (i < n)%nat -> mix c (x i) <> 0.
Lemma step_covered c k : covered c -> step c k =
  (let s := sum n (fun i => resp c (x i) k) in
   if Req_EM_T s 0 then C 0 (cg (c k))
   else C (s / INR n) (snd (estimate_weighted N n (fun i => resp c (x i) k * (1 / s)) x))).
Proof.
  intros H. unfold em_step. rewrite (proj2 (all_below_spec _ _)); [reflexivity|].
  intros i Hi. unfold nonzero. destruct (Req_EM_T _ 0) as [E|]; [|reflexivity]. exfalso. exact (H i Hi E).
Qed.
Lemma step_weight c k : covered c -> cw (step c k) = sum n (fun i => resp c (x i) k) / INR n.
Proof.
  intros H. rewrite step_covered by exact H. cbv zeta.
  destruct (Req_EM_T (sum n (fun i => resp c (x i) k)) 0) as [E|_]; [|reflexivity].
  rewrite E. cbn. unfold Rdiv. ring.
Qed.

(** C79: after a round the weights sum to one, if the mixture covers every data point *)
Theorem em_weights_sum c : (0 < n)%nat -> covered c -> sum K (fun k => cw (step c k)) = 1.
Proof.
  intros Hn HC. rewrite (sum_ext K _ (fun k => sum n (fun i => resp c (x i) k) * / INR n))
    by (intros k _; apply step_weight; exact HC).
  rewrite sum_scal_r, sum_swap. rewrite (sum_ext n _ (fun _ => 1)) by (intros i Hi; apply (resp_sum c (x i)), HC, Hi).
  rewrite sum_const. field. apply not_0_INR. lia.
Qed.

Lemma mix_nonneg c v : (forall k, (k < K)%nat -> 0 <= cw (c k)) -> 0 <= mix c v.
Proof. intros H. apply sum_nonneg. intros k Hk. apply Rmult_le_pos; [apply H, Hk|apply probability_nonneg]. Qed.
Lemma resp_nonneg c i k : (forall k, (k < K)%nat -> 0 <= cw (c k)) -> covered c -> (k < K)%nat -> (i < n)%nat -> 0 <= resp c (x i) k.
Proof.
  intros H HC Hk Hi. unfold responsibility. pose proof (mix_nonneg c (x i) H) as M. pose proof (HC i Hi) as NZ.
  assert (0 < mix c (x i)) by (destruct M as [M|M]; [exact M|congruence]).
  apply Rmult_le_pos; [apply Rmult_le_pos; [apply H, Hk|apply probability_nonneg]|]. left. apply Rinv_0_lt_compat. assumption.
Qed.

(** C79: weights stay non-negative; an updated component has the responsibility-weighted
    mean and a symmetric positive semidefinite covariance *)
Theorem em_components_valid c k : (0 < n)%nat -> (forall k, (k < K)%nat -> 0 <= cw (c k)) -> covered c -> (k < K)%nat ->
  0 <= cw (step c k) <= 1 /\
  (0 < cw (step c k) ->
   let s := sum n (fun i => resp c (x i) k) in
   (forall j, s * gmean (cg (step c k)) j = sum n (fun i => resp c (x i) k * x i j)) /\
   (forall j l, s * gcov (cg (step c k)) j l = moment n (fun i => resp c (x i) k) x (gmean (cg (step c k))) j l) /\
   symm N (gcov (cg (step c k))) /\ psd N (gcov (cg (step c k)))) /\
  (cw (step c k) = 0 -> cg (step c k) = cg (c k)).
Proof.
  intros Hn HW HC Hk. set (s := sum n (fun i => resp c (x i) k)).
  assert (RN : forall i, (i < n)%nat -> 0 <= resp c (x i) k) by (intros; apply resp_nonneg; assumption).
  assert (S0 : 0 <= s) by (apply sum_nonneg; exact RN).
  assert (IN : 0 < INR n) by (apply lt_0_INR; lia).
  assert (S1 : s <= INR n).
  { rewrite <- (Rmult_1_r (INR n)), <- sum_const. apply sum_le. intros i Hi.
    rewrite <- (resp_sum c (x i) (HC i Hi)).
    assert (G : forall m f, (forall j, (j < m)%nat -> 0 <= f j) -> (k < m)%nat -> f k <= sum m f).
    { clear. induction m as [|m IH]; intros f H Hk; [lia|]. change (sum (S m) f) with (sum m f + f m).
      destruct (Nat.eq_dec k m) as [->|Hn]; [pose proof (sum_nonneg m f ltac:(intros; apply H; lia)); lra|].
      specialize (IH f ltac:(intros; apply H; lia) ltac:(lia)). specialize (H m ltac:(lia)). lra. }
    apply G; [|exact Hk]. intros j Hj. apply resp_nonneg; assumption. }
  pose proof (step_weight c k HC) as EW. fold s in EW.
  split; [|split].
  - rewrite EW. split; [apply Rmult_le_pos; [exact S0|left; apply Rinv_0_lt_compat, IN]|].
    apply Rmult_le_reg_r with (INR n); [exact IN|]. unfold Rdiv. rewrite Rmult_assoc, Rinv_l by lra. lra.
  - intros HP. cbv zeta.
    assert (SN : s <> 0). { intros Z. rewrite EW, Z in HP. unfold Rdiv in HP. rewrite Rmult_0_l in HP. lra. }
    rewrite step_covered by exact HC. cbv zeta. fold s. destruct (Req_EM_T s 0) as [|_]; [contradiction|]. cbn [cg].
    destruct (gaussian_weighted_exact N n (fun i => resp c (x i) k * (1 / s)) x Hn) as (g & Eg & G1 & G2 & G3 & G4 & _).
    rewrite Eg. cbn [snd].
    assert (SP : 0 < s) by (destruct S0 as [|Z]; [assumption|congruence]).
    split; [|split; [|split]].
    + intros j. rewrite G1, <- sum_scal_l. apply sum_ext. intros i _. field. exact SN.
    + intros j l. rewrite G2. unfold moment. rewrite <- sum_scal_l. apply sum_ext. intros i _. field. exact SN.
    + exact G3.
    + apply G4. intros i Hi. apply Rmult_le_pos; [apply RN, Hi|]. unfold Rdiv. rewrite Rmult_1_l.
      left. apply Rinv_0_lt_compat, SP.
  - intros HZ. assert (SZ : s = 0).
    { rewrite EW in HZ. apply Rmult_integral in HZ. destruct HZ as [|HZ]; [assumption|].
      exfalso. apply (Rinv_neq_0_compat (INR n)); [lra|exact HZ]. }
    rewrite step_covered by exact HC. cbv zeta. fold s. destruct (Req_EM_T s 0) as [_|]; [reflexivity|contradiction].
Qed.
End em.

(** C79 (refuted): if no component reaches a data point, all weights are wiped out; one
    cluster whose data coincide is enough *)
Theorem em_weights_wiped_refuted :
  let c := fun _ : nat => C 1 (G (fun _ => 0) (fun _ _ => 0) 0 0) in
  sum 1 (fun k => cw (c k)) = 1 /\
  sum 1 (fun k => cw (em_step 1 (fun A => A 0%nat 0%nat) (fun A => A) 1 3 (fun _ _ => 0) c k)) = 0.
Proof.
  cbv zeta. split; [cbn; ring|]. cbn [sum]. unfold em_step.
  assert (Z : mixture 1 (fun A => A 0%nat 0%nat) (fun A => A) 1 (fun _ : nat => C 1 (G (fun _ => 0) (fun _ _ => 0) 0 0)) (fun _ => 0) = 0).
  { unfold mixture. cbn [sum cw cg]. rewrite probability_degenerate; [ring|].
    unfold regular. cbn. rewrite Rabs_R0. lra. }
  replace (all_below 3 _) with false; [cbn; ring|]. symmetry.
  unfold all_below. cbn [forallb seq]. rewrite Z. unfold nonzero. destruct (Req_EM_T 0 0); [reflexivity|congruence].
Qed.

(** *** Jensen's inequality for the logarithm; that the likelihood never decreases is in EmProps.v *)
Lemma ln_le_minus1 t : 0 < t -> ln t <= t - 1.
Proof. intros H. pose proof (exp_ineq1_le (ln t)) as E. rewrite exp_ln in E by exact H. lra. Qed.

Lemma jensen K g r : (forall k, (k < K)%nat -> 0 <= g k) -> (forall k, (k < K)%nat -> 0 < r k) -> sum K g = 1 ->
  sum K (fun k => g k * ln (r k)) <= ln (sum K (fun k => g k * r k)).
Proof.
  intros Hg Hr H1. set (M := sum K (fun k => g k * r k)).
  assert (PN : forall k, (k < K)%nat -> 0 <= g k * r k)
    by (intros k Hk; apply Rmult_le_pos; [apply Hg, Hk|left; apply Hr, Hk]).
  assert (M0 : 0 <= M) by (apply sum_nonneg; exact PN).
  assert (MP : 0 < M).
  { destruct M0 as [|Z]; [assumption|exfalso]. symmetry in Z.
    assert (sum K g = 0); [|lra]. apply sum_zero. intros k Hk.
    pose proof (sum_nonneg_zero K _ PN Z k Hk) as E. cbn in E. specialize (Hr k Hk).
    apply Rmult_integral in E. destruct E; [assumption|lra]. }
  apply Rle_trans with (sum K (fun k => g k * (ln M + (r k / M - 1)))).
  - apply sum_le. intros k Hk. apply Rmult_le_compat_l; [apply Hg, Hk|].
    pose proof (ln_le_minus1 (r k / M)) as L. specialize (Hr k Hk).
    assert (Q : 0 < r k / M) by (apply Rmult_lt_0_compat; [exact Hr|apply Rinv_0_lt_compat, MP]).
    specialize (L Q). unfold Rdiv at 1 in L. rewrite ln_mult, ln_Rinv in L; [lra|exact MP|exact Hr|apply Rinv_0_lt_compat, MP].
  - rewrite (sum_ext K _ (fun k => (ln M - 1) * g k + / M * (g k * r k))) by (intros; unfold Rdiv; ring).
    rewrite sum_plus, !sum_scal_l, H1. fold M. rewrite Rinv_l by lra. lra.
Qed.

Print Assumptions gaussian_weighted_exact.
Print Assumptions gaussian_weighted_second_moment.
Print Assumptions gaussian_mean_optimal.
Print Assumptions gaussian_plain_exact.
Print Assumptions gaussian_index_exact.
Print Assumptions gaussian_index_empty_refuted.
Print Assumptions mahalanobis_exact.
Print Assumptions mahalanobis_affine.
Print Assumptions probability_shape.
Print Assumptions probability_degenerate.
Print Assumptions probability_proportional.
Print Assumptions probability_density_refuted.
Print Assumptions em_weights_sum.
Print Assumptions em_components_valid.
Print Assumptions em_weights_wiped_refuted.

