(** Properties of the averages (C28, C74). *)
From Coq Require Import Reals Lra Lia Bool Arith List Permutation.
Import ListNotations.
From Verif Require Import Mat MatSetoid CovTransform CovTransformProofs Quat QuatProofs ErrorPose ErrorPoseCovProofs
  LinAlgProofs Average.
Open Scope R_scope.

(** ** the running totals *)
Lemma avg_fold (A : Type) (g : A -> vect) l a :
  let r := fold_left (fun a x => Avg (S (counter a)) (vadd (total a) (g x))) l a in
  counter r = (counter a + length l)%nat /\
  forall i, total r i = total a i + lsum (fun v => v i) (map g l).
Proof.
  revert a. induction l as [|x l IH]; intros a; cbn [fold_left map].
  - cbn. split; [lia|]. intros i. unfold lsum. cbn. ring.
  - destruct (IH (Avg (S (counter a)) (vadd (total a) (g x)))) as [H1 H2]. cbn [counter total] in *.
    split; [rewrite H1; cbn [length]; lia|].
    intros i. rewrite H2, lsum_cons. unfold vadd. ring.
Qed.

Lemma avg_mean_fold (A : Type) (g : A -> vect) l :
  l <> [] -> exists m, avg_mean (fold_left (fun a x => Avg (S (counter a)) (vadd (total a) (g x))) l avg0) = Some m /\
    (forall i, m i = lsum (fun v => v i) (map g l) / INR (length l)).
Proof.
  intros Hl. pose proof (avg_fold A g l avg0) as [H1 H2].
  set (r := fold_left _ l avg0) in *. clearbody r. cbn [counter total avg0 Nat.add] in *.
  unfold avg_mean. rewrite H1.
  destruct l as [|x l]; [congruence|]. cbn [length]. eexists. split; [reflexivity|].
  intros i. cbv beta. rewrite H2, Rplus_0_l. reflexivity.
Qed.

Lemma len_pos (A : Type) (l : list A) : l <> [] -> 0 < INR (length l).
Proof. intros H. apply lt_0_INR. destruct l; [congruence|cbn; lia]. Qed.

Lemma lsum_perm f l l' : Permutation l l' -> lsum f l = lsum f l'.
Proof.
  induction 1; [reflexivity| | |congruence].
  - rewrite !lsum_cons, IHPermutation. reflexivity.
  - rewrite !lsum_cons. ring.
Qed.

(** C28.  The average of vectors is the arithmetic mean, whatever the order. *)
Theorem average_exact l :
  (l = [] /\ average l = None) \/
  exists m, average l = Some m /\ forall i, INR (length l) * m i = lsum (fun v => v i) l.
Proof.
  destruct l as [|v l]; [left; split; reflexivity|right].
  destruct (avg_mean_fold vect (fun v => v) (v :: l) ltac:(discriminate)) as (m & E & Hm).
  exists m. split; [exact E|]. intros i. rewrite Hm, map_id.
  pose proof (len_pos vect (v :: l) ltac:(discriminate)). field. lra.
Qed.

Theorem average_order l l' m m' : Permutation l l' ->
  average l = Some m -> average l' = Some m' -> forall i, m i = m' i.
Proof.
  intros HP E E' i.
  destruct (average_exact l) as [[-> E0]|(a & Ea & Ha)]; [congruence|].
  destruct (average_exact l') as [[-> E0]|(b & Eb & Hb)]; [congruence|].
  assert (a = m) by congruence. assert (b = m') by congruence. subst.
  specialize (Ha i). specialize (Hb i). rewrite (lsum_perm _ l l' HP) in Ha.
  rewrite (Permutation_length HP) in Ha.
  assert (0 < INR (length l')).
  { apply len_pos. intros ->. discriminate E'. }
  apply (Rmult_eq_reg_l (INR (length l'))); lra.
Qed.

(** ** vectors with covariance *)
Lemma avgc_fold_base l a : base (fold_left avgc_push l a) = fold_left avg_push l (base a).
Proof. revert a. induction l as [|v l IH]; intros a; [reflexivity|]. cbn [fold_left]. rewrite IH. reflexivity. Qed.
Lemma avgc_fold_second l a i j :
  second (fold_left avgc_push l a) i j = second a i j + lsum (fun v => v i * v j) l.
Proof.
  revert a. induction l as [|v l IH]; intros a; [cbn; ring|]. cbn [fold_left]. rewrite IH, lsum_cons.
  unfold avgc_push. cbn [second]. unfold madd, outer. ring.
Qed.

Lemma lsum_cov f g m k l :
  lsum (fun p => (f p - m) * (g p - k)) l =
  lsum (fun p => f p * g p) l - m * lsum g l - k * lsum f l + INR (length l) * (m * k).
Proof.
  induction l as [|p l IH]; [cbn; ring|]. cbn [length]. rewrite !lsum_cons, IH, S_INR. ring.
Qed.

(** C28.  ... with the mean of the products of deviations as covariance *)
Theorem error_average_exact l ev : average_errvec l = Some ev ->
  (forall i, INR (length l) * value ev i = lsum (fun v => v i) l) /\
  (forall i j, INR (length l) * covariance ev i j =
     lsum (fun v => (v i - value ev i) * (v j - value ev j)) l).
Proof.
  unfold average_errvec, avgc_get. rewrite avgc_fold_base. cbn [base].
  destruct (average_exact l) as [[-> E]|(m & E & Hm)]; unfold average in E; rewrite E; [discriminate|].
  intros H. injection H as <-. cbn [value covariance]. split; [exact Hm|].
  intros i j. unfold msub. rewrite avgc_fold_second. cbn [second]. unfold mzero, outer.
  assert (HC : counter (fold_left avg_push l avg0) = length l)
    by (exact (proj1 (avg_fold vect (fun v => v) l avg0))).
  rewrite HC, lsum_cov, <- !Hm.
  assert (0 < INR (length l)). { apply len_pos. intros ->. discriminate E. }
  field. lra.
Qed.

Lemma quad_outer_sum n l (w : vect -> vect) x :
  sum n (fun i => x i * sum n (fun j => lsum (fun v => w v i * w v j) l * x j))
  = lsum (fun v => Rsqr (sum n (fun i => x i * w v i))) l.
Proof.
  induction l as [|v l IH].
  - cbn. apply sum_zero. intros i _. rewrite sum_zero; [ring|]. intros; ring.
  - rewrite lsum_cons, <- IH.
    rewrite (sum_ext n _ (fun i => x i * sum n (fun j => w v i * w v j * x j)
        + x i * sum n (fun j => lsum (fun v => w v i * w v j) l * x j))).
    2:{ intros i _. rewrite <- Rmult_plus_distr_l, <- sum_plus. f_equal. apply sum_ext. intros j _.
        rewrite lsum_cons. ring. }
    rewrite sum_plus. f_equal. unfold Rsqr. rewrite <- sum_scal_r. apply sum_ext. intros i _.
    rewrite (sum_ext n _ (fun j => w v i * (x j * w v j))) by (intros; ring).
    rewrite sum_scal_l. ring.
Qed.

Lemma mean_outer_valid n l (w : vect -> vect) c C : 0 < c ->
  (forall i j, (i < n)%nat -> (j < n)%nat -> c * C i j = lsum (fun v => w v i * w v j) l) ->
  symm n C /\ psd n C.
Proof.
  intros Hc HC. split.
  - intros i j Hi Hj. apply (Rmult_eq_reg_l c); [|lra]. rewrite !HC by assumption.
    apply lsum_ext. intros; ring.
  - intros x. apply (Rmult_le_reg_l c); [exact Hc|]. rewrite Rmult_0_r.
    unfold quad, vdot. rewrite <- sum_scal_l.
    rewrite (sum_ext n _ (fun i => x i * sum n (fun j => lsum (fun v => w v i * w v j) l * x j))).
    + rewrite quad_outer_sum. apply lsum_nonneg. intros; apply Rle_0_sqr.
    + intros i Hi. unfold mvec. rewrite <- Rmult_assoc, (Rmult_comm c (x i)), Rmult_assoc. f_equal.
      rewrite <- sum_scal_l. apply sum_ext. intros j Hj. rewrite <- HC by assumption. ring.
Qed.

Theorem error_average_valid n l ev : average_errvec l = Some ev ->
  symm n (covariance ev) /\ psd n (covariance ev).
Proof.
  intros E. destruct (error_average_exact l ev E) as [_ HC].
  apply (mean_outer_valid n l (fun v i => v i - value ev i) (INR (length l))).
  - apply len_pos. intros ->. discriminate E.
  - intros i j _ _. apply HC.
Qed.

(** ** rotations *)

(** the representative with non-negative scalar part *)
Definition upper (q : quat) : quat := if Rle_dec 0 (qw q) then q else qopp q.

Lemma upper_opp q : qw q <> 0 -> upper (qopp q) = upper q.
Proof.
  intros H. unfold upper. destruct q as [x y z w]. cbn in *. unfold qopp. cbn.
  destruct (Rle_dec 0 (- w)), (Rle_dec 0 w); try reflexivity; try (exfalso; lra).
  rewrite !Ropp_involutive. reflexivity.
Qed.

Definition qlsum (f : quat -> R) (l : list quat) : R := fold_right (fun q s => f q + s) 0 l.

Lemma push_quat_upper a q : avg_push_quat a q =
  Avg (S (counter a)) (vadd (total a) (if Rle_dec 0 (qw q) then qvec q else fun i => qvec q i * (-1))).
Proof. reflexivity. Qed.

Lemma quat_sum l i : (i < 4)%nat ->
  lsum (fun v => v i) (map (fun q => if Rle_dec 0 (qw q) then qvec q else fun i => qvec q i * (-1)) l)
  = qlsum (fun q => qvec (upper q) i) l.
Proof.
  intros Hi. induction l as [|q l IH]; [reflexivity|]. cbn [map]. rewrite lsum_cons, IH. cbn.
  unfold upper. destruct (Rle_dec 0 (qw q)); [reflexivity|].
  f_equal. unfold qvec, vlist, qopp. idx i Hi; cbn; ring.
Qed.

(** the sum of the representatives *)
Definition qtotal (l : list quat) : quat :=
  Q (qlsum (fun q => qx (upper q)) l) (qlsum (fun q => qy (upper q)) l)
    (qlsum (fun q => qz (upper q)) l) (qlsum (fun q => qw (upper q)) l).

Lemma average_quat_eq l : l <> [] ->
  average_quat l = qnormalize (qscale (/ INR (length l)) (qtotal l)).
Proof.
  intros Hl. unfold average_quat.
  destruct (avg_mean_fold quat (fun q => if Rle_dec 0 (qw q) then qvec q else fun i => qvec q i * (-1)) l Hl)
    as (m & E & Hm).
  change (fold_left avg_push_quat l avg0) with
    (fold_left (fun a x => Avg (S (counter a)) (vadd (total a)
       (if Rle_dec 0 (qw x) then qvec x else fun i => qvec x i * (-1)))) l avg0).
  rewrite E. f_equal. rewrite !Hm, !quat_sum by lia.
  unfold qscale, qtotal, qvec, vlist. cbn [nth qx qy qz qw].
  f_equal; unfold Rdiv; ring.
Qed.

Lemma average_quat_nil : average_quat [] = None.
Proof. reflexivity. Qed.

(** normalising does not depend on a positive factor *)
Lemma qnormalize_scale c q : 0 < c -> qnormalize (qscale c q) = qnormalize q.
Proof.
  intros Hc. unfold qnormalize.
  replace (qnorm (qscale c q)) with (c * c * qnorm q) by (unfold qnorm, qscale; cbn; ring).
  assert (Hn : 0 <= qnorm q) by (unfold qnorm; nra).
  rewrite sqrt_mult, sqrt_square by nra.
  destruct (Req_EM_T (sqrt (qnorm q)) 0) as [E|E].
  - rewrite E, Rmult_0_r. destruct (Req_EM_T 0 0); [reflexivity|congruence].
  - destruct (Req_EM_T (c * sqrt (qnorm q)) 0) as [E2|E2].
    + exfalso. apply Rmult_integral in E2. destruct E2; [lra|contradiction].
    + f_equal. unfold qscale. cbn. f_equal; field; split; lra.
Qed.

Lemma average_quat_total l : l <> [] -> average_quat l = qnormalize (qtotal l).
Proof.
  intros Hl. rewrite average_quat_eq by exact Hl. apply qnormalize_scale, Rinv_0_lt_compat, len_pos, Hl.
Qed.

(** C28.  Replacing inputs by their negatives does not change the average, provided the
    scalar part is not zero. *)
Theorem rotation_average_sign l l' :
  Forall2 (fun q q' => q' = q \/ (q' = qopp q /\ qw q <> 0)) l l' ->
  average_quat l = average_quat l'.
Proof.
  intros H.
  assert (E : map upper l = map upper l').
  { induction H as [|q q' l l' Hq _ IH]; [reflexivity|]. cbn [map]. rewrite IH. f_equal.
    destruct Hq as [->|[-> Hw]]; [reflexivity|]. symmetry. apply upper_opp, Hw. }
  assert (ET : qtotal l = qtotal l').
  { assert (G : forall f, qlsum (fun q => f (upper q)) l = qlsum (fun q => f (upper q)) l').
    { clear H. intros f. revert l' E. induction l as [|q l IH]; intros [|q' l'] E; try discriminate E; [reflexivity|].
      cbn [map] in E. injection E as E1 E2. cbn. rewrite E1. f_equal. exact (IH l' E2). }
    unfold qtotal. rewrite !G. reflexivity. }
  destruct l as [|q l], l' as [|q' l']; try (inversion H; fail); [reflexivity|].
  rewrite !average_quat_total by discriminate. rewrite ET. reflexivity.
Qed.

(** half turns have two representatives with zero scalar part, which cancel: the average
    of one rotation with itself is undefined *)
Theorem rotation_average_half_turn_refuted q : qw q = 0 ->
  (forall v, qrot (qopp q) v = qrot q v) /\ average_quat [q; qopp q] = None.
Proof.
  intros H. split; [apply qrot_qopp|].
  rewrite average_quat_total by discriminate. unfold qtotal, qlsum, upper. cbn.
  destruct q as [x y z w]. cbn in *. subst w. rewrite Ropp_0.
  destruct (Rle_dec 0 0); [|exfalso; lra]. cbn.
  unfold qnormalize, qnorm. cbn.
  destruct (Req_EM_T _ 0) as [_|N]; [reflexivity|]. exfalso. apply N.
  match goal with |- sqrt ?a = 0 => replace a with 0 by ring end. apply sqrt_0.
Qed.
Example half_turn_unit : unit (Q 1 0 0 0) /\ qw (Q 1 0 0 0) = 0.
Proof. unfold unit, qnorm. cbn. lra. Qed.

Lemma qnormalize_unit q r : qnormalize q = Some r -> unit r.
Proof.
  unfold qnormalize. destruct (Req_EM_T _ 0) as [|N]; [discriminate|]. intros E. injection E as <-.
  assert (Hn : 0 <= qnorm q) by (unfold qnorm; nra).
  unfold unit, qnorm at 1. cbn. set (n := sqrt (qnorm q)) in *.
  replace (qx q / n * (qx q / n) + qy q / n * (qy q / n) + qz q / n * (qz q / n) + qw q / n * (qw q / n))
    with (qnorm q / (n * n)) by (unfold qnorm; field; exact N).
  unfold n. rewrite sqrt_sqrt by exact Hn. field. intros Z. apply N. unfold n. rewrite Z. apply sqrt_0.
Qed.

Theorem rotation_average_unit l q : average_quat l = Some q -> unit q.
Proof.
  destruct l as [|q0 l]; [discriminate|]. rewrite average_quat_total by discriminate. apply qnormalize_unit.
Qed.

(** any number of copies of one rotation, with any signs, average to that rotation *)
Theorem rotation_average_copies q l : unit q -> qw q <> 0 -> l <> [] ->
  Forall (fun r => r = q \/ r = qopp q) l -> average_quat l = Some (upper q).
Proof.
  intros Hu Hw Hl HF. rewrite average_quat_total by exact Hl.
  assert (ET : qtotal l = qscale (INR (length l)) (upper q)).
  { assert (G : forall f, qlsum (fun q => f (upper q)) l = INR (length l) * f (upper q)).
    { intros f. clear Hl. induction HF as [|r l Hr _ IH]; [cbn; ring|]. cbn [length]. rewrite S_INR. cbn.
      unfold qlsum in IH. rewrite IH. destruct Hr as [->| ->]; [ring|]. rewrite upper_opp by exact Hw. ring. }
    unfold qtotal, qscale. f_equal; apply G. }
  rewrite ET, qnormalize_scale by (apply len_pos, Hl).
  assert (Hu2 : qnorm (upper q) = 1).
  { unfold upper. destruct (Rle_dec 0 (qw q)); [exact Hu|]. exact (unit_opp q Hu). }
  unfold qnormalize. rewrite Hu2, sqrt_1. destruct (Req_EM_T 1 0); [exfalso; lra|].
  f_equal. destruct (upper q). cbn. f_equal; field.
Qed.
Example rotation_average_copies_case :
  let q := Q (3/5) 0 0 (4/5) in average_quat [q; qopp q; q] = Some q.
Proof.
  cbv zeta. rewrite (rotation_average_copies (Q (3/5) 0 0 (4/5))).
  - unfold upper. cbn. destruct (Rle_dec 0 (4/5)); [reflexivity|exfalso; lra].
  - unfold unit, qnorm. cbn. lra.
  - cbn. lra.
  - discriminate.
  - apply Forall_cons; [left; reflexivity|]. apply Forall_cons; [right; reflexivity|].
    apply Forall_cons; [left; reflexivity|apply Forall_nil].
Qed.

(** the average minimises the summed squared distance to the (sign-corrected) inputs
    among all unit quaternions *)
Definition spread (u : quat) (l : list quat) : R := qlsum (fun q => qnorm (qsub u (upper q))) l.
Lemma spread_eq u l : spread u l =
  INR (length l) * qnorm u - 2 * qdot u (qtotal l) + qlsum (fun q => qnorm (upper q)) l.
Proof.
  unfold spread, qtotal, qlsum, qdot. induction l as [|q l IH]; [cbn; ring|]. cbn [fold_right length].
  rewrite IH, S_INR. unfold qnorm, qsub. cbn. ring.
Qed.
Theorem rotation_average_optimal l q u : average_quat l = Some q -> unit u -> spread q l <= spread u l.
Proof.
  intros E Hu. pose proof (rotation_average_unit l q E) as Hq.
  rewrite !spread_eq, Hu, Hq.
  assert (HD : qdot u (qtotal l) <= qdot q (qtotal l)); [|lra].
  destruct l as [|q0 l]; [discriminate E|]. rewrite average_quat_total in E by discriminate.
  set (s := qtotal (q0 :: l)) in *. clearbody s. unfold qnormalize in E.
  destruct (Req_EM_T _ 0) as [|N]; [discriminate|]. injection E as <-.
  assert (Hn : 0 <= qnorm s) by (unfold qnorm; nra).
  pose proof (sqrt_pos (qnorm s)) as Hp. pose proof (sqrt_sqrt _ Hn) as Hs. set (k := sqrt (qnorm s)) in *.
  assert (Ek : qdot (Q (qx s / k) (qy s / k) (qz s / k) (qw s / k)) s = k).
  { unfold qdot. cbn.
    replace (qx s / k * qx s + qy s / k * qy s + qz s / k * qz s + qw s / k * qw s) with (qnorm s / k)
      by (unfold qnorm; field; exact N).
    apply (Rmult_eq_reg_r k); [|exact N]. rewrite Hs. field. exact N. }
  rewrite Ek.
  destruct (Rle_dec (qdot u s) k) as [|G]; [assumption|exfalso].
  (* Cauchy-Schwarz *)
  assert (CS : qdot u s * qdot u s <= qnorm u * qnorm s).
  { unfold qdot, qnorm.
    assert (L : forall a b c d e f g h : R,
      (a*e+b*f+c*g+d*h)*(a*e+b*f+c*g+d*h) + (Rsqr (a*f-b*e) + Rsqr (a*g-c*e) + Rsqr (a*h-d*e)
         + Rsqr (b*g-c*f) + Rsqr (b*h-d*f) + Rsqr (c*h-d*g))
      = (a*a+b*b+c*c+d*d)*(e*e+f*f+g*g+h*h)) by (intros; unfold Rsqr; ring).
    rewrite <- L.
    repeat match goal with |- context [Rsqr ?a] =>
      let H := fresh in pose proof (Rle_0_sqr a) as H; set (Rsqr a) in * end. lra. }
  rewrite Hu, <- Hs in CS. nra.
Qed.

(** ** poses: the average consists of the averages of the parts *)
Lemma hemisphere_rot p i : (i < 4)%nat ->
  hemisphere7 (pose_to_vector p) (3 + i)%nat = qvec (upper (rot p)) i.
Proof.
  intros Hi. unfold hemisphere7, upper. cbn [pose_to_vector].
  destruct (Rlt_dec (qw (rot p)) 0), (Rle_dec 0 (qw (rot p))); try (exfalso; lra);
    destruct p as [[x y z w] t]; idx i Hi; unfold qvec, vlist, qopp; cbn; try reflexivity; ring.
Qed.
Lemma hemisphere_tra p i : (i < 3)%nat ->
  hemisphere7 (pose_to_vector p) i = pose_to_vector p i.
Proof.
  intros Hi. unfold hemisphere7. destruct (Rlt_dec _ 0); [|reflexivity]. idx i Hi; reflexivity.
Qed.
Lemma pose_sum_rot l i : (i < 4)%nat ->
  lsum (fun v => v (3 + i)%nat) (map (fun p => hemisphere7 (pose_to_vector p)) l)
  = qlsum (fun q => qvec (upper q) i) (map rot l).
Proof.
  intros Hi. induction l as [|p l IH]; [reflexivity|]. cbn [map]. rewrite lsum_cons, IH, hemisphere_rot by exact Hi.
  reflexivity.
Qed.
Lemma pose_sum_tra l i : (i < 3)%nat ->
  lsum (fun v => v i) (map (fun p => hemisphere7 (pose_to_vector p)) l)
  = lsum (fun v => v i) (map pose_to_vector l).
Proof.
  intros Hi. induction l as [|p l IH]; [reflexivity|]. cbn [map]. rewrite !lsum_cons, IH, hemisphere_tra by exact Hi.
  reflexivity.
Qed.

Theorem pose_average_parts l p : average_pose l = Some p ->
  average_quat (map rot l) = Some (rot p) /\
  forall i, (i < 3)%nat -> INR (length l) * pose_to_vector p i = lsum (fun v => v i) (map pose_to_vector l).
Proof.
  intros E.
  assert (Hl : l <> []) by (intros ->; discriminate E).
  unfold average_pose, avg_get_pose in E.
  destruct (avg_mean_fold pose (fun p => hemisphere7 (pose_to_vector p)) l Hl) as (m & Em & Hm).
  change (fold_left avg_push_pose l avg0) with (fold_left (fun a x => Avg (S (counter a)) (vadd (total a)
    (hemisphere7 (pose_to_vector x)))) l avg0) in E.
  rewrite Em in E. destruct (qnormalize (rot (pose_of_vector m))) as [q|] eqn:Eq; [|discriminate].
  injection E as <-. cbn [rot].
  pose proof (len_pos pose l Hl) as HL. split.
  - rewrite average_quat_eq by (destruct l; [congruence|discriminate]). rewrite <- Eq. f_equal.
    rewrite map_length. unfold pose_of_vector, qscale, qtotal. cbn [rot qx qy qz qw].
    rewrite !Hm. pose proof (pose_sum_rot l 0 ltac:(lia)) as S0. pose proof (pose_sum_rot l 1 ltac:(lia)) as S1.
    pose proof (pose_sum_rot l 2 ltac:(lia)) as S2. pose proof (pose_sum_rot l 3 ltac:(lia)) as S3.
    cbn [Nat.add] in S0, S1, S2, S3. rewrite S0, S1, S2, S3. unfold qvec, vlist. cbn [nth].
    f_equal; unfold Rdiv; ring.
  - intros i Hi. rewrite <- (pose_sum_tra l i Hi).
    transitivity (INR (length l) * m i); [f_equal; idx i Hi; reflexivity|].
    rewrite Hm. field. lra.
Qed.

(** C74.  The average of poses with covariance: deviations of a sample from the mean pose,
    i.e. the translation difference and the vector part of the rotation error. *)
Definition deviation (m : pose) (v : vect) : vect := fun i =>
  let d := qmul (qconj (rot m)) (Q (v 3%nat) (v 4%nat) (v 5%nat) (v 6%nat)) in
  match i with
  | 0 | 1 | 2 => (v i - pose_to_vector m i)%R
  | 3 => qx d | 4 => qy d | 5 => qz d
  | _ => 0%R
  end%nat.

Lemma avgc_pose_base l a : base (fold_left avgc_push_pose l a) = fold_left avg_push_pose l (base a).
Proof. revert a. induction l as [|v l IH]; intros a; [reflexivity|]. cbn [fold_left]. rewrite IH. reflexivity. Qed.
Lemma avgc_pose_second l a i j :
  second (fold_left avgc_push_pose l a) i j = second a i j +
  lsum (fun v => v i * v j) (map (fun p => hemisphere7 (pose_to_vector p)) l).
Proof.
  revert a. induction l as [|v l IH]; intros a; [cbn; ring|]. cbn [fold_left map]. rewrite IH, lsum_cons.
  unfold avgc_push_pose. cbn [second]. unfold madd, outer. ring.
Qed.

Lemma sandwich_outer_sum n B l c m i j :
  sandwich n B (msub (fun i j => lsum (fun v => v i * v j) l * c) (outer m m)) i j =
  c * lsum (fun v => mvec n B v i * mvec n B v j) l - mvec n B m i * mvec n B m j.
Proof.
  assert (O : forall x, sandwich n B (outer x x) i j = mvec n B x i * mvec n B x j).
  { intros x. unfold sandwich, mmul, mvec, outer, tr.
    rewrite (sum_ext n _ (fun l0 => sum n (fun k => B i k * x k) * (B j l0 * x l0))).
    - rewrite sum_scal_l. reflexivity.
    - intros l0 _. rewrite (sum_ext n _ (fun k => B i k * x k * x l0)) by (intros; ring).
      rewrite sum_scal_r. ring. }
  assert (S1 : forall A C, sandwich n B (msub A C) i j = sandwich n B A i j - sandwich n B C i j).
  { intros A C. unfold sandwich, mmul, msub. rewrite <- sum_minus. apply sum_ext. intros p _.
    rewrite (sum_ext n _ (fun k => B i k * A k p - B i k * C k p)) by (intros; ring).
    rewrite sum_minus. ring. }
  rewrite S1, O. f_equal.
  induction l as [|v l IH].
  - cbn. unfold sandwich, mmul. rewrite sum_zero; [ring|]. intros p _. rewrite sum_zero; [ring|]. intros; ring.
  - rewrite lsum_cons, Rmult_plus_distr_l, <- IH, <- O.
    unfold sandwich, mmul. rewrite <- sum_scal_l, <- sum_plus. apply sum_ext. intros p _.
    rewrite (sum_ext n _ (fun k => c * (B i k * outer v v k p) + B i k * (lsum (fun v0 => v0 k * v0 p) l * c))).
    + rewrite sum_plus, sum_scal_l. ring.
    + intros k _. rewrite lsum_cons. unfold outer. ring.
Qed.

(** the covariance is the mean of the products of the deviations; it is symmetric and
    positive semidefinite *)
Theorem error_pose_average_exact l r : average_errpose l = Some r ->
  average_pose l = Some (ep r) /\ unit (rot (ep r)) /\
  (forall i j, (i < 6)%nat -> (j < 6)%nat ->
     INR (length l) * cov r i j =
     lsum (fun v => deviation (ep r) v i * deviation (ep r) v j)
       (map (fun p => hemisphere7 (pose_to_vector p)) l)) /\
  symm 6 (cov r) /\ psd 6 (cov r).
Proof.
  intros E. unfold average_errpose, avgc_get_pose in E. rewrite avgc_pose_base in E. cbn [base] in E.
  change (avg_get_pose (fold_left avg_push_pose l avg0)) with (average_pose l) in E.
  destruct (average_pose l) as [m|] eqn:Em; [|discriminate]. injection E as <-. cbn [ep cov].
  assert (Hl : l <> []) by (intros ->; discriminate Em).
  pose proof (len_pos pose l Hl) as HL.
  destruct (pose_average_parts l m Em) as [Hrot Htra].
  pose proof (rotation_average_unit _ _ Hrot) as Hu.
  split; [reflexivity|]. split; [exact Hu|].
  set (sl := map (fun p => hemisphere7 (pose_to_vector p)) l) in *.
  assert (HC : counter (fold_left avg_push_pose l avg0) = length l)
    by (exact (proj1 (avg_fold pose (fun p => hemisphere7 (pose_to_vector p)) l avg0))).
  set (D := msub (fun i j => second (fold_left avgc_push_pose l {| base := avg0; second := mzero |}) i j
                   / INR (counter (fold_left avg_push_pose l avg0))) (outer (pose_to_vector m) (pose_to_vector m))).
  assert (HD : meq 7 7 D (msub (fun i j => lsum (fun v => v i * v j) sl * / INR (length l))
                  (outer (pose_to_vector m) (pose_to_vector m)))).
  { intros i j _ _. unfold D, msub. rewrite avgc_pose_second, HC. cbn [second]. unfold mzero.
    rewrite Rplus_0_l. reflexivity. }
  assert (HDs : symm 7 D).
  { apply (symm_ext 7 _ _ (meq_sym _ _ _ _ HD)). intros i j _ _. unfold msub, outer. f_equal; [|ring].
    f_equal. apply lsum_ext. intros; ring. }
  set (B := block_map (conv_jac (rot m)) 3 7 3 7).
  assert (HB : meq 6 6 (covariance (transform_range 7 (error_conversion (qconj (qconj (rot m)))) 3 7 3 7
                          (EV (pose_to_vector (pinv m)) D))) (sandwich 7 B D)).
  { pose proof (transform_range_cov 7 (error_conversion (qconj (qconj (rot m)))) 3 7 3 7
      (EV (pose_to_vector (pinv m)) D) ltac:(lia) ltac:(lia) ltac:(lia) ltac:(lia) HDs) as HT.
    intros i j Hi Hj. rewrite HT by lia. cbn [covariance]. unfold error_conversion. cbn [snd].
    unfold B. replace (qconj (qconj (rot m))) with (rot m); [reflexivity|].
    destruct (rot m). unfold qconj. cbn. rewrite !Ropp_involutive. reflexivity. }
  (* rows of B *)
  assert (HRow : forall v i, (i < 6)%nat -> mvec 7 B v i =
     match i with 0 | 1 | 2 => v i | _ => deviation m v i end%nat).
  { intros v i Hi. unfold B, mvec, block_map, conv_jac, mlist, deviation, eye, qmul, qconj.
    idx i Hi; cbn; ring. }
  assert (HRm : forall i, (i < 6)%nat -> mvec 7 B (pose_to_vector m) i =
     match i with 0 | 1 | 2 => pose_to_vector m i | _ => 0%R end%nat).
  { intros i Hi. rewrite HRow by exact Hi. destruct m as [q t]. cbn [rot] in *.
    unfold unit, qnorm in Hu. unfold deviation, qmul, qconj. idx i Hi; cbn; try reflexivity; ring. }
  (* the deviations of the rotations sum up to zero *)
  assert (HZ : forall i, (3 <= i < 6)%nat -> lsum (fun v => deviation m v i) sl = 0).
  { assert (HT : exists c, qtotal (map rot l) = qscale c (rot m)).
    { rewrite average_quat_total in Hrot by (destruct l; [congruence|discriminate]).
      clear - Hrot. destruct (qtotal (map rot l)) as [a b c d].
      unfold qnormalize in Hrot. destruct (Req_EM_T _ 0) as [|N]; [discriminate|].
      set (k := sqrt (qnorm (Q a b c d))) in *. clearbody k. cbn [qx qy qz qw] in Hrot. injection Hrot as Hrot.
      exists k. rewrite <- Hrot. unfold qscale. cbn [qx qy qz qw]. f_equal; field; exact N. }
    destruct HT as [c HT].
    assert (HL4 : forall k, (k < 4)%nat -> lsum (fun v => v (3 + k)%nat) sl = c * qvec (rot m) k).
    { intros k Hk. unfold sl. rewrite pose_sum_rot by exact Hk.
      unfold qtotal, qscale in HT. injection HT as T0 T1 T2 T3.
      idx k Hk; unfold qvec, vlist; cbn [nth]; assumption. }
    pose proof (HL4 0%nat ltac:(lia)) as A0. pose proof (HL4 1%nat ltac:(lia)) as A1.
    pose proof (HL4 2%nat ltac:(lia)) as A2. pose proof (HL4 3%nat ltac:(lia)) as A3.
    unfold qvec, vlist in A0, A1, A2, A3. cbn [Nat.add nth] in A0, A1, A2, A3.
    assert (LIN : forall (a b d e : R) L, lsum (fun v : vect => a * v 3%nat + b * v 4%nat + d * v 5%nat + e * v 6%nat) L
       = a * lsum (fun v => v 3%nat) L + b * lsum (fun v => v 4%nat) L + d * lsum (fun v => v 5%nat) L
         + e * lsum (fun v => v 6%nat) L).
    { intros a b d e L. induction L as [|v L IH]; [cbn; ring|]. rewrite !lsum_cons, IH. ring. }
    intros i Hi.
    set (q := rot m) in *.
    assert (Hi3 : i = 3%nat \/ i = 4%nat \/ i = 5%nat) by lia.
    destruct Hi3 as [->|[->| ->]].
    - rewrite (lsum_ext _ (fun v => qw q * v 3%nat + qz q * v 4%nat + - qy q * v 5%nat + - qx q * v 6%nat)).
      + rewrite LIN, A0, A1, A2, A3. ring.
      + intros v. unfold deviation. fold q. unfold qmul, qconj. cbn. ring.
    - rewrite (lsum_ext _ (fun v => - qz q * v 3%nat + qw q * v 4%nat + qx q * v 5%nat + - qy q * v 6%nat)).
      + rewrite LIN, A0, A1, A2, A3. ring.
      + intros v. unfold deviation. fold q. unfold qmul, qconj. cbn. ring.
    - rewrite (lsum_ext _ (fun v => qy q * v 3%nat + - qx q * v 4%nat + qw q * v 5%nat + - qz q * v 6%nat)).
      + rewrite LIN, A0, A1, A2, A3. ring.
      + intros v. unfold deviation. fold q. unfold qmul, qconj. cbn. ring. }
  assert (HM : forall i j, (i < 6)%nat -> (j < 6)%nat ->
    INR (length l) * covariance (transform_range 7 (error_conversion (qconj (qconj (rot m)))) 3 7 3 7
        (EV (pose_to_vector (pinv m)) D)) i j =
    lsum (fun v => deviation m v i * deviation m v j) sl).
  { intros i j Hi Hj. rewrite HB by assumption.
    rewrite (sandwich_ext 7 7 B B D _ (meq_refl _ _ _) HD i j) by lia.
    rewrite sandwich_outer_sum.
    assert (Hdev : forall k, (k < 6)%nat -> forall v, mvec 7 B v k - mvec 7 B (pose_to_vector m) k = deviation m v k).
    { intros k Hk v. rewrite HRm, HRow by exact Hk. idx k Hk; cbn; ring. }
    assert (Hsum : forall k, (k < 6)%nat -> lsum (fun v => mvec 7 B v k) sl = INR (length l) * mvec 7 B (pose_to_vector m) k).
    { intros k Hk. rewrite HRm by exact Hk.
      destruct (Nat.lt_ge_cases k 3) as [H3|H3].
      - rewrite (lsum_ext _ (fun v => v k)).
        + unfold sl. rewrite pose_sum_tra by exact H3. rewrite <- Htra by exact H3. idx k H3; reflexivity.
        + intros v. rewrite HRow by exact Hk. idx k H3; reflexivity.
      - rewrite (lsum_ext _ (fun v => deviation m v k)).
        + rewrite HZ by lia. assert (Hk3 : k = 3%nat \/ k = 4%nat \/ k = 5%nat) by lia.
          destruct Hk3 as [->|[->| ->]]; ring.
        + intros v. rewrite HRow by exact Hk.
          assert (Hk3 : k = 3%nat \/ k = 4%nat \/ k = 5%nat) by lia. destruct Hk3 as [->|[->| ->]]; reflexivity. }
    rewrite (lsum_ext (fun v => deviation m v i * deviation m v j)
      (fun v => (mvec 7 B v i - mvec 7 B (pose_to_vector m) i) * (mvec 7 B v j - mvec 7 B (pose_to_vector m) j)))
      by (intros v; rewrite !Hdev by assumption; reflexivity).
    rewrite lsum_cov, !Hsum by assumption.
    assert (Hlen : length sl = length l) by (unfold sl; apply map_length). rewrite Hlen. field. lra. }
  split; [exact HM|].
  apply (mean_outer_valid 6 sl (fun v i => deviation m v i) (INR (length l)) _ HL HM).
Qed.

(** a mean exists for poses whose rotations are not opposed, e.g. two different poses *)
Example average_errpose_defined : exists r,
  average_errpose [P (Q 0 0 (3/5) (4/5)) (V3 1 0 0); P (Q 0 0 (-3/5) (-4/5)) (V3 3 0 0)] = Some r /\
  cov r 0%nat 0%nat = 1.
Proof.
  set (l := [P (Q 0 0 (3/5) (4/5)) (V3 1 0 0); P (Q 0 0 (-3/5) (-4/5)) (V3 3 0 0)]).
  assert (E : exists q, average_pose l = Some q).
  { unfold average_pose, avg_get_pose, avg_mean. cbn [counter fold_left l avg_push_pose avg0].
    match goal with |- context [qnormalize ?a] => set (s := a) end.
    assert (Hs : 0 < qnorm s).
    { unfold s, qnorm, pose_of_vector. cbn. unfold vadd, hemisphere7. cbn.
      destruct (Rlt_dec (4/5) 0); [exfalso; lra|]. destruct (Rlt_dec (-4/5) 0); [|exfalso; lra].
      cbn. lra. }
    unfold qnormalize. destruct (Req_EM_T _ 0) as [Z|].
    - exfalso. pose proof (sqrt_lt_R0 _ Hs). lra.
    - eexists. reflexivity. }
  destruct E as [q E].
  assert (E2 : exists r, average_errpose l = Some r).
  { unfold average_errpose, avgc_get_pose. rewrite avgc_pose_base. cbn [base].
    change (avg_get_pose (fold_left avg_push_pose l avg0)) with (average_pose l). rewrite E.
    eexists. reflexivity. }
  destruct E2 as [r Er]. exists r. split; [exact Er|].
  destruct (error_pose_average_exact l r Er) as (Ep & _ & HM & _).
  destruct (pose_average_parts l (ep r) Ep) as [_ HT].
  pose proof (HT 0%nat ltac:(lia)) as T0. pose proof (HM 0%nat 0%nat ltac:(lia) ltac:(lia)) as M0.
  unfold l, lsum, deviation in *. cbn -[INR hemisphere7] in T0, M0.
  replace (INR 2) with 2 in * by (cbn; lra).
  assert (A : vx (tra (ep r)) = 2) by lra. rewrite A in M0.
  unfold hemisphere7 in M0. cbn in M0.
  destruct (Rlt_dec (4/5) 0); [exfalso; lra|]. destruct (Rlt_dec (-4/5) 0); [|exfalso; lra]. lra.
Qed.
Example average_errvec_case : exists ev,
  average_errvec [vlist [1]; vlist [3]] = Some ev /\ value ev 0%nat = 2 /\ covariance ev 0%nat 0%nat = 1.
Proof.
  eexists. split; [reflexivity|]. cbn. unfold vadd, msub, outer, madd, mzero, vlist. cbn. split; lra.
Qed.

Print Assumptions average_exact.
Print Assumptions average_order.
Print Assumptions error_average_exact.
Print Assumptions error_average_valid.
Print Assumptions rotation_average_sign.
Print Assumptions rotation_average_half_turn_refuted.
Print Assumptions rotation_average_unit.
Print Assumptions rotation_average_copies.
Print Assumptions rotation_average_optimal.
Print Assumptions pose_average_parts.
Print Assumptions error_pose_average_exact.
