(** The online hand-eye calibration of rotations is a regularised least squares fit (C139) that converges to
    the rotation it is asked for (C140), half turns excepted; the Kalman filter on quaternions keeps a unit
    quaternion and a covariance for ever (C141). *)
From Coq Require Import Reals Lra Lia Psatz Nsatz List ZArith Arith Permutation FunctionalExtensionality.
Import ListNotations.
From Verif Require Import TsaiLenzProofs Mat MatSetoid MatPd Quat QuatProofs QuatMatProofs Jacobians CovTransform Kalman KalmanProofs KalmanProps KalmanMapProps
  PoseFilterProofs AbsOrient AbsOrientProofs Spectral RotHec.
Open Scope R_scope.

(** ** Specification *)
(** the quaternion of a rotation with w >= 0 *)
Definition upper_half (q : quat) : quat := if Rlt_dec (qw q) 0 then qopp q else q.
Definition vpart (q : quat) : vec3 := V3 (qx q) (qy q) (qz q).
(** x satisfies a x = x b iff the vector v = x_v / x_w makes this zero *)
Definition misfit (ab : quat * quat) (v : vec3) : vec3 :=
  let a := vpart (upper_half (fst ab)) in let b := vpart (upper_half (snd ab)) in
  v3sub (cross3 (v3add a b) v) (v3sub b a).
(** the inverse of the initial variance *)
Definition eps : R := / 1000000.
Definition objective (ms : list (quat * quat)) (v : vec3) : R := eps * sq3 v + lsum (fun m => sq3 (misfit m v)) ms.
(** how well a set of measurements sees a change of v *)
Definition visibility (ms : list (quat * quat)) (u : vec3) : R :=
  lsum (fun m => sq3 (cross3 (v3add (vpart (upper_half (fst m))) (vpart (upper_half (snd m)))) u)) ms.
Definition estimate (st : errvec) : vec3 := vec_of (value st) 0.

(** ** The state after any number of measurements *)
Definition hmat (m : quat * quat) : mat := skew (v3add (vpart (upper_half (fst m))) (vpart (upper_half (snd m)))).
Definition zvec (m : quat * quat) : vect := of3 (v3sub (vpart (upper_half (snd m))) (vpart (upper_half (fst m)))).

Lemma w_sign_x q : qx q * w_sign q = qx (upper_half q).
Proof. unfold w_sign, upper_half. destruct (Rlt_dec _ _); cbn; ring. Qed.
Lemma w_sign_y q : qy q * w_sign q = qy (upper_half q).
Proof. unfold w_sign, upper_half. destruct (Rlt_dec _ _); cbn; ring. Qed.
Lemma w_sign_z q : qz q * w_sign q = qz (upper_half q).
Proof. unfold w_sign, upper_half. destruct (Rlt_dec _ _); cbn; ring. Qed.
Lemma add_is chol gen st m : online_add chol gen st m =
  kalman_update chol gen 3 3 (linear_fun (3 - 0) (hmat m)) 0 3 st (EV (zvec m) eye).
Proof.
  destruct m as [q r]. unfold online_add. cbv zeta. rewrite !w_sign_x, !w_sign_y, !w_sign_z. reflexivity.
Qed.

Lemma whole_3 J : meq 3 3 (whole J 0 3) J.
Proof.
  intros i j Hi Hj. unfold whole. replace (j - 0)%nat with j by lia. rewrite (proj2 (Nat.ltb_lt j 3) Hj). reflexivity.
Qed.

Definition Inv (st : errvec) (F G : vec3 -> R) : Prop :=
  symm 3 (covariance st) /\ pd 3 (covariance st) /\
  exists Pi, inverse_of 3 (covariance st) Pi /\ symm 3 Pi /\
    (forall u, quad 3 Pi (of3 u) = G u) /\
    (forall v, F v = F (estimate st) + quad 3 Pi (of3 (v3sub v (estimate st)))).

Lemma eye_inverse n : inverse_of n eye eye.
Proof. split; intros i j Hi Hj; apply mmul_eye_l; exact Hi. Qed.
Lemma eye_pd n : pd n eye.
Proof.
  intros x H. pose proof (scaled_eye_pd n 1 ltac:(lra) x H) as Q.
  rewrite (quad_ext n eye (mscale 1 eye)); [exact Q|]. intros i j _ _. unfold mscale. ring.
Qed.

Lemma inv_init : Inv online_init (objective []) (fun u => eps * sq3 u).
Proof.
  unfold Inv, online_init. cbn [covariance value]. split; [apply scaled_eye_symm|]. split; [apply scaled_eye_pd; lra|].
  exists (mscale eps eye). split; [|split; [apply scaled_eye_symm|split]].
  - split; intros i j Hi Hj; unfold mmul, mscale.
    + rewrite (sum_single 3 (fun l => 1000000 * eye i l * (eps * eye l j)) i Hi).
      * unfold eye at 1. rewrite Nat.eqb_refl. unfold eps. field.
      * intros k _ Hk. unfold eye at 1. rewrite (proj2 (Nat.eqb_neq i k)) by lia. ring.
    + rewrite (sum_single 3 (fun l => eps * eye i l * (1000000 * eye l j)) i Hi).
      * unfold eye at 1. rewrite Nat.eqb_refl. unfold eps. field.
      * intros k _ Hk. unfold eye at 1. rewrite (proj2 (Nat.eqb_neq i k)) by lia. ring.
  - intros u. rewrite scaled_eye_quad. unfold vdot, of3, sq3, dot3, vlist. cbn [sum nth]. ring.
  - intros v. rewrite scaled_eye_quad. unfold objective, estimate, vec_of, vlist, vdot, of3, sq3, dot3, v3sub, vlist. cbn. ring.
Qed.

Lemma inv_step chol gen st F G m : lapack_ok 3 chol gen -> Inv st F G ->
  Inv (online_add chol gen st m) (fun v => F v + sq3 (misfit m v))
    (fun u => G u + sq3 (cross3 (v3add (vpart (upper_half (fst m))) (vpart (upper_half (snd m)))) u)).
Proof.
  intros LA (HS & HP & Pi & HI & HSi & HG & HF). rewrite add_is.
  set (st' := kalman_update _ _ _ _ _ _ _ _ _).
  pose proof (kalman_information chol gen 3 3 LA (linear_fun (3 - 0) (hmat m)) 0 3 st (EV (zvec m) eye) Pi eye (Nat.le_0_l 3) (le_n 3) HS HP HI
    (eye_symm 3) (eye_pd 3) (eye_inverse 3)) as KI.
  pose proof (kalman_information_state chol gen 3 3 (hmat m) 0 3 st (EV (zvec m) eye) Pi eye LA (Nat.le_0_l 3) (le_n 3) HS HP HI
    (eye_symm 3) (eye_pd 3) (eye_inverse 3)) as KS.
  cbv zeta in KI, KS. cbn [snd linear_fun covariance value] in KI, KS. fold st' in KI, KS.
  set (Pi' := madd Pi (mmul 3 (tr (whole (hmat m) 0 3)) (mmul 3 eye (whole (hmat m) 0 3)))) in *.
  assert (HP' : forall i j, (i < 3)%nat -> (j < 3)%nat -> Pi' i j = Pi i j + mmul 3 (tr (hmat m)) (hmat m) i j).
  { intros i j Hi Hj. unfold Pi', madd. f_equal. apply (mmul_ext 3 3 3); try assumption.
    - intros a b Ha Hb. unfold tr. apply whole_3; assumption.
    - intros a b Ha Hb. rewrite mmul_eye_l by exact Ha. apply whole_3; assumption. }
  assert (SP : symm 3 Pi').
  { intros i j Hi Hj. rewrite !HP' by assumption. rewrite (HSi i j Hi Hj). f_equal.
    unfold mmul, tr. apply sum_ext. intros. ring. }
  assert (QP : forall u, quad 3 Pi' (of3 u) = quad 3 Pi (of3 u) + sq3 (cross3 (v3add (vpart (upper_half (fst m))) (vpart (upper_half (snd m)))) u)).
  { intros u. rewrite (quad_ext 3 Pi' (madd Pi (mmul 3 (tr (hmat m)) (hmat m)))).
    2:{ intros i j Hi Hj. rewrite HP' by assumption. reflexivity. }
    rewrite quad_add. f_equal. unfold quad, vdot, mvec, mmul, tr, hmat, skew, mlist, of3, vlist, sq3, dot3, cross3. cbn [sum nth vx vy vz]. ring. }
  assert (PD : pd 3 Pi').
  { intros x Hx. assert (E : quad 3 Pi' x = quad 3 Pi' (of3 (vec_of x 0))).
    { unfold quad, vdot, mvec, of3, vec_of, vlist. cbn [sum nth vx vy vz Nat.add]. ring. }
    rewrite E, QP. assert (E2 : quad 3 Pi (of3 (vec_of x 0)) = quad 3 Pi x).
    { unfold quad, vdot, mvec, of3, vec_of, vlist. cbn [sum nth vx vy vz Nat.add]. ring. }
    rewrite E2. pose proof (pd_of_inverse 3 _ _ HS HP HI x Hx) as Q.
    assert (0 <= sq3 (cross3 (v3add (vpart (upper_half (fst m))) (vpart (upper_half (snd m)))) (vec_of x 0))) by (unfold sq3, dot3; nra). lra. }
  split; [apply (inverse_symm 3 Pi'); [exact SP|apply inverse_of_sym, KI]|].
  split; [apply (pd_of_inverse 3 Pi'); [exact SP|exact PD|apply inverse_of_sym, KI]|].
  exists Pi'. split; [exact KI|split; [exact SP|split]].
  - intros u. rewrite QP, HG. reflexivity.
  - intros v. rewrite (HF v), (HF (estimate st')), QP.
    assert (E0 : mvec 3 Pi' (value st') 0%nat = mvec 3 Pi (value st) 0%nat + mvec 3 (tr (hmat m)) (zvec m) 0%nat).
    { rewrite (KS 0%nat) by lia. unfold vadd. f_equal. apply (mvec_ext 3 3); [| |lia].
      - intros a b Ha Hb. unfold tr. apply whole_3; assumption.
      - intros a Ha. apply mvec_eye. exact Ha. }
    assert (E1 : mvec 3 Pi' (value st') 1%nat = mvec 3 Pi (value st) 1%nat + mvec 3 (tr (hmat m)) (zvec m) 1%nat).
    { rewrite (KS 1%nat) by lia. unfold vadd. f_equal. apply (mvec_ext 3 3); [| |lia].
      - intros a b Ha Hb. unfold tr. apply whole_3; assumption.
      - intros a Ha. apply mvec_eye. exact Ha. }
    assert (E2 : mvec 3 Pi' (value st') 2%nat = mvec 3 Pi (value st) 2%nat + mvec 3 (tr (hmat m)) (zvec m) 2%nat).
    { rewrite (KS 2%nat) by lia. unfold vadd. f_equal. apply (mvec_ext 3 3); [| |lia].
      - intros a b Ha Hb. unfold tr. apply whole_3; assumption.
      - intros a Ha. apply mvec_eye. exact Ha. }
    unfold mvec in E0, E1, E2. cbn [sum] in E0, E1, E2. rewrite !HP' in E0, E1, E2 by lia.
    assert (S1 : Pi 1%nat 0%nat = Pi 0%nat 1%nat) by (apply HSi; lia).
    assert (S2 : Pi 2%nat 0%nat = Pi 0%nat 2%nat) by (apply HSi; lia).
    assert (S3 : Pi 2%nat 1%nat = Pi 1%nat 2%nat) by (apply HSi; lia).
    unfold quad, vdot, mvec, of3, v3sub, vlist. cbn [sum nth vx vy vz].
    rewrite S1, S2, S3 in *.
    unfold misfit, zvec, hmat, skew, mmul, tr, mlist, of3, vlist, estimate, vec_of, sq3, dot3, cross3, v3sub, v3add in *. cbn [sum nth vx vy vz Nat.add] in *.
    set (a := vpart (upper_half (fst m))) in *. set (b := vpart (upper_half (snd m))) in *. clearbody a b.
    destruct a as [a0 a1 a2], b as [b0 b1 b2], v as [v0 v1 v2]. cbn [vx vy vz] in *.
    generalize dependent (value st' 0%nat). intros y0. generalize dependent (value st' 1%nat). intros y1. generalize dependent (value st' 2%nat). intros y2.
    intros. set (F0 := F _) in *.
    match type of E0 with ?l = ?r => pose (d0 := l - r); assert (D0 : d0 = 0) by (unfold d0; lra) end.
    match type of E1 with ?l = ?r => pose (d1 := l - r); assert (D1 : d1 = 0) by (unfold d1; lra) end.
    match type of E2 with ?l = ?r => pose (d2 := l - r); assert (D2 : d2 = 0) by (unfold d2; lra) end.
    apply Rminus_diag_uniq. transitivity (2 * (v0 - y0) * d0 + 2 * (v1 - y1) * d1 + 2 * (v2 - y2) * d2);
      [unfold d0, d1, d2; ring|rewrite D0, D1, D2; ring].
Qed.

Lemma inv_ext st F F' G G' : (forall v, F v = F' v) -> (forall u, G u = G' u) -> Inv st F G -> Inv st F' G'.
Proof.
  intros EF EG (HS & HP & Pi & HI & HSi & HG & HF). split; [exact HS|]. split; [exact HP|]. exists Pi.
  split; [exact HI|split; [exact HSi|split]].
  - intros u. rewrite <- EG. apply HG.
  - intros v. rewrite <- !EF. apply HF.
Qed.
Lemma lsum_snoc {A} (f : A -> R) l x : lsum f (l ++ [x]) = lsum f l + f x.
Proof. induction l as [|y l IH]; cbn; [ring|]. unfold lsum in IH. rewrite IH. ring. Qed.

Lemma inv_run chol gen ms : lapack_ok 3 chol gen ->
  Inv (online_run chol gen ms) (objective ms) (fun u => eps * sq3 u + visibility ms u).
Proof.
  intros LA. induction ms as [|m ms IH] using rev_ind.
  - apply (inv_ext _ (objective []) _ (fun u => eps * sq3 u)); [reflexivity|intros u; unfold visibility; cbn; ring|apply inv_init].
  - unfold online_run. rewrite fold_left_app. cbn [fold_left]. fold (online_run chol gen ms).
    apply (inv_ext _ (fun v => objective ms v + sq3 (misfit m v)) _
      (fun u => (eps * sq3 u + visibility ms u) + sq3 (cross3 (v3add (vpart (upper_half (fst m))) (vpart (upper_half (snd m)))) u))).
    + intros v. unfold objective. rewrite lsum_snoc. ring.
    + intros u. unfold visibility. rewrite lsum_snoc. ring.
    + apply inv_step; assumption.
Qed.

Lemma sq3_nonneg v : 0 <= sq3 v. Proof. unfold sq3, dot3. nra. Qed.
Lemma sq3_zero v : sq3 v = 0 -> v = v3zero.
Proof.
  destruct v as [x y z]. unfold sq3, dot3, v3zero. cbn. intros H.
  assert (x = 0) by nra. assert (y = 0) by nra. assert (z = 0) by nra. subst. reflexivity.
Qed.
Lemma visibility_nonneg ms u : 0 <= visibility ms u.
Proof. unfold visibility. induction ms; cbn; [lra|]. pose proof (sq3_nonneg (cross3 (v3add (vpart (upper_half (fst a))) (vpart (upper_half (snd a)))) u)). unfold lsum in IHms. lra. Qed.
Lemma eps_pos : 0 < eps. Proof. unfold eps. lra. Qed.

(** ** C139 *)
Theorem online_fit : forall chol gen ms, lapack_ok 3 chol gen ->
  let v := estimate (online_run chol gen ms) in
  (forall u, objective ms v <= objective ms u) /\ (forall u, objective ms u <= objective ms v -> u = v).
Proof.
  intros chol gen ms LA v. destruct (inv_run chol gen ms LA) as (_ & _ & Pi & _ & _ & HG & HF). fold v in HF.
  assert (HF' : forall u, objective ms u = objective ms v + (eps * sq3 (v3sub u v) + visibility ms (v3sub u v))).
  { intros u. rewrite (HF u), HG. reflexivity. }
  pose proof eps_pos as EP. split.
  - intros u. rewrite (HF' u). pose proof (sq3_nonneg (v3sub u v)). pose proof (visibility_nonneg ms (v3sub u v)). nra.
  - intros u H. rewrite (HF' u) in H. pose proof (sq3_nonneg (v3sub u v)). pose proof (visibility_nonneg ms (v3sub u v)).
    assert (Z : sq3 (v3sub u v) = 0) by nra. apply sq3_zero in Z. destruct u as [u0 u1 u2], v as [v0 v1 v2].
    unfold v3sub, v3zero in Z. cbn in Z. injection Z. intros. f_equal; lra.
Qed.

(** the covariance is the inverse of the information the measurements contain *)
Theorem online_information : forall chol gen ms, lapack_ok 3 chol gen ->
  let C := covariance (online_run chol gen ms) in
  symm 3 C /\ pd 3 C /\ exists Pi, inverse_of 3 C Pi /\ symm 3 Pi /\
  forall u, quad 3 Pi (of3 u) = eps * sq3 u + visibility ms u.
Proof.
  intros chol gen ms LA C. destruct (inv_run chol gen ms LA) as (HS & HP & Pi & HI & HSi & HG & _).
  split; [exact HS|]. split; [exact HP|]. exists Pi. auto.
Qed.

Lemma lsum_permute {A} (f : A -> R) l l' : Permutation l l' -> lsum f l = lsum f l'.
Proof. intros H. induction H; cbn; unfold lsum in *; lra. Qed.

Lemma quad_symm_eq A B : symm 3 A -> symm 3 B -> (forall u, quad 3 A (of3 u) = quad 3 B (of3 u)) -> meq 3 3 A B.
Proof.
  intros SA SB H.
  pose proof (H (V3 1 0 0)) as H1. pose proof (H (V3 0 1 0)) as H2. pose proof (H (V3 0 0 1)) as H3.
  pose proof (H (V3 1 1 0)) as H4. pose proof (H (V3 1 0 1)) as H5. pose proof (H (V3 0 1 1)) as H6.
  unfold quad, vdot, mvec, of3, vlist in *. cbn [sum nth vx vy vz] in *.
  pose proof (SA 0%nat 1%nat ltac:(lia) ltac:(lia)). pose proof (SA 0%nat 2%nat ltac:(lia) ltac:(lia)). pose proof (SA 1%nat 2%nat ltac:(lia) ltac:(lia)).
  pose proof (SB 0%nat 1%nat ltac:(lia) ltac:(lia)). pose proof (SB 0%nat 2%nat ltac:(lia) ltac:(lia)). pose proof (SB 1%nat 2%nat ltac:(lia) ltac:(lia)).
  intros i j Hi Hj. destruct i as [|[|[|]]], j as [|[|[|]]]; try lia; lra.
Qed.

(** ... so their order is irrelevant *)
Theorem online_order : forall chol gen ms ms', lapack_ok 3 chol gen -> Permutation ms ms' ->
  estimate (online_run chol gen ms) = estimate (online_run chol gen ms') /\
  meq 3 3 (covariance (online_run chol gen ms)) (covariance (online_run chol gen ms')).
Proof.
  intros chol gen ms ms' LA HP.
  assert (E : forall u, objective ms u = objective ms' u) by (intros u; unfold objective; rewrite (lsum_permute _ _ _ HP); reflexivity).
  split.
  - destruct (online_fit chol gen ms' LA) as [_ U]. destruct (online_fit chol gen ms LA) as [M _]. cbv zeta in *. apply U. rewrite <- !E. apply M.
  - destruct (online_information chol gen ms LA) as (S1 & _ & P1 & I1 & Y1 & Q1).
    destruct (online_information chol gen ms' LA) as (S2 & _ & P2 & I2 & Y2 & Q2). cbv zeta in *.
    assert (EP : meq 3 3 P1 P2).
    { apply quad_symm_eq; [exact Y1|exact Y2|]. intros u. rewrite Q1, Q2. unfold visibility. rewrite (lsum_permute _ _ _ HP). reflexivity. }
    apply (inverse_unique 3 P2).
    + transitivity (mmul 3 (covariance (online_run chol gen ms)) P1); [|apply I1]. rewrite EP. reflexivity.
    + apply inverse_of_sym in I2. apply I2.
Qed.

(** a rotation can be given by either quaternion, half turns excepted *)
Definition same_up_to_sign (p q : quat) : Prop := qw p <> 0 /\ (q = p \/ q = qopp p).
Lemma upper_half_sign p q : same_up_to_sign p q -> upper_half q = upper_half p.
Proof.
  intros [W [->| ->]]; [reflexivity|]. unfold upper_half, qopp. cbn [qw qx qy qz].
  destruct (Rlt_dec (- qw p) 0), (Rlt_dec (qw p) 0); try lra; cbn; try reflexivity.
  destruct p; cbn; f_equal; ring.
Qed.
Theorem online_signs : forall chol gen ms ms',
  Forall2 (fun m m' => same_up_to_sign (fst m) (fst m') /\ same_up_to_sign (snd m) (snd m')) ms ms' ->
  online_run chol gen ms = online_run chol gen ms'.
Proof.
  intros chol gen ms ms' H. unfold online_run. generalize online_init. induction H as [|m m' l l' (A & B) _ IH]; intros st; [reflexivity|].
  cbn [fold_left]. rewrite (IH (online_add chol gen st m)). f_equal. rewrite !add_is. unfold hmat, zvec.
  rewrite (upper_half_sign _ _ A), (upper_half_sign _ _ B). reflexivity.
Qed.

(** the result is the rotation whose quaternion is proportional to (v, 1) *)
Theorem online_result_unit : forall st, let q := online_result st in
  unit q /\ 0 < qw q /\ vpart q = v3scale (qw q) (estimate st).
Proof.
  intros st. cbv zeta. unfold online_result. set (n := norm 3 (value st)).
  assert (N2 : n * n = value st 0%nat * value st 0%nat + value st 1%nat * value st 1%nat + value st 2%nat * value st 2%nat).
  { unfold n, norm. rewrite sqrt_sqrt; cbn [sum]; [ring|nra]. }
  set (r := sqrt (1 + n * n)). assert (RP : 0 < r) by (apply sqrt_lt_R0; nra).
  assert (R2 : r * r = 1 + n * n) by (apply sqrt_sqrt; nra).
  assert (C : sqrt (1 - n * (1 / r) * (n * (1 / r))) = 1 / r).
  { replace (1 - n * (1 / r) * (n * (1 / r))) with ((1 / r) * (1 / r)).
    - apply sqrt_square. apply Rlt_le, Rdiv_lt_0_compat; lra.
    - assert (n * n = r * r - 1) by lra. replace (n * (1 / r) * (n * (1 / r))) with (n * n * (1 / r * (1 / r))) by ring. rewrite H. field. lra. }
  rewrite C. split; [|split].
  - unfold unit, qnorm. cbn [qx qy qz qw]. set (s := 1 / r). assert (S2 : s * s * (r * r) = 1) by (unfold s; field; lra).
    rewrite R2, N2 in S2. transitivity (s * s * (1 + (value st 0%nat * value st 0%nat + value st 1%nat * value st 1%nat + value st 2%nat * value st 2%nat))); [ring|exact S2].
  - cbn. apply Rdiv_lt_0_compat; lra.
  - unfold vpart, v3scale, estimate, vec_of. cbn [qx qy qz qw vx vy vz Nat.add]. f_equal; ring.
Qed.

(** ** C140 *)
(** the rotation x turns what b does into what a does *)
Definition exact (x : quat) (ab : quat * quat) : Prop :=
  unit (fst ab) /\ unit (snd ab) /\ forall v, qrot (fst ab) (qrot x v) = qrot x (qrot (snd ab) v).
Definition ratio (x : quat) : vec3 := v3scale (/ qw x) (vpart x).

Lemma vpart_upper q : vpart (upper_half q) = upper q.
Proof. unfold upper_half, upper. destruct (Rlt_dec _ _); reflexivity. Qed.
Lemma exact_upper x m : unit x -> exact x m -> qw (fst m) <> 0 -> upper (fst m) = qrot x (upper (snd m)).
Proof.
  intros U (UA & UB & H) W. apply (upper_conj x (fst m) (snd m)); try assumption.
  intros v. rewrite !qrot_mul by assumption. apply H.
Qed.
Lemma misfit_exact x m : unit x -> qw x <> 0 -> exact x m -> qw (fst m) <> 0 -> misfit m (ratio x) = v3zero.
Proof.
  intros U W X WA. unfold misfit. rewrite !vpart_upper, (exact_upper x m U X WA).
  pose proof (rot_equation x (upper (snd m)) U W) as E. unfold imv in E. unfold ratio, vpart. rewrite E.
  unfold v3sub, v3zero. cbn [vx vy vz]. f_equal; ring.
Qed.
Lemma misfit_shift m v d : misfit m v = v3zero ->
  misfit m (v3add v d) = cross3 (v3add (vpart (upper_half (fst m))) (vpart (upper_half (snd m)))) d.
Proof.
  unfold misfit. set (a := vpart _). set (b := vpart _). clearbody a b. intros H.
  assert (A := f_equal vx H). assert (B := f_equal vy H). assert (C := f_equal vz H).
  destruct a as [a0 a1 a2], b as [b0 b1 b2], v as [v0 v1 v2], d as [d0 d1 d2].
  unfold v3sub, cross3, v3add, v3zero in *. cbn [vx vy vz] in *. clear H. f_equal; lra.
Qed.
Lemma cauchy3 a b : dot3 a b <= norm3 a * norm3 b.
Proof.
  unfold norm3. rewrite <- sqrt_mult by nra.
  destruct (Rle_or_lt (dot3 a b) 0) as [H|H]; [pose proof (sqrt_pos ((vx a * vx a + vy a * vy a + vz a * vz a) * (vx b * vx b + vy b * vy b + vz b * vz b))); lra|].
  rewrite <- (sqrt_square (dot3 a b)) by lra. apply sqrt_le_1_alt. unfold dot3.
  set (s1 := vx a * vy b - vy a * vx b). set (s2 := vx a * vz b - vz a * vx b). set (s3 := vy a * vz b - vz a * vy b).
  pose proof (Rle_0_sqr s1). pose proof (Rle_0_sqr s2). pose proof (Rle_0_sqr s3).
  match goal with |- ?l <= ?r => assert (r - l = Rsqr s1 + Rsqr s2 + Rsqr s3) by (unfold Rsqr, s1, s2, s3; ring) end. lra.
Qed.
Lemma norm3_square v : norm3 v * norm3 v = sq3 v.
Proof. unfold norm3. rewrite sqrt_sqrt; [reflexivity|nra]. Qed.
Lemma norm3_nonneg v : 0 <= norm3 v. Proof. apply sqrt_pos. Qed.

Lemma error_identity chol gen ms x : lapack_ok 3 chol gen -> unit x -> qw x <> 0 ->
  (forall m, In m ms -> exact x m /\ qw (fst m) <> 0) ->
  let d := v3sub (estimate (online_run chol gen ms)) (ratio x) in
  eps * sq3 d + visibility ms d = - eps * dot3 (ratio x) d.
Proof.
  intros LA U W HX d. destruct (inv_run chol gen ms LA) as (_ & _ & Pi & _ & _ & HG & HF).
  set (e := estimate (online_run chol gen ms)) in *. set (v := ratio x) in *.
  pose proof (HF v) as H. rewrite HG in H. unfold objective in H.
  assert (M0 : lsum (fun m => sq3 (misfit m v)) ms = 0).
  { rewrite (lsum_ext _ (fun _ => 0)); [rewrite lsum_const; ring|]. intros m Hm. destruct (HX m Hm) as [X WA].
    unfold v. rewrite (misfit_exact x m U W X WA). unfold sq3, dot3, v3zero. cbn. ring. }
  assert (ME : lsum (fun m => sq3 (misfit m e)) ms = visibility ms d).
  { unfold visibility. apply lsum_ext. intros m Hm. destruct (HX m Hm) as [X WA]. f_equal.
    replace e with (v3add v d). { apply misfit_shift. apply misfit_exact; assumption. }
    unfold d, v3add, v3sub. clearbody e v. destruct e as [e0 e1 e2], v as [v0 v1 v2]. cbn [vx vy vz]. f_equal; ring. }
  assert (MV : visibility ms (v3sub v e) = visibility ms d).
  { unfold visibility. apply lsum_ext. intros m _. unfold d. set (c := v3add _ _). clearbody c e v.
    destruct c as [c0 c1 c2], e as [e0 e1 e2], v as [v0 v1 v2].
    unfold sq3, dot3, cross3, v3sub. cbn [vx vy vz]. ring. }
  rewrite M0, ME, MV in H. assert (Q1 : sq3 (v3sub v e) = sq3 d).
  { unfold d, sq3, dot3, v3sub. cbn [vx vy vz]. ring. }
  assert (Q2 : sq3 v - sq3 e = - 2 * dot3 v d - sq3 d).
  { unfold d, sq3, dot3, v3sub. cbn [vx vy vz]. ring. }
  rewrite Q1 in H. assert (eps * (sq3 v - sq3 e) = eps * (- 2 * dot3 v d - sq3 d)) by (rewrite Q2; reflexivity). lra.
Qed.

(** exact measurements: the error is the initial guess, weighed against the measurements *)
Theorem online_error : forall chol gen ms x lambda, lapack_ok 3 chol gen -> unit x -> qw x <> 0 -> 0 <= lambda ->
  (forall m, In m ms -> exact x m /\ qw (fst m) <> 0) ->
  (forall u, lambda * sq3 u <= visibility ms u) ->
  (eps + lambda) * norm3 (v3sub (estimate (online_run chol gen ms)) (ratio x)) <= eps * norm3 (ratio x).
Proof.
  intros chol gen ms x l LA U W HL HX HV. pose proof (error_identity chol gen ms x LA U W HX) as H. cbv zeta in H.
  set (d := v3sub _ _) in *. set (v := ratio x) in *. specialize (HV d). pose proof eps_pos as EP.
  assert (C : - dot3 v d <= norm3 v * norm3 d).
  { pose proof (cauchy3 (v3opp v) d) as C. replace (norm3 (v3opp v)) with (norm3 v) in C.
    - unfold dot3, v3opp in *. cbn [vx vy vz] in C. lra.
    - unfold norm3, v3opp. cbn [vx vy vz]. f_equal. ring. }
  pose proof (norm3_square d) as N. pose proof (norm3_nonneg d) as ND. pose proof (norm3_nonneg v) as NV.
  destruct (Req_dec (norm3 d) 0) as [Z|Z]; [rewrite Z; nra|].
  apply (Rmult_le_reg_r (norm3 d)); [lra|]. rewrite Rmult_assoc, N.
  assert (eps * (- dot3 v d) <= eps * (norm3 v * norm3 d)) by (apply Rmult_le_compat_l; lra). nra.
Qed.

(** the error of the quaternion is no larger than that of v *)
Theorem online_result_error : forall st x, unit x -> qw x <> 0 ->
  qnorm (qsub (online_result st) (upper_half x)) <= sq3 (v3sub (estimate st) (ratio x)).
Proof.
  intros st x U W. destruct (online_result_unit st) as (UR & WR & VR). cbv zeta in *.
  set (q := online_result st) in *. set (e := estimate st) in *. set (p := upper_half x).
  assert (UP : unit p) by (unfold p, upper_half; destruct (Rlt_dec _ _); [apply unit_opp|]; exact U).
  assert (WP : 0 < qw p) by (unfold p, upper_half; destruct (Rlt_dec _ _); cbn; lra).
  assert (VP : vpart p = v3scale (qw p) (ratio x)).
  { unfold p, upper_half, ratio, vpart, v3scale, qopp. destruct (Rlt_dec _ _); cbn [qx qy qz qw vx vy vz]; f_equal; field; exact W. }
  set (v := ratio x) in *. clearbody q p v e. clear x W U. destruct q as [q0 q1 q2 al], p as [p0 p1 p2 be], e as [e0 e1 e2], v as [v0 v1 v2].
  unfold vpart, v3scale in VR, VP. cbn [qx qy qz qw vx vy vz] in *. injection VR. injection VP. intros -> -> -> -> -> ->. clear VR VP.
  unfold unit, qnorm, qsub, sq3, dot3, v3sub in *. cbn [qx qy qz qw vx vy vz] in *.
  set (c := 1 + e0 * v0 + e1 * v1 + e2 * v2).
  set (E := 1 + e0 * e0 + e1 * e1 + e2 * e2). set (V := 1 + v0 * v0 + v1 * v1 + v2 * v2).
  assert (HE : al * al * E = 1) by (unfold E; lra). assert (HV : be * be * V = 1) by (unfold V; lra).
  assert (EE : E = / al * / al) by (apply (Rmult_eq_reg_l (al * al)); [rewrite HE; field; lra|nra]).
  assert (EV : V = / be * / be) by (apply (Rmult_eq_reg_l (be * be)); [rewrite HV; field; lra|nra]).
  assert (IA : / al * al = 1) by (field; lra). assert (IB : / be * be = 1) by (field; lra).
  set (P := / al) in *. set (Qq := / be) in *.
  assert (PG : 0 < P) by (apply Rinv_0_lt_compat; exact WR). assert (QG : 0 < Qq) by (apply Rinv_0_lt_compat; exact WP).
  assert (E1 : 1 <= E) by (unfold E; nra). assert (V1 : 1 <= V) by (unfold V; nra).
  assert (P1 : 1 <= P) by nra. assert (Q1 : 1 <= Qq) by nra.
  set (k := al * be * c).
  assert (K1 : k <= 1).
  { pose proof (Rle_0_sqr (al - be)) as S0. pose proof (Rle_0_sqr (al * e0 - be * v0)) as S1. pose proof (Rle_0_sqr (al * e1 - be * v1)) as S2. pose proof (Rle_0_sqr (al * e2 - be * v2)) as S3.
    assert (SS : Rsqr (al - be) + Rsqr (al * e0 - be * v0) + Rsqr (al * e1 - be * v1) + Rsqr (al * e2 - be * v2) = al * al * E + be * be * V - 2 * k) by (unfold Rsqr, k, c, E, V; ring). lra. }
  assert (CK : c = P * Qq * k). { unfold k. transitivity (c * (P * al) * (Qq * be)); [rewrite IA, IB; ring|ring]. }
  assert (R1 : (e0 - v0) * (e0 - v0) + (e1 - v1) * (e1 - v1) + (e2 - v2) * (e2 - v2) = P * P + Qq * Qq - 2 * (P * Qq * k)).
  { rewrite <- EE, <- EV, <- CK. unfold E, V, c. ring. }
  assert (L1 : (al * e0 - be * v0) * (al * e0 - be * v0) + (al * e1 - be * v1) * (al * e1 - be * v1) + (al * e2 - be * v2) * (al * e2 - be * v2) + (al - be) * (al - be) = 2 - 2 * k).
  { transitivity (al * al * E + be * be * V - 2 * k); [unfold E, V, k, c; ring|lra]. }
  rewrite R1, L1. clearbody k P Qq. assert (PQ : 1 <= P * Qq) by (rewrite <- (Rmult_1_l 1); apply Rmult_le_compat; lra).
  assert (0 <= (P * Qq - 1) * (1 - k)) by (apply Rmult_le_pos; lra). pose proof (Rle_0_sqr (P - Qq)) as S. unfold Rsqr in S. lra.
Qed.

(** two rotations about different axes suffice *)
Lemma parallel_to w u : u <> v3zero -> cross3 w u = v3zero -> w = v3scale (dot3 w u / sq3 u) u.
Proof.
  intros N H. assert (Z : sq3 u <> 0) by (intros Z; apply N, sq3_zero, Z).
  assert (A := f_equal vx H). assert (B := f_equal vy H). assert (C := f_equal vz H). clear H N.
  destruct w as [w0 w1 w2], u as [u0 u1 u2]. unfold cross3, v3zero, v3scale, dot3, sq3 in *. unfold dot3 in *. cbn [vx vy vz] in *.
  set (n := u0 * u0 + u1 * u1 + u2 * u2) in *.
  assert (E0 : w0 * n = (w0 * u0 + w1 * u1 + w2 * u2) * u0) by (unfold n; nsatz).
  assert (E1 : w1 * n = (w0 * u0 + w1 * u1 + w2 * u2) * u1) by (unfold n; nsatz).
  assert (E2 : w2 * n = (w0 * u0 + w1 * u1 + w2 * u2) * u2) by (unfold n; nsatz).
  clearbody n. f_equal; [transitivity (w0 * n / n)|transitivity (w1 * n / n)|transitivity (w2 * n / n)]; try (field; exact Z); rewrite ?E0, ?E1, ?E2; field; exact Z.
Qed.
Lemma upper_or_opp q : upper q = vpart q \/ upper q = v3opp (vpart q).
Proof. unfold upper. destruct (Rlt_dec _ _); [right|left]; reflexivity. Qed.
Lemma qrot_lin x s a t b : qrot x (v3add (v3scale s a) (v3scale t b)) = v3add (v3scale s (qrot x a)) (v3scale t (qrot x b)).
Proof. destruct x as [x0 x1 x2 x3], a as [a0 a1 a2], b as [b0 b1 b2]. unfold qrot, v3add, v3scale, cross3. cbn. f_equal; ring. Qed.

Lemma two_axes x m1 m2 u : unit x -> qw x <> 0 -> exact x m1 -> exact x m2 -> qw (fst m1) <> 0 -> qw (fst m2) <> 0 ->
  cross3 (vpart (fst m1)) (vpart (fst m2)) <> v3zero -> visibility [m1; m2] u = 0 -> u = v3zero.
Proof.
  intros U W X1 X2 W1 W2 NP H.
  assert (D : u = v3zero \/ u <> v3zero).
  { destruct (Req_dec (sq3 u) 0) as [E|E]; [left; apply sq3_zero, E|right; intros ->; apply E; unfold sq3, dot3, v3zero; cbn; ring]. }
  destruct D as [D|D]; [exact D|exfalso].
  unfold visibility in H. cbn [lsum fold_right] in H. rewrite !vpart_upper in H.
  assert (A1 := exact_upper x m1 U X1 W1). assert (A2 := exact_upper x m2 U X2 W2).
  set (c1 := upper (snd m1)) in *. set (c2 := upper (snd m2)) in *. set (a1 := upper (fst m1)) in *. set (a2 := upper (fst m2)) in *.
  pose proof (sq3_nonneg (cross3 (v3add a1 c1) u)) as S1. pose proof (sq3_nonneg (cross3 (v3add a2 c2) u)) as S2.
  assert (Z1 : cross3 (v3add a1 c1) u = v3zero) by (apply sq3_zero; lra).
  assert (Z2 : cross3 (v3add a2 c2) u = v3zero) by (apply sq3_zero; lra).
  apply (parallel_to _ _ D) in Z1, Z2. set (t1 := dot3 (v3add a1 c1) u / sq3 u) in *. set (t2 := dot3 (v3add a2 c2) u / sq3 u) in *.
  assert (CR : cross3 a1 a2 <> v3zero).
  { unfold a1, a2. intros E. apply NP.
    assert (A := f_equal vx E). assert (B := f_equal vy E). assert (C := f_equal vz E).
    destruct (upper_or_opp (fst m1)) as [Q1|Q1], (upper_or_opp (fst m2)) as [Q2|Q2]; rewrite Q1, Q2 in A, B, C;
      unfold cross3, v3opp, v3zero in *; cbn [vx vy vz] in *; f_equal; lra. }
  clearbody t1 t2.
  assert (P : v3add (v3scale t2 c1) (v3scale (- t1) c2) = v3zero).
  { apply (no_reversal x); [exact U|exact W|]. rewrite qrot_lin, <- A1, <- A2.
    assert (F0 := f_equal vx Z1). assert (F1 := f_equal vy Z1). assert (F2 := f_equal vz Z1).
    assert (G0 := f_equal vx Z2). assert (G1 := f_equal vy Z2). assert (G2 := f_equal vz Z2).
    clear - F0 F1 F2 G0 G1 G2. unfold v3add, v3scale, v3zero in *. cbn [vx vy vz] in *. f_equal.
    - transitivity (t2 * (vx a1 + vx c1) - t1 * (vx a2 + vx c2)); [ring|]. rewrite F0, G0. ring.
    - transitivity (t2 * (vy a1 + vy c1) - t1 * (vy a2 + vy c2)); [ring|]. rewrite F1, G1. ring.
    - transitivity (t2 * (vz a1 + vz c1) - t1 * (vz a2 + vz c2)); [ring|]. rewrite F2, G2. ring. }
  assert (PA : v3add (v3scale t2 a1) (v3scale (- t1) a2) = v3zero).
  { rewrite A1, A2, <- qrot_lin, P. destruct x as [x0 x1 x2 x3]. unfold qrot, v3add, v3scale, cross3, v3zero. cbn. f_equal; ring. }
  assert (F0 := f_equal vx PA). assert (F1 := f_equal vy PA). assert (F2 := f_equal vz PA).
  unfold v3add, v3scale, v3zero in F0, F1, F2. cbn [vx vy vz] in F0, F1, F2.
  destruct (Req_dec t2 0) as [T2|T2].
  - destruct (Req_dec t1 0) as [T1|T1].
    + rewrite T1 in Z1. assert (L : v3add (qrot x c1) c1 = v3zero) by (rewrite <- A1, Z1; unfold v3scale, v3zero; f_equal; ring).
      apply (no_reversal x c1 U W) in L. apply CR. rewrite A1, L. destruct x as [x0 x1 x2 x3]. unfold qrot, v3add, v3scale, cross3, v3zero. cbn. f_equal; ring.
    + rewrite T2 in *. apply CR. unfold cross3, v3zero. assert (E0 : vx a2 = 0) by nra. assert (E1 : vy a2 = 0) by nra. assert (E2 : vz a2 = 0) by nra. rewrite E0, E1, E2. f_equal; ring.
  - assert (E0 : vx a1 = t1 / t2 * vx a2) by (apply (Rmult_eq_reg_l t2); [transitivity (t1 * vx a2); [lra|field; exact T2]|exact T2]).
    assert (E1 : vy a1 = t1 / t2 * vy a2) by (apply (Rmult_eq_reg_l t2); [transitivity (t1 * vy a2); [lra|field; exact T2]|exact T2]).
    assert (E2 : vz a1 = t1 / t2 * vz a2) by (apply (Rmult_eq_reg_l t2); [transitivity (t1 * vz a2); [lra|field; exact T2]|exact T2]).
    apply CR. unfold cross3, v3zero. rewrite E0, E1, E2. f_equal; ring.
Qed.

Lemma visibility_app l l' u : visibility (l ++ l') u = visibility l u + visibility l' u.
Proof. unfold visibility, lsum. induction l as [|m l IH]; cbn [fold_right app]; [ring|rewrite IH; ring]. Qed.
Lemma visibility_repeat m k u : visibility (repeat m k) u = INR k * visibility [m] u.
Proof.
  induction k as [|k IH]; [change (INR 0) with 0; rewrite Rmult_0_l; reflexivity|]. change (repeat m (S k)) with ([m] ++ repeat m k).
  rewrite visibility_app, IH, S_INR. ring.
Qed.
Lemma visibility_uniform ms : (forall u, visibility ms u = 0 -> u = v3zero) -> exists l, 0 < l /\ forall u, l * sq3 u <= visibility ms u.
Proof.
  intros H. set (A := fun i j => lsum (fun m => mmul 3 (tr (hmat m)) (hmat m) i j) ms).
  assert (Q : forall x, quad 3 A x = visibility ms (vec_of x 0)).
  { intros x. unfold A, visibility. clear. induction ms as [|m ms IH].
    - unfold quad, vdot, mvec. cbn [sum lsum fold_right]. ring.
    - cbn [lsum fold_right]. unfold lsum in *. rewrite <- IH. unfold quad, vdot, mvec, hmat, skew, mmul, tr, mlist, sq3, dot3, cross3, vec_of. cbn [sum nth vx vy vz Nat.add]. ring. }
  assert (SA : symm 3 A).
  { intros i j _ _. unfold A. apply lsum_ext. intros m _. unfold mmul, tr. apply sum_ext. intros. ring. }
  assert (PD : pd 3 A).
  { intros x (i & Hi & Hx). rewrite Q. destruct (visibility_nonneg ms (vec_of x 0)) as [P|P]; [exact P|]. symmetry in P. apply H in P.
    assert (F0 := f_equal vx P). assert (F1 := f_equal vy P). assert (F2 := f_equal vz P). cbn in F0, F1, F2.
    destruct i as [|[|[|]]]; try lia; contradiction. }
  destruct (pd_uniform 3 A SA PD) as (l & LP & HL). exists l. split; [exact LP|]. intros u.
  specialize (HL (of3 u)). rewrite Q in HL. unfold vdot, of3, vlist, vec_of in HL. cbn [sum nth vx vy vz Nat.add] in HL.
  destruct u as [u0 u1 u2]. unfold sq3, dot3 in *. cbn [vx vy vz] in *. lra.
Qed.

Lemma unbounded r : exists N, r <= INR N.
Proof.
  exists (Z.to_nat (up r)). destruct (archimed r) as [A _]. rewrite INR_IZR_INZ.
  destruct (Z_le_gt_dec 0 (up r)) as [H|H]; [rewrite Z2Nat.id by exact H; lra|].
  replace (Z.to_nat (up r)) with O by lia. cbn. assert (IZR (up r) < 0) by (apply IZR_lt; lia). lra.
Qed.
Theorem online_converges : forall chol gen x m1 m2 delta, lapack_ok 3 chol gen -> unit x -> qw x <> 0 -> 0 < delta ->
  exact x m1 -> exact x m2 -> qw (fst m1) <> 0 -> qw (fst m2) <> 0 ->
  cross3 (vpart (fst m1)) (vpart (fst m2)) <> v3zero ->
  exists N, forall k rest ms, (N <= k)%nat -> (forall m, In m rest -> exact x m /\ qw (fst m) <> 0) ->
  Permutation ms (repeat m1 k ++ repeat m2 k ++ rest) ->
  qnorm (qsub (online_result (online_run chol gen ms)) (upper_half x)) <= delta * delta.
Proof.
  intros chol gen x m1 m2 delta LA U W DP X1 X2 W1 W2 NP.
  destruct (visibility_uniform [m1; m2]) as (l & LP & HL). { intros u. apply (two_axes x); assumption. }
  pose proof eps_pos as EP. set (v := ratio x). pose proof (norm3_nonneg v) as NV.
  destruct (unbounded (eps * norm3 v / (l * delta))) as [N HN]. exists N. intros k rest ms Hk HR HP.
  assert (HK : eps * norm3 v / (l * delta) <= INR k) by (apply le_INR in Hk; lra).
  eapply Rle_trans; [apply online_result_error; assumption|]. fold v.
  assert (HX : forall m, In m ms -> exact x m /\ qw (fst m) <> 0).
  { intros m Hm. apply (Permutation_in _ HP) in Hm. apply in_app_or in Hm. destruct Hm as [Hm|Hm]; [apply repeat_spec in Hm; subst m; split; assumption|].
    apply in_app_or in Hm. destruct Hm as [Hm|Hm]; [apply repeat_spec in Hm; subst m; split; assumption|]. apply HR, Hm. }
  assert (HV : forall u, INR k * l * sq3 u <= visibility ms u).
  { intros u. unfold visibility. rewrite (lsum_permute _ _ _ HP). fold (visibility (repeat m1 k ++ repeat m2 k ++ rest) u).
    rewrite !visibility_app, !visibility_repeat. pose proof (visibility_nonneg rest u). specialize (HL u). change [m1; m2] with ([m1] ++ [m2]) in HL.
    rewrite visibility_app in HL. pose proof (pos_INR k). nra. }
  pose proof (pos_INR k) as PK.
  pose proof (online_error chol gen ms x (INR k * l) LA U W ltac:(nra) HX HV) as E. fold v in E. set (d := v3sub _ _) in *.
  rewrite <- norm3_square. pose proof (norm3_nonneg d) as ND. assert (norm3 d <= delta); [|nra].
  assert (K2 : eps * norm3 v <= INR k * (l * delta)).
  { apply (Rmult_le_compat_r (l * delta)) in HK; [|nra]. replace (eps * norm3 v / (l * delta) * (l * delta)) with (eps * norm3 v) in HK by (field; split; lra). exact HK. }
  destruct (Rle_or_lt (norm3 d) delta) as [L|L]; [exact L|exfalso].
  assert (INR k * l * delta <= INR k * l * norm3 d) by (apply Rmult_le_compat_l; [nra|lra]). nra.
Qed.

(** a calibration that is a half turn is never found *)
Theorem online_half_turn_refuted : forall st x, unit x -> qw x = 0 -> ~ same_rotation (online_result st) x.
Proof.
  intros st x U W H. destruct (online_result_unit st) as (UR & WR & _). cbv zeta in *.
  destruct (qmat_inj _ _ UR U (qrot_same_mat _ _ UR U H)) as [E|E]; rewrite E in WR; unfold qopp in WR; cbn in WR; lra.
Qed.

(** measurements that are half turns: the sign of the quaternion decides.  Here the calibration is a quarter
    turn about Z; any number of exact measurements gives a rotation about -Z *)
Definition quarter : quat := Q 0 0 (/ sqrt 2) (/ sqrt 2).
Definition half_turns : quat * quat := (Q 1 0 0 0, Q 0 1 0 0).
Lemma inv_sqrt2 : 0 < / sqrt 2 /\ / sqrt 2 * / sqrt 2 = / 2.
Proof.
  assert (P : 0 < sqrt 2) by (apply sqrt_lt_R0; lra). split; [apply Rinv_0_lt_compat, P|].
  rewrite <- Rinv_mult. rewrite sqrt_sqrt by lra. reflexivity.
Qed.
Lemma half_turns_sum n v : lsum (fun m => sq3 (misfit m v)) (repeat half_turns n) = INR n * (2 * ((1 + vz v) * (1 + vz v)) + (vx v - vy v) * (vx v - vy v)).
Proof.
  induction n as [|j IH]; [cbn [repeat lsum fold_right INR]; ring|]. rewrite S_INR. change (repeat half_turns (S j)) with (half_turns :: repeat half_turns j).
  unfold lsum in *. cbn [fold_right]. rewrite IH. unfold misfit, half_turns, upper_half. cbn [fst snd qw]. destruct (Rlt_dec 0 0) as [Z|_]; [lra|].
  unfold sq3, dot3, v3sub, cross3, v3add, vpart. cbn [vx vy vz qx qy qz]. ring.
Qed.
Theorem online_half_turn_sign_refuted : forall chol gen k, lapack_ok 3 chol gen ->
  unit quarter /\ exact quarter half_turns /\
  let q := online_result (online_run chol gen (repeat half_turns (S k))) in qz q < 0 /\ 0 < qw q.
Proof.
  intros chol gen k LA. destruct inv_sqrt2 as [SP S2]. split; [|split].
  - unfold unit, qnorm, quarter. cbn [qx qy qz qw]. lra.
  - unfold exact, half_turns, quarter. cbn [fst snd]. split; [unfold unit, qnorm; cbn; ring|]. split; [unfold unit, qnorm; cbn; ring|].
    intros [v0 v1 v2]. set (s := / sqrt 2) in *. clearbody s. unfold qrot, v3add, v3scale, cross3. cbn. assert (S3 : 2 * (s * s) = 1) by lra. clear S2 SP. f_equal; nsatz.
  - set (st := online_run chol gen (repeat half_turns (S k))). destruct (online_result_unit st) as (_ & WR & VR). cbv zeta in *.
    split; [|exact WR]. assert (E := f_equal vz VR). unfold vpart, v3scale in E. cbn [vz] in E. rewrite E.
    assert (NZ : vz (estimate st) < 0); [|nra]. destruct (Rlt_or_le (vz (estimate st)) 0) as [L|L]; [exact L|exfalso].
    destruct (online_fit chol gen (repeat half_turns (S k)) LA) as [M _]. cbv zeta in M. fold st in M. specialize (M (V3 0 0 (-1))).
    unfold objective in M. rewrite !half_turns_sum in M. set (n := INR (S k)) in *. assert (N1 : 1 <= n) by (unfold n; rewrite S_INR; pose proof (pos_INR k); lra).
    set (e := estimate st) in *. cbn [vx vy vz] in M. pose proof (sq3_nonneg e) as SE. pose proof eps_pos as EP.
    pose proof (Rle_0_sqr (vx e - vy e)) as S4. unfold Rsqr in S4. set (p := (vx e - vy e) * (vx e - vy e)) in *. set (h := vz e) in *. clearbody p h.
    assert (H1 : 1 <= (1 + h) * (1 + h)) by (clear - L; nra). set (g := (1 + h) * (1 + h)) in *. clearbody g.
    assert (V1 : sq3 (V3 0 0 (-1)) = 1) by (unfold sq3, dot3; cbn; ring). rewrite V1 in M. set (t := sq3 e) in *. clearbody t n. unfold eps in *.
    assert (2 <= n * (2 * g + p)) by (clear - N1 H1 S4; nra). clear - M H SE. lra.
Qed.

(** a case for the theorems above: two measurements about different axes *)
Lemma exact_made x a : unit x -> unit a -> exact x (a, qmul (qmul (qconj x) a) x).
Proof.
  intros U UA. assert (UC : unit (qconj x)) by (unfold unit, qnorm, qconj in *; cbn in *; lra).
  unfold exact. cbn [fst snd]. split; [exact UA|]. split; [apply unit_mul; [apply unit_mul|]; assumption|].
  intros v. rewrite <- !qrot_mul by (repeat apply unit_mul; assumption). f_equal.
  rewrite !qmul_assoc. rewrite (qmul_conj_r x U). rewrite qmul_one_l. reflexivity.
Qed.
Example convergence_case : exists x m1 m2, unit x /\ qw x <> 0 /\ exact x m1 /\ exact x m2 /\ qw (fst m1) <> 0 /\ qw (fst m2) <> 0 /\
  cross3 (vpart (fst m1)) (vpart (fst m2)) <> v3zero /\ ratio x <> v3zero.
Proof.
  assert (U : unit (Q 0 0 (3 / 5) (4 / 5))) by (unfold unit, qnorm; cbn; field).
  assert (U1 : unit (Q (3 / 5) 0 0 (4 / 5))) by (unfold unit, qnorm; cbn; field).
  assert (U2 : unit (Q 0 (3 / 5) 0 (4 / 5))) by (unfold unit, qnorm; cbn; field).
  exists (Q 0 0 (3 / 5) (4 / 5)). eexists (Q (3 / 5) 0 0 (4 / 5), _). eexists (Q 0 (3 / 5) 0 (4 / 5), _).
  split; [exact U|]. split; [cbn; lra|]. split; [apply exact_made; assumption|]. split; [apply exact_made; assumption|].
  split; [cbn; lra|]. split; [cbn; lra|]. split.
  - intros E. apply (f_equal vz) in E. cbn in E. lra.
  - intros E. apply (f_equal vz) in E. cbn in E. lra.
Qed.

(** ** C141: the filter on quaternions *)
Definition valid (st : errvec) : Prop :=
  symm 4 (covariance st) /\ pd 4 (covariance st) /\ unit (rhk_result st).

Lemma rothec_linear a b : (fun v => (rothec a b v, rothec_jac a b)) = linear_fun (4 - 0) (rothec_jac a b).
Proof.
  apply functional_extensionality. intros v. unfold linear_fun. f_equal. apply functional_extensionality. intros i.
  unfold rothec, to4, qsub, qmul, quat_of, mvec, rothec_jac, mlist, vlist.
  destruct i as [|[|[|[|i]]]]; cbn [sum nth Nat.sub qx qy qz qw Nat.add]; try ring.
  destruct i; cbn [nth]; ring.
Qed.
Lemma whole_4 J : meq 4 4 (whole J 0 4) J.
Proof.
  intros i j Hi Hj. unfold whole. replace (j - 0)%nat with j by lia. rewrite (proj2 (Nat.ltb_lt j 4) Hj). reflexivity.
Qed.
Lemma scaled_inverse n r : r <> 0 -> inverse_of n (mscale r eye) (mscale (/ r) eye).
Proof.
  intros R0. split; intros i j Hi Hj; unfold mmul, mscale.
  - rewrite (sum_single n (fun l => r * eye i l * (/ r * eye l j)) i Hi).
    + unfold eye at 1. rewrite Nat.eqb_refl. field. exact R0.
    + intros k _ Hk. unfold eye at 1. rewrite (proj2 (Nat.eqb_neq i k)) by lia. ring.
  - rewrite (sum_single n (fun l => / r * eye i l * (r * eye l j)) i Hi).
    + unfold eye at 1. rewrite Nat.eqb_refl. field. exact R0.
    + intros k _ Hk. unfold eye at 1. rewrite (proj2 (Nat.eqb_neq i k)) by lia. ring.
Qed.
Lemma norm_zero v : norm 4 v = 0 -> veq 4 v (fun _ => 0).
Proof.
  intros H i Hi. unfold norm in H. apply sqrt_eq_0 in H; [|apply sum_nonneg; intros; nra].
  assert (Z := sum_nonneg_zero 4 (fun k => v k * v k) ltac:(intros; nra) H i Hi). cbv beta in Z. nra.
Qed.

(** what the update of a valid state looks like before it is normalised *)
Definition updated chol gen st (a b : quat) : errvec :=
  kalman_update chol gen 4 4 (fun v => (rothec a b v, rothec_jac a b)) 0 4 st (EV (fun _ => 0) (mscale (1 / 100) eye)).
Lemma updated_ok chol gen st a b : lapack_ok 4 chol gen -> valid st ->
  symm 4 (covariance (updated chol gen st a b)) /\ psd 4 (covariance (updated chol gen st a b)) /\ norm 4 (value (updated chol gen st a b)) <> 0.
Proof.
  intros LA (HS & HP & U). unfold updated. rewrite rothec_linear.
  assert (R1 : symm 4 (mscale (1 / 100) eye)) by apply scaled_eye_symm.
  assert (R2 : pd 4 (mscale (1 / 100) eye)) by (apply scaled_eye_pd; lra).
  set (meas := EV (fun _ => 0) (mscale (1 / 100) eye)).
  destruct (kalman_well_defined 4 4 (linear_fun (4 - 0) (rothec_jac a b)) 0 4 st meas HS (pd_psd _ _ HP) R1 R2) as [Wm HW].
  destruct (kalman_covariance_valid chol gen 4 4 LA (linear_fun (4 - 0) (rothec_jac a b)) 0 4 st meas Wm (Nat.le_0_l 4) (le_n 4) HS (pd_psd _ _ HP) R1 (pd_psd _ _ R2) HW) as (C1 & C2 & _).
  split; [exact C1|]. split; [exact C2|]. intros Z. apply norm_zero in Z.
  set (Pi := pd_inverse 4 (covariance st)). assert (HI : inverse_of 4 (covariance st) Pi) by (apply pd_invertible; assumption).
  pose proof (kalman_information_state chol gen 4 4 (rothec_jac a b) 0 4 st meas Pi (mscale (/ (1 / 100)) eye) LA (Nat.le_0_l 4) (le_n 4) HS HP HI R1 R2
    (scaled_inverse 4 (1 / 100) ltac:(lra))) as KS. cbv zeta in KS.
  set (r := kalman_update _ _ _ _ _ _ _ _ _) in *. set (M := madd Pi _) in KS.
  assert (ZP : veq 4 (mvec 4 Pi (value st)) (fun _ => 0)).
  { intros i Hi. specialize (KS i Hi). unfold vadd, meas in KS. cbn [value] in KS.
    assert (L : mvec 4 M (value r) i = 0) by (unfold mvec; apply sum_zero; intros l Hl; rewrite (Z l Hl); ring).
    assert (Z2 : forall A B, mvec 4 A (mvec 4 B (fun _ => 0)) i = 0).
    { intros A B. unfold mvec. apply sum_zero. intros l Hl. rewrite (sum_zero 4 (fun l0 => B l l0 * 0)) by (intros; ring). ring. }
    rewrite L, Z2 in KS. lra. }
  assert (ZV : veq 4 (value st) (fun _ => 0)).
  { intros i Hi. rewrite <- (mvec_eye 4 (value st) i Hi). rewrite <- (mvec_ext 4 4 (mmul 4 (covariance st) Pi) eye (value st) (value st) (proj1 HI) ltac:(intros ? ?; reflexivity) i Hi).
    rewrite mvec_mmul. unfold mvec at 1. apply sum_zero. intros l Hl. rewrite (ZP l Hl). ring. }
  unfold unit, qnorm, rhk_result, quat_of in U. cbn [qx qy qz qw Nat.add] in U. rewrite !ZV in U by lia. lra.
Qed.

Lemma rhk_step chol gen st m : lapack_ok 4 chol gen -> valid st -> exists st', rhk_add chol gen st m = Some st' /\ valid st' /\
  veq 4 (value st') (vnormalize 4 (value (updated chol gen st (fst m) (negate_if_closer (snd m) (fst m))))).
Proof.
  intros LA V. destruct m as [a b]. unfold rhk_add. cbn [fst snd]. set (b' := negate_if_closer b a). fold (updated chol gen st a b').
  destruct (updated_ok chol gen st a b' LA V) as (C1 & C2 & N). set (s1 := updated chol gen st a b') in *.
  destruct (Req_EM_T (norm 4 (value s1)) 0) as [E|_]; [contradiction|]. eexists. split; [reflexivity|].
  unfold transform_cov. cbn [value covariance]. split; [|intros i _; reflexivity].
  split; [|split].
  - intros i j Hi Hj. unfold covariance, madd. f_equal; [|exact (scaled_eye_symm 4 _ i j Hi Hj)].
    apply (symm_sandwich 4 4 (vnormalize_jac 4 (value s1)) _ C1); assumption.
  - unfold covariance. apply pd_add_psd; [|apply scaled_eye_pd; lra]. apply (psd_sandwich 4 4 (vnormalize_jac 4 (value s1)) _ C2).
  - unfold rhk_result, quat_of, unit, qnorm. cbn [value qx qy qz qw Nat.add]. exact (vnorm_unit _ N).
Qed.

Theorem rhk_always_valid : forall chol gen ms, lapack_ok 4 chol gen ->
  exists st, rhk_run chol gen rhk_init ms = Some st /\ unit (rhk_result st) /\ symm 4 (covariance st) /\ pd 4 (covariance st).
Proof.
  intros chol gen ms LA. assert (V : valid rhk_init).
  { split; [apply scaled_eye_symm|]. split; [apply scaled_eye_pd; lra|]. unfold unit, qnorm, rhk_result, quat_of, rhk_init, vlist. cbn. ring. }
  revert V. generalize rhk_init. induction ms as [|m ms IH]; intros st V.
  - exists st. destruct V as (A & B & C). cbn. auto.
  - destruct (rhk_step chol gen st m LA V) as (st' & E & V' & _). cbn [rhk_run]. rewrite E. apply IH, V'.
Qed.

(** every step is the best compromise between the old state and the measurement, made a unit quaternion *)
Theorem rhk_compromise : forall chol gen ms st a b, lapack_ok 4 chol gen -> rhk_run chol gen rhk_init ms = Some st ->
  let b' := negate_if_closer b a in
  exists Pi y st', inverse_of 4 (covariance st) Pi /\ rhk_add chol gen st (a, b) = Some st' /\
  (let cost u := quad 4 Pi (vsub u (value st)) + 100 * qnorm (qsub (qmul a (quat_of u 0)) (qmul (quat_of u 0) b')) in
   (forall u, cost y <= cost u) /\ (forall u, cost u <= cost y -> veq 4 u y)) /\
  norm 4 y <> 0 /\ veq 4 (value st') (vnormalize 4 y).
Proof.
  intros chol gen ms st a b LA R b'.
  assert (V : valid st).
  { destruct (rhk_always_valid chol gen ms LA) as (s & E & A & B & C). rewrite R in E. injection E as <-. split; [exact B|]. split; [exact C|exact A]. }
  destruct (rhk_step chol gen st (a, b) LA V) as (st' & E & V' & VE). cbn [fst snd] in VE. fold b' in VE.
  pose proof V as (HS & HP & U). exists (pd_inverse 4 (covariance st)), (value (updated chol gen st a b')), st'.
  assert (HI : inverse_of 4 (covariance st) (pd_inverse 4 (covariance st))) by (apply pd_invertible; assumption).
  split; [exact HI|]. split; [exact E|]. split; [|split; [apply updated_ok; assumption|exact VE]].
  assert (R1 : symm 4 (mscale (1 / 100) eye)) by apply scaled_eye_symm.
  assert (R2 : pd 4 (mscale (1 / 100) eye)) by (apply scaled_eye_pd; lra).
  pose proof (kalman_map chol gen 4 4 (rothec_jac a b') 0 4 st (EV (fun _ => 0) (mscale (1 / 100) eye)) (pd_inverse 4 (covariance st)) (mscale (/ (1 / 100)) eye)
    LA (Nat.le_0_l 4) (le_n 4) HS HP HI R1 R2 (scaled_inverse 4 (1 / 100) ltac:(lra))) as KM. cbv zeta in KM.
  unfold updated. rewrite rothec_linear. set (y := value (kalman_update _ _ _ _ _ _ _ _ _)) in *. clearbody y.
  assert (CE : forall u, posterior 4 4 (pd_inverse 4 (covariance st)) (mscale (/ (1 / 100)) eye) (whole (rothec_jac a b') 0 4) (value st) (fun _ => 0) u =
    quad 4 (pd_inverse 4 (covariance st)) (vsub u (value st)) + 100 * qnorm (qsub (qmul a (quat_of u 0)) (qmul (quat_of u 0) b'))).
  { intros u. unfold posterior. f_equal. rewrite scaled_eye_quad. replace (/ (1 / 100)) with 100 by field. f_equal.
    rewrite (vdot_ext 4 _ (fun i => - rothec a b' u i) _ (fun i => - rothec a b' u i)).
    - unfold vdot, rothec, to4, vlist, qnorm. cbn [sum nth]. ring.
    - intros i Hi. unfold vsub. rewrite (mvec_ext 4 4 _ _ u u (whole_4 _) ltac:(intros ? ?; reflexivity) i Hi).
      pose proof (f_equal (fun f => fst (f u) i) (rothec_linear a b')) as RL. cbn [fst linear_fun] in RL. change (4 - 0)%nat with 4%nat in RL. rewrite RL. ring.
    - intros i Hi. unfold vsub. rewrite (mvec_ext 4 4 _ _ u u (whole_4 _) ltac:(intros ? ?; reflexivity) i Hi).
      pose proof (f_equal (fun f => fst (f u) i) (rothec_linear a b')) as RL. cbn [fst linear_fun] in RL. change (4 - 0)%nat with 4%nat in RL. rewrite RL. ring. }
  cbn [value] in KM. destruct KM as [M1 M2]. split.
  - intros u. rewrite <- !CE. apply M1.
  - intros u H. rewrite <- !CE in H. apply M2, H.
Qed.

Lemma exact_conj x a b : unit x -> exact x (a, b) -> b = qmul (qmul (qconj x) a) x \/ b = qopp (qmul (qmul (qconj x) a) x).
Proof.
  intros U (UA & UB & H). cbn [fst snd] in *. assert (UC : unit (qconj x)) by (unfold unit, qnorm, qconj in *; cbn in *; lra).
  assert (UM : unit (qmul (qmul (qconj x) a) x)) by (repeat apply unit_mul; assumption).
  apply (qmat_inj b); [exact UB|exact UM|]. apply qrot_same_mat; [exact UB|exact UM|]. intros v.
  rewrite !qrot_mul by (repeat apply unit_mul; assumption). rewrite H. rewrite <- (qrot_mul (qconj x) x) by assumption.
  rewrite (qmul_conj_l x U). destruct (qrot b v). unfold qrot, qone. cbn. f_equal; ring.
Qed.
Lemma qmul_conj_back x a : unit x -> qmul a x = qmul x (qmul (qmul (qconj x) a) x).
Proof. intros U. rewrite !qmul_assoc, (qmul_conj_r x U), qmul_one_l. reflexivity. Qed.
Lemma conj_dot x a : unit x -> unit a -> 2 * (qw a * qw a) - 1 <= qdot (qmul (qmul (qconj x) a) x) a.
Proof.
  intros U UA. set (c := qmul (qmul (qconj x) a) x).
  assert (UC : unit (qconj x)) by (unfold unit, qnorm, qconj in *; cbn in *; lra).
  assert (NC : unit c) by (repeat apply unit_mul; assumption).
  assert (WC : qw c = qw a).
  { unfold c. transitivity (qw a * qnorm x); [unfold qmul, qconj, qnorm; cbn; ring|]. unfold unit in U. rewrite U. ring. }
  clearbody c. unfold unit, qnorm, qdot in *. rewrite WC in *.
  pose proof (Rle_0_sqr (qx c + qx a)) as P1. pose proof (Rle_0_sqr (qy c + qy a)) as P2. pose proof (Rle_0_sqr (qz c + qz a)) as P3. unfold Rsqr in *. lra.
Qed.

(** the sign of b is chosen right for rotations by less than a quarter turn *)
Theorem rhk_sign : forall x a b, unit x -> exact x (a, b) -> 1 < 2 * (qw a * qw a) ->
  qmul a x = qmul x (negate_if_closer b a).
Proof.
  intros x a b U X W. pose proof (conj_dot x a U (proj1 X)) as D. rewrite (qmul_conj_back x a U).
  unfold negate_if_closer. destruct (exact_conj x a b U X) as [-> | ->]; f_equal.
  - destruct (Rge_dec _ _) as [G|G]; [reflexivity|lra].
  - set (c := qmul (qmul (qconj x) a) x) in *. assert (E : qdot (qopp c) a = - qdot c a) by (unfold qdot, qopp; cbn; ring). rewrite E.
    destruct (Rge_dec _ _) as [G|G]; [lra|]. unfold qopp. destruct c. cbn. f_equal; ring.
Qed.
(** ... and can be wrong for any larger rotation *)
Theorem rhk_sign_refuted : forall a, unit a -> 2 * (qw a * qw a) < 1 ->
  exists x b, unit x /\ exact x (a, b) /\ qmul a x <> qmul x (negate_if_closer b a).
Proof.
  intros a UA W.
  assert (P : exists p q r, p * p + q * q + r * r = 1 /\ p * qx a + q * qy a + r * qz a = 0).
  { destruct (Req_dec (qx a * qx a + qy a * qy a) 0) as [Z|Z].
    - exists 1, 0, 0. split; [ring|]. assert (qx a = 0) by nra. lra.
    - assert (PZ : 0 < qx a * qx a + qy a * qy a) by nra. set (n := sqrt (qx a * qx a + qy a * qy a)).
      assert (NP : 0 < n) by (apply sqrt_lt_R0, PZ). assert (N2 : n * n = qx a * qx a + qy a * qy a) by (apply sqrt_sqrt; lra).
      exists (- qy a / n), (qx a / n), 0. split.
      + transitivity ((qx a * qx a + qy a * qy a) / (n * n)); [field; lra|]. rewrite <- N2. field. lra.
      + field. lra. }
  destruct P as (p & q & r & N & O). exists (Q p q r 0). set (x := Q p q r 0).
  assert (U : unit x) by (unfold unit, qnorm, x; cbn; lra).
  exists (qmul (qmul (qconj x) a) x). split; [exact U|]. split; [apply exact_made; assumption|].
  assert (C : qmul (qmul (qconj x) a) x = Q (- qx a) (- qy a) (- qz a) (qw a)).
  { destruct a as [ax ay az aw]. unfold x, qmul, qconj. cbn in *. f_equal; clear - N O; nsatz. }
  assert (Dt : qdot (Q (- qx a) (- qy a) (- qz a) (qw a)) a < 0) by (unfold unit, qnorm, qdot in *; cbn; lra).
  rewrite (qmul_conj_back x a U). rewrite C. unfold negate_if_closer. destruct (Rge_dec _ _) as [G|_]; [lra|]. intros E.
  assert (E2 : qmul (qconj x) (qmul x (Q (- qx a) (- qy a) (- qz a) (qw a))) = qmul (qconj x) (qmul x (qopp (Q (- qx a) (- qy a) (- qz a) (qw a))))) by (rewrite E; reflexivity).
  rewrite !qmul_assoc, (qmul_conj_l x U), !qmul_one_l in E2.
  assert (E0 := f_equal qx E2). assert (E1 := f_equal qy E2). assert (E3 := f_equal qz E2). assert (E4 := f_equal qw E2). unfold qopp in *. cbn [qx qy qz qw] in *.
  unfold unit, qnorm in UA. nra.
Qed.

(** exact measurements do not disturb the exact state *)
Theorem rhk_exact_state : forall chol gen ms st a b, lapack_ok 4 chol gen -> rhk_run chol gen rhk_init ms = Some st ->
  exact (rhk_result st) (a, b) -> 1 < 2 * (qw a * qw a) ->
  exists st', rhk_add chol gen st (a, b) = Some st' /\ rhk_result st' = rhk_result st.
Proof.
  intros chol gen ms st a b LA R X W.
  destruct (rhk_always_valid chol gen ms LA) as (s & E & U & B & C). rewrite R in E. injection E as <-.
  assert (V : valid st) by (split; [exact B|split; [exact C|exact U]]).
  destruct (rhk_step chol gen st (a, b) LA V) as (st' & E & _ & VE). exists st'. split; [exact E|]. cbn [fst snd] in VE.
  pose proof (rhk_sign (rhk_result st) a b U X W) as S. set (b' := negate_if_closer b a) in *.
  assert (NI : veq 4 (value (updated chol gen st a b')) (value st)).
  { apply kalman_no_innovation. cbn [fst value]. intros i Hi. unfold rothec.
    change (quat_of (vsub_range (value st) 0) 0) with (rhk_result st). rewrite S. unfold to4, qsub, vlist. cbn [qx qy qz qw].
    destruct i as [|[|[|[|]]]]; try lia; cbn [nth]; ring. }
  assert (N1 : norm 4 (value (updated chol gen st a b')) = 1).
  { unfold norm. rewrite (sum_ext 4 _ (fun k => value st k * value st k)) by (intros i Hi; rewrite (NI i Hi); reflexivity).
    rewrite <- sqrt_1. f_equal. unfold unit, qnorm, rhk_result, quat_of in U. cbn [qx qy qz qw Nat.add sum] in *. lra. }
  unfold rhk_result, quat_of. cbn [Nat.add]. rewrite !VE by lia. unfold vnormalize. rewrite N1, !NI by lia. f_equal; field.
Qed.
(** a case: the initial state is the identity, and a small rotation about any axis looks the same to both *)
Example exact_state_case : exact (rhk_result rhk_init) (Q 0 (3 / 5) 0 (4 / 5), Q 0 (3 / 5) 0 (4 / 5)) /\ 1 < 2 * (4 / 5 * (4 / 5)).
Proof.
  split; [|lra]. unfold exact, rhk_result, quat_of, rhk_init, vlist. cbn [fst snd nth Nat.add value].
  split; [unfold unit, qnorm; cbn; field|]. split; [unfold unit, qnorm; cbn; field|]. intros [v0 v1 v2]. unfold qrot. cbn. f_equal; field.
Qed.
Print Assumptions online_fit.
Print Assumptions online_information.
Print Assumptions online_order.
Print Assumptions online_signs.
Print Assumptions online_result_unit.
Print Assumptions online_error.
Print Assumptions online_result_error.
Print Assumptions online_converges.
Print Assumptions online_half_turn_refuted.
Print Assumptions online_half_turn_sign_refuted.
Print Assumptions rhk_always_valid.
Print Assumptions rhk_compromise.
Print Assumptions rhk_sign.
Print Assumptions rhk_sign_refuted.
Print Assumptions rhk_exact_state.
