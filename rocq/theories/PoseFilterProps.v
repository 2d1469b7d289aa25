(** Properties of the pose filter and of the orientation filter (C83-C86). *)
From Coq Require Import Reals Lra Lia Bool Arith ZArith List Setoid Morphisms FunctionalExtensionality.
Import ListNotations.
From Verif Require Import Mat MatSetoid MatPd Quat QuatProofs QuatProps CovTransform CovTransformProofs CovTransformProps
  Jacobians JacobiansProofs ErrorPose ErrorPoseCovProofs Kalman KalmanProofs KalmanProps TimeUpdate TimeUpdateProofs TimeUpdateProps
  TimeUpdateRotProps PoseFilter PoseFilterProofs.
Open Scope R_scope.

Lemma total_size_1 P D : (1 <= D)%nat -> (3 * P + 4 <= total_size P D)%nat.
Proof. intros H. unfold total_size, rot_start. destruct D; lia. Qed.
Lemma total_size_2 P D : (2 <= D)%nat -> (3 * P + 7 <= total_size P D)%nat.
Proof. intros H. unfold total_size, rot_start. destruct D as [|[|D]]; lia. Qed.

(** the additive covariance of a pose with positive definite covariance is positive definite *)
Lemma pad7_pd C : pd 6 C -> pd 7 (pad7 C).
Proof.
  intros H x (i & Hi & Hx).
  assert (E : quad 7 (pad7 C) x = quad 6 C x + (C 3%nat 3%nat + C 4%nat 4%nat + C 5%nat 5%nat) * (x 6%nat * x 6%nat)).
  { unfold quad, vdot, mvec, pad7. cbn [sum Nat.eqb andb orb]. ring. }
  assert (D : forall k, (k < 6)%nat -> 0 < C k k).
  { intros k Hk. pose proof (H (fun i => if (i =? k)%nat then 1 else 0)) as G.
    assert (exists j, (j < 6)%nat /\ (if (j =? k)%nat then 1 else 0) <> 0).
    { exists k. split; [exact Hk|]. rewrite Nat.eqb_refl. lra. }
    specialize (G H0). revert G. unfold quad, vdot, mvec.
    idx k Hk; cbn [sum Nat.eqb]; lra. }
  pose proof (D 3%nat ltac:(lia)). pose proof (D 4%nat ltac:(lia)). pose proof (D 5%nat ltac:(lia)).
  rewrite E. destruct (Req_EM_T (x 6%nat) 0) as [Z|N].
  - rewrite Z. assert (0 < quad 6 C x); [|lra]. apply H. exists i. split; [|exact Hx].
    destruct (Nat.eq_dec i 6) as [->|]; [contradiction|lia].
  - assert (0 <= quad 6 C x) by (apply (pd_psd 6 C H)).
    assert (0 < x 6%nat * x 6%nat) by nra. nra.
Qed.

Lemma conv_tr_zero r y : unit r -> (forall k, (k < 4)%nat -> sum 4 (fun l => conv_jac r l k * y l) = 0) ->
  forall k, (k < 4)%nat -> y k = 0.
Proof.
  intros U H k Hk.
  assert (E : sum 4 (fun j => conv_jac r k j * sum 4 (fun l => conv_jac r l j * y l)) = qnorm r * y k).
  { unfold conv_jac, mlist, qnorm. idx k Hk; cbn [sum nth]; ring. }
  rewrite sum_zero in E by (intros j Hj; rewrite (H j Hj); ring).
  unfold unit in U. rewrite U in E. lra.
Qed.

Lemma to_additive_pd m : rigid (ep m) -> symm 6 (cov m) -> pd 6 (cov m) ->
  symm 7 (covariance (to_additive m)) /\ pd 7 (covariance (to_additive m)).
Proof.
  intros U S H. pose proof (to_additive_cov m S) as E. set (B := block_map (conv_jac (rot (ep m))) 3 7 3 7) in E.
  split.
  - apply (symm_ext 7 _ _ (meq_sym _ _ _ _ E)), symm_sandwich, pad7_symm, S.
  - intros x (i & Hi & Hx). rewrite (quad_ext 7 _ _ x E), quad_sandwich. apply pad7_pd; [exact H|].
    assert (T : forall k, (k < 3)%nat -> mvec 7 (tr B) x k = x k).
    { intros k Hk. unfold mvec, tr, B, block_map, eye. idx k Hk; cbn [sum Nat.leb Nat.ltb andb Nat.eqb]; ring. }
    assert (T2 : forall k, (k < 4)%nat -> mvec 7 (tr B) x (3 + k)%nat = sum 4 (fun l => conv_jac (rot (ep m)) l k * x (3 + l)%nat)).
    { intros k Hk. unfold mvec, tr, B, block_map, eye. idx k Hk; cbn [sum Nat.leb Nat.ltb andb Nat.eqb Nat.sub Nat.add]; ring. }
    destruct (Nat.lt_ge_cases i 3) as [L|L].
    { exists i. split; [lia|]. rewrite (T i L). exact Hx. }
    assert (D : (exists k, (k < 4)%nat /\ mvec 7 (tr B) x (3 + k)%nat <> 0) \/
                (forall k, (k < 4)%nat -> mvec 7 (tr B) x (3 + k)%nat = 0)).
    { destruct (Req_EM_T (mvec 7 (tr B) x 3%nat) 0) as [Z0|N]; [|left; exists 0%nat; split; [lia|exact N]].
      destruct (Req_EM_T (mvec 7 (tr B) x 4%nat) 0) as [Z1|N]; [|left; exists 1%nat; split; [lia|exact N]].
      destruct (Req_EM_T (mvec 7 (tr B) x 5%nat) 0) as [Z2|N]; [|left; exists 2%nat; split; [lia|exact N]].
      destruct (Req_EM_T (mvec 7 (tr B) x 6%nat) 0) as [Z3|N]; [|left; exists 3%nat; split; [lia|exact N]].
      right. intros k Hk. idx k Hk; assumption. }
    destruct D as [(k & Hk & N)|Z]; [exists (3 + k)%nat; split; [lia|exact N]|exfalso].
    apply Hx. replace i with (3 + (i - 3))%nat by lia.
    apply (conv_tr_zero (rot (ep m)) (fun l => x (3 + l)%nat)); [exact U| |lia].
    intros k Hk. rewrite <- (T2 k Hk). apply Z, Hk.
Qed.

(** ** Operations of the filter *)
Inductive op :=
  | OPose (t : Z) (m : epose)
  | ORotation (t : Z) (q : quat)
  | OVelocity (t : Z) (w : vec3)
  | OInverseVelocity (t : Z) (w : vec3).
Definition op_time (o : op) : Z :=
  match o with OPose t _ | ORotation t _ | OVelocity t _ | OInverseVelocity t _ => t end.

Section props.
Variables (chol : nat -> mat -> option mat) (gen : nat -> mat -> mat).
Hypothesis LA : forall m, lapack_ok m (chol m) (gen m).
Variables (P D : nat) (io : bool) (noise : vect) (J0 : mat).
Hypothesis Hnoise : forall i, (i < total_size P D)%nat -> 0 <= noise i.
Notation n := (total_size P D).

Definition step (o : op) (f : filter) : option filter :=
  match o with
  | OPose t m => add_pose chol gen P D io noise J0 t m f
  | ORotation t q => add_rotation chol gen P D io noise J0 t q f
  | OVelocity t w => add_velocity chol gen P D io noise J0 t w f
  | OInverseVelocity t w => add_inverse_velocity chol gen P D io noise J0 t w f
  end.
(** the assertions of the functions and what a measurement promises *)
Definition admissible (o : op) : Prop :=
  match o with
  | OPose _ m => (1 <= P)%nat /\ (1 <= D)%nat /\ rigid (ep m) /\ symm 6 (cov m) /\ pd 6 (cov m)
  | ORotation _ q => (1 <= D)%nat /\ unit q
  | OVelocity _ _ | OInverseVelocity _ _ => (2 <= D)%nat
  end.
Fixpoint run (l : list op) (f : filter) : option filter :=
  match l with
  | [] => Some f
  | o :: l' => match step o f with Some f' => run l' f' | None => None end
  end.

Definition inv (f : filter) : Prop :=
  valid n (covariance (fstate f)) /\ ((1 <= D)%nat -> quat_unit_at (3 * P) (fstate f)).
(** no variance along the quaternion itself *)
Definition tangent (f : filter) : Prop :=
  forall j, (j < n)%nat ->
    sum 4 (fun k => value (fstate f) (3 * P + k)%nat * covariance (fstate f) (3 * P + k)%nat j) = 0.

Lemma init_inv : inv (filter_init P D).
Proof.
  split.
  - split; [apply eye_symm|apply psd_eye].
  - intros HD. unfold quat_unit_at, unit, qnorm, quat_of, filter_init. cbn [fstate value qx qy qz qw].
    destruct (Nat.leb_spec 1 D); [|lia]. cbn [andb].
    destruct (Nat.eqb_spec (3 * P) (3 + 3 * P)); [lia|].
    destruct (Nat.eqb_spec (3 * P + 1) (3 + 3 * P)); [lia|].
    destruct (Nat.eqb_spec (3 * P + 2) (3 + 3 * P)); [lia|].
    destruct (Nat.eqb_spec (3 * P + 3) (3 + 3 * P)); [|lia]. ring.
Qed.

Lemma time_update_inv t f : inv f -> inv (time_update P D io noise J0 t f).
Proof.
  intros [V U]. unfold time_update. destruct (_ || _); [split; assumption|].
  split; cbn [fstate].
  - apply forward_valid; assumption.
  - intros HD. apply forward_unit; [exact HD|apply U, HD].
Qed.

Lemma finish_spec t x f : (1 <= D)%nat -> valid n (covariance x) ->
  finish P D t x = Some f -> inv f /\ tangent f /\ ftime f = t /\
  exists y, normalize_at n (3 * P) x = Some y /\ covariance (fstate f) = covariance y /\
    (forall i, (i < 3 * P + 4)%nat -> value (fstate f) i = value y i) /\
    ((D < 2)%nat \/ norm 3 (vsub_range (value y) (3 * P + 4)) <= 10 -> fstate f = y) /\
    ((2 <= D)%nat -> norm 3 (vsub_range (value (fstate f)) (3 * P + 4)) <= 10).
Proof.
  intros HD V E. unfold finish, filter_normalize, fsize, iR in E.
  destruct (Nat.leb_spec 1 D); [|lia].
  destruct (normalize_at n (3 * P) x) as [y|] eqn:Ey; [|discriminate].
  pose proof (normalize_spec n (3 * P) x y (total_size_1 P D HD) V Ey) as (Vy & Uy & _).
  pose proof (normalize_tangent n (3 * P) x y (total_size_1 P D HD) V Ey) as Ty.
  assert (G : forall g, covariance g = covariance y -> (forall i, (i < 3 * P + 4)%nat -> value g i = value y i) ->
     inv (Filter g t) /\ tangent (Filter g t)).
  { intros g Hc Hv. split; [split|].
    - cbn [fstate]. rewrite Hc. exact Vy.
    - intros _. unfold quat_unit_at. cbn [fstate].
      rewrite (quat_of_ext _ (value y)); [exact Uy|]. intros a Ha. apply Hv. lia.
    - intros j Hj. cbn [fstate]. rewrite Hc, <- (Ty j Hj). apply sum_ext. intros k Hk.
      rewrite Hv by lia. reflexivity. }
  assert (N0 : forall v b e, (b + 3 <= e)%nat -> norm 3 (vsub_range (vset_range v b e (fun _ => 0)) b) = 0).
  { intros v b e Hb. unfold norm. rewrite sum_zero; [apply sqrt_0|]. intros k Hk. unfold vsub_range.
    rewrite vset_in by (unfold inr; lia). ring. }
  destruct (Nat.leb_spec 2 D) as [H2|H2].
  - destruct (Rgt_dec (norm 3 (vsub_range (value y) (3 * P + 4))) 10) as [Hg|Hg];
      apply (f_equal (fun o => match o with Some a => a | None => f end)) in E; cbv beta iota in E.
    + subst f.
      assert (A : forall i, (i < 3 * P + 4)%nat -> vset_range (value y) (3 * P + 4) n (fun _ => 0) i = value y i)
        by (intros i Hi; apply vset_out; unfold inr; lia).
      destruct (G (EV (vset_range (value y) (3 * P + 4) n (fun _ => 0)) (covariance y)) eq_refl A) as [G1 G2]. split; [exact G1|]. split; [exact G2|]. split; [reflexivity|].
      exists y. split; [reflexivity|]. split; [reflexivity|]. split; [exact A|]. split.
      * intros [H3|H3]; [lia|exfalso; lra].
      * intros _. cbn [fstate value]. rewrite N0; [lra|]. pose proof (total_size_2 P D H2). lia.
    + subst f. destruct (G y eq_refl (fun _ _ => eq_refl)) as [G1 G2].
      split; [exact G1|]. split; [exact G2|]. split; [reflexivity|].
      exists y. repeat split; try reflexivity. intros _. cbn [fstate]. lra.
  - assert (Ef : f = Filter y t) by congruence. subst f. destruct (G y eq_refl (fun _ _ => eq_refl)) as [G1 G2].
    split; [exact G1|]. split; [exact G2|]. split; [reflexivity|].
    exists y. repeat split; try reflexivity. intros H3. lia.
Qed.

Lemma negate_cov b ref v : covariance (negate_rotation b ref v) = covariance v.
Proof. unfold negate_rotation. destruct (Rlt_dec _ _); reflexivity. Qed.

Lemma set_rotation_inv f g q : unit q -> inv f -> ftime g = ftime f -> covariance (fstate g) = covariance (fstate f) ->
  (forall a, (a < 4)%nat -> value (fstate g) (3 * P + a)%nat = to4 q a) -> inv g.
Proof.
  intros U [V _] _ Hc Hv. split; [rewrite Hc; exact V|]. intros _. unfold quat_unit_at.
  rewrite (quat_of_to4 _ _ q Hv). exact U.
Qed.

(** every operation keeps the invariant; a measurement that is used leaves the filter at its
    timestamp, without variance along the quaternion and with a bounded angular velocity *)
Theorem filter_step_invariant o f f' : inv f -> admissible o -> step o f = Some f' ->
  inv f' /\
  (ftime f' = op_time o /\ tangent f' /\
     ((2 <= D)%nat -> norm 3 (vsub_range (value (fstate f')) (3 * P + 4)) <= 10)
   \/ f' = f /\ ftime f = 0%Z).
Proof.
  intros I A E.
  assert (Fin : forall t x, (1 <= D)%nat -> valid n (covariance x) -> finish P D t x = Some f' ->
    inv f' /\ (ftime f' = t /\ tangent f' /\
      ((2 <= D)%nat -> norm 3 (vsub_range (value (fstate f')) (3 * P + 4)) <= 10) \/ f' = f /\ ftime f = 0%Z)).
  { intros t x HD V F. destruct (finish_spec t x f' HD V F) as (A1 & A2 & A3 & y & _ & _ & _ & _ & A4).
    split; [exact A1|left; auto]. }
  destruct o as [t m|t q|t w|t w]; cbn [step admissible op_time] in *.
  - destruct A as (HP & HD & U & S & Pd). unfold add_pose in E. unfold fsize, iR in E.
    set (f1 := if (ftime f =? 0)%Z then _ else f) in E.
    assert (I1 : inv f1).
    { unfold f1. destruct (ftime f =? 0)%Z; [|exact I].
      apply (set_rotation_inv f _ (rot (ep m)) U I); [reflexivity|reflexivity|].
      intros a Ha. cbn [fstate value]. rewrite vset_in by (unfold inr; lia). f_equal. lia. }
    pose proof (time_update_inv t f1 I1) as [[S2 P2] _].
    revert E. apply Fin; [exact HD|].
    destruct (to_additive_pd m U S Pd) as [SR PR].
    match goal with |- context[kalman_update _ _ _ _ ?g ?a ?b ?st ?v] =>
      assert (SR' : symm 7 (covariance v)) by (rewrite negate_cov; exact SR);
      assert (PR' : pd 7 (covariance v)) by (rewrite negate_cov; exact PR);
      destruct (kalman_well_defined n 7 g a b st v S2 P2 SR' PR') as [W HW];
      destruct (kalman_covariance_valid (chol 7) (gen 7) n 7 (LA 7) g a b st v W ltac:(lia)
        (total_size_1 P D HD) S2 P2 SR' (pd_psd 7 _ PR') HW) as (B1 & B2 & _) end.
    split; assumption.
  - destruct A as (HD & U). unfold add_rotation in E. unfold fsize, iR in E.
    set (f1 := if (ftime f =? 0)%Z then _ else f) in E.
    assert (I1 : inv f1).
    { unfold f1. destruct (ftime f =? 0)%Z; [|exact I].
      apply (set_rotation_inv f _ q U I); [reflexivity|reflexivity|].
      intros a Ha. cbn [fstate value]. rewrite vset_in by (unfold inr; lia). f_equal. lia. }
    pose proof (time_update_inv t f1 I1) as [V2 _].
    revert E. apply Fin; [exact HD|].
    apply identity_valid; try (apply LA || lia); try exact V2.
    + apply total_size_1, HD.
    + rewrite negate_cov. apply scaled_eye_symm.
    + rewrite negate_cov. apply scaled_eye_pd. lra.
  - unfold add_velocity in E. destruct (Z.eqb_spec (ftime f) 0) as [Z|_].
    { assert (f' = f) by congruence. subst f'. split; [exact I|right; auto]. }
    pose proof (time_update_inv t f I) as [V2 _]. unfold fsize, iV in E.
    revert E. apply Fin; [lia|].
    assert (0 < / 10 ^ 11) by (apply Rinv_0_lt_compat, pow_lt; lra).
    pose proof (total_size_2 P D A).
    apply identity_valid; try (apply LA || lia); try exact V2.
    + apply scaled_eye_symm.
    + apply scaled_eye_pd. assumption.
  - unfold add_inverse_velocity in E. destruct (Z.eqb_spec (ftime f) 0) as [Z|_].
    { assert (f' = f) by congruence. subst f'. split; [exact I|right; auto]. }
    pose proof (time_update_inv t f I) as [[S2 P2] _]. unfold fsize, iR in E.
    revert E. apply Fin; [lia|].
    assert (0 < / 10 ^ 11) by (apply Rinv_0_lt_compat, pow_lt; lra).
    pose proof (total_size_2 P D A).
    match goal with |- context[kalman_update _ _ _ _ ?g ?a ?b ?st ?v] =>
      assert (SR' : symm 3 (covariance v)) by apply scaled_eye_symm;
      assert (PR' : pd 3 (covariance v)) by (apply scaled_eye_pd; assumption);
      destruct (kalman_well_defined n 3 g a b st v S2 P2 SR' PR') as [W HW];
      destruct (kalman_covariance_valid (chol 3) (gen 3) n 3 (LA 3) g a b st v W ltac:(lia) ltac:(lia)
        S2 P2 SR' (pd_psd 3 _ PR') HW) as (B1 & B2 & _) end.
    split; assumption.
Qed.

(** C83.  After any sequence of measurements, in any order of timestamps, for every motion
    model: the covariance is symmetric positive semidefinite and the orientation is a unit
    quaternion. *)
Theorem filter_invariant l f : Forall admissible l -> run l (filter_init P D) = Some f -> inv f.
Proof.
  assert (G : forall l f0 f, inv f0 -> Forall admissible l -> run l f0 = Some f -> inv f).
  { clear l f. induction l as [|o l IH]; intros f0 f I A E; cbn [run] in E.
    - assert (f0 = f) by congruence. subst f. exact I.
    - inversion A as [|? ? A1 A2]; subst. destruct (step o f0) as [f1|] eqn:E1; [|discriminate].
      destruct (filter_step_invariant o f0 f1 I A1 E1) as [I1 _]. apply (IH f1 f I1 A2 E). }
  intros A E. apply (G l _ f init_inv A E).
Qed.

(** The quaternion to normalise is never zero as long as only orientations are measured:
    the sign flip before the update guarantees it. *)
Theorem rotation_measurement_never_degenerate t q f : (1 <= D)%nat -> inv f -> unit q ->
  exists f', add_rotation chol gen P D io noise J0 t q f = Some f'.
Proof.
  intros HD I U. unfold add_rotation, fsize, iR.
  set (f1 := if (ftime f =? 0)%Z then _ else f).
  assert (I1 : inv f1).
  { unfold f1. destruct (ftime f =? 0)%Z; [|exact I].
    apply (set_rotation_inv f _ q U I); [reflexivity|reflexivity|].
    intros a Ha. cbn [fstate value]. rewrite vset_in by (unfold inr; lia). f_equal. lia. }
  pose proof (time_update_inv t f1 I1) as [V2 U2]. specialize (U2 HD).
  set (st := fstate (time_update P D io noise J0 t f1)) in *.
  set (v := negate_rotation 0 (vsub_range (value st) (3 * P)) (EV (to4 q) (mscale (4 / 1000) eye))).
  assert (Ev : v = EV (value v) (mscale (4 / 1000) eye)).
  { unfold v, negate_rotation. destruct (Rlt_dec _ _); reflexivity. }
  assert (Hz : 0 <= vdot 4 (vsub_range (value st) (3 * P)) (value v)).
  { unfold v, negate_rotation. cbn [value].
    assert (Z0 : forall w, vdot 4 (vsub_range (value st) (3 * P)) (vsub_range w 0) = vdot 4 (vsub_range (value st) (3 * P)) w)
      by (intros w; reflexivity).
    rewrite Z0. destruct (Rlt_dec _ _) as [L|L]; cbn [value]; [|lra].
    assert (E : vdot 4 (vsub_range (value st) (3 * P)) (vset_range (to4 q) 0 (0 + 4) (vscale (-1) (vsub_range (to4 q) 0)))
                = - vdot 4 (vsub_range (value st) (3 * P)) (to4 q)).
    { unfold vdot. rewrite <- sum_opp. apply sum_ext. intros i Hi. rewrite vset_in by (unfold inr; lia).
      unfold vscale, vsub_range at 2. replace (0 + (i - 0))%nat with i by lia. ring. }
    rewrite E. lra. }
  rewrite Ev.
  pose proof (observation_nonzero (chol 4) (gen 4) n (3 * P) st (value v) (4 / 1000) (LA 4) (total_size_1 P D HD) V2
     ltac:(lra) U2 Hz) as N.
  unfold finish, filter_normalize, fsize, iR. destruct (Nat.leb_spec 1 D); [|lia].
  unfold normalize_at. destruct (Req_EM_T _ 0) as [Z|_]; [contradiction|].
  destruct (2 <=? D)%nat; [destruct (Rgt_dec _ _)|]; eexists; reflexivity.
Qed.

Theorem rotation_filter_never_degenerate l : (1 <= D)%nat ->
  Forall (fun o => exists t q, o = ORotation t q /\ unit q) l ->
  exists f, run l (filter_init P D) = Some f /\ inv f.
Proof.
  intros HD.
  assert (G : forall l f0, inv f0 -> Forall (fun o => exists t q, o = ORotation t q /\ unit q) l ->
     exists f, run l f0 = Some f /\ inv f).
  { clear l. induction l as [|o l IH]; intros f0 I A; cbn [run]; [exists f0; auto|].
    inversion A as [|? ? (t & q & -> & U) A2]; subst. cbn [step].
    destruct (rotation_measurement_never_degenerate t q f0 HD I U) as [f1 E1]. rewrite E1.
    apply IH; [|exact A2]. apply (filter_step_invariant (ORotation t q) f0 f1 I); [split; assumption|exact E1]. }
  intros A. apply (G l _ init_inv A).
Qed.

(** C84.  The first pose is adopted exactly. *)
Theorem first_pose_adopted t m f : (1 <= P)%nat -> (1 <= D)%nat -> inv f -> ftime f = 0%Z ->
  rigid (ep m) -> symm 6 (cov m) -> pd 6 (cov m) ->
  exists f', add_pose chol gen P D io noise J0 t m f = Some f' /\ ftime f' = t /\
    vec_of (value (fstate f')) 0 = tra (ep m) /\ quat_of (value (fstate f')) (3 * P) = rot (ep m).
Proof.
  intros HP HD I Z U S Pd. unfold add_pose, fsize, iR. rewrite Z. cbn [Z.eqb].
  set (x1 := EV _ (covariance (fstate f))).
  assert (E2 : time_update P D io noise J0 t (Filter x1 0) = Filter x1 t) by reflexivity.
  rewrite E2. cbn [fstate].
  assert (X3 : forall k, (k < 3)%nat -> value x1 k = of3 (tra (ep m)) k).
  { intros k Hk. unfold x1. cbn [value]. rewrite vset_out by (unfold inr; lia).
    rewrite vset_in by (unfold inr; lia). f_equal. lia. }
  assert (X4 : forall a, (a < 4)%nat -> value x1 (3 * P + a)%nat = to4 (rot (ep m)) a).
  { intros a Ha. unfold x1. cbn [value]. rewrite vset_in by (unfold inr; lia). f_equal. lia. }
  pose proof (to_additive_value m) as TV.
  assert (Q1 : vdot 4 (vsub_range (value x1) (3 * P)) (vsub_range (value (to_additive m)) 3) = 1).
  { rewrite <- U. unfold vdot, vsub_range, qnorm. cbn [sum Nat.add].
    rewrite !TV by lia. rewrite !X4 by lia. unfold pose_to_vector, to4, vlist. cbn [nth]. ring. }
  assert (Ev : negate_rotation 3 (vsub_range (value x1) (3 * P)) (to_additive m) = to_additive m).
  { unfold negate_rotation. rewrite Q1. destruct (Rlt_dec 1 0); [lra|reflexivity]. }
  rewrite Ev.
  set (k := kalman_update (chol 7) (gen 7) n 7 (pose_measurement (3 * P)) 0 (3 * P + 4) x1 (to_additive m)).
  assert (K : veq n (value k) (value x1)).
  { apply kalman_no_innovation. intros i Hi. unfold pose_measurement. cbn [fst].
    rewrite (TV i Hi). destruct (Nat.ltb_spec i 3) as [L|L].
    - unfold vsub_range. cbn [Nat.add]. rewrite (X3 i L). idx i L; reflexivity.
    - unfold vsub_range. replace (0 + (3 * P + (i - 3)))%nat with (3 * P + (i - 3))%nat by lia.
      rewrite (X4 (i - 3)%nat) by lia.
      assert (C : i = 3%nat \/ i = 4%nat \/ i = 5%nat \/ i = 6%nat) by lia.
      destruct C as [-> |[-> |[-> | ->]]]; reflexivity. }
  pose proof (total_size_1 P D HD) as T1.
  assert (Uk : quat_unit_at (3 * P) k).
  { unfold quat_unit_at. rewrite (quat_of_to4 _ _ (rot (ep m))); [exact U|].
    intros a Ha. rewrite K by lia. apply X4, Ha. }
  assert (Vk : valid n (covariance k)).
  { destruct I as [[S2 P2] _]. destruct (to_additive_pd m U S Pd) as [SR PR].
    assert (S2' : symm n (covariance x1)) by exact S2. assert (P2' : psd n (covariance x1)) by exact P2.
    destruct (kalman_well_defined n 7 (pose_measurement (3 * P)) 0 (3 * P + 4) x1 (to_additive m) S2' P2' SR PR) as [W HW].
    destruct (kalman_covariance_valid (chol 7) (gen 7) n 7 (LA 7) (pose_measurement (3 * P)) 0 (3 * P + 4) x1 (to_additive m) W ltac:(lia) T1 S2' P2' SR (pd_psd 7 _ PR) HW)
      as (B1 & B2 & _). split; assumption. }
  destruct (normalize_unit_id n (3 * P) k Uk) as (y & Ey & Vy).
  assert (EF : exists f', finish P D t k = Some f').
  { unfold finish, filter_normalize, fsize, iR. destruct (Nat.leb_spec 1 D); [|lia]. rewrite Ey.
    destruct (2 <=? D)%nat; [destruct (Rgt_dec _ _)|]; eexists; reflexivity. }
  destruct EF as [f' EF]. exists f'. split; [exact EF|].
  destruct (finish_spec t k f' HD Vk EF) as (_ & _ & T & y' & Ey' & _ & Vf & _).
  assert (y' = y) by congruence. subst y'. split; [exact T|].
  assert (V : forall i, (i < 3 * P + 4)%nat -> value (fstate f') i = value x1 i).
  { intros i Hi. rewrite (Vf i Hi), Vy, K by lia. reflexivity. }
  split.
  - unfold vec_of. cbn [Nat.add]. rewrite !V by lia. rewrite !X3 by lia.
    unfold of3, vlist. cbn [nth]. destruct (tra (ep m)); reflexivity.
  - apply quat_of_to4. intros a Ha. rewrite V by lia. apply X4, Ha.
Qed.

(** C85.  q and -q are the same orientation; the filter does not distinguish them. *)
Theorem rotation_sign_irrelevant t q f : ftime f <> 0%Z ->
  vdot 4 (vsub_range (value (fstate (time_update P D io noise J0 t f))) (3 * P)) (to4 q) <> 0 ->
  add_rotation chol gen P D io noise J0 t (qopp q) f = add_rotation chol gen P D io noise J0 t q f.
Proof.
  intros N H. unfold add_rotation, fsize, iR. destruct (Z.eqb_spec (ftime f) 0) as [|_]; [contradiction|].
  set (st := fstate (time_update P D io noise J0 t f)) in *. do 2 f_equal.
  set (r := vsub_range (value st) (3 * P)) in *.
  assert (O : forall i, to4 (qopp q) i = - to4 q i).
  { intros i. unfold to4, qopp, vlist. cbn [qx qy qz qw]. do 4 (destruct i as [|i]; [reflexivity|]).
    cbn [nth]. destruct i; cbn [nth]; ring. }
  assert (Z0 : forall w, vdot 4 r (vsub_range w 0) = vdot 4 r w) by (intros w; reflexivity).
  assert (E : vdot 4 r (to4 (qopp q)) = - vdot 4 r (to4 q)).
  { unfold vdot. rewrite <- sum_opp. apply sum_ext. intros i _. rewrite O. ring. }
  unfold negate_rotation. cbn [value covariance]. rewrite !Z0, E.
  assert (X : forall q', vset_range (to4 q') 0 (0 + 4) (vscale (-1) (vsub_range (to4 q') 0)) = to4 (qopp q')).
  { intros q'. apply functional_extensionality. intros i.
    assert (O' : to4 (qopp q') i = - to4 q' i).
    { unfold to4, qopp, vlist. cbn [qx qy qz qw]. do 4 (destruct i as [|i]; [reflexivity|]).
      cbn [nth]. destruct i; cbn [nth]; ring. }
    rewrite O'. destruct (Nat.lt_ge_cases i 4) as [L|L].
    - rewrite vset_in by (unfold inr; lia). unfold vscale, vsub_range. replace (0 + (i - 0))%nat with i by lia. ring.
    - rewrite vset_out by (unfold inr; lia). unfold to4, vlist. do 4 (destruct i as [|i]; [lia|]).
      cbn [nth]. destruct i; cbn [nth]; ring. }
  rewrite !X. replace (qopp (qopp q)) with q by (destruct q; unfold qopp; cbn; f_equal; ring).
  destruct (Rlt_dec (- vdot 4 r (to4 q)) 0) as [L1|L1], (Rlt_dec (vdot 4 r (to4 q)) 0) as [L2|L2];
    try reflexivity; exfalso; lra.
Qed.
(** A measurement that says what the filter predicts anyway moves nothing: state = position and its
    derivatives (3 P entries), rotation (4), angular velocity (3) and its derivatives. *)
Lemma finish_same t x z : (1 <= D)%nat -> quat_unit_at (3 * P) z -> veq n (value x) (value z) ->
  ((2 <= D)%nat -> norm 3 (vsub_range (value z) (3 * P + 4)) <= 10) ->
  exists f', finish P D t x = Some f' /\ ftime f' = t /\ veq n (value (fstate f')) (value z).
Proof.
  intros HD U K B. pose proof (total_size_1 P D HD) as T1.
  assert (Ux : quat_unit_at (3 * P) x).
  { unfold quat_unit_at. rewrite (quat_of_ext _ (value z)); [exact U|]. intros a Ha. apply K. lia. }
  destruct (normalize_unit_id n (3 * P) x Ux) as (y & Ey & Vy).
  unfold finish, filter_normalize, fsize, iR. destruct (Nat.leb_spec 1 D); [|lia]. rewrite Ey.
  assert (G : exists f', Some (Filter y t) = Some f' /\ ftime f' = t /\ veq n (value (fstate f')) (value z)).
  { eexists. split; [reflexivity|]. split; [reflexivity|]. intros i Hi. cbn [fstate]. rewrite Vy. apply K, Hi. }
  destruct (Nat.leb_spec 2 D) as [H2|H2]; [|exact G].
  destruct (Rgt_dec (norm 3 (vsub_range (value y) (3 * P + 4))) 10) as [L|_]; [exfalso|exact G].
  specialize (B H2). pose proof (total_size_2 P D H2) as T2.
  assert (E : norm 3 (vsub_range (value y) (3 * P + 4)) = norm 3 (vsub_range (value z) (3 * P + 4))); [|lra].
  unfold norm. f_equal. apply sum_ext. intros k Hk. unfold vsub_range. rewrite !Vy, !K by lia. reflexivity.
Qed.
Lemma identity_no_innovation m ib st v : (forall i, (i < m)%nat -> value v i = value st (ib + i)%nat) ->
  veq n (value (kalman_update_identity (chol m) (gen m) n m ib (ib + m) st v)) (value st).
Proof.
  intros H i Hi. unfold kalman_update_identity. cbn [value]. unfold vadd, mvec at 1.
  rewrite sum_zero; [ring|]. intros k Hk. unfold vsub, vsub_range. rewrite H by exact Hk. ring.
Qed.
Theorem expected_velocity_keeps_state t f : (2 <= D)%nat -> inv f -> ftime f <> 0%Z ->
  let z := fstate (time_update P D io noise J0 t f) in
  norm 3 (vsub_range (value z) (3 * P + 4)) <= 10 ->
  exists f', add_velocity chol gen P D io noise J0 t (vec_of (value z) (3 * P + 4)) f = Some f' /\ ftime f' = t /\
    veq n (value (fstate f')) (value z).
Proof.
  intros HD I N z B. unfold add_velocity. destruct (Z.eqb_spec (ftime f) 0) as [|_]; [contradiction|]. fold z.
  apply finish_same; [lia| | |intros _; exact B].
  - exact (proj2 (time_update_inv t f I) ltac:(lia)).
  - apply identity_no_innovation. intros i Hi. cbn [value]. unfold iV. replace (4 + 3 * P + i)%nat with (3 * P + 4 + i)%nat by lia.
    idx i Hi; unfold of3, vec_of, vlist; cbn [nth vx vy vz]; f_equal; lia.
Qed.
Theorem expected_rotation_keeps_state t f : (1 <= D)%nat -> inv f -> ftime f <> 0%Z ->
  let z := fstate (time_update P D io noise J0 t f) in
  ((2 <= D)%nat -> norm 3 (vsub_range (value z) (3 * P + 4)) <= 10) ->
  exists f', add_rotation chol gen P D io noise J0 t (quat_of (value z) (3 * P)) f = Some f' /\ ftime f' = t /\
    veq n (value (fstate f')) (value z).
Proof.
  intros HD I N z B. unfold add_rotation. destruct (Z.eqb_spec (ftime f) 0) as [|_]; [contradiction|]. fold z.
  assert (U : quat_unit_at (3 * P) z) by exact (proj2 (time_update_inv t f I) HD).
  apply finish_same; [exact HD|exact U| |exact B]. unfold fsize, iR. apply identity_no_innovation. intros i Hi.
  unfold negate_rotation. destruct (Rlt_dec _ 0) as [L|_]; cbn [value].
  - exfalso. cbn [value] in L. unfold quat_unit_at, unit, qnorm, quat_of in U. cbn [qx qy qz qw] in U.
    unfold vdot, vsub_range, to4, quat_of, vlist in L. cbn [sum nth Nat.add qx qy qz qw] in L.
    rewrite Nat.add_0_r in L. nra.
  - idx i Hi; unfold to4, quat_of, vlist; cbn [nth qx qy qz qw]; f_equal; lia.
Qed.
Theorem expected_pose_keeps_state t m f : (1 <= P)%nat -> (1 <= D)%nat -> inv f -> ftime f <> 0%Z ->
  let z := fstate (time_update P D io noise J0 t f) in
  ((2 <= D)%nat -> norm 3 (vsub_range (value z) (3 * P + 4)) <= 10) ->
  tra (ep m) = vec_of (value z) 0 -> rot (ep m) = quat_of (value z) (3 * P) ->
  exists f', add_pose chol gen P D io noise J0 t m f = Some f' /\ ftime f' = t /\ veq n (value (fstate f')) (value z).
Proof.
  intros HP HD I N z B T R0. unfold add_pose. destruct (Z.eqb_spec (ftime f) 0) as [|_]; [contradiction|]. fold z.
  assert (U : quat_unit_at (3 * P) z) by exact (proj2 (time_update_inv t f I) HD).
  apply finish_same; [exact HD|exact U| |exact B]. unfold fsize, iR. pose proof (to_additive_value m) as TV.
  assert (X3 : forall k, (k < 3)%nat -> value (to_additive m) k = value z k).
  { intros k Hk. rewrite TV by lia. unfold pose_to_vector. rewrite T. idx k Hk; reflexivity. }
  assert (X4 : forall a, (a < 4)%nat -> value (to_additive m) (3 + a)%nat = value z (3 * P + a)%nat).
  { intros a Ha. rewrite TV by lia. unfold pose_to_vector. rewrite R0. idx a Ha; unfold quat_of; cbn [Nat.add qx qy qz qw]; f_equal; lia. }
  assert (Q1 : vdot 4 (vsub_range (value z) (3 * P)) (vsub_range (value (to_additive m)) 3) = 1).
  { rewrite <- U. unfold vdot, vsub_range, qnorm, quat_of. cbn [sum qx qy qz qw]. rewrite !X4 by lia. rewrite Nat.add_0_r. ring. }
  unfold negate_rotation. rewrite Q1. destruct (Rlt_dec 1 0) as [L|_]; [lra|].
  apply kalman_no_innovation. intros i Hi. unfold pose_measurement. cbn [fst]. destruct (Nat.ltb_spec i 3) as [L|L].
  - unfold vsub_range. cbn [Nat.add]. apply X3, L.
  - unfold vsub_range. replace (0 + (3 * P + (i - 3)))%nat with (3 * P + (i - 3))%nat by lia. rewrite <- X4 by lia. f_equal. lia.
Qed.
End props.
(** a filter at rest meets the hypotheses of the theorems on expected measurements *)
Example expected_case : let f := Filter (fstate (filter_init 1 2)) 7 in
  inv 1 2 f /\ ftime f <> 0%Z /\ norm 3 (vsub_range (value (fstate (time_update 1 2 false (fun _ => 1) mzero 7 f))) (3 * 1 + 4)) <= 10.
Proof.
  split; [exact (init_inv 1 2)|]. split; [discriminate|]. unfold time_update. cbn -[norm]. unfold norm, vsub_range. cbn. rewrite !Rmult_0_l, !Rplus_0_l, sqrt_0. lra.
Qed.
Print Assumptions expected_velocity_keeps_state.
Print Assumptions expected_rotation_keeps_state.
Print Assumptions expected_pose_keeps_state.
