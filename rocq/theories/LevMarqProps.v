(** C20, C21, C22, C62: Levenberg-Marquardt. *)
From Coq Require Import Reals Lra Lia List Bool Arith.
From Verif Require Import Mat LevMarq LevMarqProofs.
Open Scope R_scope.

(** C20: the returned value is the weighted sum of squares of the returned parameters,
    for all problems, solvers and termination criteria, even if residuals are undefined *)
Theorem lm_reports_its_residual : forall n_meas eval weights normalize lin term meas factor fuel p0 ss k p e,
  weights_nonneg n_meas weights ->
  levenberg_marquardt n_meas eval weights normalize lin term meas factor fuel p0 ss k = Done (Some p) e ->
  e = sum_of_squares n_meas eval weights meas p.
Proof.
  intros n_meas eval weights normalize lin term meas factor fuel p0 ss k p e HW H.
  destruct (loop_invariant n_meas eval weights normalize lin term meas factor fuel _
    (consistent n_meas eval weights meas) _ _
    (fun s s' b H1 H2 => round_consistent _ _ _ _ _ _ _ _ s s' b H2 H1)
    (initial_consistent _ _ _ _ _ _ _) H) as (s & (HC1 & HC2) & Ep & Ee).
  rewrite Ee, HC2, <- Ep. apply residual_sos. exact HW.
Qed.
Print Assumptions lm_reports_its_residual.

(** C20: with residuals that are numbers it never gets worse, and parameters change only for
    a strictly smaller residual *)
Theorem lm_never_worse : forall n_meas eval weights normalize lin term meas factor fuel p0 ss k p e,
  weights_nonneg n_meas weights ->
  (forall v, eval v <> None) ->
  (forall kd sys x, lin kd sys = Solution x -> x <> None) ->
  levenberg_marquardt n_meas eval weights normalize lin term meas factor fuel p0 ss k = Done p e ->
  exists q r r0, p = Some q /\ e = Some r /\
    sum_of_squares n_meas eval weights meas q = Some r /\
    sum_of_squares n_meas eval weights meas p0 = Some r0 /\
    (q = p0 /\ r = r0 \/ r < r0).
Proof.
  intros n_meas eval weights normalize lin term meas factor fuel p0 ss k p e HW HD HL H.
  assert (HD' : forall v, linearise eval weights meas (Some v) <> None).
  { intros v. unfold linearise. specialize (HD v). destruct (eval v) as [[a b]|]; [|congruence].
    destruct weights; congruence. }
  set (I := fun s => (exists q r, params s = Some q /\ err_prev s = Some r) /\
     ((params s = Some p0 /\ err_prev s = residual n_meas (linearise eval weights meas (Some p0))) \/
      exists r r0, err_prev s = Some r /\ residual n_meas (linearise eval weights meas (Some p0)) = Some r0 /\ r < r0)).
  assert (I0 : I (initial n_meas eval weights meas p0 ss k)).
  { unfold I, initial. cbn [params err_prev]. specialize (HD' p0).
    destruct (linearise eval weights meas (Some p0)) as [dj|]; [|congruence]. cbn.
    split; [eauto|left; auto]. }
  destruct (loop_invariant n_meas eval weights normalize lin term meas factor fuel
    (initial n_meas eval weights meas p0 ss k) I p e) as (s & ((q & r & Eq & Er) & HI) & Ep & Ee); [|exact I0|exact H|].
  { intros s s' b (Hdef & Hcase) HR.
    destruct (round_progress n_meas eval weights normalize lin term meas factor s s' b HD' HL Hdef HR) as [Hdef' Hstep].
    split; [exact Hdef'|]. destruct Hstep as [[E1 E2]|(a & a' & E1 & E2 & L)].
    - rewrite E1, E2. exact Hcase.
    - right. destruct Hcase as [[C1 C2]|(r & r0 & C1 & C2 & C3)].
      + exists a', a. rewrite <- C2. auto.
      + exists a', r0. rewrite E1 in C1. injection C1 as ->. split; [exact E2|]. split; [exact C2|lra]. }
  assert (HS : sum_of_squares n_meas eval weights meas q = Some r).
  { rewrite Ep, Eq in H. rewrite <- Er, <- Ee. symmetry. eapply lm_reports_its_residual; eassumption. }
  assert (HS0 : exists r0, sum_of_squares n_meas eval weights meas p0 = Some r0).
  { rewrite <- residual_sos by exact HW. specialize (HD' p0).
    destruct (linearise eval weights meas (Some p0)); [|congruence]. cbn. eauto. }
  destruct HS0 as (r0 & HS0).
  exists q, r, r0. rewrite Ep, Ee. split; [exact Eq|]. split; [exact Er|]. split; [exact HS|]. split; [exact HS0|].
  rewrite residual_sos in HI by exact HW. rewrite HS0, Eq, Er in HI.
  destruct HI as [[C1 C2]|(a & a0 & C1 & C2 & C3)].
  - left. split; congruence.
  - right. injection C1 as ->. injection C2 as ->. exact C3.
Qed.
Print Assumptions lm_never_worse.

(** C21: with a positive limit the call ends after at most limit + 1 passes ... *)
Theorem lm_terminates_within_limit : forall n_meas eval weights normalize lin prec meas factor limit p0 ss k s,
  (0 < limit)%nat ->
  levenberg_marquardt n_meas eval weights normalize lin (opt_terminate limit prec) meas factor (limit + 1) p0 ss k
    <> Running s.
Proof.
  intros. unfold levenberg_marquardt. apply (loop_bounded _ _ _ _ _ _ _ _ limit).
  - intros it a b Hit. apply opt_terminate_limit; assumption.
  - unfold spare, initial. cbn. destruct k; lia.
  - unfold spare, initial. cbn. destruct k; lia.
Qed.
Print Assumptions lm_terminates_within_limit.

(** ... after at most limit passes unless the Cholesky factorisation is used *)
Theorem lm_terminates_within_limit_svd : forall n_meas eval weights normalize lin prec meas factor limit p0 ss k s,
  (0 < limit)%nat -> k <> Cholesky ->
  levenberg_marquardt n_meas eval weights normalize lin (opt_terminate limit prec) meas factor limit p0 ss k
    <> Running s.
Proof.
  intros. unfold levenberg_marquardt. apply (loop_bounded _ _ _ _ _ _ _ _ limit).
  - intros it a b Hit. apply opt_terminate_limit; assumption.
  - unfold spare, initial. cbn. destruct k; [congruence|lia|lia].
  - unfold spare, initial. cbn. destruct k; [congruence|lia|lia].
Qed.
Print Assumptions lm_terminates_within_limit_svd.

(** C21: without limit and precision it never returns (unless a solver raises an exception) *)
Theorem lm_unlimited_diverges : forall n_meas eval weights normalize lin meas factor fuel p0 ss k,
  (forall kd sys, lin kd sys <> Failure \/ kd = Cholesky) ->
  exists s, levenberg_marquardt n_meas eval weights normalize lin (opt_terminate 0 0) meas factor fuel p0 ss k = Running s.
Proof.
  intros n_meas eval weights normalize lin meas factor fuel p0 ss k HL. unfold levenberg_marquardt.
  apply (loop_forever _ _ _ _ _ _ _ _ fuel _ (fun _ => True)); [|exact I].
  intros s _.
  destruct (round_no_stop n_meas eval weights normalize lin (opt_terminate 0 0) meas factor s) as (s' & H & _).
  - intros e. apply opt_terminate_never.
  - exact HL.
  - exists s'. auto.
Qed.
Print Assumptions lm_unlimited_diverges.

(** A precision does not help when the start already fits perfectly: the relative criterion
    compares with zero and the call never returns. *)
Theorem lm_perfect_fit_diverges : forall n_meas eval weights normalize lin prec meas factor fuel p0 ss k,
  weights_nonneg n_meas weights -> (forall v, eval v <> None) ->
  (forall kd sys, exists x, lin kd sys = Solution (Some x)) ->
  sum_of_squares n_meas eval weights meas p0 = Some 0 ->
  exists s, levenberg_marquardt n_meas eval weights normalize lin (opt_terminate 0 prec) meas factor fuel p0 ss k = Running s.
Proof.
  intros n_meas eval weights normalize lin prec meas factor fuel p0 ss k HW HD HL H0. unfold levenberg_marquardt.
  apply (loop_forever _ _ _ _ _ _ _ _ fuel _ (fun s => err_prev s = Some 0 /\ exists p, params s = Some p)).
  - intros s (Hs & p & Hp).
    unfold round. destruct (HL (kind s) (normal_equations n_meas (lambda s) (lin_prev s))) as (x & ->). cbv zeta.
    rewrite Hp, Hs. rewrite opt_terminate_zero.
    assert (HN : exists r, residual n_meas (linearise eval weights meas (Some (normalize (vadd p x)))) = Some r /\ 0 <= r).
    { unfold linearise. specialize (HD (normalize (vadd p x))). destruct (eval _) as [[e J]|]; [|congruence].
      destruct weights; (eexists; split; [reflexivity|apply vdot_self_nonneg]). }
    destruct HN as (r & -> & Hr). cbn [ge]. destruct (Rle_dec 0 r) as [_|]; [|lra].
    eexists. split; [reflexivity|]. cbn. eauto.
  - split; [|eexists; reflexivity]. unfold initial. cbn [err_prev]. rewrite residual_sos by exact HW. exact H0.
Qed.
Print Assumptions lm_perfect_fit_diverges.

(** a problem, a solver and a start meeting the hypotheses *)
Definition eval1 (v : vect) : option (vect * mat) := Some (fun _ => 3 * v 0%nat, fun _ _ => 3).
Definition lin1 (k : solver) (sys : option (mat * vect)) : lapack :=
  Solution (Some (fun _ => match sys with Some (A, b) => b 0%nat / A 0%nat 0%nat | None => 0 end)).
Example lm_perfect_fit_case :
  (forall v, eval1 v <> None) /\ (forall kd sys, exists x, lin1 kd sys = Solution (Some x)) /\
  sum_of_squares 1 eval1 None (fun _ => 6) (fun _ => 2) = Some 0.
Proof.
  split; [discriminate|]. split; [intros; eexists; reflexivity|]. cbn. f_equal. ring.
Qed.

(** C22 is false: a step with an undefined residual is accepted and returned *)
Definition eval_domain (v : vect) : option (vect * mat) :=
  if Req_EM_T (v 0%nat) 0 then Some (fun _ => 0, fun _ _ => 1) else None.
Theorem lm_nan_accepted_refuted : exists p,
  sum_of_squares 1 eval_domain None (fun _ => 1) (fun _ => 0) = Some 1 /\
  levenberg_marquardt 1 eval_domain None (fun v => v) lin1 (opt_terminate 1 0) (fun _ => 1) 10 1 (fun _ => 0) 1 Cholesky
    = Done (Some p) None /\
  sum_of_squares 1 eval_domain None (fun _ => 1) p = None.
Proof.
  assert (E0 : eval_domain (fun _ => 0) = Some (fun _ => 0, fun _ _ => 1)).
  { unfold eval_domain. destruct (Req_EM_T 0 0); [reflexivity|congruence]. }
  assert (EN : forall x : vect, x 0%nat = 1 / 2 -> eval_domain x = None).
  { intros x Hx. unfold eval_domain. destruct (Req_EM_T (x 0%nat) 0) as [E|]; [lra|reflexivity]. }
  eexists. split; [|split].
  - unfold sum_of_squares. rewrite E0. cbn. f_equal. ring.
  - unfold levenberg_marquardt, initial, loop, round, linearise. rewrite E0.
    unfold lin1. cbn [normal_equations option_map lin_prev params kind].
    rewrite EN.
    + cbn [residual option_map]. rewrite opt_terminate_limit by (cbn; lia). cbn [ge params err_prev]. reflexivity.
    + unfold normal_equations, vadd, mmul, mvec, madd, mscale, tr, eye, vsub. cbn. lra.
  - unfold sum_of_squares. rewrite EN; [reflexivity|].
    unfold normal_equations, vadd, mmul, mvec, madd, mscale, tr, eye, vsub. cbn. lra.
Qed.
Print Assumptions lm_nan_accepted_refuted.

(** C62: an exact solution of the damped normal equations decreases the linearised residual *)
Theorem lm_step_decreases_linearisation : forall m n J d x lam,
  veq n (mvec n (madd (mmul m (tr J) J) (mscale lam eye)) x) (mvec m (tr J) d) -> 0 < lam ->
  (exists i, (i < n)%nat /\ x i <> 0) ->
  vdot m (vsub d (mvec n J x)) (vsub d (mvec n J x)) < vdot m d d.
Proof.
  intros m n J d x lam H HL HX. rewrite (step_linear_decrease m n J d x lam H).
  pose proof (vdot_self_nonneg m (mvec n J x)). pose proof (vdot_self_pos n x HX).
  assert (0 < lam * vdot n x x) by (apply Rmult_lt_0_compat; assumption). lra.
Qed.
Print Assumptions lm_step_decreases_linearisation.

(** C62: on affine problems every non-zero step is accepted and the residual strictly decreases *)
Definition solves_damped (m n : nat) (lin : solver -> option (mat * vect) -> lapack) : Prop :=
  forall k lam J d, 0 < lam ->
    let M := madd (mmul m (tr J) J) (mscale lam eye) in let r := mvec m (tr J) d in
    exists x, lin k (Some (M, r)) = Solution (Some x) /\ veq n (mvec n M x) r.
Example solves_damped_case : solves_damped 1 1 lin1.
Proof.
  intros k lam J d HL. cbv zeta. eexists. split; [reflexivity|]. intros i Hi. idx i Hi.
  unfold mvec, madd, mmul, mscale, tr, eye. cbn. field.
  pose proof (Rle_0_sqr (J 0%nat 0%nat)) as H. unfold Rsqr in H. lra.
Qed.
Theorem lm_affine_decreases : forall m n A b lin term meas factor s p,
  solves_damped m n lin ->
  params s = Some p ->
  consistent m (fun v => Some (vadd b (mvec n A v), A)) None meas s ->
  0 < lambda s -> 0 < factor ->
  exists s' stop x, round m (fun v => Some (vadd b (mvec n A v), A)) None (fun v => v) lin term meas factor s = Some (s', stop) /\
    0 < lambda s' /\
    ((forall i, (i < n)%nat -> x i = 0) \/
     (params s' = Some (vadd p x) /\ exists r r', err_prev s = Some r /\ err_prev s' = Some r' /\ r' < r)).
Proof.
  intros m n A b lin term meas factor s p HL Hp (HC1 & HC2) HLam HF.
  rewrite Hp in HC1, HC2.
  cbn in HC1, HC2.
  destruct (HL (kind s) (lambda s) A (vsub meas (vadd b (mvec n A p))) HLam) as (x & Hx & Hs).
  unfold round. rewrite HC1. cbn [normal_equations option_map fst snd]. rewrite Hx, Hp. cbv zeta.
  cbn [linearise residual option_map fst]. rewrite HC2.
  set (d := vsub meas (vadd b (mvec n A p))) in *.
  assert (Hd : forall i, (i < m)%nat -> vsub meas (vadd b (mvec n A (vadd p x))) i = vsub d (mvec n A x) i).
  { intros i _. unfold d, vsub, vadd, mvec. rewrite (sum_ext n (fun l => A i l * (p l + x l)) (fun l => A i l * p l + A i l * x l)) by (intros; ring).
    rewrite sum_plus. ring. }
  rewrite (vdot_ext m _ (vsub d (mvec n A x)) _ (vsub d (mvec n A x)) Hd Hd).
  pose proof (step_linear_decrease m n A d x (lambda s) Hs) as HD.
  cbn [ge]. destruct (Rle_dec (vdot m d d) _) as [L|L].
  - eexists _, _, x. split; [reflexivity|]. split; [cbn; apply Rmult_lt_0_compat; assumption|]. left.
    pose proof (vdot_self_nonneg m (mvec n A x)) as P1. pose proof (vdot_self_nonneg n x) as P2.
    assert (Z : vdot n x x = 0).
    { destruct (Req_dec (vdot n x x) 0) as [E|E]; [exact E|]. exfalso.
      assert (0 < lambda s * vdot n x x) by (apply Rmult_lt_0_compat; lra). lra. }
    intros i Hi. apply Rsqr_0_uniq.
    apply (sum_nonneg_zero n (fun i => x i * x i)); [intros; apply Rle_0_sqr|exact Z|exact Hi].
  - eexists _, _, x. split; [reflexivity|]. split.
    + cbn. apply Rdiv_lt_0_compat; assumption.
    + right. split; [reflexivity|]. eexists _, _. split; [reflexivity|]. split; [reflexivity|].
      lra.
Qed.
Print Assumptions lm_affine_decreases.

(** C62: the system solved in a weighted round is that of weighted least squares: each measurement enters
    the matrix and the right-hand side with its weight *)
Theorem lm_weighted_system : forall m eval wf meas lam p e J,
  eval p = Some (e, J) -> (forall d i, (i < m)%nat -> 0 <= wf d i) ->
  exists A b, normal_equations m lam (linearise eval (Some wf) meas (Some p)) = Some (A, b) /\
    let w := wf (fun i => meas i - e i) in
    (forall i j, A i j = sum m (fun k => w k * (J k i * J k j)) + (if Nat.eqb i j then lam else 0)) /\
    (forall i, b i = sum m (fun k => w k * (J k i * (meas k - e k)))).
Proof.
  intros m eval wf meas lam p e J E HW. unfold linearise. rewrite E. cbv zeta. cbn [normal_equations option_map fst snd].
  eexists _, _. split; [reflexivity|]. change (fun i => meas i - e i) with (vsub meas e). split.
  - intros i j. unfold madd, mmul, mscale, tr, eye. f_equal; [|destruct (Nat.eqb i j); ring].
    apply sum_ext. intros k Hk. rewrite <- (sqrt_sqrt (wf (vsub meas e) k)) at 3 by (apply HW, Hk). ring.
  - intros i. unfold mvec, tr. apply sum_ext. intros k Hk.
    change (meas k - e k) with (vsub meas e k). rewrite <- (sqrt_sqrt (wf (vsub meas e) k)) at 3 by (apply HW, Hk). ring.
Qed.
Print Assumptions lm_weighted_system.

(** two measurements of one parameter with weights 1 and 3: the weights of the matrix add up to 4 *)
Example lm_weighted_case : exists A b, normal_equations 2 1 (linearise (fun v => Some (fun _ => v 0%nat, fun _ _ => 1))
    (Some (fun _ i => if Nat.eqb i 0 then 1 else 3)) (fun i => INR i) (Some (fun _ => 0))) = Some (A, b) /\ A 0%nat 0%nat = 5 /\ b 0%nat = 3.
Proof.
  destruct (lm_weighted_system 2 (fun v => Some (fun _ => v 0%nat, fun _ _ => 1)) (fun _ i => if Nat.eqb i 0 then 1 else 3) (fun i => INR i) 1 (fun _ => 0) _ _ eq_refl) as (A & b & E & HA & HB).
  - intros _ i _. destruct (Nat.eqb i 0); lra.
  - exists A, b. split; [exact E|]. rewrite HA, HB. cbn. split; lra.
Qed.
(** C62: with OptTerminate a round ends the call exactly at the iteration limit (0: none) or if a precision is
    set and the residual changed by less than that fraction of the residual before the round *)
Theorem lm_stop_rule : forall limit prec it (now before : option R),
  opt_terminate limit prec it now before = true <->
  (0 < limit <= it)%nat \/
  prec <> 0 /\ exists u v, now = Some u /\ before = Some v /\ Rabs (u - v) < prec * v.
Proof.
  intros limit prec it now before. unfold opt_terminate, Rltb. rewrite orb_true_iff, !andb_true_iff, Nat.ltb_lt, Nat.leb_le.
  destruct (Req_EM_T prec 0) as [Z|Z].
  - split; [intros [H|[H _]]; [left; exact H|discriminate]|intros [H|[H _]]; [left; exact H|contradiction]].
  - split.
    + intros [H|[_ H]]; [left; exact H|]. right. split; [exact Z|]. destruct now as [u|]; [|discriminate]. destruct before as [v|]; [|discriminate].
      exists u, v. destruct (Rlt_dec _ _) as [L|]; [auto|discriminate].
    + intros [H|[_ (u & v & -> & -> & H)]]; [left; exact H|]. right. split; [reflexivity|]. destruct (Rlt_dec _ _); [reflexivity|contradiction].
Qed.
Print Assumptions lm_stop_rule.
Example lm_stop_case : opt_terminate 0 (1 / 10) 3 (Some 95) (Some 100) = true /\ opt_terminate 0 (1 / 10) 3 (Some 80) (Some 100) = false.
Proof.
  split; [apply lm_stop_rule; right; split; [lra|]; exists 95, 100; repeat split; rewrite Rabs_left; lra|].
  apply not_true_is_false. intros H. apply lm_stop_rule in H. destruct H as [H|[_ (u & v & H1 & H2 & H)]]; [lia|].
  injection H1 as <-. injection H2 as <-. rewrite Rabs_left in H; lra.
Qed.
