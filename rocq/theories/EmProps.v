(** Expectation maximisation never decreases the likelihood (C79), data of any dimension. *)
From Coq Require Import Reals Lra Lia Bool Arith List Setoid Morphisms.
Import ListNotations.
From Verif Require Import Mat MatSetoid MatPd LinAlg LuDet LuDetProps DltProofs Spectral ContractsProps Gaussian GaussianProps EmProofs.
Open Scope R_scope.

Lemma sum_pos m f : (0 < m)%nat -> (forall i, (i < m)%nat -> 0 < f i) -> 0 < sum m f.
Proof.
  intros Hm H. destruct m as [|q]; [lia|]. change (sum (S q) f) with (sum q f + f q).
  assert (0 <= sum q f) by (apply sum_nonneg; intros; left; apply H; lia). specialize (H q ltac:(lia)). lra.
Qed.

Section em.
Variables (N K n : nat) (D : mat -> R) (inv : mat -> mat) (x : nat -> vect).
(** what is used of the linear algebra routines: [D] is the determinant (Functions.h; proved of
    the LU code in C111) and [inv] inverts covariances whose determinant is not zero *)
Hypothesis HD : is_det N D.
Hypothesis HI : forall A, symm N A -> D A <> 0 -> inverse_of N A (inv A).
Notation P := (probability N D inv).
Notation step := (em_step N D inv K n x).
Notation mix := (mixture N D inv K).
Notation resp := (responsibility N D inv K).
Notation loglik := (fun c => log_likelihood N D inv K n c x).

(** a component that takes part: positive weight, determinant above the threshold *)
Definition alive (q : comp) : Prop := 0 < cw q /\ regular D (cg q).
Definition covariance (A : mat) : Prop := symm N A /\ pd N A.
(** a mixture: no negative weights, sum at most one, proper covariances, every data point reached *)
Record mixture_ok (c : nat -> comp) : Prop := {
  mo_weight : forall k, (k < K)%nat -> 0 <= cw (c k);
  mo_sum : sum K (fun k => cw (c k)) <= 1;
  mo_cov : forall k, (k < K)%nat -> alive (c k) -> covariance (gcov (cg (c k)));
  mo_reach : forall i, (i < n)%nat -> exists k, (k < K)%nat /\ alive (c k) }.
(** no component shrinks below the threshold in this round *)
Definition no_collapse (c : nat -> comp) : Prop := forall k, (k < K)%nat -> 0 < cw (step c k) -> regular D (cg (step c k)).

Lemma regular_nonzero g : regular D g -> D (gcov g) <> 0.
Proof. intros H Z. unfold regular in H. rewrite Z, Rabs_R0 in H. lra. Qed.
Lemma ln_P g v : regular D g -> covariance (gcov g) ->
  ln (P g v) = - (1 / 2) * ln (Rpower two_pi (INR N * (1 / 2))) - 1 / 2 * ln (D (gcov g)) - 1 / 2 * quad N (inv (gcov g)) (vsub v (gmean g)).
Proof.
  intros HR [S1 S2]. rewrite probability_regular by exact HR. rewrite ln_mult; [|apply constant_pos, HR|apply exp_pos].
  rewrite ln_exp. unfold constant. assert (HR' := HR). unfold regular in HR'. destruct (Rlt_dec _ _) as [_|X]; [|contradiction].
  assert (DP := det_pd N D _ HD S1 S2). rewrite Rabs_pos_eq by lra.
  set (a := Rpower two_pi (INR N * (1 / 2))). assert (HA : 0 < a) by apply exp_pos. set (d := D (gcov g)) in *.
  assert (HS : 0 < sqrt (a * d)) by (apply sqrt_lt_R0, Rmult_lt_0_compat; assumption).
  unfold Rdiv at 1. rewrite Rmult_1_l, ln_Rinv by exact HS.
  assert (HL : ln (sqrt (a * d)) = 1 / 2 * (ln a + ln d)).
  { rewrite <- ln_mult by assumption. set (y := a * d) in *. assert (HY : 0 < y) by (apply Rmult_lt_0_compat; assumption).
    replace (ln y) with (ln (sqrt y * sqrt y)) by (rewrite sqrt_sqrt; [reflexivity|lra]).
    rewrite ln_mult by exact HS. lra. }
  rewrite HL. field.
Qed.
(** sum of the distances to any centre, by the first two moments *)
Lemma quad_moments W (w : nat -> R) s m S v : symm N W -> sum n w = s ->
  (forall j, s * m j = sum n (fun i => w i * x i j)) ->
  (forall j l, s * S j l = moment n w x m j l) ->
  sum n (fun i => w i * quad N W (vsub (x i) v)) = s * trace N (mmul N W S) + s * quad N W (vsub m v).
Proof.
  intros HW Hs HM HV.
  assert (E1 : forall i, quad N W (vsub (x i) v) = quad N W (vsub (x i) m) + 2 * vdot N (vsub (x i) m) (mvec N W (vsub m v)) + quad N W (vsub m v)).
  { intros i. assert (E : quad N W (vsub (x i) v) = quad N W (vsub (vsub (x i) m) (vsub v m))).
    { unfold quad, vdot, mvec. apply sum_ext. intros a _. f_equal; [unfold vsub; ring|]. apply sum_ext. intros b _. unfold vsub. ring. }
    rewrite E, quad_symm_sub by exact HW.
    assert (Q : quad N W (vsub v m) = quad N W (vsub m v)).
    { unfold quad, vdot, mvec. apply sum_ext. intros a _. rewrite (sum_ext N _ (fun l => -1 * (W a l * vsub m v l))) by (intros; unfold vsub; ring). rewrite sum_scal_l. unfold vsub. ring. }
    assert (R : vdot N (vsub v m) (mvec N W (vsub (x i) m)) = - vdot N (vsub (x i) m) (mvec N W (vsub m v))).
    { rewrite (vdot_tr N N W). rewrite (vdot_ext N _ (mvec N W (vsub v m)) _ (vsub (x i) m)); [|apply mvec_ext; [apply symm_tr, HW|reflexivity]|reflexivity].
      rewrite vdot_comm. unfold vdot. rewrite <- sum_opp. apply sum_ext. intros a _. unfold mvec. rewrite (sum_ext N _ (fun l => -1 * (W a l * vsub m v l))) by (intros; unfold vsub; ring). rewrite sum_scal_l. ring. }
    rewrite Q, R. ring. }
  rewrite (sum_ext n _ (fun i => w i * quad N W (vsub (x i) m) + 2 * (w i * vdot N (vsub (x i) m) (mvec N W (vsub m v))) + quad N W (vsub m v) * w i)) by (intros; rewrite E1; ring).
  rewrite !sum_plus, !sum_scal_l, Hs.
  assert (Z : sum n (fun i => w i * vdot N (vsub (x i) m) (mvec N W (vsub m v))) = 0).
  { unfold vdot. rewrite (sum_ext n _ (fun i => sum N (fun j => (w i * x i j - m j * w i) * mvec N W (vsub m v) j))) by (intros; rewrite <- sum_scal_l; apply sum_ext; intros; unfold vsub; ring).
    rewrite sum_swap. apply sum_zero. intros j _. rewrite sum_scal_r, sum_minus, sum_scal_l, <- HM, Hs. ring. }
  assert (T : sum n (fun i => w i * quad N W (vsub (x i) m)) = s * trace N (mmul N W S)).
  { unfold quad, vdot, mvec, trace, mmul.
    rewrite (sum_ext n _ (fun i => sum N (fun a => sum N (fun b => W a b * (w i * (vsub (x i) m b * vsub (x i) m a))))))
      by (intros; rewrite <- sum_scal_l; apply sum_ext; intros; rewrite <- !sum_scal_l; apply sum_ext; intros; ring).
    rewrite sum_swap, <- sum_scal_l. apply sum_ext. intros a _. rewrite sum_swap, <- sum_scal_l. apply sum_ext. intros b _.
    rewrite sum_scal_l. replace (s * (W a b * S b a)) with (W a b * (s * S b a)) by ring. rewrite HV. reflexivity. }
  rewrite Z, T. ring.
Qed.
(** the weighted estimate maximises the expected log density *)
Lemma m_step_optimal g h (w : nat -> R) s : regular D g -> covariance (gcov g) -> regular D h -> covariance (gcov h) -> sum n w = s -> 0 < s ->
  (forall j, s * gmean h j = sum n (fun i => w i * x i j)) ->
  (forall j l, s * gcov h j l = moment n w x (gmean h) j l) ->
  sum n (fun i => w i * ln (P g (x i))) <= sum n (fun i => w i * ln (P h (x i))).
Proof.
  intros Rg Cg Rh Ch Hs S0 HM HV.
  set (kk := - (1 / 2) * ln (Rpower two_pi (INR N * (1 / 2)))).
  assert (E : forall f, regular D f -> covariance (gcov f) -> sum n (fun i => w i * ln (P f (x i))) =
     (kk - 1 / 2 * ln (D (gcov f))) * s - 1 / 2 * (s * trace N (mmul N (inv (gcov f)) (gcov h)) + s * quad N (inv (gcov f)) (vsub (gmean h) (gmean f)))).
  { intros f Rf Cf. assert (IV := HI _ (proj1 Cf) (regular_nonzero f Rf)).
    rewrite <- (quad_moments (inv (gcov f)) w s (gmean h) (gcov h) (gmean f) (inverse_symm N _ _ (proj1 Cf) IV) Hs HM HV).
    rewrite <- Hs, <- !sum_scal_l, <- sum_minus. apply sum_ext. intros i _. rewrite ln_P by assumption. fold kk. ring. }
  rewrite !E by assumption.
  assert (Ig := HI _ (proj1 Cg) (regular_nonzero g Rg)). assert (Ih := HI _ (proj1 Ch) (regular_nonzero h Rh)).
  pose proof (log_det_trace N D (gcov g) (inv (gcov g)) (gcov h) HD (proj1 Cg) (proj2 Cg) Ig (proj1 Ch) (proj2 Ch)) as L.
  assert (TH : trace N (mmul N (inv (gcov h)) (gcov h)) = INR N).
  { rewrite (trace_ext N _ eye (proj2 Ih)). unfold trace. rewrite <- (Rmult_1_r (INR N)), <- sum_const. apply sum_ext. intros i _. unfold eye. rewrite Nat.eqb_refl. reflexivity. }
  assert (QH : quad N (inv (gcov h)) (vsub (gmean h) (gmean h)) = 0) by (unfold quad, vdot; apply sum_zero; intros; unfold vsub; ring).
  assert (QG := pd_psd N _ (pd_of_inverse N _ _ (proj1 Cg) (proj2 Cg) Ig) (vsub (gmean h) (gmean g))).
  rewrite TH, QH.
  assert (F : 0 <= s * (ln (D (gcov g)) + trace N (mmul N (inv (gcov g)) (gcov h)) - (ln (D (gcov h)) + INR N))) by (apply Rmult_le_pos; lra).
  assert (G : 0 <= s * quad N (inv (gcov g)) (vsub (gmean h) (gmean g))) by (apply Rmult_le_pos; lra).
  lra.
Qed.

Lemma P_pos g v : regular D g -> 0 < P g v.
Proof. intros H. apply (proj1 (probability_shape N D inv g v v H)). Qed.
Lemma P_dead q v : ~ alive q -> 0 <= cw q -> cw q * P (cg q) v = 0.
Proof.
  intros H W. destruct (Req_dec (cw q) 0) as [Z|Z]; [rewrite Z; ring|].
  rewrite probability_degenerate; [ring|]. intros R. apply H. split; [lra|exact R].
Qed.
Lemma alive_dec q : {alive q} + {~ alive q}.
Proof.
  unfold alive, regular. destruct (Rlt_dec 0 (cw q)); [|right; tauto]. destruct (Rlt_dec (1 / 10000000000) (Rabs (D (gcov (cg q))))); [left|right]; tauto.
Qed.
Lemma ok_mix c i : mixture_ok c -> (i < n)%nat -> 0 < mix c (x i).
Proof.
  intros M Hi. destruct (mo_reach c M i Hi) as (k & Hk & AW & AR).
  assert (G : forall m f, (forall j, (j < m)%nat -> 0 <= f j) -> (k < m)%nat -> 0 < f k -> 0 < sum m f).
  { clear. induction m as [|m IH]; intros f H Hk Fk; [lia|]. change (sum (S m) f) with (sum m f + f m).
    destruct (Nat.eq_dec k m) as [->|Hn]; [pose proof (sum_nonneg m f ltac:(intros; apply H; lia)); lra|].
    specialize (IH f ltac:(intros; apply H; lia) ltac:(lia) Fk). specialize (H m ltac:(lia)). lra. }
  apply G; [|exact Hk|apply Rmult_lt_0_compat; [exact AW|apply P_pos, AR]].
  intros j Hj. apply Rmult_le_pos; [apply (mo_weight c M j Hj)|apply probability_nonneg].
Qed.
(** the components after a round: the same ones are alive *)
Lemma step_alive c : (0 < n)%nat -> mixture_ok c -> no_collapse c -> forall k, (k < K)%nat ->
  (alive (c k) -> alive (step c k) /\ covariance (gcov (cg (step c k)))) /\ (~ alive (c k) -> cw (step c k) = 0).
Proof.
  intros Hn M NC k Hk.
  assert (HC : covered N K n D inv x c) by (intros i Hi; apply Rgt_not_eq, ok_mix; assumption).
  assert (WE := step_weight N K n D inv x c k HC).
  assert (IN : 0 < INR n) by (apply lt_0_INR; lia). split.
  - intros [AW AR].
    assert (SP : 0 < sum n (fun i => resp c (x i) k)).
    { apply sum_pos; [exact Hn|]. intros i Hi. unfold responsibility. apply Rmult_lt_0_compat; [apply Rmult_lt_0_compat; [exact AW|apply P_pos, AR]|]. apply Rinv_0_lt_compat. apply ok_mix; assumption. }
    assert (W0 : 0 < cw (step c k)) by (rewrite WE; apply Rmult_lt_0_compat; [exact SP|apply Rinv_0_lt_compat, IN]).
    assert (RG := NC k Hk W0). split; [split; assumption|].
    destruct (em_components_valid N K n D inv x c k Hn (mo_weight c M) HC Hk) as (_ & V & _). specialize (V W0). cbv zeta in V. destruct V as (_ & _ & S1 & S2).
    split; [exact S1|]. apply (psd_det_pd N D _ HD S1 S2), regular_nonzero, RG.
  - intros NA. rewrite WE. rewrite sum_zero; [unfold Rdiv; ring|]. intros i Hi. unfold responsibility. rewrite P_dead; [unfold Rdiv; ring|exact NA|apply (mo_weight c M k Hk)].
Qed.
Lemma step_ok c : (0 < n)%nat -> mixture_ok c -> no_collapse c -> mixture_ok (step c).
Proof.
  intros Hn M NC. assert (SA := step_alive c Hn M NC).
  assert (HC : covered N K n D inv x c) by (intros i Hi; apply Rgt_not_eq, ok_mix; assumption).
  constructor.
  - intros k Hk. destruct (alive_dec (c k)) as [A|A]; [destruct (proj1 (SA k Hk) A) as [[Q _] _]; lra|rewrite (proj2 (SA k Hk) A); lra].
  - rewrite (em_weights_sum N K n D inv x c Hn HC). lra.
  - intros k Hk [Q _]. destruct (alive_dec (c k)) as [A|A]; [apply (proj1 (SA k Hk) A)|rewrite (proj2 (SA k Hk) A) in Q; lra].
  - intros i Hi. destruct (mo_reach c M i Hi) as (k & Hk & A). exists k. split; [exact Hk|]. apply (proj1 (SA k Hk) A).
Qed.
Definition value (c : nat -> comp) : R := sum n (fun i => ln (mix c (x i))) / INR n.
Lemma ok_loglik c : mixture_ok c -> loglik c = Some (value c).
Proof.
  intros M. unfold log_likelihood. rewrite (proj2 (all_below_spec _ _)); [reflexivity|].
  intros i Hi. unfold positive. destruct (Rlt_dec 0 _) as [|X]; [reflexivity|]. exfalso. apply X. apply ok_mix; assumption.
Qed.

(** C79: one round of expectation maximisation does not decrease the log likelihood, whatever
    the dimension of the data and the number of components, as long as no component shrinks
    below the determinant threshold; the result is a mixture again *)
Theorem em_monotone c : (0 < n)%nat -> mixture_ok c -> no_collapse c ->
  mixture_ok (step c) /\ exists l l', loglik c = Some l /\ loglik (step c) = Some l' /\ l <= l'.
Proof.
  intros Hn M NC. assert (SA := step_alive c Hn M NC). assert (M' := step_ok c Hn M NC). split; [exact M'|].
  exists (value c), (value (step c)). split; [apply ok_loglik, M|]. split; [apply ok_loglik, M'|].
  assert (HC : covered N K n D inv x c) by (intros i Hi; apply Rgt_not_eq, ok_mix; assumption).
  assert (IN : 0 < INR n) by (apply lt_0_INR; lia).
  apply Rmult_le_compat_r; [left; apply Rinv_0_lt_compat, IN|].
  set (g k i := resp c (x i) k). set (s k := sum n (g k)).
  assert (MC : forall i, (i < n)%nat -> 0 < mix c (x i)) by (intros; apply ok_mix; assumption).
  assert (WE : forall k, cw (step c k) = s k / INR n) by (intros k; apply step_weight; exact HC).
  set (r k i := if alive_dec (c k) then (cw (step c k) * P (cg (step c k)) (x i)) / (cw (c k) * P (cg (c k)) (x i)) else 1).
  assert (APOS : forall k i, (k < K)%nat -> alive (c k) -> 0 < cw (c k) * P (cg (c k)) (x i))
    by (intros k i Hk [Q1 Q2]; apply Rmult_lt_0_compat; [exact Q1|apply P_pos, Q2]).
  assert (BPOS : forall k i, (k < K)%nat -> alive (c k) -> 0 < cw (step c k) * P (cg (step c k)) (x i)).
  { intros k i Hk A. destruct (proj1 (SA k Hk) A) as [[Q1 Q2] _]. apply Rmult_lt_0_compat; [exact Q1|apply P_pos, Q2]. }
  assert (G0 : forall k i, (k < K)%nat -> (i < n)%nat -> 0 <= g k i) by (intros; apply (resp_nonneg N K n D inv x c); try assumption; apply (mo_weight c M)).
  assert (GD : forall k i, (k < K)%nat -> ~ alive (c k) -> g k i = 0).
  { intros k i Hk A. unfold g, responsibility. rewrite P_dead; [unfold Rdiv; ring|exact A|apply (mo_weight c M k Hk)]. }
  assert (RP : forall k i, (k < K)%nat -> 0 < r k i).
  { intros k i Hk. unfold r. destruct (alive_dec (c k)) as [A|A]; [|lra]. apply Rmult_lt_0_compat; [apply BPOS; assumption|apply Rinv_0_lt_compat, APOS; assumption]. }
  assert (PT : forall i, (i < n)%nat -> ln (mix c (x i)) + sum K (fun k => g k i * ln (r k i)) <= ln (mix (step c) (x i))).
  { intros i Hi. specialize (MC i Hi).
    assert (E : mix (step c) (x i) = mix c (x i) * sum K (fun k => g k i * r k i)).
    { rewrite <- sum_scal_l. unfold mixture at 1. apply sum_ext. intros k Hk. unfold r. destruct (alive_dec (c k)) as [A|A].
      - unfold g, responsibility. pose proof (APOS k i Hk A) as AP. field. split; [|split; [|lra]].
        + intros Z. rewrite Z, Rmult_0_r in AP. lra.
        + intros Z. rewrite Z, Rmult_0_l in AP. lra.
      - rewrite (GD k i Hk A), (proj2 (SA k Hk) A). ring. }
    assert (MP' : 0 < mix (step c) (x i)) by (apply ok_mix; assumption).
    rewrite E. rewrite ln_mult; [|exact MC|].
    - apply Rplus_le_compat_l. apply (jensen K (fun k => g k i) (fun k => r k i)).
      + intros k Hk. apply G0; assumption.
      + intros k Hk. apply RP, Hk.
      + apply (resp_sum N K D inv c (x i)). lra.
    - rewrite E in MP'. apply Rmult_lt_reg_l with (mix c (x i)); [exact MC|]. lra. }
  apply Rle_trans with (sum n (fun i => ln (mix c (x i)) + sum K (fun k => g k i * ln (r k i)))); [|apply sum_le; exact PT].
  rewrite sum_plus. assert (T : 0 <= sum n (fun i => sum K (fun k => g k i * ln (r k i)))); [|lra].
  rewrite sum_swap.
  (* what a component gains by its weight and by its density *)
  set (wgain k := if alive_dec (c k) then s k * (ln (cw (step c k)) - ln (cw (c k))) else 0).
  assert (SPL : forall k, (k < K)%nat -> wgain k <= sum n (fun i => g k i * ln (r k i))).
  { intros k Hk. unfold wgain, r. destruct (alive_dec (c k)) as [A|A].
    - destruct (proj1 (SA k Hk) A) as [[W0 RG] CV]. destruct A as [AW AR].
      rewrite (sum_ext n _ (fun i => g k i * (ln (cw (step c k)) - ln (cw (c k))) + (g k i * ln (P (cg (step c k)) (x i)) - g k i * ln (P (cg (c k)) (x i))))).
      + rewrite sum_plus, sum_scal_r, sum_minus. fold (s k).
        assert (SP : 0 < s k). { rewrite WE in W0. destruct (Rle_lt_dec (s k) 0) as [L|L]; [exfalso|exact L]. assert (s k * / INR n <= 0 * / INR n) by (apply Rmult_le_compat_r; [left; apply Rinv_0_lt_compat, IN|exact L]). unfold Rdiv in W0. lra. }
        assert (OPT : sum n (fun i => g k i * ln (P (cg (c k)) (x i))) <= sum n (fun i => g k i * ln (P (cg (step c k)) (x i)))); [|lra].
        destruct (em_components_valid N K n D inv x c k Hn (mo_weight c M) HC Hk) as (_ & V & _).
        specialize (V W0). cbv zeta in V. destruct V as (V1 & V2 & _).
        apply (m_step_optimal (cg (c k)) (cg (step c k)) (g k) (s k)); try assumption; [apply (mo_cov c M k Hk); split; assumption|reflexivity].
      + intros i _. unfold Rdiv. assert (PC := P_pos (cg (c k)) (x i) AR). assert (PS := P_pos (cg (step c k)) (x i) RG).
        rewrite ln_mult, ln_Rinv, !ln_mult; try (apply Rinv_0_lt_compat); try apply Rmult_lt_0_compat; try assumption. ring.
    - rewrite sum_zero; [lra|]. intros i _. rewrite ln_1. ring. }
  apply Rle_trans with (sum K wgain); [|apply sum_le; exact SPL].
  apply Rle_trans with (sum K (fun k => INR n * (cw (step c k) - cw (c k)))).
  - rewrite sum_scal_l, sum_minus, (em_weights_sum N K n D inv x c Hn HC). apply Rmult_le_pos; [lra|]. pose proof (mo_sum c M). lra.
  - apply sum_le. intros k Hk. unfold wgain. destruct (alive_dec (c k)) as [A|A].
    + destruct (proj1 (SA k Hk) A) as [[WP _] _]. destruct A as [AW _].
      replace (s k) with (INR n * cw (step c k)) by (rewrite WE; field; lra).
      rewrite Rmult_assoc. apply Rmult_le_compat_l; [lra|].
      pose proof (ln_le_minus1 (cw (c k) / cw (step c k))) as L.
      assert (I : 0 < / cw (step c k)) by (apply Rinv_0_lt_compat, WP).
      specialize (L ltac:(apply Rmult_lt_0_compat; assumption)). unfold Rdiv in L at 1. rewrite ln_mult, ln_Rinv in L by assumption.
      apply (Rmult_le_compat_l (cw (step c k))) in L; [|lra].
      replace (cw (step c k) * (cw (c k) / cw (step c k) - 1)) with (cw (c k) - cw (step c k)) in L by (field; lra). lra.
    + rewrite (proj2 (SA k Hk) A). pose proof (mo_weight c M k Hk) as Q. assert (0 <= INR n * cw (c k)) by (apply Rmult_le_pos; lra). lra.
Qed.

(** ... and so the whole loop returns a likelihood that is no worse than that of the start, which is
    the likelihood of the mixture it leaves behind *)
Theorem em_loop_monotone fuel : forall c l, (0 < n)%nat -> mixture_ok c -> loglik c = Some l ->
  (forall t, (t < fuel)%nat -> no_collapse (Nat.iter t step c)) ->
  let '(c', r) := em_loop N D inv fuel K n x c (Some l) in
  mixture_ok c' /\ exists l', r = Some l' /\ loglik c' = Some l' /\ l <= l'.
Proof.
  induction fuel as [|f IH]; intros c l Hn M HL NC; cbn [em_loop].
  - split; [exact M|]. exists l. split; [reflexivity|]. split; [exact HL|lra].
  - destruct (em_monotone c Hn M (NC 0%nat ltac:(lia))) as (M' & l0 & l' & E0 & E1 & LE). rewrite E0 in HL. injection HL. intros ->.
    rewrite E1. destruct (converged (Some l) (Some l')).
    + split; [exact M'|]. exists l'. split; [reflexivity|]. split; [exact E1|exact LE].
    + specialize (IH (step c) l' Hn M' E1). assert (NC' : forall t, (t < f)%nat -> no_collapse (Nat.iter t step (step c))).
      { intros t Ht. specialize (NC (S t) ltac:(lia)). replace (Nat.iter t step (step c)) with (Nat.iter (S t) step c); [exact NC|]. clear. induction t as [|t IHt]; [reflexivity|]. cbn [Nat.iter nat_rect] in *. unfold Nat.iter in *. cbn. cbn in IHt. rewrite IHt. reflexivity. }
      specialize (IH NC'). destruct (em_loop N D inv f K n x (step c) (Some l')) as [c' r]. destruct IH as (Q1 & l2 & Q2 & Q3 & Q4).
      split; [exact Q1|]. exists l2. split; [exact Q2|]. split; [exact Q3|lra].
Qed.
(** the call: at most 100 rounds *)
Theorem em_call_monotone c l : (0 < n)%nat -> mixture_ok c -> loglik c = Some l ->
  (forall t, (t < 100)%nat -> no_collapse (Nat.iter t step c)) ->
  let '(c', r) := expectation_maximization N D inv K n x c in
  mixture_ok c' /\ exists l', r = Some l' /\ loglik c' = Some l' /\ l <= l'.
Proof.
  intros Hn M HL NC. unfold expectation_maximization. fold (loglik c). rewrite HL. apply em_loop_monotone; assumption.
Qed.

Lemma iter_shift t (c : nat -> comp) : Nat.iter t step (step c) = Nat.iter (S t) step c.
Proof. induction t as [|t IH]; [reflexivity|]. change (step (Nat.iter t step (step c)) = step (Nat.iter (S t) step c)). rewrite IH. reflexivity. Qed.
(** when the loop stops: after the first round that changes the log likelihood by less than 1/100000 of its
    value before, or after 100 rounds.  A log likelihood that is not a number never stops it. *)
Definition small_change (a b : option R) : Prop := exists u v, a = Some u /\ b = Some v /\ Rabs (u - v) < 1 / 100000 * Rabs u.
Lemma converged_iff a b : converged a b = true <-> small_change a b.
Proof.
  unfold converged, small_change. destruct a as [a|], b as [b|]; try (split; [discriminate|intros (u & v & H1 & H2 & _); discriminate]).
  destruct (Rlt_dec _ _) as [H|H]; split; try discriminate; auto.
  - intros _. exists a, b. auto.
  - intros (u & v & H1 & H2 & H3). injection H1. injection H2. intros -> ->. contradiction.
Qed.
Lemma em_loop_stops fuel : forall c, exists m, (m <= fuel)%nat /\
  em_loop N D inv fuel K n x c (loglik c) = (Nat.iter m step c, loglik (Nat.iter m step c)) /\
  (forall t, (S t < m)%nat -> ~ small_change (loglik (Nat.iter t step c)) (loglik (Nat.iter (S t) step c))) /\
  (m = fuel \/ exists t, m = S t /\ small_change (loglik (Nat.iter t step c)) (loglik (Nat.iter (S t) step c))).
Proof.
  induction fuel as [|f IH]; intros c.
  - exists 0%nat. split; [lia|]. split; [reflexivity|]. split; [intros; lia|]. left. reflexivity.
  - cbn [em_loop]. destruct (converged _ _) eqn:E.
    + exists 1%nat. split; [lia|]. split; [reflexivity|]. split; [intros; lia|]. right. exists 0%nat. split; [reflexivity|].
      apply converged_iff in E. exact E.
    + destruct (IH (step c)) as (m & H1 & H2 & H3 & H4). exists (S m). split; [lia|]. split; [rewrite H2, iter_shift; reflexivity|]. split.
      * intros [|t] Ht.
        -- intros Q. apply converged_iff in Q. exact (eq_true_false_abs _ Q E).
        -- specialize (H3 t ltac:(lia)). rewrite !iter_shift in H3. exact H3.
      * destruct H4 as [-> | (t & -> & H4)]; [left; reflexivity|]. right. exists (S t). split; [reflexivity|]. rewrite !iter_shift in H4. exact H4.
Qed.
Theorem em_stops c : exists m, (m <= 100)%nat /\
  expectation_maximization N D inv K n x c = (Nat.iter m step c, loglik (Nat.iter m step c)) /\
  (forall t, (S t < m)%nat -> ~ small_change (loglik (Nat.iter t step c)) (loglik (Nat.iter (S t) step c))) /\
  (m = 100%nat \/ exists t, m = S t /\ small_change (loglik (Nat.iter t step c)) (loglik (Nat.iter (S t) step c))).
Proof. apply em_loop_stops. Qed.
End em.
Print Assumptions em_stops.

(** the condition on collapsing components cannot be dropped: with two equal data points and one component the
    covariance becomes zero, the component vanishes and the log likelihood drops to minus infinity *)
Theorem em_collapse_refuted :
  let c := fun _ : nat => C 1 (G (fun _ => 0) eye 1 1) in
  let d := laplace 1 in let v := fun A : mat => pd_inverse 1 A in
  mixture_ok 1 1 2 d c /\
  log_likelihood 1 d v 1 2 c (fun _ _ => 0) <> None /\
  log_likelihood 1 d v 1 2 (em_step 1 d v 1 2 (fun _ _ => 0) c) (fun _ _ => 0) = None.
Proof.
  intros c d v.
  assert (DE : forall A, d A = A 0%nat 0%nat) by (intros A; unfold d; cbn; ring).
  assert (RG : regular d (cg (c 0%nat))) by (unfold regular; rewrite DE; cbn; rewrite Rabs_R1; lra).
  assert (M : mixture_ok 1 1 2 d c).
  { constructor.
    - intros k _. cbn. lra.
    - cbn. lra.
    - intros k _ _. split; [apply eye_symm|]. intros y (i & Hi & Ny). destruct i; [|lia]. unfold quad, vdot, mvec. cbn. assert (0 < y 0%nat * y 0%nat) by (apply Rlt_0_sqr, Ny). lra.
    - intros i _. exists 0%nat. split; [lia|]. split; [cbn; lra|exact RG]. }
  assert (MX : forall u, 0 < mixture 1 d v 1 c u).
  { intros u. unfold mixture. cbn [sum]. pose proof (proj1 (probability_shape 1 d v (cg (c 0%nat)) u u RG)). cbn [c cw cg] in *. lra. }
  split; [exact M|]. split.
  - unfold log_likelihood. rewrite (proj2 (all_below_spec _ _)); [discriminate|]. intros i _. unfold positive. destruct (Rlt_dec 0 _) as [|X]; [reflexivity|]. exfalso. apply X, MX.
  - unfold log_likelihood. destruct (all_below 2 _) eqn:E; [exfalso|reflexivity]. apply all_below_spec with (i := 0%nat) in E; [|lia].
    unfold positive in E. destruct (Rlt_dec 0 _) as [X|]; [|discriminate].
    assert (RS : forall u, responsibility 1 d v 1 c u 0 = 1).
    { intros u. pose proof (resp_sum 1 1 d v c u ltac:(apply Rgt_not_eq, MX)) as Q. cbn [sum] in Q. lra. }
    unfold mixture in X. cbn [sum] in X. rewrite probability_degenerate in X; [lra|].
    rewrite step_covered by (intros i Hi; apply Rgt_not_eq, MX). cbv zeta. cbn [sum]. rewrite !RS.
    destruct (Req_EM_T _ 0) as [Z|_]; [lra|]. unfold regular. rewrite DE. cbn [cg snd estimate_weighted finish gcov].
    rewrite cov_loop_moment. unfold moment. cbn [sum].
    match goal with |- ~ (_ < Rabs ?e) => replace e with 0 by ring end. rewrite Rabs_R0. lra.
Qed.

(** the hypotheses of the theorems can be met in two dimensions: four points, one component that becomes diag(4, 1) *)
Example em_monotone_case :
  let c := fun _ : nat => C 1 (G (fun _ => 0) eye 1 1) in
  let x := fun (i j : nat) => nth j (nth i [[2; 1]; [2; -1]; [-2; 1]; [-2; -1]] []) 0 in
  let d := laplace 2 in let v := fun A : mat => mlist [[A 1%nat 1%nat / d A; - A 0%nat 1%nat / d A]; [- A 1%nat 0%nat / d A; A 0%nat 0%nat / d A]] in
  is_det 2 d /\ (forall A, symm 2 A -> d A <> 0 -> inverse_of 2 A (v A)) /\
  mixture_ok 2 1 4 d c /\ no_collapse 2 1 4 d v x c /\
  meq 2 2 (gcov (cg (em_step 2 d v 1 4 x c 0%nat))) (diagonal (vlist [4; 1])).
Proof.
  intros c x d v.
  assert (DE : forall A, d A = A 0%nat 0%nat * A 1%nat 1%nat - A 1%nat 0%nat * A 0%nat 1%nat) by (intros A; unfold d; cbn; unfold minor; cbn; ring).
  assert (RG : regular d (cg (c 0%nat))) by (unfold regular; rewrite DE; cbn; rewrite Rabs_pos_eq; lra).
  assert (MX : forall u, 0 < mixture 2 d v 1 c u).
  { intros u. unfold mixture. cbn [sum]. pose proof (proj1 (probability_shape 2 d v (cg (c 0%nat)) u u RG)). cbn [c cw cg] in *. lra. }
  assert (RS : forall u, responsibility 2 d v 1 c u 0 = 1).
  { intros u. pose proof (resp_sum 2 1 d v c u ltac:(apply Rgt_not_eq, MX)) as Q. cbn [sum] in Q. lra. }
  assert (CV : meq 2 2 (gcov (cg (em_step 2 d v 1 4 x c 0%nat))) (diagonal (vlist [4; 1]))).
  { intros i j Hi Hj. rewrite step_covered by (intros k Hk; apply Rgt_not_eq, MX). cbv zeta. cbn [sum]. rewrite !RS.
    destruct (Req_EM_T _ 0) as [Z|_]; [lra|]. cbn [cg snd estimate_weighted finish gcov].
    rewrite cov_loop_moment. unfold moment. cbn [sum]. rewrite !RS. unfold diagonal, vlist, x.
    destruct i as [|[|]]; [| |lia]; (destruct j as [|[|]]; [| |lia]); cbn; field. }
  split; [apply laplace_is_det|]. split.
  { intros A HS Z. rewrite DE in Z. split; intros i j Hi Hj; unfold mmul, v, mlist, eye; rewrite DE; destruct i as [|[|]]; [| |lia| | |lia]; (destruct j as [|[|]]; [| |lia]); cbn; field; exact Z. }
  split.
  { constructor.
    - intros k _. cbn. lra.
    - cbn. lra.
    - intros k _ _. split; [apply eye_symm|]. intros y (i & Hi & Ny). unfold quad, vdot, mvec. cbn. assert (P0 := Rle_0_sqr (y 0%nat)). assert (P1 := Rle_0_sqr (y 1%nat)). unfold Rsqr in *.
      assert (PP : 0 < y i * y i) by (apply Rlt_0_sqr, Ny). destruct i as [|[|]]; [| |lia]; lra.
    - intros i _. exists 0%nat. split; [lia|]. split; [cbn; lra|exact RG]. }
  split; [|exact CV]. intros k Hk _. destruct k; [|lia]. unfold regular. rewrite DE. rewrite !CV by lia. unfold diagonal, vlist. cbn. rewrite Rabs_pos_eq; lra.
Qed.
Print Assumptions em_monotone.
Print Assumptions em_loop_monotone.
Print Assumptions em_collapse_refuted.
Print Assumptions em_call_monotone.
