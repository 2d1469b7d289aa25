(** C52, C64: the robust weight function. *)
From Coq Require Import Reals Arith Lia Lra Psatz Bool.
From Verif Require Import Mat Tukey.
Open Scope R_scope.

(** rho of Tukey's biweight estimator for a squared error [e] *)
Definition rho (c e : R) : R :=
  if Rle_dec e (c * c) then c * c / 6 * (1 - (1 - e / (c * c)) ^ 3) else c * c / 6.

Lemma tukey_inv_sqrt c e : 0 < c -> 0 < e -> 0 < rho c e /\ tukey c e = Some (/ sqrt (rho c e)).
Proof.
  intros Hc He.
  assert (Hcc : 0 < c * c) by (apply Rmult_lt_0_compat; assumption).
  assert (Hr : 0 < rho c e).
  { unfold rho. destruct (Rle_dec e (c * c)) as [L|L].
    - apply Rmult_lt_0_compat; [lra|].
      assert (0 < e / (c * c) <= 1).
      { split; [apply Rdiv_lt_0_compat; assumption|]. apply (Rmult_le_reg_r (c * c)); [exact Hcc|].
        unfold Rdiv. rewrite Rmult_assoc, Rinv_l by lra. lra. }
      set (u := 1 - e / (c * c)) in *. assert (0 <= u < 1) by (unfold u; lra). cbn [pow].
      assert (u * (u * (u * 1)) < 1). { assert (u * u <= u) by nra. assert (0 <= u * u) by nra. nra. }
      lra.
    - lra. }
  split; [exact Hr|].
  unfold tukey. destruct (Req_EM_T e 0) as [E|_]; [lra|].
  replace (if Rlt_dec (c * c) e then c * c / 6 else c ^ 2 / 6 * (1 - (1 - e / (c * c)) ^ 3)) with (rho c e).
  2:{ unfold rho. destruct (Rle_dec e (c * c)); destruct (Rlt_dec (c * c) e); try lra. }
  destruct (Req_EM_T (rho c e) 0); [lra|]. f_equal.
  pose proof (sqrt_lt_R0 _ Hr). pose proof (sqrt_sqrt (rho c e) ltac:(lra)) as S.
  rewrite <- S at 2. field. lra.
Qed.

Lemma rho_mono c e1 e2 : 0 < c -> 0 < e1 <= e2 -> rho c e1 <= rho c e2.
Proof.
  intros Hc [H1 H2]. assert (Hcc : 0 < c * c) by (apply Rmult_lt_0_compat; assumption).
  unfold rho. destruct (Rle_dec e1 (c * c)) as [L1|L1]; destruct (Rle_dec e2 (c * c)) as [L2|L2]; try lra.
  - apply Rmult_le_compat_l; [lra|].
    assert (H : e1 / (c * c) <= e2 / (c * c)) by (apply Rmult_le_compat_r; [left; apply Rinv_0_lt_compat, Hcc|exact H2]).
    assert (0 <= 1 - e2 / (c * c)).
    { assert (e2 / (c * c) <= 1); [|lra]. apply (Rmult_le_reg_r (c * c)); [exact Hcc|].
      unfold Rdiv. rewrite Rmult_assoc, Rinv_l by lra. lra. }
    assert ((1 - e2 / (c * c)) ^ 3 <= (1 - e1 / (c * c)) ^ 3) by (apply pow_incr; lra). lra.
  - assert (0 <= 1 - e1 / (c * c)).
    { assert (e1 / (c * c) <= 1); [|lra]. apply (Rmult_le_reg_r (c * c)); [exact Hcc|].
      unfold Rdiv. rewrite Rmult_assoc, Rinv_l by lra. lra. }
    pose proof (pow_le _ 3 H). nra.
Qed.

(** C52 for measurements with an error: the weight decreases with the error and is positive *)
Theorem tukey_weight_antitone_partial : forall c e1 e2, 0 < c -> 0 < e1 <= e2 ->
  exists w1 w2, tukey c e1 = Some w1 /\ tukey c e2 = Some w2 /\ 0 < w2 <= w1.
Proof.
  intros c e1 e2 Hc He.
  destruct (tukey_inv_sqrt c e1 Hc ltac:(lra)) as [R1 E1]. destruct (tukey_inv_sqrt c e2 Hc ltac:(lra)) as [R2 E2].
  exists (/ sqrt (rho c e1)), (/ sqrt (rho c e2)). split; [exact E1|]. split; [exact E2|].
  pose proof (sqrt_lt_R0 _ R1). pose proof (sqrt_lt_R0 _ R2).
  split; [apply Rinv_0_lt_compat; assumption|]. apply Rinv_le_contravar; [assumption|].
  apply sqrt_le_1_alt, rho_mono; assumption.
Qed.
Print Assumptions tukey_weight_antitone_partial.
Example tukey_weight_antitone_case : 0 < 2 /\ 0 < 1 <= 5.
Proof. lra. Qed.

(** C52 is false at zero: a perfect measurement gets weight 0, all others a positive one *)
Theorem tukey_perfect_suppressed_refuted : forall c, 0 < c ->
  tukey c 0 = Some 0 /\ forall e, 0 < e -> exists w, tukey c e = Some w /\ 0 < w.
Proof.
  intros c Hc. split.
  - unfold tukey. destruct (Req_EM_T 0 0); [reflexivity|congruence].
  - intros e He. destruct (tukey_weight_antitone_partial c e e Hc ltac:(lra)) as (w & w' & E & E' & L).
    rewrite E in E'. injection E' as <-. exists w. split; [exact E|lra].
Qed.
Print Assumptions tukey_perfect_suppressed_refuted.

(** Even worse, close to zero the weight grows beyond every bound *)
Theorem tukey_weight_unbounded : forall c B, 0 < c -> 0 < B -> exists e w, 0 < e <= c * c /\ tukey c e = Some w /\ B < w.
Proof.
  intros c B Hc HB. assert (Hcc : 0 < c * c) by (apply Rmult_lt_0_compat; assumption).
  set (e := Rmin (c * c) (/ ((B + 1) * (B + 1)))).
  assert (HBB : 0 < (B + 1) * (B + 1)) by nra.
  assert (He : 0 < e <= c * c).
  { unfold e. split; [apply Rmin_glb_lt; [exact Hcc|apply Rinv_0_lt_compat, HBB]|apply Rmin_l]. }
  destruct (tukey_inv_sqrt c e Hc ltac:(lra)) as [R E]. exists e, (/ sqrt (rho c e)).
  split; [exact He|]. split; [exact E|].
  assert (Hrho : rho c e <= e).
  { unfold rho. destruct (Rle_dec e (c * c)) as [_|L]; [|lra].
    set (u := e / (c * c)). assert (Eu : e = u * (c * c)) by (unfold u; field; lra). rewrite Eu at 1.
    assert (0 <= u <= 1).
    { split; [unfold u; apply Rlt_le, Rdiv_lt_0_compat; lra|]. apply (Rmult_le_reg_r (c * c)); [exact Hcc|]. lra. }
    replace (c * c / 6 * (1 - (1 - u) ^ 3)) with (c * c * ((1 - (1 - u) ^ 3) / 6)) by (field; lra).
    rewrite (Rmult_comm u). apply Rmult_le_compat_l; [lra|]. cbn [pow]. nra. }
  assert (Hs : sqrt (rho c e) <= / (B + 1)).
  { rewrite <- (sqrt_square (/ (B + 1))) by (left; apply Rinv_0_lt_compat; lra).
    apply sqrt_le_1_alt. rewrite <- Rinv_mult. apply (Rle_trans _ e); [exact Hrho|apply Rmin_r]. }
  apply (Rlt_le_trans _ (B + 1)); [lra|]. rewrite <- (Rinv_inv (B + 1)).
  apply Rinv_le_contravar; [apply sqrt_lt_R0, R|exact Hs].
Qed.
Print Assumptions tukey_weight_unbounded.

(** C64 is false: the weighted contribution of an outlier to the residual has no bound *)
Theorem tukey_outlier_unbounded_refuted : forall c B, 0 < c -> exists e w, c * c < e /\ tukey c e = Some w /\ B < w * e.
Proof.
  intros c B Hc. assert (Hcc : 0 < c * c) by (apply Rmult_lt_0_compat; assumption).
  assert (Hs : 0 < sqrt (c * c / 6)) by (apply sqrt_lt_R0; lra).
  set (e := c * c + Rabs B * sqrt (c * c / 6) + sqrt (c * c / 6)).
  assert (He : c * c < e). { unfold e. pose proof (Rabs_pos B). nra. }
  destruct (tukey_inv_sqrt c e Hc ltac:(lra)) as [R E].
  exists e, (/ sqrt (rho c e)). split; [exact He|]. split; [exact E|].
  unfold rho in *. destruct (Rle_dec e (c * c)); [lra|].
  apply (Rmult_lt_reg_l (sqrt (c * c / 6))); [exact Hs|]. rewrite <- Rmult_assoc, Rinv_r, Rmult_1_l by lra.
  unfold e. pose proof (Rle_abs B). nra.
Qed.
Print Assumptions tukey_outlier_unbounded_refuted.

(** the loop: with a row count that divides the size every row gets the weight of its measurement *)
Theorem compute_weights_blocks : forall rows k c err w0, (0 < rows)%nat ->
  exists w, compute_weights k rows (k * rows) c err 0 w0 = Weights w /\
    forall b j, (b < k)%nat -> (j < rows)%nat ->
      w (b * rows + j)%nat = tukey c (sum rows (fun l => err (b * rows + l)%nat * err (b * rows + l)%nat)).
Proof.
  intros rows k c err w0 Hr.
  assert (G : forall f s w, (s + f = k)%nat ->
    (forall b j, (b < s)%nat -> (j < rows)%nat -> w (b * rows + j)%nat = tukey c (block_error rows err (b * rows))) ->
    exists w', compute_weights f rows (k * rows) c err (s * rows) w = Weights w' /\
      forall b j, (b < k)%nat -> (j < rows)%nat -> w' (b * rows + j)%nat = tukey c (block_error rows err (b * rows))).
  { induction f as [|f IH]; intros s w Hs Hw.
    - cbn [compute_weights]. rewrite (proj2 (Nat.ltb_ge _ _)) by nia. exists w. split; [reflexivity|].
      intros b j Hb. apply Hw. lia.
    - cbn [compute_weights]. rewrite (proj2 (Nat.ltb_lt _ _)) by nia. rewrite (proj2 (Nat.leb_le _ _)) by nia.
      replace (s * rows + rows)%nat with (S s * rows)%nat by lia. apply IH; [lia|].
      intros b j Hb Hj. destruct (Nat.eq_dec b s) as [->|Hne].
      + rewrite (proj2 (Nat.leb_le _ _)) by lia. rewrite (proj2 (Nat.ltb_lt _ _)) by nia. reflexivity.
      + assert (b < s)%nat by lia. rewrite (proj2 (Nat.leb_gt (s * rows) (b * rows + j))) by nia. cbn [andb]. apply Hw; lia. }
  destruct (G k 0%nat w0 ltac:(lia)) as (w & E & H).
  - intros b j Hb. lia.
  - exists w. split; [exact E|exact H].
Qed.
Print Assumptions compute_weights_blocks.

(** a size that is not a multiple of the row count reads past the end *)
Theorem compute_weights_overrun : forall rows size c err w0, (0 < rows)%nat -> Nat.modulo size rows <> 0%nat ->
  compute_weights size rows size c err 0 w0 = OutOfRange.
Proof.
  intros rows size c err w0 Hr Hm.
  assert (G : forall f i w, (size <= i + f)%nat -> (i <= size)%nat -> Nat.modulo i rows = 0%nat ->
    compute_weights f rows size c err i w = OutOfRange).
  { induction f as [|f IH]; intros i w H1 H2 H3.
    - exfalso. assert (i = size) by lia. subst. contradiction.
    - cbn [compute_weights]. assert (i <> size) by (intros ->; contradiction).
      rewrite (proj2 (Nat.ltb_lt _ _)) by lia. destruct (Nat.leb_spec (i + rows) size) as [L|L]; [|reflexivity].
      apply IH; [lia|exact L|]. rewrite <- (Nat.mul_1_l rows) at 1. rewrite Nat.mod_add by lia. exact H3. }
  apply G; [lia|lia|]. apply Nat.mod_0_l. lia.
Qed.
Print Assumptions compute_weights_overrun.
Example compute_weights_overrun_case : Nat.modulo 5 2 <> 0%nat.
Proof. discriminate. Qed.

(** a row count of zero never returns *)
Theorem compute_weights_zero_rows : forall fuel size c err w0, (0 < size)%nat ->
  compute_weights fuel 0 size c err 0 w0 = Running.
Proof.
  intros fuel size c err w0 Hs. revert w0. induction fuel as [|f IH]; intros w0; cbn [compute_weights]; rewrite (proj2 (Nat.ltb_lt _ _) Hs).
  - reflexivity.
  - apply IH.
Qed.
Print Assumptions compute_weights_zero_rows.
