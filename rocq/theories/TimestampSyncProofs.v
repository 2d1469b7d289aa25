(** Lemmas about the timestamp synchronisation model. *)
From Coq Require Import Reals ZArith List Bool Lra Lia Psatz.
From Verif Require Import TimestampSync.
Import ListNotations.
Open Scope R_scope.

Lemma sq_nonneg x : 0 <= sq x.
Proof. unfold sq. nra. Qed.

Lemma sq_pos x : x <> 0 -> 0 < sq x.
Proof. intros H. unfold sq. nra. Qed.

Lemma psd2_intro a b c : 0 <= a -> 0 <= c -> b * b <= a * c -> psd2 a b c.
Proof.
  intros Ha Hc Hb x y.
  destruct (Req_EM_T a 0) as [E|E].
  - subst a. assert (b = 0) by nra. subst b. nra.
  - assert (0 < a) by lra.
    assert (H1 : 0 <= a * (a * x * x + 2 * b * x * y + c * y * y)).
    { replace (a * (a * x * x + 2 * b * x * y + c * y * y))
        with ((a * x + b * y) * (a * x + b * y) + (a * c - b * b) * (y * y)) by ring.
      assert (0 <= (a * x + b * y) * (a * x + b * y)) by apply Rle_0_sqr.
      assert (0 <= (a * c - b * b) * (y * y)) by (apply Rmult_le_pos; [lra|apply Rle_0_sqr]). lra. }
    apply (Rmult_le_reg_l a); [assumption|]. rewrite Rmult_0_r. exact H1.
Qed.

Lemma trunc_IZR z : trunc (IZR z) = z.
Proof.
  unfold trunc. destruct (Rle_dec 0 (IZR z)) as [H|H].
  - pose proof (base_Int_part (IZR z)) as [H1 H2].
    apply Z.le_antisymm; apply Z.lt_succ_r; apply lt_IZR; rewrite succ_IZR; lra.
  - rewrite <- opp_IZR. pose proof (base_Int_part (IZR (- z))) as [H1 H2].
    assert (Int_part (IZR (- z)) = - z)%Z; [|lia].
    apply Z.le_antisymm; apply Z.lt_succ_r; apply lt_IZR; rewrite succ_IZR; lra.
Qed.

Lemma trunc_0 : trunc 0 = 0%Z.
Proof. apply (trunc_IZR 0). Qed.

(** scaling an integer by a factor in [0,1] and truncating stays between 0 and it *)
Lemma trunc_between k z : 0 <= k <= 1 ->
  ((0 <= trunc (k * IZR z) <= z) \/ (z <= trunc (k * IZR z) <= 0))%Z.
Proof.
  intros Hk. unfold trunc.
  destruct (Rle_dec 0 (k * IZR z)) as [H|H].
  - destruct (Z.le_gt_cases 0 z) as [Hz|Hz].
    + left. apply IZR_le in Hz. pose proof (base_Int_part (k * IZR z)) as [H1 H2].
      assert (k * IZR z <= IZR z) by nra.
      split.
      * apply Z.lt_succ_r. apply lt_IZR. rewrite succ_IZR. lra.
      * apply le_IZR. lra.
    + right. apply IZR_lt in Hz. assert (k * IZR z = 0) by nra.
      assert (E : Int_part (k * IZR z) = 0%Z).
      { rewrite H0. pose proof (base_Int_part 0) as [H1 H2].
        apply Z.le_antisymm; apply Z.lt_succ_r; apply lt_IZR; rewrite succ_IZR; lra. }
      rewrite E. split; [apply le_IZR; lra|lia].
  - assert (Hneg : k * IZR z < 0) by lra.
    assert (Hz : IZR z < 0) by nra.
    right. pose proof (base_Int_part (- (k * IZR z))) as [H1 H2].
    assert (IZR z <= k * IZR z) by nra.
    split.
    + apply le_IZR. rewrite opp_IZR. lra.
    + assert (0 <= Int_part (- (k * IZR z)))%Z; [|lia].
      apply Z.lt_succ_r. apply lt_IZR. rewrite succ_IZR. lra.
Qed.

Lemma to_ll_some x z : to_ll x = Some z -> z = trunc x.
Proof. unfold to_ll. destruct (_ && _)%Z; congruence. Qed.

Lemma to_ll_0 : to_ll 0 = Some 0%Z.
Proof. unfold to_ll. rewrite trunc_0. reflexivity. Qed.

(** ** The filter invariant *)

Definition sync_inv (s : sync) : Prop :=
  0 < measNoise s /\ 0 < localNoise s /\ 0 <= gainNoise s /\
  0 < p1 s /\ 0 <= p3 s /\ p2 s * p2 s <= p1 s * p3 s /\
  0 <= avg s /\ (-100 <= budget s <= 40)%Z.

Lemma setFrequency_inv s nf lf :
  lf <> 0 -> (-100 <= budget s <= 40)%Z -> sync_inv (setFrequency s nf lf).
Proof.
  intros Hlf Hb. unfold sync_inv, setFrequency; cbn [measNoise localNoise gainNoise p1 p2 p3 avg budget].
  repeat split; try apply sq_nonneg; try lia; try (apply sq_pos; lra).
  - pose proof (sq_nonneg lf). pose proof (sq_nonneg (10 * (lf / nf))). nra.
Qed.

Lemma sync_new_inv jn jl nf lf : lf <> 0 -> sync_inv (sync_new jn jl nf lf).
Proof. intros H. apply setFrequency_inv; [exact H|]. cbn [budget]. lia. Qed.

Section TimeUpdate.
  Variables a b c d q1 q3 : R.
  Hypothesis (Ha : 0 <= a) (Hc : 0 <= c) (Hb : b * b <= a * c) (Hq1 : 0 <= q1) (Hq3 : 0 <= q3).

  Lemma quad_nonneg : 0 <= a + (2 * d * b + d * d * c).
  Proof.
    pose proof (psd2_intro a b c Ha Hc Hb 1 d). lra.
  Qed.

  Lemma time_update_det :
    (b + d * c) * (b + d * c) <= (a + (2 * d * b + d * d * c + q1)) * (c + q3).
  Proof.
    pose proof quad_nonneg as Hq.
    assert (0 <= (a + (2 * d * b + d * d * c)) * q3) by (apply Rmult_le_pos; assumption).
    assert (0 <= q1 * (c + q3)) by (apply Rmult_le_pos; lra).
    nra.
  Qed.
End TimeUpdate.

Section MeasUpdate.
  Variables a b c r : R.
  Hypothesis (Ha : 0 <= a) (Hc : 0 <= c) (Hb : b * b <= a * c) (Hr : 0 < r).

  Lemma gain_range : 0 <= a / (r + a) <= 1.
  Proof.
    split.
    - apply Rmult_le_pos; [assumption|]. apply Rlt_le, Rinv_0_lt_compat. lra.
    - apply (Rmult_le_reg_r (r + a)); [lra|]. unfold Rdiv.
      rewrite Rmult_assoc, Rinv_l by lra. lra.
  Qed.

  Lemma meas_p1 : 0 <= r * (a / (r + a)).
  Proof. apply Rmult_le_pos; [lra|apply gain_range]. Qed.

  Lemma meas_p3 : 0 <= c - b * (b / (r + a)).
  Proof.
    apply (Rmult_le_reg_r (r + a)); [lra|]. rewrite Rmult_0_l.
    replace ((c - b * (b / (r + a))) * (r + a)) with (c * (r + a) - b * b) by (field; lra).
    assert (0 <= c * r) by (apply Rmult_le_pos; lra). lra.
  Qed.

  Lemma meas_det :
    (r * (b / (r + a))) * (r * (b / (r + a)))
    <= r * (a / (r + a)) * (c - b * (b / (r + a))).
  Proof.
    apply (Rmult_le_reg_r ((r + a) * (r + a))); [nra|].
    replace (r * (b / (r + a)) * (r * (b / (r + a))) * ((r + a) * (r + a)))
      with (r * r * (b * b)) by (field; lra).
    replace (r * (a / (r + a)) * (c - b * (b / (r + a))) * ((r + a) * (r + a)))
      with (r * a * (c * (r + a) - b * b)) by (field; lra).
    replace (r * a * (c * (r + a) - b * b)) with (r * r * (b * b) + r * (r + a) * (a * c - b * b)) by ring.
    assert (0 <= r * (r + a) * (a * c - b * b)).
    { apply Rmult_le_pos; [apply Rmult_le_pos; lra|lra]. }
    lra.
  Qed.
End MeasUpdate.

(** Case analysis of one call. *)
Lemma convert_cases s native local s' ret b :
  convert s native local = Some (s', ret, b) ->
  exists adv,
    let lastN := if (events s =? 0)%Z then native else lastNative s in
    let est0 := if (events s =? 0)%Z then local else estLocal s in
    let dN := native - lastN in
    let est1 := u64 (est0 + adv) in
    let q1 := p1 s + (2 * dN * p2 s + dN * dN * p3 s + localNoise s) in
    let q2 := p2 s + dN * p3 s in
    let q3 := p3 s + gainNoise s in
    let dL := IZR (s64 (local - est1)) in
    adv = trunc (dN * estGain s) /\
    ((b = true /\ (dL * dL < avg s * 9 \/ (budget s < 0)%Z) /\
      exists corr, corr = trunc (q1 / (measNoise s + q1) * dL) /\
        ret = u64 (est1 + corr) /\
        s' = mkSync (u32 (events s + 1)) native (localNoise s) (gainNoise s) (measNoise s)
               ret (estGain s + q2 / (measNoise s + q1) * dL)
               (measNoise s * (q1 / (measNoise s + q1))) (measNoise s * (q2 / (measNoise s + q1)))
               (q3 - q2 * (q2 / (measNoise s + q1)))
               (Z.min 40 (budget s + 1))
               (if (50 <? events s)%Z then avg s + (dL * dL - avg s) * (1 / 100) else avg s))
     \/
     (b = false /\ ~ dL * dL < avg s * 9 /\ (0 <= budget s)%Z /\ ret = est1 /\
      s' = mkSync (u32 (events s + 1)) native (localNoise s) (gainNoise s) (measNoise s)
             est1 (estGain s) q1 q2 q3 (budget s - 2) (avg s))).
Proof.
  unfold convert.
  destruct (to_ll _) as [adv|] eqn:Ha; [|discriminate].
  intros H. exists adv. cbv zeta. split; [apply to_ll_some; exact Ha|].
  destruct (Rlt_dec _ (avg s * 9)) as [Hd|Hd].
  - cbn [orb] in H. destruct (to_ll _) as [corr|] eqn:Hcorr in H; [|discriminate].
    injection H as <- <- <-. left. split; [reflexivity|]. split; [left; exact Hd|].
    exists corr. split; [apply to_ll_some; exact Hcorr|]. split; reflexivity.
  - cbn [orb] in H. destruct (Z.ltb_spec (budget s) 0) as [Hb|Hb].
    + destruct (to_ll _) as [corr|] eqn:Hcorr in H; [|discriminate].
      injection H as <- <- <-. left. split; [reflexivity|]. split; [right; exact Hb|].
      exists corr. split; [apply to_ll_some; exact Hcorr|]. split; reflexivity.
    + injection H as <- <- <-. right. repeat split; try assumption.
Qed.

Lemma convert_inv s native local s' ret b :
  sync_inv s -> convert s native local = Some (s', ret, b) -> sync_inv s'.
Proof.
  intros (I1 & I2 & I3 & I4 & I5 & I6 & I7 & I8) H.
  apply convert_cases in H. cbv zeta in H. destruct H as (adv & Hadv & H).
  set (dN := native - (if (events s =? 0)%Z then native else lastNative s)) in *.
  set (est1 := u64 _) in *.
  pose proof (quad_nonneg (p1 s) (p2 s) (p3 s) dN (Rlt_le _ _ I4) I5 I6) as Hq.
  pose proof (time_update_det (p1 s) (p2 s) (p3 s) dN (localNoise s) (gainNoise s) (Rlt_le _ _ I4) I5 I6 (Rlt_le _ _ I2) I3) as Hdet.
  set (q1 := p1 s + (2 * dN * p2 s + dN * dN * p3 s + localNoise s)) in *.
  set (q2 := p2 s + dN * p3 s) in *.
  set (q3 := p3 s + gainNoise s) in *.
  assert (Hq1p : 0 < q1) by (unfold q1; lra). assert (Hq1 : 0 <= q1) by lra.
  assert (Hq3 : 0 <= q3) by (unfold q3; lra).
  destruct H as [(_ & _ & corr & Hcorr & Hret & ->)|(_ & _ & Hb & Hret & ->)];
    unfold sync_inv; cbn [measNoise localNoise gainNoise p1 p2 p3 avg budget].
  - repeat split; try assumption; try lia.
    + apply Rmult_lt_0_compat; [assumption|]. apply Rdiv_lt_0_compat; lra.
    + apply meas_p3; assumption.
    + apply meas_det; assumption.
    + destruct (50 <? events s)%Z; [|assumption].
      pose proof (Rle_0_sqr (IZR (s64 (local - est1)))) as Hsq. unfold Rsqr in Hsq. lra.
  - repeat split; try assumption; lia.
Qed.

Lemma feed_inv ops : forall s s' bs,
  sync_inv s -> (forall nf lf, In (SetFrequency nf lf) ops -> lf <> 0) ->
  feed s ops = Some (s', bs) -> sync_inv s'.
Proof.
  induction ops as [|[n l|nf lf] ops IH]; intros s s' bs Hs Hf H; cbn [feed] in H.
  - injection H as <- _. exact Hs.
  - destruct (convert s n l) as [[[s1 r] b]|] eqn:Hc; [|discriminate].
    destruct (feed s1 ops) as [[s2 bs']|] eqn:Hfd; [|discriminate].
    injection H as <- _. eapply IH; [|intros; apply (Hf nf lf); right; assumption|exact Hfd].
    eapply convert_inv; eassumption.
  - eapply IH; [|intros ? ? ?; eapply Hf; right; eassumption|exact H].
    apply setFrequency_inv; [apply (Hf nf lf); left; reflexivity|].
    destruct Hs as (_ & _ & _ & _ & _ & _ & _ & Hb). exact Hb.
Qed.

Lemma sync_covariance_valid_l jn jl nf lf ops s bs :
  lf <> 0 -> (forall nf' lf', In (SetFrequency nf' lf') ops -> lf' <> 0) ->
  feed (sync_new jn jl nf lf) ops = Some (s, bs) ->
  psd2 (p1 s) (p2 s) (p3 s) /\ 0 < p1 s /\ 0 <= avg s /\ 0 < measNoise s /\ (-100 <= budget s <= 40)%Z.
Proof.
  intros Hlf Hops H.
  pose proof (feed_inv _ _ _ _ (sync_new_inv jn jl nf lf Hlf) Hops H)
    as (I1 & I2 & I3 & I4 & I5 & I6 & I7 & I8).
  repeat split; try assumption; try lia. apply psd2_intro; [lra|assumption|assumption].
Qed.

(** ** The estimate moves towards the measurement, never past it *)
Lemma convert_moves_towards s native local s' ret b :
  sync_inv s -> convert s native local = Some (s', ret, b) ->
  exists pred corr,
    ret = estLocal s' /\ ret = u64 (pred + corr) /\
    (b = false -> corr = 0%Z) /\
    let d := s64 (local - pred) in ((0 <= corr <= d) \/ (d <= corr <= 0))%Z.
Proof.
  intros (I1 & I2 & I3 & I4 & I5 & I6 & I7 & I8) H.
  apply convert_cases in H. cbv zeta in H. destruct H as (adv & Hadv & H).
  set (dN := native - (if (events s =? 0)%Z then native else lastNative s)) in *.
  set (est1 := u64 _) in *.
  pose proof (quad_nonneg (p1 s) (p2 s) (p3 s) dN (Rlt_le _ _ I4) I5 I6) as Hq.
  destruct H as [(-> & _ & corr & Hcorr & Hret & ->)|(_ & _ & Hb & Hret & ->)].
  - exists est1, corr. cbn [estLocal]. split; [reflexivity|]. split; [exact Hret|].
    split; [discriminate|]. cbv zeta. rewrite Hcorr. apply trunc_between.
    apply gain_range; lra.
  - exists est1, 0%Z. cbn [estLocal]. split; [exact Hret|].
    split; [|split; [reflexivity|]].
    + rewrite Z.add_0_r, Hret. unfold est1, u64. rewrite Z.mod_mod by lia. reflexivity.
    + cbv zeta. lia.
Qed.

(** ** First event *)
Lemma u64_id z : (0 <= z < 2 ^ 64)%Z -> u64 z = z.
Proof. intros H. unfold u64. apply Z.mod_small. exact H. Qed.

Lemma s64_0 : s64 0 = 0%Z.
Proof. reflexivity. Qed.

Lemma convert_first s native local :
  sync_inv s -> events s = 0%Z -> (0 <= local < 2 ^ 64)%Z ->
  exists s' b, convert s native local = Some (s', local, b) /\ estLocal s' = local.
Proof.
  intros Hs He Hl. unfold convert. rewrite He. cbn [Z.eqb].
  replace ((native - native) * estGain s) with 0 by ring. rewrite to_ll_0.
  rewrite Z.add_0_r, (u64_id local Hl), Z.sub_diag, s64_0.
  rewrite !Rmult_0_r, to_ll_0, Z.add_0_r, (u64_id local Hl).
  destruct ((if Rlt_dec 0 (avg s * 9) then true else false) || (budget s <? 0)%Z);
    eexists _, _; (split; [reflexivity|reflexivity]).
Qed.

(** ** Outlier budget *)
Lemma convert_budget s native local s' ret b :
  convert s native local = Some (s', ret, b) ->
  (b = true -> budget s' = Z.min 40 (budget s + 1)) /\
  (b = false -> (0 <= budget s)%Z /\ budget s' = (budget s - 2)%Z).
Proof.
  intros H. apply convert_cases in H. cbv zeta in H. destruct H as (adv & _ & H).
  destruct H as [(-> & _ & corr & _ & _ & ->)|(-> & _ & Hb & _ & ->)]; cbn [budget].
  - split; [reflexivity|discriminate].
  - split; [discriminate|]. intros _. split; [exact Hb|reflexivity].
Qed.

Definition budget_ok (s : sync) := (-100 <= budget s <= 40)%Z.

Lemma feed_budget ops : forall s s' bs,
  budget_ok s -> feed s ops = Some (s', bs) ->
  budget_ok s' /\ (2 * Z.of_nat (rejected bs) <= Z.of_nat (count bs) + budget s - budget s')%Z.
Proof.
  induction ops as [|[n l|nf lf] ops IH]; intros s s' bs Hs H; cbn [feed] in H.
  - injection H as <- <-. split; [exact Hs|]. cbn. lia.
  - destruct (convert s n l) as [[[s1 r] b]|] eqn:Hc; [|discriminate].
    destruct (feed s1 ops) as [[s2 bs']|] eqn:Hfd; [|discriminate].
    injection H as <- <-. apply convert_budget in Hc. destruct Hc as [Ht Hf].
    assert (Hs1 : budget_ok s1).
    { unfold budget_ok in *. destruct b; [rewrite (Ht eq_refl); lia|].
      destruct (Hf eq_refl) as [? ->]. lia. }
    destruct (IH s1 s2 bs' Hs1 Hfd) as [G1 G2]. split; [exact G1|].
    unfold budget_ok in *. unfold count, rejected in *.
    destruct b; cbn [filter negb length].
    + rewrite (Ht eq_refl) in G2. lia.
    + destruct (Hf eq_refl) as [? E]. rewrite E in G2. lia.
  - apply (IH (setFrequency s nf lf)); [exact Hs|exact H].
Qed.

(** all rejected: every step lowers the budget by two *)
Lemma feed_all_rejected ops : forall s s' bs,
  feed s ops = Some (s', bs) -> (forall b, In b bs -> b = false) ->
  (budget s' = budget s - 2 * Z.of_nat (length bs))%Z /\
  (bs <> [] -> 2 * (Z.of_nat (length bs) - 1) <= budget s)%Z.
Proof.
  induction ops as [|[n l|nf lf] ops IH]; intros s s' bs H Hb; cbn [feed] in H.
  - injection H as <- <-. cbn. split; [lia|congruence].
  - destruct (convert s n l) as [[[s1 r] b]|] eqn:Hc; [|discriminate].
    destruct (feed s1 ops) as [[s2 bs']|] eqn:Hfd; [|discriminate].
    injection H as <- <-. apply convert_budget in Hc. destruct Hc as [_ Hf].
    assert (b = false) by (apply Hb; left; reflexivity). subst b.
    destruct (Hf eq_refl) as [H0 E].
    destruct (IH s1 s2 bs' Hfd ltac:(intros; apply Hb; right; assumption)) as [G1 G2].
    cbn [length]. split; [lia|]. intros _.
    destruct bs' as [|b' bs']; [cbn [length] in *; lia|].
    specialize (G2 ltac:(discriminate)). lia.
  - apply (IH (setFrequency s nf lf)); assumption.
Qed.

Lemma feed_app ops1 : forall ops2 s s' bs,
  feed s (ops1 ++ ops2) = Some (s', bs) ->
  exists s1 bs1 bs2, feed s ops1 = Some (s1, bs1) /\ feed s1 ops2 = Some (s', bs2) /\ bs = bs1 ++ bs2.
Proof.
  induction ops1 as [|[n l|nf lf] ops1 IH]; intros ops2 s s' bs H; cbn [feed app] in *.
  - exists s, [], bs. auto.
  - destruct (convert s n l) as [[[s1 r] b]|] eqn:Hc; [|discriminate].
    destruct (feed s1 (ops1 ++ ops2)) as [[s2 bs']|] eqn:Hfd; [|discriminate].
    injection H as <- <-. destruct (IH _ _ _ _ Hfd) as (s3 & b1 & b2 & E1 & E2 & ->).
    exists s3, (b :: b1), b2. rewrite E1. auto.
  - apply (IH _ _ _ _ H).
Qed.

Lemma sync_outlier_run_l jn jl nf lf ops1 ops2 s1 bs1 s2 bs2 :
  feed (sync_new jn jl nf lf) ops1 = Some (s1, bs1) ->
  feed s1 ops2 = Some (s2, bs2) -> (forall b, In b bs2 -> b = false) ->
  (length bs2 <= 21)%nat.
Proof.
  intros H1 H2 Hb.
  assert (Hs : budget_ok (sync_new jn jl nf lf)) by (unfold budget_ok; cbn; lia).
  destruct (feed_budget ops1 _ _ _ Hs H1) as [G _].
  destruct (feed_all_rejected _ _ _ _ H2 Hb) as [_ E].
  destruct bs2 as [|b bs2]; [cbn; lia|]. specialize (E ltac:(discriminate)).
  unfold budget_ok in G. lia.
Qed.

Lemma rejected_bound_aux ops : forall s s' bs,
  budget_ok s -> feed s ops = Some (s', bs) -> (rejected bs = 0)%nat \/
  exists ops1 ops2 s1 bs1 s2 bs2, ops = ops1 ++ ops2 /\ feed s ops1 = Some (s1, bs1) /\
     feed s1 ops2 = Some (s2, bs2) /\ s2 = s' /\ bs = bs1 ++ bs2 /\ (rejected bs2 = 0)%nat /\
     (-2 <= budget s1)%Z.
Proof.
  induction ops as [|[n l|nf lf] ops IH]; intros s s' bs Hs H; cbn [feed] in H.
  - injection H as <- <-. left. reflexivity.
  - destruct (convert s n l) as [[[s1 r] b]|] eqn:Hc; [|discriminate].
    destruct (feed s1 ops) as [[s2 bs']|] eqn:Hfd; [|discriminate].
    injection H as <- <-.
    assert (Hs1 : budget_ok s1).
    { pose proof (convert_budget _ _ _ _ _ _ Hc) as [Ht Hf].
      unfold budget_ok in *. destruct b; [rewrite (Ht eq_refl); lia|].
      destruct (Hf eq_refl) as [? ->]. lia. }
    destruct (IH s1 s2 bs' Hs1 Hfd) as [E|(o1 & o2 & t1 & c1 & t2 & c2 & E1 & E2 & E3 & E4 & E5 & E6 & E7)].
    + destruct b; [left; exact E|].
      right. exists [Convert n l], ops, s1, [false], s2, bs'.
      repeat split; try assumption.
      * cbn [feed]. rewrite Hc. reflexivity.
      * destruct (convert_budget _ _ _ _ _ _ Hc) as [_ Hf]. destruct (Hf eq_refl). lia.
    + right. exists (Convert n l :: o1), o2, t1, (b :: c1), t2, c2.
      subst. repeat split; try assumption. cbn [feed]. rewrite Hc, E2. reflexivity.
  - destruct (IH (setFrequency s nf lf) s' bs Hs H) as [E|(o1 & o2 & t1 & c1 & t2 & c2 & E1 & E2 & E3 & E4 & E5 & E6 & E7)].
    + left. exact E.
    + right. exists (SetFrequency nf lf :: o1), o2, t1, c1, t2, c2. subst. repeat split; try assumption.
Qed.

(** over the whole life of the object at most a third of the events is rejected,
    and none of the first hundred *)
Lemma sync_rejections_l jn jl nf lf ops s bs :
  feed (sync_new jn jl nf lf) ops = Some (s, bs) ->
  (rejected bs = 0 \/ 2 * rejected bs + 98 <= count bs)%nat.
Proof.
  intros H.
  assert (Hs : budget_ok (sync_new jn jl nf lf)) by (unfold budget_ok; cbn; lia).
  destruct (rejected_bound_aux _ _ _ _ Hs H) as [E|(o1 & o2 & t1 & c1 & t2 & c2 & E1 & E2 & E3 & E4 & E5 & E6 & E7)].
  - left. exact E.
  - right. destruct (feed_budget _ _ _ _ Hs E2) as [_ G]. cbn [budget sync_new setFrequency] in G.
    subst bs. unfold rejected, count in *. rewrite !filter_app, !app_length. lia.
Qed.

(** ** A perfectly regular clock pair with the right gain is reproduced exactly *)
Lemma convert_perfect s native local step :
  sync_inv s -> (0 <= local < 2 ^ 64)%Z -> (0 < events s)%Z ->
  (native - lastNative s) * estGain s = IZR step -> (- 2 ^ 63 <= step < 2 ^ 63)%Z ->
  local = u64 (estLocal s + step) ->
  exists s' b, convert s native local = Some (s', local, b) /\
    estLocal s' = local /\ estGain s' = estGain s /\ lastNative s' = native /\
    events s' = u32 (events s + 1).
Proof.
  intros Hs Hl He Hst Hr Hloc. unfold convert.
  replace (events s =? 0)%Z with false by (symmetry; apply Z.eqb_neq; lia).
  rewrite Hst. unfold to_ll at 1. rewrite trunc_IZR.
  replace ((- 2 ^ 63 <=? step) && (step <? 2 ^ 63))%Z with true by
    (symmetry; apply andb_true_intro; split; [apply Z.leb_le|apply Z.ltb_lt]; lia).
  rewrite <- Hloc, Z.sub_diag, s64_0.
  rewrite !Rmult_0_r, to_ll_0, Z.add_0_r, (u64_id local Hl).
  destruct ((if Rlt_dec 0 (avg s * 9) then true else false) || (budget s <? 0)%Z);
    eexists _, _; (split; [reflexivity|]); cbn [estLocal estGain lastNative events]; repeat split; ring.
Qed.

(** ** TimestampSyncLS *)

Lemma to_u64_of_IZR z : (0 <= z < 2 ^ 64)%Z -> to_u64 (IZR z) = Some z.
Proof.
  intros H. unfold to_u64. rewrite trunc_IZR.
  replace ((0 <=? z) && (z <? 2 ^ 64))%Z with true; [reflexivity|].
  symmetry; apply andb_true_intro; split; [apply Z.leb_le|apply Z.ltb_lt]; lia.
Qed.

Lemma u64_range z : (0 <= u64 z < 2 ^ 64)%Z.
Proof. unfold u64. apply Z.mod_pos_bound. lia. Qed.

Lemma u64_add_sub a l : (0 <= l < 2 ^ 64)%Z -> u64 (a + u64 (l - a)) = l.
Proof.
  intros H. unfold u64. rewrite Zplus_mod_idemp_r.
  replace (a + (l - a))%Z with l by lia. apply Z.mod_small. exact H.
Qed.

Lemma ls_warmup s native local :
  (0 <= local < 2 ^ 64)%Z -> (ls_events s <= 10)%Z ->
  exists s' e, ls_convert s native local = Some (s', e, local).
Proof.
  intros Hl He. unfold ls_convert.
  replace (10 <? ls_events s)%Z with false by (symmetry; apply Z.ltb_ge; lia).
  rewrite (to_u64_of_IZR _ (u64_range _)). rewrite u64_add_sub by exact Hl.
  eexists _, _. reflexivity.
Qed.

(** the averages describe a cloud of points on the line [l = g n + o] *)
Definition ls_line (g o : R) (s : syncLS) : Prop :=
  (0 < ls_events s)%Z /\
  avgL s = g * avgN s + o /\ avgLN s = g * avgNN s + o * avgN s /\
  0 <= avgNN s - avgN s * avgN s.

Definition ls_var (s : syncLS) : R := avgNN s - avgN s * avgN s.

Lemma ls_weight s : (0 < ls_events s)%Z ->
  let w := if (ls_events s <? 100)%Z then 1 / IZR (ls_events s + 1) else 1 / 1000 in
  0 < w < 1.
Proof.
  intros H. cbv zeta. destruct (ls_events s <? 100)%Z; [|lra].
  assert (1 < IZR (ls_events s + 1)) by (apply IZR_lt; lia).
  split.
  - apply Rdiv_lt_0_compat; lra.
  - apply (Rmult_lt_reg_r (IZR (ls_events s + 1))); [lra|].
    unfold Rdiv. rewrite Rmult_1_l, Rinv_l by lra. lra.
Qed.

Lemma ls_step g o s n l :
  ls_line g o s -> (ls_events s < 2 ^ 32 - 1)%Z ->
  on_line g o (ls_first s) (n, l) ->
  ((ls_events s <= 10)%Z \/ 0 < ls_var s) ->
  ((100 <= ls_events s)%Z -> 0 < ls_avg s) ->
  exists s', ls_convert s n l = Some (s', g * n + o, l) /\
  ls_line g o s' /\ ls_events s' = (ls_events s + 1)%Z /\ ls_first s' = ls_first s /\
  (ls_var s' = 0 -> ls_var s = 0 /\ n = avgN s /\ avgN s' = avgN s) /\
  (0 < ls_avg s -> 0 < ls_avg s').
Proof.
  intros (He & HL & HLN & Hv) Hmax [Hr Hon] Hvar Havg. cbn [fst snd] in *.
  unfold ls_convert.
  replace (ls_events s =? 0)%Z with false by (symmetry; apply Z.eqb_neq; lia).
  assert (Hext : (if (10 <? ls_events s)%Z then extrapolate s n else Some (IZR (u64 (l - ls_first s))))
                 = Some (IZR (u64 (l - ls_first s)))).
  { destruct (Z.ltb_spec 10 (ls_events s)) as [Hgt|Hgt]; [|reflexivity].
    destruct Hvar as [Hvar|Hvar]; [lia|]. unfold ls_var in Hvar.
    unfold extrapolate. destruct (Req_EM_T _ 0) as [E|E]; [lra|].
    f_equal. rewrite Hon, HL, HLN. field. exact E. }
  rewrite Hext. rewrite (to_u64_of_IZR _ (u64_range _)). rewrite u64_add_sub by exact Hr.
  set (f := IZR (u64 (l - ls_first s))) in *.
  replace ((f - f) * (f - f)) with 0 by ring.
  pose proof (ls_weight s He) as Hw. cbv zeta in Hw.
  assert (Hu : u32 (ls_events s + 1) = (ls_events s + 1)%Z).
  { unfold u32. apply Z.mod_small. lia. }
  set (w := if (ls_events s <? 100)%Z then 1 / IZR (ls_events s + 1) else 1 / 1000) in *.
  assert (Hacc : ((ls_events s <? 100)%Z || (if Rlt_dec 0 (ls_avg s * 9) then true else false)
                  || (ls_budget s <? 0)%Z) = true).
  { destruct (Z.ltb_spec (ls_events s) 100) as [H1|H1]; [reflexivity|].
    destruct (Rlt_dec 0 (ls_avg s * 9)) as [H2|H2]; [reflexivity|].
    exfalso. specialize (Havg H1). lra. }
  rewrite Hacc. eexists. split; [rewrite Hon; reflexivity|].
  unfold ls_line, ls_var; cbn [ls_events ls_first avgN avgNN avgL avgLN ls_avg ls_budget].
  rewrite Hu.
  assert (Hvnew : avgNN s + (n * n - avgNN s) * w - (avgN s + (n - avgN s) * w) * (avgN s + (n - avgN s) * w)
                  = (1 - w) * (avgNN s - avgN s * avgN s) + w * (1 - w) * ((n - avgN s) * (n - avgN s))) by ring.
  assert (H1 : 0 <= (1 - w) * (avgNN s - avgN s * avgN s)) by (apply Rmult_le_pos; lra).
  assert (H3 : 0 < w * (1 - w)) by (apply Rmult_lt_0_compat; lra).
  assert (H2 : 0 <= w * (1 - w) * ((n - avgN s) * (n - avgN s))).
  { apply Rmult_le_pos; [lra|apply Rle_0_sqr]. }
  repeat split.
  - lia.
  - rewrite HL. ring.
  - rewrite HLN. ring.
  - rewrite Hvnew. lra.
  - rewrite Hvnew in H.
    assert (E : (1 - w) * (avgNN s - avgN s * avgN s) = 0) by lra.
    apply Rmult_integral in E. destruct E; lra.
  - rewrite Hvnew in H.
    assert (E : w * (1 - w) * ((n - avgN s) * (n - avgN s)) = 0) by lra.
    apply Rmult_integral in E. destruct E as [E|E]; [lra|].
    apply Rmult_integral in E. destruct E; lra.
  - rewrite Hvnew in H.
    assert (E : w * (1 - w) * ((n - avgN s) * (n - avgN s)) = 0) by lra.
    apply Rmult_integral in E. destruct E as [E|E]; [lra|].
    apply Rmult_integral in E. assert (n - avgN s = 0) as -> by (destruct E; assumption). ring.
  - intros Hp. destruct (10 <? ls_events s)%Z; lra.
Qed.

(** after the first event all averages are those of that event *)
Lemma ls_first_step g o junk n l :
  on_line g o l (n, l) ->
  exists s', ls_convert (ls_new junk) n l = Some (s', g * n + o, l) /\
  ls_line g o s' /\ ls_events s' = 1%Z /\ ls_first s' = l /\ avgN s' = n /\ 0 < ls_avg s'.
Proof.
  intros [Hr Hon]. cbn [fst snd] in *. unfold ls_convert, ls_new.
  cbn [ls_events ls_first avgN avgNN avgL avgLN ls_avg ls_budget Z.eqb Z.ltb Z.compare].
  rewrite (to_u64_of_IZR _ (u64_range _)). rewrite u64_add_sub by exact Hr.
  cbn [orb]. eexists. split; [rewrite Hon; reflexivity|].
  unfold ls_line; cbn [ls_events ls_first avgN avgNN avgL avgLN ls_avg ls_budget].
  change (0 + 1)%Z with 1%Z.
  repeat split; try (cbn; lia); try field; try lra.
Qed.

(** running on the line: either the variance is already positive, or the data so
    far all had the same native time and two distinct ones still arrive within the
    warm-up *)
Lemma ls_run g o evs : forall s,
  ls_line g o s -> 0 < ls_avg s ->
  (ls_events s + Z.of_nat (length evs) < 2 ^ 32)%Z ->
  Forall (on_line g o (ls_first s)) evs ->
  (0 < ls_var s \/
   (ls_events s + Z.of_nat (length evs) <= 11)%Z \/
   exists k ev, nth_error evs k = Some ev /\ (ls_events s + Z.of_nat k <= 10)%Z /\ fst ev <> avgN s) ->
  exists s', ls_feed s evs = Some (s', map snd evs).
Proof.
  induction evs as [|[n l] evs IH]; intros s Hl Ha Hlen Hon Hd.
  - exists s. reflexivity.
  - inversion Hon as [|? ? H1 H2]; subst. cbn [length] in *.
    destruct (ls_step g o s n l) as (s' & E & L' & E1 & E2 & E3 & E4); try assumption; try lia; try (intros; assumption).
    { destruct Hd as [Hd|[Hd|(k & ev & Hk & Hk' & _)]]; [right; assumption|left; lia|left; lia]. }
    cbn [ls_feed map snd]. rewrite E.
    destruct (IH s') as (s2 & E5).
    + exact L'.
    + auto.
    + lia.
    + rewrite E2. exact H2.
    + assert (Hv' : 0 < ls_var s' \/ ls_var s' = 0).
      { destruct L' as (_ & _ & _ & Hv'). unfold ls_var in *. lra. }
      destruct Hv' as [Hv'|Hv']; [left; exact Hv'|].
      destruct (E3 Hv') as (Z1 & Z2 & Z3).
      destruct Hd as [Hd|[Hd|(k & ev & Hk & Hk' & Hne)]]; [lra|right; left; lia|].
      right; right. destruct k as [|k]; cbn [nth_error] in Hk.
      * injection Hk as <-. cbn [fst] in Hne. congruence.
      * exists k, ev. rewrite E1, Z3. repeat split; [exact Hk|lia|exact Hne].
    + rewrite E5. exists s2. reflexivity.
Qed.

Lemma ls_exact_l g o junk n0 l0 evs :
  Forall (on_line g o l0) ((n0, l0) :: evs) ->
  (Z.of_nat (length evs) < 2 ^ 32 - 1)%Z ->
  ((length evs <= 10)%nat \/
   exists k ev, nth_error evs k = Some ev /\ (k < 10)%nat /\ fst ev <> n0) ->
  exists s', ls_feed (ls_new junk) ((n0, l0) :: evs) = Some (s', map snd ((n0, l0) :: evs)).
Proof.
  intros Hon Hlen Hd. inversion Hon as [|? ? H1 H2]; subst.
  destruct (ls_first_step g o junk n0 l0 H1) as (s' & E & L' & E1 & E2 & E3 & E4).
  cbn [ls_feed map snd]. rewrite E.
  destruct (ls_run g o evs s') as (s2 & E5); try assumption.
  - lia.
  - rewrite E2. exact H2.
  - right. destruct Hd as [Hd|(k & ev & Hk & Hk' & Hne)]; [left; lia|].
    right. exists k, ev. rewrite E1, E3. repeat split; [exact Hk|lia|exact Hne].
  - rewrite E5. exists s2. reflexivity.
Qed.

(** ** Witnesses *)
Definition hold (s : sync) (k : Z) : Prop :=
  (0 < events s)%Z /\ (events s + k < 2 ^ 32)%Z /\ lastNative s = 0 /\ estLocal s = 0%Z /\
  0 < avg s <= 1 / 1000000.

Lemma hold_new_first :
  exists s, convert (sync_new 0 0 1 1) 0 0 = Some (s, 0%Z, true) /\ hold s 1000 /\ budget s = (-99)%Z.
Proof.
  unfold convert, sync_new, setFrequency.
  cbn [events lastNative localNoise gainNoise measNoise estLocal estGain p1 p2 p3 budget avg Z.eqb].
  replace ((0 - 0) * (1 / 1)) with 0 by ring. rewrite to_ll_0.
  change (u64 (0 + 0)) with 0%Z. change (s64 (0 - 0)) with 0%Z.
  rewrite !Rmult_0_r, to_ll_0.
  replace ((if Rlt_dec 0 (sq (1 / 1000 * 1) * 9) then true else false) || (-100 <? 0)%Z) with true
    by (rewrite orb_true_r; reflexivity).
  eexists. split; [reflexivity|]. unfold hold, sq. cbn [events lastNative estLocal avg budget].
  change (u32 (0 + 1)) with 1%Z. change (u64 (0 + 0)) with 0%Z.
  change (50 <? 0)%Z with false. cbv iota.
  repeat split; try lia; lra.
Qed.

Lemma hold_zero s k : (0 <= k)%Z -> hold s (Z.succ k) ->
  exists s', convert s 0 0 = Some (s', 0%Z, true) /\ hold s' k /\ budget s' = Z.min 40 (budget s + 1).
Proof.
  intros Hk (He & Hm & Hn & Hl & Ha). unfold convert.
  replace (events s =? 0)%Z with false by (symmetry; apply Z.eqb_neq; lia).
  rewrite Hn, Hl. replace ((0 - 0) * estGain s) with 0 by ring. rewrite to_ll_0.
  change (u64 (0 + 0)) with 0%Z. change (s64 (0 - 0)) with 0%Z.
  rewrite !Rmult_0_r, to_ll_0.
  destruct (Rlt_dec 0 (avg s * 9)) as [H|H]; [|lra]. cbn [orb].
  eexists. split; [reflexivity|]. unfold hold. cbn [events lastNative estLocal avg budget].
  replace (u32 (events s + 1)) with (events s + 1)%Z by (unfold u32; rewrite Z.mod_small; lia).
  repeat split; try lia; try reflexivity; try (destruct (50 <? events s)%Z; lra).
Qed.

Lemma hold_far s k : (0 <= k)%Z -> hold s (Z.succ k) -> (0 <= budget s)%Z ->
  exists s', convert s 0 10 = Some (s', 0%Z, false) /\ hold s' k /\ budget s' = (budget s - 2)%Z.
Proof.
  intros Hk (He & Hm & Hn & Hl & Ha) Hb. unfold convert.
  replace (events s =? 0)%Z with false by (symmetry; apply Z.eqb_neq; lia).
  rewrite Hn, Hl. replace ((0 - 0) * estGain s) with 0 by ring. rewrite to_ll_0.
  change (u64 (0 + 0)) with 0%Z. change (s64 (10 - 0)) with 10%Z.
  destruct (Rlt_dec (10 * 10) (avg s * 9)) as [H|H]; [lra|]. cbn [orb].
  replace (budget s <? 0)%Z with false by (symmetry; apply Z.ltb_ge; lia).
  eexists. split; [reflexivity|]. unfold hold. cbn [events lastNative estLocal avg budget].
  replace (u32 (events s + 1)) with (events s + 1)%Z by (unfold u32; rewrite Z.mod_small; lia).
  repeat split; try lia; lra.
Qed.

Lemma hold_zeros n : forall s k, (0 <= k)%Z -> hold s (k + Z.of_nat n) -> (budget s <= 40)%Z ->
  exists s', feed s (repeat (Convert 0 0) n) = Some (s', repeat true n) /\ hold s' k /\
    budget s' = Z.min 40 (budget s + Z.of_nat n).
Proof.
  induction n as [|n IH]; intros s k Hk H Hb; cbn [repeat feed].
  - exists s. rewrite Z.add_0_r in H. repeat split; try apply H. lia.
  - destruct (hold_zero s (k + Z.of_nat n) ltac:(lia)) as (s1 & E & H1 & B1).
    { replace (Z.succ (k + Z.of_nat n)) with (k + Z.of_nat (S n))%Z by lia. exact H. }
    rewrite E. destruct (IH s1 k Hk H1) as (s2 & E2 & H2 & B2); [lia|].
    rewrite E2. exists s2. split; [reflexivity|]. split; [exact H2|]. lia.
Qed.

Lemma hold_fars n : forall s k, (0 <= k)%Z -> hold s (k + Z.of_nat n) -> (2 * Z.of_nat n - 2 <= budget s)%Z ->
  exists s', feed s (repeat (Convert 0 10) n) = Some (s', repeat false n) /\
    hold s' k /\ budget s' = (budget s - 2 * Z.of_nat n)%Z.
Proof.
  induction n as [|n IH]; intros s k Hk H Hb; cbn [repeat feed].
  - exists s. rewrite Z.add_0_r in H. repeat split; try apply H. lia.
  - destruct (hold_far s (k + Z.of_nat n) ltac:(lia)) as (s1 & E & H1 & B1).
    { replace (Z.succ (k + Z.of_nat n)) with (k + Z.of_nat (S n))%Z by lia. exact H. }
    { lia. }
    rewrite E. destruct (IH s1 k Hk H1) as (s2 & E2 & H2 & B2); [lia|].
    rewrite E2. exists s2. split; [reflexivity|]. split; [exact H2|]. lia.
Qed.

Lemma sync_bounds_reached_l :
  exists s1 s2,
    feed (sync_new 0 0 1 1) (repeat (Convert 0 0) 150) = Some (s1, repeat true 150) /\
    feed s1 (repeat (Convert 0 10) 21) = Some (s2, repeat false 21).
Proof.
  destruct hold_new_first as (s0 & E0 & H0 & B0).
  destruct (hold_zeros 149 s0 851 ltac:(lia) H0) as (s1 & E1 & H1 & B1); [lia|].
  destruct (hold_fars 21 s1 830 ltac:(lia) H1) as (s2 & E2 & _ & _); [lia|].
  exists s1, s2. split; [|exact E2].
  change (repeat (Convert 0 0) 150) with (Convert 0 0 :: repeat (Convert 0 0) 149).
  cbn [feed]. rewrite E0, E1. reflexivity.
Qed.

Lemma ls_constant_step s : ls_line 0 0 s -> (ls_events s < 11)%Z -> ls_first s = 1%Z ->
  ls_var s = 0 -> avgN s = 0 -> 0 < ls_avg s ->
  exists s', ls_convert s 0 1 = Some (s', 0 * 0 + 0, 1%Z) /\ ls_line 0 0 s' /\
    ls_events s' = (ls_events s + 1)%Z /\ ls_first s' = 1%Z /\ ls_var s' = 0 /\ avgN s' = 0 /\ 0 < ls_avg s'.
Proof.
  intros HL He Hf Hv Hn Ha.
  destruct (ls_step 0 0 s 0 1) as (s' & E & L' & E1 & E2 & E3 & E4); try assumption; try lia; try (intros; assumption).
  { rewrite Hf. split; cbn; [lia|lra]. }
  exists s'. repeat split; try assumption; try apply L'; try congruence; try (apply E4; assumption).
  - unfold ls_convert in E. revert E.
    replace (10 <? ls_events s)%Z with false by (symmetry; apply Z.ltb_ge; lia).
    replace (ls_events s =? 0)%Z with false by (symmetry; apply Z.eqb_neq; destruct HL; lia).
    rewrite (to_u64_of_IZR _ (u64_range _)).
    replace (ls_events s <? 100)%Z with true by (symmetry; apply Z.ltb_lt; lia).
    cbn [orb]. intros E. injection E as <- _ _. unfold ls_var in *. cbn [avgN avgNN].
    rewrite Hn in *. replace (avgNN s) with 0 by lra. ring.
  - unfold ls_convert in E. revert E.
    replace (10 <? ls_events s)%Z with false by (symmetry; apply Z.ltb_ge; lia).
    replace (ls_events s =? 0)%Z with false by (symmetry; apply Z.eqb_neq; destruct HL; lia).
    rewrite (to_u64_of_IZR _ (u64_range _)).
    replace (ls_events s <? 100)%Z with true by (symmetry; apply Z.ltb_lt; lia).
    cbn [orb]. intros E. injection E as <- _ _. cbn [avgN]. rewrite Hn. ring.
Qed.

Lemma ls_constant_run k : forall s, ls_line 0 0 s -> (ls_events s + Z.of_nat k = 11)%Z -> ls_first s = 1%Z ->
  ls_var s = 0 -> avgN s = 0 -> 0 < ls_avg s ->
  ls_feed s (repeat (0, 1%Z) (S k)) = None.
Proof.
  induction k as [|k IH]; intros s HL He Hf Hv Hn Ha.
  - cbn [repeat ls_feed]. unfold ls_convert.
    replace (10 <? ls_events s)%Z with true by (symmetry; apply Z.ltb_lt; lia).
    unfold extrapolate. unfold ls_var in Hv. destruct (Req_EM_T _ 0); [reflexivity|contradiction].
  - destruct (ls_constant_step s) as (s' & E & L' & E1 & E2 & E3 & E4 & E5); try assumption; [lia|].
    change (repeat (0, 1%Z) (S (S k))) with ((0, 1%Z) :: repeat (0, 1%Z) (S k)).
    cbn [ls_feed]. rewrite E. rewrite IH; try assumption; [reflexivity|lia].
Qed.

Lemma ls_constant_refuted_l : ls_feed (ls_new 0) (repeat (0, 1%Z) 12) = None.
Proof.
  change (repeat (0, 1%Z) 12) with ((0, 1%Z) :: repeat (0, 1%Z) 11). cbn [ls_feed].
  destruct (ls_convert (ls_new 0) 0 1) as [[[s e] r]|] eqn:E; [|reflexivity].
  destruct (ls_first_step 0 0 0 0 1) as (s' & E' & L' & E1 & E2 & E3 & E4).
  { split; cbn; [lia|lra]. }
  rewrite E in E'. injection E' as -> -> ->.
  rewrite (ls_constant_run 10); try assumption; try reflexivity; [rewrite E1; reflexivity|].
  unfold ls_convert, ls_new in E.
  cbn [ls_events ls_first avgN avgNN avgL avgLN ls_avg ls_budget Z.eqb Z.ltb Z.compare] in E.
  rewrite (to_u64_of_IZR _ (u64_range _)) in E. cbn [orb] in E. injection E as <- _.
  unfold ls_var. cbn [avgN avgNN]. ring.
Qed.
