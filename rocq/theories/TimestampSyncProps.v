(** C33, C34: clock synchronisation. *)
From Coq Require Import Reals ZArith List Bool Lra Lia.
From Verif Require Import TimestampSync TimestampSyncProofs.
Import ListNotations.
Open Scope R_scope.

(** C33: whatever calls a client makes, the covariance stays positive semidefinite
    with a positive first variance, and the deviation average stays nonnegative. *)
Theorem sync_covariance_valid : forall jn jl nf lf ops s bs,
  lf <> 0 -> (forall nf' lf', In (SetFrequency nf' lf') ops -> lf' <> 0) ->
  feed (sync_new jn jl nf lf) ops = Some (s, bs) ->
  psd2 (p1 s) (p2 s) (p3 s) /\ 0 < p1 s /\ 0 <= avg s /\ 0 < measNoise s /\ (-100 <= budget s <= 40)%Z.
Proof. exact sync_covariance_valid_l. Qed.
Print Assumptions sync_covariance_valid.

Example sync_covariance_case : exists s,
  feed (sync_new 0 0 1 1) (repeat (Convert 0 0) 150) = Some (s, repeat true 150).
Proof. destruct sync_bounds_reached_l as (s & _ & H & _). exists s. exact H. Qed.

(** C33: the filter gain is in [0,1]: the reported time lies between the predicted
    time and the measured one, and is the prediction when the event is rejected. *)
Theorem sync_moves_towards_measurement : forall jn jl nf lf ops s bs native local s' ret b,
  lf <> 0 -> (forall nf' lf', In (SetFrequency nf' lf') ops -> lf' <> 0) ->
  feed (sync_new jn jl nf lf) ops = Some (s, bs) ->
  convert s native local = Some (s', ret, b) ->
  exists pred corr,
    ret = estLocal s' /\ ret = u64 (pred + corr) /\ (b = false -> corr = 0%Z) /\
    let d := s64 (local - pred) in ((0 <= corr <= d) \/ (d <= corr <= 0))%Z.
Proof.
  intros jn jl nf lf ops s bs native local s' ret b H1 H2 H3.
  apply convert_moves_towards. exact (feed_inv _ _ _ _ (sync_new_inv jn jl nf lf H1) H2 H3).
Qed.
Print Assumptions sync_moves_towards_measurement.

(** C33: the first event is returned unchanged. *)
Theorem sync_first_event_exact : forall jn jl nf lf native local,
  lf <> 0 -> (0 <= local < 2 ^ 64)%Z ->
  exists s' b, convert (sync_new jn jl nf lf) native local = Some (s', local, b) /\ estLocal s' = local.
Proof.
  intros jn jl nf lf native local H Hl.
  exact (convert_first _ native local (sync_new_inv jn jl nf lf H) eq_refl Hl).
Qed.
Print Assumptions sync_first_event_exact.

(** C33: when the native clock advances by exactly the amount the current gain
    predicts, the local time is reproduced and the gain is kept. *)
Theorem sync_fixed_point : forall jn jl nf lf ops s bs native local step,
  lf <> 0 -> (forall nf' lf', In (SetFrequency nf' lf') ops -> lf' <> 0) ->
  feed (sync_new jn jl nf lf) ops = Some (s, bs) ->
  (0 <= local < 2 ^ 64)%Z -> (0 < events s)%Z ->
  (native - lastNative s) * estGain s = IZR step -> (- 2 ^ 63 <= step < 2 ^ 63)%Z ->
  local = u64 (estLocal s + step) ->
  exists s' b, convert s native local = Some (s', local, b) /\
    estLocal s' = local /\ estGain s' = estGain s /\ lastNative s' = native /\
    events s' = u32 (events s + 1).
Proof.
  intros jn jl nf lf ops s bs native local step H1 H2 H3.
  apply convert_perfect. exact (feed_inv _ _ _ _ (sync_new_inv jn jl nf lf H1) H2 H3).
Qed.
Print Assumptions sync_fixed_point.

(** C34: never more than 21 consecutive rejections, after any history. *)
Theorem sync_outlier_run_bounded : forall jn jl nf lf ops1 ops2 s1 bs1 s2 bs2,
  feed (sync_new jn jl nf lf) ops1 = Some (s1, bs1) ->
  feed s1 ops2 = Some (s2, bs2) -> (forall b, In b bs2 -> b = false) ->
  (length bs2 <= 21)%nat.
Proof. exact sync_outlier_run_l. Qed.
Print Assumptions sync_outlier_run_bounded.

(** The bound of 21 is attained. *)
Theorem sync_outlier_run_attained : exists s1 s2,
  feed (sync_new 0 0 1 1) (repeat (Convert 0 0) 150) = Some (s1, repeat true 150) /\
  feed s1 (repeat (Convert 0 10) 21) = Some (s2, repeat false 21).
Proof. exact sync_bounds_reached_l. Qed.
Print Assumptions sync_outlier_run_attained.

(** C34: over the life of the object rejections are outnumbered two to one by
    accepted events, and none occurs before a hundred events were accepted. *)
Theorem sync_rejections_bounded : forall jn jl nf lf ops s bs,
  feed (sync_new jn jl nf lf) ops = Some (s, bs) ->
  (rejected bs = 0 \/ 2 * rejected bs + 98 <= count bs)%nat.
Proof. exact sync_rejections_l. Qed.
Print Assumptions sync_rejections_bounded.

(** C33: the event counter has 32 bits and counts every event, accepted or not.  After 2^32 events the next one
    is treated as the first: its local time is returned as it is, whatever the filter has learned. *)
Lemma feed_events : forall ops s s' bs, feed s ops = Some (s', bs) -> (0 <= events s < 2 ^ 32)%Z ->
  events s' = ((events s + Z.of_nat (length bs)) mod 2 ^ 32)%Z.
Proof.
  induction ops as [|[n l|nf lf] ops IH]; cbn [feed]; intros s s' bs H B.
  - injection H as <- <-. cbn [length]. rewrite Z.add_0_r. symmetry. apply Z.mod_small, B.
  - destruct (convert s n l) as [[[t r] b]|] eqn:C; [|discriminate].
    destruct (feed t ops) as [[t' bs']|] eqn:F; [|discriminate]. injection H as <- <-.
    assert (E : events t = ((events s + 1) mod 2 ^ 32)%Z).
    { revert C. unfold convert. destruct (to_ll _); [|discriminate]. cbv zeta. destruct (_ || _).
      - destruct (to_ll _); [|discriminate]. intros C. injection C as <- _ _. reflexivity.
      - intros C. injection C as <- _ _. reflexivity. }
    rewrite (IH _ _ _ F), E by (rewrite E; apply Z.mod_pos_bound; lia).
    rewrite Zplus_mod_idemp_l. cbn [length]. f_equal. lia.
  - exact (IH _ _ _ H B).
Qed.
Theorem sync_counts_events : forall jn jl nf lf ops s bs,
  feed (sync_new jn jl nf lf) ops = Some (s, bs) -> events s = (Z.of_nat (length bs) mod 2 ^ 32)%Z.
Proof. intros jn jl nf lf ops s bs H. rewrite (feed_events _ _ _ _ H) by (cbn; lia). reflexivity. Qed.
Print Assumptions sync_counts_events.
Theorem sync_counter_restarts : forall jn jl nf lf ops s bs native local,
  lf <> 0 -> (forall nf' lf', In (SetFrequency nf' lf') ops -> lf' <> 0) ->
  feed (sync_new jn jl nf lf) ops = Some (s, bs) -> (0 <= local < 2 ^ 64)%Z ->
  (Z.of_nat (length bs) mod 2 ^ 32 = 0)%Z ->
  exists s' b, convert s native local = Some (s', local, b) /\ estLocal s' = local.
Proof.
  intros jn jl nf lf ops s bs native local H1 H2 H3 H4 H5. apply convert_first; [|rewrite (sync_counts_events _ _ _ _ _ _ _ H3); exact H5|exact H4].
  exact (feed_inv _ _ _ _ (sync_new_inv jn jl nf lf H1) H2 H3).
Qed.
Print Assumptions sync_counter_restarts.
Theorem sync_ls_counts_events : forall junk evs s rs,
  ls_feed (ls_new junk) evs = Some (s, rs) ->
  length rs = length evs /\ ls_events s = (Z.of_nat (length evs) mod 2 ^ 32)%Z.
Proof.
  intros junk evs s rs H.
  assert (G : forall evs s0 s rs, ls_feed s0 evs = Some (s, rs) -> (0 <= ls_events s0 < 2 ^ 32)%Z ->
    length rs = length evs /\ ls_events s = ((ls_events s0 + Z.of_nat (length evs)) mod 2 ^ 32)%Z).
  { clear. induction evs as [|[n l] evs IH]; cbn [ls_feed]; intros s0 s rs H B.
    - injection H as <- <-. cbn [length]. split; [reflexivity|]. rewrite Z.add_0_r. symmetry. apply Z.mod_small, B.
    - destruct (ls_convert s0 n l) as [[[t e] r]|] eqn:C; [|discriminate].
      destruct (ls_feed t evs) as [[t' rs']|] eqn:F; [|discriminate]. injection H as <- <-.
      assert (E : ls_events t = ((ls_events s0 + 1) mod 2 ^ 32)%Z).
      { revert C. unfold ls_convert. cbv zeta. destruct (if (10 <? ls_events s0)%Z then _ else _); [|discriminate].
        destruct (to_u64 _); [|discriminate]. intros C. injection C as <- _ _. destruct (_ || _); reflexivity. }
      destruct (IH _ _ _ F) as [L V]; [rewrite E; apply Z.mod_pos_bound; lia|]. cbn [length]. split; [rewrite L; reflexivity|].
      rewrite V, E, Zplus_mod_idemp_l. f_equal. lia. }
  destruct (G _ _ _ _ H) as [L V]; [cbn; lia|]. split; [exact L|]. exact V.
Qed.
Print Assumptions sync_ls_counts_events.

(** Least-squares variant: the first eleven events are returned unchanged ... *)
Theorem sync_ls_warmup_exact : forall s native local,
  (0 <= local < 2 ^ 64)%Z -> (ls_events s <= 10)%Z ->
  exists s' e, ls_convert s native local = Some (s', e, local).
Proof. exact ls_warmup. Qed.
Print Assumptions sync_ls_warmup_exact.

(** ... and if the two clocks are related by any line, every event is returned
    unchanged for ever, as long as two different native times occur among the first
    eleven (the fit divides by their variance). *)
Theorem sync_ls_exact_on_lines : forall g o junk n0 l0 evs,
  Forall (on_line g o l0) ((n0, l0) :: evs) ->
  (Z.of_nat (length evs) < 2 ^ 32 - 1)%Z ->
  ((length evs <= 10)%nat \/
   exists k ev, nth_error evs k = Some ev /\ (k < 10)%nat /\ fst ev <> n0) ->
  exists s', ls_feed (ls_new junk) ((n0, l0) :: evs) = Some (s', map snd ((n0, l0) :: evs)).
Proof. exact ls_exact_l. Qed.
Print Assumptions sync_ls_exact_on_lines.

Example sync_ls_case :
  let evs := map (fun k => (IZR k, (100 + 7 * k)%Z)) [0;1;2;3;4;5;6;7;8;9;10;11;12;13]%Z in
  exists s', ls_feed (ls_new 5) evs = Some (s', map snd evs).
Proof.
  cbv zeta. cbn [map]. apply (sync_ls_exact_on_lines 7 0 5).
  - repeat (apply Forall_cons; [split; cbn; [lia|lra]|]). apply Forall_nil.
  - cbn; lia.
  - right. exists 0%nat. eexists. split; [reflexivity|]. split; [lia|]. cbn. lra.
Qed.

(** The hypothesis is needed: with a constant native time the twelfth event divides
    by zero. *)
Theorem sync_ls_constant_native_refuted :
  ls_feed (ls_new 0) (repeat (0, 1%Z) 12) = None.
Proof. exact ls_constant_refuted_l. Qed.
Print Assumptions sync_ls_constant_native_refuted.
