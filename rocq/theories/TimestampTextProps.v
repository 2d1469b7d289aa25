(** Timestamps and their text (C160, C161). *)
From Coq Require Import ZArith List Ascii String Lia.
Import ListNotations.
From Verif Require Import TimestampText.
Open Scope Z_scope.
Open Scope list_scope.

(** * now *)
Theorem now_fields s u : 0 <= s -> 0 <= u < 1000000 -> s < 18446744073 -> now s u / 1000000000 = s /\ (now s u / 1000) mod 1000000 = u.
Proof.
  intros S U L. unfold now. rewrite (Z.mod_small s), (Z.mod_small u) by lia. rewrite (Z.mod_small (s * 1000000000 + u * 1000)) by lia. split.
  - symmetry. apply (Z.div_unique _ _ s (u * 1000)); lia.
  - assert (E : (s * 1000000000 + u * 1000) / 1000 = s * 1000000 + u) by (symmetry; apply (Z.div_unique _ _ _ 0); lia). rewrite E. symmetry. apply (Z.mod_unique _ _ s u); lia.
Qed.
(** the bound on the seconds cannot be dropped: every reading is a 64-bit number, so in the year 2554 the clock starts
    again from zero, less than a second after the largest value *)
Theorem now_wraps s u : 0 <= s < 2 ^ 63 -> 0 <= u < 1000000 ->
  0 <= now s u < 2 ^ 64 /\ exists k, 0 <= k /\ s * 1000000000 + u * 1000 = now s u + k * 2 ^ 64.
Proof.
  intros S U. unfold now. rewrite (Z.mod_small s), (Z.mod_small u) by lia. split; [apply Z.mod_pos_bound; lia|].
  exists ((s * 1000000000 + u * 1000) / 2 ^ 64). split; [apply Z.div_pos; lia|].
  pose proof (Z.div_mod (s * 1000000000 + u * 1000) (2 ^ 64) ltac:(lia)). lia.
Qed.
Theorem now_wrap_refuted : now 18446744073 709552 = 384 /\ now 18446744073 709551 = 2 ^ 64 - 616.
Proof. split; reflexivity. Qed.
Theorem now_monotone s u s' u' : 0 <= s -> 0 <= u < 1000000 -> 0 <= s' < 18446744073 -> 0 <= u' < 1000000 -> s < s' \/ s = s' /\ u < u' -> now s u < now s' u'.
Proof. intros S U S' U' H. unfold now. rewrite (Z.mod_small s), (Z.mod_small s'), (Z.mod_small u), (Z.mod_small u') by lia. rewrite !Z.mod_small by lia. lia. Qed.

(** * Order of texts: std::string::compare *)
Fixpoint lex (a b : list ascii) : comparison :=
  match a, b with
  | [], [] => Eq | [], _ => Lt | _, [] => Gt
  | x :: a, y :: b => match N.compare (N_of_ascii x) (N_of_ascii y) with Eq => lex a b | c => c end
  end.
Lemma lex_refl a : lex a a = Eq.
Proof. induction a as [|x a IH]; [reflexivity|]. cbn. rewrite N.compare_refl. exact IH. Qed.
Lemma lex_eq a b : lex a b = Eq -> a = b.
Proof.
  revert b. induction a as [|x a IH]; intros [|y b]; cbn; try discriminate; [reflexivity|]. destruct (N.compare_spec (N_of_ascii x) (N_of_ascii y)) as [E| |]; try discriminate.
  intros L. rewrite (IH b L). f_equal. rewrite <- (ascii_N_embedding x), <- (ascii_N_embedding y), E. reflexivity.
Qed.
Lemma lex_app a a' b b' : List.length a = List.length a' -> lex (a ++ b) (a' ++ b') = match lex a a' with Eq => lex b b' | c => c end.
Proof. revert a'. induction a as [|x a IH]; intros [|x' a'] L; try discriminate; [reflexivity|]. cbn. destruct (N.compare (N_of_ascii x) (N_of_ascii x')); try reflexivity. apply IH. cbn in L. lia. Qed.
Lemma digit_code d : 0 <= d < 10 -> N_of_ascii (digit d) = Z.to_N (48 + d).
Proof. intros D. unfold digit. apply N_ascii_embedding. lia. Qed.
Lemma show_length w n : List.length (show w n) = w.
Proof. revert n. induction w as [|w IH]; intros n; [reflexivity|]. cbn. rewrite app_length, IH. cbn. lia. Qed.
Lemma show_lex w : forall n n', 0 <= n < 10 ^ Z.of_nat w -> 0 <= n' < 10 ^ Z.of_nat w -> lex (show w n) (show w n') = (n ?= n').
Proof.
  induction w as [|w IH]; intros n n' N N'.
  - cbn in N, N'. assert (n = 0) by lia. assert (n' = 0) by lia. subst. reflexivity.
  - rewrite Nat2Z.inj_succ, Z.pow_succ_r in N, N' by lia. cbn [show]. rewrite lex_app by (rewrite !show_length; reflexivity).
    pose proof (Z.div_mod n 10 ltac:(lia)). pose proof (Z.mod_pos_bound n 10 ltac:(lia)). pose proof (Z.div_mod n' 10 ltac:(lia)). pose proof (Z.mod_pos_bound n' 10 ltac:(lia)).
    rewrite IH by (split; [apply Z.div_pos; lia|apply Z.div_lt_upper_bound; lia]).
    destruct (Z.compare_spec (n / 10) (n' / 10)) as [E|L|G].
    + cbn [lex]. rewrite !digit_code by assumption. destruct (N.compare_spec (Z.to_N (48 + n mod 10)) (Z.to_N (48 + n' mod 10))) as [E2|L2|G2]; symmetry; [apply Z.compare_eq_iff|apply Z.compare_lt_iff|apply Z.compare_gt_iff]; lia.
    + symmetry. apply Z.compare_lt_iff. lia.
    + symmetry. apply Z.compare_gt_iff. lia.
Qed.
Lemma show_inj w n n' : 0 <= n < 10 ^ Z.of_nat w -> 0 <= n' < 10 ^ Z.of_nat w -> show w n = show w n' -> n = n'.
Proof. intros N N' E. assert (X := show_lex w n n' N N'). rewrite E, lex_refl in X. symmetry in X. apply Z.compare_eq_iff in X. exact X. Qed.

(** * C160: the short text *)
(** the time of day at a fixed distance from UTC *)
Definition clock_ok (offset s : Z) (a : tm) : Prop :=
  0 <= tm_hour a < 24 /\ 0 <= tm_min a < 60 /\ 0 <= tm_sec a < 60 /\ tm_hour a * 3600 + tm_min a * 60 + tm_sec a = (s + offset) mod 86400.
Definition local_day (offset t : Z) : Z := (t / 1000000000 + offset) / 86400.
Theorem short_order localtime offset t t' : 0 <= t -> 0 <= t' ->
  clock_ok offset (t / 1000000000) (localtime (t / 1000000000)) -> clock_ok offset (t' / 1000000000) (localtime (t' / 1000000000)) -> local_day offset t = local_day offset t' ->
  lex (short_string localtime t) (short_string localtime t') = (t / 1000 ?= t' / 1000).
Proof.
  intros T T' (H & M & S & E) (H' & M' & S' & E') D. unfold short_string, local_day in *. set (a := localtime (t / 1000000000)) in *. set (a' := localtime (t' / 1000000000)) in *.
  rewrite !lex_app by (rewrite !show_length; reflexivity). cbn [app]. 
  pose proof (Z.mod_pos_bound (t / 1000) 1000000 ltac:(lia)) as U. pose proof (Z.mod_pos_bound (t' / 1000) 1000000 ltac:(lia)) as U'.
  cbn [lex]. rewrite !N.compare_refl. rewrite !lex_app by (rewrite !show_length; reflexivity). cbn [lex]. rewrite !N.compare_refl. rewrite !lex_app by (rewrite !show_length; reflexivity). cbn [lex]. rewrite !N.compare_refl.
  rewrite !(show_lex 2) by (change (10 ^ Z.of_nat 2) with 100; lia). rewrite (show_lex 6) by (change (10 ^ Z.of_nat 6) with 1000000; lia).
  assert (F : forall t, t / 1000 = (t / 1000000000) * 1000000 + (t / 1000) mod 1000000).
  { intros u. rewrite (Z.div_mod (u / 1000) 1000000) at 1 by lia. rewrite Z.div_div by lia. change (1000 * 1000000) with 1000000000. lia. }
  assert (FT := F t). assert (FT' := F t'). pose proof (Z.div_mod (t / 1000000000 + offset) 86400 ltac:(lia)) as DM. pose proof (Z.div_mod (t' / 1000000000 + offset) 86400 ltac:(lia)) as DM'. rewrite D in DM.
  set (u := (t / 1000) mod 1000000) in *. set (u' := (t' / 1000) mod 1000000) in *. set (s := t / 1000000000) in *. set (s' := t' / 1000000000) in *.
  set (q := (s' + offset) / 86400) in *. rewrite FT, FT'. clear FT FT' F D.
  destruct (Z.compare_spec (tm_hour a) (tm_hour a')), (Z.compare_spec (tm_min a) (tm_min a')), (Z.compare_spec (tm_sec a) (tm_sec a')), (Z.compare_spec u u');
    cbv iota; symmetry; first [apply Z.compare_eq_iff; lia|apply Z.compare_lt_iff; lia|apply Z.compare_gt_iff; lia].
Qed.
(** within a local day the text identifies the microsecond *)
Theorem short_unique localtime offset t t' : 0 <= t -> 0 <= t' ->
  clock_ok offset (t / 1000000000) (localtime (t / 1000000000)) -> clock_ok offset (t' / 1000000000) (localtime (t' / 1000000000)) -> local_day offset t = local_day offset t' ->
  (short_string localtime t = short_string localtime t' <-> t / 1000 = t' / 1000).
Proof.
  intros T T' C C' D. assert (L := short_order localtime offset t t' T T' C C' D). split.
  - intros E. rewrite E, lex_refl in L. symmetry in L. apply Z.compare_eq_iff in L. exact L.
  - intros E. apply lex_eq. rewrite L, E. apply Z.compare_refl.
Qed.
(** it always fits into the buffer of 32 bytes *)
Theorem short_length localtime t : List.length (short_string localtime t) = 15%nat.
Proof. unfold short_string. rewrite !app_length, !show_length. reflexivity. Qed.
(** but times a day apart have the same text *)
Definition utc_clock (s : Z) : tm := Tm (s mod 60) (s / 60 mod 60) (s / 3600 mod 24) 1 0 70 4.
Lemma utc_clock_ok s : clock_ok 0 s (utc_clock s).
Proof.
  unfold clock_ok, utc_clock. cbn [tm_hour tm_min tm_sec]. rewrite Z.add_0_r.
  pose proof (Z.mod_pos_bound s 60 ltac:(lia)). pose proof (Z.mod_pos_bound (s / 60) 60 ltac:(lia)). pose proof (Z.mod_pos_bound (s / 3600) 24 ltac:(lia)). repeat (split; [lia|]).
  pose proof (Z.div_mod s 60 ltac:(lia)). pose proof (Z.div_mod (s / 60) 60 ltac:(lia)). rewrite (Z.div_div s 60 60) in * by lia. change (60 * 60) with 3600 in *. pose proof (Z.div_mod (s / 3600) 24 ltac:(lia)).
  apply Z.mod_unique with (q := s / 3600 / 24); lia.
Qed.
Theorem short_day_refuted : let t := 1172835701521021000 in
  short_string utc_clock t = list_ascii_of_string "11:41:41.521021" /\ short_string utc_clock (t + 86400000000000) = short_string utc_clock t.
Proof. cbv zeta. split; vm_compute; reflexivity. Qed.

(** * C161: the long text *)
Definition leap (y : Z) : bool := ((y mod 4 =? 0) && (negb (y mod 100 =? 0) || (y mod 400 =? 0)))%bool.
Definition month_length (y m : Z) : Z := nth (Z.to_nat m) [31; if leap y then 29 else 28; 31; 30; 31; 30; 31; 31; 30; 31; 30; 31] 0.
(** days of the months before m, days of the years before y and since 1970 *)
Fixpoint before_month (y : Z) (m : nat) : Z := match m with O => 0 | S m => before_month y m + month_length y (Z.of_nat m) end.
Fixpoint before_year (k : nat) : Z := match k with O => 0 | S k => before_year k + (if leap (1970 + Z.of_nat k) then 366 else 365) end.
Definition day_number (a : tm) : Z := before_year (Z.to_nat (tm_year a - 70)) + before_month (1900 + tm_year a) (Z.to_nat (tm_mon a)) + (tm_mday a - 1).
(** what gmtime_r does: the Gregorian date of the second s *)
Definition date_ok (s : Z) (a : tm) : Prop :=
  0 <= tm_hour a < 24 /\ 0 <= tm_min a < 60 /\ 0 <= tm_sec a < 60 /\ 0 <= tm_mon a < 12 /\ 1 <= tm_mday a <= month_length (1900 + tm_year a) (tm_mon a) /\
  1970 <= 1900 + tm_year a < 10000 /\ tm_wday a = (4 + day_number a) mod 7 /\
  s = day_number a * 86400 + tm_hour a * 3600 + tm_min a * 60 + tm_sec a.

Lemma app_split {A} (a a' b b' : list A) : List.length a = List.length a' -> a ++ b = a' ++ b' -> a = a' /\ b = b'.
Proof. revert a'. induction a as [|x a IH]; intros [|x' a'] L E; try discriminate; [auto|]. cbn in *. injection E as -> E. destruct (IH a' ltac:(lia) E) as [-> ->]. auto. Qed.
Ltac cases12 m := assert (m = 0 \/ m = 1 \/ m = 2 \/ m = 3 \/ m = 4 \/ m = 5 \/ m = 6 \/ m = 7 \/ m = 8 \/ m = 9 \/ m = 10 \/ m = 11) as C12 by lia.
Lemma month_length_bound y m : 0 <= m < 12 -> 28 <= month_length y m <= 31.
Proof. intros M. cases12 m. unfold month_length. destruct (leap y); repeat destruct C12 as [->|C12]; subst m || idtac; split; vm_compute; discriminate. Qed.
Definition months : list (list ascii) := map (fun n => month_name (Z.of_nat n)) (seq 0 12).
Fixpoint index (l : list (list ascii)) (x : list ascii) : Z := match l with [] => 0 | y :: l => match lex x y with Eq => 0 | _ => 1 + index l x end end.
Lemma month_index m : 0 <= m < 12 -> index months (month_name m) = m.
Proof. intros M. cases12 m. repeat destruct C12 as [->|C12]; subst; reflexivity. Qed.
Lemma month_inj m m' : 0 <= m < 12 -> 0 <= m' < 12 -> month_name m = month_name m' -> m = m'.
Proof. intros M M' E. rewrite <- (month_index m M), <- (month_index m' M'), E. reflexivity. Qed.
Lemma month_name_length m : 0 <= m < 12 -> List.length (month_name m) = 3%nat.
Proof. intros M. cases12 m. repeat destruct C12 as [->|C12]; subst; reflexivity. Qed.
Lemma day_name_length d : 0 <= d < 7 -> List.length (day_name d) = 3%nat.
Proof. intros D. assert (d = 0 \/ d = 1 \/ d = 2 \/ d = 3 \/ d = 4 \/ d = 5 \/ d = 6) as C by lia. repeat destruct C as [->|C]; subst; reflexivity. Qed.
Lemma pad3_length n : List.length (pad3 n) = 3%nat.
Proof. unfold pad3. destruct (n <? 10); reflexivity. Qed.
Lemma digit_not_blank d : 0 <= d < 10 -> digit d <> blank.
Proof. intros D E. apply (f_equal N_of_ascii) in E. rewrite digit_code in E by exact D. change (N_of_ascii blank) with 32%N in E. lia. Qed.
Lemma pad3_inj n n' : 0 <= n < 100 -> 0 <= n' < 100 -> pad3 n = pad3 n' -> n = n'.
Proof.
  intros N N'. unfold pad3. destruct (Z.ltb_spec n 10), (Z.ltb_spec n' 10); intros E.
  - assert (X : digit n = digit n') by congruence. apply (f_equal N_of_ascii) in X. rewrite !digit_code in X by lia. lia.
  - exfalso. cbn in E. assert (X : blank = digit (n' / 10 mod 10)) by congruence. symmetry in X. revert X. apply digit_not_blank. apply Z.mod_pos_bound. lia.
  - exfalso. cbn in E. assert (X : digit (n / 10 mod 10) = blank) by congruence. revert X. apply digit_not_blank. apply Z.mod_pos_bound. lia.
  - apply (show_inj 2); [exact N|exact N'|]. assert (X := f_equal (@tl ascii) E). exact X.
Qed.
Lemma asctime_inj s s' a a' : date_ok s a -> date_ok s' a' -> asctime a = asctime a' -> s = s'.
Proof.
  intros (H & M & S & MO & MD & Y & W & E) (H' & M' & S' & MO' & MD' & Y' & W' & E'). unfold asctime. intros X.
  apply app_split in X; [|rewrite !day_name_length; [reflexivity|rewrite W'; apply Z.mod_pos_bound; lia|rewrite W; apply Z.mod_pos_bound; lia]]. destruct X as [_ X]. apply app_split in X; [|reflexivity]. destruct X as [_ X].
  apply app_split in X; [|rewrite !month_name_length by assumption; reflexivity]. destruct X as [XM X]. apply month_inj in XM; try assumption.
  apply app_split in X; [|rewrite !pad3_length; reflexivity]. destruct X as [XD X]. pose proof (month_length_bound (1900 + tm_year a) _ MO). pose proof (month_length_bound (1900 + tm_year a') _ MO'). apply pad3_inj in XD; try lia.
  apply app_split in X; [|reflexivity]. destruct X as [_ X].
  apply app_split in X; [|rewrite !show_length; reflexivity]. destruct X as [XH X]. apply show_inj in XH; try (change (10 ^ Z.of_nat 2) with 100; lia). apply app_split in X; [|reflexivity]. destruct X as [_ X].
  apply app_split in X; [|rewrite !show_length; reflexivity]. destruct X as [XI X]. apply show_inj in XI; try (change (10 ^ Z.of_nat 2) with 100; lia). apply app_split in X; [|reflexivity]. destruct X as [_ X].
  apply app_split in X; [|rewrite !show_length; reflexivity]. destruct X as [XS X]. apply show_inj in XS; try (change (10 ^ Z.of_nat 2) with 100; lia). apply app_split in X; [|reflexivity]. destruct X as [_ X].
  apply app_split in X; [|rewrite !show_length; reflexivity]. destruct X as [XY X]. apply show_inj in XY; try (change (10 ^ Z.of_nat 4) with 10000; lia).
  rewrite E, E'. assert (DN : day_number a = day_number a') by (unfold day_number; replace (tm_year a') with (tm_year a) by lia; rewrite XM, XD; reflexivity). rewrite DN, XH, XI, XS. reflexivity.
Qed.
Lemma asctime_length s a : date_ok s a -> List.length (asctime a) = 25%nat.
Proof. intros (H & M & S & MO & MD & Y & W & E). unfold asctime. rewrite !app_length, !show_length, month_name_length, day_name_length, pad3_length by (try assumption; rewrite W; apply Z.mod_pos_bound; lia). reflexivity. Qed.
Lemma asctime_newline a : exists b, asctime a = b ++ [newline].
Proof. unfold asctime. eexists. rewrite !app_assoc. reflexivity. Qed.
Lemma replace_last b x r : replace (b ++ [x]) (List.length (b ++ [x]) - 1) 4 r = b ++ r.
Proof.
  unfold replace. rewrite app_length. cbn [List.length]. replace (List.length b + 1 - 1)%nat with (List.length b) by lia. rewrite firstn_app, Nat.sub_diag, firstn_all. cbn [firstn]. rewrite app_nil_r.
  rewrite skipn_all2 by (rewrite app_length; cbn; lia). rewrite app_nil_r. reflexivity.
Qed.
(** the line break is replaced by the zone *)
Theorem long_shape gmtime t a : gmtime (t / 1000000000) = a -> exists b, asctime a = b ++ [newline] /\ long_string gmtime t = b ++ list_ascii_of_string " UTC".
Proof. intros E. destruct (asctime_newline a) as (b & EB). exists b. split; [exact EB|]. unfold long_string. rewrite E, EB. apply replace_last. Qed.
(** asctime_r writes 25 characters and a zero into the buffer of 50 bytes *)
Theorem long_length gmtime t : date_ok (t / 1000000000) (gmtime (t / 1000000000)) -> List.length (long_string gmtime t) = 28%nat.
Proof.
  intros D. destruct (long_shape gmtime t _ eq_refl) as (b & EB & EL). apply asctime_length in D. rewrite EB, app_length in D. cbn in D. rewrite EL, app_length. cbn. lia.
Qed.
(** the long text identifies the second *)
Theorem long_unique gmtime t t' : date_ok (t / 1000000000) (gmtime (t / 1000000000)) -> date_ok (t' / 1000000000) (gmtime (t' / 1000000000)) ->
  (long_string gmtime t = long_string gmtime t' <-> t / 1000000000 = t' / 1000000000).
Proof.
  intros D D'. split; [|intros E; unfold long_string; rewrite E; reflexivity]. intros E.
  destruct (long_shape gmtime t _ eq_refl) as (b & EB & EL). destruct (long_shape gmtime t' _ eq_refl) as (b' & EB' & EL'). rewrite EL, EL' in E. apply app_inv_tail in E. subst b'.
  apply (asctime_inj _ _ _ _ D D'). rewrite EB, EB'. reflexivity.
Qed.
(** every second up to the end of year 9999 has a date *)
Lemma before_year_step k : before_year (S k) = before_year k + before_month (1970 + Z.of_nat k) 12.
Proof.
  cbn [before_year before_month]. unfold month_length. destruct (leap (1970 + Z.of_nat k)); match goal with |- _ = _ + ?x => let v := eval vm_compute in x in change x with v end; reflexivity.
Qed.
Lemma dates_exist n : exists y m d, 1970 <= y /\ 0 <= m < 12 /\ 1 <= d <= month_length y m /\ before_year (Z.to_nat (y - 1970)) + before_month y (Z.to_nat m) + (d - 1) = Z.of_nat n.
Proof.
  induction n as [|n (y & m & d & Y & M & D & E)]; [exists 1970, 0, 1; cbn; lia|].
  destruct (Z.eq_dec d (month_length y m)) as [L|L]; [|exists y, m, (d + 1); repeat split; lia].
  destruct (Z.eq_dec m 11) as [ML|ML].
  - exists (y + 1), 0, 1. split; [lia|]. split; [lia|]. split; [pose proof (month_length_bound (y + 1) 0 ltac:(lia)); lia|]. replace (Z.to_nat (y + 1 - 1970)) with (S (Z.to_nat (y - 1970))) by lia. rewrite before_year_step.
    replace (1970 + Z.of_nat (Z.to_nat (y - 1970))) with y by lia. subst m. change (before_month y 12) with (before_month y 11 + month_length y 11). change (Z.to_nat 11) with 11%nat in E. change (before_month (y + 1) (Z.to_nat 0)) with 0. lia.
  - exists y, (m + 1), 1. split; [lia|]. split; [lia|]. split; [pose proof (month_length_bound y (m + 1) ltac:(lia)); lia|]. replace (Z.to_nat (m + 1)) with (S (Z.to_nat m)) by lia. cbn [before_month]. replace (Z.of_nat (Z.to_nat m)) with m by lia. lia.
Qed.
Lemma before_year_lower k : 365 * Z.of_nat k <= before_year k.
Proof. induction k as [|k IH]; [cbn; lia|]. cbn [before_year]. destruct (leap _); lia. Qed.
Lemma before_month_nonneg y m : (m <= 12)%nat -> 0 <= before_month y m.
Proof. induction m as [|m IH]; intros L; [cbn; lia|]. cbn [before_month]. pose proof (month_length_bound y (Z.of_nat m) ltac:(lia)). specialize (IH ltac:(lia)). lia. Qed.
(** 2^64 nanoseconds are 584 years *)
Theorem date_exists t : 0 <= t < 2 ^ 64 -> exists a, date_ok (t / 1000000000) a.
Proof.
  intros T. set (s := t / 1000000000). assert (S0 : 0 <= s) by (apply Z.div_pos; lia). assert (S1 : s < 18446744074) by (apply Z.div_lt_upper_bound; lia).
  destruct (dates_exist (Z.to_nat (s / 86400))) as (y & m & d & Y & M & D & E).
  assert (Q0 : 0 <= s / 86400) by (apply Z.div_pos; lia). assert (Q1 : s / 86400 < 213504) by (apply Z.div_lt_upper_bound; lia). rewrite Z2Nat.id in E by exact Q0.
  pose proof (before_year_lower (Z.to_nat (y - 1970))). pose proof (before_month_nonneg y (Z.to_nat m) ltac:(lia)).
  set (r := s mod 86400). assert (R : 0 <= r < 86400) by (apply Z.mod_pos_bound; lia). assert (SR : s = s / 86400 * 86400 + r) by (unfold r; rewrite Z.mul_comm; apply Z.div_mod; lia).
  exists (Tm (r mod 60) (r / 60 mod 60) (r / 3600) d m (y - 1900) ((4 + s / 86400) mod 7)).
  assert (DN : forall w, day_number (Tm (r mod 60) (r / 60 mod 60) (r / 3600) d m (y - 1900) w) = s / 86400).
  { intros w. unfold day_number. cbn [tm_year tm_mon tm_mday]. replace (y - 1900 - 70) with (y - 1970) by lia. replace (1900 + (y - 1900)) with y by lia. exact E. }
  unfold date_ok. rewrite DN. cbn [tm_hour tm_min tm_sec tm_mon tm_mday tm_year tm_wday]. replace (1900 + (y - 1900)) with y by lia.
  pose proof (Z.mod_pos_bound r 60 ltac:(lia)). pose proof (Z.mod_pos_bound (r / 60) 60 ltac:(lia)).
  pose proof (Z.div_mod r 60 ltac:(lia)). pose proof (Z.div_mod (r / 60) 60 ltac:(lia)). rewrite (Z.div_div r 60 60) in * by lia. change (60 * 60) with 3600 in *.
  split; [lia|]. split; [lia|]. split; [lia|]. split; [exact M|]. split; [exact D|]. split; [lia|]. split; [reflexivity|]. lia.
Qed.
(** the example of the documentation, Timestamp.h:47 (which shows the day with a zero instead of a blank) *)
Example long_case : let a := Tm 41 41 11 2 2 107 5 in date_ok 1172835701 a /\
  long_string (fun _ => a) 1172835701521021000 = list_ascii_of_string "Fri Mar  2 11:41:41 2007 UTC".
Proof. cbv zeta. split; [|vm_compute; reflexivity]. unfold date_ok. cbn [tm_hour tm_min tm_sec tm_mon tm_mday tm_year tm_wday]. vm_compute. intuition congruence. Qed.
Example short_case : let t := 1172835701521021000 in clock_ok 0 (t / 1000000000) (utc_clock (t / 1000000000)) /\
  lex (short_string utc_clock t) (short_string utc_clock (t + 1000)) = Lt.
Proof. cbv zeta. split; [apply utc_clock_ok|]. vm_compute. reflexivity. Qed.
Print Assumptions now_fields. Print Assumptions now_monotone. Print Assumptions short_order. Print Assumptions short_unique. Print Assumptions short_length. Print Assumptions short_day_refuted.
Print Assumptions long_shape. Print Assumptions long_length. Print Assumptions long_unique. Print Assumptions date_exists.
