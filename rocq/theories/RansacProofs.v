(** Lemmas about the RANSAC model. *)
From Coq Require Import List Arith ZArith Bool Lia.
From Coq Require Import ZifyBool.
From Verif Require Import Ransac.
Import ListNotations.

Lemma to_int32_small z : (0 <= z < 2 ^ 31)%Z -> to_int32 z = z.
Proof.
  intros Hz. unfold to_int32.
  rewrite Z.mod_small by lia.
  destruct (Z.ltb_spec z (2 ^ 31)); lia.
Qed.

Lemma to_int32_neg z : (- 2 ^ 31 <= z < 0)%Z -> to_int32 (z mod 2 ^ 64) = z.
Proof.
  intros Hz. unfold to_int32.
  assert (E : (z mod 2 ^ 64 = z + 2 ^ 64)%Z).
  { symmetry. apply (Z.mod_unique_pos _ _ (-1)); lia. }
  rewrite E.
  assert (E2 : ((z + 2 ^ 64) mod 2 ^ 32 = z + 2 ^ 32)%Z).
  { symmetry. apply (Z.mod_unique_pos _ _ (2 ^ 32 - 1)); lia. }
  rewrite E2.
  destruct (Z.ltb_spec (z + 2 ^ 32) (2 ^ 31)); lia.
Qed.

Lemma size_sub_int a b :
  (Z.of_nat a < 2 ^ 31)%Z -> (Z.of_nat b < 2 ^ 31)%Z ->
  to_int32 (size_sub a b) = (Z.of_nat a - Z.of_nat b)%Z.
Proof.
  intros Ha Hb. unfold size_sub.
  destruct (Z.ltb_spec (Z.of_nat a - Z.of_nat b) 0) as [Hn|Hp].
  - apply to_int32_neg. lia.
  - rewrite Z.mod_small by lia. apply to_int32_small. lia.
Qed.

(** For fewer than 2^31 items the cast condition is the intended one. *)
Lemma scan_goes_on_spec n i nMin nIn :
  (Z.of_nat n < 2 ^ 31)%Z -> (Z.of_nat nMin < 2 ^ 31)%Z ->
  i <= n -> nIn <= n ->
  scan_goes_on n i nMin nIn = (nMin + i <=? n + nIn).
Proof.
  intros Hn Hm Hi Hin. unfold scan_goes_on.
  rewrite !size_sub_int by lia.
  apply eq_true_iff_eq. rewrite Z.leb_le, Nat.leb_le. lia.
Qed.

Section RansacProofs.
  Variables (A H D : Type).
  Variable ltb : D -> D -> bool.
  Variable threshold : D.

  (** positions (counted from [i]) of the items satisfying [p] *)
  Fixpoint positions (p : A -> bool) (i : nat) (l : list A) : list nat :=
    match l with
    | [] => []
    | x :: l' => if p x then i :: positions p (S i) l' else positions p (S i) l'
    end.

  Lemma deref_positions p pre l :
    deref A (pre ++ l) (positions p (length pre) l) = Some (filter p l).
  Proof.
    revert pre. induction l as [|x l IH]; intros pre; [reflexivity|].
    specialize (IH (pre ++ [x])).
    rewrite app_length, <- app_assoc in IH. cbn [length app] in IH.
    replace (length pre + 1) with (S (length pre)) in IH by lia.
    cbn [positions filter]. destruct (p x); cbn [deref].
    - rewrite nth_error_app2 by lia. rewrite Nat.sub_diag. cbn [nth_error].
      rewrite IH. reflexivity.
    - exact IH.
  Qed.

  Lemma filter_length_le {B} (p : B -> bool) l : length (filter p l) <= length l.
  Proof. induction l as [|x l IH]; cbn; [lia|]. destruct (p x); cbn; lia. Qed.

  Section V12.
    Variable est : H -> list A -> bool * H.
    Variable eval : H -> A -> D.
    Variable h_init : H.

    Let inl (h : H) (x : A) : bool := ltb (eval h x) threshold.

    (** The scan never exceeds the true count, and whenever either the scan
        result or the true count reaches the minimum the two coincide. *)
    Lemma scan_spec h n nMin rest i nIn acc :
      (Z.of_nat n < 2 ^ 31)%Z -> n = i + length rest -> nIn <= i ->
      let '(c, l) := scan A H D ltb threshold eval h n nMin rest i nIn acc in
      c <= nIn + length (filter (inl h) rest) /\
      (nMin <= c \/ nMin <= nIn + length (filter (inl h) rest) ->
       c = nIn + length (filter (inl h) rest) /\
       l = rev acc ++ positions (inl h) i rest).
    Proof.
      revert i nIn acc. induction rest as [|x rest IH]; intros i nIn acc Hn Hi Hin.
      - cbn. split; [lia|]. intros _. rewrite app_nil_r. split; [lia|reflexivity].
      - cbn [scan length] in *.
        destruct (scan_goes_on n i nMin nIn) eqn:Hg.
        + cbn [filter positions]. change (inl h x) with (ltb (eval h x) threshold).
          destruct (ltb (eval h x) threshold) eqn:Hx.
          * specialize (IH (S i) (S nIn) (i :: acc) Hn ltac:(lia) ltac:(lia)).
            destruct (scan _ _ _ _ _ _ _ _ _ _ _ _ _) as [c l].
            destruct IH as [IH1 IH2]. cbn [length]. split; [lia|].
            intros Hc. destruct IH2 as [E1 E2]; [lia|]. split; [lia|].
            rewrite E2. cbn [rev]. rewrite <- app_assoc. reflexivity.
          * specialize (IH (S i) nIn acc Hn ltac:(lia) ltac:(lia)).
            destruct (scan _ _ _ _ _ _ _ _ _ _ _ _ _) as [c l].
            destruct IH as [IH1 IH2]. split; [lia|].
            intros Hc. destruct IH2 as [E1 E2]; [lia|]. split; [lia|exact E2].
        + split; [lia|]. intros Hc. exfalso.
          pose proof (filter_length_le (inl h) (x :: rest)) as Hf. cbn [length] in Hf.
          (* the early exit means the minimum is out of reach *)
          assert (Hm : nMin <= n) by lia.
          rewrite scan_goes_on_spec in Hg by lia.
          apply Nat.leb_gt in Hg. lia.
    Qed.

    Lemma scan_full h data nMin :
      (Z.of_nat (length data) < 2 ^ 31)%Z ->
      let '(c, l) := scan A H D ltb threshold eval h (length data) nMin data 0 0 [] in
      c <= length (consensus A H D ltb threshold eval data h) /\
      (nMin <= c \/ nMin <= length (consensus A H D ltb threshold eval data h) ->
       c = length (consensus A H D ltb threshold eval data h) /\
       l = positions (inl h) 0 data).
    Proof.
      intros Hn. pose proof (scan_spec h (length data) nMin data 0 0 [] Hn eq_refl (le_n 0)) as Hs.
      destruct (scan _ _ _ _ _ _ _ _ _ _ _ _ _) as [c l]. exact Hs.
    Qed.

    Notation cons_ := (consensus A H D ltb threshold eval).
    Notation qual := (qualifies A H D ltb threshold eval).
    Notation prop := (proposes A H est h_init).
    Notation runs_ := (runs A H D ltb threshold est eval h_init).

    (** What the loop guarantees when started at [iRun] with an empty best set:
        either no iteration qualifies and the best stays empty, or the loop
        stops at the first qualifying iteration with exactly its consensus set. *)
    Definition runs_post data setSize nMin sched fuel iRun
               (res : option (nat * list nat * nat)) : Prop :=
      match res with
      | None =>
          exists k, iRun <= k < iRun + fuel /\ sample A data setSize (sched k) = None
      | Some (nBest, best, iters) =>
          (nBest = 0 /\ best = [] /\ iters = iRun + fuel /\
           (forall k h, iRun <= k < iRun + fuel -> prop data setSize sched k h ->
                        ~ qual data nMin h))
          \/
          (exists h, iRun < iters <= iRun + fuel /\
             prop data setSize sched (iters - 1) h /\ qual data nMin h /\
             nBest = length (cons_ data h) /\
             best = positions (inl h) 0 data /\
             (forall k h', iRun <= k < iters - 1 -> prop data setSize sched k h' ->
                           ~ qual data nMin h'))
      end.

    Lemma runs_spec data setSize nMin sched fuel iRun :
      (Z.of_nat (length data) < 2 ^ 31)%Z ->
      runs_post data setSize nMin sched fuel iRun
        (runs_ data setSize nMin sched fuel iRun 0 []).
    Proof.
      intros Hn. revert iRun. induction fuel as [|fuel IH]; intros iRun.
      - cbn [runs]. left. repeat split; try lia.
      - cbn [runs].
        destruct (sample A data setSize (sched iRun)) as [s|] eqn:Hs.
        2:{ exists iRun. split; [lia|exact Hs]. }
        destruct (est h_init s) as [ok h] eqn:He.
        (* an iteration without a qualifying proposal is skipped *)
        assert (Step : (forall h', prop data setSize sched iRun h' -> ~ qual data nMin h') ->
           runs_post data setSize nMin sched (S fuel) iRun
             (runs_ data setSize nMin sched fuel (S iRun) 0 [])).
        { intros Hno. specialize (IH (S iRun)). unfold runs_post in *.
          destruct (runs_ data setSize nMin sched fuel (S iRun) 0 []) as [[[nB b] it]|].
          - destruct IH as [(E1 & E2 & E3 & E4)|(h' & E1 & E2 & E3 & E4 & E5 & E6)].
            + left. repeat split; try lia; auto.
              intros k h' Hk Hp. destruct (Nat.eq_dec k iRun) as [->|]; [apply Hno; exact Hp|].
              apply (E4 k h'); [lia|exact Hp].
            + right. exists h'. repeat split; try lia; auto; try apply E3.
              intros k h'' Hk Hp. destruct (Nat.eq_dec k iRun) as [->|]; [apply Hno; exact Hp|].
              apply (E6 k h''); [lia|exact Hp].
          - destruct IH as (k & Hk & E). exists k. split; [lia|exact E]. }
        destruct ok; cbn [negb].
        2:{ apply Step. intros h' (s' & Es' & Ee'). rewrite Hs in Es'. injection Es' as <-.
            rewrite He in Ee'. discriminate. }
        assert (Huniq : forall h', prop data setSize sched iRun h' -> h' = h).
        { intros h' (s' & Es' & Ee'). rewrite Hs in Es'. injection Es' as <-.
          rewrite He in Ee'. injection Ee' as ->. reflexivity. }
        pose proof (scan_full h data nMin Hn) as Hsc.
        destruct (scan A H D ltb threshold eval h (length data) nMin data 0 0 []) as [c l].
        destruct Hsc as [Hle Hc].
        destruct (Nat.eqb_spec c 0) as [E0|E0].
        { apply Step. intros h' Hp. rewrite (Huniq h' Hp). intros [Q1 Q2].
          destruct Hc as [Hc _]; [lia|]. lia. }
        destruct (Nat.leb_spec nMin c) as [Hmc|Hmc].
        + destruct (Nat.ltb_spec 0 c) as [_|]; [|lia]. cbn [andb].
          destruct Hc as [Hc1 Hc2]; [lia|].
          destruct (Nat.leb_spec nMin c); [|lia].
          right. exists h. replace (S iRun - 1) with iRun by lia.
          repeat split; try lia; try assumption.
          exists s. split; assumption.
        + cbn [andb]. destruct (Nat.leb_spec nMin 0) as [|_]; [lia|].
          apply Step. intros h' Hp. rewrite (Huniq h' Hp). intros [Q1 Q2].
          destruct Hc as [Hc _]; [lia|]. lia.
    Qed.

    Lemma ransac_sound data setSize nMin nMax sched r0 n r fl it :
      (Z.of_nat (length data) < 2 ^ 31)%Z ->
      ransac A H D ltb threshold est eval h_init data setSize nMin nMax sched r0
        = Done n r fl it -> n <> 0 ->
      exists k h, k < nMax /\ prop data setSize sched k h /\
        n = length (cons_ data h) /\ nMin <= n /\
        r = snd (est r0 (cons_ data h)).
    Proof.
      intros Hn. unfold ransac. intros Hr Hnz.
      pose proof (runs_spec data setSize nMin sched nMax 0 Hn) as Hs.
      destruct (runs _ _ _ _ _ _ _ _ _ _ _ _ _ _ _ _) as [[[nB b] iters]|]; [|discriminate].
      destruct Hs as [(E1 & E2 & _)|(h & E1 & E2 & E3 & E4 & E5 & _)].
      - subst nB b. destruct (nMin <=? 0); cbn [deref] in Hr; injection Hr; intros; subst; lia.
      - subst b nB. destruct E3 as [Q1 Q2].
        destruct (Nat.leb_spec nMin (length (cons_ data h))) as [_|]; [|lia].
        pose proof (deref_positions (inl h) [] data) as Hd. cbn [app length] in Hd.
        rewrite Hd in Hr. injection Hr as <- <- <- <-.
        exists (iters - 1), h. repeat split; try lia; auto.
    Qed.

    Lemma ransac_complete data setSize nMin nMax sched r0 k h :
      (Z.of_nat (length data) < 2 ^ 31)%Z ->
      (forall j, j < nMax -> sample A data setSize (sched j) <> None) ->
      k < nMax -> prop data setSize sched k h -> qual data nMin h ->
      exists n r it, ransac A H D ltb threshold est eval h_init data setSize nMin nMax sched r0
        = Done n r [] it /\ n <> 0 /\ nMin <= n /\ it <= S k.
    Proof.
      intros Hn Hdef Hk Hp Hq. unfold ransac.
      pose proof (runs_spec data setSize nMin sched nMax 0 Hn) as Hs.
      destruct (runs _ _ _ _ _ _ _ _ _ _ _ _ _ _ _ _) as [[[nB b] iters]|].
      - destruct Hs as [(E1 & E2 & E3 & E4)|(h' & E1 & E2 & E3 & E4 & E5 & E6)].
        + exfalso. apply (E4 k h); [lia|exact Hp|exact Hq].
        + subst b nB. destruct E3 as [Q1 Q2].
          destruct (Nat.leb_spec nMin (length (cons_ data h'))) as [_|]; [|lia].
          pose proof (deref_positions (inl h') [] data) as Hd. cbn [app length] in Hd.
          rewrite Hd. eexists _, _, _. split; [reflexivity|]. split; [lia|]. split; [lia|].
          destruct (Nat.le_gt_cases iters (S k)) as [|Hgt]; [assumption|].
          exfalso. apply (E6 k h); [lia|exact Hp|exact Hq].
      - destruct Hs as (j & Hj & E). exfalso. apply (Hdef j); [lia|exact E].
    Qed.

    Lemma ransac_fail_untouched data setSize nMin nMax sched r0 r fl it :
      1 <= nMin ->
      ransac A H D ltb threshold est eval h_init data setSize nMin nMax sched r0
        = Done 0 r fl it -> r = r0.
    Proof.
      intros Hm. unfold ransac.
      destruct (runs _ _ _ _ _ _ _ _ _ _ _ _ _ _ _ _) as [[[nB b] iters]|]; [|discriminate].
      destruct (Nat.leb_spec nMin nB) as [Hle|_].
      - destruct (deref A data b); [|discriminate]. intros E. injection E as E1 _ _ _. lia.
      - intros E. injection E as <- _ _. reflexivity.
    Qed.
  End V12.

  Section V3.
    Variable est : H -> list A -> option H.
    Variable eval : H -> A -> option D.
    Variable h_init : H.

    Notation agrees_ := (agrees A H D ltb threshold eval).
    Notation cons3 := (consensus3 A H D ltb threshold eval).
    Notation prop3 := (proposes3 A H D est eval h_init).
    Notation scan3_ := (scan3 A H D ltb threshold eval).
    Notation run3_ := (run3 A H D ltb threshold est eval h_init).
    Notation runs3_ := (runs3 A H D ltb threshold est eval h_init).

    Lemma set_nth_app l o old b :
      set_nth (l ++ o :: old) (length l) b = l ++ b :: old.
    Proof. induction l as [|x l IH]; cbn; [reflexivity|]. now rewrite IH. Qed.

    Lemma select_map p (l : list A) : select A l (map p l) = filter p l.
    Proof. induction l as [|x l IH]; cbn; [reflexivity|]. destruct (p x); now rewrite IH. Qed.

    Lemma select_off (l : list A) : select A l (repeat false (length l)) = [].
    Proof. induction l as [|x l IH]; cbn; [reflexivity|exact IH]. Qed.

    Lemma scan3_spec h n nMin pre rest nIn old :
      (Z.of_nat n < 2 ^ 31)%Z -> n = length pre + length rest -> nIn <= length pre ->
      length old = length rest ->
      let '(c, l) := scan3_ h n nMin rest (length pre) nIn (map (agrees_ h) pre ++ old) in
      length l = n /\
      (match c with
       | Some c =>
          c <= nIn + length (filter (agrees_ h) rest) /\
          (nMin <= c -> Forall (fun x => eval h x <> None) rest /\
             c = nIn + length (filter (agrees_ h) rest) /\
             l = map (agrees_ h) (pre ++ rest))
       | None => True
       end) /\
      (Forall (fun x => eval h x <> None) rest ->
       nMin <= nIn + length (filter (agrees_ h) rest) ->
       c = Some (nIn + length (filter (agrees_ h) rest))).
    Proof.
      revert pre nIn old. induction rest as [|x rest IH]; intros pre nIn old Hn Hi Hin Hold.
      - destruct old; [|discriminate]. cbn. rewrite !app_nil_r, map_length.
        cbn in Hi. split; [lia|]. split.
        + split; [lia|]. intros _. repeat split; [constructor|lia].
        + intros _ _. f_equal. lia.
      - destruct old as [|o old]; [discriminate|]. cbn [length] in *.
        cbn [scan3].
        destruct (scan_goes_on n (length pre) nMin nIn) eqn:Hg.
        + destruct (eval h x) as [d|] eqn:Hx.
          * assert (Ha : agrees_ h x = ltb d threshold) by (unfold agrees; now rewrite Hx).
            assert (Hset : forall b, set_nth (map (agrees_ h) pre ++ o :: old) (length pre) b =
                      map (agrees_ h) pre ++ b :: old).
            { intros b. rewrite <- (map_length (agrees_ h) pre). apply set_nth_app. }
            assert (Hpre : forall b, agrees_ h x = b ->
                      map (agrees_ h) pre ++ b :: old = map (agrees_ h) (pre ++ [x]) ++ old).
            { intros b <-. rewrite map_app, <- app_assoc. reflexivity. }
            cbn [filter]. rewrite Ha.
            destruct (ltb d threshold) eqn:Hd.
            -- rewrite (Hset true), (Hpre true Ha).
               specialize (IH (pre ++ [x]) (S nIn) old Hn).
               rewrite app_length in IH. cbn [length] in IH.
               replace (length pre + 1) with (S (length pre)) in IH by lia.
               specialize (IH ltac:(lia) ltac:(lia) ltac:(lia)).
               destruct (scan3_ _ _ _ _ _ _ _) as [c l]. destruct IH as (I1 & I2 & I3).
               split; [exact I1|]. cbn [length]. split.
               ++ destruct c as [c|]; [|exact I]. destruct I2 as [I2 I4]. split; [lia|].
                  intros Hc. destruct (I4 Hc) as (J1 & J2 & J3). repeat split; [|lia|].
                  ** constructor; [congruence|exact J1].
                  ** rewrite J3. rewrite <- app_assoc. reflexivity.
               ++ intros HF Hc. inversion HF; subst. rewrite I3 by (auto; lia). f_equal. lia.
            -- rewrite (Hset false), (Hpre false Ha).
               specialize (IH (pre ++ [x]) nIn old Hn).
               rewrite app_length in IH. cbn [length] in IH.
               replace (length pre + 1) with (S (length pre)) in IH by lia.
               specialize (IH ltac:(lia) ltac:(lia) ltac:(lia)).
               destruct (scan3_ _ _ _ _ _ _ _) as [c l]. destruct IH as (I1 & I2 & I3).
               split; [exact I1|]. split.
               ++ destruct c as [c|]; [|exact I]. destruct I2 as [I2 I4]. split; [lia|].
                  intros Hc. destruct (I4 Hc) as (J1 & J2 & J3). repeat split; [|lia|].
                  ** constructor; [congruence|exact J1].
                  ** rewrite J3. rewrite <- app_assoc. reflexivity.
               ++ intros HF Hc. inversion HF; subst. rewrite I3 by (auto; lia). reflexivity.
          * split; [|split].
            -- rewrite app_length, map_length. cbn [length]. lia.
            -- exact I.
            -- intros HF _. inversion HF; subst. congruence.
        + pose proof (filter_length_le (agrees_ h) (x :: rest)) as Hf. cbn [length] in Hf.
          split; [|split].
          * rewrite app_length, map_length. cbn [length]. lia.
          * split; [lia|]. intros Hc. exfalso.
            rewrite scan_goes_on_spec in Hg by lia. apply Nat.leb_gt in Hg. lia.
          * intros _ Hc. exfalso.
            rewrite scan_goes_on_spec in Hg by lia. apply Nat.leb_gt in Hg. lia.
    Qed.

    Lemma scan3_full h data nMin bIn :
      (Z.of_nat (length data) < 2 ^ 31)%Z -> length bIn = length data ->
      let '(c, l) := scan3_ h (length data) nMin data 0 0 bIn in
      length l = length data /\
      (match c with
       | Some c =>
          c <= length (cons3 data h) /\
          (nMin <= c -> Forall (fun x => eval h x <> None) data /\
             c = length (cons3 data h) /\ l = map (agrees_ h) data)
       | None => True
       end) /\
      (Forall (fun x => eval h x <> None) data ->
       nMin <= length (cons3 data h) -> c = Some (length (cons3 data h))).
    Proof.
      intros Hn Hb. exact (scan3_spec h (length data) nMin [] data 0 bIn Hn eq_refl (le_n 0) Hb).
    Qed.

    (** invariant of the loop: what the best-so-far bookkeeping means *)
    Definition best_inv data nMin sched (lo hi nBest : nat) (bBest : list bool) : Prop :=
      (forall k h, lo <= k < hi -> prop3 data sched k h ->
                   nMin <= length (cons3 data h) -> length (cons3 data h) <= nBest) /\
      ((nBest = 0 /\ bBest = repeat false (length data)) \/
       (exists k h, lo <= k < hi /\ prop3 data sched k h /\ nMin <= nBest /\ 1 <= nBest /\
          nBest = length (cons3 data h) /\ bBest = map (agrees_ h) data)).

    Lemma runs3_spec data nMin nMinRuns sched fuel iRun nBest bIn bBest :
      (Z.of_nat (length data) < 2 ^ 31)%Z -> length bIn = length data ->
      best_inv data nMin sched 0 iRun nBest bBest ->
      match runs3_ data nMin nMinRuns sched fuel iRun nBest bIn bBest with
      | None => exists k, iRun <= k < iRun + fuel /\ deref A data (sched k) = None
      | Some (nB, bB, iters) =>
          best_inv data nMin sched 0 iters nB bB /\ iRun <= iters <= iRun + fuel /\
          (iters < iRun + fuel -> nMin <= nB /\ nMinRuns <= iters)
      end.
    Proof.
      intros Hn. revert iRun nBest bIn bBest.
      induction fuel as [|fuel IH]; intros iRun nBest bIn bBest Hb Hinv.
      - cbn [runs3]. split; [exact Hinv|]. split; lia.
      - cbn [runs3]. unfold run3.
        destruct (deref A data (sched iRun)) as [s|] eqn:Hs.
        2:{ exists iRun. split; [lia|exact Hs]. }
        (* one more iteration that leaves the best set alone *)
        assert (Keep : forall bIn', length bIn' = length data ->
                   best_inv data nMin sched 0 (S iRun) nBest bBest ->
                   match runs3_ data nMin nMinRuns sched fuel (S iRun) nBest bIn' bBest with
                   | None => exists k, iRun <= k < iRun + S fuel /\ deref A data (sched k) = None
                   | Some (nB, bB, iters) =>
                       best_inv data nMin sched 0 iters nB bB /\ iRun <= iters <= iRun + S fuel /\
                       (iters < iRun + S fuel -> nMin <= nB /\ nMinRuns <= iters)
                   end).
        { intros bIn' Hb' Hinv'. specialize (IH (S iRun) nBest bIn' bBest Hb' Hinv').
          destruct (runs3_ _ _ _ _ _ _ _ _ _) as [[[nB bB] it]|].
          - destruct IH as (J1 & J2 & J3). split; [exact J1|]. split; [lia|].
            intros. apply J3. lia.
          - destruct IH as (k & Hk & E). exists k. split; [lia|exact E]. }
        assert (Noq : (forall h, prop3 data sched iRun h -> nMin <= length (cons3 data h) ->
                         length (cons3 data h) <= nBest) ->
                      best_inv data nMin sched 0 (S iRun) nBest bBest).
        { intros Hno. destruct Hinv as [I1 I2]. split.
          - intros k h Hk. destruct (Nat.eq_dec k iRun) as [->|]; [apply Hno|apply I1; lia].
          - destruct I2 as [I2|(k & h & Hk & I2)]; [left; exact I2|].
            right. exists k, h. split; [lia|exact I2]. }
        destruct (est h_init s) as [h|] eqn:He.
        2:{ cbv iota. apply Keep; [exact Hb|]. apply Noq.
            intros h' ((s' & Es' & Ee') & _). rewrite Hs in Es'. injection Es' as <-. congruence. }
        assert (Huniq : forall h', prop3 data sched iRun h' -> h' = h).
        { intros h' ((s' & Es' & Ee') & _). rewrite Hs in Es'. injection Es' as <-. congruence. }
        pose proof (scan3_full h data nMin bIn Hn Hb) as Hsc.
        destruct (scan3_ h (length data) nMin data 0 0 bIn) as [c l].
        destruct Hsc as (L1 & L2 & L3).
        destruct c as [c|].
        2:{ apply Keep; [exact L1|]. apply Noq. intros h' Hp Hq.
            pose proof (Huniq h' Hp); subst h'. destruct Hp as [_ HF].
            specialize (L3 HF Hq). discriminate. }
        destruct L2 as [L2 L4].
        destruct (Nat.leb_spec nMin c) as [Hmc|Hmc]; cbn [andb].
        + destruct (L4 Hmc) as (HF & Ec & El).
          assert (Hp : prop3 data sched iRun h).
          { split; [exists s; auto|exact HF]. }
          destruct (Nat.ltb_spec nBest c) as [Hlt|Hge].
          * assert (Hinv' : best_inv data nMin sched 0 (S iRun) c l).
            { destruct Hinv as [I1 I2]. split.
              - intros k h' Hk Hp' Hq. destruct (Nat.eq_dec k iRun) as [->|].
                + pose proof (Huniq h' Hp'); subst h'. lia.
                + specialize (I1 k h' ltac:(lia) Hp' Hq). lia.
              - right. exists iRun, h. repeat split; try lia; try assumption; apply Hp. }
            destruct (Nat.leb_spec nMin c) as [_|]; [|lia]. cbn [andb].
            destruct (Nat.leb_spec nMinRuns (S iRun)) as [Hr|Hr].
            -- split; [exact Hinv'|]. split; [lia|]. intros _. lia.
            -- specialize (IH (S iRun) c l l L1 Hinv').
               destruct (runs3_ _ _ _ _ _ _ _ _ _) as [[[nB bB] it]|].
               ++ destruct IH as (J1 & J2 & J3). split; [exact J1|]. split; [lia|].
                  intros. apply J3. lia.
               ++ destruct IH as (k & Hk & E). exists k. split; [lia|exact E].
          * assert (Hinv' : best_inv data nMin sched 0 (S iRun) nBest bBest).
            { apply Noq. intros h' Hp' _. rewrite (Huniq h' Hp'). lia. }
            destruct ((nMin <=? nBest) && (nMinRuns <=? S iRun)) eqn:Hst.
            -- split; [exact Hinv'|]. split; [lia|]. intros _. lia.
            -- apply Keep; assumption.
        + assert (Hinv' : best_inv data nMin sched 0 (S iRun) nBest bBest).
          { apply Noq. intros h' Hp' Hq. pose proof (Huniq h' Hp'); subst h'.
            destruct Hp' as [_ HF]. specialize (L3 HF Hq). injection L3 as L3. lia. }
          destruct ((nMin <=? nBest) && (nMinRuns <=? S iRun)) eqn:Hst.
          * split; [exact Hinv'|]. split; [lia|]. intros _. lia.
          * apply Keep; assumption.
    Qed.

    Lemma ransac3_sound data nMin nMinRuns nMax sched r0 fl0 n r fl it :
      (Z.of_nat (length data) < 2 ^ 31)%Z ->
      ransac3 A H D ltb threshold est eval h_init data nMin nMinRuns nMax sched r0 fl0
        = Done n r fl it -> n <> 0 ->
      it <= nMax /\
      (exists k h, k < it /\ prop3 data sched k h /\
        n = length (cons3 data h) /\ nMin <= n /\
        fl = map (agrees_ h) data /\
        est r0 (cons3 data h) = Some r) /\
      (forall k h, k < it -> prop3 data sched k h -> nMin <= length (cons3 data h) ->
         length (cons3 data h) <= n).
    Proof.
      intros Hn. unfold ransac3. intros Hr Hnz.
      assert (Hinv : best_inv data nMin sched 0 0 0 (repeat false (length data))).
      { split; [intros; lia|]. left. auto. }
      pose proof (runs3_spec data nMin nMinRuns sched nMax 0 0 _ _ Hn (repeat_length false (length data)) Hinv) as Hs.
      destruct (runs3_ _ _ _ _ _ _ _ _ _) as [[[nB b] iters]|]; [|discriminate].
      destruct Hs as ([I1 I2] & J2 & _).
      destruct (Nat.leb_spec nMin nB) as [Hle|Hgt].
      - destruct (est r0 (select A data b)) as [r'|] eqn:He; [|discriminate].
        injection Hr as <- <- <- <-.
        destruct I2 as [(E & _)|(k & h & Hk & Hp & Hm & H1 & E & Eb)]; [lia|].
        split; [lia|]. split.
        + exists k, h. repeat split; try lia; try assumption; try apply Hp.
          rewrite Eb, select_map in He. exact He.
        + intros k' h' Hk'. apply I1. lia.
      - injection Hr as <- _ _ _. lia.
    Qed.

    Lemma ransac3_complete data nMin nMinRuns nMax sched r0 fl0 :
      (Z.of_nat (length data) < 2 ^ 31)%Z -> 1 <= nMin ->
      (forall j, j < nMax -> deref A data (sched j) <> None) ->
      match ransac3 A H D ltb threshold est eval h_init data nMin nMinRuns nMax sched r0 fl0 with
      | UB => False
      | Thrown => exists k h, k < nMax /\ prop3 data sched k h /\
                    nMin <= length (cons3 data h) /\ est r0 (cons3 data h) = None
      | Done n r fl it =>
          Nat.min nMinRuns nMax <= it /\
          (n = 0 -> r = r0 /\ fl = fl0 /\ forall k h, k < nMax -> prop3 data sched k h ->
             ~ nMin <= length (cons3 data h))
      end.
    Proof.
      intros Hn Hm Hdef. unfold ransac3.
      assert (Hinv : best_inv data nMin sched 0 0 0 (repeat false (length data))).
      { split; [intros; lia|]. left. auto. }
      pose proof (runs3_spec data nMin nMinRuns sched nMax 0 0 _ _ Hn (repeat_length false (length data)) Hinv) as Hs.
      destruct (runs3_ _ _ _ _ _ _ _ _ _) as [[[nB b] iters]|].
      2:{ destruct Hs as (j & Hj & E). apply (Hdef j); [lia|exact E]. }
      destruct Hs as ([I1 I2] & J2 & J3).
      destruct (Nat.leb_spec nMin nB) as [Hle|Hgt].
      - destruct I2 as [(E & _)|(k & h & Hk & Hp & Hm' & H1 & E & Eb)]; [lia|].
        subst b. rewrite select_map. fold (cons3 data h).
        destruct (est r0 (cons3 data h)) as [r'|] eqn:He.
        + split; [lia|]. intros; lia.
        + exists k, h. repeat split; try lia; try apply Hp. exact He.
      - assert (iters = nMax) by lia. subst iters.
        split; [lia|]. intros _. split; [reflexivity|]. split; [reflexivity|].
        intros k h Hk Hp Hq. specialize (I1 k h ltac:(lia) Hp Hq). lia.
    Qed.
  End V3.
End RansacProofs.

(** ** Boundary behaviour *)

(** With 2^31 items (or anything whose low 32 bits look negative) the first test
    of the scan condition fails and no item is examined. *)
Lemma scan_goes_on_large n nMin :
  Z.of_nat n = (2 ^ 31)%Z -> (Z.of_nat nMin < 2 ^ 31)%Z -> scan_goes_on n 0 nMin 0 = false.
Proof.
  intros Hn Hm. unfold scan_goes_on.
  rewrite (size_sub_int nMin 0) by lia.
  unfold size_sub. rewrite Hn.
  replace (to_int32 ((2 ^ 31 - Z.of_nat 0) mod 2 ^ 64)) with (- 2 ^ 31)%Z by reflexivity.
  apply Z.leb_gt. lia.
Qed.

Lemma runs_nothing A H D ltb thr est eval h_init (data : list A) setSize nMin sched fuel iRun :
  1 <= nMin ->
  (forall h, scan A H D ltb thr eval h (length data) nMin data 0 0 [] = (0, [])) ->
  (forall k, sample A data setSize (sched k) <> None) ->
  runs A H D ltb thr est eval h_init data setSize nMin sched fuel iRun 0 [] = Some (0, [], iRun + fuel).
Proof.
  intros Hm Hs Hd. revert iRun. induction fuel as [|fuel IH]; intros iRun.
  - cbn [runs]. now rewrite Nat.add_0_r.
  - cbn [runs]. destruct (sample A data setSize (sched iRun)) eqn:E; [|now elim (Hd iRun)].
    destruct (est h_init l) as [ok h]. rewrite Hs. cbn [Nat.eqb].
    destruct ok; cbn [negb]; rewrite IH; do 2 f_equal; lia.
Qed.

Lemma ransac_large_input_fails :
  exists (data : list unit) (sched : nat -> list nat) (k h : nat),
    proposes unit nat (fun _ _ => (true, 7)) 0 data 0 sched k h /\
    qualifies unit nat nat Nat.ltb 1 (fun _ _ => 0) data 1 h /\
    length (consensus unit nat nat Nat.ltb 1 (fun _ _ => 0) data h) = length data /\
    forall r0 nMax, ransac unit nat nat Nat.ltb 1 (fun _ _ => (true, 7)) (fun _ _ => 0) 0
        data 0 1 nMax sched r0 = Done 0 r0 [] nMax.
Proof.
  assert (Hex : exists n, Z.of_nat n = (2 ^ 31)%Z).
  { exists (Z.to_nat (2 ^ 31)). apply Z2Nat.id. lia. }
  destruct Hex as [n Hn].
  exists (repeat tt n), (fun _ => []), 0, 7.
  assert (Hc : forall h, consensus unit nat nat Nat.ltb 1 (fun _ _ => 0) (repeat tt n) h = repeat tt n).
  { intros h. unfold consensus. clear Hn. induction n as [|n IH]; [reflexivity|]. cbn [repeat filter]. change (0 <? 1) with true. cbv iota. f_equal. exact IH. }
  assert (Hlen : 1 <= n) by lia.
  repeat split.
  - exists []. split; reflexivity.
  - rewrite Hc, repeat_length. exact Hlen.
  - rewrite Hc, repeat_length. exact Hlen.
  - rewrite Hc. reflexivity.
  - intros r0 nMax. unfold ransac. rewrite runs_nothing.
    + reflexivity.
    + lia.
    + intros h. rewrite repeat_length. destruct n as [|n']; [lia|].
      cbn [repeat scan]. rewrite scan_goes_on_large by lia. reflexivity.
    + intros k. cbn. discriminate.
Qed.
