(** Properties of k-means clustering (C29, C75). *)
From Coq Require Import Reals Lra Lia Bool Arith List.
Import ListNotations.
From Verif Require Import Mat KMeans.
Open Scope R_scope.

(** ** assignment *)
Section any_distance.
Variable dist : vect -> vect -> R.

Lemma lt_nan_true a b : lt_nan a b = true <-> exists x y, a = Some x /\ b = Some y /\ x < y.
Proof.
  unfold lt_nan. split.
  - destruct a as [x|], b as [y|]; try discriminate. destruct (Rlt_dec x y); [|discriminate].
    intros _. exists x, y. auto.
  - intros (x & y & -> & -> & H). destruct (Rlt_dec x y); [reflexivity|contradiction].
Qed.

(** the loop over any means: the result is the start or a later index *)
Lemma assign_loop_range v rest : forall k_now k d, (k < k_now)%nat ->
  (assign_loop dist v rest k_now k d < k_now + length rest)%nat.
Proof.
  induction rest as [|m rest IH]; intros k_now k d Hk; cbn [assign_loop length]; [lia|].
  destruct (lt_nan (dist_to dist v m) d).
  - specialize (IH (S k_now) k_now (dist_to dist v m) ltac:(lia)). lia.
  - specialize (IH (S k_now) k d ltac:(lia)). lia.
Qed.

(** C29: labels are valid indices, also in the presence of NaN means *)
Theorem assign_valid means v : means <> [] -> (assign dist means v < length means)%nat.
Proof.
  intros H. destruct means as [|m rest]; [congruence|]. unfold assign.
  pose proof (assign_loop_range v rest 1 0 (dist_to dist v m) ltac:(lia)). cbn [length]. lia.
Qed.

Definition nearest (ms : list vect) (v : vect) (k : nat) : Prop :=
  (k < length ms)%nat /\
  (forall j, (j < length ms)%nat -> dist v (nth k ms (fun _ => 0)) <= dist v (nth j ms (fun _ => 0))) /\
  (forall j, (j < k)%nat -> dist v (nth k ms (fun _ => 0)) < dist v (nth j ms (fun _ => 0))).

Lemma assign_loop_nearest v done : forall rest k,
  nearest done v k ->
  nearest (done ++ rest) v
    (assign_loop dist v (map Some rest) (length done) k (Some (dist v (nth k done (fun _ => 0))))).
Proof.
  intros rest. revert done. induction rest as [|m rest IH]; intros done k Hk; cbn [map assign_loop].
  - rewrite app_nil_r. exact Hk.
  - replace (done ++ m :: rest) with ((done ++ [m]) ++ rest) by (rewrite <- app_assoc; reflexivity).
    destruct Hk as (K1 & K2 & K3).
    assert (NO : forall j, (j < length done)%nat -> nth j (done ++ [m]) (fun _ => 0) = nth j done (fun _ => 0))
      by (intros j Hj; apply app_nth1; exact Hj).
    assert (NM : nth (length done) (done ++ [m]) (fun _ => 0) = m)
      by (rewrite app_nth2, Nat.sub_diag; [reflexivity|lia]).
    destruct (lt_nan (dist_to dist v (Some m)) _) eqn:E.
    + apply lt_nan_true in E. destruct E as (x & y & E1 & E2 & E3). cbn in E1.
      injection E1 as <-. injection E2 as <-.
      specialize (IH (done ++ [m]) (length done)). rewrite app_length in IH. cbn [length] in IH.
      rewrite NM in IH. rewrite Nat.add_1_r in IH. apply IH. clear IH.
      split; [rewrite app_length; cbn; lia|]. rewrite NM. split.
      * intros j Hj. rewrite app_length in Hj. cbn in Hj.
        destruct (Nat.eq_dec j (length done)) as [->|Hn]; [rewrite NM; lra|].
        rewrite NO by lia. specialize (K2 j ltac:(lia)). lra.
      * intros j Hj. rewrite NO by exact Hj. specialize (K2 j Hj). lra.
    + assert (E3 : dist v (nth k done (fun _ => 0)) <= dist v m).
      { destruct (Rle_dec (dist v (nth k done (fun _ => 0))) (dist v m)) as [|G]; [assumption|exfalso].
        assert (lt_nan (dist_to dist v (Some m)) (Some (dist v (nth k done (fun _ => 0)))) = true)
          by (apply lt_nan_true; eexists; eexists; cbn; repeat split; lra). congruence. }
      specialize (IH (done ++ [m]) k). rewrite app_length in IH. cbn [length] in IH.
      rewrite NO in IH by exact K1. rewrite Nat.add_1_r in IH. apply IH. clear IH.
      split; [rewrite app_length; cbn; lia|]. rewrite NO by exact K1. split.
      * intros j Hj. rewrite app_length in Hj. cbn in Hj.
        destruct (Nat.eq_dec j (length done)) as [->|Hn]; [rewrite NM; exact E3|].
        rewrite NO by lia. apply K2. lia.
      * intros j Hj. rewrite NO by lia. apply K3, Hj.
Qed.

(** C29: the label is the lowest index of a nearest mean *)
Theorem assign_nearest ms v : ms <> [] -> nearest ms v (assign dist (map Some ms) v).
Proof.
  intros H. destruct ms as [|m rest]; [congruence|]. cbn [map assign].
  pose proof (assign_loop_nearest v [m] rest 0) as L. cbn [length app nth] in L. apply L.
  split; [cbn; lia|]. cbn. split; [|intros; lia]. intros j Hj. assert (j = 0%nat) by lia. subst. lra.
Qed.

(** a NaN mean other than the first never receives a point, a NaN first mean receives all *)
Lemma assign_loop_nan_first v rest : forall k_now k, assign_loop dist v rest k_now k None = k.
Proof.
  induction rest as [|m rest IH]; intros k_now k; [reflexivity|]. cbn [assign_loop].
  replace (lt_nan (dist_to dist v m) None) with false by (unfold lt_nan; destruct (dist_to dist v m); reflexivity).
  apply IH.
Qed.
Lemma assign_loop_not_nan v rest : forall k_now k d, (k < k_now)%nat ->
  assign_loop dist v rest k_now k d = k \/
  exists j c, (assign_loop dist v rest k_now k d = k_now + j)%nat /\ nth_error rest j = Some (Some c).
Proof.
  induction rest as [|m rest IH]; intros k_now k d Hk; cbn [assign_loop]; [left; reflexivity|].
  destruct (lt_nan (dist_to dist v m) d) eqn:E.
  - apply lt_nan_true in E. destruct E as (x & y & E1 & _). destruct m as [c|]; [|discriminate E1].
    destruct (IH (S k_now) k_now (dist_to dist v (Some c)) ltac:(lia)) as [E|(j & c' & E & En)].
    + right. exists 0%nat, c. split; [rewrite E; lia|reflexivity].
    + right. exists (S j), c'. split; [rewrite E; lia|exact En].
  - destruct (IH (S k_now) k d ltac:(lia)) as [E'|(j & c' & E' & En)]; [left; exact E'|].
    right. exists (S j), c'. split; [rewrite E'; lia|exact En].
Qed.

Lemma assign_first_nan means v : nth_error means 0 = Some None -> assign dist means v = 0%nat.
Proof.
  destruct means as [|m rest]; [discriminate|]. cbn. intros E. injection E as ->. apply assign_loop_nan_first.
Qed.
Lemma assign_avoids_nan means v k : (0 < k)%nat -> nth_error means k = Some None -> assign dist means v <> k.
Proof.
  intros Hk E. destruct means as [|m rest]; [destruct k; discriminate E|]. cbn [assign].
  destruct (assign_loop_not_nan v rest 1 0 (dist_to dist v m) ltac:(lia)) as [->|(j & c & -> & En)]; [lia|].
  intros <-. cbn in E. unfold mean in *. rewrite En in E. discriminate E.
Qed.

(** ** the run as a sequence of rounds *)
Definition round (pts : list vect) (s : list mean * list nat) : list mean * list nat :=
  let means' := new_means (length (fst s)) pts (snd s) in (means', map (assign dist means') pts).
Fixpoint iterate (n : nat) (pts : list vect) (s : list mean * list nat) :=
  match n with O => s | S k => round pts (iterate k pts s) end.
Lemma iterate_shift n pts s : iterate n pts (round pts s) = round pts (iterate n pts s).
Proof. induction n as [|n IH]; [reflexivity|]. cbn. rewrite IH. reflexivity. Qed.

(** the error of the round leading to state n+1 *)
Definition round_error (pts : list vect) (s : list mean * list nat) : option R :=
  diff_error dist (length (fst s)) (fst s) (fst (round pts s)).

Lemma rounds_spec fuel pts : forall ms ls e, (0 < fuel)%nat -> exists r,
  (1 <= r <= fuel)%nat /\
  fst (rounds dist fuel pts ms ls e) = iterate r pts (ms, ls) /\
  snd (rounds dist fuel pts ms ls e) = round_error pts (iterate (r - 1) pts (ms, ls)) /\
  (r = fuel \/ lt_nan (snd (rounds dist fuel pts ms ls e)) (Some epsilon) = true) /\
  (forall q, (q < r - 1)%nat -> lt_nan (round_error pts (iterate q pts (ms, ls))) (Some epsilon) = false).
Proof.
  induction fuel as [|fuel IH]; intros ms ls e Hf; [lia|]. cbn [rounds].
  set (ms' := new_means (length ms) pts ls). set (ls' := map (assign dist ms') pts).
  destruct (lt_nan (diff_error dist (length ms) ms ms') (Some epsilon)) eqn:E.
  - exists 1%nat. split; [lia|]. split; [reflexivity|]. split; [reflexivity|]. split; [right; exact E|].
    intros q Hq. lia.
  - destruct (Nat.eq_dec fuel 0) as [->|Hn].
    + exists 1%nat. split; [lia|]. split; [reflexivity|]. split; [reflexivity|]. split; [left; reflexivity|].
      intros q Hq. lia.
    + destruct (IH ms' ls' (diff_error dist (length ms) ms ms') ltac:(lia)) as (r & H1 & H2 & H3 & H4 & H5).
      change (ms', ls') with (round pts (ms, ls)) in *.
      exists (S r). split; [lia|].
      split; [rewrite H2, iterate_shift; reflexivity|].
      split; [rewrite H3; replace (S r - 1)%nat with (S (r - 1)) by lia; rewrite iterate_shift; reflexivity|].
      split; [destruct H4; [left; lia|right; assumption]|].
      intros q Hq. destruct q as [|q].
      * exact E.
      * specialize (H5 q ltac:(lia)). rewrite iterate_shift in H5. exact H5.
Qed.

Definition start (pts ms : list vect) := (map Some ms, map (assign dist (map Some ms)) pts).

(** C29: at most 100 rounds; the loop stops at the first round whose error is below the
    threshold *)
Theorem kmeans_rounds pts ms r : k_means dist pts ms = Some r -> exists n,
  (1 <= n <= 100)%nat /\ fst r = iterate n pts (start pts ms) /\
  snd r = round_error pts (iterate (n - 1) pts (start pts ms)) /\
  (n = 100%nat \/ lt_nan (snd r) (Some (1 / 10000)) = true) /\
  (forall q, (q < n - 1)%nat -> lt_nan (round_error pts (iterate q pts (start pts ms))) (Some (1 / 10000)) = false).
Proof.
  replace (1 / 10000) with epsilon by (unfold epsilon; field). unfold k_means. generalize (le_n 100). generalize 100%nat at 2 3 4 5.
  intros fuel Hf. destruct ms as [|m ms]; [discriminate|]. intros E. injection E as <-.
  apply rounds_spec. lia.
Qed.

(** the returned number is the mean distance by which the centres moved in the last round, or NaN *)
Lemma diff_error_mean n : forall old new, length old = length new ->
  diff_error dist n (map Some old) (map Some new) = Some (fold_right Rplus 0 (map (fun p => dist (fst p) (snd p)) (combine old new)) / INR n).
Proof.
  assert (G : forall old new a, length old = length new ->
    fold_left add_nan (map (fun p => dist_means dist (fst p) (snd p)) (@combine mean mean (map Some old) (map Some new))) (Some a) =
    Some (a + fold_right Rplus 0 (map (fun p => dist (fst p) (snd p)) (combine old new)))).
  { induction old as [|x old IH]; intros [|y new] a L; try discriminate L; cbn; [f_equal; ring|]. injection L as L. rewrite (IH new _ L). f_equal. ring. }
  intros old new L. unfold diff_error. rewrite (G old new 0 L). rewrite Rplus_0_l. reflexivity.
Qed.
Lemma finite_or_nan (l : list mean) : (exists cs, l = map Some cs) \/ In None l.
Proof.
  induction l as [|[x|] l IH]; [left; exists []; reflexivity| |right; left; reflexivity].
  destruct IH as [(cs & ->)|H]; [left; exists (x :: cs); reflexivity|right; right; exact H].
Qed.
Lemma diff_error_nan n : forall old new, length old = length new -> In None old \/ In None new -> diff_error dist n old new = None.
Proof.
  assert (N : forall l, fold_left add_nan l None = None) by (induction l as [|x l IH]; [reflexivity|exact IH]).
  assert (G : forall old new a, length old = length new -> In None old \/ In None new ->
    fold_left add_nan (map (fun p => dist_means dist (fst p) (snd p)) (combine old new)) a = None).
  { induction old as [|x old IH]; intros [|y new] a L H; try discriminate L; [destruct H as [[]|[]]|]. injection L as L. cbn [combine map fold_left fst snd].
    destruct x as [x|]; [destruct y as [y|]|].
    - apply IH; [exact L|]. destruct H as [[H|H]|[H|H]]; try discriminate H; [left|right]; exact H.
    - cbn [dist_means]. destruct a; cbn [add_nan]; apply N.
    - cbn [dist_means]. destruct a; cbn [add_nan]; apply N. }
  intros old new L H. unfold diff_error. rewrite (G old new _ L H). reflexivity.
Qed.
Lemma new_means_length n pts ls : length (new_means n pts ls) = n.
Proof. unfold new_means. rewrite map_length, seq_length. reflexivity. Qed.

Lemma iterate_length n pts s : length (fst (iterate n pts s)) = length (fst s).
Proof. induction n as [|n IH]; [reflexivity|]. cbn. rewrite new_means_length. exact IH. Qed.

(** C29: one label per point, each a valid index; if no mean is NaN, the lowest index of a
    nearest mean *)
Theorem kmeans_labels pts ms means labels e : k_means dist pts ms = Some (means, labels, e) ->
  length means = length ms /\ length labels = length pts /\
  Forall (fun k => (k < length ms)%nat) labels /\
  (forall cs, means = map Some cs -> Forall2 (nearest cs) pts labels).
Proof.
  intros E. assert (Hms : ms <> []) by (intros ->; discriminate E).
  destruct (kmeans_rounds _ _ _ E) as (n & Hn & H1 & _). cbn [fst] in H1.
  destruct n as [|n]; [lia|]. cbn [iterate] in H1. set (s := iterate n pts (start pts ms)) in *.
  unfold round in H1. injection H1 as Hm Hl.
  assert (HL : length (fst s) = length ms).
  { unfold s. rewrite iterate_length. cbn. rewrite map_length. reflexivity. }
  assert (Hmeans : length means = length ms) by (rewrite Hm, new_means_length; exact HL).
  split; [exact Hmeans|]. rewrite <- Hm in Hl. rewrite Hl. split; [apply map_length|]. split.
  - apply Forall_forall. intros k Hk. apply in_map_iff in Hk. destruct Hk as (v & <- & _).
    rewrite <- Hmeans. apply assign_valid. intros Z. rewrite Z in Hmeans. destruct ms; [congruence|discriminate].
  - intros cs Hcs. rewrite Hcs. assert (cs <> []).
    { intros ->. rewrite Hcs in Hmeans. destruct ms; [congruence|discriminate]. }
    clear -H. induction pts as [|v pts IH]; cbn [map]; constructor; [apply assign_nearest; exact H|exact IH].
Qed.

Theorem kmeans_error pts ms means labels e : k_means dist pts ms = Some (means, labels, e) -> exists n,
  (n < 100)%nat /\ let old := fst (iterate n pts (start pts ms)) in length old = length means /\
  ((In None old \/ In None means) /\ e = None \/
   exists cs cs', old = map Some cs /\ means = map Some cs' /\
     e = Some (fold_right Rplus 0 (map (fun p => dist (fst p) (snd p)) (combine cs cs')) / INR (length ms))).
Proof.
  intros E. destruct (kmeans_labels _ _ _ _ _ E) as (LM & _). destruct (kmeans_rounds _ _ _ E) as (n & Hn & H1 & H2 & _). cbn [fst snd] in *.
  exists (n - 1)%nat. split; [lia|]. cbv zeta. unfold round_error in H2. set (old := fst (iterate (n - 1) pts (start pts ms))) in *.
  assert (LO : length old = length ms) by (unfold old; rewrite iterate_length; cbn; apply map_length). split; [congruence|].
  assert (M : fst (round pts (iterate (n - 1) pts (start pts ms))) = means).
  { change (round pts (iterate (n - 1) pts (start pts ms))) with (iterate (S (n - 1)) pts (start pts ms)). replace (S (n - 1)) with n by lia. rewrite <- H1. reflexivity. }
  rewrite M, LO in H2. destruct (finite_or_nan old) as [(cs & C1)|N1]; [destruct (finite_or_nan means) as [(cs' & C2)|N2]|].
  - right. exists cs, cs'. split; [exact C1|]. split; [exact C2|]. rewrite H2, C1, C2. apply diff_error_mean. rewrite C1, map_length in LO. rewrite C2, map_length in LM. congruence.
  - left. split; [right; exact N2|]. rewrite H2. apply diff_error_nan; [exact (eq_trans LO (eq_sym LM))|right; exact N2].
  - left. split; [left; exact N1|]. rewrite H2. apply diff_error_nan; [exact (eq_trans LO (eq_sym LM))|left; exact N1].
Qed.

(** C75: an empty cluster is never repaired: a NaN mean in any round makes the returned
    means contain a NaN *)
Lemma new_means_nth n pts ls k : (k < n)%nat -> nth_error (new_means n pts ls) k =
  Some (match count_occ Nat.eq_dec ls k with O => None
        | S _ => Some (fun i => accumulate pts ls k i / INR (count_occ Nat.eq_dec ls k)) end).
Proof.
  intros Hk. unfold new_means. rewrite nth_error_map.
  rewrite (nth_error_nth' (seq 0 n) 0%nat) by (rewrite seq_length; exact Hk).
  rewrite seq_nth by exact Hk. reflexivity.
Qed.

Lemma round_nan pts s k : (k < length (fst s))%nat -> ~ In k (snd s) ->
  nth_error (fst (round pts s)) k = Some None.
Proof.
  intros Hk Hn. cbn [round fst]. rewrite new_means_nth by exact Hk.
  rewrite (proj1 (count_occ_not_In Nat.eq_dec (snd s) k) Hn). reflexivity.
Qed.

(** a state whose labels belong to its means *)
Definition labelled (pts : list vect) (s : list mean * list nat) : Prop := snd s = map (assign dist (fst s)) pts.

Lemma nan_kept pts s : (2 <= length (fst s))%nat -> labelled pts s -> In None (fst s) ->
  In None (fst (round pts s)).
Proof.
  intros HK HL HN. apply In_nth_error in HN. destruct HN as [k Hk].
  destruct k as [|k].
  - (* the first mean: every label is 0, the second mean is NaN *)
    apply (nth_error_In _ 1%nat). apply round_nan; [lia|]. rewrite HL. intros Hin.
    apply in_map_iff in Hin. destruct Hin as (v & E & _). rewrite (assign_first_nan _ v Hk) in E. discriminate.
  - apply (nth_error_In _ (S k)). apply round_nan.
    + apply nth_error_Some. unfold mean in *. rewrite Hk. discriminate.
    + rewrite HL. intros Hin. apply in_map_iff in Hin. destruct Hin as (v & E & _).
      exact (assign_avoids_nan _ v (S k) ltac:(lia) Hk E).
Qed.

Lemma round_labelled pts s : labelled pts (round pts s).
Proof. reflexivity. Qed.
Lemma iterate_labelled n pts s : labelled pts s -> labelled pts (iterate n pts s).
Proof. intros H. destruct n as [|n]; [exact H|apply round_labelled]. Qed.

Theorem kmeans_nan_kept pts ms n q : (2 <= length ms)%nat -> (q <= n)%nat ->
  In None (fst (iterate q pts (start pts ms))) -> In None (fst (iterate n pts (start pts ms))).
Proof.
  intros HK Hqn HN.
  assert (G : forall d, In None (fst (iterate (q + d) pts (start pts ms)))).
  { induction d as [|d IH]; [rewrite Nat.add_0_r; exact HN|].
    rewrite Nat.add_succ_r. cbn [iterate]. apply nan_kept; [|apply iterate_labelled; reflexivity|exact IH].
    rewrite iterate_length. cbn. rewrite map_length. exact HK. }
  specialize (G (n - q)%nat). replace (q + (n - q))%nat with n in G by lia. exact G.
Qed.
End any_distance.

(** ** the objective *)
Definition gsum {A} (f : A -> R) (l : list A) : R := fold_right (fun a s => f a + s) 0 l.
Lemma gsum_ext {A} (f g : A -> R) l : (forall a, In a l -> f a = g a) -> gsum f l = gsum g l.
Proof.
  induction l as [|a l IH]; intros H; [reflexivity|]. cbn.
  rewrite (H a) by (left; reflexivity). f_equal. apply IH. intros; apply H; right; assumption.
Qed.
Lemma gsum_le {A} (f g : A -> R) l : (forall a, In a l -> f a <= g a) -> gsum f l <= gsum g l.
Proof.
  induction l as [|a l IH]; intros H; [cbn; lra|]. cbn.
  pose proof (H a ltac:(left; reflexivity)). specialize (IH ltac:(intros; apply H; right; assumption)).
  unfold gsum in IH. lra.
Qed.
Lemma gsum_sum {A} n (f : A -> nat -> R) l : gsum (fun a => sum n (f a)) l = sum n (fun i => gsum (fun a => f a i) l).
Proof.
  induction l as [|a l IH]; cbn; [rewrite sum_zero; [reflexivity|reflexivity]|].
  unfold gsum in IH. rewrite IH, <- sum_plus. reflexivity.
Qed.

(** sum of the distances of the points to the means of their clusters *)
Definition cost (N : nat) (m : nat -> vect) (pts : list vect) (labels : list nat) : R :=
  gsum (fun p : vect * nat => sqdist N (fst p) (m (snd p))) (combine pts labels).

Lemma gsum_group {A} K (lab : A -> nat) (f : A -> R) l : (forall a, In a l -> (lab a < K)%nat) ->
  gsum f l = sum K (fun k => gsum (fun a => if Nat.eqb k (lab a) then f a else 0) l).
Proof.
  intros H. induction l as [|a l IH]; cbn; [rewrite sum_zero; [reflexivity|reflexivity]|].
  rewrite sum_plus. unfold gsum in IH. rewrite <- IH by (intros; apply H; right; assumption). f_equal.
  rewrite (sum_single K _ (lab a)); [rewrite Nat.eqb_refl; reflexivity|apply H; left; reflexivity|].
  intros i _ Hi. destruct (Nat.eqb_spec i (lab a)); [contradiction|reflexivity].
Qed.

Lemma cluster_square {A} (b : A -> bool) (x : A -> R) a l :
  gsum (fun p => if b p then (x p - a) * (x p - a) else 0) l =
  gsum (fun p => if b p then x p * x p else 0) l - 2 * a * gsum (fun p => if b p then x p else 0) l
  + gsum (fun p => if b p then 1 else 0) l * (a * a).
Proof.
  induction l as [|p l IH]; [cbn; ring|]. cbn. unfold gsum in *. rewrite IH. destruct (b p); ring.
Qed.

Lemma accumulate_sum pts labels k i :
  accumulate pts labels k i = gsum (fun p : vect * nat => if Nat.eqb k (snd p) then fst p i else 0) (combine pts labels).
Proof.
  unfold accumulate.
  assert (G : forall l acc, fold_left (fun (acc : nat -> vect) (p : vect * nat) =>
       fun k => if Nat.eqb k (snd p) then vadd (acc k) (fst p) else acc k) l acc k i
     = acc k i + gsum (fun p : vect * nat => if Nat.eqb k (snd p) then fst p i else 0) l).
  { induction l as [|p l IH]; intros acc; cbn [fold_left gsum fold_right]; [lra|]. rewrite IH. cbv beta.
    change (fold_right (fun a s => (if (k =? snd a)%nat then fst a i else 0) + s) 0 l)
      with (gsum (fun a : vect * nat => if (k =? snd a)%nat then fst a i else 0) l).
    destruct (Nat.eqb k (snd p)); unfold vadd; lra. }
  rewrite G. apply Rplus_0_l.
Qed.

Lemma count_sum (pts : list vect) labels k : length pts = length labels ->
  INR (count_occ Nat.eq_dec labels k) = gsum (fun p : vect * nat => if Nat.eqb k (snd p) then 1 else 0) (combine pts labels).
Proof.
  revert labels. induction pts as [|v pts IH]; intros [|j labels] H; try discriminate H; [reflexivity|].
  cbn [combine gsum fold_right snd count_occ]. injection H as H.
  destruct (Nat.eq_dec j k) as [->|Hn].
  - rewrite Nat.eqb_refl, S_INR. rewrite (IH labels H). unfold gsum. ring.
  - rewrite (proj2 (Nat.eqb_neq k j)) by congruence. rewrite (IH labels H). unfold gsum. ring.
Qed.

(** the centroids minimise the objective for given labels *)
Lemma centroid_optimal N K pts labels (c m : nat -> vect) :
  length pts = length labels -> Forall (fun k => (k < K)%nat) labels ->
  (forall k i, (k < K)%nat -> INR (count_occ Nat.eq_dec labels k) * c k i = accumulate pts labels k i) ->
  cost N c pts labels <= cost N m pts labels.
Proof.
  intros HL HF HC. unfold cost.
  assert (HIn : forall p, In p (combine pts labels) -> (snd p < K)%nat).
  { intros [v k] Hp. apply in_combine_r in Hp. cbn. exact (proj1 (Forall_forall _ _) HF k Hp). }
  rewrite (gsum_group K snd (fun p : vect * nat => sqdist N (fst p) (c (snd p))) _ HIn).
  rewrite (gsum_group K snd (fun p => sqdist N (fst p) (m (snd p))) _ HIn).
  apply sum_le. intros k Hk.
  assert (R : forall z : nat -> vect,
     gsum (fun a : vect * nat => if Nat.eqb k (snd a) then sqdist N (fst a) (z (snd a)) else 0) (combine pts labels)
     = sum N (fun i => gsum (fun a : vect * nat => if Nat.eqb k (snd a) then (fst a i - z k i) * (fst a i - z k i) else 0) (combine pts labels))).
  { intros z. rewrite <- gsum_sum. apply gsum_ext. intros [v j] _. cbn [fst snd].
    destruct (Nat.eqb_spec k j) as [<-|]; [reflexivity|]. rewrite sum_zero; [reflexivity|reflexivity]. }
  rewrite !R. apply sum_le. intros i _. rewrite !cluster_square.
  pose proof (HC k i Hk) as E. rewrite accumulate_sum in E.
  rewrite (count_sum pts labels k HL) in E.
  set (S1 := gsum (fun p : vect * nat => if Nat.eqb k (snd p) then fst p i else 0) (combine pts labels)) in *.
  set (n := gsum (fun p : vect * nat => if Nat.eqb k (snd p) then 1 else 0) (combine pts labels)) in *.
  assert (Hn : 0 <= n). { unfold n. rewrite <- (count_sum pts labels k HL). apply pos_INR. }
  set (S2 := gsum (fun p : vect * nat => if Nat.eqb k (snd p) then fst p i * fst p i else 0) (combine pts labels)).
  rewrite <- E. pose proof (Rmult_le_pos _ _ Hn (Rle_0_sqr (c k i - m k i))) as Q. unfold Rsqr in Q. lra.
Qed.

Definition nth_mean (cs : list vect) (k : nat) : vect := nth k cs (fun _ => 0).

(** C75: one round never increases the objective if no cluster is empty *)
Theorem round_cost N pts ms labels cs : length pts = length labels ->
  Forall (fun k => (k < length ms)%nat) labels -> ms <> [] ->
  fst (round (sqdist N) pts (map Some ms, labels)) = map Some cs ->
  cost N (nth_mean cs) pts (snd (round (sqdist N) pts (map Some ms, labels))) <= cost N (nth_mean ms) pts labels.
Proof.
  intros HL HF Hms HC. cbn [round fst snd] in *. rewrite HC. rewrite map_length in HC.
  assert (Hlen : length cs = length ms).
  { pose proof (new_means_length (length ms) pts labels) as X. rewrite HC, map_length in X. exact X. }
  assert (HE : forall k i, (k < length ms)%nat ->
     INR (count_occ Nat.eq_dec labels k) * nth_mean cs k i = accumulate pts labels k i).
  { intros k i Hk. pose proof (new_means_nth (length ms) pts labels k Hk) as X. rewrite HC in X.
    rewrite nth_error_map in X.
    rewrite (nth_error_nth' cs (fun _ => 0)) in X by lia. cbn [option_map] in X.
    destruct (count_occ Nat.eq_dec labels k) as [|q] eqn:Q; [discriminate X|].
    assert (X' : nth k cs (fun _ => 0) = (fun i => accumulate pts labels k i / INR (S q))) by congruence.
    unfold nth_mean. rewrite X'.
    assert (HQ : INR (S q) <> 0) by (apply not_0_INR; lia). revert HQ. generalize (INR (S q)).
    intros w Hw. field. exact Hw. }
  apply Rle_trans with (cost N (nth_mean cs) pts labels).
  - (* reassigning *)
    assert (Hcs : cs <> []) by (intros ->; destruct ms; [congruence|discriminate Hlen]).
    rewrite <- Hlen in HF. clear HC HE Hms Hlen. revert labels HL HF.
    induction pts as [|v pts IH]; intros [|k labels] HL HF; try discriminate HL; [cbn; lra|].
    injection HL as HL. inversion HF as [|? ? Hk HF']; subst.
    specialize (IH labels HL HF'). unfold cost in *. cbn [map combine gsum fold_right fst snd].
    pose proof (assign_nearest (sqdist N) cs v Hcs) as (_ & A & _). specialize (A k Hk).
    unfold nth_mean, gsum in *. lra.
  - (* new centroids *)
    apply (centroid_optimal N (length ms)); assumption.
Qed.

Lemma all_finite (l : list mean) : ~ In None l -> exists cs, l = map Some cs.
Proof.
  induction l as [|[c|] l IH]; intros H; [exists []; reflexivity| |exfalso; apply H; left; reflexivity].
  destruct IH as [cs ->]; [intros Z; apply H; right; exact Z|]. exists (c :: cs). reflexivity.
Qed.

(** C75: the whole run does not increase the objective if the result has no NaN mean *)
Theorem kmeans_cost N pts ms cs labels e : (2 <= length ms)%nat ->
  k_means (sqdist N) pts ms = Some (map Some cs, labels, e) ->
  cost N (nth_mean cs) pts labels <=
  cost N (nth_mean ms) pts (map (assign (sqdist N) (map Some ms)) pts).
Proof.
  intros HK E. destruct (kmeans_rounds (sqdist N) _ _ _ E) as (n & Hn & H1 & _). cbn [fst] in H1.
  assert (Hms : ms <> []) by (intros ->; cbn in HK; lia).
  assert (G : forall q ds, (q <= n)%nat -> fst (iterate (sqdist N) q pts (start (sqdist N) pts ms)) = map Some ds ->
     cost N (nth_mean ds) pts (snd (iterate (sqdist N) q pts (start (sqdist N) pts ms)))
     <= cost N (nth_mean ms) pts (map (assign (sqdist N) (map Some ms)) pts)).
  { induction q as [|q IH]; intros ds Hq Hds.
    - cbn in Hds. cbn [iterate snd start].
      assert (ds = ms) as ->; [|lra].
      assert (Inj : forall a b : list vect, map (@Some vect) a = map Some b -> a = b).
      { induction a as [|x a IHa]; intros [|y b] X; try discriminate X; [reflexivity|].
        injection X as -> X. f_equal. apply IHa, X. }
      apply Inj. symmetry. exact Hds.
    - set (s := iterate (sqdist N) q pts (start (sqdist N) pts ms)) in *.
      assert (HLs : labelled (sqdist N) pts s) by (apply iterate_labelled; reflexivity).
      assert (Hlen : length (fst s) = length ms)
        by (unfold s; rewrite iterate_length; cbn; rewrite map_length; reflexivity).
      destruct (all_finite (fst s)) as [es Hes].
      { intros HN. assert (HK2 : (2 <= length (fst s))%nat) by lia.
        pose proof (nan_kept (sqdist N) pts s HK2 HLs HN) as X. cbn [iterate] in Hds. fold s in Hds.
        rewrite Hds in X. apply in_map_iff in X. destruct X as (z & Z & _). discriminate Z. }
      specialize (IH es ltac:(lia) Hes).
      apply Rle_trans with (cost N (nth_mean es) pts (snd s)); [|exact IH].
      cbn [iterate] in *. fold s in Hds |- *. destruct s as [fs ls]. cbn [fst snd] in *. subst fs.
      assert (Hes0 : es <> []). { intros ->. cbn in Hlen. destruct ms; [congruence|discriminate]. }
      apply round_cost; [| |exact Hes0|exact Hds].
      + unfold labelled in HLs. cbn in HLs. rewrite HLs. symmetry. apply map_length.
      + unfold labelled in HLs. cbn in HLs. rewrite HLs. apply Forall_forall. intros k Hk.
        apply in_map_iff in Hk. destruct Hk as (v & <- & _). rewrite <- (map_length (@Some vect) es).
        apply assign_valid. intros Z. destruct es; [congruence|discriminate]. }
  specialize (G n cs (Nat.le_refl n)). rewrite <- H1 in G. cbn [fst snd] in G. apply G. reflexivity.
Qed.

(** C75 refuted: finite start values do not guarantee finite means *)
Definition pt (x : R) : vect := fun _ => x.
Theorem kmeans_empty_cluster_refuted : forall means labels e,
  k_means (sqdist 1) [pt 0; pt 2] [pt 9; pt 0] = Some (means, labels, e) -> In None means.
Proof.
  intros means labels e E.
  assert (L0 : map (assign (sqdist 1) (map Some [pt 9; pt 0])) [pt 0; pt 2] = [1; 1]%nat).
  { cbn. unfold sqdist, vdot, vsub, pt. cbn.
    destruct (Rlt_dec _ _) as [_|N]; [|exfalso; apply N; lra].
    destruct (Rlt_dec _ _) as [_|N]; [|exfalso; apply N; lra]. reflexivity. }
  destruct (kmeans_rounds (sqdist 1) _ _ _ E) as (n & Hn & H1 & _). cbn [fst] in H1.
  assert (G : forall d, In None (fst (iterate (sqdist 1) (1 + d) [pt 0; pt 2] (start (sqdist 1) [pt 0; pt 2] [pt 9; pt 0])))).
  { induction d as [|d IH].
    - cbn [Nat.add iterate]. apply (nth_error_In _ 0%nat). apply round_nan; [cbn; lia|].
      unfold start. rewrite L0. cbn. intros [Z|[Z|[]]]; discriminate Z.
    - rewrite Nat.add_succ_r. cbn [iterate]. apply nan_kept; [|apply iterate_labelled; reflexivity|exact IH].
      rewrite iterate_length. cbn. lia. }
  specialize (G (n - 1)%nat). replace (1 + (n - 1))%nat with n in G by lia. rewrite <- H1 in G. exact G.
Qed.
Example kmeans_defined : exists r, k_means (sqdist 1) [pt 0; pt 2] [pt 9; pt 0] = Some r.
Proof. eexists. reflexivity. Qed.

(** a run with finite means: two points, two means *)
Example kmeans_finite : k_means (sqdist 1) [pt 0; pt 2] [pt 0; pt 2] <> None /\
  forall means labels e, k_means (sqdist 1) [pt 0; pt 2] [pt 0; pt 2] = Some (means, labels, e) ->
  labels = [0; 1]%nat /\ exists cs, means = map Some cs.
Proof.
  assert (A0 : forall a b : vect, (forall i, a i = 0) -> (forall i, b i = 2) ->
    map (assign (sqdist 1) [Some a; Some b]) [pt 0; pt 2] = [0; 1]%nat).
  { intros a b Ha Hb. cbn. unfold sqdist, vdot, vsub, pt. cbn. rewrite Ha, Hb.
    destruct (Rlt_dec _ _) as [N|_]; [exfalso; lra|].
    destruct (Rlt_dec _ _) as [_|N]; [|exfalso; apply N; lra]. reflexivity. }
  split; [discriminate|]. intros means labels e E.
  destruct (kmeans_rounds (sqdist 1) _ _ _ E) as (n & Hn & H1 & _). cbn [fst] in H1.
  assert (G : forall d, exists a b, (forall i, a i = 0) /\ (forall i, b i = 2) /\
     iterate (sqdist 1) d [pt 0; pt 2] (start (sqdist 1) [pt 0; pt 2] [pt 0; pt 2]) = ([Some a; Some b], [0; 1]%nat)).
  { induction d as [|d (a & b & Ha & Hb & IH)].
    - exists (pt 0), (pt 2). split; [reflexivity|split; [reflexivity|]].
      unfold iterate, start. cbn [map]. f_equal. apply A0; reflexivity.
    - cbn [iterate]. rewrite IH. unfold round. cbn [fst snd length]. unfold new_means. cbn [seq map].
      cbn [count_occ]. destruct (Nat.eq_dec 0 0) as [_|N]; [|congruence]. destruct (Nat.eq_dec 1 0) as [N|_]; [congruence|].
      destruct (Nat.eq_dec 0 1) as [N|_]; [congruence|]. destruct (Nat.eq_dec 1 1) as [_|N]; [|congruence].
      eexists. eexists. split; [|split; [|f_equal; apply A0]].
      + intros i. cbn. unfold vadd, pt. field.
      + intros i. cbn. unfold vadd, pt. field.
      + intros i. cbn. unfold vadd, pt. field.
      + intros i. cbn. unfold vadd, pt. field. }
  destruct (G n) as (a & b & _ & _ & EG). rewrite EG in H1. injection H1 as -> ->.
  split; [reflexivity|]. exists [a; b]. reflexivity.
Qed.

(** ** seeding *)
Lemma pick_range d r : forall index, d <> [] -> (index <= pick d r index < index + length d)%nat.
Proof.
  revert r. induction d as [|x d IH]; intros r index Hd; [congruence|]. cbn [pick length].
  destruct d as [|y d]; [lia|]. destruct (Rle_dec r x); [lia|].
  specialize (IH (r - x) (S index) ltac:(discriminate)). lia.
Qed.

Lemma seed_loop_spec dist draw pts : forall todo k ds sel k' sel', pts <> [] ->
  length ds = length pts -> Forall (fun c => In c pts) sel -> length sel = k ->
  seed_loop dist draw pts todo k ds sel = (k', sel') ->
  Forall (fun c => In c pts) sel' /\ length sel' = k' /\ (k <= k' <= k + todo)%nat.
Proof.
  induction todo as [|todo IH]; intros k ds sel k' sel' Hp Hds HF HL E; cbn [seed_loop] in E.
  - injection E as <- <-. repeat split; auto; lia.
  - destruct (Rle_dec (lsumR ds) 0); [injection E as <- <-; repeat split; auto; lia|].
    assert (Hd0 : ds <> []). { intros ->. destruct pts; [congruence|discriminate Hds]. }
    pose proof (pick_range ds (draw k (lsumR ds)) 0 Hd0) as HR.
    apply IH in E; [| | | |].
    + destruct E as (E1 & E2 & E3). repeat split; auto; lia.
    + exact Hp.
    + rewrite map_length, combine_length. unfold dists. rewrite map_length, Hds. apply Nat.min_id.
    + apply Forall_app. split; [exact HF|]. constructor; [|constructor]. apply nth_In. lia.
    + rewrite app_length, HL. cbn. lia.
Qed.

(** C29: the start values are points of the input, as many as reported, and at most the
    requested number *)
Theorem seeds_from_input dist i0 draw pts n_cluster k sel : (i0 < length pts)%nat -> (1 <= n_cluster)%nat ->
  copy_probability dist i0 draw pts n_cluster = Some (k, sel) ->
  Forall (fun c => In c pts) sel /\ length sel = k /\ (1 <= k <= n_cluster)%nat.
Proof.
  intros Hi Hn E. unfold copy_probability in E. destruct pts as [|v pts]; [discriminate|].
  rewrite (proj2 (Nat.eqb_neq n_cluster 0)) in E by lia.
  assert (E' : seed_loop dist draw (v :: pts) (n_cluster - 1) 1 (dists dist (v :: pts) (nth i0 (v :: pts) (fun _ => 0)))
     [nth i0 (v :: pts) (fun _ => 0)] = (k, sel)) by congruence.
  clear E. rename E' into E. apply seed_loop_spec in E.
  - destruct E as (E1 & E2 & E3). repeat split; auto; lia.
  - discriminate.
  - unfold dists. apply map_length.
  - constructor; [|constructor]. apply nth_In. exact Hi.
  - reflexivity.
Qed.
(** asked for no seed at all, one is written although zero are reported *)
Theorem seeds_none_refuted dist i0 draw v pts :
  copy_probability dist i0 draw (v :: pts) 0 = Some (0%nat, [nth i0 (v :: pts) (fun _ => 0)]).
Proof. reflexivity. Qed.

Lemma lsumR_cons x l : lsumR (x :: l) = x + lsumR l.
Proof.
  unfold lsumR. cbn [fold_left]. rewrite Rplus_0_l.
  assert (G : forall l a, fold_left Rplus l a = a + fold_left Rplus l 0).
  { clear. induction l as [|y l IH]; intros a; cbn; [ring|]. rewrite IH, (IH (0 + y)). ring. }
  apply G.
Qed.

(** a positive random number picks an element with a positive distance *)
Lemma pick_positive d r : forall index, d <> [] -> 0 < r -> r <= lsumR d ->
  0 < nth (pick d r index - index) d 0.
Proof.
  revert r. induction d as [|x d IH]; intros r index Hd Hr Hs; [congruence|]. cbn [pick].
  rewrite lsumR_cons in Hs. destruct d as [|y d].
  - rewrite Nat.sub_diag. cbn. unfold lsumR in Hs. cbn in Hs. lra.
  - destruct (Rle_dec r x) as [L|L]; [rewrite Nat.sub_diag; cbn; lra|].
    pose proof (pick_range (y :: d) (r - x) (S index) ltac:(discriminate)) as HR.
    specialize (IH (r - x) (S index) ltac:(discriminate) ltac:(lra) ltac:(lra)).
    replace (pick (y :: d) (r - x) (S index) - index)%nat with (S (pick (y :: d) (r - x) (S index) - S index)) by lia.
    exact IH.
Qed.

(** C75: with positive random numbers the start values have positive mutual distances, so
    no two start values coincide *)
Definition apart (dist : vect -> vect -> R) (sel : list vect) : Prop :=
  forall i j, (i < j < length sel)%nat ->
    0 < dist (nth j sel (fun _ => 0)) (nth i sel (fun _ => 0)).

Lemma seed_loop_apart dist draw pts : (forall k s, 0 < s -> 0 < draw k s <= s) -> pts <> [] ->
  forall todo k ds sel, length ds = length pts ->
  (forall p c, (p < length pts)%nat -> In c sel -> nth p ds 0 <= dist (nth p pts (fun _ => 0)) c) ->
  apart dist sel ->
  apart dist (snd (seed_loop dist draw pts todo k ds sel)).
Proof.
  intros Hdraw Hp. induction todo as [|todo IH]; intros k ds sel HL HB HA; cbn [seed_loop]; [exact HA|].
  destruct (Rle_dec (lsumR ds) 0) as [|Hs]; [exact HA|].
  assert (Hd0 : ds <> []). { intros ->. destruct pts; [congruence|discriminate HL]. }
  assert (Hs0 : 0 < lsumR ds) by lra. destruct (Hdraw k (lsumR ds) Hs0) as [D1 D2].
  pose proof (pick_range ds (draw k (lsumR ds)) 0 Hd0) as HR.
  pose proof (pick_positive ds (draw k (lsumR ds)) 0 Hd0 D1 D2) as HP. rewrite Nat.sub_0_r in HP.
  set (x := pick ds (draw k (lsumR ds)) 0) in *. set (c := @nth vect x pts (fun _ => 0)) in *.
  assert (HLc : length (combine ds (dists dist pts c)) = length pts).
  { rewrite combine_length. unfold dists. rewrite map_length, HL. apply Nat.min_id. }
  apply IH.
  - rewrite map_length. exact HLc.
  - intros p c' Hpl Hc'.
    assert (HN : nth p (map (fun q => Rmin (fst q) (snd q)) (combine ds (dists dist pts c))) 0
       = Rmin (nth p ds 0) (dist (nth p pts (fun _ => 0)) c)).
    { rewrite (nth_indep _ 0 ((fun q : R * R => Rmin (fst q) (snd q)) (0, 0)))
        by (rewrite map_length, HLc; exact Hpl).
      rewrite (map_nth (fun q : R * R => Rmin (fst q) (snd q))), combine_nth by (unfold dists; rewrite map_length; exact HL).
      cbn [fst snd]. f_equal. unfold dists.
      rewrite (nth_indep _ 0 ((fun q => dist q c) (fun _ => 0))) by (rewrite map_length; exact Hpl).
      rewrite (map_nth (fun q => dist q c)). reflexivity. }
    rewrite HN. apply in_app_or in Hc'. destruct Hc' as [Hc'|[<-|[]]].
    + apply Rle_trans with (nth p ds 0); [apply Rmin_l|]. apply HB; assumption.
    + apply Rmin_r.
  - intros i j Hij. rewrite app_length in Hij. cbn in Hij.
    destruct (Nat.eq_dec j (length sel)) as [->|Hj].
    + rewrite (app_nth2 sel [c]) by lia. rewrite Nat.sub_diag. cbn [nth].
      rewrite (app_nth1 sel [c]) by lia.
      apply Rlt_le_trans with (nth x ds 0); [exact HP|]. unfold c. apply HB; [lia|apply nth_In; lia].
    + rewrite !app_nth1 by lia. apply HA. lia.
Qed.

Theorem seeds_apart dist i0 draw pts n_cluster k sel : (forall k s, 0 < s -> 0 < draw k s <= s) ->
  copy_probability dist i0 draw pts n_cluster = Some (k, sel) -> apart dist sel.
Proof.
  intros Hd E. unfold copy_probability in E. destruct pts as [|v pts]; [discriminate|].
  set (P := v :: pts) in *. set (c := @nth vect i0 P (fun _ => 0)) in *.
  pose proof (seed_loop_apart dist draw P Hd ltac:(discriminate) (n_cluster - 1) 1 (dists dist P c) [c]) as A.
  assert (HS : apart dist (snd (seed_loop dist draw P (n_cluster - 1) 1 (dists dist P c) [c]))).
  { apply A.
    - unfold dists. apply map_length.
    - intros p c' Hp [<-|[]]. unfold dists.
      rewrite (nth_indep _ 0 ((fun q => dist q c) (fun _ => 0))) by (rewrite map_length; exact Hp).
      rewrite (map_nth (fun q => dist q c)). apply Rle_refl.
    - intros i j Hij. cbn in Hij. lia. }
  assert (Ek : sel = snd (seed_loop dist draw P (n_cluster - 1) 1 (dists dist P c) [c])).
  { destruct (Nat.eqb n_cluster 0); [congruence|].
    assert (E' : seed_loop dist draw P (n_cluster - 1) 1 (dists dist P c) [c] = (k, sel)) by congruence.
    rewrite E'. reflexivity. }
  rewrite Ek. exact HS.
Qed.
Example seeds_apart_case : exists k sel,
  copy_probability (distance 1) 0 (fun _ s => s) [pt 0; pt 2] 2 = Some (k, sel) /\ (forall k s : R, 0 < s -> 0 < s <= s).
Proof. eexists. eexists. split; [unfold copy_probability; cbn [Nat.eqb]; rewrite <- surjective_pairing; reflexivity|]. intros; lra. Qed.

(** a zero random number may repeat a start value *)
Theorem seeds_repeated_refuted : exists sel,
  copy_probability (distance 1) 0 (fun _ _ => 0) [pt 0; pt 2] 2 = Some (2%nat, sel) /\ sel = [pt 0; pt 0].
Proof.
  eexists. split; [|reflexivity]. unfold copy_probability. cbn [Nat.eqb Nat.sub seed_loop].
  assert (D00 : distance 1 (pt 0) (pt 0) = 0).
  { unfold distance, sqdist, vdot, vsub, pt. cbn. replace (0 + (0 - 0) * (0 - 0)) with 0 by ring. apply sqrt_0. }
  assert (D20 : distance 1 (pt 2) (pt 0) = 2).
  { unfold distance, sqdist, vdot, vsub, pt. cbn. replace (0 + (2 - 0) * (2 - 0)) with (2 * 2) by ring.
    apply sqrt_square. lra. }
  unfold dists. cbn [map nth]. rewrite D00, D20.
  unfold lsumR. cbn [fold_left].
  destruct (Rle_dec (0 + 0 + 2) 0) as [N|_]; [exfalso; lra|].
  cbn [pick]. destruct (Rle_dec 0 0) as [_|N]; [|exfalso; lra]. reflexivity.
Qed.

Print Assumptions assign_valid.
Print Assumptions assign_nearest.
Print Assumptions kmeans_rounds.
Print Assumptions kmeans_labels.
Print Assumptions kmeans_nan_kept.
Print Assumptions round_cost.
Print Assumptions kmeans_cost.
Print Assumptions kmeans_empty_cluster_refuted.
Print Assumptions seeds_from_input.
Print Assumptions seeds_none_refuted.
Print Assumptions seeds_apart.
Print Assumptions seeds_repeated_refuted.
Print Assumptions kmeans_error.

(** the simple choice of seeds takes the first elements, in order *)
Theorem greedy_seeds pts n sel : copy_greedy pts n = Some sel <-> (n <= length pts)%nat /\ length sel = n /\ forall k, (k < n)%nat -> nth_error sel k = nth_error pts k.
Proof.
  unfold copy_greedy. destruct (Nat.leb_spec n (length pts)) as [L|L]; [|split; [discriminate|intros (H & _); lia]]. split.
  - intros E. injection E as <-. split; [exact L|]. split; [apply firstn_length_le, L|]. revert n L. induction pts as [|p pts IH]; intros [|n] L k K; try lia; [cbn in L; lia|]. destruct k as [|k]; [reflexivity|]. cbn in L |- *. apply IH; lia.
  - intros (_ & LS & H). f_equal. revert n sel L LS H. induction pts as [|p pts IH]; intros n sel L LS H.
    + cbn in L. replace n with 0%nat in LS by lia. destruct sel; [|discriminate LS]. destruct n; reflexivity.
    + destruct n as [|n]; [destruct sel; [reflexivity|discriminate LS]|]. destruct sel as [|q sel]; [discriminate LS|]. assert (E := H 0%nat ltac:(lia)). cbn in E. injection E as ->. cbn. f_equal. apply IH; [cbn in L; lia|cbn in LS; lia|]. intros k K. apply (H (S k)). lia.
Qed.
Example greedy_case : exists sel, copy_greedy [fun _ => 1; fun _ => 2; fun _ => 3] 2 = Some sel.
Proof. eexists. reflexivity. Qed.
Print Assumptions greedy_seeds.
