(** Sums, means, covariances, inner products and lengths in double precision (C173, C174). *)
From Coq Require Import ZArith Reals Bool List Lra Lia.
From Flocq Require Import Core BinarySingleNaN Binary Bits Relative Plus_error.
From Verif Require Import Mat Quat QuatProofs Float64 Float64Proofs Float64Sync Float64SyncProps Float64Sum.
Import ListNotations.
Open Scope R_scope.

(** ** specification: exact sums of the values of the doubles *)
Definition rsum (l : list R) : R := fold_right Rplus 0 l.
Definition sum_of (f : dbl -> R) (xs : list dbl) : R := rsum (map f xs).
Definition exact_mean (xs : list dbl) : R := sum_of val xs / INR (length xs).
Definition mean_size (xs : list dbl) : R := sum_of (fun x => Rabs (val x)) xs / INR (length xs).
Definition exact_dot (f : R -> R) (a b : list dbl) : R := rsum (map (fun p => f (val (fst p) * val (snd p))) (combine a b)).

Lemma rsum_app l l' : rsum (l ++ l') = rsum l + rsum l'.
Proof. induction l as [|x l IH]; cbn; [unfold rsum; lra|]. fold (rsum (l ++ l')) (rsum l). rewrite IH. ring. Qed.
Lemma rsum_rev l : rsum (rev l) = rsum l.
Proof. induction l as [|x l IH]; [reflexivity|]. cbn [rev]. rewrite rsum_app, IH. cbn. fold (rsum l). lra. Qed.
Lemma rsum_nonneg {A} (f : A -> R) l : (forall x, 0 <= f x) -> 0 <= rsum (map f l).
Proof. intros H. induction l as [|x l IH]; cbn; [lra|]. specialize (H x). fold (rsum (map f l)). lra. Qed.

(** ** operations with their errors *)
Lemma p1022 : 1000000 <= bpow radix2 1022.
Proof. apply Rle_trans with (bpow radix2 20); [cbn; lra|apply bpow_le; lia]. Qed.
Lemma add_err a b : fin a -> fin b -> Rabs (val a + val b) <= bpow radix2 1023 -> fin (dadd a b) /\ Rabs (val (dadd a b) - (val a + val b)) <= u * Rabs (val a + val b) + eta.
Proof. intros Fa Fb H. destruct (add_val a b Fa Fb H) as (F & E). split; [exact F|]. rewrite E. apply rnd_error. Qed.
Lemma mul_err a b : fin a -> fin b -> Rabs (val a * val b) <= bpow radix2 1023 -> fin (dmul a b) /\ Rabs (val (dmul a b) - val a * val b) <= u * Rabs (val a * val b) + eta.
Proof. intros Fa Fb H. destruct (mul_val a b Fa Fb H) as (F & E). split; [exact F|]. rewrite E. apply rnd_error. Qed.
Lemma div_val a b : fin a -> val b <> 0 -> Rabs (val a / val b) <= bpow radix2 1023 -> fin (ddiv a b) /\ val (ddiv a b) = rnd (val a / val b).
Proof.
  intros Fa Nb H. unfold fin, ddiv, b64_div in *. assert (C := Bdiv_correct 53 1024 eq_refl eq_refl binop_nan_pl64 mode_NE a b Nb). fold (rnd (val a / val b)) in C. rewrite (huge _ H) in C. destruct C as (E & F & _). rewrite F, Fa, E. split; reflexivity.
Qed.
Local Opaque dadd dsub dmul ddiv dsqrt of_Z bpow.

(** ** sums *)
Lemma sum_from xs : forall s T A k, fin s -> Rabs (val s - T) <= 101 / 100 * INR k * u * A + 2 * INR k * eta -> Rabs T <= A -> A + sum_of (fun x => Rabs (val x)) xs <= bpow radix2 1022 ->
  INR (k + length xs) * u <= 1 / 1000 -> Forall fin xs ->
  fin (fold_left dadd xs s) /\ Rabs (val (fold_left dadd xs s) - (T + sum_of val xs)) <=
    101 / 100 * INR (k + length xs) * u * (A + sum_of (fun x => Rabs (val x)) xs) + 2 * INR (k + length xs) * eta.
Proof.
  small. assert (P := p1022). induction xs as [|x xs IH]; intros s T A k Fs Hs HT HA Hk Fx.
  - cbn [fold_left length]. unfold sum_of. cbn. rewrite !Rplus_0_r, Nat.add_0_r. split; assumption.
  - inversion Fx as [|? ? Fx1 Fx2]; subst. cbn [fold_left length] in *. replace (k + S (length xs))%nat with (S k + length xs)%nat in * by lia.
    assert (SP : 0 <= sum_of (fun x => Rabs (val x)) xs) by (apply rsum_nonneg; intros; apply Rabs_pos).
    change (sum_of (fun x => Rabs (val x)) (x :: xs)) with (Rabs (val x) + sum_of (fun x => Rabs (val x)) xs) in *. change (sum_of val (x :: xs)) with (val x + sum_of val xs).
    assert (X0 := Rabs_pos (val x)). assert (A0 : 0 <= A) by (apply Rle_trans with (Rabs T); [apply Rabs_pos|exact HT]).
    assert (K0 := pos_INR k). assert (KU : INR k * u + u <= 1 / 1000). { apply Rle_trans with (INR (S k + length xs) * u); [|exact Hk]. rewrite plus_INR, S_INR. assert (0 <= INR (length xs) * u) by (apply Rmult_le_pos; [apply pos_INR|lra]). lra. }
    assert (KE : 0 <= INR k * eta <= 1 / 1000000000000). { split; [apply Rmult_le_pos; lra|]. apply Rle_trans with (INR k * (u / 1000000000)); [apply Rmult_le_compat_l; lra|]. lra. }
    assert (KUA : 0 <= INR k * u * A <= 1 / 1000 * A). { assert (0 <= INR k * u) by (apply Rmult_le_pos; lra). split; [apply Rmult_le_pos; lra|apply Rmult_le_compat_r; lra]. }
    assert (SA : Rabs (val s) <= A + (101 / 100 * INR k * u * A + 2 * INR k * eta)). { replace (val s) with (T + (val s - T)) by ring. eapply Rle_trans; [apply Rabs_triang|lra]. }
    assert (SX : Rabs (val s + val x) <= A + Rabs (val x) + (101 / 100 * INR k * u * A + 2 * INR k * eta)) by (eapply Rle_trans; [apply Rabs_triang|lra]).
    destruct (add_err s x Fs Fx1) as (F & Er); [rewrite bpow_1022; lra|].
    destruct (IH (dadd s x) (T + val x) (A + Rabs (val x)) (S k)) as (F' & Er'); [exact F| |eapply Rle_trans; [apply Rabs_triang|lra]|lra|exact Hk|exact Fx2|].
    + replace (val (dadd s x) - (T + val x)) with ((val (dadd s x) - (val s + val x)) + (val s - T)) by ring. eapply Rle_trans; [apply Rabs_triang|]. rewrite S_INR.
      assert (uS : u * Rabs (val s + val x) <= u * (A + Rabs (val x)) + u * (101 / 100 * INR k * u * A + 2 * INR k * eta)) by (rewrite <- Rmult_plus_distr_l; apply Rmult_le_compat_l; lra).
      assert (Q1 : u * (INR k * u * A) <= u * (1 / 1000 * A)) by (apply Rmult_le_compat_l; lra).
      assert (Q2 : u * (INR k * eta) <= 1 / 1000 * eta). { replace (u * (INR k * eta)) with ((INR k * u) * eta) by ring. apply Rmult_le_compat_r; lra. }
      assert (Q3 : 0 <= INR k * u * Rabs (val x)) by (repeat apply Rmult_le_pos; lra). assert (Q4 : 0 <= u * Rabs (val x)) by (apply Rmult_le_pos; lra). assert (Q5 : 0 <= u * A) by (apply Rmult_le_pos; lra). lra.
    + split; [exact F'|]. replace (T + (val x + sum_of val xs)) with (T + val x + sum_of val xs) by ring. replace (A + (Rabs (val x) + sum_of (fun x0 => Rabs (val x0)) xs)) with (A + Rabs (val x) + sum_of (fun x0 => Rabs (val x0)) xs) by ring. exact Er'.
Qed.
Lemma total_err xs : Forall fin xs -> sum_of (fun x => Rabs (val x)) xs <= bpow radix2 1022 -> INR (length xs) * u <= 1 / 1000 ->
  fin (dtotal xs) /\ Rabs (val (dtotal xs) - sum_of val xs) <= 101 / 100 * INR (length xs) * u * sum_of (fun x => Rabs (val x)) xs + 2 * INR (length xs) * eta.
Proof.
  intros F A K. destruct (sum_from xs d0 0 0 0 fin_d0) as (F1 & E1); try assumption.
  - rewrite val_d0. replace (0 - 0) with 0 by ring. rewrite Rabs_R0. cbn [INR]. lra.
  - rewrite Rabs_R0. lra.
  - lra.
  - split; [exact F1|]. rewrite !Rplus_0_l in E1. exact E1.
Qed.

(** ** the mean: C173 *)
Lemma count_val n : (0 < n)%nat -> INR n * u <= 1 / 1000 -> fin (of_Z (Z.of_nat n)) /\ val (of_Z (Z.of_nat n)) = INR n.
Proof.
  intros N K. destruct (of_Z_exact (Z.of_nat n)) as (F & E).
  - split; [lia|]. apply le_IZR. rewrite <- INR_IZR_INZ. change (IZR (2 ^ 53)) with 9007199254740992. unfold u in K. lra.
  - split; [exact F|]. rewrite E. symmetry. apply INR_IZR_INZ.
Qed.
Lemma sum_abs xs : Rabs (sum_of val xs) <= sum_of (fun x => Rabs (val x)) xs.
Proof. unfold sum_of. induction xs as [|x xs IH]; cbn; [rewrite Rabs_R0; lra|]. fold (rsum (map (fun x => val x) xs)). eapply Rle_trans; [apply Rabs_triang|]. apply Rplus_le_compat_l. exact IH. Qed.
Lemma quotient_err xs n s A e : fin s -> (0 < n)%nat -> INR n * u <= 1 / 1000 -> Rabs xs <= A -> A <= bpow radix2 1022 -> e <= A / 100 + 1 -> Rabs (val s - xs) <= INR n * e ->
  fin (ddiv s (of_Z (Z.of_nat n))) /\ Rabs (val (ddiv s (of_Z (Z.of_nat n))) - xs / INR n) <= (1 + u) * e + u * (A / INR n) + eta.
Proof.
  small. intros Fs N K HX HA He E. assert (P := p1022). destruct (count_val n N K) as (Fc & Vc). assert (N1 : 1 <= INR n) by (apply (le_INR 1); lia). assert (Ip : 0 < / INR n) by (apply Rinv_0_lt_compat; lra).
  assert (I1 : / INR n <= 1) by (rewrite <- Rinv_1; apply Rinv_le_contravar; lra).
  assert (A0 : 0 <= A) by (apply Rle_trans with (Rabs xs); [apply Rabs_pos|exact HX]).
  assert (D : Rabs (val s / INR n - xs / INR n) <= e).
  { replace (val s / INR n - xs / INR n) with ((val s - xs) * / INR n) by (field; lra). rewrite Rabs_mult, (Rabs_pos_eq (/ INR n)) by lra.
    apply Rle_trans with ((INR n * e) * / INR n); [apply Rmult_le_compat_r; lra|]. right. field. lra. }
  assert (Y : Rabs (xs / INR n) <= A / INR n) by (unfold Rdiv; rewrite Rabs_mult, (Rabs_pos_eq (/ INR n)) by lra; apply Rmult_le_compat_r; lra).
  assert (AN : 0 <= A / INR n <= A). { unfold Rdiv. split; [apply Rmult_le_pos; lra|]. rewrite <- (Rmult_1_r A) at 2. apply Rmult_le_compat_l; lra. }
  assert (S1 : Rabs (val s / INR n) <= A / INR n + e). { replace (val s / INR n) with (xs / INR n + (val s / INR n - xs / INR n)) by ring. eapply Rle_trans; [apply Rabs_triang|lra]. }
  destruct (div_val s (of_Z (Z.of_nat n)) Fs) as (Fd & Vd); [rewrite Vc; lra|rewrite Vc, bpow_1022; lra|]. split; [exact Fd|]. rewrite Vd, Vc.
  assert (Rd := rnd_error (val s / INR n)). replace (rnd (val s / INR n) - xs / INR n) with ((rnd (val s / INR n) - val s / INR n) + (val s / INR n - xs / INR n)) by ring. eapply Rle_trans; [apply Rabs_triang|].
  assert (M : u * Rabs (val s / INR n) <= u * (A / INR n) + u * e) by (rewrite <- Rmult_plus_distr_l; apply Rmult_le_compat_l; lra). lra.
Qed.
Theorem mean_rounding xs : xs <> [] -> Forall fin xs -> sum_of (fun x => Rabs (val x)) xs <= bpow radix2 1022 -> INR (length xs) * u <= 1 / 1000 ->
  fin (davg xs) /\ Rabs (val (davg xs) - exact_mean xs) <= 102 / 100 * (INR (length xs) + 1) * u * mean_size xs + 4 * eta.
Proof.
  small. intros NE F A K. destruct (total_err xs F A K) as (Ft & Et). unfold davg, exact_mean, mean_size. assert (N : (0 < length xs)%nat) by (destruct xs; [congruence|cbn; lia]).
  set (n := length xs) in *. assert (N1 : 1 <= INR n) by (apply (le_INR 1); lia). assert (SA := sum_abs xs). assert (A0 : 0 <= sum_of (fun x => Rabs (val x)) xs) by (eapply Rle_trans; [apply Rabs_pos|exact SA]).
  set (D := sum_of (fun x => Rabs (val x)) xs) in *. assert (UD : 0 <= u * D <= D / 1000000000) by (split; [apply Rmult_le_pos; lra|assert (u * D <= 1 / 1000000000 * D) by (apply Rmult_le_compat_r; lra); lra]).
  destruct (quotient_err (sum_of val xs) n (dtotal xs) D (101 / 100 * u * D + 2 * eta)) as (Fq & Eq); try assumption; [lra|eapply Rle_trans; [exact Et|right; ring]|].
  split; [exact Fq|]. eapply Rle_trans; [exact Eq|].
  replace (102 / 100 * (INR n + 1) * u * (D / INR n)) with (102 / 100 * (u * D) + 102 / 100 * (u * (D / INR n))) by (field; lra).
  assert (0 <= u * (D / INR n)) by (apply Rmult_le_pos; [lra|apply Rmult_le_pos; [lra|left; apply Rinv_0_lt_compat; lra]]).
  assert (u * (101 / 100 * u * D) <= 1 / 1000000 * (u * D)). { replace (u * (101 / 100 * u * D)) with (101 / 100 * u * (u * D)) by ring. apply Rmult_le_compat_r; lra. }
  assert (u * (2 * eta) <= 1 / 2 * eta). { replace (u * (2 * eta)) with (2 * u * eta) by ring. apply Rmult_le_compat_r; lra. } lra.
Qed.

(** ** products *)
Definition both (p : dbl * dbl) : Prop := fin (fst p) /\ fin (snd p).
Definition times (p : dbl * dbl) : dbl := dmul (fst p) (snd p).
Definition dots (f : R -> R) (l : list (dbl * dbl)) : R := rsum (map (fun p => f (val (fst p) * val (snd p))) l).
Lemma dots_pos l : 0 <= dots Rabs l. Proof. apply rsum_nonneg. intros. apply Rabs_pos. Qed.
Lemma dots_abs l : Rabs (dots id l) <= dots Rabs l.
Proof. unfold dots, id. induction l as [|x l IH]; cbn; [rewrite Rabs_R0; lra|]. eapply Rle_trans; [apply Rabs_triang|]. apply Rplus_le_compat_l. exact IH. Qed.
Lemma products_err l : Forall both l -> dots Rabs l <= bpow radix2 1021 -> Forall fin (map times l) /\
  Rabs (sum_of val (map times l) - dots id l) <= u * dots Rabs l + INR (length l) * eta /\ sum_of (fun x => Rabs (val x)) (map times l) <= (1 + u) * dots Rabs l + INR (length l) * eta.
Proof.
  small. induction l as [|[a b] l IH]; intros F H.
  - unfold sum_of, dots. cbn. replace (0 - 0) with 0 by ring. rewrite Rabs_R0. split; [constructor|]. lra.
  - inversion F as [|? ? [Fa Fb] F']; subst. cbn [fst snd] in *. assert (DP := dots_pos l). change (dots Rabs ((a, b) :: l)) with (Rabs (val a * val b) + dots Rabs l) in *.
    assert (X0 := Rabs_pos (val a * val b)). destruct IH as (F1 & E1 & S1); [exact F'|lra|].
    destruct (mul_err a b Fa Fb) as (Fm & Em); [apply Rle_trans with (bpow radix2 1021); [lra|apply bpow_le; lia]|].
    cbn [map length]. change (times (a, b)) with (dmul a b). rewrite S_INR. split; [constructor; assumption|].
    change (sum_of val (dmul a b :: map times l)) with (val (dmul a b) + sum_of val (map times l)). change (sum_of (fun x => Rabs (val x)) (dmul a b :: map times l)) with (Rabs (val (dmul a b)) + sum_of (fun x => Rabs (val x)) (map times l)).
    change (dots id ((a, b) :: l)) with (val a * val b + dots id l). split.
    + replace (val (dmul a b) + sum_of val (map times l) - (val a * val b + dots id l)) with ((val (dmul a b) - val a * val b) + (sum_of val (map times l) - dots id l)) by ring.
      eapply Rle_trans; [apply Rabs_triang|lra].
    + assert (Rabs (val (dmul a b)) <= Rabs (val a * val b) + (u * Rabs (val a * val b) + eta)). { replace (val (dmul a b)) with (val a * val b + (val (dmul a b) - val a * val b)) at 1 by ring. eapply Rle_trans; [apply Rabs_triang|lra]. } lra.
Qed.
Lemma inner_err l : Forall both l -> dots Rabs l <= bpow radix2 1021 -> INR (length l) * u <= 1 / 1000 ->
  fin (dtotal (map times l)) /\ Rabs (val (dtotal (map times l)) - dots id l) <= 102 / 100 * (INR (length l) + 1) * u * dots Rabs l + 4 * INR (length l) * eta.
Proof.
  small. intros F H K. destruct (products_err l F H) as (F1 & E1 & S1). assert (DP := dots_pos l). assert (P := p1022). assert (B : bpow radix2 1022 = 2 * bpow radix2 1021) by (change 1022%Z with (1 + 1021)%Z; rewrite bpow_plus; change (bpow radix2 1) with 2; reflexivity).
  assert (N0 := pos_INR (length l)). set (D := dots Rabs l) in *. set (n := INR (length l)) in *.
  assert (NE : 0 <= n * eta <= 1 / 1000000000000). { split; [apply Rmult_le_pos; lra|]. apply Rle_trans with (n * (u / 1000000000)); [apply Rmult_le_compat_l; lra|]. lra. }
  assert (UD : 0 <= u * D <= D / 1000000000) by (split; [apply Rmult_le_pos; lra|assert (u * D <= 1 / 1000000000 * D) by (apply Rmult_le_compat_r; lra); lra]).
  assert (NU : 0 <= n * u) by (apply Rmult_le_pos; lra).
  destruct (total_err (map times l) F1) as (F2 & E2); [lra|rewrite map_length; exact K|]. rewrite map_length in E2. fold n in E2. split; [exact F2|].
  replace (val (dtotal (map times l)) - dots id l) with ((val (dtotal (map times l)) - sum_of val (map times l)) + (sum_of val (map times l) - dots id l)) by ring.
  eapply Rle_trans; [apply Rabs_triang|].
  assert (Q : n * u * sum_of (fun x => Rabs (val x)) (map times l) <= n * u * ((1 + u) * D + n * eta)) by (apply Rmult_le_compat_l; lra).
  assert (Q1 : n * u * (u * D) <= n * u * (D / 1000000000)) by (apply Rmult_le_compat_l; lra). assert (Q2 : n * u * (n * eta) <= 1 / 1000 * (n * eta)) by (apply Rmult_le_compat_r; lra).
  assert (Q3 : 0 <= n * u * D) by (apply Rmult_le_pos; lra). lra.
Qed.
Lemma inner_dyn_total a b : dinner_dyn a b = dtotal (map times (combine a b)).
Proof. unfold dinner_dyn, dtotal. generalize d0. induction (combine a b) as [|p l IH]; intros s; cbn [fold_left map]; [reflexivity|]. apply IH. Qed.
Lemma inner_impl_total n a b : forall s, dinner_impl n a b s = fold_left dadd (map (fun m => dmul (nth m a d0) (nth m b d0)) (rev (seq 0 n))) s.
Proof. induction n as [|n IH]; intros s; [reflexivity|]. rewrite seq_S, rev_app_distr. cbn [rev app map fold_left dinner_impl]. rewrite IH. rewrite Nat.add_0_l. reflexivity. Qed.
Lemma combine_nth_seq (a b : list dbl) : length a = length b -> map (fun m => (nth m a d0, nth m b d0)) (seq 0 (length a)) = combine a b.
Proof.
  revert b. induction a as [|x a IH]; intros [|y b] E; try discriminate; [reflexivity|]. injection E as E. cbn [length seq map combine nth]. f_equal. rewrite <- seq_shift, map_map. rewrite <- (IH b E). reflexivity.
Qed.
Lemma inner_fix_total a b : length a = length b -> dinner_fix a b = dtotal (map times (rev (combine a b))).
Proof.
  intros E. unfold dinner_fix, dtotal. rewrite inner_impl_total, <- (combine_nth_seq a b E), <- map_rev, map_map. reflexivity.
Qed.
Lemma dots_rev f l : dots f (rev l) = dots f l.
Proof. unfold dots. rewrite map_rev. apply rsum_rev. Qed.
Lemma both_combine a b : Forall fin a -> Forall fin b -> Forall both (combine a b).
Proof. intros Fa Fb. apply Forall_forall. intros [x y] H. rewrite Forall_forall in Fa, Fb. split; [apply Fa; apply in_combine_l in H; exact H|apply Fb; apply in_combine_r in H; exact H]. Qed.

(** ** inner products: C174 *)
Theorem inner_product_rounding a b : length a = length b -> Forall fin a -> Forall fin b -> exact_dot Rabs a b <= bpow radix2 1021 -> INR (length a) * u <= 1 / 1000 ->
  let bound := 102 / 100 * (INR (length a) + 1) * u * exact_dot Rabs a b + 4 * INR (length a) * eta in
  (fin (dinner_dyn a b) /\ Rabs (val (dinner_dyn a b) - exact_dot id a b) <= bound) /\ (fin (dinner_fix a b) /\ Rabs (val (dinner_fix a b) - exact_dot id a b) <= bound).
Proof.
  intros E Fa Fb D K. cbv zeta. assert (L : length (combine a b) = length a) by (rewrite combine_length; lia). assert (Fab := both_combine a b Fa Fb). split.
  - rewrite inner_dyn_total. rewrite <- L in *. apply inner_err; assumption.
  - rewrite (inner_fix_total a b E). unfold exact_dot. fold (dots Rabs (combine a b)) (dots id (combine a b)). rewrite <- (dots_rev Rabs), <- (dots_rev id), <- L, <- (rev_length (combine a b)). apply inner_err.
    + apply Forall_rev. exact Fab.
    + rewrite dots_rev. exact D.
    + rewrite rev_length, L. exact K.
Qed.
Definition exact_norm (a : list dbl) : R := sqrt (exact_dot id a a).
Lemma square_dots a : exact_dot Rabs a a = exact_dot id a a /\ 0 <= exact_dot id a a.
Proof.
  unfold exact_dot. induction a as [|x a [IH1 IH2]]; cbn; [lra|]. assert (S := Rle_0_sqr (val x)). unfold Rsqr in S. rewrite (Rabs_pos_eq _ S). unfold id at 1 3. split; [f_equal; exact IH1|]. fold (rsum (map (fun p => id (val (fst p) * val (snd p))) (combine a a))). lra.
Qed.
Lemma sqrt_err s D n : fin s -> bpow radix2 (-900) <= D -> 0 <= n -> (n + 1) * u <= 1 / 900 -> Rabs (val s - D) <= 102 / 100 * (n + 1) * u * D + 4 * n * eta ->
  fin (dsqrt s) /\ Rabs (val (dsqrt s) - sqrt D) <= (6 / 10 * n + 2) * u * sqrt D.
Proof.
  small. intros Fs LD N0 K E. assert (BE : eta <= u * bpow radix2 (-900) / 1000 /\ eta <= u * bpow radix2 (-450) / 1000).
  { assert (UB : u = bpow radix2 (-53)) by (unfold u; change (bpow radix2 (-53)) with (/ 9007199254740992); field).
    assert (X1 : bpow radix2 (-1074) = bpow radix2 (-100) * (u * bpow radix2 (-900)) * bpow radix2 (-21)) by (rewrite UB, <- !bpow_plus; reflexivity).
    assert (X2 : bpow radix2 (-1074) = bpow radix2 (-100) * (u * bpow radix2 (-450)) * bpow radix2 (-471)) by (rewrite UB, <- !bpow_plus; reflexivity).
    assert (H1 : 0 < bpow radix2 (-100) <= 1 / 1000). { split; [apply bpow_gt_0|]. apply Rle_trans with (bpow radix2 (-10)); [apply bpow_le; lia|change (bpow radix2 (-10)) with (/ 1024); lra]. }
    assert (H2 : 0 < bpow radix2 (-21) <= 1) by (split; [apply bpow_gt_0|change 1 with (bpow radix2 0); apply bpow_le; lia]).
    assert (H3 : 0 < bpow radix2 (-471) <= 1) by (split; [apply bpow_gt_0|change 1 with (bpow radix2 0); apply bpow_le; lia]).
    assert (G : forall p q r, 0 < p <= 1 / 1000 -> 0 < q -> 0 < r <= 1 -> / 2 * (p * q * r) <= q / 1000).
    { intros p q r Hp Hq Hr. assert (0 <= p * q) by (apply Rmult_le_pos; lra). assert (p * q * r <= p * q * 1) by (apply Rmult_le_compat_l; lra). assert (p * q <= 1 / 1000 * q) by (apply Rmult_le_compat_r; lra). lra. }
    unfold eta. split; [rewrite X1|rewrite X2]; apply G; try assumption; apply Rmult_lt_0_compat; try lra; apply bpow_gt_0. }
  destruct BE as (BE1 & BE2). assert (B9 := bpow_gt_0 radix2 (-900)). assert (D0 : 0 < D) by lra.
  assert (R0 := sqrt_lt_R0 D D0). assert (RR : sqrt D * sqrt D = D) by (apply sqrt_sqrt; lra).
  assert (RB : bpow radix2 (-450) <= sqrt D). { rewrite <- (sqrt_square (bpow radix2 (-450))) by (left; apply bpow_gt_0). apply sqrt_le_1_alt. rewrite <- bpow_plus. exact LD. }
  assert (NU : 0 <= n * u) by (apply Rmult_le_pos; lra).
  assert (E' : Rabs (val s - D) <= 103 / 100 * ((n + 1) * u) * D).
  { eapply Rle_trans; [exact E|]. assert (4 * n * eta <= 4 * n * (u * D / 1000)). { apply Rmult_le_compat_l; [lra|]. assert (u * bpow radix2 (-900) <= u * D) by (apply Rmult_le_compat_l; lra). lra. }
    assert (0 <= n * u * D) by (apply Rmult_le_pos; lra). assert (0 <= u * D) by (apply Rmult_le_pos; lra). lra. }
  set (d := 103 / 100 * ((n + 1) * u)) in *. assert (d0 : 0 <= d <= 1 / 800) by (unfold d; lra).
  assert (dD : d * D <= 1 / 800 * D) by (apply Rmult_le_compat_r; lra). apply Rabs_le_inv in E'.
  assert (V0 : 0 <= val s) by lra. destruct (sqrt_near s Fs V0) as (Fq & Eq). split; [exact Fq|].
  assert (T0 := sqrt_pos (val s)). assert (TT : sqrt (val s) * sqrt (val s) = val s) by (apply sqrt_sqrt; exact V0). set (t := sqrt (val s)) in *. set (r := sqrt D) in *.
  assert (T9 : 9 / 10 * r <= t). { apply Rnot_lt_le. intros Hlt. assert (t * t <= (9 / 10 * r) * (9 / 10 * r)) by (apply Rmult_le_compat; lra). lra. }
  assert (TD : Rabs (t - r) <= d / (19 / 10) * r).
  { assert (M : Rabs (t - r) * (19 / 10 * r) <= Rabs (t - r) * Rabs (t + r)) by (apply Rmult_le_compat_l; [apply Rabs_pos|rewrite (Rabs_pos_eq (t + r)); lra]).
    rewrite <- Rabs_mult in M. replace ((t - r) * (t + r)) with (val s - D) in M by (rewrite <- TT, <- RR; ring). assert (M2 : Rabs (val s - D) <= d * D) by (apply Rabs_le; exact E').
    apply Rmult_le_reg_r with (19 / 10 * r); [lra|]. eapply Rle_trans; [exact M|]. eapply Rle_trans; [exact M2|]. right. rewrite <- RR. field. }
  assert (t <= 101 / 100 * r). { apply Rabs_le_inv in TD. assert (d / (19 / 10) * r <= 1 / 100 * r) by (apply Rmult_le_compat_r; lra). lra. }
  assert (UT : u * t <= u * (101 / 100 * r)) by (apply Rmult_le_compat_l; lra). assert (UR : u * bpow radix2 (-450) <= u * r) by (apply Rmult_le_compat_l; lra).
  replace (val (dsqrt s) - r) with ((val (dsqrt s) - t) + (t - r)) by ring. eapply Rle_trans; [apply Rabs_triang|]. unfold d in TD. assert (0 <= n * u * r) by (apply Rmult_le_pos; lra). assert (0 <= u * r) by (apply Rmult_le_pos; lra). lra.
Qed.
Theorem norm_rounding a : Forall fin a -> bpow radix2 (-900) <= exact_dot id a a <= bpow radix2 1021 -> INR (length a) * u <= 1 / 1000 ->
  let bound := (6 / 10 * INR (length a) + 2) * u * exact_norm a in
  (fin (dnorm_dyn a) /\ Rabs (val (dnorm_dyn a) - exact_norm a) <= bound) /\ (fin (dnorm_fix a) /\ Rabs (val (dnorm_fix a) - exact_norm a) <= bound).
Proof.
  small. intros F [DL DU] K. destruct (square_dots a) as (SQ & _). destruct (inner_product_rounding a a eq_refl F F) as ((F1 & E1) & (F2 & E2)); [rewrite SQ; exact DU|exact K|]. rewrite SQ in E1, E2.
  split; (apply sqrt_err; [assumption|exact DL|apply pos_INR|lra|assumption]).
Qed.

(** ** covariances *)
Definition exact_cov (xs ys : list dbl) : R := exact_dot id xs ys / INR (length xs) - exact_mean xs * exact_mean ys.
Lemma sum_le (f : dbl -> R) B (xs : list dbl) : Forall (fun x => f x <= B) xs -> sum_of f xs <= INR (length xs) * B.
Proof. induction 1 as [|x l H _ IH]; [unfold sum_of; cbn; lra|]. cbn [length]. rewrite S_INR. change (sum_of f (x :: l)) with (f x + sum_of f l). lra. Qed.
Lemma dots_le B (xs : list dbl) : forall ys : list dbl, 0 <= B -> Forall (fun x => Rabs (val x) <= B) xs -> Forall (fun x => Rabs (val x) <= B) ys -> dots Rabs (combine xs ys) <= INR (length (combine xs ys)) * (B * B).
Proof.
  induction xs as [|x xs IH]; intros [|y ys] B0 Hx Hy; try (unfold dots; cbn; lra).
  inversion Hx; subst. inversion Hy; subst. cbn [combine length]. rewrite S_INR. change (dots Rabs ((x, y) :: combine xs ys)) with (Rabs (val x * val y) + dots Rabs (combine xs ys)). rewrite Rabs_mult.
  assert (Rabs (val x) * Rabs (val y) <= B * B) by (apply Rmult_le_compat; try apply Rabs_pos; assumption). specialize (IH ys B0 H2 H4). lra.
Qed.
Lemma mean_bounds B (xs : list dbl) : 0 <= B -> xs <> [] -> Forall fin xs -> Forall (fun x => Rabs (val x) <= B) xs -> B <= bpow radix2 400 -> INR (length xs) * u <= 1 / 1000 ->
  fin (davg xs) /\ Rabs (val (davg xs) - exact_mean xs) <= 102 / 100 * ((INR (length xs) + 1) * u) * B + 4 * eta /\ Rabs (exact_mean xs) <= B.
Proof.
  small. intros B0 NE F HB BB K. assert (N : (0 < length xs)%nat) by (destruct xs; [congruence|cbn; lia]). assert (N1 : 1 <= INR (length xs)) by (apply (le_INR 1); lia).
  assert (SL := sum_le (fun x => Rabs (val x)) B xs HB). assert (SA := sum_abs xs). assert (Ip : 0 < / INR (length xs)) by (apply Rinv_0_lt_compat; lra).
  assert (SB : sum_of (fun x => Rabs (val x)) xs / INR (length xs) <= B). { apply Rmult_le_reg_r with (INR (length xs)); [lra|]. unfold Rdiv. rewrite Rmult_assoc, Rinv_l, Rmult_1_r by lra. lra. }
  assert (HN : INR (length xs) <= bpow radix2 53). { change (bpow radix2 53) with 9007199254740992. unfold u in K. lra. }
  assert (SP : sum_of (fun x => Rabs (val x)) xs <= bpow radix2 1022).
  { eapply Rle_trans; [exact SL|]. apply Rle_trans with (bpow radix2 53 * bpow radix2 400); [apply Rmult_le_compat; lra|]. rewrite <- bpow_plus. apply bpow_le. lia. }
  destruct (mean_rounding xs NE F SP K) as (Fm & Em). split; [exact Fm|]. split.
  - eapply Rle_trans; [exact Em|]. unfold mean_size. apply Rplus_le_compat_r. replace (102 / 100 * (INR (length xs) + 1) * u) with (102 / 100 * ((INR (length xs) + 1) * u)) by ring. apply Rmult_le_compat_l; [|exact SB]. assert (0 <= (INR (length xs) + 1) * u) by (apply Rmult_le_pos; lra). lra.
  - unfold exact_mean, Rdiv. rewrite Rabs_mult, (Rabs_pos_eq (/ INR (length xs))) by lra. eapply Rle_trans; [apply Rmult_le_compat_r; [lra|exact SA]|exact SB].
Qed.
Theorem covariance_rounding B (xs ys : list dbl) : xs <> [] -> length xs = length ys -> Forall fin xs -> Forall fin ys -> Forall (fun x => Rabs (val x) <= B) xs -> Forall (fun x => Rabs (val x) <= B) ys -> B <= bpow radix2 400 -> INR (length xs) * u <= 1 / 1000 ->
  fin (dcov xs ys) /\ Rabs (val (dcov xs ys) - exact_cov xs ys) <= 4 * (INR (length xs) + 2) * u * (B * B) + 16 * (1 + B) * eta.
Proof.
  small. intros NE EL Fx Fy Bx By BB K.
  assert (N : (0 < length xs)%nat) by (destruct xs; [congruence|cbn; lia]). assert (N1 : 1 <= INR (length xs)) by (apply (le_INR 1); lia).
  assert (B0 : 0 <= B). { destruct xs as [|x l]; [congruence|]. inversion Bx; subst. eapply Rle_trans; [apply Rabs_pos|eassumption]. }
  assert (NY : ys <> []) by (destruct ys; [cbn in EL; lia|discriminate]).
  destruct (mean_bounds B xs B0 NE Fx Bx BB K) as (Fmx & Emx & Lmx). destruct (mean_bounds B ys B0 NY Fy By BB) as (Fmy & Emy & Lmy); [rewrite <- EL; exact K|]. rewrite <- EL in Emy.
  assert (LC : length (combine xs ys) = length xs) by (rewrite combine_length; lia). assert (DL := dots_le B xs ys B0 Bx By). rewrite LC in DL.
  assert (HN : INR (length xs) <= bpow radix2 53). { change (bpow radix2 53) with 9007199254740992. unfold u in K. lra. }
  assert (BB2 : B * B <= bpow radix2 800). { apply Rle_trans with (bpow radix2 400 * bpow radix2 400); [apply Rmult_le_compat; lra|]. rewrite <- bpow_plus. apply bpow_le. lia. }
  assert (B20 : 0 <= B * B) by (apply Rmult_le_pos; lra).
  assert (DB : dots Rabs (combine xs ys) <= bpow radix2 1021). { eapply Rle_trans; [exact DL|]. apply Rle_trans with (bpow radix2 53 * bpow radix2 800); [apply Rmult_le_compat; lra|]. rewrite <- bpow_plus. apply bpow_le. lia. }
  destruct (inner_err (combine xs ys) (both_combine xs ys Fx Fy) DB) as (Fi & Ei); [rewrite LC; exact K|]. rewrite LC in Ei. fold (exact_dot id xs ys) in *. assert (DA := dots_abs (combine xs ys)). fold (exact_dot id xs ys) in DA. change (dots id (combine xs ys)) with (exact_dot id xs ys) in *.
  assert (DP := dots_pos (combine xs ys)). set (D := dots Rabs (combine xs ys)) in *. set (n := INR (length xs)) in *. change (map times (combine xs ys)) with (dproducts xs ys) in *.
  assert (Ip : 0 < / n) by (apply Rinv_0_lt_compat; lra). assert (DN : 0 <= D / n <= B * B). { split; [apply Rmult_le_pos; lra|]. apply Rmult_le_reg_r with n; [lra|]. unfold Rdiv. rewrite Rmult_assoc, Rinv_l, Rmult_1_r by lra. lra. }
  assert (KP : 0 <= (n + 1) * u <= 11 / 10000) by (split; [apply Rmult_le_pos; lra|lra]).
  assert (P8 : bpow radix2 800 <= bpow radix2 1000 / 1000000). { change 1000%Z with (200 + 800)%Z. rewrite bpow_plus. assert (1000000 <= bpow radix2 200) by (apply Rle_trans with (bpow radix2 20); [change (bpow radix2 20) with 1048576; lra|apply bpow_le; lia]). assert (X := bpow_gt_0 radix2 800). assert (1000000 * bpow radix2 800 <= bpow radix2 200 * bpow radix2 800) by (apply Rmult_le_compat_r; lra). lra. }
  assert (P4 : bpow radix2 400 <= bpow radix2 800) by (apply bpow_le; lia).
  assert (PH : 1000000 <= bpow radix2 1000 <= bpow radix2 1023). { split; [apply Rle_trans with (bpow radix2 20); [change (bpow radix2 20) with 1048576; lra|apply bpow_le; lia]|apply bpow_le; lia]. }
  destruct (quotient_err (exact_dot id xs ys) (length xs) (dtotal (dproducts xs ys)) D (102 / 100 * ((n + 1) * u) * (D / n) + 4 * eta)) as (Fq & Eq); try assumption.
  { apply Rle_trans with (bpow radix2 1021); [exact DB|apply bpow_le; lia]. }
  { assert (D / n <= D). { unfold Rdiv. rewrite <- (Rmult_1_r D) at 2. apply Rmult_le_compat_l; [exact DP|]. rewrite <- Rinv_1. apply Rinv_le_contravar; lra. } assert ((n + 1) * u * (D / n) <= 11 / 10000 * (D / n)) by (apply Rmult_le_compat_r; lra). lra. }
  { eapply Rle_trans; [exact Ei|]. fold n. right. field. lra. }
  fold n in Eq. set (q := ddiv (dtotal (dproducts xs ys)) (of_Z (Z.of_nat (length xs)))) in *. set (mxy := exact_dot id xs ys / n) in *.
  assert (Eq' : Rabs (val q - mxy) <= 103 / 100 * ((n + 1) * u) * (B * B) + u * (B * B) + 6 * eta).
  { eapply Rle_trans; [exact Eq|]. assert (G1 : (n + 1) * u * (D / n) <= (n + 1) * u * (B * B)) by (apply Rmult_le_compat_l; lra). assert (G2 : u * (D / n) <= u * (B * B)) by (apply Rmult_le_compat_l; lra). assert (G0 : 0 <= (n + 1) * u * (D / n)) by (apply Rmult_le_pos; lra).
    assert (G3 : u * ((n + 1) * u * (D / n)) <= 1 / 1000000000 * ((n + 1) * u * (D / n))) by (apply Rmult_le_compat_r; lra). assert (G4 : u * (4 * eta) <= 1 / 1000000000 * (4 * eta)) by (apply Rmult_le_compat_r; lra). lra. }
  assert (Lq : Rabs mxy <= B * B). { unfold mxy, Rdiv. rewrite Rabs_mult, (Rabs_pos_eq (/ n)) by lra. eapply Rle_trans; [apply Rmult_le_compat_r; [lra|exact DA]|]. unfold Rdiv in DN. lra. }
  set (k := (n + 1) * u) in *. set (C := B * B) in *. set (mx := exact_mean xs) in *. set (my := exact_mean ys) in *.
  assert (kB : 0 <= k * B <= 11 / 10000 * B) by (split; [apply Rmult_le_pos; lra|apply Rmult_le_compat_r; lra]). assert (kC : 0 <= k * C <= 11 / 10000 * C) by (split; [apply Rmult_le_pos; lra|apply Rmult_le_compat_r; lra]). assert (uC : 0 <= u * C <= 1 / 1000000000 * C) by (split; [apply Rmult_le_pos; lra|apply Rmult_le_compat_r; lra]).
  assert (eB : 0 <= eta * B <= 1 / 1000000000 * B) by (split; [apply Rmult_le_pos; lra|apply Rmult_le_compat_r; lra]).
  assert (Lmx' : Rabs (val (davg xs)) <= B + (102 / 100 * k * B + 4 * eta)). { replace (val (davg xs)) with (mx + (val (davg xs) - mx)) by ring. eapply Rle_trans; [apply Rabs_triang|lra]. }
  assert (Ep : Rabs (val (davg xs) * val (davg ys) - mx * my) <= 205 / 100 * k * C + (9 * B + 1) * eta).
  { replace (val (davg xs) * val (davg ys) - mx * my) with (val (davg xs) * (val (davg ys) - my) + (val (davg xs) - mx) * my) by ring. eapply Rle_trans; [apply Rabs_triang|]. rewrite !Rabs_mult.
    assert (G1 : Rabs (val (davg xs)) * Rabs (val (davg ys) - my) <= (B + (102 / 100 * k * B + 4 * eta)) * (102 / 100 * k * B + 4 * eta)) by (apply Rmult_le_compat; try apply Rabs_pos; assumption).
    assert (G2 : Rabs (val (davg xs) - mx) * Rabs my <= (102 / 100 * k * B + 4 * eta) * B) by (apply Rmult_le_compat; try apply Rabs_pos; assumption).
    assert (G3 : (102 / 100 * k * B + 4 * eta) * (102 / 100 * k * B + 4 * eta) <= (2 / 1000 * B + 4 * eta) * (102 / 100 * k * B + 4 * eta)) by (apply Rmult_le_compat_r; lra).
    assert (G4 : eta * (k * B) <= eta * (11 / 10000 * B)) by (apply Rmult_le_compat_l; lra). assert (G5 : eta * eta <= 1 / 1000000000 * eta) by (apply Rmult_le_compat_r; lra).
    assert (G6 : k * B * B = k * C) by (unfold C; ring). assert (G7 : B * (k * B) = k * C) by (unfold C; ring).
    replace ((B + (102 / 100 * k * B + 4 * eta)) * (102 / 100 * k * B + 4 * eta)) with (B * (102 / 100 * k * B + 4 * eta) + (102 / 100 * k * B + 4 * eta) * (102 / 100 * k * B + 4 * eta)) in G1 by ring. lra. }
  assert (Lp : Rabs (mx * my) <= C) by (unfold C; rewrite Rabs_mult; apply Rmult_le_compat; try apply Rabs_pos; assumption).
  assert (Lp' : Rabs (val (davg xs) * val (davg ys)) <= C + (205 / 100 * k * C + (9 * B + 1) * eta)). { replace (val (davg xs) * val (davg ys)) with (mx * my + (val (davg xs) * val (davg ys) - mx * my)) by ring. eapply Rle_trans; [apply Rabs_triang|lra]. }
  destruct (mul_err (davg xs) (davg ys) Fmx Fmy) as (Fp & Erp); [lra|]. set (p := dmul (davg xs) (davg ys)) in *.
  assert (uP : u * Rabs (val (davg xs) * val (davg ys)) <= u * (C + (205 / 100 * k * C + (9 * B + 1) * eta))) by (apply Rmult_le_compat_l; lra).
  assert (ukC : u * (k * C) <= 11 / 10000 * (u * C)) by (replace (u * (k * C)) with (k * (u * C)) by ring; apply Rmult_le_compat_r; lra). assert (ueB : u * (eta * B) <= 1 / 1000000000 * (eta * B)) by (apply Rmult_le_compat_r; lra). assert (ue : u * eta <= 1 / 1000000000 * eta) by (apply Rmult_le_compat_r; lra).
  assert (Ep' : Rabs (val p - mx * my) <= 205 / 100 * (k * C) + 101 / 100 * (u * C) + (10 * (eta * B) + 3 * eta)). { replace (val p - mx * my) with ((val p - val (davg xs) * val (davg ys)) + (val (davg xs) * val (davg ys) - mx * my)) by ring. eapply Rle_trans; [apply Rabs_triang|lra]. }
  assert (Eqp : Rabs ((val q - val p) - (mxy - mx * my)) <= 308 / 100 * (k * C) + 201 / 100 * (u * C) + (10 * (eta * B) + 9 * eta)). { replace ((val q - val p) - (mxy - mx * my)) with ((val q - mxy) + - (val p - mx * my)) by ring. eapply Rle_trans; [apply Rabs_triang|]. rewrite Rabs_Ropp. lra. }
  assert (Lqp : Rabs (val q - val p) <= 2 * C + (308 / 100 * (k * C) + 201 / 100 * (u * C) + (10 * (eta * B) + 9 * eta))). { replace (val q - val p) with ((mxy + - (mx * my)) + ((val q - val p) - (mxy - mx * my))) by ring. eapply Rle_trans; [apply Rabs_triang|]. assert (X := Rabs_triang mxy (- (mx * my))). rewrite Rabs_Ropp in X. lra. }
  destruct (sub_val q p Fq Fp) as (Fs & Vs); [lra|]. unfold dcov. fold q. fold p. split; [exact Fs|]. rewrite Vs. assert (Rd := rnd_error (val q - val p)). unfold exact_cov. fold mx my n mxy.
  assert (uQ : u * Rabs (val q - val p) <= u * (2 * C + (308 / 100 * (k * C) + 201 / 100 * (u * C) + (10 * (eta * B) + 9 * eta)))) by (apply Rmult_le_compat_l; lra).
  assert (uuC : u * (u * C) <= 1 / 1000000000 * (u * C)) by (apply Rmult_le_compat_r; lra).
  replace (rnd (val q - val p) - (mxy - mx * my)) with ((rnd (val q - val p) - (val q - val p)) + ((val q - val p) - (mxy - mx * my))) by ring. eapply Rle_trans; [apply Rabs_triang|].
  replace (4 * (n + 2) * u * C) with (4 * (k * C) + 4 * (u * C)) by (unfold k; ring). assert (2 * (u * C) <= k * C). { unfold k. replace ((n + 1) * u * C) with (n * (u * C) + u * C) by ring. assert (1 * (u * C) <= n * (u * C)) by (apply Rmult_le_compat_r; lra). lra. }
  lra.
Qed.

(** a variance is exactly non-negative, so the computed one is at most the rounding error below zero *)
Lemma exact_variance (xs : list dbl) : xs <> [] -> 0 <= exact_cov xs xs.
Proof.
  intros NE. unfold exact_cov, exact_mean. assert (N1 : 1 <= INR (length xs)) by (apply (le_INR 1); destruct xs; [congruence|cbn; lia]).
  assert (G : forall m l, exact_dot id l l = sum_of (fun x => (val x - m) * (val x - m)) l + 2 * m * sum_of val l - INR (length l) * (m * m)).
  { intros m l. induction l as [|x l IH]; [unfold exact_dot, sum_of; cbn; ring|]. change (exact_dot id (x :: l) (x :: l)) with (val x * val x + exact_dot id l l). change (sum_of val (x :: l)) with (val x + sum_of val l).
    change (sum_of (fun x => (val x - m) * (val x - m)) (x :: l)) with ((val x - m) * (val x - m) + sum_of (fun x => (val x - m) * (val x - m)) l). cbn [length]. rewrite S_INR, IH. ring. }
  rewrite (G (sum_of val xs / INR (length xs)) xs). assert (P : 0 <= sum_of (fun x => (val x - sum_of val xs / INR (length xs)) * (val x - sum_of val xs / INR (length xs))) xs) by (apply rsum_nonneg; intros; apply Rle_0_sqr).
  set (S := sum_of _ xs) in P |- *. set (m := sum_of val xs / INR (length xs)). replace (sum_of val xs) with (INR (length xs) * m) by (unfold m; field; lra).
  replace ((S + 2 * m * (INR (length xs) * m) - INR (length xs) * (m * m)) / INR (length xs) - m * m) with (S / INR (length xs)) by (field; lra). apply Rmult_le_pos; [exact P|left; apply Rinv_0_lt_compat; lra].
Qed.
Theorem variance_below_zero B (xs : list dbl) : xs <> [] -> Forall fin xs -> Forall (fun x => Rabs (val x) <= B) xs -> B <= bpow radix2 400 -> INR (length xs) * u <= 1 / 1000 ->
  - (4 * (INR (length xs) + 2) * u * (B * B) + 16 * (1 + B) * eta) <= val (dcov xs xs).
Proof.
  intros NE F HB BB K. destruct (covariance_rounding B xs xs NE eq_refl F F HB HB BB K) as (_ & E). assert (V := exact_variance xs NE). apply Rabs_le_inv in E. lra.
Qed.

(** ** what fails after rounding *)
Local Transparent dadd dsub dmul ddiv dsqrt of_Z bpow.
Definition d01 : dbl := b64_of_bits 4591870180066957722.
(** the mean of three equal values lies above them and their variance is negative *)
Theorem mean_of_equal_refuted : let xs := [d01; d01; d01] in
  Forall fin xs /\ fin (davg xs) /\ val d01 < val (davg xs) /\ fin (dcov xs xs) /\ val (dcov xs xs) < 0.
Proof.
  cbv zeta. assert (F : Forall fin [d01; d01; d01]) by (repeat constructor). assert (Fa : fin (davg [d01; d01; d01])) by (vm_compute; reflexivity). assert (Fc : fin (dcov [d01; d01; d01] [d01; d01; d01])) by (vm_compute; reflexivity).
  split; [exact F|]. split; [exact Fa|]. split; [apply (proj1 (dlt_fin d01 _ (Forall_inv F) Fa)); vm_compute; reflexivity|]. split; [exact Fc|]. rewrite <- val_d0. apply (proj1 (dlt_fin _ d0 Fc fin_d0)). vm_compute. reflexivity.
Qed.
(** 2^-53 and 2^-600 *)
Definition d_eps : dbl := b64_of_bits 4368491638549381120.
Definition d_tiny : dbl := b64_of_bits 1905022642377719808.
(** the two kinds of storage disagree on the inner product of the same vectors *)
Theorem inner_product_storage_refuted : let a := [d1; d_eps; d_eps] in let b := [d1; d1; d1] in
  Forall fin a /\ Forall fin b /\ fin (dinner_dyn a b) /\ fin (dinner_fix a b) /\ val (dinner_dyn a b) < val (dinner_fix a b).
Proof.
  cbv zeta. assert (F1 : fin (dinner_dyn [d1; d_eps; d_eps] [d1; d1; d1])) by (vm_compute; reflexivity). assert (F2 : fin (dinner_fix [d1; d_eps; d_eps] [d1; d1; d1])) by (vm_compute; reflexivity).
  split; [repeat constructor|]. split; [repeat constructor|]. split; [exact F1|]. split; [exact F2|]. apply (proj1 (dlt_fin _ _ F1 F2)). vm_compute. reflexivity.
Qed.
(** the length of a vector that is not zero comes out as zero *)
Theorem norm_zero_refuted : fin d_tiny /\ 0 < val d_tiny /\ val (dnorm_dyn [d_tiny]) = 0 /\ val (dnorm_fix [d_tiny]) = 0.
Proof.
  assert (F : fin d_tiny) by reflexivity. split; [exact F|]. split; [rewrite <- val_d0; apply (proj1 (dlt_fin d0 d_tiny fin_d0 F)); vm_compute; reflexivity|].
  assert (F1 : fin (dnorm_dyn [d_tiny])) by (vm_compute; reflexivity). assert (F2 : fin (dnorm_fix [d_tiny])) by (vm_compute; reflexivity).
  split; rewrite <- val_d0; [apply (proj1 (deq_fin _ d0 F1 fin_d0))|apply (proj1 (deq_fin _ d0 F2 fin_d0))]; vm_compute; reflexivity.
Qed.

(** ** the hypotheses can be met *)
Local Opaque dadd dsub dmul ddiv dsqrt of_Z.
Definition sample : list dbl := [d1; d2; d09999; dm1].
Lemma sample_fin : Forall fin sample.
Proof. unfold sample. repeat constructor. Qed.
Lemma sample_two : Forall (fun x => Rabs (val x) <= 2) sample.
Proof.
  assert (H := val_09999). unfold sample. repeat (apply Forall_cons || apply Forall_nil); rewrite ?val_d1, ?val_d2, ?val_dm1; apply Rabs_le; lra.
Qed.
Example mean_case : Forall fin sample /\ sum_of (fun x => Rabs (val x)) sample <= bpow radix2 1022 /\ INR (length sample) * u <= 1 / 1000 /\ fin (davg sample) /\ Rabs (val (davg sample) - exact_mean sample) <= 11 * u.
Proof.
  assert (S8 : sum_of (fun x => Rabs (val x)) sample <= 8) by (eapply Rle_trans; [apply (sum_le _ 2); apply sample_two|cbn; lra]).
  assert (A : sum_of (fun x => Rabs (val x)) sample <= bpow radix2 1022) by (apply Rle_trans with 8; [exact S8|assert (P := p1022); lra]).
  assert (K : INR (length sample) * u <= 1 / 1000) by (cbn; unfold u; lra). split; [exact sample_fin|]. split; [exact A|]. split; [exact K|].
  destruct (mean_rounding sample) as (F & E); [discriminate|exact sample_fin|exact A|exact K|]. split; [exact F|]. eapply Rle_trans; [exact E|]. small. unfold mean_size. cbn [length sample] in *. replace (INR 4) with 4 by (cbn; ring).
  replace (102 / 100 * (4 + 1) * u * (sum_of (fun x => Rabs (val x)) sample / 4)) with (51 / 40 * (u * sum_of (fun x => Rabs (val x)) sample)) by field. assert (u * sum_of (fun x => Rabs (val x)) sample <= u * 8) by (apply Rmult_le_compat_l; lra). lra.
Qed.
Example covariance_case : sample <> [] /\ Forall (fun x => Rabs (val x) <= 2) sample /\ 2 <= bpow radix2 400 /\ fin (dcov sample sample) /\ Rabs (val (dcov sample sample) - exact_cov sample sample) <= 97 * u.
Proof.
  assert (B : 2 <= bpow radix2 400) by (change 2 with (bpow radix2 1); apply bpow_le; lia). split; [discriminate|]. split; [apply sample_two|]. split; [exact B|].
  destruct (covariance_rounding 2 sample sample) as (F & E); try exact sample_fin; try exact sample_two; [discriminate|reflexivity|exact B|cbn; unfold u; lra|]. split; [exact F|]. eapply Rle_trans; [exact E|]. small. cbn [length sample]. replace (INR 4) with 4 by (cbn; ring). lra.
Qed.
Example norm_case : Forall fin [d1; d2; dm1] /\ exact_dot id [d1; d2; dm1] [d1; d2; dm1] = 6 /\ Rabs (val (dnorm_fix [d1; d2; dm1]) - sqrt 6) <= 4 * u * sqrt 6.
Proof.
  assert (F : Forall fin [d1; d2; dm1]) by (repeat constructor). assert (E6 : exact_dot id [d1; d2; dm1] [d1; d2; dm1] = 6) by (unfold exact_dot, id; cbn [combine map fst snd rsum fold_right]; rewrite val_d1, val_d2, val_dm1; lra).
  split; [exact F|]. split; [exact E6|]. destruct (norm_rounding [d1; d2; dm1] F) as (_ & _ & E).
  - rewrite E6. split; [apply Rle_trans with (bpow radix2 0); [apply bpow_le; lia|change (bpow radix2 0) with 1; lra]|apply Rle_trans with (bpow radix2 3); [change (bpow radix2 3) with 8; lra|apply bpow_le; lia]].
  - cbn; unfold u; lra.
  - unfold exact_norm in E. rewrite E6 in E. eapply Rle_trans; [exact E|]. small. assert (S := sqrt_pos 6). apply Rmult_le_compat_r; [exact S|]. cbn [length]. replace (INR 3) with 3 by (cbn; ring). apply Rmult_le_compat_r; lra.
Qed.
Example inner_product_case : exact_dot Rabs [d1; d2; dm1] [d2; d2; d1] = 7 /\ Rabs (val (dinner_dyn [d1; d2; dm1] [d2; d2; d1]) - 5) <= 30 * u.
Proof.
  assert (E7 : exact_dot Rabs [d1; d2; dm1] [d2; d2; d1] = 7) by (unfold exact_dot; cbn [combine map fst snd rsum fold_right]; rewrite !Rabs_mult, val_d1, val_d2, val_dm1, (Rabs_left (-1)), (Rabs_pos_eq 1), (Rabs_pos_eq 2); lra).
  split; [exact E7|]. destruct (inner_product_rounding [d1; d2; dm1] [d2; d2; d1]) as ((_ & E) & _); [reflexivity|repeat constructor|repeat constructor| |cbn; unfold u; lra|].
  - rewrite E7. apply Rle_trans with (bpow radix2 3); [change (bpow radix2 3) with 8; lra|apply bpow_le; lia].
  - rewrite E7 in E. replace (exact_dot id [d1; d2; dm1] [d2; d2; d1]) with 5 in E by (unfold exact_dot, id; cbn [combine map fst snd rsum fold_right]; rewrite val_d1, val_d2, val_dm1; lra).
    eapply Rle_trans; [exact E|]. small. cbn [length]. replace (INR 3) with 3 by (cbn; ring). lra.
Qed.

Print Assumptions mean_rounding.
Print Assumptions covariance_rounding.
Print Assumptions variance_below_zero.
Print Assumptions mean_of_equal_refuted.
Print Assumptions inner_product_rounding.
Print Assumptions norm_rounding.
Print Assumptions inner_product_storage_refuted.
Print Assumptions norm_zero_refuted.
