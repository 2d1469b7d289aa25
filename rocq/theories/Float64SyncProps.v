(** Clock synchronisation in double precision (C172). *)
From Coq Require Import ZArith Reals Bool List Lra Lia.
From Flocq Require Import Core BinarySingleNaN Binary Bits Relative Plus_error.
From Verif Require Import Mat Quat QuatProofs Float64 Float64Proofs Float64Sync.
Import ListNotations.
Open Scope R_scope.

(** ** operations without overflow *)
Lemma rnd_bpow e : (-1074 <= e <= 1023)%Z -> rnd (bpow radix2 e) = bpow radix2 e.
Proof.
  intros H. unfold rnd. apply round_generic; [apply valid_rnd_round_mode|]. apply generic_format_bpow. change (SpecFloat.fexp 53 1024) with (FLT_exp (-1074) 53). unfold FLT_exp. lia.
Qed.
Lemma rnd_neg x : rnd (- x) = - rnd x.
Proof. unfold rnd. cbn [round_mode]. apply round_NE_opp. Qed.
Lemma rnd_le_bpow x e : (-1074 <= e <= 1023)%Z -> Rabs x <= bpow radix2 e -> Rabs (rnd x) <= bpow radix2 e.
Proof.
  intros He H. apply Rabs_le_inv in H. apply Rabs_le. split.
  - rewrite <- (rnd_bpow e He), <- rnd_neg. apply rnd_mono. lra.
  - rewrite <- (rnd_bpow e He) at 1. rewrite <- (rnd_bpow e He). apply rnd_mono. rewrite (rnd_bpow e He). lra.
Qed.
Lemma huge x : Rabs x <= bpow radix2 1023 -> Rlt_bool (Rabs (rnd x)) (bpow radix2 1024) = true.
Proof. intros H. apply Rlt_bool_true. apply Rle_lt_trans with (bpow radix2 1023); [apply rnd_le_bpow; [lia|exact H]|apply bpow_lt; lia]. Qed.
Lemma sub_val a b : fin a -> fin b -> Rabs (val a - val b) <= bpow radix2 1023 -> fin (dsub a b) /\ val (dsub a b) = rnd (val a - val b).
Proof.
  intros Fa Fb H. unfold fin, dsub, b64_minus in *. assert (C := Bminus_correct 53 1024 eq_refl eq_refl binop_nan_pl64 mode_NE a b Fa Fb). fold (rnd (val a - val b)) in C. rewrite (huge _ H) in C. destruct C as (E & F & _). rewrite F, E. split; reflexivity.
Qed.
Lemma add_val a b : fin a -> fin b -> Rabs (val a + val b) <= bpow radix2 1023 -> fin (dadd a b) /\ val (dadd a b) = rnd (val a + val b).
Proof.
  intros Fa Fb H. unfold fin, dadd, b64_plus in *. assert (C := Bplus_correct 53 1024 eq_refl eq_refl binop_nan_pl64 mode_NE a b Fa Fb). fold (rnd (val a + val b)) in C. rewrite (huge _ H) in C. destruct C as (E & F & _). rewrite F, E. split; reflexivity.
Qed.
Lemma mul_val a b : fin a -> fin b -> Rabs (val a * val b) <= bpow radix2 1023 -> fin (dmul a b) /\ val (dmul a b) = rnd (val a * val b).
Proof.
  intros Fa Fb H. unfold fin, dmul, b64_mult in *. assert (C := Bmult_correct 53 1024 eq_refl eq_refl binop_nan_pl64 mode_NE a b). fold (rnd (val a * val b)) in C. rewrite (huge _ H) in C. destruct C as (E & F & _). rewrite F, Fa, Fb, E. split; reflexivity.
Qed.
(** the difference of two doubles, rounded, halved and rounded again is at most the difference *)
Lemma format_val a : generic_format radix2 (FLT_exp (-1074) 53) (val a).
Proof. change (FLT_exp (-1074) 53) with (SpecFloat.fexp 53 1024). apply generic_format_B2R. Qed.
Lemma half_step x v w : val x <= val v -> 0 <= w <= 1 / 2 -> 0 <= rnd (rnd (val v - val x) * w) <= val v - val x.
Proof.
  intros H (W0 & W1). set (D := val v - val x). assert (D0 : 0 <= D) by (unfold D; lra).
  assert (R0 : 0 <= rnd D) by (rewrite <- rnd_0; apply rnd_mono; exact D0).
  assert (P : 0 <= rnd D * w) by (apply Rmult_le_pos; assumption).
  split; [rewrite <- rnd_0; apply rnd_mono; exact P|].
  destruct (Rle_or_lt (Rabs D) (bpow radix2 (53 + -1074))) as [S|S].
  - assert (G : rnd D = D). { unfold rnd. apply round_generic; [apply valid_rnd_round_mode|]. change (SpecFloat.fexp 53 1024) with (FLT_exp (-1074) 53). unfold D, Rminus. apply (@FLT_format_plus_small radix2 (-1074) 53 eq_refl); [apply format_val| |exact S]. rewrite <- opp_val. apply format_val. }
    rewrite G in *. rewrite <- G at 2. apply rnd_mono. apply Rle_trans with (D * 1); [apply Rmult_le_compat_l; lra|lra].
  - rewrite (Rabs_pos_eq D D0) in S. small. assert (EB : eta <= D * (1 / 1000000)).
    { unfold eta. apply Rle_trans with (bpow radix2 (53 + -1074) * (1 / 1000000)); [|apply Rmult_le_compat_r; lra]. rewrite bpow_plus. change (bpow radix2 53) with 9007199254740992. assert (0 < bpow radix2 (-1074)) by apply bpow_gt_0. lra. }
    assert (E1 := rnd_error D). assert (E2 := rnd_error (rnd D * w)). rewrite (Rabs_pos_eq _ D0) in E1. rewrite (Rabs_pos_eq _ P) in E2. apply Rabs_le_inv in E1, E2.
    assert (UD : u * D <= 1 / 1000000000 * D) by (apply Rmult_le_compat_r; lra).
    assert (HW : rnd D * w <= rnd D * (1 / 2)) by (apply Rmult_le_compat_l; lra). assert (U2 : u * (rnd D * w) <= 1 / 1000000000 * (rnd D * w)) by (apply Rmult_le_compat_r; lra). lra.
Qed.
Lemma bpow_1022 : bpow radix2 1023 = 2 * bpow radix2 1022.
Proof. change 1023%Z with (1 + 1022)%Z. rewrite bpow_plus. reflexivity. Qed.
(** one averaging step stays between the old average and the new value *)
Lemma blend_between x v w lo hi : fin x -> fin v -> fin w -> 0 <= val w <= 1 / 2 -> val lo <= val x <= val hi -> val lo <= val v <= val hi -> Rabs (val lo) <= bpow radix2 1022 -> Rabs (val hi) <= bpow radix2 1022 ->
  fin (blend x v w) /\ val lo <= val (blend x v w) <= val hi.
Proof.
  intros Fx Fv Fw HW HX HV HL HH. apply Rabs_le_inv in HL, HH. assert (B := bpow_1022). assert (P : 0 < bpow radix2 1022) by apply bpow_gt_0.
  destruct (sub_val v x Fv Fx ltac:(apply Rabs_le; lra)) as (Fd & Vd). unfold blend.
  assert (Dd : Rabs (val (dsub v x)) <= bpow radix2 1023) by (rewrite Vd; apply rnd_le_bpow; [lia|apply Rabs_le; lra]).
  assert (Dm : Rabs (val (dsub v x) * val w) <= bpow radix2 1023). { rewrite Rabs_mult, (Rabs_pos_eq (val w)) by lra. apply Rle_trans with (bpow radix2 1023 * 1); [apply Rmult_le_compat; try apply Rabs_pos; lra|lra]. }
  destruct (mul_val _ _ Fd Fw Dm) as (Fm & Vm). rewrite Vd in Vm. set (m := dmul (dsub v x) w) in *.
  assert (ST : (0 <= val m <= val v - val x) \/ (0 <= - val m <= val x - val v)).
  { rewrite Vm. destruct (Rle_or_lt (val x) (val v)) as [O|O]; [left; apply half_step; assumption|right].
    assert (T := half_step v x (val w) ltac:(lra) HW). replace (rnd (val v - val x)) with (- rnd (val x - val v)) by (rewrite <- rnd_neg; f_equal; ring). rewrite Ropp_mult_distr_l_reverse, rnd_neg, Ropp_involutive. exact T. }
  assert (I : val lo <= val x + val m <= val hi) by (destruct ST; lra).
  destruct (add_val x m Fx Fm ltac:(apply Rabs_le; lra)) as (Fa & Va). split; [exact Fa|]. rewrite Va. split; [rewrite <- (rnd_val lo)|rewrite <- (rnd_val hi)]; apply rnd_mono; lra.
Qed.
(** the first value replaces the initial zero *)
Lemma blend_first v w : fin v -> fin w -> val w = 1 -> Rabs (val v) <= bpow radix2 1022 -> fin (blend d0 v w) /\ val (blend d0 v w) = val v.
Proof.
  intros Fv Fw W1 H. assert (B := bpow_1022). assert (P : 0 < bpow radix2 1022) by apply bpow_gt_0. apply Rabs_le_inv in H. unfold blend.
  destruct (sub_val v d0 Fv fin_d0 ltac:(rewrite val_d0; apply Rabs_le; lra)) as (Fd & Vd). rewrite val_d0, Rminus_0_r, rnd_val in Vd.
  destruct (mul_val _ w Fd Fw ltac:(rewrite W1, Vd; apply Rabs_le; lra)) as (Fm & Vm). rewrite W1, Vd, Rmult_1_r, rnd_val in Vm.
  destruct (add_val d0 _ fin_d0 Fm ltac:(rewrite val_d0, Vm; apply Rabs_le; lra)) as (Fa & Va). rewrite val_d0, Vm, Rplus_0_l, rnd_val in Va. split; assumption.
Qed.

(** ** the weights *)
Lemma of_Z_exact n : (0 <= n <= 2 ^ 53)%Z -> fin (of_Z n) /\ val (of_Z n) = IZR n.
Proof.
  intros H. unfold fin, of_Z. assert (C := binary_normalize_correct 53 1024 eq_refl eq_refl mode_NE n 0 false). replace (F2R {| Fnum := n; Fexp := 0 |}) with (IZR n) in C by (unfold F2R; cbn; ring).
  assert (G : rnd (IZR n) = IZR n).
  { unfold rnd. apply round_generic; [apply valid_rnd_round_mode|]. change (SpecFloat.fexp 53 1024) with (FLT_exp (-1074) 53).
    destruct (Z.eq_dec n (2 ^ 53)) as [->|NE].
    - change (IZR (2 ^ 53)) with (bpow radix2 53). apply generic_format_bpow. unfold FLT_exp. lia.
    - apply generic_format_FLT. apply (FLT_spec _ _ _ _ (Float radix2 n 0)); [unfold F2R; cbn; ring|cbn [Fnum]; rewrite Z.abs_eq by lia; change (radix2 ^ 53)%Z with (2 ^ 53)%Z; lia|cbn; lia]. }
  fold (rnd (IZR n)) in C. rewrite G in C. assert (L : Rabs (IZR n) <= bpow radix2 53) by (rewrite Rabs_pos_eq by (apply IZR_le; lia); change (bpow radix2 53) with (IZR (2 ^ 53)); apply IZR_le; lia).
  rewrite Rlt_bool_true in C by (eapply Rle_lt_trans; [exact L|apply bpow_lt; lia]). destruct C as (E & F & _). split; assumption.
Qed.
Definition dhalf : dbl := b64_of_bits 4602678819172646912.
Lemma val_half : val dhalf = 1 / 2. Proof. unfold dhalf. cbn. unfold F2R. cbn. field. Qed.
Lemma weights_small : forallb (fun k => is_finite 53 1024 (ls_weight (Z.of_nat k)) && dle d0 (ls_weight (Z.of_nat k)) && dle (ls_weight (Z.of_nat k)) dhalf) (seq 1 99) = true.
Proof. vm_compute. reflexivity. Qed.
Lemma weight_range e : (1 <= e)%Z -> fin (ls_weight e) /\ 0 <= val (ls_weight e) <= 1 / 2.
Proof.
  intros H. destruct (Z_lt_le_dec e 100) as [L|L].
  - assert (W := proj1 (forallb_forall _ _) weights_small (Z.to_nat e) ltac:(apply in_seq; lia)). cbv beta in W. rewrite Z2Nat.id in W by lia. apply andb_prop in W as (W & W2). apply andb_prop in W as (W0 & W1).
    split; [exact W0|]. apply (dle_fin d0 _ fin_d0 W0) in W1. apply (dle_fin _ dhalf W0 eq_refl) in W2. rewrite val_d0 in W1. rewrite val_half in W2. lra.
  - unfold ls_weight. replace (e <? 100)%Z with false by (symmetry; apply Z.ltb_ge; exact L). split; [reflexivity|]. unfold d_weight. cbn. unfold F2R. cbn. lra.
Qed.
Lemma weight_first : fin (ls_weight 0) /\ val (ls_weight 0) = 1.
Proof.
  assert (F : fin (ls_weight 0)) by (vm_compute; reflexivity). split; [exact F|]. rewrite <- val_d1. apply (deq_fin _ _ F fin_d1). vm_compute. reflexivity.
Qed.

(** ** C172 *)
(** a number is converted to a timestamp exactly if it is finite and truncates to a 64 bit number, and then to that number *)
Theorem timestamp_cast d t : to_u64 d = Some t <-> fin d /\ -1 < val d < IZR (2 ^ 64) /\ (0 <= t)%Z /\ IZR t <= Rmax 0 (val d) < IZR t + 1.
Proof.
  unfold to_u64, fin. destruct (is_finite 53 1024 d) eqn:F; [|split; [discriminate|intros (H & _); discriminate]].
  cbv zeta. assert (E : Btrunc 53 1024 d = Ztrunc (val d)).
  { apply eq_IZR. rewrite (Btrunc_correct 53 1024 eq_refl d). unfold round, scaled_mantissa, cexp, FIX_exp, F2R. cbn. rewrite Rmult_1_r. rewrite Rmult_1_r. reflexivity. }
  rewrite E. clear E. generalize (val d). clear d F. intros x.
  assert (T : 0 <= x -> IZR (Ztrunc x) <= x < IZR (Ztrunc x) + 1) by (intros H; rewrite Ztrunc_floor by exact H; split; [apply Zfloor_lb|apply Zfloor_ub]).
  assert (N : x <= 0 -> IZR (Ztrunc x) - 1 < x <= IZR (Ztrunc x)). { intros H. rewrite Ztrunc_ceil by exact H. assert (U := Zceil_ub x). split; [|exact U]. assert (L := Zfloor_lb (- x)). unfold Zceil. rewrite opp_IZR. assert (V := Zfloor_ub (- x)). lra. }
  destruct (Z.leb_spec 0 (Ztrunc x)) as [A|A], (Z.ltb_spec (Ztrunc x) (2 ^ 64)) as [B|B]; cbn [andb]; (split; [intros H; try discriminate|intros (_ & (H1 & H2) & H3 & H4)]).
  - injection H as <-. split; [reflexivity|]. apply IZR_le in A as A'. assert (B' := IZR_lt _ _ B). assert (B2 : (Ztrunc x + 1 <= 2 ^ 64)%Z) by lia. apply IZR_le in B2. rewrite plus_IZR in B2.
    destruct (Rle_or_lt 0 x) as [X|X]; [specialize (T X); rewrite Rmax_right by exact X; repeat split; try lra; exact A|]. specialize (N (Rlt_le _ _ X)). rewrite Rmax_left by lra. assert (IZR (Ztrunc x) < 1) by (apply Rnot_le_lt; intros Q; rewrite Ztrunc_ceil in Q by lra; assert (Zceil x <= 0)%Z by (apply Zceil_glb; cbn; lra); apply IZR_le in H; lra).
    assert (IZR (Ztrunc x) = 0) by (apply lt_IZR in H; replace (Ztrunc x) with 0%Z by lia; reflexivity). assert (0 < IZR (2 ^ 64)) by (apply IZR_lt; reflexivity). repeat split; try lra. exact A.
  - f_equal. apply IZR_le in A as A'. destruct (Rle_or_lt 0 x) as [X|X].
    + specialize (T X). rewrite Rmax_right in H4 by exact X. assert (Ztrunc x < t + 1)%Z by (apply lt_IZR; rewrite plus_IZR; lra). assert (t < Ztrunc x + 1)%Z by (apply lt_IZR; rewrite plus_IZR; lra). lia.
    + rewrite Rmax_left in H4 by lra. assert (t < 1)%Z by (apply lt_IZR; lra). assert (Ztrunc x < 1)%Z; [|lia]. rewrite Ztrunc_ceil by lra. assert (Zceil x <= 0)%Z by (apply Zceil_glb; cbn; lra). lia.
  - exfalso. apply IZR_le in B. assert (0 <= x). { apply Rnot_lt_le. intros X. rewrite Ztrunc_ceil in B by lra. assert (Zceil x <= 0)%Z by (apply Zceil_glb; cbn; lra). apply IZR_le in H. assert (0 < IZR (2 ^ 64)) by (apply IZR_lt; reflexivity). lra. } specialize (T H). lra.
  - exfalso. assert (x < 0). { apply Rnot_le_lt. intros X. rewrite Ztrunc_floor in A by exact X. assert (0 <= Zfloor x)%Z by (apply Zfloor_lub; cbn; lra). lia. } specialize (N (Rlt_le _ _ H)). assert (Ztrunc x <= -1)%Z by lia. apply IZR_le in H0. lra.
  - exfalso. lia.
Qed.
Local Opaque dadd dsub dmul ddiv dlt of_Z to_u64 blend ls_weight.
(** the mean of the sensor times, one call later: unchanged (an outlier), or blended with the new value *)
Lemma convert_means s n l : let s' := fst (ls_convert s n l) in let fl := of_Z ((l - (if (l_events s =? 0)%Z then l else l_first s)) mod 2 ^ 64) in
  l_events s' = ((l_events s + 1) mod 2 ^ 32)%Z /\ l_first s' = (if (l_events s =? 0)%Z then l else l_first s) /\
  ((l_n s' = blend (l_n s) n (ls_weight (l_events s)) /\ l_l s' = blend (l_l s) fl (ls_weight (l_events s))) \/ ((100 <= l_events s)%Z /\ l_n s' = l_n s /\ l_l s' = l_l s)).
Proof.
  cbv zeta. unfold ls_convert. cbv zeta. destruct (l_events s <? 100)%Z eqn:E; cbn [orb]; cbn [fst l_events l_first l_n l_l].
  - split; [reflexivity|]. split; [reflexivity|]. left. split; reflexivity.
  - apply Z.ltb_ge in E. destruct (dlt _ _ || _); cbn [fst l_events l_first l_n l_l]; (split; [reflexivity|]; split; [reflexivity|]); [left|right]; repeat split; try reflexivity. exact E.
Qed.
Lemma run_fst s n l cs : fst (ls_run s ((n, l) :: cs)) = fst (ls_run (fst (ls_convert s n l)) cs).
Proof. cbn [ls_run]. destruct (ls_convert s n l) as (s1 & o). cbn [fst]. destruct (ls_run s1 cs) as (s2 & os). reflexivity. Qed.
Lemma means_from first lo hi B cs : Rabs (val lo) <= bpow radix2 1022 -> Rabs (val hi) <= bpow radix2 1022 -> (0 <= B <= 2 ^ 53)%Z -> (forall c, In c cs -> fin (fst c) /\ val lo <= val (fst c) <= val hi /\ ((snd c - first) mod 2 ^ 64 <= B)%Z) ->
  forall s, (1 <= l_events s)%Z -> (l_events s + Z.of_nat (length cs) < 2 ^ 32)%Z -> l_first s = first -> fin (l_n s) -> val lo <= val (l_n s) <= val hi -> fin (l_l s) -> 0 <= val (l_l s) <= IZR B ->
  let s' := fst (ls_run s cs) in fin (l_n s') /\ val lo <= val (l_n s') <= val hi /\ fin (l_l s') /\ 0 <= val (l_l s') <= IZR B.
Proof.
  intros HL HH HB. induction cs as [|[n l] cs IH]; intros HC s E1 E2 EF Fn Hn Fl Hl; cbv zeta; [cbn [ls_run fst]; tauto|].
  rewrite run_fst. destruct (HC (n, l) (or_introl eq_refl)) as (Fv & Hv & HD). cbn [fst snd] in Fv, Hv, HD.
  destruct (convert_means s n l) as (EE & EF' & M). cbv zeta in EE, EF', M. replace (l_events s =? 0)%Z with false in EF', M by (symmetry; apply Z.eqb_neq; lia). cbn [length] in E2. rewrite Nat2Z.inj_succ in E2.
  rewrite Z.mod_small in EE by lia. rewrite EF in EF', M.
  assert (MD : (0 <= (l - first) mod 2 ^ 64)%Z) by (apply Z.mod_pos_bound; lia).
  destruct (of_Z_exact ((l - first) mod 2 ^ 64) ltac:(lia)) as (FZ & VZ). destruct (of_Z_exact B HB) as (FB & VB). destruct (of_Z_exact 0 ltac:(lia)) as (F0 & V0).
  destruct (weight_range (l_events s) E1) as (FW & HW).
  assert (B22 : Rabs (val (of_Z B)) <= bpow radix2 1022). { rewrite VB, Rabs_pos_eq by (apply IZR_le; lia). apply Rle_trans with (bpow radix2 53); [change (bpow radix2 53) with (IZR (2 ^ 53)); apply IZR_le; lia|apply bpow_le; lia]. }
  assert (Z22 : Rabs (val (of_Z 0)) <= bpow radix2 1022) by (rewrite V0, Rabs_R0; apply bpow_ge_0).
  apply IH; clear IH; [intros c I; apply HC; right; exact I|lia|lia|exact EF'|..].
  all: destruct M as [(M1 & M2)|(_ & M1 & M2)]; rewrite ?M1, ?M2; try assumption.
  - apply (blend_between _ _ _ lo hi Fn Fv FW HW Hn Hv HL HH).
  - apply (blend_between _ _ _ lo hi Fn Fv FW HW Hn Hv HL HH).
  - apply (blend_between _ _ _ (of_Z 0) (of_Z B) Fl FZ FW HW); try assumption; rewrite V0, VB, ?VZ; [lra|split; apply IZR_le; lia].
  - rewrite <- VB. change 0 with (IZR 0). rewrite <- V0. apply (blend_between _ _ _ (of_Z 0) (of_Z B) Fl FZ FW HW); try assumption; rewrite V0, VB, ?VZ; [lra|split; apply IZR_le; lia].
Qed.
(** C172: after any sequence of calls the mean of the sensor times is a finite number between the smallest and the largest sensor time that was
    passed, and likewise for the mean of the local times, in spite of rounding *)
Theorem ls_means_between lo hi B n0 l0 cs : let calls := (n0, l0) :: cs in Rabs (val lo) <= bpow radix2 1022 -> Rabs (val hi) <= bpow radix2 1022 -> (0 <= B <= 2 ^ 53)%Z -> (Z.of_nat (length calls) < 2 ^ 32)%Z ->
  (forall c, In c calls -> fin (fst c) /\ val lo <= val (fst c) <= val hi /\ ((snd c - l0) mod 2 ^ 64 <= B)%Z) ->
  let s := fst (ls_run ls_init calls) in fin (l_n s) /\ val lo <= val (l_n s) <= val hi /\ fin (l_l s) /\ 0 <= val (l_l s) <= IZR B.
Proof.
  cbv zeta. intros HL HH HB HN HC. rewrite run_fst. destruct (convert_means ls_init n0 l0) as (EE & EF & M). cbv zeta in EE, EF, M. change (l_events ls_init) with 0%Z in *. cbn [Z.eqb] in EF, M.
  destruct (HC (n0, l0) (or_introl eq_refl)) as (Fv & Hv & _). cbn [fst snd] in Fv, Hv. destruct M as [(M1 & M2)|(A & _)]; [|lia]. change (l_n ls_init) with d0 in M1. change (l_l ls_init) with d0 in M2.
  destruct weight_first as (FW & VW). rewrite Z.sub_diag, Z.mod_0_l in M2 by lia. destruct (of_Z_exact 0 ltac:(lia)) as (F0 & V0).
  destruct (blend_first n0 _ Fv FW VW) as (G1 & V1); [apply Rabs_le_inv in HL, HH; apply Rabs_le; lra|]. destruct (blend_first (of_Z 0) _ F0 FW VW) as (G2 & V2); [rewrite V0, Rabs_R0; apply bpow_ge_0|].
  cbn [length] in HN. rewrite Nat2Z.inj_succ in HN.
  apply (means_from l0 lo hi B cs HL HH HB); [intros c I; apply HC; right; exact I|rewrite EE; reflexivity|rewrite EE; rewrite Z.mod_small; lia|exact EF|..].
  - rewrite M1. exact G1.
  - rewrite M1, V1. exact Hv.
  - rewrite M2. exact G2.
  - rewrite M2, V2, V0. split; [apply Rle_refl|]. apply IZR_le. lia.
Qed.
(** C172: the first eleven calls return the local time they are given, as long as it is less than 2^53 nanoseconds (104 days) after the first *)
Lemma to_u64_exact n : (0 <= n <= 2 ^ 53)%Z -> to_u64 (of_Z n) = Some n.
Proof.
  intros H. destruct (of_Z_exact n H) as (F & V). Local Transparent to_u64. unfold to_u64. rewrite F. cbv zeta.
  assert (T : Btrunc 53 1024 (of_Z n) = n).
  { apply eq_IZR. rewrite Btrunc_correct by reflexivity. rewrite V. apply round_generic; [apply valid_rnd_ZR|]. apply generic_format_FIX. exists (Float radix2 n 0); [unfold F2R; cbn; ring|reflexivity]. }
  rewrite T. replace (0 <=? n)%Z with true by (symmetry; apply Z.leb_le; lia). replace (n <? 2 ^ 64)%Z with true by (symmetry; apply Z.ltb_lt; lia). reflexivity.
Qed.
Local Opaque to_u64.
Theorem ls_first_calls s n l : (l_events s <= 10)%Z -> (0 <= l < 2 ^ 64)%Z -> (l_events s = 0%Z \/ (l - l_first s) mod 2 ^ 64 <= 2 ^ 53)%Z -> snd (ls_convert s n l) = Some l.
Proof.
  intros E L D. unfold ls_convert. cbv zeta. replace (10 <? l_events s)%Z with false by (symmetry; apply Z.ltb_ge; exact E). cbn [snd].
  set (first := if (l_events s =? 0)%Z then l else l_first s).
  assert (DM : (0 <= (l - first) mod 2 ^ 64 <= 2 ^ 53)%Z). { split; [apply Z.mod_pos_bound; lia|]. unfold first. destruct (Z.eqb_spec (l_events s) 0) as [Z|Z]; [rewrite Z.sub_diag, Z.mod_0_l; lia|destruct D; [contradiction|assumption]]. }
  rewrite to_u64_exact by exact DM. f_equal. rewrite Z.add_mod_idemp_r by lia. replace (first + (l - first))%Z with l by ring. apply Z.mod_small. exact L.
Qed.
(** (refuted) the sensor reports Unix time in whole seconds, the local clock agrees to the nanosecond.  The variance of the sensor times is computed
    as a difference of numbers around 2.6 * 10^18, whose distance in double precision is 512; it comes out as zero: the twelfth call divides by it,
    and converts the result to an integer, which is undefined behaviour.  With real numbers the result is exact (sync_ls_exact_on_lines). *)
Definition unix_calls : list (dbl * Z) := map (fun k => (of_Z (1600000000 + k), (1600000000 + k) * 1000000000)%Z) [0; 1; 2; 3; 4; 5; 6; 7; 8; 9; 10; 11]%Z.
Lemma unix_in c : In c unix_calls -> exists k, (0 <= k <= 11)%Z /\ c = (of_Z (1600000000 + k), ((1600000000 + k) * 1000000000)%Z).
Proof. unfold unix_calls. intros H. apply in_map_iff in H as (k & E & I). exists k. split; [|symmetry; exact E]. clear E. repeat (destruct I as [<-|I]; [lia|]). destruct I. Qed.
Theorem ls_division_refuted : (forall c, In c unix_calls -> fin (fst c) /\ val (fst c) * 1000000000 = IZR (snd c)) /\ NoDup (map snd unix_calls) /\
  snd (ls_run ls_init unix_calls) = map (fun c => Some (snd c)) (firstn 11 unix_calls) ++ [None].
Proof.
  split; [|split; [|vm_compute; reflexivity]].
  - intros c I. apply unix_in in I as (k & Hk & ->). cbn [fst snd]. destruct (of_Z_exact (1600000000 + k) ltac:(lia)) as (F & V). split; [exact F|]. rewrite V, mult_IZR. reflexivity.
  - vm_compute. repeat constructor; cbn [In]; intros H; repeat (destruct H as [H|H]; [discriminate|]); exact H.
Qed.
(** (refuted) the second reading of the local clock is one nanosecond before the first: the difference wraps around, rounds to 2^64 and cannot be
    converted back *)
Theorem ls_backstep_refuted : snd (ls_run ls_init [(d1, 1000%Z); (d2, 999%Z)]) = [Some 1000%Z; None].
Proof. vm_compute. reflexivity. Qed.

Example ls_means_case : let s := fst (ls_run ls_init unix_calls) in fin (l_n s) /\ 1600000000 <= val (l_n s) <= 1600000011 /\ fin (l_l s) /\ 0 <= val (l_l s) <= 11000000000.
Proof.
  destruct (of_Z_exact 1600000000 ltac:(lia)) as (F1 & V1). destruct (of_Z_exact 1600000011 ltac:(lia)) as (F2 & V2).
  assert (B : forall n, (0 <= n <= 2 ^ 53)%Z -> Rabs (val (of_Z n)) <= bpow radix2 1022). { intros n H. destruct (of_Z_exact n H) as (F & V). rewrite V, Rabs_pos_eq by (apply IZR_le; lia). apply Rle_trans with (bpow radix2 53); [change (bpow radix2 53) with (IZR (2 ^ 53)); apply IZR_le; lia|apply bpow_le; lia]. }
  assert (T := ls_means_between (of_Z 1600000000) (of_Z 1600000011) 11000000000 (of_Z 1600000000) 1600000000000000000 (tl unix_calls)). cbv zeta in T. rewrite V1, V2 in T. specialize (T ltac:(rewrite <- V1; apply B; lia) ltac:(rewrite <- V2; apply B; lia) ltac:(lia) ltac:(vm_compute; reflexivity)). apply T.
  intros c I. change (In c unix_calls) in I. apply unix_in in I as (k & Hk & ->). cbn [fst snd]. destruct (of_Z_exact (1600000000 + k) ltac:(lia)) as (F & V). split; [exact F|]. split; [rewrite V; split; apply IZR_le; lia|]. rewrite Z.mod_small; lia.
Qed.
Example ls_first_case : snd (ls_convert (fst (ls_run ls_init (firstn 5 unix_calls))) d1 1600000007000000123) = Some 1600000007000000123%Z.
Proof. apply ls_first_calls; [vm_compute; discriminate|lia|right; vm_compute; discriminate]. Qed.

Example timestamp_cast_case : to_u64 d2 = Some 2%Z /\ to_u64 dm1 = None.
Proof. split; [apply timestamp_cast; split; [exact fin_d2|]; rewrite val_d2, Rmax_right by lra; split; [split; [lra|apply IZR_lt; reflexivity]|split; [lia|lra]]|]. destruct (to_u64 dm1) as [t|] eqn:E; [|reflexivity]. exfalso. apply timestamp_cast in E. destruct E as (_ & (H & _) & _). rewrite val_dm1 in H. lra. Qed.

Print Assumptions ls_means_between.
Print Assumptions ls_first_calls.
Print Assumptions timestamp_cast.
Print Assumptions ls_division_refuted.
Print Assumptions ls_backstep_refuted.
