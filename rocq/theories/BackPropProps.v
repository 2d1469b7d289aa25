(** Backward propagation of covariances (C117, C118). *)
From Coq Require Import Reals Lra Lia List Arith.
Import ListNotations.
From Verif Require Import Mat LinAlg LinAlgProps DltProofs BackProp.
Open Scope R_scope.

(** * Specification *)
(** J^T W J for a diagonal matrix of weights *)
Definition information (m : nat) (w : vect) (J : mat) : mat := fun i j => sum m (fun r => w r * (J r i * J r j)).
(** C is c times the inverse of M *)
Definition inverse_times (n : nat) (c : R) (M C : mat) : Prop :=
  meq n n (mmul n C M) (mscale c eye) /\ meq n n (mmul n M C) (mscale c eye).
(** gesvd delivers a singular value decomposition *)
Definition gesvd_ok (m n : nat) (A : mat) (sv : vect * mat) : Prop := exists U, full_svd m n A U (fst sv) (snd sv).
(** no direction of the parameters is 10^8 times less observable than another, and J <> 0 *)
Definition well_conditioned (m n : nat) (J : mat) : Prop :=
  (0 < n)%nat /\ forall x y, vdot n x x = 1 -> vdot n y y = 1 -> 0 < energy m n J x /\ / 10000000000000000 * energy m n J y <= energy m n J x.

(** * Lemmas *)
(** V^T diag(f) V *)
Definition spectral (n : nat) (Vt : mat) (f : vect) : mat := fun i j => sum n (fun k => f k * (Vt k i * Vt k j)).
Lemma spectral_mul n Vt f g i j : meq n n (mmul n Vt (tr Vt)) eye ->
  mmul n (spectral n Vt f) (spectral n Vt g) i j = spectral n Vt (fun k => f k * g k) i j.
Proof.
  intros HV. unfold mmul, spectral.
  rewrite (sum_ext n _ (fun p => sum n (fun k => sum n (fun l => (f k * Vt k i) * (g l * Vt l j) * (Vt k p * Vt l p))))).
  2: { intros p _. rewrite sum_product. apply sum_ext; intros k _. apply sum_ext; intros l _. ring. }
  rewrite sum_swap. apply sum_ext. intros k Hk. rewrite sum_swap.
  rewrite (sum_ext n _ (fun l => (f k * Vt k i) * (g l * Vt l j) * eye k l)).
  - rewrite (sum_eye n k (fun l => (f k * Vt k i) * (g l * Vt l j)) Hk). ring.
  - intros l Hl. rewrite sum_scal_l. rewrite <- (HV k l Hk Hl). reflexivity.
Qed.
Lemma spectral_ext n Vt f g i j : (forall k, (k < n)%nat -> f k = g k) -> spectral n Vt f i j = spectral n Vt g i j.
Proof. intros H. apply sum_ext. intros k Hk. rewrite H by exact Hk. reflexivity. Qed.
Lemma spectral_const n Vt c i j : meq n n (mmul n (tr Vt) Vt) eye -> (i < n)%nat -> (j < n)%nat ->
  spectral n Vt (fun _ => c) i j = c * eye i j.
Proof. intros H Hi Hj. unfold spectral. rewrite sum_scal_l. f_equal. exact (H i j Hi Hj). Qed.
Lemma spectral_symm n Vt f i j : spectral n Vt f i j = spectral n Vt f j i.
Proof. apply sum_ext. intros; ring. Qed.

Lemma svd_gram m n A U s Vt i j : full_svd m n A U s Vt -> (i < n)%nat -> (j < n)%nat ->
  sum m (fun r => A r i * A r j) = spectral n Vt (fun k => s k * s k) i j.
Proof.
  intros (HA & HU & _) Hi Hj. unfold spectral.
  rewrite (sum_ext m _ (fun r => sum n (fun k => sum n (fun l => (s k * Vt k i) * (s l * Vt l j) * (U r k * U r l))))).
  - rewrite sum_swap. apply sum_ext. intros k Hk. rewrite sum_swap.
    rewrite (sum_ext n _ (fun l => (s k * Vt k i) * (s l * Vt l j) * eye k l)).
    + rewrite (sum_eye n k (fun l => (s k * Vt k i) * (s l * Vt l j)) Hk). ring.
    + intros l Hl. rewrite sum_scal_l.
      destruct (Req_dec (s k) 0) as [Z|Nk]; [rewrite Z; ring|]. destruct (Req_dec (s l) 0) as [Z|Nl]; [rewrite Z; ring|].
      rewrite <- (HU k l Hk Hl Nk Nl). reflexivity.
  - intros r Hr. rewrite !HA by assumption. rewrite sum_product. apply sum_ext. intros k _. apply sum_ext. intros l _. ring.
Qed.
Lemma upper_product_spectral n v Vt i j :
  upper_product n (fun k i => Vt k i * v k) i j = spectral n Vt (fun k => v k * v k) i j.
Proof. unfold upper_product, spectral. destruct (i <=? j)%nat; apply sum_ext; intros; ring. Qed.

Lemma limits_spec first c s n : match limits first c s n with
  | Some v => forall k, (k < n)%nat -> limit first (s k) c = Some (v k)
  | None => exists k, (k < n)%nat /\ limit first (s k) c = None end.
Proof.
  induction n as [|n IH]; cbn [limits]; [intros k Hk; lia|]. destruct (limits first c s n) as [v|].
  - destruct (limit first (s n) c) as [x|] eqn:E.
    + intros k Hk. destruct (Nat.eqb_spec k n) as [->|N]; [exact E|apply IH; lia].
    + exists n. split; [lia|exact E].
  - destruct IH as (k & Hk & E). exists k. split; [lia|exact E].
Qed.
Lemma svd_direction m n A U s Vt k : full_svd m n A U s Vt -> (k < n)%nat -> vdot n (Vt k) (Vt k) = 1 /\ energy m n A (Vt k) = s k * s k.
Proof.
  intros F Hk. assert (F' := F). destruct F' as (_ & _ & HV & _).
  assert (E := HV k k Hk Hk). unfold eye in E. rewrite Nat.eqb_refl in E. split; [exact E|].
  rewrite (full_svd_energy _ _ _ _ _ _ _ F). rewrite (sum_single _ _ k Hk).
  - replace (mvec n Vt (Vt k) k) with 1 by (symmetry; exact E). ring.
  - intros l Hl N. replace (mvec n Vt (Vt k) l) with 0; [ring|]. assert (G := HV l k Hl Hk). unfold eye in G. rewrite (proj2 (Nat.eqb_neq l k) N) in G. symmetry. exact G.
Qed.
Lemma sqrt_le_scaled a b : 0 <= a -> 0 <= b -> / 10000000000000000 * (b * b) <= a * a -> b * / 100000000 <= a.
Proof.
  intros Ha Hb H. apply Rsqr_incr_0; [unfold Rsqr; lra|lra|exact Ha].
Qed.

(** the common tail: with a well conditioned matrix it inverts the information matrix *)
Lemma from_svd_inverse c m n A sv : gesvd_ok m n A sv -> well_conditioned m n A ->
  exists C, from_svd c n sv = Some C /\ inverse_times n (c * c) (information m (fun _ => 1) A) C.
Proof.
  destruct sv as [s Vt]. intros [U F] [Hn HW]. cbn [fst snd] in *. assert (F' := F). destruct F' as (_ & _ & HV & HV' & S0 & SD).
  assert (P : forall k, (k < n)%nat -> 0 < s k /\ s 0%nat * / 100000000 <= s k).
  { intros k Hk. destruct (svd_direction m n A U s Vt k F Hk) as [U1 E1]. destruct (svd_direction m n A U s Vt 0 F Hn) as [U0 E0].
    destruct (HW (Vt k) (Vt 0%nat) U1 U0) as [W1 W2]. rewrite E1 in W1. rewrite E0, E1 in W2. split.
    - destruct (Rle_lt_or_eq_dec 0 (s k) (S0 k Hk)) as [L|Z]; [exact L|]. rewrite <- Z in W1. lra.
    - apply sqrt_le_scaled; auto. }
  unfold from_svd. cbn [fst snd]. assert (L := limits_spec (s 0%nat) c s n). destruct (limits (s 0%nat) c s n) as [v|].
  - eexists. split; [reflexivity|].
    assert (Hv : forall k, (k < n)%nat -> v k = c / s k).
    { intros k Hk. specialize (L k Hk). destruct (P k Hk) as [P1 P2]. unfold limit in L.
      destruct (Rlt_dec (s k) (s 0%nat * / 100000000)); [lra|]. destruct (Req_EM_T (s k) 0); [lra|]. injection L as L. symmetry. exact L. }
    assert (G : forall i j, (i < n)%nat -> (j < n)%nat -> information m (fun _ => 1) A i j = spectral n Vt (fun k => s k * s k) i j).
    { intros i j Hi Hj. rewrite <- (svd_gram m n A U s Vt i j F Hi Hj). apply sum_ext. intros; ring. }
    split; intros i j Hi Hj; unfold mscale.
    + rewrite (mmul_ext n n n _ (spectral n Vt (fun k => v k * v k)) _ (spectral n Vt (fun k => s k * s k))); [| | |exact Hi|exact Hj].
      * rewrite spectral_mul by exact HV. rewrite (spectral_ext _ _ _ (fun _ => c * c)); [apply spectral_const; assumption|].
        intros k Hk. rewrite Hv by exact Hk. destruct (P k Hk). field. lra.
      * intros a b _ _. apply upper_product_spectral.
      * intros a b Ha Hb. apply G; assumption.
    + rewrite (mmul_ext n n n _ (spectral n Vt (fun k => s k * s k)) _ (spectral n Vt (fun k => v k * v k))); [| | |exact Hi|exact Hj].
      * rewrite spectral_mul by exact HV. rewrite (spectral_ext _ _ _ (fun _ => c * c)); [apply spectral_const; assumption|].
        intros k Hk. rewrite Hv by exact Hk. destruct (P k Hk). field. lra.
      * intros a b Ha Hb. apply G; assumption.
      * intros a b _ _. apply upper_product_spectral.
  - destruct L as (k & Hk & L). destruct (P k Hk) as [P1 P2]. unfold limit in L.
    destruct (Rlt_dec (s k) (s 0%nat * / 100000000)); [lra|]. destruct (Req_EM_T (s k) 0); [lra|discriminate].
Qed.

(** * C117: measurements with covariance s I *)
Theorem back_identity_inverse : forall gesvd m n s J, gesvd_ok m n J (gesvd m n J) -> well_conditioned m n J -> 0 <= s ->
  exists C, back_identity gesvd m n s J = Some C /\ inverse_times n s (information m (fun _ => 1) J) C.
Proof.
  intros gesvd m n s J HG HW Hs. destruct (from_svd_inverse (sqrt s) m n J _ HG HW) as (C & E & I).
  exists C. split; [exact E|]. rewrite sqrt_sqrt in I by exact Hs. exact I.
Qed.
Print Assumptions back_identity_inverse.
(** the inverse is unique, so the result does not depend on the decomposition *)
Theorem inverse_times_unique : forall n c M C C', c <> 0 -> inverse_times n c M C -> inverse_times n c M C' -> meq n n C C'.
Proof.
  intros n c M C C' Hc [A1 A2] [B1 B2] i j Hi Hj.
  assert (E : c * C i j = c * C' i j).
  { transitivity (mmul n C (mscale c eye) i j).
    { unfold mmul, mscale. rewrite (sum_single _ _ j Hj); [unfold eye; rewrite Nat.eqb_refl; ring|].
      intros k _ N. unfold eye. rewrite (proj2 (Nat.eqb_neq k j) N). ring. }
    transitivity (mmul n C (mmul n M C') i j). { symmetry. apply (mmul_ext n n n); [intros a b _ _; reflexivity|intros a b Ha Hb; apply B2; assumption|exact Hi|exact Hj]. }
    rewrite <- mmul_assoc. transitivity (mmul n (mscale c eye) C' i j). { apply (mmul_ext n n n); [intros a b Ha Hb; apply A1; assumption|intros a b _ _; reflexivity|exact Hi|exact Hj]. }
    unfold mmul, mscale. rewrite (sum_single _ _ i Hi); [unfold eye; rewrite Nat.eqb_refl; ring|].
    intros k _ N. unfold eye. rewrite (proj2 (Nat.eqb_neq i k)) by congruence. ring. }
  apply (Rmult_eq_reg_l c); assumption.
Qed.
Print Assumptions inverse_times_unique.
(** whatever the decomposition is, the result is symmetric and positive semidefinite *)
Lemma upper_product_symm n A i j : upper_product n A i j = upper_product n A j i.
Proof.
  unfold upper_product. destruct (Nat.leb_spec i j), (Nat.leb_spec j i); try reflexivity; try lia.
  apply sum_ext; intros; ring.
Qed.
Lemma upper_product_psd n A x : 0 <= vdot n x (mvec n (upper_product n A) x).
Proof.
  replace (vdot n x (mvec n (upper_product n A) x)) with (sum n (fun k => mvec n A x k * mvec n A x k)).
  - apply sum_nonneg. intros. apply Rle_0_sqr.
  - unfold vdot, mvec. rewrite (sum_ext n _ (fun k => sum n (fun i => sum n (fun j => x i * (A k i * A k j * x j))))).
    + rewrite sum_swap. apply sum_ext. intros i _. rewrite sum_swap. rewrite <- sum_scal_l. apply sum_ext. intros j _.
      rewrite sum_scal_l. rewrite sum_scal_r. f_equal. unfold upper_product. f_equal. destruct (i <=? j)%nat; apply sum_ext; intros; ring.
    + intros k _. rewrite sum_product. apply sum_ext. intros i _. apply sum_ext. intros; ring.
Qed.
Theorem back_identity_covariance : forall gesvd m n s J C, back_identity gesvd m n s J = Some C ->
  (forall i j, C i j = C j i) /\ forall x, 0 <= vdot n x (mvec n C x).
Proof.
  intros gesvd m n s J C H. unfold back_identity, from_svd in H.
  destruct (limits _ _ _ _) as [v|]; [|discriminate]. injection H as <-.
  split; [intros; apply upper_product_symm|intros; apply upper_product_psd].
Qed.
Print Assumptions back_identity_covariance.
(** the result is undefined exactly for J = 0 *)
Theorem back_identity_undefined : forall gesvd m n s J, (0 < n)%nat -> gesvd_ok m n J (gesvd m n J) ->
  (back_identity gesvd m n s J = None <-> forall i j, (i < m)%nat -> (j < n)%nat -> J i j = 0).
Proof.
  intros gesvd m n s J Hn HG. unfold back_identity. destruct (gesvd m n J) as [sv Vt]. destruct HG as [U F]. cbn [fst snd] in F.
  assert (F' := F). destruct F' as (HA & _ & _ & _ & S0 & SD).
  unfold from_svd. cbn [fst snd]. assert (L := limits_spec (sv 0%nat) (sqrt s) sv n). destruct (limits _ _ _ _) as [v|]; cbn [option_map].
  - split; [discriminate|]. intros Z. exfalso.
    assert (E0 : sv 0%nat = 0).
    { destruct (svd_direction m n J U sv Vt 0 F Hn) as [_ E]. unfold energy in E.
      rewrite sum_zero in E. { apply Rmult_integral in E || (symmetry in E; apply Rmult_integral in E). destruct E; assumption. }
      intros i Hi. unfold mvec. rewrite sum_zero; [ring|]. intros j Hj. rewrite Z by assumption. ring. }
    specialize (L 0%nat Hn). unfold limit in L. rewrite E0 in L. destruct (Rlt_dec 0 (0 * / 100000000)); [lra|]. destruct (Req_EM_T 0 0); [discriminate|lra].
  - split; [|reflexivity]. intros _ i j Hi Hj. destruct L as (k & Hk & L). unfold limit in L.
    destruct (Rlt_dec (sv k) (sv 0%nat * / 100000000)) as [|N]; [discriminate|]. destruct (Req_EM_T (sv k) 0) as [Z|]; [|discriminate].
    assert (A0 := S0 0%nat Hn). assert (E0 : sv 0%nat = 0) by lra.
    rewrite HA by assumption. apply sum_zero. intros l Hl. assert (sv l = 0) as ->; [|ring].
    assert (P1 := SD 0%nat l ltac:(lia)). assert (P2 := S0 l Hl). lra.
Qed.
Print Assumptions back_identity_undefined.
(** singular values that are exactly zero are left out: the result is s times the pseudo-inverse of J^T J *)
Theorem back_identity_pseudo : forall gesvd m n s J, (0 < n)%nat -> gesvd_ok m n J (gesvd m n J) -> 0 < s ->
  (forall k, (k < n)%nat -> fst (gesvd m n J) k = 0 \/ fst (gesvd m n J) 0%nat * / 100000000 <= fst (gesvd m n J) k) ->
  forall C, back_identity gesvd m n s J = Some C -> penrose n n (information m (fun _ => 1) J) (mscale (1 / s) C).
Proof.
  intros gesvd m n s J Hn HG Hs HK C H. unfold back_identity in H. destruct (gesvd m n J) as [sv Vt]. destruct HG as [U F]. cbn [fst snd] in *.
  assert (F' := F). destruct F' as (HA & _ & HV & _ & S0 & SD).
  unfold from_svd in H. cbn [fst snd] in H. assert (L := limits_spec (sv 0%nat) (sqrt s) sv n). destruct (limits _ _ _ _) as [v|]; [|discriminate]. injection H as <-.
  set (w := fun k => 1 / s * (v k * v k)). set (q := fun k => sv k * sv k).
  assert (Hw : forall k, (k < n)%nat -> q k * w k * q k = q k /\ w k * q k * w k = w k).
  { intros k Hk. specialize (L k Hk). unfold limit in L. unfold w, q.
    destruct (HK k Hk) as [Z|G].
    - destruct (Rlt_dec (sv k) (sv 0%nat * / 100000000)) as [|N].
      + injection L as <-. rewrite Z. split; ring.
      + exfalso. destruct (Req_EM_T (sv k) 0) as [|Q]; [discriminate|congruence].
    - destruct (Rlt_dec (sv k) (sv 0%nat * / 100000000)); [lra|]. destruct (Req_EM_T (sv k) 0) as [|Q]; [discriminate|].
      injection L as <-.
      replace (1 / s * (sqrt s / sv k * (sqrt s / sv k))) with (1 / s * (sqrt s * sqrt s) / (sv k * sv k)) by (field; split; lra).
      rewrite sqrt_sqrt by lra. split; field; split; lra. }
  assert (G : forall i j, (i < n)%nat -> (j < n)%nat -> information m (fun _ => 1) J i j = spectral n Vt q i j).
  { intros i j Hi Hj. unfold q. rewrite <- (svd_gram m n J U sv Vt i j F Hi Hj). apply sum_ext. intros; ring. }
  assert (X : forall i j, mscale (1 / s) (upper_product n (fun k i => Vt k i * v k)) i j = spectral n Vt w i j).
  { intros i j. unfold mscale. rewrite upper_product_spectral. unfold spectral, w. rewrite <- sum_scal_l. apply sum_ext. intros; ring. }
  set (M := information m (fun _ => 1) J) in *. set (Y := mscale (1 / s) _) in *.
  assert (MY : forall i j, (i < n)%nat -> mmul n M Y i j = spectral n Vt (fun k => q k * w k) i j).
  { intros i j Hi. rewrite <- spectral_mul by exact HV. apply sum_ext. intros l Hl. rewrite G, X by assumption. reflexivity. }
  assert (YM : forall i j, (j < n)%nat -> mmul n Y M i j = spectral n Vt (fun k => w k * q k) i j).
  { intros i j Hj. rewrite <- spectral_mul by exact HV. apply sum_ext. intros l Hl. rewrite G, X by assumption. reflexivity. }
  repeat split; intros i j Hi Hj.
  - rewrite G by assumption. transitivity (mmul n (spectral n Vt (fun k => q k * w k)) (spectral n Vt q) i j).
    + apply sum_ext. intros l Hl. rewrite MY, G by assumption. reflexivity.
    + rewrite spectral_mul by exact HV. apply spectral_ext. intros k Hk. apply Hw, Hk.
  - rewrite X. transitivity (mmul n (spectral n Vt (fun k => w k * q k)) (spectral n Vt w) i j).
    + apply sum_ext. intros l Hl. rewrite YM, X by assumption. reflexivity.
    + rewrite spectral_mul by exact HV. apply spectral_ext. intros k Hk. apply Hw, Hk.
  - unfold tr. rewrite !MY by assumption. apply spectral_symm.
  - unfold tr. rewrite !YM by assumption. apply spectral_symm.
Qed.
Print Assumptions back_identity_pseudo.

(** * C118: measurements with covariance diag(e) or E *)
(** what is computed: only the first n measurements are weighted *)
Theorem back_diagonal_computes : forall gesvd m n e J, (n <= m)%nat -> (forall i, (i < n)%nat -> 0 < e i) ->
  gesvd_ok m n (weigh_rows n e J) (gesvd m n (weigh_rows n e J)) -> well_conditioned m n (weigh_rows n e J) ->
  exists C, back_diagonal gesvd m n e J = Some C /\
    inverse_times n 1 (information m (fun r => if (r <? n)%nat then / e r else 1) J) C.
Proof.
  intros gesvd m n e J Hm He HG HW. destruct (from_svd_inverse 1 m n _ _ HG HW) as (C & E & I1 & I2).
  exists C. split; [exact E|].
  assert (G : forall i j, information m (fun r => if (r <? n)%nat then / e r else 1) J i j = information m (fun _ => 1) (weigh_rows n e J) i j).
  { intros i j. apply sum_ext. intros r Hr. unfold weigh_rows. destruct (Nat.ltb_spec r n) as [L|L]; [|ring].
    assert (P := He r L). assert (S1 := sqrt_lt_R0 _ P). rewrite <- (sqrt_sqrt (e r)) at 1 by lra. field. lra. }
  split; intros i j Hi Hj.
  - rewrite Rmult_1_r in I1. rewrite <- (I1 i j Hi Hj). apply sum_ext. intros l _. rewrite G. reflexivity.
  - rewrite Rmult_1_r in I2. rewrite <- (I2 i j Hi Hj). apply sum_ext. intros l _. rewrite G. reflexivity.
Qed.
Print Assumptions back_diagonal_computes.
(** correct for as many measurements as parameters *)
Theorem back_diagonal_square : forall gesvd n e J, (forall i, (i < n)%nat -> 0 < e i) ->
  gesvd_ok n n (weigh_rows n e J) (gesvd n n (weigh_rows n e J)) -> well_conditioned n n (weigh_rows n e J) ->
  exists C, back_diagonal gesvd n n e J = Some C /\ inverse_times n 1 (information n (fun r => / e r) J) C.
Proof.
  intros gesvd n e J He HG HW. destruct (back_diagonal_computes gesvd n n e J (Nat.le_refl n) He HG HW) as (C & E & I1 & I2).
  assert (G : forall i j, information n (fun r => if (r <? n)%nat then / e r else 1) J i j = information n (fun r => / e r) J i j).
  { intros i j. apply sum_ext. intros r Hr. rewrite (proj2 (Nat.ltb_lt r n) Hr). reflexivity. }
  exists C. split; [exact E|]. split; intros i j Hi Hj.
  - rewrite <- (I1 i j Hi Hj). apply sum_ext. intros l _. rewrite G. reflexivity.
  - rewrite <- (I2 i j Hi Hj). apply sum_ext. intros l _. rewrite G. reflexivity.
Qed.
Print Assumptions back_diagonal_square.
(** wrong otherwise: two measurements of one parameter with variances 1 and 4 *)
Lemma column_conditioned m J : 0 < sum m (fun i => J i 0%nat * J i 0%nat) -> well_conditioned m 1 J.
Proof.
  intros HP. split; [lia|]. intros x y Hx Hy. unfold vdot in Hx, Hy. cbn [sum] in Hx, Hy.
  assert (E : forall z, energy m 1 J z = z 0%nat * z 0%nat * sum m (fun i => J i 0%nat * J i 0%nat)).
  { intros z. unfold energy, mvec. rewrite <- sum_scal_l. apply sum_ext. intros. cbn [sum]. ring. }
  rewrite !E. replace (x 0%nat * x 0%nat) with 1 by lra. replace (y 0%nat * y 0%nat) with 1 by lra. lra.
Qed.
Theorem back_diagonal_refuted : exists m n e J, (n <= m)%nat /\ (forall i, (i < m)%nat -> 0 < e i) /\ well_conditioned m n (weigh_rows n e J) /\
  forall gesvd, gesvd_ok m n (weigh_rows n e J) (gesvd m n (weigh_rows n e J)) ->
  exists C, back_diagonal gesvd m n e J = Some C /\ ~ inverse_times n 1 (information m (fun r => / e r) J) C.
Proof.
  exists 2%nat, 1%nat, (vlist [1; 4]), (fun _ _ => 1). split; [lia|]. split.
  { intros i Hi. idx i Hi; unfold vlist; cbn [nth]; lra. }
  assert (W : well_conditioned 2 1 (weigh_rows 1 (vlist [1; 4]) (fun _ _ => 1))).
  { apply column_conditioned. unfold weigh_rows, vlist. cbn [sum nth Nat.ltb Nat.leb]. rewrite sqrt_1. lra. }
  split; [exact W|]. intros gesvd HG.
  destruct (back_diagonal_computes gesvd 2 1 (vlist [1; 4]) (fun _ _ => 1)) as (C & E & I1 & _); [lia| |exact HG|exact W|].
  { intros i Hi. replace i with 0%nat by lia. unfold vlist. cbn [nth]. lra. }
  exists C. split; [exact E|]. intros [B _].
  assert (A1 := I1 0%nat 0%nat ltac:(lia) ltac:(lia)). assert (B1 := B 0%nat 0%nat ltac:(lia) ltac:(lia)).
  unfold mmul, information, mscale, eye, vlist in A1, B1. cbn [sum nth Nat.ltb Nat.leb Nat.eqb] in A1, B1. lra.
Qed.
Print Assumptions back_diagonal_refuted.

(** syev: E = Z diag(t) Z^T with Z orthogonal, t ascending *)
Definition syev_ok (m : nat) (E : mat) (tz : vect * mat) : Prop :=
  (forall i j, (i < m)%nat -> (j < m)%nat -> E i j = sum m (fun k => snd tz i k * fst tz k * snd tz j k)) /\
  meq m m (mmul m (tr (snd tz)) (snd tz)) eye /\ meq m m (mmul m (snd tz) (tr (snd tz))) eye /\
  (forall k l, (k <= l < m)%nat -> fst tz k <= fst tz l).
Lemma syev_eigen m E t Z i k : syev_ok m E (t, Z) -> (i < m)%nat -> (k < m)%nat -> mmul m E Z i k = Z i k * t k.
Proof.
  intros (HE & HZ & _ & _) Hi Hk. cbn [fst snd] in *. unfold mmul.
  rewrite (sum_ext m _ (fun j => sum m (fun l => Z i l * t l * (Z j l * Z j k)))).
  2: { intros j Hj. rewrite HE by assumption. rewrite <- sum_scal_r. apply sum_ext; intros; ring. }
  rewrite sum_swap. rewrite (sum_ext m _ (fun l => Z i l * t l * eye k l)).
  - rewrite (sum_eye m k (fun l => Z i l * t l) Hk). reflexivity.
  - intros l Hl. rewrite sum_scal_l. f_equal. rewrite <- (HZ k l Hk Hl). unfold mmul, tr. apply sum_ext; intros; ring.
Qed.
Lemma inv_roots_spec first t n : (forall k, (k < n)%nat -> first * / 100000000 <= t k /\ 0 < t k) ->
  exists v, inv_roots first t n = Some v /\ forall k, (k < n)%nat -> v k = 1 / sqrt (t k).
Proof.
  induction n as [|n IH]; intros H; cbn [inv_roots]; [exists t; split; [reflexivity|intros; lia]|].
  destruct IH as (v & -> & Hv). { intros k Hk. apply H. lia. }
  destruct (H n ltac:(lia)) as [H1 H2].
  destruct (Rlt_dec (t n) (first * / 100000000)); [lra|]. destruct (Rle_dec (t n) 0); [lra|].
  eexists. split; [reflexivity|]. intros k Hk. cbv beta. destruct (Nat.eqb_spec k n) as [->|N]; [reflexivity|apply Hv; lia].
Qed.
(** JᵀE⁻¹J *)
Definition general_information (m : nat) (Ei J : mat) : mat := mmul m (tr J) (mmul m Ei J).

(** wrong in general: the code multiplies by Q instead of its transpose.  Three direct measurements
    of three parameters with variances 3, 1 and 2 get the variances 2, 3 and 1. *)
Definition ex_E : mat := mlist [[3; 0; 0]; [0; 1; 0]; [0; 0; 2]].
Definition ex_Ei : mat := mlist [[/ 3; 0; 0]; [0; 1; 0]; [0; 0; / 2]].
Lemma ex_syev t Z : syev_ok 3 ex_E (t, Z) ->
  t 0%nat = 1 /\ t 1%nat = 2 /\ t 2%nat = 3 /\ Z 0%nat 0%nat = 0 /\ Z 0%nat 1%nat = 0 /\ Z 0%nat 2%nat * Z 0%nat 2%nat = 1 /\
  Z 1%nat 0%nat * Z 1%nat 0%nat = 1 /\ Z 1%nat 1%nat = 0 /\ Z 1%nat 2%nat = 0 /\
  Z 2%nat 0%nat = 0 /\ Z 2%nat 1%nat * Z 2%nat 1%nat = 1 /\ Z 2%nat 2%nat = 0.
Proof.
  intros H.
  assert (E : forall i k, (i < 3)%nat -> (k < 3)%nat -> Z i k = 0 \/ t k = ex_E i i).
  { intros i k Hi Hk. assert (G := syev_eigen 3 ex_E t Z i k H Hi Hk).
    assert (D : mmul 3 ex_E Z i k = ex_E i i * Z i k) by (idx i Hi; unfold mmul, ex_E, mlist, vlist; cbn [sum nth]; ring).
    rewrite D in G. assert (Q : Z i k * (t k - ex_E i i) = 0) by lra. apply Rmult_integral in Q. destruct Q; [left; assumption|right; lra]. }
  destruct H as (_ & HC & HR & HS). cbn [fst snd] in *.
  assert (C0 := HC 0%nat 0%nat ltac:(lia) ltac:(lia)). assert (C1 := HC 1%nat 1%nat ltac:(lia) ltac:(lia)). assert (C2 := HC 2%nat 2%nat ltac:(lia) ltac:(lia)).
  assert (R0 := HR 0%nat 0%nat ltac:(lia) ltac:(lia)). assert (R1 := HR 1%nat 1%nat ltac:(lia) ltac:(lia)). assert (R2 := HR 2%nat 2%nat ltac:(lia) ltac:(lia)).
  unfold mmul, tr, eye in C0, C1, C2, R0, R1, R2. cbn [sum Nat.eqb] in C0, C1, C2, R0, R1, R2.
  assert (S01 := HS 0%nat 1%nat ltac:(lia)). assert (S12 := HS 1%nat 2%nat ltac:(lia)).
  assert (E00 := E 0%nat 0%nat ltac:(lia) ltac:(lia)). assert (E01 := E 0%nat 1%nat ltac:(lia) ltac:(lia)). assert (E02 := E 0%nat 2%nat ltac:(lia) ltac:(lia)).
  assert (E10 := E 1%nat 0%nat ltac:(lia) ltac:(lia)). assert (E11 := E 1%nat 1%nat ltac:(lia) ltac:(lia)). assert (E12 := E 1%nat 2%nat ltac:(lia) ltac:(lia)).
  assert (E20 := E 2%nat 0%nat ltac:(lia) ltac:(lia)). assert (E21 := E 2%nat 1%nat ltac:(lia) ltac:(lia)). assert (E22 := E 2%nat 2%nat ltac:(lia) ltac:(lia)).
  unfold ex_E, mlist in E00, E01, E02, E10, E11, E12, E20, E21, E22. cbn [nth] in E00, E01, E02, E10, E11, E12, E20, E21, E22.
  clear E HC HR HS.
  destruct E00 as [X00|E00]; [|exfalso; destruct E10 as [Y10|Y10]; [|lra]; destruct E20 as [Y20|Y20]; [|lra];
    (destruct E11 as [Y11|Y11]; [|lra]); (destruct E12 as [Y12|Y12]; [|lra]); rewrite Y10, Y11, Y12 in R1; lra].
  destruct E20 as [X20|E20]; [|exfalso; destruct E10 as [Y10|Y10]; [|lra];
    (destruct E11 as [Y11|Y11]; [|lra]); (destruct E12 as [Y12|Y12]; [|lra]); rewrite Y10, Y11, Y12 in R1; lra].
  destruct E10 as [Y10|T0]; [exfalso; rewrite X00, Y10, X20 in C0; lra|].
  destruct E02 as [Y02|T2].
  { exfalso. destruct E01 as [Y01|T1]; [rewrite X00, Y01, Y02 in R0; lra|]. destruct E12 as [Y12|]; [|lra]. destruct E22 as [Y22|]; [|lra].
    rewrite Y02, Y12, Y22 in C2. lra. }
  destruct E22 as [X22|]; [|lra]. destruct E12 as [X12|]; [|lra].
  destruct E21 as [Y21|T1]; [exfalso; rewrite X20, Y21, X22 in R2; lra|].
  destruct E01 as [X01|]; [|lra]. destruct E11 as [X11|]; [|lra].
  rewrite X00, X20 in C0. rewrite X01, X11 in C1. rewrite X12, X22 in C2.
  repeat split; lra.
Qed.
Theorem back_general_refuted : exists n E Ei J, inverse_times n 1 E Ei /\
  forall syev gesvd, syev_ok n E (syev n E) -> (forall A, gesvd_ok n n A (gesvd n n A)) ->
  exists C, back_general syev gesvd n n E J = Some C /\ ~ inverse_times n 1 (general_information n Ei J) C.
Proof.
  exists 3%nat, ex_E, ex_Ei, eye. split.
  { split; intros i j Hi Hj; idx i Hi; idx j Hj; unfold mmul, mscale, ex_E, ex_Ei, eye, mlist, vlist; cbn [sum nth Nat.eqb]; field. }
  intros syev gesvd HS HG. unfold back_general. destruct (syev 3%nat ex_E) as [t Z].
  destruct (ex_syev t Z HS) as (T0 & T1 & T2 & Z00 & Z01 & Z02 & Z10 & Z11 & Z12 & Z20 & Z21 & Z22).
  destruct (inv_roots_spec (t 0%nat) t 3) as (v & Ev & Hv).
  { intros k Hk. idx k Hk; rewrite ?T0, ?T1, ?T2; lra. }
  rewrite Ev. set (A := fun i j => if (i <? 3)%nat then mmul 3 Z eye i j * v i else mmul 3 Z eye i j).
  assert (AZ : forall i j, (i < 3)%nat -> (j < 3)%nat -> A i j = Z i j * v i).
  { intros i j Hi Hj. unfold A. rewrite (proj2 (Nat.ltb_lt i 3) Hi). rewrite mmul_eye_r by exact Hj. reflexivity. }
  assert (V0 : v 0%nat * v 0%nat = 1) by (rewrite Hv, T0, sqrt_1 by lia; lra).
  assert (V1 : v 1%nat * v 1%nat = / 2).
  { rewrite Hv, T1 by lia. assert (P := sqrt_lt_R0 2 ltac:(lra)). replace (1 / sqrt 2 * (1 / sqrt 2)) with (/ (sqrt 2 * sqrt 2)) by (field; lra). rewrite sqrt_sqrt by lra. reflexivity. }
  assert (V2 : v 2%nat * v 2%nat = / 3).
  { rewrite Hv, T2 by lia. assert (P := sqrt_lt_R0 3 ltac:(lra)). replace (1 / sqrt 3 * (1 / sqrt 3)) with (/ (sqrt 3 * sqrt 3)) by (field; lra). rewrite sqrt_sqrt by lra. reflexivity. }
  assert (W : well_conditioned 3 3 A).
  { split; [lia|]. intros x y Hx Hy. unfold vdot in Hx, Hy. cbn [sum] in Hx, Hy.
    assert (En : forall z, energy 3 3 A z = z 2%nat * z 2%nat + / 2 * (z 0%nat * z 0%nat) + / 3 * (z 1%nat * z 1%nat)).
    { intros z. unfold energy, mvec. cbn [sum]. rewrite !AZ by lia. rewrite Z00, Z01, Z11, Z12, Z20, Z22.
      transitivity ((Z 0%nat 2%nat * Z 0%nat 2%nat) * (v 0%nat * v 0%nat) * (z 2%nat * z 2%nat) + (Z 1%nat 0%nat * Z 1%nat 0%nat) * (v 1%nat * v 1%nat) * (z 0%nat * z 0%nat)
        + (Z 2%nat 1%nat * Z 2%nat 1%nat) * (v 2%nat * v 2%nat) * (z 1%nat * z 1%nat)); [ring|].
      rewrite Z02, Z10, Z21, V0, V1, V2. ring. }
    rewrite !En. assert (X0 := Rle_0_sqr (x 0%nat)). assert (X1 := Rle_0_sqr (x 1%nat)). assert (X2 := Rle_0_sqr (x 2%nat)).
    assert (Y0 := Rle_0_sqr (y 0%nat)). assert (Y1 := Rle_0_sqr (y 1%nat)). assert (Y2 := Rle_0_sqr (y 2%nat)). unfold Rsqr in *. lra. }
  destruct (from_svd_inverse 1 3 3 A _ (HG A) W) as (C & EC & I1 & _). exists C. split; [exact EC|]. intros [B _].
  assert (A1 := I1 0%nat 0%nat ltac:(lia) ltac:(lia)). assert (B1 := B 0%nat 0%nat ltac:(lia) ltac:(lia)).
  unfold mmul at 1 in A1. unfold mmul at 1 in B1. unfold information in A1. cbn [sum] in A1, B1. rewrite !AZ in A1 by lia.
  rewrite Z00, Z01, Z11, Z12, Z20, Z22 in A1.
  unfold general_information, mmul, tr, ex_Ei, eye, mlist, vlist, mscale in B1. cbn [sum nth Nat.eqb] in B1.
  unfold mscale, eye in A1. cbn [Nat.eqb] in A1.
  assert (K : C 0%nat 0%nat * ((Z 1%nat 0%nat * Z 1%nat 0%nat) * (v 1%nat * v 1%nat)) = 1) by lra.
  rewrite Z10, V1 in K. lra.
Qed.
Print Assumptions back_general_refuted.
(** right if the matrix of eigenvectors happens to be symmetric and n = m *)
Theorem back_general_symmetric : forall syev gesvd n E Ei J t Z, syev n E = (t, Z) -> syev_ok n E (t, Z) ->
  (forall i j, (i < n)%nat -> (j < n)%nat -> Z i j = Z j i) -> 0 < t 0%nat -> inverse_times n 1 E Ei ->
  (forall A, gesvd_ok n n A (gesvd n n A)) ->
  well_conditioned n n (fun i j => mmul n Z J i j * (1 / sqrt (t i))) ->
  exists C, back_general syev gesvd n n E J = Some C /\ inverse_times n 1 (general_information n Ei J) C.
Proof.
  intros syev gesvd n E Ei J t Z Es HS HZ Ht HE HG HW. assert (HS' := HS). destruct HS' as (FE & HC & HR & HA). cbn [fst snd] in *.
  assert (P : forall k, (k < n)%nat -> 0 < t k) by (intros k Hk; assert (G := HA 0%nat k ltac:(lia)); lra).
  unfold back_general. rewrite Es. destruct (inv_roots_spec (t 0%nat) t n) as (v & Ev & Hv).
  { intros k Hk. assert (G := HA 0%nat k ltac:(lia)). lra. }
  rewrite Ev. set (A := fun i j => if (i <? n)%nat then mmul n Z J i j * v i else mmul n Z J i j).
  assert (AW : forall i j, (i < n)%nat -> A i j = mmul n Z J i j * (1 / sqrt (t i))).
  { intros i j Hi. unfold A. rewrite (proj2 (Nat.ltb_lt i n) Hi), Hv by exact Hi. reflexivity. }
  assert (W : well_conditioned n n A).
  { destruct HW as [Hn HW]. split; [exact Hn|]. intros x y Hx Hy. specialize (HW x y Hx Hy).
    assert (En : forall z, energy n n A z = energy n n (fun i j => mmul n Z J i j * (1 / sqrt (t i))) z).
    { intros z. unfold energy. apply sum_ext. intros i Hi. assert (M : mvec n A z i = mvec n (fun i j => mmul n Z J i j * (1 / sqrt (t i))) z i).
      { unfold mvec. apply sum_ext. intros j _. rewrite AW by exact Hi. reflexivity. } rewrite M. reflexivity. }
    rewrite !En. exact HW. }
  destruct (from_svd_inverse 1 n n A _ (HG A) W) as (C & EC & I1 & I2). exists C. split; [exact EC|].
  (* E^-1 = Z T^-1 Z^T *)
  assert (ZI : forall f g i j, mmul n (spectral n (tr Z) f) (spectral n (tr Z) g) i j = spectral n (tr Z) (fun k => f k * g k) i j).
  { intros f g i j. apply spectral_mul. exact HC. }
  assert (FEs : forall i j, (i < n)%nat -> (j < n)%nat -> E i j = spectral n (tr Z) t i j).
  { intros i j Hi Hj. rewrite FE by assumption. unfold spectral, tr. apply sum_ext; intros; ring. }
  assert (EI : meq n n Ei (spectral n (tr Z) (fun k => / t k))).
  { apply (inverse_times_unique n 1 E); [lra|exact HE|]. split; intros i j Hi Hj.
    - transitivity (mmul n (spectral n (tr Z) (fun k => / t k)) (spectral n (tr Z) t) i j); [apply sum_ext; intros l Hl; rewrite FEs by assumption; reflexivity|].
      rewrite ZI. rewrite (spectral_ext _ _ _ (fun _ => 1)); [apply spectral_const; [exact HR|exact Hi|exact Hj]|]. intros k Hk. field. assert (Q := P k Hk). lra.
    - transitivity (mmul n (spectral n (tr Z) t) (spectral n (tr Z) (fun k => / t k)) i j); [apply sum_ext; intros l Hl; rewrite FEs by assumption; reflexivity|].
      rewrite ZI. rewrite (spectral_ext _ _ _ (fun _ => 1)); [apply spectral_const; [exact HR|exact Hi|exact Hj]|]. intros k Hk. field. assert (Q := P k Hk). lra. }
  assert (G : meq n n (general_information n Ei J) (information n (fun _ => 1) A)).
  { intros i j Hi Hj. unfold general_information, information.
    rewrite (sum_ext n (fun r => 1 * (A r i * A r j)) (fun r => sum n (fun p => sum n (fun q => (J p i * J q j) * (/ t r * (Z r p * Z r q)))))).
    - rewrite sum_swap. unfold mmul, tr. apply sum_ext. intros p Hp. rewrite sum_swap. rewrite <- sum_scal_l. apply sum_ext. intros q Hq.
      rewrite sum_scal_l. rewrite EI by assumption. unfold spectral, tr.
      replace (sum n (fun r => / t r * (Z r p * Z r q))) with (sum n (fun k => / t k * (Z p k * Z q k))); [ring|].
      apply sum_ext. intros k Hk. rewrite (HZ p k), (HZ q k) by assumption. reflexivity.
    - intros r Hr. rewrite !AW by exact Hr. unfold mmul.
      assert (S1 := sqrt_lt_R0 _ (P r Hr)). assert (S2 : / t r = 1 / sqrt (t r) * (1 / sqrt (t r))).
      { rewrite <- (sqrt_sqrt (t r)) at 1 by (assert (Q := P r Hr); lra). field. lra. }
      rewrite S2. set (c := 1 / sqrt (t r)).
      transitivity (c * c * (sum n (fun p => Z r p * J p i) * sum n (fun q => Z r q * J q j))); [ring|].
      rewrite sum_product. rewrite <- sum_scal_l. apply sum_ext. intros p _. rewrite <- sum_scal_l. apply sum_ext. intros q _. ring. }
  rewrite Rmult_1_r in I1, I2. split; intros i j Hi Hj.
  - rewrite <- (I1 i j Hi Hj). apply sum_ext. intros l Hl. rewrite G by assumption. reflexivity.
  - rewrite <- (I2 i j Hi Hj). apply sum_ext. intros l Hl. rewrite G by assumption. reflexivity.
Qed.
Print Assumptions back_general_symmetric.

(** * Examples *)
Example identity_case : well_conditioned 2 1 (mlist [[3]; [4]]) /\ gesvd_ok 2 1 (mlist [[3]; [4]]) (vlist [5], mlist [[1]]) /\
  exists C, from_svd (sqrt 2) 1 (vlist [5], mlist [[1]]) = Some C /\ C 0%nat 0%nat = 2 / 25.
Proof.
  split; [apply column_conditioned; unfold mlist; cbn [sum nth]; lra|].
  assert (G : gesvd_ok 2 1 (mlist [[3]; [4]]) (vlist [5], mlist [[1]])).
  { exists (mlist [[3 / 5]; [4 / 5]]). unfold full_svd. cbn [fst snd]. repeat split.
    - intros i j Hi Hj. replace j with 0%nat by lia. idx i Hi; unfold mlist, vlist; cbn [sum nth]; field.
    - intros k l Hk Hl _ _. replace k with 0%nat by lia. replace l with 0%nat by lia. unfold mmul, tr, eye, mlist. cbn [sum nth Nat.eqb]. field.
    - intros k l Hk Hl. replace k with 0%nat by lia. replace l with 0%nat by lia. unfold mmul, tr, eye, mlist. cbn [sum nth Nat.eqb]. field.
    - intros k l Hk Hl. replace k with 0%nat by lia. replace l with 0%nat by lia. unfold mmul, tr, eye, mlist. cbn [sum nth Nat.eqb]. field.
    - intros k Hk. replace k with 0%nat by lia. unfold vlist. cbn [nth]. lra.
    - intros k l H. replace k with 0%nat by lia. replace l with 0%nat by lia. lra. }
  split; [exact G|].
  destruct (from_svd_inverse (sqrt 2) 2 1 (mlist [[3]; [4]]) _ G) as (C & E & I1 & _).
  { apply column_conditioned. unfold mlist. cbn [sum nth]. lra. }
  exists C. split; [exact E|]. assert (A := I1 0%nat 0%nat ltac:(lia) ltac:(lia)).
  unfold mmul, information, mscale, eye, mlist in A. cbn [sum nth Nat.eqb] in A. rewrite sqrt_sqrt in A by lra. lra.
Qed.
