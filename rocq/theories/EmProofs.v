(** Support for the monotonicity of expectation maximisation (C79): the product rule for
    determinants of any size, the determinant of a positive definite matrix, and the
    inequality  ln det S + n <= ln det A + trace (A^-1 S).  Models no code. *)
From Coq Require Import Reals Lra Lia Bool Arith List Setoid Morphisms.
Import ListNotations.
From Verif Require Import Mat MatSetoid MatPd LinAlg LuDet LuDetProps DltProofs Spectral ContractsProps.
Open Scope R_scope.

Lemma ln_below t : 0 < t -> ln t <= t - 1.
Proof. intros H. pose proof (exp_ineq1_le (ln t)) as E. rewrite exp_ln in E by exact H. lra. Qed.

Section product.
Variables (n : nat) (D : mat -> R).
Hypothesis HD : is_det n D.
Lemma det_unique F : is_det n F -> forall A, F A = D A.
Proof.
  intros HF A. destruct (getrf_exists n A) as (f & Hf).
  rewrite <- (lu_determinant n D (fun _ _ => f) A HD Hf). symmetry. exact (lu_determinant n F (fun _ _ => f) A HF Hf).
Qed.
Lemma row_set_mmul A B i r : meq n n (mmul n (row_set A i r) B) (row_set (mmul n A B) i (fun j => sum n (fun l => r l * B l j))).
Proof. intros k j Hk Hj. unfold mmul, row_set. destruct (Nat.eqb_spec k i); reflexivity. Qed.
Lemma right_linear B A i c r s : (i < n)%nat ->
  D (mmul n (row_set A i (fun j => c * r j + s j)) B) = c * D (mmul n (row_set A i r) B) + D (mmul n (row_set A i s) B).
Proof.
  intros Hi. rewrite !(det_ext n D HD _ _ (row_set_mmul A B i _)). rewrite <- (det_linear n D HD) by exact Hi.
  apply (det_ext n D HD). intros k j Hk Hj. unfold row_set. destruct (Nat.eqb_spec k i); [|reflexivity].
  rewrite <- sum_scal_l, <- sum_plus. apply sum_ext. intros; ring.
Qed.
Lemma right_alternating B A i k : (i < n)%nat -> (k < n)%nat -> i <> k -> (forall j, (j < n)%nat -> A i j = A k j) -> D (mmul n A B) = 0.
Proof.
  intros Hi Hk N H. apply (det_alternating n D HD _ i k Hi Hk N). intros j Hj. unfold mmul. apply sum_ext. intros l Hl. rewrite H by exact Hl. reflexivity.
Qed.
Lemma det_mul A B : D (mmul n A B) = D A * D B.
Proof.
  assert (X : forall P Q, meq n n P Q -> D (mmul n P B) = D (mmul n Q B)).
  { intros P Q H. apply (det_ext n D HD). rewrite H. reflexivity. }
  assert (ONE : D (mmul n eye B) = D B) by (apply (det_ext n D HD), m1l).
  destruct (Req_dec (D B) 0) as [Z|Z].
  - assert (E : is_det n (fun A => D A + D (mmul n A B))).
    { constructor.
      - intros P Q H. rewrite (det_ext n D HD P Q H), (X P Q H). reflexivity.
      - intros P i c r s Hi. rewrite (det_linear n D HD), right_linear by exact Hi. ring.
      - intros P i k Hi Hk N H. rewrite (det_alternating n D HD P i k), (right_alternating B P i k) by assumption. ring.
      - rewrite (det_one n D HD), ONE, Z. ring. }
    pose proof (det_unique _ E A) as U. cbn in U. rewrite Z. lra.
  - assert (E : is_det n (fun A => D (mmul n A B) / D B)).
    { constructor.
      - intros P Q H. rewrite (X P Q H). reflexivity.
      - intros P i c r s Hi. rewrite right_linear by exact Hi. field. exact Z.
      - intros P i k Hi Hk N H. rewrite (right_alternating B P i k) by assumption. field. exact Z.
      - rewrite ONE. field. exact Z. }
    pose proof (det_unique _ E A) as U. cbn in U. rewrite <- U. field. exact Z.
Qed.
(** diagonal matrices *)
Definition diagonal (w : vect) : mat := fun i j => if (i =? j)%nat then w i else 0.
Fixpoint product (w : vect) (t : nat) : R := match t with O => 1 | S t => product w t * w t end.
Lemma det_diagonal w : D (diagonal w) = product w n.
Proof.
  transitivity (D (upper (diagonal w))).
  - apply (det_ext n D HD). intros i j _ _. unfold upper, diagonal. destruct (Nat.ltb_spec j i); [|reflexivity]. rewrite (proj2 (Nat.eqb_neq i j)) by lia. reflexivity.
  - rewrite (det_upper n D HD). assert (G : forall t, diag_product (diagonal w) t = product w t); [|apply G].
    induction t as [|t IH]; [reflexivity|]. cbn [diag_product product]. rewrite IH. unfold diagonal. rewrite Nat.eqb_refl. reflexivity.
Qed.
Lemma eigen_product A w Z : eigen_desc n A w Z -> meq n n A (mmul n (mmul n Z (diagonal w)) (tr Z)).
Proof.
  intros (_ & EA & _) i j Hi Hj. rewrite EA by assumption. unfold mmul, tr. apply sum_ext. intros k Hk.
  rewrite (sum_single n _ k Hk). { unfold diagonal. rewrite Nat.eqb_refl. reflexivity. }
  intros l _ N. unfold diagonal. rewrite (proj2 (Nat.eqb_neq l k) N). ring.
Qed.
Lemma det_orthonormal Z : cols_orthonormal n n Z -> D Z * D (tr Z) = 1.
Proof.
  intros H. destruct (square_orthonormal n Z H) as [_ E]. rewrite <- det_mul, (det_ext n D HD _ _ E). apply (det_one n D HD).
Qed.
Lemma det_eigen A w Z : eigen_desc n A w Z -> D A = product w n.
Proof.
  intros H. rewrite (det_ext n D HD _ _ (eigen_product A w Z H)), !det_mul, det_diagonal.
  destruct H as (HO & _). transitivity (product w n * (D Z * D (tr Z))); [ring|]. rewrite (det_orthonormal Z HO). ring.
Qed.
End product.

Lemma product_pos w t : (forall k, (k < t)%nat -> 0 < w k) -> 0 < product w t.
Proof. induction t as [|t IH]; intros H; cbn [product]; [lra|]. apply Rmult_lt_0_compat; [apply IH; intros; apply H; lia|apply H; lia]. Qed.
Lemma product_ln w t : (forall k, (k < t)%nat -> 0 < w k) -> ln (product w t) = sum t (fun k => ln (w k)).
Proof.
  induction t as [|t IH]; intros H; cbn [product sum]; [apply ln_1|]. rewrite ln_mult; [rewrite IH by (intros; apply H; lia); reflexivity|apply product_pos; intros; apply H; lia|apply H; lia].
Qed.
Lemma product_zero w t k : (k < t)%nat -> w k = 0 -> product w t = 0.
Proof.
  induction t as [|t IH]; intros Hk Z; [lia|]. cbn [product]. destruct (Nat.eq_dec k t) as [->|]; [rewrite Z; ring|]. rewrite IH by (try lia; exact Z). ring.
Qed.
Lemma column_nonzero n Z k : cols_orthonormal n n Z -> (k < n)%nat -> exists i, (i < n)%nat /\ Z i k <> 0.
Proof.
  intros HO Hk. destruct (Classical_Prop.classic (exists i, (i < n)%nat /\ Z i k <> 0)) as [H|H]; [exact H|exfalso].
  specialize (HO k k Hk Hk). rewrite sum_zero in HO; [unfold eye in HO; rewrite Nat.eqb_refl in HO; lra|].
  intros i Hi. destruct (Req_dec (Z i k) 0) as [E|E]; [rewrite E; ring|]. exfalso. apply H. exists i. split; assumption.
Qed.
Lemma eigen_pos n A w Z : pd n A -> eigen_desc n A w Z -> forall k, (k < n)%nat -> 0 < w k.
Proof.
  intros HP HE k Hk. rewrite <- (eigen_value n A w Z k HE Hk). apply HP. destruct HE as (HO & _). apply column_nonzero; assumption.
Qed.
Lemma det_pd n D A : is_det n D -> symm n A -> pd n A -> 0 < D A.
Proof.
  intros HD HS HP. destruct (eigenvectors_exist n A HS) as (w & Z & HE). rewrite (det_eigen n D HD A w Z HE). apply product_pos. apply (eigen_pos n A w Z HP HE).
Qed.
(** quadratic form in the eigenbasis *)
Lemma quad_eigen n A w Z x : eigen_desc n A w Z -> quad n A x = sum n (fun k => w k * (vdot n (fun i => Z i k) x * vdot n (fun i => Z i k) x)).
Proof.
  intros (_ & EA & _). unfold quad, vdot, mvec.
  rewrite (sum_ext n _ (fun i => sum n (fun k => x i * Z i k * w k * sum n (fun j => Z j k * x j)))).
  - rewrite sum_swap. apply sum_ext. intros k _. rewrite (sum_ext n _ (fun i => Z i k * x i * (w k * sum n (fun j => Z j k * x j)))) by (intros; ring). rewrite sum_scal_r. ring.
  - intros i Hi. rewrite (sum_ext n _ (fun j => sum n (fun k => Z i k * w k * (Z j k * x j)))).
    + rewrite sum_swap, <- sum_scal_l. apply sum_ext. intros k _. rewrite sum_scal_l. ring.
    + intros j Hj. rewrite EA by assumption. rewrite <- sum_scal_r. apply sum_ext. intros; ring.
Qed.
Lemma psd_det_pd n D A : is_det n D -> symm n A -> psd n A -> D A <> 0 -> pd n A.
Proof.
  intros HD HS HP HN. destruct (eigenvectors_exist n A HS) as (w & Z & HE).
  assert (W : forall k, (k < n)%nat -> 0 < w k).
  { intros k Hk. pose proof (HP (fun i => Z i k)) as P. rewrite (eigen_value n A w Z k HE Hk) in P. destruct P as [P|P]; [exact P|exfalso].
    apply HN. rewrite (det_eigen n D HD A w Z HE). apply (product_zero w n k Hk). symmetry. exact P. }
  intros x Hx. rewrite (quad_eigen n A w Z x HE).
  assert (NN : forall k, (k < n)%nat -> 0 <= w k * (vdot n (fun i => Z i k) x * vdot n (fun i => Z i k) x)).
  { intros k Hk. apply Rmult_le_pos; [left; apply W, Hk|apply Rle_0_sqr]. }
  destruct (sum_nonneg n _ NN) as [P|P]; [exact P|exfalso]. symmetry in P.
  assert (ZZ : forall k, (k < n)%nat -> mvec n (tr Z) x k = 0).
  { intros k Hk. pose proof (sum_nonneg_zero n _ NN P k Hk) as E. cbn in E. apply Rmult_integral in E. specialize (W k Hk). destruct E as [E|E]; [lra|].
    unfold mvec, tr. change (vdot n (fun i => Z i k) x = 0). apply Rmult_integral in E. destruct E; assumption. }
  destruct HE as (HO & _). destruct (square_orthonormal n Z HO) as [_ E].
  destruct Hx as (i & Hi & Nx). apply Nx. rewrite <- (mvec_eye n x i Hi). rewrite <- (mvec_ext n n _ eye x x E (fun _ _ => eq_refl) i Hi).
  rewrite mvec_mmul. unfold mvec at 1. apply sum_zero. intros l Hl. rewrite ZZ by exact Hl. ring.
Qed.
Definition trace (n : nat) (A : mat) : R := sum n (fun i => A i i).
Lemma trace_mul n A B : trace n (mmul n A B) = trace n (mmul n B A).
Proof. unfold trace, mmul. rewrite sum_swap. apply sum_ext. intros i _. apply sum_ext. intros; ring. Qed.
Lemma trace_ext n A B : meq n n A B -> trace n A = trace n B.
Proof. intros H. apply sum_ext. intros i Hi. apply H; assumption. Qed.
Lemma trace_eigen n A w Z : eigen_desc n A w Z -> trace n A = sum n w.
Proof.
  intros (HO & EA & _). unfold trace. rewrite (sum_ext n _ (fun i => sum n (fun k => w k * (Z i k * Z i k)))).
  - rewrite sum_swap. apply sum_ext. intros k Hk. rewrite sum_scal_l, (HO k k Hk Hk). unfold eye. rewrite Nat.eqb_refl. ring.
  - intros i Hi. rewrite EA by assumption. apply sum_ext. intros; ring.
Qed.
(** the trace bounds the logarithm of the determinant *)
Lemma trace_det n D M : is_det n D -> symm n M -> pd n M -> ln (D M) <= trace n M - INR n.
Proof.
  intros HD HS HP. destruct (eigenvectors_exist n M HS) as (w & Z & HE). assert (W := eigen_pos n M w Z HP HE).
  rewrite (det_eigen n D HD M w Z HE), (trace_eigen n M w Z HE), (product_ln w n W).
  rewrite <- (Rmult_1_r (INR n)), <- sum_const, <- sum_minus. apply sum_le. intros k Hk. apply ln_below, W, Hk.
Qed.
(** a square root of a positive definite matrix *)
Lemma pd_root n A : symm n A -> pd n A -> exists T T', meq n n A (mmul n T (tr T)) /\ meq n n (mmul n T T') eye /\ meq n n (mmul n T' T) eye.
Proof.
  intros HS HP. destruct (eigenvectors_exist n A HS) as (w & Z & HE). assert (W := eigen_pos n A w Z HP HE).
  destruct HE as (HO & EA & _). destruct (square_orthonormal n Z HO) as [E1 E2].
  exists (fun i k => Z i k * sqrt (w k)), (fun k i => Z i k * / sqrt (w k)).
  assert (SW : forall k, (k < n)%nat -> sqrt (w k) <> 0) by (intros k Hk; apply Rgt_not_eq, sqrt_lt_R0, W, Hk).
  split; [|split].
  - intros i j Hi Hj. rewrite EA by assumption. unfold mmul, tr. apply sum_ext. intros k Hk. transitivity (Z i k * (sqrt (w k) * sqrt (w k)) * Z j k); [|ring].
    rewrite sqrt_sqrt by (left; apply W, Hk). reflexivity.
  - intros i j Hi Hj. rewrite <- (E2 i j Hi Hj). unfold mmul, tr. apply sum_ext. intros k Hk. field. apply SW, Hk.
  - intros k l Hk Hl. unfold mmul. rewrite (sum_ext n _ (fun i => (/ sqrt (w k) * sqrt (w l)) * (Z i k * Z i l))) by (intros; ring). rewrite sum_scal_l, (HO k l Hk Hl).
    unfold eye. destruct (Nat.eqb_spec k l) as [->|]; [|ring]. field. apply SW, Hl.
Qed.
Lemma pd_congruence n W T T' : symm n W -> pd n W -> meq n n (mmul n T T') eye -> meq n n (mmul n T' T) eye ->
  symm n (mmul n (tr T) (mmul n W T)) /\ pd n (mmul n (tr T) (mmul n W T)).
Proof.
  intros HS HP H1 H2. split.
  - apply tr_symm. rewrite !mTT, (symm_tr n W HS). rewrite mA. reflexivity.
  - intros x (i & Hi & Nx).
    assert (E : quad n (mmul n (tr T) (mmul n W T)) x = quad n W (mvec n T x)).
    { unfold quad. rewrite (vdot_comm n (mvec n T x)), (vdot_tr n n T), (vdot_comm n (mvec n (tr T) _)). apply vdot_ext; [intros k _; reflexivity|]. intros k Hk. rewrite mvec_mmul. unfold mvec at 1 3. apply sum_ext. intros l Hl. rewrite mvec_mmul. reflexivity. }
    rewrite E. apply HP. destruct (Classical_Prop.classic (exists k, (k < n)%nat /\ mvec n T x k <> 0)) as [H|H]; [exact H|exfalso].
    assert (Z : veq n (mvec n T x) (fun _ => 0)). { intros k Hk. destruct (Req_dec (mvec n T x k) 0) as [Z|Z]; [exact Z|]. exfalso. apply H. exists k. split; assumption. }
    apply Nx. rewrite <- (mvec_eye n x i Hi). rewrite <- (mvec_ext n n _ eye x x H2 (fun _ _ => eq_refl) i Hi).
    rewrite mvec_mmul. unfold mvec at 1. apply sum_zero. intros l Hl. rewrite (Z l Hl). ring.
Qed.
(** the inequality behind the M step *)
Lemma log_det_trace n D A W S : is_det n D -> symm n A -> pd n A -> inverse_of n A W -> symm n S -> pd n S ->
  ln (D S) + INR n <= ln (D A) + trace n (mmul n W S).
Proof.
  intros HD AS AP HI SS SP. destruct (pd_root n S SS SP) as (T & T' & ET & H1 & H2).
  assert (WS := inverse_symm n A W AS HI). assert (WP := pd_of_inverse n A W AS AP HI).
  destruct (pd_congruence n W T T' WS WP H1 H2) as [MS MP]. pose proof (trace_det n D _ HD MS MP) as B.
  assert (E1 : D (mmul n (tr T) (mmul n W T)) = D S * D W).
  { rewrite (det_ext n D HD _ _ ET), !(det_mul n D HD). ring. }
  assert (E2 : D A * D W = 1) by (rewrite <- (det_mul n D HD), (det_ext n D HD _ _ (proj1 HI)); apply (det_one n D HD)).
  assert (E3 : trace n (mmul n (tr T) (mmul n W T)) = trace n (mmul n W S)).
  { rewrite trace_mul. apply trace_ext. rewrite mA, <- ET. reflexivity. }
  assert (PA := det_pd n D A HD AS AP). assert (PS := det_pd n D S HD SS SP). assert (PW := det_pd n D W HD WS WP).
  rewrite E1, E3, ln_mult in B by assumption. assert (L : ln (D A) + ln (D W) = 0) by (rewrite <- ln_mult, E2 by assumption; apply ln_1). lra.
Qed.
