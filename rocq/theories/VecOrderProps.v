(** Comparing vectors (C166) and the size of an error (C167). *)
From Coq Require Import Reals Bool Lra Lia.
From Coq Require Import List.
Import ListNotations.
From Verif Require Import Mat Spectral VecOrder.
Open Scope R_scope.

(** * C166 *)
(** the specification: the first component that differs decides *)
Definition first_less (n : nat) (a b : nat -> R) : Prop := exists k, (k < n)%nat /\ (forall i, (i < k)%nat -> a i = b i) /\ a k < b k.
Definition numbers (a : nat -> R) : nat -> num := fun i => Some (a i).
Lemma less_from_spec k : forall i a b, less_from i k (numbers a) (numbers b) = true <-> exists m, (m < k)%nat /\ (forall j, (j < m)%nat -> a (i + j)%nat = b (i + j)%nat) /\ a (i + m)%nat < b (i + m)%nat.
Proof.
  induction k as [|k IH]; intros i a b; cbn [less_from]; [split; [discriminate|intros (m & L & _); lia]|]. unfold lt at 1 2, numbers at 1 2 3 4.
  destruct (Rlt_dec (a i) (b i)) as [L|L]; [split; [|reflexivity]; intros _; exists 0%nat; split; [lia|]; split; [intros j J; lia|rewrite Nat.add_0_r; exact L]|].
  destruct (Rlt_dec (b i) (a i)) as [G|G].
  - split; [discriminate|]. intros ([|m] & M & E & SL); [rewrite Nat.add_0_r in SL; lra|]. specialize (E 0%nat ltac:(lia)). rewrite Nat.add_0_r in E. lra.
  - assert (X : a i = b i) by lra. rewrite (IH (S i) a b). split.
    + intros (m & M & E & SL). exists (S m). split; [lia|]. split; [|replace (i + S m)%nat with (S i + m)%nat by lia; exact SL]. intros [|j] J; [rewrite Nat.add_0_r; exact X|]. replace (i + S j)%nat with (S i + j)%nat by lia. apply E. lia.
    + intros ([|m] & M & E & SL); [rewrite Nat.add_0_r in SL; lra|]. exists m. split; [lia|]. split; [|replace (S i + m)%nat with (i + S m)%nat by lia; exact SL]. intros j J. replace (S i + j)%nat with (i + S j)%nat by lia. apply E. lia.
Qed.
Theorem less_spec n a b : less n (numbers a) (numbers b) = true <-> first_less n a b.
Proof. unfold less. rewrite less_from_spec. reflexivity. Qed.
Theorem equal_spec n a b : equal n (numbers a) (numbers b) = true <-> forall i, (i < n)%nat -> a i = b i.
Proof.
  unfold equal. assert (X : forall k i, equal_from i k (numbers a) (numbers b) = true <-> forall j, (j < k)%nat -> a (i + j)%nat = b (i + j)%nat).
  { induction k as [|k IH]; intros i; cbn [equal_from]; [split; [intros _ j J; lia|reflexivity]|]. unfold neq, numbers at 1 2. destruct (Req_EM_T (a i) (b i)) as [E|N].
    - rewrite IH. split; intros H.
      + intros [|j] J; [rewrite Nat.add_0_r; exact E|]. replace (i + S j)%nat with (S i + j)%nat by lia. apply H. lia.
      + intros j J. replace (S i + j)%nat with (i + S j)%nat by lia. apply H. lia.
    - split; [discriminate|]. intros H. specialize (H 0%nat ltac:(lia)). rewrite Nat.add_0_r in H. contradiction. }
  apply X.
Qed.
(** so vectors can be the keys of ordered containers: a strict total order compatible with == *)
Theorem less_irreflexive n a : less n (numbers a) (numbers a) = false.
Proof. apply not_true_is_false. rewrite less_spec. intros (k & _ & _ & L). lra. Qed.
Theorem less_transitive n a b c : less n (numbers a) (numbers b) = true -> less n (numbers b) (numbers c) = true -> less n (numbers a) (numbers c) = true.
Proof.
  rewrite !less_spec. intros (k & K & E & L) (m & M & F & G). destruct (Nat.lt_trichotomy k m) as [X|[X|X]].
  - exists k. split; [exact K|]. split; [intros i I; rewrite E by exact I; apply F; lia|rewrite <- F by exact X; exact L].
  - subst m. exists k. split; [exact K|]. split; [intros i I; rewrite E by exact I; apply F; exact I|lra].
  - exists m. split; [exact M|]. split; [intros i I; rewrite E by lia; apply F; exact I|rewrite E by exact X; exact G].
Qed.
Theorem less_total n a b : less n (numbers a) (numbers b) = true \/ less n (numbers b) (numbers a) = true \/ equal n (numbers a) (numbers b) = true.
Proof.
  rewrite !less_spec, equal_spec. induction n as [|n IH]; [right; right; intros i I; lia|].
  destruct IH as [(k & K & E & L)|[(k & K & E & L)|E]]; [left; exists k; split; [lia|auto]|right; left; exists k; split; [lia|auto]|].
  destruct (Rtotal_order (a n) (b n)) as [L|[X|G]].
  - left. exists n. split; [lia|]. auto.
  - right. right. intros i I. destruct (Nat.eq_dec i n) as [->|N]; [exact X|apply E; lia].
  - right. left. exists n. split; [lia|]. split; [|lra]. intros i I. symmetry. apply E. exact I.
Qed.
Theorem less_not_equal n a b : less n (numbers a) (numbers b) = true -> equal n (numbers a) (numbers b) = false.
Proof. rewrite less_spec. intros (k & K & _ & L). apply not_true_is_false. rewrite equal_spec. intros E. specialize (E k K). lra. Qed.
(** a NaN breaks this: "neither is less" is no longer transitive, and a vector may differ from itself *)
Theorem less_nan_refuted : exists a b c : nat -> num,
  less 1 a b = false /\ less 1 b a = false /\ less 1 b c = false /\ less 1 c b = false /\ less 1 a c = true /\ equal 1 b b = false.
Proof. exists (fun _ => Some 1), (fun _ => None), (fun _ => Some 2). unfold less, equal. cbn. destruct (Rlt_dec 1 2) as [_|N]; [repeat split; reflexivity|exfalso; apply N; lra]. Qed.
Example less_case : less 3 (numbers (vlist [1; 5; 0])) (numbers (vlist [2; 0; 0])) = true /\ less 3 (numbers (vlist [1; 5; 0])) (numbers (vlist [1; 5; 0])) = false.
Proof. split; [apply less_spec; exists 0%nat; split; [lia|]; split; [intros i I; lia|cbn; lra]|apply less_irreflexive]. Qed.

(** * C167 *)
(** errors e k with probabilities p k *)
Definition second_moment (m : nat) (p : nat -> R) (e : nat -> nat -> R) : mat := fun i j => sum m (fun k => p k * (e k i * e k j)).
(** the root of the mean squared length *)
Theorem rms_mean n m p e : (forall k, (k < m)%nat -> 0 <= p k) -> rms n (second_moment m p e) = Some (sqrt (sum m (fun k => p k * vdot n (e k) (e k)))).
Proof.
  intros P. unfold rms. assert (E : sum n (fun i => second_moment m p e i i) = sum m (fun k => p k * vdot n (e k) (e k))).
  { unfold second_moment. rewrite sum_swap. apply sum_ext. intros k _. unfold vdot. rewrite <- sum_scal_l. reflexivity. }
  rewrite E. destruct (Rlt_dec _ 0) as [L|_]; [|reflexivity]. exfalso. revert L. apply Rle_not_lt. apply sum_nonneg. intros k K. apply Rmult_le_pos; [apply P; exact K|]. apply sum_nonneg. intros i _. apply Rle_0_sqr.
Qed.
Definition unit_vec (k : nat) : vect := fun i => if Nat.eqb i k then 1 else 0.
Lemma mvec_unit n A k i : (k < n)%nat -> mvec n A (unit_vec k) i = A i k.
Proof. intros K. unfold mvec. rewrite (sum_single n _ k K); [unfold unit_vec; rewrite Nat.eqb_refl; ring|]. intros j J N. unfold unit_vec. destruct (Nat.eqb_spec j k); [contradiction|ring]. Qed.
Lemma quad_unit n A k : (k < n)%nat -> quad n A (unit_vec k) = A k k.
Proof. intros K. unfold quad, vdot. rewrite (sum_single n _ k K); [rewrite mvec_unit by exact K; unfold unit_vec; rewrite Nat.eqb_refl; ring|]. intros j J N. unfold unit_vec at 1. destruct (Nat.eqb_spec j k); [contradiction|ring]. Qed.
(** defined for every covariance, zero only without error *)
Theorem rms_defined n C : psd n C -> exists r, rms n C = Some r /\ 0 <= r.
Proof.
  intros P. unfold rms. destruct (Rlt_dec _ 0) as [L|_]; [|eexists; split; [reflexivity|apply sqrt_pos]]. exfalso. revert L. apply Rle_not_lt. apply sum_nonneg. intros i I. rewrite <- (quad_unit n C i I). apply P.
Qed.
Theorem rms_zero n C : symm n C -> psd n C -> (rms n C = Some 0 <-> forall i j, (i < n)%nat -> (j < n)%nat -> C i j = 0).
Proof.
  intros S P. assert (D : forall i, (i < n)%nat -> 0 <= C i i) by (intros i I; rewrite <- (quad_unit n C i I); apply P). assert (T : 0 <= sum n (fun i => C i i)) by (apply sum_nonneg; exact D). unfold rms. destruct (Rlt_dec _ 0) as [L|_]; [lra|]. split.
  - intros E. apply (f_equal (fun o => match o with Some v => v | None => 0 end)) in E. apply sqrt_eq_0 in E; [|exact T]. intros i j I J. assert (Z := sum_nonneg_zero n _ D E j J). cbn in Z. rewrite <- (mvec_unit n C j i J). apply psd_kernel; try assumption. rewrite quad_unit by exact J. exact Z.
  - intros E. f_equal. rewrite sum_zero; [apply sqrt_0|]. intros i I. apply E; exact I.
Qed.
(** independent of the orientation of the coordinate system *)
Theorem rms_rotated n Q C : meq n n (mmul n (tr Q) Q) eye -> rms n (sandwich n Q C) = rms n C.
Proof.
  intros O. unfold rms. assert (E : sum n (fun i => sandwich n Q C i i) = sum n (fun i => C i i)); [|rewrite E; reflexivity].
  unfold sandwich, mmul, tr. transitivity (sum n (fun l => sum n (fun k => C k l * mmul n (tr Q) Q k l))).
  - rewrite sum_swap. apply sum_ext. intros l _. rewrite (sum_ext n _ (fun i => sum n (fun k => C k l * (Q i k * Q i l)))) by (intros i _; rewrite <- sum_scal_r; apply sum_ext; intros k _; ring).
    rewrite sum_swap. apply sum_ext. intros k _. unfold mmul, tr. rewrite <- sum_scal_l. reflexivity.
  - apply sum_ext. intros l L. rewrite (sum_single n _ l L); [rewrite O by exact L; unfold eye; rewrite Nat.eqb_refl; ring|]. intros k K N. rewrite O by assumption. unfold eye. destruct (Nat.eqb_spec k l); [contradiction|ring].
Qed.
Example rms_case : rms 2 (mlist [[9; 1]; [1; 16]]) = Some 5.
Proof. unfold rms. cbn. destruct (Rlt_dec (0 + 9 + 16) 0); [lra|]. f_equal. replace (0 + 9 + 16) with (5 * 5) by ring. apply sqrt_square. lra. Qed.
Print Assumptions less_spec. Print Assumptions less_transitive. Print Assumptions less_total. Print Assumptions less_nan_refuted. Print Assumptions rms_mean. Print Assumptions rms_zero. Print Assumptions rms_rotated.
