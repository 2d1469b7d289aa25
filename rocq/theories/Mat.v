(** Specification vocabulary shared by the numerical models: finite sums, matrices
    as functions of two indices, positive semidefiniteness.  Nothing here models
    code; the sizes are explicit arguments, entries outside the size are ignored. *)
From Coq Require Import Reals Lra Lia Arith List.
Import ListNotations.
Open Scope R_scope.

Fixpoint sum (n : nat) (f : nat -> R) : R :=
  match n with O => 0 | S k => sum k f + f k end.

Definition mat := nat -> nat -> R.
Definition vect := nat -> R.

Definition meq (m n : nat) (A B : mat) : Prop :=
  forall i j, (i < m)%nat -> (j < n)%nat -> A i j = B i j.
Definition veq (n : nat) (x y : vect) : Prop := forall i, (i < n)%nat -> x i = y i.

Definition mmul (k : nat) (A B : mat) : mat := fun i j => sum k (fun l => A i l * B l j).
Definition mvec (k : nat) (A : mat) (x : vect) : vect := fun i => sum k (fun l => A i l * x l).
Definition tr (A : mat) : mat := fun i j => A j i.
Definition madd (A B : mat) : mat := fun i j => A i j + B i j.
Definition msub (A B : mat) : mat := fun i j => A i j - B i j.
Definition mopp (A : mat) : mat := fun i j => - A i j.
Definition mscale (c : R) (A : mat) : mat := fun i j => c * A i j.
Definition eye : mat := fun i j => if Nat.eqb i j then 1 else 0.
Definition mzero : mat := fun _ _ => 0.
(** matrix and vector given by the rows / entries *)
Definition mlist (rows : list (list R)) : mat := fun i j => nth j (nth i rows []) 0.
Definition vlist (l : list R) : vect := fun i => nth i l 0.
Definition vscale (c : R) (x : vect) : vect := fun i => c * x i.
Definition vdot (n : nat) (x y : vect) : R := sum n (fun i => x i * y i).
Definition vadd (x y : vect) : vect := fun i => x i + y i.
Definition vsub (x y : vect) : vect := fun i => x i - y i.

(** quadratic form, symmetric, positive (semi)definite *)
Definition quad (n : nat) (A : mat) (x : vect) : R := vdot n x (mvec n A x).
Definition symm (n : nat) (A : mat) : Prop := forall i j, (i < n)%nat -> (j < n)%nat -> A i j = A j i.
Definition psd (n : nat) (A : mat) : Prop := forall x, 0 <= quad n A x.
Definition pd (n : nat) (A : mat) : Prop :=
  forall x, (exists i, (i < n)%nat /\ x i <> 0) -> 0 < quad n A x.

(** [A C A^T] for an [m x n] matrix A and an [n x n] matrix C *)
Definition sandwich (n : nat) (A C : mat) : mat := mmul n (mmul n A C) (tr A).

(** ** Sums *)

Lemma sum_ext n f g : (forall i, (i < n)%nat -> f i = g i) -> sum n f = sum n g.
Proof.
  induction n as [|n IH]; intros H; cbn; [reflexivity|].
  rewrite IH by (intros; apply H; lia). rewrite H by lia. reflexivity.
Qed.

Lemma sum_plus n f g : sum n (fun i => f i + g i) = sum n f + sum n g.
Proof. induction n as [|n IH]; cbn; [lra|]. rewrite IH. lra. Qed.

Lemma sum_minus n f g : sum n (fun i => f i - g i) = sum n f - sum n g.
Proof. induction n as [|n IH]; cbn; [lra|]. rewrite IH. lra. Qed.

Lemma sum_scal_l n c f : sum n (fun i => c * f i) = c * sum n f.
Proof. induction n as [|n IH]; cbn; [lra|]. rewrite IH. lra. Qed.

Lemma sum_scal_r n c f : sum n (fun i => f i * c) = sum n f * c.
Proof. induction n as [|n IH]; cbn; [lra|]. rewrite IH. lra. Qed.

Lemma sum_opp n f : sum n (fun i => - f i) = - sum n f.
Proof. induction n as [|n IH]; cbn; [lra|]. rewrite IH. lra. Qed.

Lemma sum_zero n f : (forall i, (i < n)%nat -> f i = 0) -> sum n f = 0.
Proof.
  induction n as [|n IH]; intros H; cbn; [reflexivity|].
  rewrite IH by (intros; apply H; lia). rewrite H by lia. lra.
Qed.

Lemma sum_const n c : sum n (fun _ => c) = INR n * c.
Proof. induction n as [|n IH]; [cbn; lra|]. rewrite S_INR. cbn [sum]. rewrite IH. lra. Qed.

Lemma sum_swap m n f :
  sum m (fun i => sum n (fun j => f i j)) = sum n (fun j => sum m (fun i => f i j)).
Proof.
  induction m as [|m IH]; cbn.
  - rewrite sum_zero; [reflexivity|reflexivity].
  - rewrite IH, <- sum_plus. reflexivity.
Qed.

Lemma sum_nonneg n f : (forall i, (i < n)%nat -> 0 <= f i) -> 0 <= sum n f.
Proof.
  induction n as [|n IH]; intros H; cbn; [lra|].
  assert (0 <= sum n f) by (apply IH; intros; apply H; lia).
  assert (0 <= f n) by (apply H; lia). lra.
Qed.

Lemma sum_le n f g : (forall i, (i < n)%nat -> f i <= g i) -> sum n f <= sum n g.
Proof.
  induction n as [|n IH]; intros H; cbn; [lra|].
  assert (sum n f <= sum n g) by (apply IH; intros; apply H; lia).
  assert (f n <= g n) by (apply H; lia). lra.
Qed.

Lemma sum_nonneg_zero n f : (forall i, (i < n)%nat -> 0 <= f i) -> sum n f = 0 ->
  forall i, (i < n)%nat -> f i = 0.
Proof.
  induction n as [|n IH]; intros H E i Hi; [lia|]. cbn in E.
  assert (0 <= sum n f) by (apply sum_nonneg; intros; apply H; lia).
  assert (0 <= f n) by (apply H; lia).
  destruct (Nat.eq_dec i n) as [->|Hne]; [lra|].
  apply IH; [intros; apply H; lia|lra|lia].
Qed.

Lemma sum_single n f k : (k < n)%nat -> (forall i, (i < n)%nat -> i <> k -> f i = 0) ->
  sum n f = f k.
Proof.
  induction n as [|n IH]; intros Hk H; [lia|]. cbn.
  destruct (Nat.eq_dec k n) as [->|Hne].
  - rewrite sum_zero; [lra|]. intros; apply H; lia.
  - rewrite IH by (try lia; intros; apply H; lia). rewrite (H n) by lia. lra.
Qed.

Lemma sum_split m n f : sum (m + n) f = sum m f + sum n (fun i => f (m + i)%nat).
Proof.
  induction n as [|n IH]; [rewrite Nat.add_0_r; cbn; lra|].
  replace (m + S n)%nat with (S (m + n)) by lia. cbn. rewrite IH. lra.
Qed.

(** ** Matrices *)

Lemma meq_refl m n A : meq m n A A.
Proof. intros i j _ _. reflexivity. Qed.
Lemma meq_sym m n A B : meq m n A B -> meq m n B A.
Proof. intros H i j Hi Hj. symmetry. apply H; assumption. Qed.
Lemma meq_trans m n A B C : meq m n A B -> meq m n B C -> meq m n A C.
Proof. intros H1 H2 i j Hi Hj. rewrite H1 by assumption. apply H2; assumption. Qed.

Lemma mmul_ext m k n A A' B B' :
  meq m k A A' -> meq k n B B' -> meq m n (mmul k A B) (mmul k A' B').
Proof.
  intros HA HB i j Hi Hj. apply sum_ext. intros l Hl. rewrite HA, HB by assumption. reflexivity.
Qed.

Lemma mmul_assoc k l A B C i j :
  mmul l (mmul k A B) C i j = mmul k A (mmul l B C) i j.
Proof.
  unfold mmul.
  rewrite (sum_ext l _ (fun q => sum k (fun p => A i p * B p q * C q j))).
  2:{ intros q _. rewrite <- sum_scal_r. reflexivity. }
  rewrite <- sum_swap. apply sum_ext. intros p _.
  rewrite <- sum_scal_l. apply sum_ext. intros q _. ring.
Qed.

Lemma mmul_eye_l k A i j : (i < k)%nat -> mmul k eye A i j = A i j.
Proof.
  intros Hi. unfold mmul, eye. rewrite (sum_single _ _ i Hi).
  - rewrite Nat.eqb_refl. ring.
  - intros l _ Hl. replace (Nat.eqb i l) with false; [ring|].
    symmetry. apply Nat.eqb_neq. congruence.
Qed.

Lemma mmul_eye_r k A i j : (j < k)%nat -> mmul k A eye i j = A i j.
Proof.
  intros Hj. unfold mmul, eye. rewrite (sum_single _ _ j Hj).
  - rewrite Nat.eqb_refl. ring.
  - intros l _ Hl. replace (Nat.eqb l j) with false; [ring|].
    symmetry. apply Nat.eqb_neq. congruence.
Qed.

Lemma mmul_tr k A B i j : tr (mmul k A B) i j = mmul k (tr B) (tr A) i j.
Proof. unfold tr, mmul. apply sum_ext. intros. ring. Qed.

Lemma mmul_add_l k A B C i j : mmul k (madd A B) C i j = madd (mmul k A C) (mmul k B C) i j.
Proof. unfold mmul, madd. rewrite <- sum_plus. apply sum_ext. intros. ring. Qed.
Lemma mmul_add_r k A B C i j : mmul k A (madd B C) i j = madd (mmul k A B) (mmul k A C) i j.
Proof. unfold mmul, madd. rewrite <- sum_plus. apply sum_ext. intros. ring. Qed.
Lemma mmul_sub_l k A B C i j : mmul k (msub A B) C i j = msub (mmul k A C) (mmul k B C) i j.
Proof. unfold mmul, msub. rewrite <- sum_minus. apply sum_ext. intros. ring. Qed.
Lemma mmul_sub_r k A B C i j : mmul k A (msub B C) i j = msub (mmul k A B) (mmul k A C) i j.
Proof. unfold mmul, msub. rewrite <- sum_minus. apply sum_ext. intros. ring. Qed.

Lemma mvec_mmul k l A B x i : mvec l (mmul k A B) x i = mvec k A (mvec l B x) i.
Proof.
  unfold mvec, mmul.
  rewrite (sum_ext l _ (fun q => sum k (fun p => A i p * B p q * x q))).
  2:{ intros q _. rewrite <- sum_scal_r. reflexivity. }
  rewrite <- sum_swap. apply sum_ext. intros p _.
  rewrite <- sum_scal_l. apply sum_ext. intros q _. ring.
Qed.

Lemma mvec_ext k m A A' x x' : meq m k A A' -> veq k x x' -> veq m (mvec k A x) (mvec k A' x').
Proof. intros HA Hx i Hi. apply sum_ext. intros l Hl. rewrite HA, Hx by assumption. reflexivity. Qed.

Lemma vdot_tr m n A x y : vdot m x (mvec n A y) = vdot n (mvec m (tr A) x) y.
Proof.
  unfold vdot, mvec, tr.
  rewrite (sum_ext m _ (fun i => sum n (fun l => x i * (A i l * y l)))).
  2:{ intros. rewrite <- sum_scal_l. reflexivity. }
  rewrite sum_swap. apply sum_ext. intros l _. rewrite <- sum_scal_r.
  apply sum_ext. intros. ring.
Qed.

Lemma vdot_ext n x x' y y' : veq n x x' -> veq n y y' -> vdot n x y = vdot n x' y'.
Proof. intros Hx Hy. apply sum_ext. intros i Hi. rewrite Hx, Hy by exact Hi. reflexivity. Qed.

Lemma quad_ext n A B x : meq n n A B -> quad n A x = quad n B x.
Proof.
  intros H. unfold quad. apply vdot_ext; [intros i _; reflexivity|].
  apply (mvec_ext n n); [exact H|intros i _; reflexivity].
Qed.

Lemma psd_ext n A B : meq n n A B -> psd n A -> psd n B.
Proof. intros H HA x. rewrite <- (quad_ext n A B x H). apply HA. Qed.

Lemma symm_ext n A B : meq n n A B -> symm n A -> symm n B.
Proof. intros H HA i j Hi Hj. rewrite <- !H by assumption. apply HA; assumption. Qed.

Lemma quad_add n A B x : quad n (madd A B) x = quad n A x + quad n B x.
Proof.
  unfold quad, vdot. rewrite <- sum_plus. apply sum_ext. intros i _.
  unfold mvec, madd. rewrite <- Rmult_plus_distr_l. f_equal.
  rewrite <- sum_plus. apply sum_ext. intros. ring.
Qed.

Lemma quad_scale n c A x : quad n (mscale c A) x = c * quad n A x.
Proof.
  unfold quad, vdot. rewrite <- sum_scal_l. apply sum_ext. intros i _.
  unfold mvec, mscale.
  rewrite (sum_ext n _ (fun l => c * (A i l * x l))) by (intros; ring).
  rewrite sum_scal_l. ring.
Qed.

Lemma psd_add n A B : psd n A -> psd n B -> psd n (madd A B).
Proof. intros HA HB x. rewrite quad_add. specialize (HA x). specialize (HB x). lra. Qed.

Lemma psd_scale n c A : 0 <= c -> psd n A -> psd n (mscale c A).
Proof. intros Hc HA x. rewrite quad_scale. apply Rmult_le_pos; [exact Hc|apply HA]. Qed.

Lemma psd_zero n : psd n mzero.
Proof.
  intros x. unfold quad, vdot, mvec, mzero. apply Req_le. symmetry.
  apply sum_zero. intros i _. rewrite sum_zero; [ring|]. intros; ring.
Qed.

Lemma quad_sandwich m n A C x : quad m (sandwich n A C) x = quad n C (mvec m (tr A) x).
Proof.
  unfold quad, sandwich.
  rewrite (vdot_ext m x x _ (mvec n (mmul n A C) (mvec m (tr A) x))).
  2:{ intros i _; reflexivity. }
  2:{ intros i _. apply mvec_mmul. }
  rewrite (vdot_ext m x x _ (mvec n A (mvec n C (mvec m (tr A) x)))).
  2:{ intros i _; reflexivity. }
  2:{ intros i _. apply mvec_mmul. }
  apply vdot_tr.
Qed.

Lemma psd_sandwich m n A C : psd n C -> psd m (sandwich n A C).
Proof. intros H x. rewrite quad_sandwich. apply H. Qed.

Lemma symm_sandwich m n A C : symm n C -> symm m (sandwich n A C).
Proof.
  intros H i j Hi Hj. unfold sandwich, mmul, tr.
  rewrite (sum_ext n _ (fun l => sum n (fun p => A i p * C p l * A j l))).
  2:{ intros. rewrite <- sum_scal_r. reflexivity. }
  rewrite (sum_ext n (fun l => sum n (fun l0 => A j l0 * C l0 l) * A i l)
    (fun l => sum n (fun p => A j p * C p l * A i l))).
  2:{ intros. rewrite <- sum_scal_r. reflexivity. }
  rewrite sum_swap. apply sum_ext. intros p Hp. apply sum_ext. intros q Hq.
  rewrite (H p q) by assumption. ring.
Qed.

Lemma sandwich_ext m n A A' C C' :
  meq m n A A' -> meq n n C C' -> meq m m (sandwich n A C) (sandwich n A' C').
Proof.
  intros HA HC. unfold sandwich. apply mmul_ext.
  - apply mmul_ext; assumption.
  - intros i j Hi Hj. unfold tr. apply HA; assumption.
Qed.

Lemma sandwich_sandwich k n A B C i j :
  sandwich k A (sandwich n B C) i j = sandwich n (mmul k A B) C i j.
Proof.
  unfold sandwich.
  (* A ((B C) B^T) A^T = ((A B) C) (A B)^T *)
  rewrite (mmul_ext (S i) k (S j) _ (mmul n (mmul k A (mmul n B C)) (tr B)) (tr A) (tr A));
    try (lia || apply meq_refl).
  2:{ intros p q _ _. symmetry. apply mmul_assoc. }
  rewrite mmul_assoc.
  apply (mmul_ext (S i) n (S j)); try lia.
  - intros p q _ _. symmetry. apply mmul_assoc.
  - intros p q _ _. symmetry. apply mmul_tr.
Qed.

Lemma eye_symm n : symm n eye.
Proof. intros i j _ _. unfold eye. rewrite Nat.eqb_sym. reflexivity. Qed.

(** finite case analysis on an index below a literal bound *)
Ltac idx i H :=
  match type of H with
  | (i < 0)%nat => exfalso; lia
  | (i < S ?n)%nat =>
      destruct i as [|i]; [clear H|apply Nat.succ_lt_mono in H; idx i H]
  end.

Lemma mvec_eye n x i : (i < n)%nat -> mvec n eye x i = x i.
Proof. intros Hi. exact (mmul_eye_l n (fun l _ => x l) i 0 Hi). Qed.

Lemma psd_eye n : psd n eye.
Proof.
  intros x. unfold quad, vdot. apply sum_nonneg. intros i Hi. rewrite mvec_eye by assumption.
  apply Rle_0_sqr.
Qed.
