(** Rewriting support for sized matrix equality ([meq], [veq]); nothing here models code. *)
From Coq Require Import Reals Lra Lia Arith Setoid Morphisms.
From Verif Require Import Mat.
Open Scope R_scope.

#[global] Instance meq_equiv m n : Equivalence (meq m n).
Proof. split; [exact (meq_refl m n)|exact (meq_sym m n)|exact (meq_trans m n)]. Qed.
#[global] Instance veq_equiv n : Equivalence (veq n).
Proof.
  split; [intros x i _; reflexivity|intros x y H i Hi; symmetry; exact (H i Hi)|].
  intros x y z H1 H2 i Hi. rewrite (H1 i Hi). exact (H2 i Hi).
Qed.
#[global] Instance mmul_proper m k n : Proper (meq m k ==> meq k n ==> meq m n) (mmul k).
Proof. intros A A' HA B B' HB. exact (mmul_ext m k n A A' B B' HA HB). Qed.
#[global] Instance mvec_proper m k : Proper (meq m k ==> veq k ==> veq m) (mvec k).
Proof. intros A A' HA x x' Hx. exact (mvec_ext k m A A' x x' HA Hx). Qed.
#[global] Instance tr_proper m n : Proper (meq m n ==> meq n m) tr.
Proof. intros A A' HA i j Hi Hj. exact (HA j i Hj Hi). Qed.
#[global] Instance madd_proper m n : Proper (meq m n ==> meq m n ==> meq m n) madd.
Proof. intros A A' HA B B' HB i j Hi Hj. unfold madd. rewrite HA, HB by assumption. reflexivity. Qed.
#[global] Instance msub_proper m n : Proper (meq m n ==> meq m n ==> meq m n) msub.
Proof. intros A A' HA B B' HB i j Hi Hj. unfold msub. rewrite HA, HB by assumption. reflexivity. Qed.
#[global] Instance mscale_proper m n : Proper (eq ==> meq m n ==> meq m n) mscale.
Proof. intros c c' -> B B' HB i j Hi Hj. unfold mscale. rewrite HB by assumption. reflexivity. Qed.
#[global] Instance vadd_proper n : Proper (veq n ==> veq n ==> veq n) vadd.
Proof. intros x x' Hx y y' Hy i Hi. unfold vadd. rewrite Hx, Hy by exact Hi. reflexivity. Qed.
#[global] Instance vsub_proper n : Proper (veq n ==> veq n ==> veq n) vsub.
Proof. intros x x' Hx y y' Hy i Hi. unfold vsub. rewrite Hx, Hy by exact Hi. reflexivity. Qed.
#[global] Instance vdot_proper n : Proper (veq n ==> veq n ==> eq) (vdot n).
Proof. intros x x' Hx y y' Hy. exact (vdot_ext n x x' y y' Hx Hy). Qed.

Lemma mA m n k l A B C : meq m n (mmul l (mmul k A B) C) (mmul k A (mmul l B C)).
Proof. intros i j _ _. apply mmul_assoc. Qed.
Lemma m1l m n A : meq m n (mmul m eye A) A.
Proof. intros i j Hi _. apply mmul_eye_l. exact Hi. Qed.
Lemma m1r m n A : meq m n (mmul n A eye) A.
Proof. intros i j _ Hj. apply mmul_eye_r. exact Hj. Qed.
Lemma mTT m n k A B : meq m n (tr (mmul k A B)) (mmul k (tr B) (tr A)).
Proof. intros i j _ _. apply mmul_tr. Qed.
Lemma mDl m n k A B C : meq m n (mmul k (madd A B) C) (madd (mmul k A C) (mmul k B C)).
Proof. intros i j _ _. apply mmul_add_l. Qed.
Lemma mDr m n k A B C : meq m n (mmul k A (madd B C)) (madd (mmul k A B) (mmul k A C)).
Proof. intros i j _ _. apply mmul_add_r. Qed.
Lemma mSl m n k A B C : meq m n (mmul k (msub A B) C) (msub (mmul k A C) (mmul k B C)).
Proof. intros i j _ _. apply mmul_sub_l. Qed.
Lemma mSr m n k A B C : meq m n (mmul k A (msub B C)) (msub (mmul k A B) (mmul k A C)).
Proof. intros i j _ _. apply mmul_sub_r. Qed.
Lemma vA n k l A B x : veq n (mvec l (mmul k A B) x) (mvec k A (mvec l B x)).
Proof. intros i _. apply mvec_mmul. Qed.
Lemma v1 n x : veq n (mvec n eye x) x.
Proof. intros i Hi. apply mvec_eye. exact Hi. Qed.
Lemma vDr n k A x y : veq n (mvec k A (vadd x y)) (vadd (mvec k A x) (mvec k A y)).
Proof. intros i _. unfold mvec, vadd. rewrite <- sum_plus. apply sum_ext. intros; ring. Qed.
Lemma vSr n k A x y : veq n (mvec k A (vsub x y)) (vsub (mvec k A x) (mvec k A y)).
Proof. intros i _. unfold mvec, vsub. rewrite <- sum_minus. apply sum_ext. intros; ring. Qed.
Lemma vDl n k A B x : veq n (mvec k (madd A B) x) (vadd (mvec k A x) (mvec k B x)).
Proof. intros i _. unfold mvec, vadd, madd. rewrite <- sum_plus. apply sum_ext. intros; ring. Qed.
Lemma vSl n k A B x : veq n (mvec k (msub A B) x) (vsub (mvec k A x) (mvec k B x)).
Proof. intros i _. unfold mvec, vsub, msub. rewrite <- sum_minus. apply sum_ext. intros; ring. Qed.

Lemma symm_tr n A : symm n A -> meq n n (tr A) A.
Proof. intros H i j Hi Hj. apply H; assumption. Qed.
Lemma tr_symm n A : meq n n (tr A) A -> symm n A.
Proof. intros H i j Hi Hj. symmetry. exact (H i j Hi Hj). Qed.

(** two-sided inverse *)
Definition inverse_of (n : nat) (A B : mat) : Prop :=
  meq n n (mmul n A B) eye /\ meq n n (mmul n B A) eye.

Lemma inverse_of_sym n A B : inverse_of n A B -> inverse_of n B A.
Proof. intros [H1 H2]. split; assumption. Qed.

Lemma inverse_unique n A B C :
  meq n n (mmul n B A) eye -> meq n n (mmul n A C) eye -> meq n n B C.
Proof.
  intros HB HC.
  transitivity (mmul n B (mmul n A C)).
  - rewrite HC. symmetry. apply m1r.
  - rewrite <- mA, HB. apply m1l.
Qed.

Lemma inverse_symm n A B : symm n A -> inverse_of n A B -> symm n B.
Proof.
  intros HA [H1 H2]. apply tr_symm. apply (inverse_unique n A).
  - rewrite <- (symm_tr n A HA), <- mTT, H1. apply (symm_tr n eye (eye_symm n)).
  - exact H1.
Qed.

(** vdot algebra *)
Lemma vdot_comm n x y : vdot n x y = vdot n y x.
Proof. apply sum_ext. intros; ring. Qed.
Lemma vdot_add_l n x y z : vdot n (vadd x y) z = vdot n x z + vdot n y z.
Proof. unfold vdot, vadd. rewrite <- sum_plus. apply sum_ext. intros; ring. Qed.
Lemma vdot_sub_l n x y z : vdot n (vsub x y) z = vdot n x z - vdot n y z.
Proof. unfold vdot, vsub. rewrite <- sum_minus. apply sum_ext. intros; ring. Qed.
Lemma vdot_sub_r n x y z : vdot n z (vsub x y) = vdot n z x - vdot n z y.
Proof. unfold vdot, vsub. rewrite <- sum_minus. apply sum_ext. intros; ring. Qed.
Lemma vdot_add_r n x y z : vdot n z (vadd x y) = vdot n z x + vdot n z y.
Proof. unfold vdot, vadd. rewrite <- sum_plus. apply sum_ext. intros; ring. Qed.

Lemma quad_msub n A B x : quad n (msub A B) x = quad n A x - quad n B x.
Proof. unfold quad. rewrite (vSl n n A B x). apply vdot_sub_r. Qed.

Lemma quad_symm_sub n A x y : symm n A ->
  quad n A (vsub x y) = quad n A x - 2 * vdot n y (mvec n A x) + quad n A y.
Proof.
  intros H. unfold quad. rewrite (vSr n n A x y), vdot_sub_l, !vdot_sub_r.
  rewrite (vdot_tr n n A x y), (symm_tr n A H), (vdot_comm n (mvec n A x) y). lra.
Qed.
