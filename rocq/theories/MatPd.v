(** Symmetric positive definite matrices are invertible (Schur complements); specification
    support, models no code. *)
From Coq Require Import Reals Lra Lia Arith Setoid Morphisms.
From Verif Require Import Mat MatSetoid.
Open Scope R_scope.

Lemma sum_Sn n f : sum (S n) f = sum n f + f n.
Proof. reflexivity. Qed.

Fixpoint pd_inverse (n : nat) (A : mat) : mat :=
  match n with
  | O => mzero
  | S k =>
      let B := pd_inverse k A in
      let u := mvec k B (fun i => A i k) in
      let s := A k k - vdot k (fun i => A i k) u in
      fun i j => if (i =? k)%nat then (if (j =? k)%nat then / s else - u j / s)
                 else if (j =? k)%nat then - u i / s else B i j + u i * u j / s
  end.

Lemma pd_sub n A : pd (S n) A -> pd n A.
Proof.
  intros H x (i & Hi & Hx).
  set (y := fun j => if (j <? n)%nat then x j else 0).
  assert (Hy : forall j, (j < n)%nat -> y j = x j)
    by (intros j Hj; unfold y; rewrite (proj2 (Nat.ltb_lt j n) Hj); reflexivity).
  assert (Hyn : y n = 0) by (unfold y; rewrite Nat.ltb_irrefl; reflexivity).
  assert (E : quad n A x = quad (S n) A y).
  { unfold quad, vdot. rewrite sum_Sn, Hyn, Rmult_0_l, Rplus_0_r.
    apply sum_ext. intros j Hj. rewrite Hy by exact Hj. f_equal.
    unfold mvec. rewrite sum_Sn, Hyn, Rmult_0_r, Rplus_0_r.
    apply sum_ext. intros l Hl. rewrite Hy by exact Hl. reflexivity. }
  rewrite E. apply H. exists i. split; [lia|]. unfold y. rewrite (proj2 (Nat.ltb_lt i n) Hi). exact Hx.
Qed.

Lemma quad_Sn n A x : quad (S n) A x =
  quad n A x + x n * (sum n (fun i => x i * A i n) + sum n (fun l => A n l * x l) + A n n * x n).
Proof.
  unfold quad at 1. unfold vdot. rewrite sum_Sn. unfold mvec. rewrite sum_Sn.
  rewrite (sum_ext n _ (fun i => x i * sum n (fun l => A i l * x l) + x i * A i n * x n)).
  2:{ intros i Hi. rewrite sum_Sn. ring. }
  rewrite sum_plus. unfold quad, vdot, mvec.
  rewrite (sum_scal_r n (x n) (fun i => x i * A i n)). ring.
Qed.

Lemma pd_inverse_spec n : forall A, symm n A -> pd n A ->
  symm n (pd_inverse n A) /\ meq n n (mmul n A (pd_inverse n A)) eye.
Proof.
  induction n as [|n IH]; intros A HS HP.
  - split; intros i j Hi; lia.
  - assert (HS' : symm n A) by (intros i j Hi Hj; apply HS; lia).
    destruct (IH A HS' (pd_sub n A HP)) as [IB1 IB2].
    cbn [pd_inverse]. set (B := pd_inverse n A) in *.
    set (u := mvec n B (fun i => A i n)). set (s := A n n - vdot n (fun i => A i n) u).
    (* A u = b *)
    assert (HAu : forall i, (i < n)%nat -> sum n (fun l => A i l * u l) = A i n).
    { intros i Hi. change (mvec n A u i = A i n). unfold u.
      assert (E : veq n (mvec n A (mvec n B (fun i => A i n))) (fun i => A i n)).
      { rewrite <- vA, IB2. apply v1. }
      exact (E i Hi). }
    assert (Hbu : sum n (fun l => A n l * u l) = vdot n (fun i => A i n) u).
    { apply sum_ext. intros l Hl. rewrite (HS n l) by lia. reflexivity. }
    assert (Hs : 0 < s).
    { set (w := fun i => if (i =? n)%nat then 1 else - u i).
      assert (Hw : forall i, (i < n)%nat -> w i = - u i).
      { intros i Hi. unfold w. rewrite (proj2 (Nat.eqb_neq i n)) by lia. reflexivity. }
      assert (Hwn : w n = 1) by (unfold w; rewrite Nat.eqb_refl; reflexivity).
      assert (E : quad (S n) A w = s).
      { rewrite quad_Sn, Hwn.
        rewrite (sum_ext n (fun i => w i * A i n) (fun i => - (A i n * u i)))
          by (intros i Hi; rewrite Hw by exact Hi; ring).
        rewrite (sum_ext n (fun l => A n l * w l) (fun l => - (A n l * u l)))
          by (intros i Hi; rewrite Hw by exact Hi; ring).
        rewrite !sum_opp, Hbu. unfold quad, vdot at 1.
        rewrite (sum_ext n _ (fun i => A i n * u i)).
        { unfold s, vdot. ring. }
        intros i Hi. rewrite Hw by exact Hi. unfold mvec.
        rewrite (sum_ext n _ (fun l => - (A i l * u l))) by (intros l Hl; rewrite Hw by exact Hl; ring).
        rewrite sum_opp, HAu by exact Hi. ring. }
      rewrite <- E. apply HP. exists n. split; [lia|]. rewrite Hwn. lra. }
    assert (Hs0 : s <> 0) by lra.
    assert (Hub : forall j, (j < n)%nat -> sum n (fun l => A n l * B l j) = u j).
    { intros j Hj. unfold u, mvec. apply sum_ext. intros l Hl.
      rewrite (HS n l), (IB1 l j) by lia. ring. }
    split.
    + intros i j Hi Hj. destruct (Nat.eqb_spec i n), (Nat.eqb_spec j n); try reflexivity.
      rewrite (IB1 i j) by lia. field. exact Hs0.
    + intros i j Hi Hj. unfold mmul. rewrite sum_Sn, Nat.eqb_refl.
      rewrite (sum_ext n _ (fun l => if (j =? n)%nat then (A i l * u l) * (- / s)
                                     else A i l * B l j + (A i l * u l) * (u j / s))).
      2:{ intros l Hl. rewrite (proj2 (Nat.eqb_neq l n)) by lia.
          destruct (Nat.eqb_spec j n); field; exact Hs0. }
      destruct (Nat.eqb_spec j n) as [->|Hjn].
      * rewrite sum_scal_r. destruct (Nat.eq_dec i n) as [->|Hin].
        -- rewrite Hbu. unfold eye. rewrite Nat.eqb_refl.
           replace (A n n) with (s + vdot n (fun i => A i n) u) by (unfold s; ring). field. exact Hs0.
        -- rewrite HAu by lia. unfold eye. rewrite (proj2 (Nat.eqb_neq i n)) by exact Hin. field. exact Hs0.
      * rewrite sum_plus, sum_scal_r. destruct (Nat.eq_dec i n) as [->|Hin].
        -- rewrite Hub, Hbu by lia. unfold eye. rewrite (proj2 (Nat.eqb_neq n j)) by lia.
           replace (A n n) with (s + vdot n (fun i => A i n) u) by (unfold s; ring). field. exact Hs0.
        -- rewrite HAu by lia.
           pose proof (IB2 i j ltac:(lia) ltac:(lia)) as E. unfold mmul in E. rewrite E. field. exact Hs0.
Qed.

Lemma symm_right_inverse n A B : symm n A -> symm n B -> meq n n (mmul n A B) eye -> inverse_of n A B.
Proof.
  intros HA HB H. split; [exact H|].
  transitivity (tr (mmul n A B)).
  - rewrite mTT, (symm_tr n A HA), (symm_tr n B HB). reflexivity.
  - rewrite H. apply (symm_tr n eye (eye_symm n)).
Qed.

Lemma pd_invertible n A : symm n A -> pd n A -> inverse_of n A (pd_inverse n A).
Proof.
  intros HS HP. destruct (pd_inverse_spec n A HS HP) as [H1 H2].
  apply symm_right_inverse; assumption.
Qed.

Lemma pd_psd n A : pd n A -> psd n A.
Proof.
  intros H x.
  assert (D : forall k, (k <= n)%nat -> (exists i, (i < k)%nat /\ x i <> 0) \/ (forall i, (i < k)%nat -> x i = 0)).
  { induction k as [|k IHk]; intros Hk; [right; intros; lia|].
    destruct (IHk ltac:(lia)) as [(i & Hi & Hx)|Hz]; [left; exists i; split; [lia|exact Hx]|].
    destruct (Req_dec (x k) 0) as [E|E].
    - right. intros i Hi. destruct (Nat.eq_dec i k) as [->|]; [exact E|apply Hz; lia].
    - left. exists k. split; [lia|exact E]. }
  destruct (D n (Nat.le_refl n)) as [Hx|Hz]; [apply Rlt_le, H, Hx|].
  unfold quad, vdot. rewrite sum_zero; [lra|]. intros i Hi. rewrite Hz by exact Hi. ring.
Qed.

Lemma pd_add_psd n A B : psd n A -> pd n B -> pd n (madd A B).
Proof. intros HA HB x Hx. rewrite quad_add. specialize (HA x). specialize (HB x Hx). lra. Qed.

(** the inverse of a positive definite matrix is positive definite *)
Lemma pd_of_inverse n A B : symm n A -> pd n A -> inverse_of n A B -> pd n B.
Proof.
  intros HS HP [H1 H2] x (i & Hi & Hx).
  assert (E : quad n B x = quad n A (mvec n B x)).
  { unfold quad. rewrite (vdot_comm n x). apply vdot_ext; [intros k _; reflexivity|].
    intros k Hk. pose proof (vA n n n A B x k Hk) as E. rewrite <- E.
    rewrite (mvec_ext n n _ eye x x H1 ltac:(intros l _; reflexivity) k Hk). symmetry. apply mvec_eye. exact Hk. }
  rewrite E. apply HP.
  (* B x is not zero *)
  assert (D : forall k, (k <= n)%nat -> (exists i, (i < k)%nat /\ mvec n B x i <> 0) \/ (forall i, (i < k)%nat -> mvec n B x i = 0)).
  { induction k as [|k IHk]; intros Hk; [right; intros; lia|].
    destruct (IHk ltac:(lia)) as [(p & Hp & Hx')|Hz]; [left; exists p; split; [lia|exact Hx']|].
    destruct (Req_dec (mvec n B x k) 0) as [E0|E0].
    - right. intros p Hp. destruct (Nat.eq_dec p k) as [->|]; [exact E0|apply Hz; lia].
    - left. exists k. split; [lia|exact E0]. }
  destruct (D n (Nat.le_refl n)) as [Hd|Hz]; [exact Hd|]. exfalso. apply Hx.
  rewrite <- (mvec_eye n x i Hi).
  rewrite <- (mvec_ext n n _ eye x x H1 ltac:(intros l _; reflexivity) i Hi).
  rewrite (vA n n n A B x i Hi). unfold mvec at 1. apply sum_zero. intros l Hl. rewrite Hz by exact Hl. ring.
Qed.
