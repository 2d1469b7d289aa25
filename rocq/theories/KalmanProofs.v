From Coq Require Import Reals Lra Lia Bool Arith Setoid Morphisms.
From Verif Require Import Mat MatSetoid CovTransform CovTransformProofs Kalman.
Open Scope R_scope.

(** What is assumed about the numerical library: potrf/potri either fails or returns the
    upper triangle of the inverse of the symmetric matrix given by the upper triangle of
    its argument; getrf/getri inverts whatever is invertible. *)
Definition lapack_ok (m : nat) (chol : mat -> option mat) (gen : mat -> mat) : Prop :=
  (forall A W, chol A = Some W -> exists V, inverse_of m (from_upper A) V /\
     forall i j, (i <= j)%nat -> (j < m)%nat -> W i j = V i j) /\
  (forall A V, inverse_of m A V -> inverse_of m A (gen A)).

Lemma from_upper_symm m A : symm m A -> meq m m (from_upper A) A.
Proof.
  intros H i j Hi Hj. unfold from_upper. destruct (Nat.leb_spec i j); [reflexivity|].
  apply H; assumption.
Qed.

Lemma inverse_of_ext n A A' B : meq n n A A' -> inverse_of n A B -> inverse_of n A' B.
Proof. intros E [H1 H2]. split; rewrite <- E; assumption. Qed.

Lemma invert_innovation_ok m chol gen S V :
  lapack_ok m chol gen -> symm m S -> inverse_of m S V ->
  meq m m (from_upper (invert_innovation chol gen S)) V.
Proof.
  intros [Hc Hg] HS HV. unfold invert_innovation.
  destruct (chol S) as [W|] eqn:E.
  - destruct (Hc S W E) as (V' & HV' & HW).
    apply (inverse_of_ext m _ S) in HV'; [|apply from_upper_symm; exact HS].
    assert (EV : meq m m V' V) by (apply (inverse_unique m S); [apply HV'|apply HV]).
    assert (HVs : symm m V) by (apply (inverse_symm m S); assumption).
    intros i j Hi Hj. unfold from_upper. destruct (Nat.leb_spec i j).
    + rewrite HW by lia. apply EV; assumption.
    + rewrite HW by lia. rewrite EV by assumption. apply HVs; assumption.
  - assert (EV : meq m m (gen S) V).
    { apply (inverse_unique m S); [apply (Hg S V HV)|apply HV]. }
    rewrite <- EV. apply from_upper_symm.
    apply (inverse_symm m S); [exact HS|apply (Hg S V HV)].
Qed.

Lemma whole_mul n J ib ie C m q : (ib <= ie)%nat -> (ie <= n)%nat ->
  meq m q (mmul n (whole J ib ie) C) (mmul (ie - ib) J (sub C ib 0)).
Proof.
  intros H1 H2 i j _ _. unfold mmul.
  rewrite (sum_ext n _ (fun l => if (ib <=? l)%nat && (l <? ie)%nat
             then (fun l' => J i l' * sub C ib 0 l' j) (l - ib)%nat else 0)).
  - apply (sum_range n ib ie (fun l' => J i l' * sub C ib 0 l' j)); assumption.
  - intros l Hl. unfold whole, sub. bd; cbn [Nat.add]; try ring.
    replace (ib + (l - ib))%nat with l by lia. ring.
Qed.

Lemma whole_mul_tr n J ib ie C m q : (ib <= ie)%nat -> (ie <= n)%nat ->
  meq m q (mmul n C (tr (whole J ib ie))) (mmul (ie - ib) (sub C 0 ib) (tr J)).
Proof.
  intros H1 H2 i j Hi Hj.
  transitivity (tr (mmul n (whole J ib ie) (tr C)) i j); [symmetry; apply mmul_tr|].
  unfold tr at 1. rewrite (whole_mul n J ib ie (tr C) q m H1 H2 j i Hj Hi).
  unfold mmul, tr, sub. apply sum_ext. intros l _. cbn. ring.
Qed.

Lemma whole_vec n J ib ie x m : (ib <= ie)%nat -> (ie <= n)%nat ->
  veq m (mvec n (whole J ib ie) x) (mvec (ie - ib) J (vsub_range x ib)).
Proof.
  intros H1 H2 i Hi.
  pose proof (whole_mul n J ib ie (fun l _ => x l) m 1 H1 H2 i 0%nat Hi (Nat.lt_0_1)) as E.
  exact E.
Qed.

(** the innovation covariance *)
Definition innovation (n : nat) (H P R : mat) : mat := madd (sandwich n H P) R.

Lemma innovation_range n m J ib ie P R : (ib <= ie)%nat -> (ie <= n)%nat ->
  meq m m (madd (mmul (ie - ib) (mmul (ie - ib) J (sub P ib ib)) (tr J)) R)
    (innovation n (whole J ib ie) P R).
Proof.
  intros H1 H2. unfold innovation, sandwich.
  rewrite (whole_mul_tr n J ib ie _ m m H1 H2).
  apply madd_proper; [|reflexivity]. apply mmul_proper with (m := m); [|reflexivity].
  intros i j Hi Hj. unfold sub at 2. cbn [Nat.add].
  rewrite (whole_mul n J ib ie P (S i) (S (ib + j)) H1 H2 i (ib + j)%nat) by lia.
  unfold mmul, sub. reflexivity.
Qed.

Lemma symm_innovation n m H P R : symm n P -> symm m R -> symm m (innovation n H P R).
Proof.
  intros HP HR i j Hi Hj. unfold innovation, madd.
  rewrite (symm_sandwich m n H P HP i j Hi Hj), (HR i j Hi Hj). reflexivity.
Qed.

(** the abstract Kalman step: T = P H^T, S = H T + R, W = S^-1 *)
Section core.
Variables (n m : nat) (H P R W : mat).
Hypothesis HP : symm n P.
Hypothesis HR : symm m R.
Hypothesis HW : inverse_of m (innovation n H P R) W.

Definition kT : mat := mmul n P (tr H).
Definition kK : mat := mmul m kT W.
Definition kP : mat := msub P (mmul m kK (tr kT)).

Lemma W_symm : symm m W.
Proof. apply (inverse_symm m (innovation n H P R)); [apply symm_innovation; assumption|exact HW]. Qed.

Lemma kT_tr : meq m n (tr kT) (mmul n H P).
Proof. unfold kT. rewrite mTT. rewrite (symm_tr n P HP). reflexivity. Qed.

Lemma HT_eq : meq m m (mmul n H kT) (msub (innovation n H P R) R).
Proof.
  unfold kT. rewrite <- mA. intros i j Hi Hj. unfold innovation, sandwich, msub, madd. lra.
Qed.

(** x' P' x = x'Px - (T'x)' W (T'x) *)
Lemma quad_kP x : quad n kP x = quad n P x - quad m W (mvec n (tr kT) x).
Proof.
  unfold kP, kK. rewrite quad_msub. f_equal.
  exact (quad_sandwich n m kT W x).
Qed.

(** expected squared error along x with the correction v = L' x *)
Lemma quad_mixed x v :
  quad n P (vsub x (mvec m (tr H) v)) + quad m R v
  = quad n P x - 2 * vdot m v (mvec n (tr kT) x) + quad m (innovation n H P R) v.
Proof.
  rewrite (quad_symm_sub n P x _ HP).
  unfold innovation. rewrite quad_add, quad_sandwich.
  assert (E : vdot n (mvec m (tr H) v) (mvec n P x) = vdot m v (mvec n (tr kT) x)).
  { rewrite <- (vdot_tr m n H v). rewrite kT_tr. rewrite vA. reflexivity. }
  rewrite E. lra.
Qed.

Lemma quad_kP_joseph x : let u := mvec m W (mvec n (tr kT) x) in
  quad n kP x = quad n P (vsub x (mvec m (tr H) u)) + quad m R u.
Proof.
  cbv zeta. set (y := mvec n (tr kT) x). set (u := mvec m W y).
  rewrite quad_mixed, quad_kP. fold y.
  assert (E : quad m (innovation n H P R) u = vdot m u y).
  { unfold quad. apply vdot_ext; [intros i _; reflexivity|]. unfold u.
    rewrite <- vA. rewrite (proj1 HW). apply v1. }
  assert (E2 : quad m W y = vdot m u y) by (unfold quad; fold u; apply vdot_comm).
  rewrite E, E2. lra.
Qed.

Lemma quad_kP_le x v : psd m (innovation n H P R) ->
  quad n kP x <= quad n P (vsub x (mvec m (tr H) v)) + quad m R v.
Proof.
  intros HS. rewrite quad_kP_joseph. set (y := mvec n (tr kT) x). set (u := mvec m W y).
  rewrite !quad_mixed. fold y.
  pose proof (HS (vsub v u)) as H0.
  rewrite (quad_symm_sub m _ v u (symm_innovation n m H P R HP HR)) in H0.
  assert (E : quad m (innovation n H P R) u = vdot m u y).
  { unfold quad. apply vdot_ext; [intros i _; reflexivity|]. unfold u.
    rewrite <- vA. rewrite (proj1 HW). apply v1. }
  assert (E3 : vdot m u (mvec m (innovation n H P R) v) = vdot m v y).
  { rewrite vdot_tr, (symm_tr m _ (symm_innovation n m H P R HP HR)), vdot_comm.
    apply vdot_ext; [intros i _; reflexivity|]. unfold u. rewrite <- vA. rewrite (proj1 HW). apply v1. }
  rewrite E in *. rewrite E3 in H0. lra.
Qed.

Lemma kP_symm : symm n kP.
Proof.
  intros i j Hi Hj. unfold kP, msub, kK.
  rewrite (HP i j Hi Hj).
  pose proof (symm_sandwich n m kT W W_symm i j Hi Hj) as E. unfold sandwich in E. rewrite E. reflexivity.
Qed.

Lemma quad_corrected L x :
  quad n (corrected_cov n m H P R L) x =
  quad n P (vsub x (mvec m (tr H) (mvec n (tr L) x))) + quad m R (mvec n (tr L) x).
Proof.
  unfold corrected_cov. rewrite quad_add, !quad_sandwich. f_equal.
  assert (E : veq n (mvec n (tr (msub eye (mmul m L H))) x)
                    (vsub x (mvec m (tr H) (mvec n (tr L) x)))).
  { assert (E1 : meq n n (tr (msub eye (mmul m L H))) (msub eye (mmul m (tr H) (tr L)))).
    { intros i j Hi Hj. unfold msub, tr at 1. rewrite <- (mmul_tr m L H i j). unfold tr, eye.
      rewrite Nat.eqb_sym. reflexivity. }
    rewrite E1, vSl, v1, vA. reflexivity. }
  unfold quad. rewrite E. reflexivity.
Qed.

(** ** Information form *)
Lemma kalman_info Pi Ri : inverse_of n P Pi -> inverse_of m R Ri ->
  meq n n (mmul n (madd Pi (mmul m (tr H) (mmul m Ri H))) kP) eye.
Proof.
  intros [HPi1 HPi2] [HRi1 HRi2].
  assert (A1 : meq n n (mmul n Pi kP) (msub eye (mmul m (tr H) (mmul m W (tr kT))))).
  { unfold kP. rewrite mSr, HPi2. apply msub_proper; [reflexivity|].
    unfold kK, kT at 1. rewrite !mA. rewrite <- mA. rewrite HPi2, m1l. reflexivity. }
  assert (A2 : meq m n (mmul n H kP) (mmul m R (mmul m W (tr kT)))).
  { unfold kP. rewrite mSr. rewrite <- kT_tr at 1. unfold kK.
    rewrite !mA, <- (mA m n n m H kT (mmul m W (tr kT))). rewrite HT_eq, mSl.
    rewrite <- (mA m n m m (innovation n H P R) W). rewrite (proj1 HW), m1l.
    intros i j Hi Hj. unfold msub. lra. }
  rewrite mDl, A1. rewrite !mA, A2.
  rewrite <- (mA m n m m Ri R). rewrite HRi2, m1l.
  intros i j Hi Hj. unfold madd, msub. lra.
Qed.

Lemma kalman_info_state Pi Ri x z : inverse_of n P Pi -> inverse_of m R Ri ->
  veq n (mvec n (madd Pi (mmul m (tr H) (mmul m Ri H)))
           (vadd x (mvec m kK (vsub z (mvec n H x)))))
        (vadd (mvec n Pi x) (mvec m (tr H) (mvec m Ri z))).
Proof.
  intros [HPi1 HPi2] [HRi1 HRi2].
  assert (MK : meq n m (mmul n (madd Pi (mmul m (tr H) (mmul m Ri H))) kK) (mmul m (tr H) Ri)).
  { assert (B1 : meq n m (mmul n Pi kK) (mmul m (tr H) W)).
    { unfold kK, kT. rewrite !mA, <- mA, HPi2, m1l. reflexivity. }
    assert (B2 : meq m m (mmul n H kK) (msub eye (mmul m R W))).
    { unfold kK. rewrite <- mA, HT_eq, mSl, (proj1 HW). reflexivity. }
    rewrite mDl, B1, !mA, B2, mSr, m1r, <- (mA m m m m Ri R), HRi2, m1l, mSr.
    intros i j Hi Hj. unfold madd, msub. lra. }
  rewrite vDr, <- vA, MK, vDl, !vA, !vSr.
  intros i Hi. unfold vadd, vsub. lra.
Qed.
End core.
