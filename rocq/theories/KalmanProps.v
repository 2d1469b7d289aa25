(** Properties of the Kalman measurement update (C26, C73). *)
From Coq Require Import Reals Lra Lia Bool Arith List Setoid Morphisms.
Import ListNotations.
From Verif Require Import Mat MatSetoid MatPd CovTransform CovTransformProofs Kalman KalmanProofs.
Open Scope R_scope.

Section props.
Variables (chol : mat -> option mat) (gen : mat -> mat) (n m : nat).
Hypothesis LA : lapack_ok m chol gen.

(** the innovation covariance of an update *)
Definition innov (f : cfun) (ib ie : nat) (st meas : errvec) : mat :=
  innovation n (whole (snd (f (vsub_range (value st) ib))) ib ie) (covariance st) (covariance meas).

Lemma innov_symm f ib ie st meas :
  symm n (covariance st) -> symm m (covariance meas) -> symm m (innov f ib ie st meas).
Proof. apply symm_innovation. Qed.

Lemma update_core f ib ie st meas W :
  (ib <= ie)%nat -> (ie <= n)%nat -> symm n (covariance st) -> symm m (covariance meas) ->
  inverse_of m (innov f ib ie st meas) W ->
  let H := whole (snd (f (vsub_range (value st) ib))) ib ie in
  let r := kalman_update chol gen n m f ib ie st meas in
  veq n (value r) (vadd (value st) (mvec m (kK n m H (covariance st) W)
                     (vsub (value meas) (fst (f (vsub_range (value st) ib)))))) /\
  meq n n (covariance r) (kP n m H (covariance st) W).
Proof.
  intros H1 H2 HP HR HW H r. unfold r, kalman_update, innov, H in *.
  destruct (f (vsub_range (value st) ib)) as [p J]. cbn [fst snd] in *.
  set (S := madd (mmul (ie - ib) (mmul (ie - ib) J (sub (covariance st) ib ib)) (tr J)) (covariance meas)).
  assert (ES : meq m m S (innovation n (whole J ib ie) (covariance st) (covariance meas)))
    by (apply innovation_range; assumption).
  assert (SS : symm m S).
  { apply (symm_ext m (innovation n (whole J ib ie) (covariance st) (covariance meas)));
      [symmetry; exact ES|]. apply symm_innovation; assumption. }
  assert (EW : meq m m (from_upper (invert_innovation chol gen S)) W).
  { apply invert_innovation_ok; [exact LA|exact SS|].
    apply (inverse_of_ext m _ S) in HW; [exact HW|symmetry; exact ES]. }
  assert (ET : meq n m (mmul (ie - ib) (sub (covariance st) 0 ib) (tr J)) (kT n (whole J ib ie) (covariance st)))
    by (symmetry; apply whole_mul_tr; assumption).
  cbn [value covariance]. unfold symm_right_upper, kP, kK. split.
  - rewrite EW, ET. reflexivity.
  - rewrite EW, ET. reflexivity.
Qed.

(** C26.  The new covariance is symmetric, positive semidefinite and not larger than the
    old one (the difference is positive semidefinite), whatever the measurement function
    returned as Jacobian, for any range of the state, also when Cholesky fails. *)
Theorem kalman_covariance_valid f ib ie st meas W :
  (ib <= ie)%nat -> (ie <= n)%nat ->
  symm n (covariance st) -> psd n (covariance st) ->
  symm m (covariance meas) -> psd m (covariance meas) ->
  inverse_of m (innov f ib ie st meas) W ->
  let P' := covariance (kalman_update chol gen n m f ib ie st meas) in
  symm n P' /\ psd n P' /\ psd n (msub (covariance st) P').
Proof.
  intros H1 H2 HP HPp HR HRp HW P'.
  destruct (update_core f ib ie st meas W H1 H2 HP HR HW) as [_ E].
  fold P' in E. set (H := whole _ ib ie) in E.
  assert (HSp : psd m (innov f ib ie st meas)).
  { apply psd_add; [apply psd_sandwich; exact HPp|exact HRp]. }
  split; [|split].
  - apply (symm_ext n (kP n m H (covariance st) W)); [symmetry; exact E|].
    apply (kP_symm n m H _ (covariance meas)); assumption.
  - apply (psd_ext n (kP n m H (covariance st) W)); [symmetry; exact E|].
    intros x. rewrite (quad_kP_joseph n m H _ (covariance meas) W HP HW x).
    apply Rplus_le_le_0_compat; [apply HPp|apply HRp].
  - apply (psd_ext n (msub (covariance st) (kP n m H (covariance st) W))); [rewrite E; reflexivity|].
    intros x. rewrite quad_msub, quad_kP.
    (* y' W y = (Wy)' S (Wy) *)
    set (y := mvec n (tr (kT n H (covariance st))) x).
    assert (E2 : quad m W y = quad m (innov f ib ie st meas) (mvec m W y)).
    { unfold quad. rewrite (vdot_comm m y). apply vdot_ext; [reflexivity|].
      rewrite <- vA, (proj1 HW). symmetry. apply v1. }
    rewrite E2. pose proof (HSp (mvec m W y)). lra.
Qed.

(** the result is the textbook one: gain K with K S = P H^T, state x + K (z - h(x)),
    covariance (I - K H) P *)
Theorem kalman_textbook f ib ie st meas W :
  (ib <= ie)%nat -> (ie <= n)%nat ->
  symm n (covariance st) -> symm m (covariance meas) ->
  inverse_of m (innov f ib ie st meas) W ->
  let r := kalman_update chol gen n m f ib ie st meas in
  let p := fst (f (vsub_range (value st) ib)) in
  let H := whole (snd (f (vsub_range (value st) ib))) ib ie in
  exists K,
    meq n m (mmul m K (innov f ib ie st meas)) (mmul n (covariance st) (tr H)) /\
    veq n (value r) (vadd (value st) (mvec m K (vsub (value meas) p))) /\
    meq n n (covariance r) (mmul n (msub eye (mmul m K H)) (covariance st)).
Proof.
  intros H1 H2 HP HR HW r p H.
  destruct (update_core f ib ie st meas W H1 H2 HP HR HW) as [Ev Ec].
  fold r p H in Ev, Ec. exists (kK n m H (covariance st) W). split; [|split].
  - unfold kK. rewrite mA, (proj2 HW), m1r. reflexivity.
  - exact Ev.
  - rewrite Ec. unfold kP. rewrite (kT_tr n m H (covariance st) HP), mSl, m1l, mA. reflexivity.
Qed.

(** no other gain gives a smaller expected error in any direction *)
Theorem kalman_gain_optimal f ib ie st meas W L :
  (ib <= ie)%nat -> (ie <= n)%nat ->
  symm n (covariance st) -> psd n (covariance st) ->
  symm m (covariance meas) -> psd m (covariance meas) ->
  inverse_of m (innov f ib ie st meas) W ->
  let H := whole (snd (f (vsub_range (value st) ib))) ib ie in
  psd n (msub (corrected_cov n m H (covariance st) (covariance meas) L)
              (covariance (kalman_update chol gen n m f ib ie st meas))).
Proof.
  intros H1 H2 HP HPp HR HRp HW H.
  destruct (update_core f ib ie st meas W H1 H2 HP HR HW) as [_ Ec]. fold H in Ec.
  assert (HSp : psd m (innov f ib ie st meas)).
  { apply psd_add; [apply psd_sandwich; exact HPp|exact HRp]. }
  apply (psd_ext n (msub (corrected_cov n m H (covariance st) (covariance meas) L) (kP n m H (covariance st) W)));
    [rewrite Ec; reflexivity|].
  intros x. rewrite quad_msub, quad_corrected.
  pose proof (quad_kP_le n m H _ _ W HP HR HW x (mvec n (tr L) x) HSp). lra.
Qed.

(** a measurement equal to its prediction does not move the state *)
Theorem kalman_no_innovation f ib ie st meas :
  veq m (value meas) (fst (f (vsub_range (value st) ib))) ->
  veq n (value (kalman_update chol gen n m f ib ie st meas)) (value st).
Proof.
  intros E. unfold kalman_update. destruct (f (vsub_range (value st) ib)) as [p J]. cbn [fst value] in *.
  intros i Hi. unfold vadd, mvec. rewrite sum_zero; [ring|].
  intros l Hl. unfold vsub. rewrite (E l Hl). ring.
Qed.

(** a positive definite measurement covariance always makes the update well defined *)
Theorem kalman_well_defined f ib ie st meas :
  symm n (covariance st) -> psd n (covariance st) ->
  symm m (covariance meas) -> pd m (covariance meas) ->
  exists W, inverse_of m (innov f ib ie st meas) W.
Proof.
  intros HP HPp HR HRp. exists (pd_inverse m (innov f ib ie st meas)).
  apply pd_invertible; [apply innov_symm; assumption|].
  apply pd_add_psd; [apply psd_sandwich; exact HPp|exact HRp].
Qed.

(** the overload for direct observations is the general update with the identity function *)
Theorem kalman_identity_agrees ib ie st meas W :
  (ib <= ie)%nat -> (ie <= n)%nat -> (ie - ib = m)%nat ->
  symm n (covariance st) -> symm m (covariance meas) ->
  inverse_of m (innov (fun v => (v, eye)) ib ie st meas) W ->
  let a := kalman_update_identity chol gen n m ib ie st meas in
  let b := kalman_update chol gen n m (fun v => (v, eye)) ib ie st meas in
  veq n (value a) (value b) /\ meq n n (covariance a) (covariance b).
Proof.
  intros H1 H2 Hm HP HR HW a b.
  destruct (update_core (fun v => (v, eye)) ib ie st meas W H1 H2 HP HR HW) as [Ev Ec].
  fold b in Ev, Ec. cbn [fst snd] in Ev, Ec.
  set (H := whole eye ib ie) in *.
  assert (ET : meq n m (sub (covariance st) 0 ib) (kT n H (covariance st))).
  { unfold kT, H. rewrite (whole_mul_tr n eye ib ie _ n m H1 H2), Hm.
    rewrite (symm_tr m eye (eye_symm m)), m1r. reflexivity. }
  set (S := madd (sub (covariance st) ib ib) (covariance meas)).
  assert (ES : meq m m S (innov (fun v => (v, eye)) ib ie st meas)).
  { unfold innov. cbn [snd]. rewrite <- (innovation_range n m eye ib ie _ _ H1 H2), Hm.
    rewrite (symm_tr m eye (eye_symm m)), m1r, m1l. reflexivity. }
  assert (EW : meq m m (from_upper (invert_innovation chol gen S)) W).
  { apply invert_innovation_ok; [exact LA| |].
    - apply (symm_ext m (innov (fun v => (v, eye)) ib ie st meas)); [symmetry; exact ES|].
      apply innov_symm; assumption.
    - apply (inverse_of_ext m _ S) in HW; [exact HW|symmetry; exact ES]. }
  unfold a, kalman_update_identity. cbn [value covariance]. fold S. unfold symm_right_upper.
  split.
  - rewrite Ev. rewrite EW, ET. reflexivity.
  - rewrite Ec. unfold kP, kK. rewrite EW, ET. reflexivity.
Qed.

(** C73.  Information form: inverse covariances add up. *)
Theorem kalman_information f ib ie st meas Pi Ri :
  (ib <= ie)%nat -> (ie <= n)%nat ->
  symm n (covariance st) -> pd n (covariance st) -> inverse_of n (covariance st) Pi ->
  symm m (covariance meas) -> pd m (covariance meas) -> inverse_of m (covariance meas) Ri ->
  let H := whole (snd (f (vsub_range (value st) ib))) ib ie in
  inverse_of n (covariance (kalman_update chol gen n m f ib ie st meas))
    (madd Pi (mmul m (tr H) (mmul m Ri H))).
Proof.
  intros H1 H2 HP HPp HPi HR HRp HRi H.
  destruct (kalman_well_defined f ib ie st meas HP (pd_psd _ _ HPp) HR HRp) as [W HW].
  destruct (update_core f ib ie st meas W H1 H2 HP HR HW) as [_ Ec]. fold H in Ec.
  assert (E1 : meq n n (mmul n (madd Pi (mmul m (tr H) (mmul m Ri H)))
                 (covariance (kalman_update chol gen n m f ib ie st meas))) eye).
  { rewrite Ec. apply (kalman_info n m H _ (covariance meas)); assumption. }
  apply inverse_of_sym. apply symm_right_inverse; [| |exact E1].
  - assert (HRs : symm m Ri) by (apply (inverse_symm m (covariance meas)); assumption).
    assert (HPs : symm n Pi) by (apply (inverse_symm n (covariance st)); assumption).
    intros i j Hi Hj. unfold madd. rewrite (HPs i j Hi Hj). f_equal.
    pose proof (symm_sandwich n m (tr H) Ri HRs i j Hi Hj) as E. unfold sandwich in E.
    rewrite !mmul_assoc in E. exact E.
  - apply (symm_ext n (kP n m H (covariance st) W)); [symmetry; exact Ec|].
    apply (kP_symm n m H _ (covariance meas)); assumption.
Qed.
End props.

(** a linear measurement function on [k] entries *)
Definition linear_fun (k : nat) (J : mat) : cfun := fun v => (mvec k J v, J).

(** ... and information vectors add up, too *)
Theorem kalman_information_state chol gen n m J ib ie st meas Pi Ri :
  lapack_ok m chol gen -> (ib <= ie)%nat -> (ie <= n)%nat ->
  symm n (covariance st) -> pd n (covariance st) -> inverse_of n (covariance st) Pi ->
  symm m (covariance meas) -> pd m (covariance meas) -> inverse_of m (covariance meas) Ri ->
  let H := whole J ib ie in
  let r := kalman_update chol gen n m (linear_fun (ie - ib) J) ib ie st meas in
  veq n (mvec n (madd Pi (mmul m (tr H) (mmul m Ri H))) (value r))
        (vadd (mvec n Pi (value st)) (mvec m (tr H) (mvec m Ri (value meas)))).
Proof.
  intros LA H1 H2 HP HPp HPi HR HRp HRi H r.
  destruct (kalman_well_defined n m (linear_fun (ie - ib) J) ib ie st meas HP (pd_psd _ _ HPp) HR HRp) as [W HW].
  destruct (update_core chol gen n m LA (linear_fun (ie - ib) J) ib ie st meas W H1 H2 HP HR HW) as [Ev _].
  fold r in Ev. cbn [fst snd linear_fun] in Ev. fold H in Ev.
  rewrite Ev. rewrite <- (whole_vec n J ib ie (value st) m H1 H2). fold H.
  apply (kalman_info_state n m H _ (covariance meas)); assumption.
Qed.

(** The order in which two independent linear measurements (of any two ranges and sizes)
    are processed does not matter: same state, same covariance. *)
Theorem kalman_order_independent n m1 m2 chol1 gen1 chol2 gen2 J1 ib1 ie1 z1 J2 ib2 ie2 z2 st :
  lapack_ok m1 chol1 gen1 -> lapack_ok m2 chol2 gen2 ->
  (ib1 <= ie1)%nat -> (ie1 <= n)%nat -> (ib2 <= ie2)%nat -> (ie2 <= n)%nat ->
  symm n (covariance st) -> pd n (covariance st) ->
  symm m1 (covariance z1) -> pd m1 (covariance z1) ->
  symm m2 (covariance z2) -> pd m2 (covariance z2) ->
  let u1 st := kalman_update chol1 gen1 n m1 (linear_fun (ie1 - ib1) J1) ib1 ie1 st z1 in
  let u2 st := kalman_update chol2 gen2 n m2 (linear_fun (ie2 - ib2) J2) ib2 ie2 st z2 in
  veq n (value (u2 (u1 st))) (value (u1 (u2 st))) /\
  meq n n (covariance (u2 (u1 st))) (covariance (u1 (u2 st))).
Proof.
  intros LA1 LA2 A1 B1 A2 B2 HP HPp HR1 HRp1 HR2 HRp2 u1 u2.
  set (Pi := pd_inverse n (covariance st)).
  set (R1 := pd_inverse m1 (covariance z1)). set (R2 := pd_inverse m2 (covariance z2)).
  assert (HPi : inverse_of n (covariance st) Pi) by (apply pd_invertible; assumption).
  assert (HR1i : inverse_of m1 (covariance z1) R1) by (apply pd_invertible; assumption).
  assert (HR2i : inverse_of m2 (covariance z2) R2) by (apply pd_invertible; assumption).
  set (H1 := whole J1 ib1 ie1). set (H2 := whole J2 ib2 ie2).
  set (I1 := mmul m1 (tr H1) (mmul m1 R1 H1)). set (I2 := mmul m2 (tr H2) (mmul m2 R2 H2)).
  (* facts after one update *)
  assert (V : forall m chol gen J ib ie z Ri, lapack_ok m chol gen -> (ib <= ie)%nat -> (ie <= n)%nat ->
     symm m (covariance z) -> pd m (covariance z) -> inverse_of m (covariance z) Ri ->
     let s := kalman_update chol gen n m (linear_fun (ie - ib) J) ib ie st z in
     symm n (covariance s) /\ pd n (covariance s) /\
     inverse_of n (covariance s) (madd Pi (mmul m (tr (whole J ib ie)) (mmul m Ri (whole J ib ie))))).
  { intros m chol gen J ib ie z Ri LA A B HR HRp HRi s.
    destruct (kalman_well_defined n m (linear_fun (ie - ib) J) ib ie st z HP (pd_psd _ _ HPp) HR HRp) as [W HW].
    destruct (kalman_covariance_valid chol gen n m LA (linear_fun (ie - ib) J) ib ie st z W A B HP (pd_psd _ _ HPp) HR (pd_psd _ _ HRp) HW) as (C1 & _ & _).
    pose proof (kalman_information chol gen n m LA (linear_fun (ie - ib) J) ib ie st z Pi Ri A B HP HPp HPi HR HRp HRi) as C3.
    cbn [snd linear_fun] in C3. fold s in C1, C3.
    split; [exact C1|split; [|exact C3]].
    set (M := madd Pi (mmul m (tr (whole J ib ie)) (mmul m Ri (whole J ib ie)))) in *.
    apply (pd_of_inverse n M); [apply (inverse_symm n (covariance s)); assumption| |apply inverse_of_sym; exact C3].
    intros x Hx. unfold M. rewrite quad_add.
    assert (pd n Pi) by (apply (pd_of_inverse n (covariance st)); assumption).
    assert (Hq : quad n (mmul m (tr (whole J ib ie)) (mmul m Ri (whole J ib ie))) x
               = quad n (sandwich m (tr (whole J ib ie)) Ri) x).
    { apply quad_ext. unfold sandwich. rewrite mA. reflexivity. }
    rewrite Hq, quad_sandwich.
    pose proof (pd_psd m Ri (pd_of_inverse m _ Ri HR HRp HRi) (mvec n (tr (tr (whole J ib ie))) x)).
    specialize (H x Hx). lra. }
  destruct (V m1 chol1 gen1 J1 ib1 ie1 z1 R1 LA1 A1 B1 HR1 HRp1 HR1i) as (S1 & P1 & V1).
  destruct (V m2 chol2 gen2 J2 ib2 ie2 z2 R2 LA2 A2 B2 HR2 HRp2 HR2i) as (S2 & P2 & V2).
  fold (u1 st) H1 I1 in V1, S1, P1. fold (u2 st) H2 I2 in V2, S2, P2.
  pose proof (kalman_information chol2 gen2 n m2 LA2 (linear_fun (ie2 - ib2) J2) ib2 ie2 (u1 st) z2 _ R2 A2 B2 S1 P1 V1 HR2 HRp2 HR2i) as F21.
  pose proof (kalman_information chol1 gen1 n m1 LA1 (linear_fun (ie1 - ib1) J1) ib1 ie1 (u2 st) z1 _ R1 A1 B1 S2 P2 V2 HR1 HRp1 HR1i) as F12.
  cbn [snd linear_fun] in F21, F12. fold H2 I2 (u2 (u1 st)) in F21. fold H1 I1 (u1 (u2 st)) in F12.
  assert (EM : meq n n (madd (madd Pi I1) I2) (madd (madd Pi I2) I1)).
  { intros i j _ _. unfold madd. lra. }
  assert (EC : meq n n (covariance (u2 (u1 st))) (covariance (u1 (u2 st)))).
  { apply (inverse_unique n (madd (madd Pi I1) I2)); [apply F21|]. rewrite EM. apply F12. }
  split; [|exact EC].
  pose proof (kalman_information_state chol2 gen2 n m2 J2 ib2 ie2 (u1 st) z2 _ R2 LA2 A2 B2 S1 P1 V1 HR2 HRp2 HR2i) as X21.
  pose proof (kalman_information_state chol1 gen1 n m1 J1 ib1 ie1 (u2 st) z1 _ R1 LA1 A1 B1 S2 P2 V2 HR1 HRp1 HR1i) as X12.
  pose proof (kalman_information_state chol1 gen1 n m1 J1 ib1 ie1 st z1 _ R1 LA1 A1 B1 HP HPp HPi HR1 HRp1 HR1i) as X1.
  pose proof (kalman_information_state chol2 gen2 n m2 J2 ib2 ie2 st z2 _ R2 LA2 A2 B2 HP HPp HPi HR2 HRp2 HR2i) as X2.
  cbv zeta in X21, X12, X1, X2.
  fold H2 I2 (u2 (u1 st)) in X21. fold H1 I1 (u1 (u2 st)) in X12.
  fold H1 I1 (u1 st) in X1. fold H2 I2 (u2 st) in X2.
  rewrite X1 in X21. rewrite X2 in X12.
  transitivity (mvec n (covariance (u2 (u1 st))) (mvec n (madd (madd Pi I1) I2) (value (u2 (u1 st))))).
  { rewrite <- vA, (proj1 F21). symmetry. apply v1. }
  transitivity (mvec n (covariance (u1 (u2 st))) (mvec n (madd (madd Pi I2) I1) (value (u1 (u2 st))))).
  2:{ rewrite <- vA, (proj1 F12). apply v1. }
  rewrite X21, X12, EC. apply mvec_proper with (m := n); [reflexivity|].
  intros i _. unfold vadd. lra.
Qed.

(** ** Concrete cases *)

(** the hypotheses about the library are satisfiable: always falling back *)
Definition inv1 (A : mat) : mat := fun _ _ => / A 0%nat 0%nat.
Example lapack_ok_1 : lapack_ok 1 (fun _ => None) inv1.
Proof.
  split; [intros A W E; discriminate E|].
  intros A V [H1 H2]. pose proof (H1 0%nat 0%nat ltac:(lia) ltac:(lia)) as E.
  unfold mmul in E. cbn in E.
  assert (A 0%nat 0%nat <> 0) by (intros Z; rewrite Z in E; lra).
  split; intros i j Hi Hj; assert (i = 0%nat) by lia; assert (j = 0%nat) by lia; subst;
    unfold mmul, inv1; cbn; field; assumption.
Qed.

(** position and velocity, position observed: prior variances 3 and 1, covariance 1,
    measurement variance 1, prior position 0, measured 4 *)
Definition ex_state : errvec := EV (fun _ => 0) (mlist [[3; 1]; [1; 1]]).
Definition ex_meas : errvec := EV (fun _ => 4) (mlist [[1]]).
Example kalman_example :
  let r := kalman_update_identity (fun _ => None) inv1 2 1 0 1 ex_state ex_meas in
  value r 0%nat = 3 /\ value r 1%nat = 1 /\
  covariance r 0%nat 0%nat = 3 / 4 /\ covariance r 0%nat 1%nat = 1 / 4 /\ covariance r 1%nat 1%nat = 3 / 4.
Proof.
  cbn. unfold kalman_update_identity, symm_right_upper, from_upper, invert_innovation, inv1, mmul, mvec,
    madd, vadd, vsub, msub, sub, vsub_range, tr, mlist. cbn.
  repeat split; field.
Qed.
Example kalman_example_hyps :
  symm 2 (covariance ex_state) /\ pd 2 (covariance ex_state) /\
  symm 1 (covariance ex_meas) /\ pd 1 (covariance ex_meas).
Proof.
  split; [|split; [|split]].
  - intros i j Hi Hj. idx i Hi; idx j Hj; reflexivity.
  - intros x (i & Hi & Hx). unfold quad, vdot, mvec, ex_state, mlist. cbn.
    pose proof (Rle_0_sqr (x 0%nat + x 1%nat)) as S0. unfold Rsqr in S0.
    pose proof (Rle_0_sqr (x 0%nat)) as S1. unfold Rsqr in S1.
    destruct (Req_dec (x 0%nat) 0) as [E|E].
    + rewrite E in *. assert (Hx1 : x 1%nat <> 0) by (idx i Hi; [contradiction|exact Hx]).
      pose proof (Rsqr_pos_lt _ Hx1) as S2. unfold Rsqr in S2. lra.
    + pose proof (Rsqr_pos_lt _ E) as S2. unfold Rsqr in S2. lra.
  - intros i j Hi Hj. idx i Hi; idx j Hj; reflexivity.
  - intros x (i & Hi & Hx). idx i Hi. unfold quad, vdot, mvec, ex_meas, mlist. cbn.
    pose proof (Rsqr_pos_lt _ Hx) as S2. unfold Rsqr in S2. lra.
Qed.

Print Assumptions kalman_covariance_valid.
Print Assumptions kalman_textbook.
Print Assumptions kalman_gain_optimal.
Print Assumptions kalman_no_innovation.
Print Assumptions kalman_well_defined.
Print Assumptions kalman_identity_agrees.
Print Assumptions kalman_information.
Print Assumptions kalman_information_state.
Print Assumptions kalman_order_independent.
