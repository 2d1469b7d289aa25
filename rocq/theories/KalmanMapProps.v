(** The Kalman update with a linear measurement is the maximum a posteriori estimate (C142). *)
From Coq Require Import Reals Lra Lia List Arith.
Import ListNotations.
From Verif Require Import Mat MatSetoid MatPd CovTransform Kalman KalmanProofs KalmanProps.
Open Scope R_scope.

(** the negative logarithm of the posterior density, up to a factor and a constant: the distance to the
    prior and to the measurement, in units of their covariances *)
Definition posterior (n m : nat) (Pi Ri H : mat) (prior meas u : vect) : R :=
  quad n Pi (vsub u prior) + quad m Ri (vsub meas (mvec n H u)).

Lemma quad_shift_both n A x d : symm n A -> quad n A (vadd x d) = quad n A x + 2 * vdot n d (mvec n A x) + quad n A d.
Proof.
  intros SA. unfold quad. rewrite !vdot_add_l.
  rewrite (vdot_ext n x x (mvec n A (vadd x d)) (vadd (mvec n A x) (mvec n A d))) by (try apply vDr; intros ? ?; reflexivity).
  rewrite (vdot_ext n d d (mvec n A (vadd x d)) (vadd (mvec n A x) (mvec n A d))) by (try apply vDr; intros ? ?; reflexivity).
  rewrite !vdot_add_r. rewrite (vdot_tr n n A x d).
  rewrite (vdot_ext n (mvec n (tr A) x) (mvec n A x) d d).
  - rewrite (vdot_comm n (mvec n A x) d). ring.
  - apply mvec_ext; [apply symm_tr; exact SA|intros ? ?; reflexivity].
  - intros ? ?; reflexivity.
Qed.
Lemma quad_ext_vec n A x y : veq n x y -> quad n A x = quad n A y.
Proof. intros E. unfold quad. apply vdot_ext; [exact E|]. apply mvec_ext; [intros ? ? ? ?; reflexivity|exact E]. Qed.

Lemma quad_neg n A x : quad n A (fun i => - x i) = quad n A x.
Proof.
  unfold quad, vdot. apply sum_ext. intros i _. unfold mvec.
  rewrite (sum_ext n (fun l => A i l * - x l) (fun l => - (A i l * x l))) by (intros; ring). rewrite sum_opp. ring.
Qed.

Theorem kalman_map : forall chol gen n m J ib ie st meas Pi Ri,
  lapack_ok m chol gen -> (ib <= ie)%nat -> (ie <= n)%nat ->
  symm n (covariance st) -> pd n (covariance st) -> inverse_of n (covariance st) Pi ->
  symm m (covariance meas) -> pd m (covariance meas) -> inverse_of m (covariance meas) Ri ->
  let H := whole J ib ie in
  let r := value (kalman_update chol gen n m (linear_fun (ie - ib) J) ib ie st meas) in
  let cost := posterior n m Pi Ri H (value st) (value meas) in
  (forall u, cost r <= cost u) /\ (forall u, cost u <= cost r -> veq n u r).
Proof.
  intros chol gen n m J ib ie st meas Pi Ri LA H1 H2 HP HPp HPi HR HRp HRi H r cost.
  pose proof (kalman_information_state chol gen n m J ib ie st meas Pi Ri LA H1 H2 HP HPp HPi HR HRp HRi) as KS. cbv zeta in KS. fold H r in KS.
  pose proof (inverse_symm n _ _ HP HPi) as SPi. pose proof (inverse_symm m _ _ HR HRi) as SRi.
  pose proof (pd_of_inverse n _ _ HP HPp HPi) as PPi. pose proof (pd_psd _ _ (pd_of_inverse m _ _ HR HRp HRi)) as PRi.
  set (x := value st) in *. set (z := value meas) in *.
  assert (X : forall u, cost u = cost r + (quad n Pi (vsub u r) + quad m Ri (mvec n H (vsub u r)))).
  { intros u. set (d := vsub u r). unfold cost, posterior.
    rewrite (quad_ext_vec n Pi (vsub u x) (vadd (vsub r x) d)) by (intros i _; unfold d, vsub, vadd; ring).
    rewrite (quad_ext_vec m Ri (vsub z (mvec n H u)) (vadd (vsub z (mvec n H r)) (fun i => - mvec n H d i))).
    2:{ intros i _. unfold d, vsub, vadd, mvec. rewrite (sum_ext n (fun l => H i l * (u l - r l)) (fun l => H i l * u l - H i l * r l)) by (intros; ring). rewrite sum_minus. ring. }
    rewrite !quad_shift_both by assumption.
    set (e := vsub z (mvec n H r)).
    assert (NE : quad m Ri (fun i => - mvec n H d i) = quad m Ri (mvec n H d)).
    { apply quad_neg. }
    rewrite NE.
    assert (ND : vdot m (fun i => - mvec n H d i) (mvec m Ri e) = - vdot n d (mvec m (tr H) (mvec m Ri e))).
    { transitivity (- vdot m (mvec n H d) (mvec m Ri e)).
      - unfold vdot. rewrite <- sum_opp. apply sum_ext. intros; ring.
      - f_equal. rewrite (vdot_comm m), (vdot_tr m n H). apply vdot_comm. }
    rewrite ND.
    assert (Z : vdot n d (mvec n Pi (vsub r x)) = vdot n d (mvec m (tr H) (mvec m Ri e))); [|lra].
    apply vdot_ext; [intros ? ?; reflexivity|]. unfold e. rewrite !vSr. intros i Hi. specialize (KS i Hi).
    rewrite (vDl n n Pi _ r i Hi) in KS. unfold vadd, vsub in *.
    assert (Y : mvec n (mmul m (tr H) (mmul m Ri H)) r i = mvec m (tr H) (mvec m Ri (mvec n H r)) i).
    { rewrite (vA n m n (tr H) (mmul m Ri H) r i Hi). apply (mvec_ext m n); [intros ? ? ? ?; reflexivity| |exact Hi]. apply vA. }
    rewrite Y in KS. lra. }
  split.
  - intros u. rewrite (X u). pose proof (pd_psd _ _ PPi (vsub u r)). pose proof (PRi (mvec n H (vsub u r))). lra.
  - intros u HU i Hi. rewrite (X u) in HU. pose proof (PRi (mvec n H (vsub u r))).
    destruct (Req_dec (vsub u r i) 0) as [E|E]; [unfold vsub in E; lra|].
    assert (0 < quad n Pi (vsub u r)) by (apply PPi; exists i; split; assumption). lra.
Qed.

(** a case: prior 0, measurement 2, both with variance 1; any routine that inverts numbers will do *)
Lemma one_inverse : inverse_of 1 eye eye.
Proof. split; intros i j Hi Hj; apply mmul_eye_l; exact Hi. Qed.
Lemma one_pd : pd 1 eye.
Proof. intros x (i & Hi & Hx). replace i with O in Hx by lia. unfold quad, vdot, mvec, eye. cbn. nra. Qed.
Example scalar_case :
  let st := EV (fun _ => 0) eye in let meas := EV (fun _ => 2) eye in
  let r := value (kalman_update (fun _ => None) inv1 1 1 (linear_fun 1 eye) 0 1 st meas) in
  (forall u, posterior 1 1 eye eye (whole eye 0 1) (value st) (value meas) r <= posterior 1 1 eye eye (whole eye 0 1) (value st) (value meas) u) /\ r 0%nat = 1.
Proof.
  cbv zeta. split.
  - apply (kalman_map (fun _ => None) inv1 1 1 eye 0 1 (EV (fun _ => 0) eye) (EV (fun _ => 2) eye) eye eye lapack_ok_1); try lia;
      cbn [covariance]; first [apply eye_symm|apply one_pd|apply one_inverse].
  - unfold kalman_update, linear_fun, invert_innovation, inv1, symm_right_upper, from_upper, vsub_range, sub, mmul, mvec, madd, vadd, vsub, tr, eye. cbn. field.
Qed.
Print Assumptions kalman_map.
