(** C24: numerical Jacobians.  C63: Gauss-Newton on affine problems. *)
From Coq Require Import Reals Arith Lia Lra.
From Coquelicot Require Import Coquelicot.
From Verif Require Import Mat FiniteDiff LevMarqProofs.
Open Scope R_scope.

Lemma fd_eps_nonzero width x i : width <> 0 -> fd_eps width x i <> 0.
Proof.
  intros H. unfold fd_eps. destruct (Req_EM_T (x i) 0) as [_|E]; [exact H|]. apply Rmult_integral_contrapositive. auto.
Qed.
Lemma fd_input_shift width x i k : fd_input width x i k = shift x i (fd_eps width x i) k.
Proof. unfold fd_input, shift. destruct (Nat.eqb_spec k i) as [->|]; reflexivity. Qed.

Lemma mvec_shift n A x c h r : (c < n)%nat -> mvec n A (shift x c h) r = mvec n A x r + h * A r c.
Proof.
  intros Hc. unfold mvec, shift.
  rewrite (sum_ext n _ (fun k => A r k * x k + (if (k =? c)%nat then h * A r c else 0))).
  - rewrite sum_plus. f_equal. rewrite (sum_single n _ c Hc).
    + rewrite Nat.eqb_refl. reflexivity.
    + intros i _ Hi. rewrite (proj2 (Nat.eqb_neq i c) Hi). reflexivity.
  - intros k _. destruct (Nat.eqb_spec k c) as [->|]; ring.
Qed.

(** exact on affine functions, for every point and every width other than zero *)
Theorem discrete_jacobian_affine : forall m n f A b width x, affine n f A b -> width <> 0 ->
  exists J, discrete_jacobian f width x = Some J /\ meq m n J A.
Proof.
  intros m n f A b width x HA HW. unfold discrete_jacobian.
  destruct (Req_EM_T width 0) as [E|_]; [contradiction|]. eexists. split; [reflexivity|].
  intros r c Hr Hc. rewrite !HA.
  assert (E : mvec n A (fd_input width x c) r = mvec n A (shift x c (fd_eps width x c)) r).
  { unfold mvec. apply sum_ext. intros k _. rewrite fd_input_shift. reflexivity. }
  rewrite E, mvec_shift by exact Hc. field. apply fd_eps_nonzero, HW.
Qed.
Print Assumptions discrete_jacobian_affine.
Example discrete_jacobian_affine_case :
  affine 2 (fun x r => 5 + (3 * x 0%nat + INR r * x 1%nat)) (fun r c => match c with O => 3 | _ => INR r end) (fun _ => 5).
Proof. intros x r. unfold mvec. cbn. ring. Qed.

(** in general each entry converges to the partial derivative as the width goes to zero *)
Theorem discrete_jacobian_limit : forall f x r c d,
  (forall x y, (forall k, x k = y k) -> forall r, f x r = f y r) ->
  is_derive (fun h => f (shift x c h) r) 0 d ->
  forall eps, 0 < eps -> exists delta, 0 < delta /\ forall width, width <> 0 -> Rabs width < delta ->
    exists J, discrete_jacobian f width x = Some J /\ Rabs (J r c - d) < eps.
Proof.
  intros f x r c d Hext HD eps He.
  apply is_derive_Reals in HD. destruct (HD eps He) as [delta Hdelta].
  set (k := if Req_EM_T (x c) 0 then 1 else Rabs (x c)).
  assert (Hk : 0 < k).
  { unfold k. destruct (Req_EM_T (x c) 0); [lra|apply Rabs_pos_lt; assumption]. }
  exists (delta / k). split; [apply Rdiv_lt_0_compat; [apply cond_pos|exact Hk]|].
  intros width HW Hlt. unfold discrete_jacobian. destruct (Req_EM_T width 0) as [E|_]; [contradiction|].
  eexists. split; [reflexivity|]. cbv beta.
  assert (Hsmall : Rabs (fd_eps width x c) < delta).
  { apply (Rmult_lt_compat_r k) in Hlt; [|exact Hk]. unfold Rdiv in Hlt. rewrite Rmult_assoc, Rinv_l, Rmult_1_r in Hlt by lra.
    unfold fd_eps, k in *. destruct (Req_EM_T (x c) 0); [lra|]. rewrite Rabs_mult. lra. }
  specialize (Hdelta (fd_eps width x c) (fd_eps_nonzero _ _ _ HW) Hsmall).
  rewrite Rplus_0_l in Hdelta.
  rewrite (Hext (fd_input width x c) (shift x c (fd_eps width x c))) by (intros; apply fd_input_shift).
  rewrite (Hext x (shift x c 0)) at 1; [exact Hdelta|].
  intros i. unfold shift. destruct (i =? c)%nat; ring.
Qed.
Print Assumptions discrete_jacobian_limit.
Example discrete_jacobian_limit_case :
  is_derive (fun h => (fun (x : vect) (r : nat) => x 0%nat * x 0%nat) (shift (fun _ => 3) 0 h) 0%nat) 0 6.
Proof. unfold shift. cbn. auto_derive; [auto|ring]. Qed.

(** the step is relative: for a coordinate other than zero the sign of the step is the sign of
    the coordinate times that of the width *)
Theorem discrete_jacobian_quadratic_error : forall a width (x : vect) (c : nat), width <> 0 ->
  exists J, discrete_jacobian (fun v _ => a * v c * v c) width x = Some J /\
    forall r, J r c = 2 * a * x c + a * fd_eps width x c.
Proof.
  intros a width x c HW. unfold discrete_jacobian.
  destruct (Req_EM_T width 0) as [E|_]; [contradiction|]. eexists. split; [reflexivity|].
  intros r. cbv beta. rewrite !fd_input_shift. unfold shift. rewrite Nat.eqb_refl. field. apply fd_eps_nonzero, HW.
Qed.
Print Assumptions discrete_jacobian_quadratic_error.

(** a vanishing width has no result *)
Theorem discrete_jacobian_zero_width : forall f x, discrete_jacobian f 0 x = None.
Proof. intros. unfold discrete_jacobian. destruct (Req_EM_T 0 0); [reflexivity|congruence]. Qed.
Print Assumptions discrete_jacobian_zero_width.

(** LinearFunction returns the derivative *)
Theorem linear_function_jacobian : forall n A x r c, (c < n)%nat ->
  is_derive (fun h => fst (linear_function n A (shift x c h)) r) 0 (snd (linear_function n A x) r c).
Proof.
  intros n A x r c Hc. cbn.
  apply (is_derive_ext (fun h => mvec n A x r + h * A r c)).
  - intros h. symmetry. apply mvec_shift, Hc.
  - auto_derive; [auto|ring].
Qed.
Print Assumptions linear_function_jacobian.

Lemma mvec_vsub n A x y i : mvec n A (vsub x y) i = mvec n A x i - mvec n A y i.
Proof. unfold mvec, vsub. rewrite <- sum_minus. apply sum_ext. intros; ring. Qed.
Lemma mvec_vadd n A x y i : mvec n A (vadd x y) i = mvec n A x i + mvec n A y i.
Proof. unfold mvec, vadd. rewrite <- sum_plus. apply sum_ext. intros; ring. Qed.
(** the least-squares characterisation used below *)
Lemma normal_optimal m n J d x : veq n (mvec n (mmul m (tr J) J) x) (mvec m (tr J) d) ->
  forall y, vdot m (vsub d (mvec n J x)) (vsub d (mvec n J x)) <= vdot m (vsub d (mvec n J y)) (vsub d (mvec n J y)).
Proof.
  intros H y.
  assert (G : forall z, vdot m (mvec n J z) (vsub d (mvec n J x)) = 0).
  { intros z.
    transitivity (vdot n z (mvec m (tr J) (vsub d (mvec n J x)))).
    - rewrite vdot_comm, (vdot_tr m n). apply vdot_comm.
    - rewrite (vdot_ext n z z _ (fun _ => 0)); [unfold vdot; apply sum_zero; intros; ring|intros i _; reflexivity|].
      intros i Hi. specialize (H i Hi). rewrite mvec_mmul in H.
      transitivity (mvec m (tr J) d i - mvec m (tr J) (mvec n J x) i).
      + apply mvec_vsub.
      + lra. }
  set (r := vsub d (mvec n J x)) in *. set (z := vsub x y).
  assert (E : vdot m (vsub d (mvec n J y)) (vsub d (mvec n J y)) =
              vdot m r r + 2 * vdot m (mvec n J z) r + vdot m (mvec n J z) (mvec n J z)).
  { assert (Ez : forall i, vsub d (mvec n J y) i = r i + mvec n J z i).
    { intros i. unfold r, z. rewrite mvec_vsub. unfold vsub. ring. }
    unfold vdot. rewrite <- sum_scal_l, <- !sum_plus. apply sum_ext. intros i _. rewrite !Ez. ring. }
  rewrite E, G. pose proof (vdot_self_nonneg m (mvec n J z)). lra.
Qed.

(** C63: one step of Gauss-Newton solves affine least-squares problems from any start, and
    further steps cannot make it worse *)
Theorem gauss_newton_affine : forall m n f A b solve meas k p0,
  (forall x r, f x r = b r + mvec n A x r) -> solves_normal m n solve A ->
  exists p, gauss_newton m (fun x => (f x, A)) (fun v => v) solve meas (S k) p0 = Some p /\
    forall q, sq_error m f meas p <= sq_error m f meas q.
Proof.
  intros m n f A b solve meas k p0 HA HS.
  assert (Step : forall p, exists p', gn_step m (fun x => (f x, A)) (fun v => v) solve meas p = Some p' /\
     forall q, sq_error m f meas p' <= sq_error m f meas q).
  { intros p. unfold gn_step. destruct (HS (vsub meas (f p))) as (x & Hx & Hn). rewrite Hx.
    eexists. split; [reflexivity|]. intros q. unfold sq_error.
    assert (E : forall v, vdot m (vsub meas (f (vadd p v))) (vsub meas (f (vadd p v))) =
       vdot m (vsub (vsub meas (f p)) (mvec n A v)) (vsub (vsub meas (f p)) (mvec n A v))).
    { intros v. assert (Ev : forall i, vsub meas (f (vadd p v)) i = vsub (vsub meas (f p)) (mvec n A v) i).
      { intros i. unfold vsub. rewrite !HA, mvec_vadd. ring. }
      apply vdot_ext; intros i _; apply Ev. }
    rewrite E.
    assert (Eq : vdot m (vsub meas (f q)) (vsub meas (f q)) =
       vdot m (vsub meas (f (vadd p (vsub q p)))) (vsub meas (f (vadd p (vsub q p))))).
    { apply vdot_ext; intros i _; unfold vsub at 1 2; f_equal; rewrite !HA; f_equal; unfold mvec; apply sum_ext;
        intros l _; unfold vadd, vsub; f_equal; ring. }
    rewrite Eq, E. apply normal_optimal. exact Hn. }
  revert p0. induction k as [|k IH]; intros p0.
  - destruct (Step p0) as (p & Hp & Ho). exists p. cbn [gauss_newton]. rewrite Hp. auto.
  - destruct (Step p0) as (p & Hp & _). destruct (IH p) as (p' & Hp' & Ho). exists p'.
    cbn [gauss_newton]. rewrite Hp. split; [exact Hp'|exact Ho].
Qed.
Print Assumptions gauss_newton_affine.
Example gauss_newton_case : solves_normal 1 1 (fun M r => Some (fun _ => r 0%nat / M 0%nat 0%nat)) (fun _ _ => 2).
Proof.
  intros d. eexists. split; [reflexivity|]. intros i Hi. idx i Hi. unfold mvec, mmul, tr. cbn. field.
Qed.

(** C63: without damping a singular system stops the call *)
Theorem gauss_newton_failure : forall m eval normalize solve meas k p0,
  (forall M r, solve M r = None) -> gauss_newton m eval normalize solve meas (S k) p0 = None.
Proof. intros. cbn. unfold gn_step. destruct (eval p0). rewrite H. reflexivity. Qed.
Print Assumptions gauss_newton_failure.
