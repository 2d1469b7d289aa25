(** Lemmas for the lens distortion. *)
From Coq Require Import Reals Lra Lia List Arith QArith Qreals Znumtheory.
From Coq Require Qcanon.
Import ListNotations.
From Coquelicot Require Import Coquelicot.
From Verif Require Import Mat Jacobians JacobiansProofs LevMarq LevMarqProofs LevMarqProps Lens.
Open Scope R_scope.

(** squared distance of two image points *)
Definition dist2 (a b : vect) : R := (a 0%nat - b 0%nat) * (a 0%nat - b 0%nat) + (a 1%nat - b 1%nat) * (a 1%nat - b 1%nat).
Lemma dist2_zero a b : dist2 a b <= 0 -> veq 2 a b.
Proof.
  unfold dist2. intros H i Hi.
  assert (A := Rle_0_sqr (a 0%nat - b 0%nat)). assert (B := Rle_0_sqr (a 1%nat - b 1%nat)). unfold Rsqr in *.
  assert (A0 : (a 0%nat - b 0%nat) * (a 0%nat - b 0%nat) = 0) by lra.
  assert (B0 : (a 1%nat - b 1%nat) * (a 1%nat - b 1%nat) = 0) by lra.
  apply Rmult_integral in A0. apply Rmult_integral in B0.
  idx i Hi; [destruct A0|destruct B0]; lra.
Qed.

(** ** A radial distortion with nonnegative coefficients increases distances *)
Lemma radial_expands (g : R -> R) (a0 a1 b0 b1 : R) :
  let A := a0 * a0 + a1 * a1 in let B := b0 * b0 + b1 * b1 in
  0 <= g A -> 0 <= g B -> 0 <= (A - B) * (g A - g B) ->
  (a0 - b0) * (a0 - b0) + (a1 - b1) * (a1 - b1) <=
  (a0 * (1 + g A) - b0 * (1 + g B)) * (a0 * (1 + g A) - b0 * (1 + g B)) +
  (a1 * (1 + g A) - b1 * (1 + g B)) * (a1 * (1 + g A) - b1 * (1 + g B)).
Proof.
  intros A B HA HB HM. set (u := g A) in *. set (v := g B) in *.
  set (D := (a0 * u - b0 * v) * (a0 - b0) + (a1 * u - b1 * v) * (a1 - b1)).
  assert (HD : 0 <= D).
  { assert (E : 2 * D = (A - B) * (u - v) + (u + v) * ((a0 - b0) * (a0 - b0) + (a1 - b1) * (a1 - b1))) by (unfold D, A, B; ring).
    assert (P := Rmult_le_pos (u + v) ((a0 - b0) * (a0 - b0) + (a1 - b1) * (a1 - b1))).
    assert (Q1 := Rle_0_sqr (a0 - b0)). assert (Q2 := Rle_0_sqr (a1 - b1)). unfold Rsqr in *.
    specialize (P ltac:(lra) ltac:(lra)). lra. }
  assert (S1 := Rle_0_sqr (a0 * u - b0 * v)). assert (S2 := Rle_0_sqr (a1 * u - b1 * v)). unfold Rsqr in *.
  replace ((a0 * (1 + u) - b0 * (1 + v)) * (a0 * (1 + u) - b0 * (1 + v)) + (a1 * (1 + u) - b1 * (1 + v)) * (a1 * (1 + u) - b1 * (1 + v)))
    with ((a0 - b0) * (a0 - b0) + (a1 - b1) * (a1 - b1) + 2 * D + ((a0 * u - b0 * v) * (a0 * u - b0 * v) + (a1 * u - b1 * v) * (a1 * u - b1 * v)))
    by (unfold D; ring).
  lra.
Qed.
Lemma cubic_monotone k0 k1 k2 A B : 0 <= k0 -> 0 <= k1 -> 0 <= k2 -> 0 <= A -> 0 <= B ->
  0 <= (A - B) * ((k0 * A + k1 * (A * A) + k2 * (A * A * A)) - (k0 * B + k1 * (B * B) + k2 * (B * B * B))).
Proof.
  intros H0 H1 H2 HA HB.
  replace ((A - B) * ((k0 * A + k1 * (A * A) + k2 * (A * A * A)) - (k0 * B + k1 * (B * B) + k2 * (B * B * B))))
    with (((A - B) * (A - B)) * (k0 + k1 * (A + B) + k2 * (A * A + A * B + B * B))) by ring.
  apply Rmult_le_pos; [apply Rle_0_sqr|].
  assert (P := Rmult_le_pos _ _ H1 (Rplus_le_le_0_compat _ _ HA HB)).
  assert (AB := Rmult_le_pos _ _ HA HB). assert (AA := Rmult_le_pos _ _ HA HA). assert (BB := Rmult_le_pos _ _ HB HB).
  assert (Q : 0 <= k2 * (A * A + A * B + B * B)) by (apply Rmult_le_pos; lra). lra.
Qed.
Lemma sq_sum_nonneg a b : 0 <= a * a + b * b.
Proof. assert (A := Rle_0_sqr a). assert (B := Rle_0_sqr b). unfold Rsqr in *. lra. Qed.
Lemma cubic_nonneg k0 k1 k2 A : 0 <= k0 -> 0 <= k1 -> 0 <= k2 -> 0 <= A -> 0 <= k0 * A + k1 * (A * A) + k2 * (A * A * A).
Proof.
  intros. assert (AA := Rmult_le_pos A A ltac:(assumption) ltac:(assumption)).
  assert (0 <= k0 * A) by (apply Rmult_le_pos; lra). assert (0 <= k1 * (A * A)) by (apply Rmult_le_pos; lra).
  assert (0 <= k2 * (A * A * A)) by (apply Rmult_le_pos; [lra|apply Rmult_le_pos; lra]). lra.
Qed.

(** ** Rational numbers *)
Definition rational (r : R) : Prop := exists q : Q, r = Q2R q.
Lemma rational_add a b : rational a -> rational b -> rational (a + b).
Proof. intros [p ->] [q ->]. exists (p + q)%Q. symmetry. apply Q2R_plus. Qed.
Lemma rational_sub a b : rational a -> rational b -> rational (a - b).
Proof. intros [p ->] [q ->]. exists (p - q)%Q. symmetry. apply Q2R_minus. Qed.
Lemma rational_mul a b : rational a -> rational b -> rational (a * b).
Proof. intros [p ->] [q ->]. exists (p * q)%Q. symmetry. apply Q2R_mult. Qed.
Lemma rational_int z : rational (IZR z).
Proof. exists (inject_Z z). unfold Q2R, inject_Z. cbn. lra. Qed.
Lemma rational_div a b : b <> 0 -> rational a -> rational b -> rational (a / b).
Proof.
  intros N [p ->] [q ->]. exists (p / q)%Q. symmetry. apply Q2R_div. intros E. apply N. apply Qeq_eqR in E. rewrite E. unfold Q2R. cbn. lra.
Qed.
Ltac rat := repeat first [assumption | apply rational_int | apply rational_sub | apply rational_add | apply rational_mul].

(** x + x^3 = 1 has no rational solution *)
Lemma cubic_irrational x : rational x -> x + x * (x * x) <> 1.
Proof.
  intros [q ->] E. set (r := Qred q). assert (Er : Q2R q = Q2R r) by (apply Qeq_eqR; symmetry; apply Qred_correct).
  rewrite Er in E. set (a := Qnum r). set (b := Zpos (Qden r)).
  assert (G : Z.gcd a b = 1%Z).
  { assert (G := Qcanon.Qred_iff r). unfold a, b. apply G. unfold r. apply Qcanon.Qred_involutive. }
  assert (Hb : IZR b <> 0) by (apply IZR_neq; unfold b; lia).
  unfold Q2R in E. fold a b in E.
  assert (Z1 : IZR a * (IZR b * IZR b) + IZR a * (IZR a * IZR a) = IZR b * (IZR b * IZR b)).
  { apply (f_equal (fun t => t * (IZR b * (IZR b * IZR b)))) in E.
    replace ((IZR a * / IZR b + IZR a * / IZR b * (IZR a * / IZR b * (IZR a * / IZR b))) * (IZR b * (IZR b * IZR b)))
      with (IZR a * (IZR b * IZR b) + IZR a * (IZR a * IZR a)) in E by (field; exact Hb). rewrite E. ring. }
  rewrite <- !mult_IZR, <- plus_IZR in Z1. apply eq_IZR in Z1.
  destruct (Z.Even_or_Odd a) as [[u Ha]|[u Ha]]; destruct (Z.Even_or_Odd b) as [[v Hv]|[v Hv]].
  - assert (D : (2 | Z.gcd a b)%Z) by (apply Z.gcd_greatest; [exists u|exists v]; lia). rewrite G in D. destruct D as [w D]. lia.
  - rewrite Ha, Hv in Z1. assert (2 * (u * ((2 * v + 1) * (2 * v + 1)) + u * (2 * u * (2 * u)) - (4 * v * v * v + 6 * v * v + 3 * v)) = 1)%Z by lia. lia.
  - rewrite Ha, Hv in Z1. assert (2 * ((2 * u + 1) * (v * (2 * v)) + (4 * u * u * u + 6 * u * u + 3 * u) - v * (2 * v * (2 * v))) = -1)%Z by lia. lia.
  - rewrite Ha, Hv in Z1.
    assert (2 * ((u * ((2 * v + 1) * (2 * v + 1)) + (2 * v * v + 2 * v)) + (4 * u * u * u + 6 * u * u + 3 * u) - (4 * v * v * v + 6 * v * v + 3 * v)) = -1)%Z by lia. lia.
Qed.

(** a 2x2 system with rational entries and determinant <> 0 has a rational solution *)
Lemma cramer2 a b c d e f x y : a * d - b * c <> 0 -> a * x + b * y = e -> c * x + d * y = f ->
  x = (e * d - b * f) / (a * d - b * c) /\ y = (a * f - e * c) / (a * d - b * c).
Proof. intros N <- <-. split; field; exact N. Qed.

(** ** Levenberg-Marquardt keeps rational numbers rational *)
Definition rat2 (v : vect) : Prop := rational (v 0%nat) /\ rational (v 1%nat).
Definition rat22 (J : mat) : Prop := rat2 (J 0%nat) /\ rat2 (J 1%nat).
(** posv and gelss: an exact solution of the linear system *)
Definition exact_solver (lin : solver -> option (mat * vect) -> lapack) : Prop :=
  forall k A b r, lin k (Some (A, b)) = Solution r -> exists x, r = Some x /\ veq 2 (mvec 2 A x) b.

Lemma normal_det (a b c d lam : R) : 0 < lam ->
  (a * a + c * c + lam) * (b * b + d * d + lam) - (a * b + c * d) * (b * a + d * c) <> 0.
Proof.
  intros H E. assert (S1 := sq_sum_nonneg a c). assert (S2 := sq_sum_nonneg b d).
  assert (S3 := Rle_0_sqr (a * d - b * c)). unfold Rsqr in S3.
  assert (G : (a * d - b * c) * (a * d - b * c) + lam * (a * a + c * c + (b * b + d * d)) + lam * lam = 0) by (rewrite <- E; ring).
  assert (0 <= lam * (a * a + c * c + (b * b + d * d))) by (apply Rmult_le_pos; lra).
  assert (0 < lam * lam) by (apply Rmult_lt_0_compat; lra). lra.
Qed.

Section rat.
Variable eval : vect -> option (vect * mat).
Variable lin : solver -> option (mat * vect) -> lapack.
Variable term : nat -> option R -> option R -> bool.
Variable meas : vect.
Variable factor : R.
Hypothesis Hfac : 0 < factor.
Hypothesis Rfac : rational factor.
Hypothesis Hlin : exact_solver lin.
Hypothesis Heval : forall v, rat2 v -> exists e J, eval v = Some (e, J) /\ rat2 e /\ rat22 J.
Hypothesis Hmeas : rat2 meas.

Definition rat_state (s : state) : Prop :=
  (exists v, params s = Some v /\ rat2 v) /\
  (exists d J, lin_prev s = Some (d, J) /\ rat2 d /\ rat22 J) /\ 0 < lambda s /\ rational (lambda s).
Lemma rat_linearise v : rat2 v -> exists d J, linearise eval None meas (Some v) = Some (d, J) /\ rat2 d /\ rat22 J.
Proof.
  intros Hv. destruct (Heval v Hv) as (e & J & E & [E0 E1] & HJ). unfold linearise. rewrite E.
  exists (vsub meas e), J. split; [reflexivity|]. split; [|exact HJ]. destruct Hmeas. split; unfold vsub; rat.
Qed.
Lemma rat_round s s' b : rat_state s ->
  round 2 eval None (fun x => x) lin term meas factor s = Some (s', b) -> rat_state s'.
Proof.
  intros ((v & Ev & [V0 V1]) & (d & J & El & [D0 D1] & [[J00 J01] [J10 J11]]) & Hl & Rl) H.
  unfold round in H. rewrite El in H. cbn [normal_equations option_map fst snd] in H.
  destruct (lin (kind s) _) as [dx|] eqn:L.
  - destruct (Hlin _ _ _ _ L) as (x & -> & Hx). rewrite Ev in H.
    assert (X : rat2 x).
    { assert (X0 := Hx 0%nat ltac:(lia)). assert (X1 := Hx 1%nat ltac:(lia)).
      unfold mvec, madd, mmul, mscale, eye, tr in X0, X1. cbn [sum Nat.eqb] in X0, X1.
      assert (N := normal_det (J 0%nat 0%nat) (J 0%nat 1%nat) (J 1%nat 0%nat) (J 1%nat 1%nat) (lambda s) Hl).
      destruct (cramer2 (J 0%nat 0%nat * J 0%nat 0%nat + J 1%nat 0%nat * J 1%nat 0%nat + lambda s)
        (J 0%nat 0%nat * J 0%nat 1%nat + J 1%nat 0%nat * J 1%nat 1%nat)
        (J 0%nat 1%nat * J 0%nat 0%nat + J 1%nat 1%nat * J 1%nat 0%nat)
        (J 0%nat 1%nat * J 0%nat 1%nat + J 1%nat 1%nat * J 1%nat 1%nat + lambda s)
        (J 0%nat 0%nat * d 0%nat + J 1%nat 0%nat * d 1%nat) (J 0%nat 1%nat * d 0%nat + J 1%nat 1%nat * d 1%nat)
        (x 0%nat) (x 1%nat) N) as [S0 S1]; [lra|lra|].
      split; [rewrite S0|rewrite S1]; (apply rational_div; [exact N| |]); rat. }
    assert (NV : rat2 (vadd v x)) by (destruct X; split; unfold vadd; rat).
    destruct (ge _ _); injection H as <- _.
    + split; [exists v; split; [first [exact Ev|reflexivity]|split; assumption]|]. split; [exists d, J; cbn [lin_prev]; repeat split; first [assumption|reflexivity]|]. cbn [lambda].
      split; [apply Rmult_lt_0_compat; lra|rat].
    + split; [exists (vadd v x); split; [reflexivity|exact NV]|]. split; [exact (rat_linearise _ NV)|]. cbn [lambda].
      split; [apply Rdiv_lt_0_compat; lra|apply rational_div; [lra|exact Rl|exact Rfac]].
  - destruct (kind s); try discriminate. injection H as <- _.
    split; [exists v; split; [first [exact Ev|reflexivity]|split; assumption]|]. split; [exists d, J; cbn [lin_prev]; repeat split; first [assumption|reflexivity]|]. split; assumption.
Qed.
Lemma rat_result fuel p0 ss k p e : rat2 p0 -> 0 < ss -> rational ss ->
  levenberg_marquardt 2 eval None (fun x => x) lin term meas factor fuel p0 ss k = Done p e ->
  exists v, p = Some v /\ rat2 v.
Proof.
  intros H0 Hs Rs H. destruct (loop_invariant 2 eval None (fun x => x) lin term meas factor fuel (initial 2 eval None meas p0 ss k) rat_state p e) as (s & (Hp & _) & Ep & _).
  - intros s s' b Hi Hr. exact (rat_round s s' b Hi Hr).
  - split; [exists p0; split; [reflexivity|exact H0]|]. split; [exact (rat_linearise p0 H0)|]. split; assumption.
  - exact H.
  - rewrite Ep. exact Hp.
Qed.
End rat.
