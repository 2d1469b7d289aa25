(** Proofs about conics *)
From Coq Require Import Reals List Arith Bool Lia Lra Psatz.
Import ListNotations.
From Verif Require Import Mat Quat LinAlg LinAlgProofs Conic.
Open Scope R_scope.

(** the polynomial of a conic *)
Definition poly (k : conic) (x y : R) : R :=
  ca k * (x * x) + cb k * (x * y) + cc k * (y * y) + cd k * x + ce k * y + cf k.

(** coefficients in a frame rotated by the angle with cosine [co] and sine [si] *)
Definition rot_a (k : conic) co si := ca k*(co*co)+cb k*si*co+cc k*(si*si).
Definition rot_b (k : conic) co si := 2*(cc k - ca k)*(si*co) + cb k*(co*co - si*si).
Definition rot_c (k : conic) co si := ca k*(si*si)-cb k*si*co+cc k*(co*co).
Definition rot_d (k : conic) co si := cd k*co+ce k*si.
Definition rot_e (k : conic) co si := -cd k*si+ce k*co.

Lemma rot_poly k co si x y : co*co + si*si = 1 ->
  let u := x*co + y*si in let v := -x*si + y*co in
  poly k x y = rot_a k co si*(u*u) + rot_b k co si*(u*v) + rot_c k co si*(v*v) + rot_d k co si*u + rot_e k co si*v + cf k.
Proof.
  intros H u v.
  assert (X : x = u*co - v*si). { unfold u, v. transitivity (x * (co*co+si*si)); [rewrite H|]; ring. }
  assert (Y : y = u*si + v*co). { unfold u, v. transitivity (y * (co*co+si*si)); [rewrite H|]; ring. }
  clearbody u v. rewrite X, Y. unfold poly, rot_a, rot_b, rot_c, rot_d, rot_e. ring.
Qed.
Lemma rot_disc k co si : co*co + si*si = 1 -> rot_b k co si*rot_b k co si - 4*rot_a k co si*rot_c k co si = disc k.
Proof.
  intro H. unfold rot_a, rot_b, rot_c, disc.
  transitivity ((cb k*cb k - 4*ca k*cc k) * ((co*co+si*si)*(co*co+si*si))); [ring|rewrite H; ring].
Qed.
Lemma rot_trace k co si : co*co + si*si = 1 -> rot_a k co si + rot_c k co si = ca k + cc k.
Proof.
  intro H. unfold rot_a, rot_c. transitivity ((ca k + cc k) * (co*co+si*si)); [ring|rewrite H; ring].
Qed.
Lemma rot_det k co si : co*co + si*si = 1 ->
  conic_det (Con (rot_a k co si) (rot_b k co si) (rot_c k co si) (rot_d k co si) (rot_e k co si) (cf k)) = conic_det k.
Proof.
  intro H. destruct k as [a b c d e f]. unfold conic_det, rot_a, rot_b, rot_c, rot_d, rot_e; cbn [ca cb cc cd ce cf].
  set (n := co*co + si*si) in *.
  transitivity (n*n*(a*c*f - b*b*f*(1/4)) + n*n*((b*e*d - c*d*d - a*e*e)*(1/4))); [unfold n; field|rewrite H; field].
Qed.

(** the returned angle removes the mixed coefficient and orders the axes *)
Lemma sin_atan_cos q : sin (atan q) = q * cos (atan q).
Proof.
  assert (C : 0 < cos (atan q)). { destruct (atan_bound q). apply cos_gt_0; lra. }
  assert (T := tan_atan q). unfold tan in T. rewrite <- T at 2. field. lra.
Qed.
Lemma cos_atan_pos q : 0 < cos (atan q).
Proof. destruct (atan_bound q). apply cos_gt_0; lra. Qed.
Lemma double_c t : cos t * cos t - sin t * sin t = cos (2 * t).
Proof. rewrite cos_2a. reflexivity. Qed.
Lemma double_s t : 2 * (sin t * cos t) = sin (2 * t).
Proof. rewrite sin_2a. ring. Qed.
Lemma conic_angle_double k t : conic_angle k = Some t ->
  (ca k < cc k /\ 2 * t = atan (cb k / (ca k - cc k))) \/
  (cc k < ca k /\ 2 * t = atan (cb k / (ca k - cc k)) + PI) \/
  (ca k = cc k /\ 0 < cb k /\ 2 * t = PI / 2) \/ (ca k = cc k /\ cb k < 0 /\ 2 * t = - (PI / 2)).
Proof.
  unfold conic_angle, half_angle. destruct (Req_EM_T (ca k) (cc k)) as [E|N].
  - rewrite E. destruct (Rlt_dec 0 (cb k)); [|destruct (Rlt_dec (cb k) 0); [|discriminate]];
    (destruct (Rle_dec (cc k) (cc k)); [|lra]); intro H; injection H as <-; [right; right; left|right; right; right];
      repeat split; try assumption; lra.
  - destruct (Rle_dec (ca k) (cc k)); intro H; injection H as <-; [left|right; left]; split; lra.
Qed.
Lemma angle_removes_mixed k t : conic_angle k = Some t -> rot_b k (cos t) (sin t) = 0.
Proof.
  intro H. unfold rot_b. rewrite double_c.
  replace (2 * (cc k - ca k) * (sin t * cos t)) with ((cc k - ca k) * (2 * (sin t * cos t))) by ring.
  rewrite double_s.
  destruct (conic_angle_double k t H) as [[L E]|[[L E]|[[L [P E]]|[L [P E]]]]]; rewrite E.
  - rewrite sin_atan_cos. field. lra.
  - rewrite neg_sin, neg_cos, sin_atan_cos. field. lra.
  - rewrite cos_PI2, L. ring.
  - rewrite cos_neg, cos_PI2, L. ring.
Qed.
Lemma angle_orders k t : conic_angle k = Some t -> ca k <> cc k -> rot_a k (cos t) (sin t) < rot_c k (cos t) (sin t).
Proof.
  intros H N.
  assert (D : rot_a k (cos t) (sin t) - rot_c k (cos t) (sin t) = (ca k - cc k) * cos (2 * t) + cb k * sin (2 * t)).
  { rewrite <- double_c, <- double_s. unfold rot_a, rot_c. ring. }
  assert (S2 := sin2_cos2 (atan (cb k / (ca k - cc k)))). unfold Rsqr in S2.
  assert (C := cos_atan_pos (cb k / (ca k - cc k))). assert (S := sin_atan_cos (cb k / (ca k - cc k))).
  set (q := cb k / (ca k - cc k)) in *. assert (B : cb k = q * (ca k - cc k)) by (unfold q; field; lra).
  assert (I : cos (atan q) + q * sin (atan q) = / cos (atan q)).
  { apply Rmult_eq_reg_r with (cos (atan q)); [|lra]. rewrite Rinv_l by lra.
    transitivity (cos (atan q) * cos (atan q) + sin (atan q) * (q * cos (atan q))); [ring|]. rewrite <- S. lra. }
  assert (P : 0 < / cos (atan q)) by (apply Rinv_0_lt_compat, C).
  destruct (conic_angle_double k t H) as [[L E]|[[L E]|[[L [_ E]]|[L [_ E]]]]]; try contradiction; rewrite E in D; fold q in D.
  - assert (X : (ca k - cc k) * cos (atan q) + cb k * sin (atan q) = (ca k - cc k) * / cos (atan q)).
    { rewrite <- I, B at 1. ring. }
    rewrite X in D. nra.
  - rewrite neg_sin, neg_cos in D.
    assert (X : (ca k - cc k) * - cos (atan q) + cb k * - sin (atan q) = - (ca k - cc k) * / cos (atan q)).
    { rewrite <- I, B at 1. ring. }
    rewrite X in D. nra.
Qed.
Lemma angle_orders_eq k t : conic_angle k = Some t -> ca k = cc k -> rot_c k (cos t) (sin t) < rot_a k (cos t) (sin t).
Proof.
  intros H N.
  assert (D : rot_a k (cos t) (sin t) - rot_c k (cos t) (sin t) = (ca k - cc k) * cos (2 * t) + cb k * sin (2 * t)).
  { rewrite <- double_c, <- double_s. unfold rot_a, rot_c. ring. }
  destruct (conic_angle_double k t H) as [[L E]|[[L E]|[[L [P E]]|[L [P E]]]]]; try lra; rewrite E in D; rewrite N in D.
  - rewrite sin_PI2 in D. lra.
  - rewrite sin_neg, sin_PI2 in D. lra.
Qed.

(** completing the squares *)
Lemma semi_axes_unfold t k : semi_axes_at t k =
  let a1 := rot_a k (cos t) (sin t) in let c1 := rot_c k (cos t) (sin t) in
  let d1 := rot_d k (cos t) (sin t) in let e1 := rot_e k (cos t) (sin t) in
  if Req_EM_T (a1 * c1) 0 then None else
  let num := (c1*d1*d1+a1*e1*e1-4*a1*c1*cf k)/(4*a1*c1) in
  if Rlt_dec (num / a1) 0 then None else if Rlt_dec (num / c1) 0 then None else
  Some (sqrt (num/a1), sqrt (num/c1)).
Proof. destruct k; reflexivity. Qed.
Lemma cs1 t : cos t * cos t + sin t * sin t = 1.
Proof. assert (H := sin2_cos2 t). unfold Rsqr in H. lra. Qed.
Lemma num_det k t : conic_angle k = Some t ->
  let a1 := rot_a k (cos t) (sin t) in let c1 := rot_c k (cos t) (sin t) in
  let d1 := rot_d k (cos t) (sin t) in let e1 := rot_e k (cos t) (sin t) in
  a1 * c1 <> 0 -> (c1*d1*d1+a1*e1*e1-4*a1*c1*cf k)/(4*a1*c1) = - conic_det k / (a1 * c1).
Proof.
  intros H a1 c1 d1 e1 N. rewrite <- (rot_det k (cos t) (sin t) (cs1 t)), (angle_removes_mixed k t H).
  unfold conic_det; fold a1 c1 d1 e1. field. split; intro Z; apply N; rewrite Z; ring.
Qed.

(** the centre is the only stationary point *)
Definition grad_x (k : conic) (x y : R) := 2 * ca k * x + cb k * y + cd k.
Definition grad_y (k : conic) (x y : R) := cb k * x + 2 * cc k * y + ce k.
Lemma stationary_unique k x y x' y' : disc k <> 0 -> grad_x k x y = 0 -> grad_y k x y = 0 ->
  grad_x k x' y' = 0 -> grad_y k x' y' = 0 -> x = x' /\ y = y'.
Proof.
  unfold disc, grad_x, grad_y. intros N A B C D. destruct k as [a b c d e f]; cbn [ca cb cc cd ce cf] in *.
  assert (E1 : (b*b-4*a*c) * (x - x') = 0).
  { transitivity (b * ((b*x+2*c*y+e) - (b*x'+2*c*y'+e)) - 2*c*((2*a*x+b*y+d) - (2*a*x'+b*y'+d))); [ring|rewrite A, B, C, D; ring]. }
  assert (E2 : (b*b-4*a*c) * (y - y') = 0).
  { transitivity (b * ((2*a*x+b*y+d) - (2*a*x'+b*y'+d)) - 2*a*((b*x+2*c*y+e) - (b*x'+2*c*y'+e))); [ring|rewrite A, B, C, D; ring]. }
  apply Rmult_integral in E1; apply Rmult_integral in E2. split; [destruct E1|destruct E2]; lra.
Qed.

(** roots of quadratics *)
Lemma quadratic_between A B C y r : A < 0 -> 0 <= r -> r * r = B * B - A * C -> 0 <= A * (y * y) + 2 * B * y + C ->
  (- B + r) / A <= y <= (- B - r) / A.
Proof.
  intros HA Hr E H.
  assert (K : (A*y+B)*(A*y+B) <= r*r). { rewrite E. assert (A * (A*(y*y)+2*B*y+C) <= 0) by nra. nra. }
  assert (L : - r <= A*y+B <= r). { split; nra. }
  assert (I : / A < 0) by (apply Rinv_lt_0_compat, HA).
  split.
  - replace y with ((A * y) * / A) by (field; lra). unfold Rdiv. assert (Q : A * y <= - B + r) by lra. nra.
  - replace y with ((A * y) * / A) by (field; lra). unfold Rdiv. assert (Q : - B - r <= A * y) by lra. nra.
Qed.
