(** Derivative calculus along curves and proofs for the models of Jacobians.v. *)
From Coq Require Import Reals List Arith Bool Lra Lia Psatz.
Import ListNotations.
From Coquelicot Require Import Coquelicot.
From Verif Require Import Mat Quat Jacobians.
Open Scope R_scope.

(** ** Calculus *)

(** the first m outputs depend on the first n inputs only *)
Definition local (n m : nat) (f : vect -> vect) : Prop :=
  forall x y, veq n x y -> veq m (f x) (f y).

Lemma curve_weaken n k g x e : (k <= n)%nat -> curve n g x e -> curve k g x e.
Proof. intros Hk H i Hi. apply H. lia. Qed.

Lemma curve_shift n b k g x e : (b + k <= n)%nat -> curve n g x e ->
  curve k (fun i => g (b + i)%nat) (fun i => x (b + i)%nat) (fun i => e (b + i)%nat).
Proof. intros Hk H i Hi. apply H. lia. Qed.

Lemma derivative_weaken (S S' : vect -> Prop) n m f x J : (forall v, S' v -> S v) ->
  derivative_on S n m f x J -> derivative_on S' n m f x J.
Proof. intros HS H g e Hc HS'. apply H; [exact Hc|]. intros h. apply HS, HS'. Qed.

Lemma image_curve S n k f x J g e : local n k f -> derivative_on S n k f x J ->
  curve n g x e -> (forall h, S (at_time g h)) ->
  curve k (fun i h => f (at_time g h) i) (f x) (mvec n J e).
Proof.
  intros Hl Hd Hc HS i Hi. split.
  - apply Hl; [|exact Hi]. intros j Hj. exact (proj1 (Hc j Hj)).
  - apply Hd; assumption.
Qed.

(** chain rule *)
Lemma derivative_comp (S T : vect -> Prop) n k m f1 f2 x J1 J2 :
  local n k f1 -> (forall v, S v -> T (f1 v)) ->
  derivative_on S n k f1 x J1 -> derivative_on T k m f2 (f1 x) J2 ->
  derivative_on S n m (fun v => f2 (f1 v)) x (mmul k J2 J1).
Proof.
  intros Hl HT H1 H2 g e Hc HS r Hr. rewrite mvec_mmul.
  apply (H2 (fun i h => f1 (at_time g h) i) (mvec n J1 e)).
  - exact (image_curve S n k f1 x J1 g e Hl H1 Hc HS).
  - intros h. apply HT, HS.
  - exact Hr.
Qed.

Lemma derivative_meq S n m f x J J' : meq m n J J' ->
  derivative_on S n m f x J -> derivative_on S n m f x J'.
Proof.
  intros HJ H g e Hc HS r Hr. rewrite <- (mvec_ext n m J J' e e HJ (fun i _ => eq_refl) r Hr).
  apply H; assumption.
Qed.

(** the value may be computed in another way on the whole of S *)
Lemma derivative_ext (S : vect -> Prop) n m f f' x J :
  (forall v, S v -> veq m (f v) (f' v)) ->
  derivative_on S n m f x J -> derivative_on S n m f' x J.
Proof.
  intros Hf H g e Hc HS r Hr.
  apply (is_derive_ext (fun h => f (at_time g h) r)); [|apply H; assumption].
  intros h. apply Hf; [apply HS|exact Hr].
Qed.

Lemma is_derive_sum n (F : nat -> R -> R) (d : nat -> R) t :
  (forall i, (i < n)%nat -> is_derive (F i) t (d i)) ->
  is_derive (fun h => sum n (fun i => F i h)) t (sum n d).
Proof.
  induction n as [|n IH]; intros H; cbn [sum].
  - apply (is_derive_const 0 t).
  - apply (is_derive_plus (fun h => sum n (fun i => F i h)) (F n)).
    + apply IH. intros; apply H; lia.
    + apply H. lia.
Qed.

Lemma derivative_linear S n m A b x : derivative_on S n m (fun v i => mvec n A v i + b i) x A.
Proof.
  intros g e Hc _ r Hr.
  replace (mvec n A e r) with (plus (mvec n A e r) 0) by (unfold plus; cbn; ring).
  apply (is_derive_plus (fun h => mvec n A (at_time g h) r) (fun _ => b r));
    [|apply (is_derive_const (b r) 0)].
  unfold mvec. apply is_derive_sum. intros i Hi.
  apply (is_derive_scal (g i)). apply (Hc i Hi).
Qed.

Lemma local_linear n m A b : local n m (fun v i => mvec n A v i + b i).
Proof.
  intros x y H i Hi. f_equal. apply (mvec_ext n m); [intros ? ? _ _; reflexivity|exact H|exact Hi].
Qed.

(** entries of a derivative are the partial derivatives *)
Lemma derivative_partial n m f x J j r : local n m f -> derivative n m f x J ->
  (j < n)%nat -> (r < m)%nat ->
  is_derive (fun h => f (fun i => if (i =? j)%nat then h else x i) r) (x j) (J r j).
Proof.
  intros Hl H Hj Hr.
  assert (D : is_derive (fun h => f (at_time (fun i h => x i + h * eye i j) h) r) 0 (J r j)).
  { replace (J r j) with (mvec n J (fun i => eye i j) r).
    - apply H; [|intros; exact I|exact Hr]. intros i Hi. split; [ring|].
      auto_derive; [exact I|ring].
    - unfold mvec. exact (mmul_eye_r n J r j Hj). }
  replace (J r j) with (scal 1 (J r j)) by (unfold scal; cbn; unfold mult; cbn; ring).
  apply (is_derive_ext (fun h => f (at_time (fun i h => x i + h * eye i j) (h - x j)) r)).
  - intros h. apply Hl; [|exact Hr]. intros i Hi. unfold at_time, eye.
    destruct (Nat.eqb_spec i j); [subst; ring|ring].
  - apply (is_derive_comp (fun h => f (at_time (fun i h => x i + h * eye i j) h) r) (fun h => h - x j)).
    + rewrite Rminus_eq_0. exact D.
    + auto_derive; [exact I|ring].
Qed.

(** a derivative is unique *)
Lemma derivative_unique n m f x J J' : derivative n m f x J -> derivative n m f x J' -> meq m n J J'.
Proof.
  intros H H' r j Hr Hj.
  assert (E : forall K, derivative n m f x K ->
     is_derive (fun h => f (at_time (fun i h => x i + h * eye i j) h) r) 0 (K r j)).
  { intros K HK. replace (K r j) with (mvec n K (fun i => eye i j) r).
    - apply HK; [|intros; exact I|exact Hr]. intros i Hi. split; [ring|].
      auto_derive; [exact I|ring].
    - unfold mvec. exact (mmul_eye_r n K r j Hj). }
  rewrite <- (is_derive_unique _ _ _ (E J H)). exact (is_derive_unique _ _ _ (E J' H')).
Qed.

(** take a curve with literal dimension apart into functions g0 ... *)
Ltac take_curve Hc k :=
  match k with
  | O => idtac
  | Datatypes.S ?k' =>
    let a := fresh "Z" in let b := fresh "D" in
    destruct (Hc k' ltac:(lia)) as [a b]; take_curve Hc k'
  end.
Ltac use_curve :=
  repeat match goal with
  | D : is_derive (?g ?i) 0 ?d |- context [?g ?i] =>
      let u := fresh "u" in set (u := g i) in *; clearbody u
  end.
Ltac rew_curve :=
  repeat match goal with
  | D : is_derive ?u 0 ?d |- context [Derive (fun x => ?u x) 0] =>
      change (Derive (fun x => u x) 0) with (Derive u 0); rewrite (is_derive_unique u 0 d D)
  end;
  repeat match goal with
  | Z : ?u 0 = ?d |- context [?u 0] => rewrite Z
  end.
Ltac ex_curve := repeat split; try (eexists; eassumption); try exact I; rew_curve.

(** ** Lens distortion *)
Lemma distort_p_deriv d p : derivative 2 2 (fun v => distort v d) p (distort_jac_p d p).
Proof.
  intros g e Hc _ r Hr. take_curve Hc 2%nat. clear Hc.
  idx r Hr; unfold distort, distort_jac_p, mvec, at_time, vlist, mlist; cbn [nth sum]; use_curve;
    auto_derive; ex_curve; ring.
Qed.
Lemma distort_d_deriv d p : derivative 4 2 (distort p) d (distort_jac_d p d).
Proof.
  intros g e Hc _ r Hr. take_curve Hc 4%nat. clear Hc.
  idx r Hr; unfold distort, distort_jac_d, mvec, at_time, vlist, mlist; cbn [nth sum]; use_curve;
    auto_derive; ex_curve; ring.
Qed.
Lemma intrinsics_mul_deriv p k : derivative 5 2 (intrinsics_mul p) k (intrinsics_mul_jac p k).
Proof.
  intros g e Hc _ r Hr. take_curve Hc 5%nat. clear Hc.
  idx r Hr; unfold intrinsics_mul, intrinsics_mul_jac, mvec, at_time, vlist, mlist; cbn [nth sum];
    use_curve; auto_derive; ex_curve; ring.
Qed.
Lemma intrinsics_mul_p_deriv p k : derivative 2 2 (fun q => intrinsics_mul q k) p
  (mlist [[- k 0%nat; - k 1%nat]; [0; - k 3%nat]]).
Proof.
  intros g e Hc _ r Hr. take_curve Hc 2%nat. clear Hc.
  idx r Hr; unfold intrinsics_mul, mvec, at_time, vlist, mlist; cbn [nth sum];
    use_curve; auto_derive; ex_curve; ring.
Qed.
Lemma local_distort d : local 2 2 (fun v => distort v d).
Proof.
  intros x y H i Hi. unfold distort. rewrite (H 0%nat), (H 1%nat) by lia. reflexivity.
Qed.

(** ** Dehomogenization and normalisation *)
Lemma local_dehom n : local (S n) n (dehom n).
Proof. intros x y H i Hi. unfold dehom. rewrite (H i), (H n) by lia. reflexivity. Qed.

Lemma dehom_deriv n v : v n <> 0 -> derivative (S n) n (dehom n) v (dehom_jac n v).
Proof.
  intros Hn g e Hc _ r Hr.
  destruct (Hc r ltac:(lia)) as [Zr Dr]. destruct (Hc n ltac:(lia)) as [Zn Dn].
  replace (mvec (S n) (dehom_jac n v) e r)
    with (e r * (1 / v n) + - v r * (1 / v n * (1 / v n)) * e n).
  - unfold dehom, at_time. set (u := g r) in *. set (w := g n) in *. clearbody u w.
    auto_derive; ex_curve.
    + exact Hn.
    + field. exact Hn.
  - unfold mvec. cbn [sum]. unfold dehom_jac at 2. rewrite Nat.eqb_refl. f_equal.
    rewrite (sum_single n _ r Hr).
    + unfold dehom_jac, eye. destruct (Nat.eqb_spec r n); [lia|]. rewrite Nat.eqb_refl. ring.
    + intros i Hi Hne. unfold dehom_jac, eye. destruct (Nat.eqb_spec i n); [lia|].
      destruct (Nat.eqb_spec r i); [lia|]. ring.
Qed.

Lemma norm_sq_pos n v : norm n v <> 0 -> 0 < sum n (fun k => v k * v k).
Proof.
  intros H. unfold norm in H.
  assert (0 <= sum n (fun k => v k * v k)) by (apply sum_nonneg; intros; apply Rle_0_sqr).
  destruct (Rle_lt_or_eq_dec _ _ H0) as [|E]; [assumption|].
  rewrite <- E, sqrt_0 in H. lra.
Qed.

Lemma vnormalize_deriv n v : norm n v <> 0 -> derivative n n (vnormalize n) v (vnormalize_jac n v).
Proof.
  intros Hn g e Hc _ r Hr.
  pose proof (norm_sq_pos n v Hn) as Hp.
  destruct (Hc r Hr) as [Zr Dr].
  set (q := fun h => sum n (fun k => g k h * g k h)).
  assert (Dq : is_derive q 0 (2 * sum n (fun k => v k * e k))).
  { rewrite <- sum_scal_l. unfold q.
    apply (is_derive_sum n (fun k h => g k h * g k h) (fun k => 2 * (v k * e k))).
    intros i Hi. destruct (Hc i Hi) as [Zi Di]. set (u := g i) in *. clearbody u.
    auto_derive; ex_curve. ring. }
  assert (Zq : q 0 = sum n (fun k => v k * v k)).
  { apply sum_ext. intros k Hk. rewrite (proj1 (Hc k Hk)). reflexivity. }
  set (N := norm n v) in *.
  assert (HN : N * N = sum n (fun k => v k * v k)) by (apply sqrt_sqrt; lra).
  replace (mvec n (vnormalize_jac n v) e r)
    with (e r * (1 / N) - v r * sum n (fun k => v k * e k) * (1 / (N * N * N))).
  - unfold vnormalize, norm, at_time.
    apply (is_derive_ext (fun h => g r h * (1 / sqrt (q h)))); [reflexivity|].
    set (u := g r) in *. clearbody u q.
    auto_derive; ex_curve.
    + assumption.
    + assert (0 < sqrt (sum n (fun k => v k * v k))) by (apply sqrt_lt_R0; assumption). lra.
    + change (sqrt (sum n (fun k => v k * v k))) with N. field. exact Hn.
  - unfold mvec.
    transitivity (sum n (fun l => eye r l * e l * (1 / N) - v r * (1 / (N * N * N)) * (v l * e l))).
    + rewrite sum_minus, sum_scal_l, sum_scal_r.
      pose proof (mvec_eye n e r Hr) as E. unfold mvec in E. rewrite E. ring.
    + apply sum_ext. intros l Hl. unfold vnormalize_jac, eye. fold N.
      destruct (Nat.eqb_spec r l) as [<-|Hne].
      * field. exact Hn.
      * destruct (l <? r)%nat; field; exact Hn.
Qed.

(** ** Rotation of a point *)
Ltac un_rot :=
  unfold quat_rotate, quat_rotate_jac, quat_vec_jac_q, quat_vec_jac_v, mvec, at_time, unit_at, unit, qnorm,
    quat_of, vec_of, of3, qrot, vlist, mlist; cbn [nth sum qx qy qz qw vx vy vz Nat.add].

Definition hom_rotate (v q : vect) : vect :=
  let x := q 0%nat in let y := q 1%nat in let z := q 2%nat in let w := q 3%nat in
  vlist [ (w*w + x*x - y*y - z*z) * v 0%nat + (2*x*y - 2*w*z) * v 1%nat + (2*x*z + 2*w*y) * v 2%nat;
          (2*x*y + 2*w*z) * v 0%nat + (w*w - x*x + y*y - z*z) * v 1%nat + (2*y*z - 2*w*x) * v 2%nat;
          (2*x*z - 2*w*y) * v 0%nat + (2*y*z + 2*w*x) * v 1%nat + (w*w - x*x - y*y + z*z) * v 2%nat ].
Lemma hom_rotate_deriv v q : derivative 4 3 (hom_rotate v) q (quat_rotate_jac v q).
Proof.
  intros g e Hc _ r Hr. take_curve Hc 4%nat. clear Hc.
  unfold hom_rotate. idx r Hr; un_rot; use_curve; auto_derive; ex_curve; ring.
Qed.
Lemma hom_rotate_unit v q : unit_at 0 q -> veq 3 (hom_rotate v q) (quat_rotate v q).
Proof.
  un_rot. intros U i Hi. unfold hom_rotate.
  assert (E : q 3%nat * q 3%nat = 1 - q 0%nat * q 0%nat - q 1%nat * q 1%nat - q 2%nat * q 2%nat) by lra.
  idx i Hi; un_rot; ring [E].
Qed.
Lemma quat_rotate_deriv v q : derivative_on (unit_at 0) 4 3 (quat_rotate v) q (quat_rotate_jac v q).
Proof.
  apply (derivative_ext _ _ _ (hom_rotate v)).
  - intros w Hw. apply hom_rotate_unit, Hw.
  - apply (derivative_weaken (fun _ => True)); [auto|]. apply hom_rotate_deriv.
Qed.
Lemma quat_jacs_agree v q : meq 3 4 (quat_vec_jac_q q v) (quat_rotate_jac v q).
Proof.
  intros i j Hi Hj. idx i Hi; idx j Hj; un_rot; ring.
Qed.
Lemma quat_vec_v_deriv q v : unit_at 0 q ->
  derivative 3 3 (fun w => quat_rotate w q) v (quat_vec_jac_v q v).
Proof.
  intros U g e Hc _ r Hr. take_curve Hc 3%nat. clear Hc. revert U.
  un_rot. intros U.
  assert (E : q 3%nat * q 3%nat = 1 - q 0%nat * q 0%nat - q 1%nat * q 1%nat - q 2%nat * q 2%nat) by lra.
  idx r Hr; un_rot; use_curve; auto_derive; ex_curve; ring [E].
Qed.

(** rotation by q disturbed by a small rotation e *)
Definition disturbed_rotate (q v e : vect) : vect :=
  of3 (qrot (qmul (quat_of q 0)
    (Q (e 0%nat) (e 1%nat) (e 2%nat) (sqrt (1 - (e 0%nat * e 0%nat + e 1%nat * e 1%nat + e 2%nat * e 2%nat)))))
    (vec_of v 0)).
Lemma quat_error_deriv q v : unit_at 0 q ->
  derivative 3 3 (disturbed_rotate q v) (fun _ => 0) (quat_error_jac v q).
Proof.
  intros U g e Hc _ r Hr. take_curve Hc 3%nat. clear Hc. revert U.
  un_rot. intros U.
  assert (E : q 3%nat * q 3%nat = 1 - q 0%nat * q 0%nat - q 1%nat * q 1%nat - q 2%nat * q 2%nat) by lra.
  set (w := fun h => sqrt (1 - (g 0%nat h * g 0%nat h + g 1%nat h * g 1%nat h + g 2%nat h * g 2%nat h))).
  assert (Dw : is_derive w 0 0).
  { unfold w. use_curve. auto_derive; ex_curve; [lra|ring]. }
  assert (Zw : w 0 = 1).
  { unfold w. rewrite Z, Z0, Z1. replace (1 - _) with 1 by ring. apply sqrt_1. }
  apply (is_derive_ext (fun h => of3 (qrot (qmul (quat_of q 0) (Q (g 0%nat h) (g 1%nat h) (g 2%nat h) (w h)))
    (vec_of v 0)) r)); [reflexivity|].
  clearbody w.
  idx r Hr; unfold quat_error_jac, qmul; un_rot; use_curve; auto_derive; ex_curve; ring [E].
Qed.

(** ** Exponential map *)

(** Rodrigues' formula with w = |r|, for r <> 0 *)
Definition rodrigues (r v : vect) (w : R) : vect :=
  let d := r 0%nat * v 0%nat + r 1%nat * v 1%nat + r 2%nat * v 2%nat in
  let k i c := cos w * v i + (1 - cos w) / (w * w) * d * r i + sin w / w * c in
  vlist [ k 0%nat (r 1%nat * v 2%nat - r 2%nat * v 1%nat);
          k 1%nat (r 2%nat * v 0%nat - r 0%nat * v 2%nat);
          k 2%nat (r 0%nat * v 1%nat - r 1%nat * v 0%nat) ].

Definition nsq (r : vect) : R := r 0%nat * r 0%nat + r 1%nat * r 1%nat + r 2%nat * r 2%nat.

Lemma lie_rotate_rodrigues v r : eps12 < sqrt (nsq r) ->
  veq 3 (lie_rotate v r) (rodrigues r v (sqrt (nsq r))).
Proof.
  intros H i Hi.
  assert (Hw : 0 < sqrt (nsq r)) by (apply Rlt_trans with eps12; [unfold eps12; apply Rinv_0_lt_compat; lra|exact H]).
  assert (E : sqrt (nsq r) * sqrt (nsq r) = nsq r).
  { apply sqrt_sqrt. unfold nsq. pose proof (Rle_0_sqr (r 0%nat)). pose proof (Rle_0_sqr (r 1%nat)).
    pose proof (Rle_0_sqr (r 2%nat)). unfold Rsqr in *. lra. }
  unfold lie_rotate, from_log. change (norm3 (vec_of r 0)) with (sqrt (nsq r)).
  destruct (Rgt_dec (sqrt (nsq r)) eps12) as [_|n]; [|lra].
  set (w := sqrt (nsq r)) in *. clearbody w. unfold rodrigues.
  unfold nsq in E.
  pose proof (sin2_cos2 (w / 2)) as SC. unfold Rsqr in SC.
  replace (cos w) with (cos (2 * (w / 2))) by (f_equal; field).
  replace (sin w) with (sin (2 * (w / 2))) by (f_equal; field).
  rewrite sin_2a, cos_2a.
  set (s := sin (w / 2)) in *. set (c := cos (w / 2)) in *. clearbody s c.
  assert (Ec : c * c = 1 - s * s) by lra.
  assert (Er : r 2%nat * r 2%nat = w * w - r 0%nat * r 0%nat - r 1%nat * r 1%nat) by lra.
  idx i Hi; un_rot.
  - field_simplify_eq; [|lra].
    replace (c ^ 2) with (1 - s * s) by (rewrite <- Ec; ring). ring_simplify.
    replace (w ^ 2) with (r 0%nat * r 0%nat + r 1%nat * r 1%nat + r 2%nat * r 2%nat) by (rewrite <- E; ring).
    ring.
  - field_simplify_eq; [|lra].
    replace (c ^ 2) with (1 - s * s) by (rewrite <- Ec; ring). ring_simplify.
    replace (w ^ 2) with (r 0%nat * r 0%nat + r 1%nat * r 1%nat + r 2%nat * r 2%nat) by (rewrite <- E; ring).
    ring.
  - field_simplify_eq; [|lra].
    replace (c ^ 2) with (1 - s * s) by (rewrite <- Ec; ring). ring_simplify.
    replace (w ^ 2) with (r 0%nat * r 0%nat + r 1%nat * r 1%nat + r 2%nat * r 2%nat) by (rewrite <- E; ring).
    ring.
Qed.

(** the generated Jacobian in closed form; [N] is |r|^2 *)
Definition rodrigues_jac (v r : vect) (w N : R) : mat :=
  let d := r 0%nat * v 0%nat + r 1%nat * v 1%nat + r 2%nat * v 2%nat in
  let s := w * sin w / N in
  let k i j dij c dc :=
    - s * r j * v i + (s / N - 2 * (1 - cos w) / (N * N)) * r j * d * r i
    + (1 - cos w) / N * (v j * r i + d * dij) + (cos w / N - s / N) * r j * c + s * dc in
  let c0 := r 1%nat * v 2%nat - r 2%nat * v 1%nat in
  let c1 := r 2%nat * v 0%nat - r 0%nat * v 2%nat in
  let c2 := r 0%nat * v 1%nat - r 1%nat * v 0%nat in
  mlist [ [ k 0%nat 0%nat 1 c0 0; k 0%nat 1%nat 0 c0 (v 2%nat); k 0%nat 2%nat 0 c0 (- v 1%nat) ];
          [ k 1%nat 0%nat 0 c1 (- v 2%nat); k 1%nat 1%nat 1 c1 0; k 1%nat 2%nat 0 c1 (v 0%nat) ];
          [ k 2%nat 0%nat 0 c2 (v 1%nat); k 2%nat 1%nat 0 c2 (- v 0%nat); k 2%nat 2%nat 1 c2 0 ] ].

Lemma lie_jac_closed v r : nsq r <> 0 ->
  meq 3 3 (lie_jac_general v r) (rodrigues_jac v r (sqrt (nsq r)) (nsq r)).
Proof.
  intros HN i j Hi Hj. unfold lie_jac_general. cbv zeta.
  change (r 0%nat * r 0%nat + r 1%nat * r 1%nat + r 2%nat * r 2%nat) with (nsq r).
  set (w := sqrt (nsq r)). clearbody w. unfold rodrigues_jac.
  set (s := sin w). set (c := cos w). clearbody s c. revert HN. unfold nsq. intros HN.
  idx i Hi; idx j Hj; unfold mlist; cbn [nth]; field; exact HN.
Qed.

Lemma rodrigues_deriv g e r v w : curve 3 g r e -> w 0 = sqrt (nsq r) -> 0 < w 0 ->
  (forall h, w h * w h = nsq (at_time g h)) ->
  is_derive w 0 ((r 0%nat * e 0%nat + r 1%nat * e 1%nat + r 2%nat * e 2%nat) / w 0) ->
  forall i, (i < 3)%nat ->
  is_derive (fun h => rodrigues (at_time g h) v (w h) i) 0 (mvec 3 (rodrigues_jac v r (w 0) (w 0 * w 0)) e i).
Proof.
  intros Hc Hw0 Hp Hw Dw i Hi. take_curve Hc 3%nat. clear Hc. clear Hw Hw0.
  idx i Hi; unfold rodrigues, rodrigues_jac, mvec, at_time, vlist, mlist; cbn [nth sum];
    use_curve; auto_derive; ex_curve; try (apply Rgt_not_eq; nra); field; lra.
Qed.

Lemma lie_general_deriv v r : eps12 < sqrt (nsq r) ->
  derivative 3 3 (lie_rotate v) r (lie_jac_general v r).
Proof.
  intros H g e Hc _ i Hi.
  assert (P12 : 0 < eps12) by (unfold eps12; apply Rinv_0_lt_compat; lra).
  assert (HN : 0 < nsq r).
  { destruct (Rlt_le_dec 0 (nsq r)); [assumption|]. rewrite sqrt_neg_0 in H by assumption. lra. }
  set (w := fun h => sqrt (nsq (at_time g h))).
  assert (E0 : nsq (at_time g 0) = nsq r).
  { unfold nsq, at_time. rewrite (proj1 (Hc 0%nat ltac:(lia))), (proj1 (Hc 1%nat ltac:(lia))),
      (proj1 (Hc 2%nat ltac:(lia))). reflexivity. }
  assert (Zw : w 0 = sqrt (nsq r)) by (unfold w; rewrite E0; reflexivity).
  assert (Hw0 : 0 < w 0) by lra.
  assert (Dw : is_derive w 0 ((r 0%nat * e 0%nat + r 1%nat * e 1%nat + r 2%nat * e 2%nat) / w 0)).
  { rewrite Zw in *. unfold w, nsq, at_time in *. take_curve Hc 3%nat. clear Hc.
    use_curve. auto_derive; ex_curve; [lra|]. field. lra. }
  rewrite (mvec_ext 3 3 _ (rodrigues_jac v r (w 0) (w 0 * w 0)) e e); [|rewrite Zw, sqrt_sqrt by lra; apply lie_jac_closed; lra|intros ? _; reflexivity|exact Hi].
  apply (is_derive_ext_loc (fun h => rodrigues (at_time g h) v (w h) i)).
  - assert (C : continuous w 0).
    { apply (ex_derive_continuous w). eexists; exact Dw. }
    assert (O : locally (w 0) (fun y => eps12 < y)) by (apply open_gt; lra).
    apply (filter_imp (fun h => eps12 < w h)); [|apply C, O].
    intros h Hh. symmetry. apply lie_rotate_rodrigues; [exact Hh|exact Hi].
  - apply rodrigues_deriv; try assumption.
    intros h. apply sqrt_sqrt. unfold nsq. pose proof (Rle_0_sqr (at_time g h 0%nat)). pose proof (Rle_0_sqr (at_time g h 1%nat)).
    pose proof (Rle_0_sqr (at_time g h 2%nat)). unfold Rsqr in *. lra.
Qed.

(** the exponential map without the cut-off near zero *)
Definition sinc (x : R) : R := if Req_EM_T x 0 then 1 else sin x / x.
Definition exp_rotate (v r : vect) : vect :=
  let w := sqrt (nsq r) in
  let d := r 0%nat * v 0%nat + r 1%nat * v 1%nat + r 2%nat * v 2%nat in
  let k i c := v i + sinc (w / 2) * sinc (w / 2) / 2 * (d * r i - nsq r * v i) + sinc w * c in
  vlist [ k 0%nat (r 1%nat * v 2%nat - r 2%nat * v 1%nat);
          k 1%nat (r 2%nat * v 0%nat - r 0%nat * v 2%nat);
          k 2%nat (r 0%nat * v 1%nat - r 1%nat * v 0%nat) ].

Lemma nsq_nonneg r : 0 <= nsq r.
Proof.
  unfold nsq. pose proof (Rle_0_sqr (r 0%nat)). pose proof (Rle_0_sqr (r 1%nat)).
  pose proof (Rle_0_sqr (r 2%nat)). unfold Rsqr in *. lra.
Qed.

Lemma exp_rotate_lie v r : eps12 < sqrt (nsq r) -> veq 3 (exp_rotate v r) (lie_rotate v r).
Proof.
  intros H i Hi. rewrite lie_rotate_rodrigues by assumption.
  assert (P12 : 0 < eps12) by (unfold eps12; apply Rinv_0_lt_compat; lra).
  assert (E : sqrt (nsq r) * sqrt (nsq r) = nsq r) by (apply sqrt_sqrt, nsq_nonneg).
  unfold exp_rotate, rodrigues. set (w := sqrt (nsq r)) in *. rewrite <- E. clearbody w. clear E.
  unfold sinc. destruct (Req_EM_T (w / 2) 0); [lra|]. destruct (Req_EM_T w 0); [lra|].
  replace (cos w) with (cos (2 * (w / 2))) by (f_equal; field).
  rewrite cos_2a_sin.
  idx i Hi; unfold vlist; cbn [nth]; field; lra.
Qed.

Lemma sinc_continuous_0 : continuous sinc 0.
Proof.
  apply continuity_pt_filterlim.
  assert (L : is_lim sinc 0 1).
  { apply (is_lim_ext_loc (fun x => sin x / x)).
    - exists (mkposreal 1 Rlt_0_1). intros y _ Hy. unfold sinc.
      destruct (Req_EM_T y 0); [contradiction|reflexivity].
    - exact is_lim_sinc_0. }
  assert (E0 : sinc 0 = 1) by (unfold sinc; destruct (Req_EM_T 0 0); lra).
  apply continuity_pt_filterlim'. rewrite E0. exact L.
Qed.

(** a factor that is only continuous does not matter where the other one vanishes *)
Lemma is_derive_vanish a u d : u 0 = 0 -> is_derive u 0 d -> continuous a 0 ->
  is_derive (fun h => a h * u h) 0 (a 0 * d).
Proof.
  intros Z D C. apply is_derive_Reals. apply is_derive_Reals in D.
  assert (C' : filterlim a (locally 0) (locally (a 0))) by exact C.
  unfold derivable_pt_lim in *. intros eps Heps.
  set (M := Rabs d + 1). set (A := Rabs (a 0) + 1).
  assert (HM : 0 < M) by (unfold M; pose proof (Rabs_pos d); lra).
  assert (HA : 0 < A) by (unfold A; pose proof (Rabs_pos (a 0)); lra).
  assert (He1 : 0 < Rmin 1 (eps / (2 * A))) by (apply Rmin_pos; [lra|apply Rdiv_lt_0_compat; lra]).
  destruct (D _ He1) as [d1 H1].
  assert (He2 : 0 < eps / (2 * M)) by (apply Rdiv_lt_0_compat; lra).
  assert (LC : locally 0 (fun h => Rabs (a h - a 0) < eps / (2 * M))).
  { apply (C' (fun y => Rabs (y - a 0) < eps / (2 * M))). exists (mkposreal _ He2). intros y Hy. exact Hy. }
  destruct LC as [d2 H2].
  assert (Hd : 0 < Rmin d1 d2) by (apply Rmin_pos; [apply cond_pos|apply cond_pos]).
  exists (mkposreal _ Hd). intros h Hh Hb. cbn in Hb.
  assert (B1 : Rabs h < d1) by (eapply Rlt_le_trans; [exact Hb|apply Rmin_l]).
  assert (B2 : Rabs h < d2) by (eapply Rlt_le_trans; [exact Hb|apply Rmin_r]).
  specialize (H1 h Hh B1). rewrite Rplus_0_l in *.
  assert (H2' : Rabs (a h - a 0) < eps / (2 * M)).
  { apply H2. change (Rabs (h - 0) < d2). rewrite Rminus_0_r. exact B2. }
  rewrite Z in *. rewrite Rmult_0_r, Rminus_0_r in *.
  set (q := u h / h) in *.
  replace (a h * u h / h - a 0 * d) with ((a h - a 0) * q + a 0 * (q - d)) by (unfold q; field; exact Hh).
  assert (Q1 : Rabs (q - d) < 1) by (eapply Rlt_le_trans; [exact H1|apply Rmin_l]).
  assert (Q2 : Rabs (q - d) < eps / (2 * A)) by (eapply Rlt_le_trans; [exact H1|apply Rmin_r]).
  assert (Q3 : Rabs q <= M).
  { replace q with ((q - d) + d) by ring. unfold M. eapply Rle_trans; [apply Rabs_triang|]. lra. }
  eapply Rle_lt_trans; [apply Rabs_triang|]. rewrite !Rabs_mult.
  assert (T1 : Rabs (a h - a 0) * Rabs q <= eps / 2).
  { replace (eps / 2) with (eps / (2 * M) * M) by (field; lra).
    apply Rmult_le_compat; try apply Rabs_pos; [lra|exact Q3]. }
  assert (T2 : Rabs (a 0) * Rabs (q - d) < eps / 2).
  { apply Rle_lt_trans with (Rabs (a 0) * (eps / (2 * A))).
    - apply Rmult_le_compat_l; [apply Rabs_pos|lra].
    - replace (eps / 2) with (A * (eps / (2 * A))) by (field; lra).
      apply Rmult_lt_compat_r; [apply Rdiv_lt_0_compat; lra|unfold A; lra]. }
  lra.
Qed.

Lemma exp_rotate_zero_deriv v : derivative 3 3 (exp_rotate v) (fun _ => 0) (lie_jac_small v).
Proof.
  intros g e Hc _ i Hi.
  set (w := fun h => sqrt (nsq (at_time g h))).
  assert (Cn : continuous (fun h => nsq (at_time g h)) 0).
  { apply (ex_derive_continuous (fun h => nsq (at_time g h))). unfold nsq, at_time.
    take_curve Hc 3%nat. use_curve. auto_derive. ex_curve. }
  assert (E0 : w 0 = 0).
  { unfold w, nsq, at_time. rewrite (proj1 (Hc 0%nat ltac:(lia))), (proj1 (Hc 1%nat ltac:(lia))),
      (proj1 (Hc 2%nat ltac:(lia))). replace (_ + _) with 0 by ring. apply sqrt_0. }
  assert (Cw : continuous w 0).
  { apply (continuous_comp (fun h => nsq (at_time g h)) sqrt); [exact Cn|apply continuous_sqrt]. }
  assert (C1 : continuous (fun h => sinc (w h)) 0).
  { apply (continuous_comp w sinc); [exact Cw|]. rewrite E0. exact sinc_continuous_0. }
  assert (C2 : continuous (fun h => sinc (w h / 2)) 0).
  { apply (continuous_comp (fun h => w h / 2) sinc).
    - apply (continuous_mult w (fun _ => / 2)); [exact Cw|apply continuous_const].
    - rewrite E0. replace (0 / 2) with 0 by field. exact sinc_continuous_0. }
  assert (C3 : continuous (fun h => sinc (w h / 2) * sinc (w h / 2) / 2) 0).
  { apply (continuous_mult (fun h => sinc (w h / 2) * sinc (w h / 2)) (fun _ => / 2)); [|apply continuous_const].
    apply (continuous_mult (fun h => sinc (w h / 2)) (fun h => sinc (w h / 2))); exact C2. }
  assert (S0 : sinc (w 0) = 1) by (rewrite E0; unfold sinc; destruct (Req_EM_T 0 0); lra).
  assert (G : forall k u1 u2 d2, u1 0 = 0 -> is_derive u1 0 0 -> u2 0 = 0 -> is_derive u2 0 d2 ->
    is_derive (fun h => v k + sinc (w h / 2) * sinc (w h / 2) / 2 * u1 h + sinc (w h) * u2 h) 0 d2).
  { intros k u1 u2 d2 Z1 D1 Z2 D2.
    pose proof (is_derive_vanish _ u1 _ Z1 D1 C3) as V1.
    pose proof (is_derive_vanish _ u2 _ Z2 D2 C1) as V2. cbn beta in V1, V2.
    rewrite S0, Rmult_1_l in V2. rewrite Rmult_0_r in V1.
    replace d2 with (plus (plus 0 0) d2) by (unfold plus; cbn; ring).
    apply (is_derive_plus (fun h => v k + sinc (w h / 2) * sinc (w h / 2) / 2 * u1 h)); [|exact V2].
    apply (is_derive_plus (fun _ => v k)); [apply (is_derive_const (v k) 0)|exact V1]. }
  take_curve Hc 3%nat. clear Hc.
  idx i Hi; unfold exp_rotate, lie_jac_small, mvec, mlist, vlist; cbn [nth sum].
  1: apply (G 0%nat (fun h => (at_time g h 0%nat * v 0%nat + at_time g h 1%nat * v 1%nat + at_time g h 2%nat * v 2%nat)
        * at_time g h 0%nat - nsq (at_time g h) * v 0%nat)
      (fun h => at_time g h 1%nat * v 2%nat - at_time g h 2%nat * v 1%nat)).
  5: apply (G 1%nat (fun h => (at_time g h 0%nat * v 0%nat + at_time g h 1%nat * v 1%nat + at_time g h 2%nat * v 2%nat)
        * at_time g h 1%nat - nsq (at_time g h) * v 1%nat)
      (fun h => at_time g h 2%nat * v 0%nat - at_time g h 0%nat * v 2%nat)).
  9: apply (G 2%nat (fun h => (at_time g h 0%nat * v 0%nat + at_time g h 1%nat * v 1%nat + at_time g h 2%nat * v 2%nat)
        * at_time g h 2%nat - nsq (at_time g h) * v 2%nat)
      (fun h => at_time g h 0%nat * v 1%nat - at_time g h 1%nat * v 0%nat)).
  all: clear G C1 C2 C3 S0 E0 Cw Cn w; unfold nsq, at_time; use_curve;
    match goal with |- is_derive _ _ _ => auto_derive; ex_curve; ring | _ => rew_curve; ring end.
Qed.

(** ** Hand-eye rotation *)
Ltac un_hec := unfold rothec, rothec_jac, rothec_jac_a, rothec_jac_b, mopp, to4, qsub, qmul; un_rot.
Lemma rothec_deriv a b x : derivative 4 4 (rothec a b) x (rothec_jac a b).
Proof.
  intros g e Hc _ r Hr. take_curve Hc 4%nat. clear Hc.
  idx r Hr; un_hec; use_curve; auto_derive; ex_curve; ring.
Qed.
Lemma rothec_a_deriv a b x : derivative 4 4 (fun v => rothec (quat_of v 0) b x) a (rothec_jac_a (quat_of x 0)).
Proof.
  intros g e Hc _ r Hr. take_curve Hc 4%nat. clear Hc.
  idx r Hr; un_hec; use_curve; auto_derive; ex_curve; ring.
Qed.
(** the right Jacobian with respect to b: minus left multiplication by x *)
Definition rothec_jac_b_true (x : quat) : mat := mopp (mlist [
  [ qw x; - qz x; qy x; qx x ]; [ qz x; qw x; - qx x; qy x ];
  [ - qy x; qx x; qw x; qz x ]; [ - qx x; - qy x; - qz x; qw x ] ]).
Lemma rothec_b_deriv a b x : derivative 4 4 (fun v => rothec a (quat_of v 0) x) b (rothec_jac_b_true (quat_of x 0)).
Proof.
  intros g e Hc _ r Hr. take_curve Hc 4%nat. clear Hc.
  idx r Hr; unfold rothec_jac_b_true; un_hec; use_curve; auto_derive; ex_curve; ring.
Qed.

(** ** Projections *)
Lemma single_point_deriv Ps n v :
  (forall i, (i < n)%nat -> hom_transform (Ps i) v 2%nat <> 0) ->
  derivative 3 (2 * n) (single_point Ps) v (single_point_jac Ps v).
Proof.
  intros HP g e Hc _ r Hr.
  assert (Hi : (r / 2 < n)%nat) by (apply Nat.div_lt_upper_bound; lia).
  specialize (HP _ Hi). take_curve Hc 3%nat. clear Hc.
  unfold single_point, single_point_jac, mvec. set (P := Ps (r / 2)%nat) in *. set (k := (r mod 2)%nat).
  clearbody P k. cbn [sum]. revert HP. unfold hom_transform, at_time. intros HP. use_curve.
  auto_derive; ex_curve; [exact HP|]. field. exact HP.
Qed.

(** motion of a point: translation and linear part *)
Definition motion_jac (rotJ : mat) : mat := fun i j =>
  if (j <? 3)%nat then eye i j else rotJ i (j - 3)%nat.
Lemma mmul_motion A rotJ i j : mmul 3 A (motion_jac rotJ) i j =
  if (j <? 3)%nat then A i j else mmul 3 A rotJ i (j - 3)%nat.
Proof.
  unfold motion_jac. destruct (Nat.ltb_spec j 3).
  - rewrite <- (mmul_eye_r 3 A i j) by assumption. apply sum_ext. intros l _. cbv beta.
    destruct (Nat.ltb_spec j 3); [reflexivity|lia].
  - apply sum_ext. intros l _. cbv beta. destruct (Nat.ltb_spec j 3); [lia|reflexivity].
Qed.
Lemma mvec_motion k rotJ e i : (i < 3)%nat ->
  mvec (3 + k) (motion_jac rotJ) e i = e i + mvec k rotJ (fun l => e (3 + l)%nat) i.
Proof.
  intros Hi. unfold mvec. rewrite sum_split. f_equal.
  - transitivity (mvec 3 eye e i); [|apply mvec_eye, Hi]. apply sum_ext. intros l Hl. unfold motion_jac.
    destruct (Nat.ltb_spec l 3); [reflexivity|lia].
  - apply sum_ext. intros l Hl. unfold motion_jac. destruct (Nat.ltb_spec (3 + l) 3); [lia|].
    do 2 f_equal. lia.
Qed.

(** sum of a translation (inputs 0..2) and a function of the remaining inputs *)
Lemma motion_deriv (S T : vect -> Prop) k f b x J :
  (forall v, S v -> T (fun i => v (3 + i)%nat)) ->
  derivative_on T k 3 f (fun i => x (3 + i)%nat) J ->
  derivative_on S (3 + k) 3 (fun v i => f (fun l => v (3 + l)%nat) i + v i + b i) x (motion_jac J).
Proof.
  intros HT H g e Hc HS r Hr. rewrite mvec_motion by assumption.
  assert (D : is_derive (fun h => f (at_time (fun l => g (3 + l)%nat) h) r) 0 (mvec k J (fun l => e (3 + l)%nat) r)).
  { apply H; [|intros h; apply (HT _ (HS h))|exact Hr]. apply (curve_shift (3 + k)); [lia|exact Hc]. }
  destruct (Hc r ltac:(lia)) as [_ Dr].
  replace (e r + _) with (plus (plus (mvec k J (fun l => e (3 + l)%nat) r) (e r)) 0) by (unfold plus; cbn; ring).
  apply (is_derive_plus (fun h => f (at_time (fun l => g (3 + l)%nat) h) r + g r h) (fun _ => b r));
    [|apply (is_derive_const (b r) 0)].
  apply (is_derive_plus (fun h => f (at_time (fun l => g (3 + l)%nat) h) r) (g r)); assumption.
Qed.

Lemma qmat_rotate q p i : unit q -> (i < 3)%nat -> mvec 3 (qmat q) p i = of3 (qrot q (vec_of p 0)) i.
Proof.
  destruct q as [x y z w]. unfold unit, qnorm. cbn [qx qy qz qw]. intros U Hi.
  assert (E : w * w = 1 - x * x - y * y - z * z) by lra.
  idx i Hi; unfold mvec, qmat, mk33; un_rot; ring [E].
Qed.

Lemma pose_point_deriv p x :
  derivative_on (unit_at 3) 7 3 (pose_point p) x (motion_jac (quat_rotate_jac p (fun i => x (3 + i)%nat))).
Proof.
  apply (derivative_ext _ _ _ (fun v i => quat_rotate p (fun l => v (3 + l)%nat) i + v i + 0)).
  - intros v U i Hi. unfold pose_point, quat_rotate. rewrite qmat_rotate by assumption.
    change (quat_of (fun l => v (3 + l)%nat) 0) with (quat_of v 3). ring.
  - apply (motion_deriv (unit_at 3) (unit_at 0) 4 (quat_rotate p) (fun _ => 0) x); [intros v U; exact U|].
    apply quat_rotate_deriv.
Qed.
Lemma local_pose_point p : local 7 3 (pose_point p).
Proof.
  intros x y H i Hi. unfold pose_point. rewrite (H i) by lia.
  replace (quat_of x 3) with (quat_of y 3); [reflexivity|].
  unfold quat_of. rewrite !H by lia. reflexivity.
Qed.
Lemma local_comp n k m f f' : local n k f -> local k m f' -> local n m (fun v => f' (f v)).
Proof. intros H H' x y E. apply H', H, E. Qed.

(** dehomogenized affine image *)
Lemma proj_deriv (S : vect -> Prop) n A b f x J : local n 3 f -> derivative_on S n 3 f x J ->
  mvec 3 A (f x) 2%nat + b 2%nat <> 0 ->
  derivative_on S n 2 (fun v => dehom 2 (fun i => mvec 3 A (f v) i + b i)) x
    (mmul 3 (mmul 3 (dehom_jac 2 (fun i => mvec 3 A (f x) i + b i)) A) J).
Proof.
  intros Hl Hd Hz.
  apply (derivative_comp S (fun _ => True) n 3 2 f (fun u => dehom 2 (fun i => mvec 3 A u i + b i)));
    auto.
  apply (derivative_comp _ (fun _ => True) 3 3 2 (fun u i => mvec 3 A u i + b i) (dehom 2)); auto.
  - apply local_linear.
  - apply derivative_linear.
  - apply dehom_deriv. exact Hz.
Qed.

(** ** Compositions *)
Lemma derivative_rows (S : vect -> Prop) n m f x J :
  (forall r, (r < m)%nat -> derivative_on S n 1 (fun v _ => f v r) x (fun _ => J r)) ->
  derivative_on S n m f x J.
Proof. intros H g e Hc HS r Hr. exact (H r Hr g e Hc HS 0%nat ltac:(lia)). Qed.
Lemma derivative_row (S : vect -> Prop) n m f x J r : (r < m)%nat ->
  derivative_on S n m f x J -> derivative_on S n 1 (fun v _ => f v r) x (fun _ => J r).
Proof. intros Hr H g e Hc HS r' _. exact (H g e Hc HS r Hr). Qed.

Lemma point_projection_deriv cam p x :
  mvec 3 cam (pose_point p x) 2%nat <> 0 ->
  derivative_on (unit_at 3) 7 2 (point_projection cam p) x (point_projection_jac cam p x).
Proof.
  intros Hz.
  pose proof (proj_deriv (unit_at 3) 7 cam (fun _ => 0) (pose_point p) x _ (local_pose_point p)
    (pose_point_deriv p x)) as H. rewrite Rplus_0_r in H. specialize (H Hz).
  apply (derivative_meq _ _ _ _ _ _ (point_projection_jac cam p x)) in H.
  - revert H. apply derivative_ext. intros v _ i Hi. unfold point_projection, dehom.
    rewrite !Rplus_0_r. reflexivity.
  - intros i j Hi Hj. rewrite mmul_motion. unfold point_projection_jac.
    assert (E : forall a b, dehom_jac 2 (fun i => mvec 3 cam (pose_point p x) i + 0) a b
        = dehom_jac 2 (mvec 3 cam (pose_point p x)) a b).
    { intros a b. unfold dehom_jac. rewrite !Rplus_0_r. reflexivity. }
    destruct (j <? 3)%nat; unfold mmul; apply sum_ext; intros l _; rewrite ?E; [reflexivity|].
    f_equal. apply sum_ext. intros l' _. rewrite E. reflexivity.
Qed.

Lemma multi_point_deriv cam ps n x :
  (forall i, (i < n)%nat -> mvec 3 cam (pose_point (ps i) x) 2%nat <> 0) ->
  derivative_on (unit_at 3) 7 (2 * n) (multi_point cam ps) x (multi_point_jac cam ps x).
Proof.
  intros Hz. apply derivative_rows. intros r Hr.
  assert (Hi : (r / 2 < n)%nat) by (apply Nat.div_lt_upper_bound; lia).
  apply (derivative_row (unit_at 3) 7 2 (point_projection cam (ps (r / 2)%nat)) x
    (point_projection_jac cam (ps (r / 2)%nat) x) (r mod 2)).
  - apply Nat.mod_upper_bound. lia.
  - apply point_projection_deriv, Hz, Hi.
Qed.

Lemma cam_frame_affine cp p x i : unit (rot cp) -> (i < 3)%nat ->
  mvec 3 (qmat (rot cp)) (pose_point p x) i + of3 (tra cp) i = cam_frame cp p x i.
Proof.
  intros U Hi. rewrite qmat_rotate by assumption. unfold cam_frame, papp, v3add.
  idx i Hi; reflexivity.
Qed.
Lemma local_cam_frame cp p : local 7 3 (cam_frame cp p).
Proof.
  intros x y H i Hi. unfold cam_frame.
  replace (vec_of (pose_point p x) 0) with (vec_of (pose_point p y) 0); [reflexivity|].
  unfold vec_of. rewrite !(local_pose_point p x y H) by lia. reflexivity.
Qed.
Lemma cam_frame_deriv cp p x : unit (rot cp) ->
  derivative_on (unit_at 3) 7 3 (cam_frame cp p) x
    (mmul 3 (qmat (rot cp)) (motion_jac (quat_rotate_jac p (fun i => x (3 + i)%nat)))).
Proof.
  intros U.
  apply (derivative_ext _ _ _ (fun v i => mvec 3 (qmat (rot cp)) (pose_point p v) i + of3 (tra cp) i)).
  - intros v _ i Hi. apply cam_frame_affine; assumption.
  - apply (derivative_comp _ (fun _ => True) 7 3 3 (pose_point p)
      (fun u i => mvec 3 (qmat (rot cp)) u i + of3 (tra cp) i)); auto.
    + apply local_pose_point.
    + apply pose_point_deriv.
    + apply derivative_linear.
Qed.

Lemma scaled_affine_deriv c A b x :
  derivative 2 2 (fun v i => (mvec 2 A v i + b i) * c) x (mscale c A).
Proof.
  intros g e Hc _ r Hr.
  pose proof (derivative_linear (fun _ => True) 2 2 A b x g e Hc (fun _ => I) r Hr) as D.
  replace (mvec 2 (mscale c A) e r) with (mvec 2 A e r * c)
    by (unfold mvec, mscale; cbn [sum]; ring).
  set (u := fun h => mvec 2 A (at_time g h) r + b r).
  change (is_derive u 0 (mvec 2 A e r)) in D.
  apply (is_derive_ext (fun h => u h * c)); [reflexivity|].
  clearbody u. auto_derive; [eexists; exact D|].
  change (Derive (fun x => u x) 0) with (Derive u 0). rewrite (is_derive_unique _ _ _ D). ring.
Qed.

Lemma camera_projection_deriv cp ci cd p x : unit (rot cp) -> cam_frame cp p x 2%nat <> 0 ->
  derivative_on (unit_at 3) 7 2 (camera_projection cp ci cd p) x (camera_projection_jac cp ci cd p x).
Proof.
  intros U Hz.
  assert (H1 : derivative_on (unit_at 3) 7 2 (fun v => dehom 2 (cam_frame cp p v)) x
     (mmul 3 (dehom_jac 2 (cam_frame cp p x))
       (mmul 3 (qmat (rot cp)) (motion_jac (quat_rotate_jac p (fun i => x (3 + i)%nat)))))).
  { apply (derivative_comp _ (fun _ => True)); auto using local_cam_frame, cam_frame_deriv.
    apply dehom_deriv, Hz. }
  assert (L1 : local 7 2 (fun v => dehom 2 (cam_frame cp p v)))
    by (apply (local_comp 7 3 2); [apply local_cam_frame|apply local_dehom]).
  pose proof (derivative_comp (unit_at 3) (fun _ => True) 7 2 2 _ (fun u => distort u cd) x _ _ L1
    (fun _ _ => I) H1 (distort_p_deriv cd _)) as H2.
  assert (L2 : local 7 2 (fun v => distort (dehom 2 (cam_frame cp p v)) cd))
    by (apply (local_comp 7 2 2 _ (fun u => distort u cd)); [exact L1|apply local_distort]).
  pose proof (derivative_comp (unit_at 3) (fun _ => True) 7 2 2 _ _ x _ _ L2
    (fun _ _ => I) H2 (scaled_affine_deriv (ci 2%nat 2%nat) ci (fun i => ci i 2%nat) _)) as H3.
  apply (derivative_meq _ _ _ _ _ _ (camera_projection_jac cp ci cd p x)) in H3; [exact H3|].
  intros i j Hi Hj. unfold camera_projection_jac. cbv zeta.
  rewrite <- mmul_motion.
  set (M := motion_jac _). set (R0 := qmat (rot cp)). set (D := dehom_jac 2 _). set (J := distort_jac_p _ _).
  rewrite mmul_assoc, mmul_assoc.
  transitivity (mmul 2 (mmul 2 (mscale (ci 2%nat 2%nat) ci) J) (mmul 3 D (mmul 3 R0 M)) i j).
  - symmetry. apply mmul_assoc.
  - apply sum_ext. intros l _. f_equal. unfold mmul, mscale. cbn [sum]. ring.
Qed.

(** disturbed pose: e = (translation error, rotation error) *)
Definition disturbed_point (p input e : vect) : vect := fun i =>
  disturbed_rotate (fun l => input (3 + l)%nat) p (fun l => e (3 + l)%nat) i + e i + input i.
Lemma local_disturbed p input : local 6 3 (disturbed_point p input).
Proof.
  intros x y H i Hi. unfold disturbed_point, disturbed_rotate. rewrite !H by lia. reflexivity.
Qed.
Lemma disturbed_point_0 p input i : unit_at 3 input -> (i < 3)%nat ->
  disturbed_point p input (fun _ => 0) i = pose_point p input i.
Proof.
  intros U Hi. unfold disturbed_point, pose_point. rewrite qmat_rotate by assumption.
  unfold disturbed_rotate. replace (1 - _) with 1 by ring. rewrite sqrt_1.
  change (quat_of (fun l => input (3 + l)%nat) 0) with (quat_of input 3).
  replace (qmul (quat_of input 3) (Q 0 0 0 1)) with (quat_of input 3); [ring|].
  unfold qmul, quat_of. cbn [qx qy qz qw]. f_equal; ring.
Qed.
Lemma disturbed_point_deriv p input : unit_at 3 input ->
  derivative 6 3 (disturbed_point p input) (fun _ => 0)
    (motion_jac (quat_error_jac p (fun i => input (3 + i)%nat))).
Proof.
  intros U.
  exact (motion_deriv (fun _ => True) (fun _ => True) 3 (disturbed_rotate (fun l => input (3 + l)%nat) p) input
    (fun _ => 0) _ (fun _ _ => I) (quat_error_deriv (fun l => input (3 + l)%nat) p U)).
Qed.

Lemma camera_error_deriv cam b p input : unit_at 3 input ->
  mvec 3 cam (pose_point p input) 2%nat + b 2%nat <> 0 ->
  derivative 6 2 (fun e => dehom 2 (fun i => mvec 3 cam (disturbed_point p input e) i + b i)) (fun _ => 0)
    (mmul 3 (mmul 3 (dehom_jac 2 (fun i => mvec 3 cam (pose_point p input) i + b i)) cam)
            (motion_jac (quat_error_jac p (fun i => input (3 + i)%nat)))).
Proof.
  intros U Hz.
  assert (E : forall i, (i < 3)%nat -> mvec 3 cam (disturbed_point p input (fun _ => 0)) i = mvec 3 cam (pose_point p input) i).
  { intros i Hi. unfold mvec. cbn [sum]. rewrite !disturbed_point_0 by (assumption || lia). reflexivity. }
  pose proof (proj_deriv (fun _ => True) 6 cam b (disturbed_point p input) (fun _ => 0) _
    (local_disturbed p input) (disturbed_point_deriv p input U)) as H.
  rewrite E in H by lia. specialize (H Hz). revert H. apply derivative_meq.
  intros i j Hi Hj. apply sum_ext. intros l _. f_equal. apply sum_ext. intros l' _. f_equal.
  unfold dehom_jac. rewrite !E by lia. reflexivity.
Qed.

(** rotation about the centre of gravity, disturbed by a rotation vector in world coordinates *)
Definition art_disturbed (cog p input e : vect) : vect := fun i =>
  exp_rotate (art_rotated cog p input) (fun l => e (3 + l)%nat) i + e i
  + (input i + mvec 3 (qmat (from_log (vec_of input 3))) cog i).
Lemma exp_rotate_0 v i : (i < 3)%nat -> exp_rotate v (fun _ => 0) i = v i.
Proof. intros Hi. unfold exp_rotate, nsq. idx i Hi; unfold vlist; cbn [nth]; ring. Qed.
Lemma local_art cog p input : local 6 3 (art_disturbed cog p input).
Proof.
  intros x y H i Hi. unfold art_disturbed, exp_rotate, nsq. rewrite !H by lia. reflexivity.
Qed.
Lemma art_error_deriv cam cog p input : art_projected cam cog p input 2%nat <> 0 ->
  derivative 6 2 (fun e => dehom 2 (fun i => mvec 3 cam (art_disturbed cog p input e) i + cam i 3%nat))
    (fun _ => 0) (art_error_jac cam cog p input).
Proof.
  intros Hz.
  assert (D : derivative 6 3 (art_disturbed cog p input) (fun _ => 0)
     (motion_jac (lie_jac_small (art_rotated cog p input)))).
  { exact (motion_deriv (fun _ => True) (fun _ => True) 3 (exp_rotate (art_rotated cog p input)) _
      (fun _ => 0) _ (fun _ _ => I) (exp_rotate_zero_deriv _)). }
  assert (E : forall i, (i < 3)%nat -> mvec 3 cam (art_disturbed cog p input (fun _ => 0)) i + cam i 3%nat
      = art_projected cam cog p input i).
  { intros i Hi. unfold art_projected. f_equal. unfold mvec at 1 2. apply sum_ext. intros l Hl. f_equal.
    unfold art_disturbed. rewrite exp_rotate_0 by assumption. ring. }
  pose proof (proj_deriv (fun _ => True) 6 cam (fun i => cam i 3%nat) (art_disturbed cog p input) (fun _ => 0) _
    (local_art cog p input) D) as H.
  rewrite E in H by lia. specialize (H Hz). revert H. apply derivative_meq.
  intros i j Hi Hj. rewrite mmul_motion. unfold art_error_jac. fold (lie_jac_small (art_rotated cog p input)).
  assert (E' : forall a b, (a < 2)%nat -> dehom_jac 2 (fun i => mvec 3 cam (art_disturbed cog p input (fun _ => 0)) i + cam i 3%nat) a b
        = dehom_jac 2 (art_projected cam cog p input) a b).
  { intros a b Ha. unfold dehom_jac. rewrite !E by lia. reflexivity. }
  destruct (j <? 3)%nat; unfold mmul; apply sum_ext; intros l _; rewrite ?E' by assumption; [reflexivity|].
  f_equal. apply sum_ext. intros l' _. rewrite E' by assumption. reflexivity.
Qed.

(** every tangent direction of the unit sphere is the velocity of a curve on it *)
Lemma sphere_curve b (x e : vect) : unit_at b x ->
  x b * e b + x (b+1)%nat * e (b+1)%nat + x (b+2)%nat * e (b+2)%nat + x (b+3)%nat * e (b+3)%nat = 0 ->
  exists g, (forall n, curve n g x e) /\ forall h, unit_at b (at_time g h).
Proof.
  intros U T. unfold unit_at, unit, qnorm, quat_of in U. cbn [qx qy qz qw] in U.
  set (E := e b * e b + e (b+1)%nat * e (b+1)%nat + e (b+2)%nat * e (b+2)%nat + e (b+3)%nat * e (b+3)%nat).
  assert (HE : 0 <= E).
  { unfold E. pose proof (Rle_0_sqr (e b)). pose proof (Rle_0_sqr (e (b+1)%nat)).
    pose proof (Rle_0_sqr (e (b+2)%nat)). pose proof (Rle_0_sqr (e (b+3)%nat)). unfold Rsqr in *. lra. }
  (* on the quaternion scale x + h e to unit length: |x + h e|^2 = 1 + h^2 E *)
  exists (fun i h => if ((b <=? i) && (i <? b + 4))%nat then (x i + h * e i) / sqrt (1 + h * h * E) else x i + h * e i).
  split.
  - intros n i _. cbv beta. destruct ((b <=? i) && (i <? b + 4))%nat.
    + split; [rewrite !Rmult_0_l, !Rplus_0_r, sqrt_1; field|].
      auto_derive.
      * rewrite !Rmult_0_l, !Rplus_0_r, sqrt_1. repeat split; lra.
      * rewrite !Rmult_0_l, !Rplus_0_r, sqrt_1. field.
    + split; [ring|]. auto_derive; [exact I|ring].
  - intros h. unfold unit_at, unit, qnorm, quat_of, at_time. cbn [qx qy qz qw].
    assert (R0 : forall k, (k < 4)%nat -> ((b <=? b + k) && (b + k <? b + 4))%nat = true).
    { intros k Hk. apply andb_true_intro. split; [apply Nat.leb_le; lia|apply Nat.ltb_lt; lia]. }
    pose proof (R0 0%nat ltac:(lia)) as R1. rewrite Nat.add_0_r in R1.
    rewrite R1, !R0 by lia.
    assert (P : 0 < 1 + h * h * E) by (pose proof (Rmult_le_pos (h * h) E (Rle_0_sqr h) HE); lra).
    set (s := sqrt (1 + h * h * E)) in *.
    assert (S2 : s * s = 1 + h * h * E) by (apply sqrt_sqrt; lra).
    assert (s <> 0) by (intros Z; rewrite Z in S2; lra).
    apply (Rmult_eq_reg_r (s * s)); [|nra].
    transitivity (1 + h * h * E); [|lra].
    transitivity ((x b + h * e b) * (x b + h * e b) + (x (b+1)%nat + h * e (b+1)%nat) * (x (b+1)%nat + h * e (b+1)%nat)
      + (x (b+2)%nat + h * e (b+2)%nat) * (x (b+2)%nat + h * e (b+2)%nat)
      + (x (b+3)%nat + h * e (b+3)%nat) * (x (b+3)%nat + h * e (b+3)%nat)).
    + field. assumption.
    + unfold E. transitivity (1 + 2 * h * 0 + h * h * E); [|unfold E; ring].
      rewrite <- T. rewrite <- U. unfold E. ring.
Qed.
