(** Lemmas about quaternions and poses. *)
From Coq Require Import Reals Lra Lia Psatz Nsatz Bool.
From Verif Require Import Mat Quat.
Open Scope R_scope.

Ltac d3 := repeat match goal with v : vec3 |- _ => destruct v end.
Ltac d4 := repeat match goal with q : quat |- _ => destruct q end.
Ltac dp := repeat match goal with p : pose |- _ => destruct p end.

Ltac un := unfold unit, rigid, qrot, qmul, qconj, qopp, qnorm, qadd, qsub, qscale, qdot, qone,
  pone, pinv, pmul, papp, v3add, v3opp, v3scale, v3zero, dot3, cross3, mv3, det33, qmat, mk33 in *;
  cbn [qx qy qz qw vx vy vz rot tra] in *.

(** unit quaternions are closed under the operations *)
Lemma unit_one : unit qone.
Proof. un. ring. Qed.
Lemma qnorm_mul p q : qnorm (qmul p q) = qnorm p * qnorm q.
Proof. d4. un. ring. Qed.
Lemma unit_mul p q : unit p -> unit q -> unit (qmul p q).
Proof. unfold unit. intros Hp Hq. rewrite qnorm_mul, Hp, Hq. ring. Qed.
Lemma unit_conj q : unit q -> unit (qconj q).
Proof. d4. un. intros H. rewrite <- H. ring. Qed.
Lemma unit_opp q : unit q -> unit (qopp q).
Proof. d4. un. intros H. rewrite <- H. ring. Qed.
Lemma rigid_mul p q : rigid p -> rigid q -> rigid (pmul p q).
Proof. apply unit_mul. Qed.
Lemma rigid_inv p : rigid p -> rigid (pinv p).
Proof. apply unit_conj. Qed.

Lemma qmul_assoc p q r : qmul p (qmul q r) = qmul (qmul p q) r.
Proof. d4. un. f_equal; ring. Qed.
Lemma qmul_one_l q : qmul qone q = q.
Proof. d4. un. f_equal; ring. Qed.
Lemma qmul_one_r q : qmul q qone = q.
Proof. d4. un. f_equal; ring. Qed.
Lemma qmul_conj_r q : unit q -> qmul q (qconj q) = qone.
Proof. d4. un. intros H. f_equal; try ring. rewrite <- H. ring. Qed.
Lemma qmul_conj_l q : unit q -> qmul (qconj q) q = qone.
Proof. d4. un. intros H. f_equal; try ring. rewrite <- H. ring. Qed.

(** the standard conjugation q v q*, as a specification of rotation *)
Definition imag (v : vec3) : quat := Q (vx v) (vy v) (vz v) 0.
Lemma qrot_conjugation q v : unit q -> imag (qrot q v) = qmul (qmul q (imag v)) (qconj q).
Proof. d4; d3. unfold imag. un. intros H. f_equal; nsatz. Qed.

Lemma qrot_mul p q v : unit p -> unit q -> qrot (qmul p q) v = qrot p (qrot q v).
Proof. d4; d3. un. intros Hp Hq. f_equal; nsatz. Qed.

Lemma qrot_one v : qrot qone v = v.
Proof. d3. un. f_equal; ring. Qed.

Lemma qrot_add q a b : qrot q (v3add a b) = v3add (qrot q a) (qrot q b).
Proof. d4; d3. un. f_equal; ring. Qed.
Lemma qrot_opp q a : qrot q (v3opp a) = v3opp (qrot q a).
Proof. d4; d3. un. f_equal; ring. Qed.
Lemma qrot_scale q c a : qrot q (v3scale c a) = v3scale c (qrot q a).
Proof. d4; d3. un. f_equal; ring. Qed.
Lemma qrot_qopp q v : qrot (qopp q) v = qrot q v.
Proof. d4; d3. un. f_equal; ring. Qed.

Lemma v3add_assoc a b c : v3add a (v3add b c) = v3add (v3add a b) c.
Proof. d3. un. f_equal; ring. Qed.
Lemma v3add_comm a b : v3add a b = v3add b a.
Proof. d3. un. f_equal; ring. Qed.
Lemma v3add_zero a : v3add a v3zero = a.
Proof. d3. un. f_equal; ring. Qed.
Lemma v3add_opp a : v3add a (v3opp a) = v3zero.
Proof. d3. un. f_equal; ring. Qed.

Lemma qrot_conj_l q v : unit q -> qrot (qconj q) (qrot q v) = v.
Proof.
  intros H. rewrite <- qrot_mul by (try apply unit_conj; exact H).
  rewrite qmul_conj_l by exact H. apply qrot_one.
Qed.
Lemma qrot_conj_r q v : unit q -> qrot q (qrot (qconj q) v) = v.
Proof.
  intros H. rewrite <- qrot_mul by (try apply unit_conj; exact H).
  rewrite qmul_conj_r by exact H. apply qrot_one.
Qed.

(** ** Poses *)
Lemma papp_mul p q x : rigid p -> rigid q -> papp (pmul p q) x = papp p (papp q x).
Proof.
  intros Hp Hq. unfold papp, pmul; cbn [rot tra].
  rewrite qrot_mul by assumption. rewrite qrot_add, v3add_assoc. reflexivity.
Qed.

Lemma pmul_assoc p q r : rigid p -> rigid q -> rigid r -> pmul p (pmul q r) = pmul (pmul p q) r.
Proof.
  intros Hp Hq Hr. unfold pmul; cbn [rot tra]. rewrite qmul_assoc, qrot_add, qrot_mul by assumption.
  rewrite v3add_assoc. reflexivity.
Qed.

Lemma pmul_one_l p : pmul pone p = p.
Proof. destruct p as [q t]. unfold pmul, pone; cbn [rot tra]. rewrite qmul_one_l, qrot_one, v3add_zero. reflexivity. Qed.
Lemma pmul_one_r p : pmul p pone = p.
Proof.
  destruct p as [q t]. unfold pmul, pone; cbn [rot tra]. rewrite qmul_one_r. f_equal.
  rewrite v3add_comm. destruct q, t. un. f_equal; ring.
Qed.
Lemma papp_one x : papp pone x = x.
Proof. unfold papp, pone; cbn [rot tra]. rewrite qrot_one. apply v3add_zero. Qed.

Lemma pmul_inv_r p : rigid p -> pmul p (pinv p) = pone.
Proof.
  intros H. unfold pmul, pinv, pone; cbn [rot tra].
  rewrite qmul_conj_r by exact H. f_equal.
  rewrite qrot_opp, qrot_conj_r by exact H. rewrite v3add_comm. apply v3add_opp.
Qed.
Lemma pmul_inv_l p : rigid p -> pmul (pinv p) p = pone.
Proof.
  intros H. unfold pmul, pinv, pone; cbn [rot tra].
  rewrite qmul_conj_l by exact H. f_equal. apply v3add_opp.
Qed.
Lemma pinv_inv p : rigid p -> pinv (pinv p) = p.
Proof.
  intros H. destruct p as [q t]. unfold pinv; cbn [rot tra] in *.
  replace (qconj (qconj q)) with q by (destruct q; un; f_equal; ring).
  rewrite qrot_opp, qrot_conj_r by exact H. f_equal. destruct t; un; f_equal; ring.
Qed.
Lemma pinv_mul p q : rigid p -> rigid q -> pinv (pmul p q) = pmul (pinv q) (pinv p).
Proof.
  intros Hp Hq.
  assert (Hr : rigid (pmul p q)) by (apply rigid_mul; assumption).
  assert (Hi : rigid (pmul (pinv q) (pinv p))) by (apply rigid_mul; apply rigid_inv; assumption).
  rewrite <- (pmul_one_l (pmul (pinv q) (pinv p))), <- (pmul_inv_l _ Hr).
  assert (E : pmul (pmul p q) (pmul (pinv q) (pinv p)) = pone).
  { rewrite <- pmul_assoc; try assumption.
    rewrite (pmul_assoc q); try assumption; try (apply rigid_inv; assumption).
    rewrite pmul_inv_r, pmul_one_l by exact Hq. apply pmul_inv_r. exact Hp. }
  rewrite <- pmul_assoc; try assumption; try (apply rigid_inv; assumption).
  rewrite E. symmetry. apply pmul_one_r.
Qed.

(** ** Rigid rotation *)
Lemma qrot_dot q a b : unit q -> dot3 (qrot q a) (qrot q b) = dot3 a b.
Proof. d4; d3. un. intros H. nsatz. Qed.
Lemma qrot_cross q a b : unit q -> qrot q (cross3 a b) = cross3 (qrot q a) (qrot q b).
Proof. d4; d3. un. intros H. f_equal; nsatz. Qed.
Lemma qrot_mat q v : unit q -> qrot q v = mv3 (qmat q) v.
Proof. d4; d3. un. intros H. f_equal; nsatz. Qed.

Lemma qmat_mul p q : unit p -> unit q -> meq 3 3 (qmat (qmul p q)) (mmul 3 (qmat p) (qmat q)).
Proof.
  d4. un. intros Hp Hq i j Hi Hj. unfold mmul. cbn [sum].
  idx i Hi; idx j Hj; cbn; nsatz.
Qed.

Lemma qmat_rotation q : unit q -> rotation (qmat q).
Proof.
  d4. un. intros H. split; [|split].
  - intros i j Hi Hj. unfold mmul, tr, eye. cbn [sum]. idx i Hi; idx j Hj; cbn; nsatz.
  - intros i j Hi Hj. unfold mmul, tr, eye. cbn [sum]. idx i Hi; idx j Hj; cbn; nsatz.
  - un. nsatz.
Qed.
