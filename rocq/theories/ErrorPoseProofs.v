From Coq Require Import Reals Lra Lia Psatz Nsatz Bool List.
Import ListNotations.
From Coquelicot Require Import Coquelicot.
From Verif Require Import Mat Quat QuatProofs CovTransform CovTransformProofs ErrorPose.
Open Scope R_scope.

Definition wfun (e : vect) (h : R) : R := sqrt (1 - rot2 (vscale h e)).
Lemma w_zero e : wfun e 0 = 1.
Proof.
  unfold wfun, rot2, vscale. rewrite !Rmult_0_l, !Rplus_0_l, Rminus_0_r. apply sqrt_1.
Qed.
Lemma w_derive e : is_derive (wfun e) 0 0.
Proof.
  unfold wfun, rot2, vscale.
  auto_derive.
  - rewrite !Rmult_0_l. lra.
  - ring.
Qed.
Lemma perturb_w p e h : perturb p (vscale h e) =
  P (qmul (rot p) (Q (h * e 3%nat) (h * e 4%nat) (h * e 5%nat) (wfun e h)))
    (v3add (tra p) (V3 (h * e 0%nat) (h * e 1%nat) (h * e 2%nat))).
Proof. reflexivity. Qed.

Ltac curve e w Hw0 Hex HD :=
  pose proof (w_zero e) as Hw0;
  assert (Hex : ex_derive (wfun e) 0) by (eexists; apply w_derive);
  assert (HD : Derive (wfun e) 0 = 0) by (apply is_derive_unique, w_derive);
  set (w := wfun e) in *; clearbody w.

Ltac hex := repeat split; assumption.

Ltac unit_ring :=
  first [ring | match goal with
  | H : ?x * ?x + ?y * ?y + ?z * ?z + ?w * ?w = 1, H' : ?x' * ?x' + ?y' * ?y' + ?z' * ?z' + ?w' * ?w' = 1 |- _ =>
     let E := fresh in assert (E : w * w = 1 - x * x - y * y - z * z) by lra;
     let E' := fresh in assert (E' : w' * w' = 1 - x' * x' - y' * y' - z' * z') by lra;
     first [ring [E] | ring [E'] | ring [E E']]
  | H : ?x * ?x + ?y * ?y + ?z * ?z + ?w * ?w = 1 |- _ =>
     let E := fresh in assert (E : w * w = 1 - x * x - y * y - z * z) by lra; ring [E]
  end].
Ltac jac_tac w HD Hw0 :=
   auto_derive; [hex | change (Derive (fun x => w x) 0) with (Derive w 0); rewrite ?HD, ?Hw0; clear HD Hw0; unit_ring].

Lemma qconj_mul' p q : qconj (qmul p q) = qmul (qconj q) (qconj p).
Proof. d4. un. f_equal; ring. Qed.
Lemma qconj_conj q : qconj (qconj q) = q.
Proof. d4. un. f_equal; ring. Qed.
Lemma dq_right p q r : unit p -> unit q ->
  qmul (qconj (qmul p q)) (qmul p (qmul q r)) = r.
Proof.
  intros Hp Hq. rewrite qconj_mul', <- (qmul_assoc (qconj q)), (qmul_assoc (qconj p)).
  rewrite (qmul_conj_l p Hp), qmul_one_l, qmul_assoc, (qmul_conj_l q Hq). apply qmul_one_l.
Qed.
Lemma dq_left p q r : unit p ->
  qmul (qconj (qmul p q)) (qmul (qmul p r) q) = qmul (qconj q) (qmul r q).
Proof.
  intros Hp. rewrite qconj_mul', <- (qmul_assoc (qconj q)), <- (qmul_assoc p), (qmul_assoc (qconj p)).
  rewrite (qmul_conj_l p Hp), qmul_one_l. reflexivity.
Qed.
Lemma dq_inv q r : qmul (qconj (qconj q)) (qconj (qmul q r)) = qmul q (qmul (qconj r) (qconj q)).
Proof. rewrite qconj_conj, qconj_mul'. reflexivity. Qed.

Lemma mul_jac_right p1 p2 e i : (i < 6)%nat -> rigid p1 -> rigid p2 ->
  is_derive (fun h => pose_error (pmul p1 p2) (pmul p1 (perturb p2 (vscale h e))) i) 0
    (mvec 6 (mul_jac2 p1 p2) e i).
Proof.
  intros Hi H1 H2.
  apply is_derive_ext with (fun h => pose_error (pmul p1 p2) (pmul p1 
    (P (qmul (rot p2) (Q (h * e 3%nat) (h * e 4%nat) (h * e 5%nat) (wfun e h)))
    (v3add (tra p2) (V3 (h * e 0%nat) (h * e 1%nat) (h * e 2%nat))))) i).
  { intros t. rewrite perturb_w. reflexivity. }
  curve e w Hw0 Hex HD.
  destruct p1 as [q1 t1], p2 as [q2 t2]. d4; d3.
  unfold pose_error, vlist, rigid in *. cbn [rot tra pmul] in *.
  eapply is_derive_ext; [intros t; rewrite (dq_right _ _ _ H1 H2); reflexivity|].
  un.
  idx i Hi; cbn -[Rmult Rplus Ropp Rminus mul_jac2];
   unfold mul_jac2, mvec, mlist; cbn -[Rmult Rplus Ropp Rminus];
   jac_tac w HD Hw0.
Qed.

Lemma mul_jac_left p1 p2 e i : (i < 6)%nat -> rigid p1 -> rigid p2 ->
  is_derive (fun h => pose_error (pmul p1 p2) (pmul (perturb p1 (vscale h e)) p2) i) 0
    (mvec 6 (mul_jac1 p1 p2) e i).
Proof.
  intros Hi H1 H2.
  apply is_derive_ext with (fun h => pose_error (pmul p1 p2) (pmul 
    (P (qmul (rot p1) (Q (h * e 3%nat) (h * e 4%nat) (h * e 5%nat) (wfun e h)))
    (v3add (tra p1) (V3 (h * e 0%nat) (h * e 1%nat) (h * e 2%nat)))) p2) i).
  { intros t. rewrite perturb_w. reflexivity. }
  curve e w Hw0 Hex HD.
  destruct p1 as [q1 t1], p2 as [q2 t2]. d4; d3.
  unfold pose_error, vlist, rigid in *. cbn [rot tra pmul] in *.
  eapply is_derive_ext; [intros t; rewrite (dq_left _ _ _ H1); reflexivity|].
  un.
  idx i Hi; cbn -[Rmult Rplus Ropp Rminus mul_jac1];
   unfold mul_jac1, mvec, mlist; cbn -[Rmult Rplus Ropp Rminus];
   jac_tac w HD Hw0.
Qed.

Lemma vec_jac_right p v e i : (i < 3)%nat -> rigid p ->
  is_derive (fun h => vec_of3 (papp (perturb p (vscale h e)) v) i) 0 (mvec 6 (vec_jac p v) e i).
Proof.
  intros Hi H1.
  apply is_derive_ext with (fun h => vec_of3 (papp 
    (P (qmul (rot p) (Q (h * e 3%nat) (h * e 4%nat) (h * e 5%nat) (wfun e h)))
    (v3add (tra p) (V3 (h * e 0%nat) (h * e 1%nat) (h * e 2%nat)))) v) i).
  { intros t. rewrite perturb_w. reflexivity. }
  curve e w Hw0 Hex HD.
  destruct p as [q1 t1]. d4; d3.
  unfold vec_of3, vlist, rigid in *. un. 
  idx i Hi; cbn -[Rmult Rplus Ropp Rminus vec_jac];
   unfold vec_jac, mvec, mlist; cbn -[Rmult Rplus Ropp Rminus];
   jac_tac w HD Hw0.
Qed.

(** the derivative of the inverse: the code's rows 0-2, the negative of its rows 3-5 *)
Lemma inv_jac_derive p e i : (i < 6)%nat -> rigid p ->
  is_derive (fun h => pose_error (pinv p) (pinv (perturb p (vscale h e))) i) 0
    (if Nat.ltb i 3 then mvec 6 (inv_jac p) e i else - mvec 6 (inv_jac p) e i).
Proof.
  intros Hi H1.
  apply is_derive_ext with (fun h => pose_error (pinv p) (pinv 
    (P (qmul (rot p) (Q (h * e 3%nat) (h * e 4%nat) (h * e 5%nat) (wfun e h)))
    (v3add (tra p) (V3 (h * e 0%nat) (h * e 1%nat) (h * e 2%nat))))) i).
  { intros t. rewrite perturb_w. reflexivity. }
  curve e w Hw0 Hex HD.
  destruct p as [q1 t1]. d4; d3.
  unfold pose_error, vlist, rigid in *. cbn [rot tra pinv] in *.
  eapply is_derive_ext; [intros t; rewrite dq_inv; reflexivity|].
  un.
  idx i Hi; cbn -[Rmult Rplus Ropp Rminus inv_jac];
   unfold inv_jac, mvec, mlist; cbn -[Rmult Rplus Ropp Rminus];
   jac_tac w HD Hw0.
Qed.

(** ** The Jacobians as linear maps on pairs of 3-vectors *)
Definition et (e : vect) : vec3 := V3 (e 0%nat) (e 1%nat) (e 2%nat).
Definition er (e : vect) : vec3 := V3 (e 3%nat) (e 4%nat) (e 5%nat).
Definition cat6 (a b : vec3) : vect := vlist [vx a; vy a; vz a; vx b; vy b; vz b].

Ltac app_tac J i Hi :=
  dp; d4; d3; unfold rigid in *; un; unfold cat6, vlist, et, er;
  idx i Hi; unfold J, mvec, mlist; cbn -[Rmult Rplus Ropp Rminus]; unit_ring.

Lemma mul_jac1_app p1 p2 e i : (i < 6)%nat -> rigid p1 -> rigid p2 ->
  mvec 6 (mul_jac1 p1 p2) e i =
  cat6 (v3add (et e) (v3scale 2 (qrot (rot p1) (cross3 (er e) (tra p2))))) (qrot (qconj (rot p2)) (er e)) i.
Proof. intros Hi H1 H2. app_tac mul_jac1 i Hi. Qed.

Lemma mul_jac2_app p1 p2 e i : (i < 6)%nat -> rigid p1 ->
  mvec 6 (mul_jac2 p1 p2) e i = cat6 (qrot (rot p1) (et e)) (er e) i.
Proof. intros Hi H1. app_tac mul_jac2 i Hi. Qed.

Lemma inv_jac_app p e i : (i < 6)%nat -> rigid p ->
  mvec 6 (inv_jac p) e i =
  cat6 (v3add (v3opp (qrot (qconj (rot p)) (et e))) (v3scale 2 (cross3 (er e) (qrot (qconj (rot p)) (tra p)))))
       (qrot (rot p) (er e)) i.
Proof. intros Hi H1. app_tac inv_jac i Hi. Qed.

Lemma vec_jac_app p v e i : (i < 3)%nat -> rigid p ->
  mvec 6 (vec_jac p v) e i =
  vec_of3 (v3add (et e) (v3scale 2 (qrot (rot p) (cross3 (er e) v)))) i.
Proof.
  intros Hi H1. dp; d4; d3; unfold rigid in *; un; unfold vec_of3, vlist, et, er;
  idx i Hi; unfold vec_jac, mvec, mlist; cbn -[Rmult Rplus Ropp Rminus]; unit_ring.
Qed.

Lemma et_cat a b : et (cat6 a b) = a.
Proof. destruct a; reflexivity. Qed.
Lemma er_cat a b : er (cat6 a b) = b.
Proof. destruct b; reflexivity. Qed.

(** a 6-column matrix is determined by its action *)
Lemma mvec_eye_col n A i j : (j < n)%nat -> mvec n A (fun l => eye l j) i = A i j.
Proof. intros Hj. apply (mmul_eye_r n A i j Hj). Qed.
Lemma mat_ext_app m n A B : (forall e, veq m (mvec n A e) (mvec n B e)) -> meq m n A B.
Proof.
  intros H i j Hi Hj. rewrite <- (mvec_eye_col n A i j Hj), <- (mvec_eye_col n B i j Hj). apply H, Hi.
Qed.
Lemma et_ext x y : veq 6 x y -> et x = et y.
Proof. intros H. unfold et. rewrite !H by lia. reflexivity. Qed.
Lemma er_ext x y : veq 6 x y -> er x = er y.
Proof. intros H. unfold er. rewrite !H by lia. reflexivity. Qed.
