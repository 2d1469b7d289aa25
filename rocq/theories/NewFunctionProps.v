(** Composable functions and their Jacobians (C119 - C123). *)
From Coq Require Import Reals List Arith Bool Lra Lia.
Import ListNotations.
From Coquelicot Require Import Coquelicot.
From Verif Require Import Mat Quat QuatProofs QuatTrigProofs Jacobians JacobiansProofs JacobiansProps NewFunction NewFunctionProofs.
Open Scope R_scope.

(** * Evaluation *)

(** evaluate, and the evaluation part of evaluateWithJacobian, compute the composition, whatever an
    earlier call has left in the cached results *)
Theorem evaluate_composes g p : fst (evaluate g p) = meaning g p [].
Proof. apply (proj1 (proj1 (evaluate_ok p) g [])). Qed.

Lemma current_unique p :
  (forall g g', current p g -> current p g' -> shape g = shape g' -> g = g') /\
  (forall q q', pcurrent p q -> pcurrent p q' -> pshape q = pshape q' -> q = q').
Proof.
  apply expr_ind.
  - intros f [f'|] _ _ H; [exact H|discriminate].
  - intros g IHg q IHq f' (Cg & Cq) C' H. destruct f' as [|g' q']; [discriminate|]. destruct C' as (Cg' & Cq').
    cbn in H. injection H as H1 H2.
    rewrite (IHg g'), (IHq q') by assumption. reflexivity.
  - intros s n [] _ _ H; cbn in H; try discriminate; exact H.
  - intros n v [] _ _ H; cbn in H; try discriminate; exact H.
  - intros g IHg m q' (C & E) C2 H. destruct q' as [| |g' m']; cbn in H; try discriminate. destruct C2 as (C' & E').
    injection H as H.
    rewrite E, E'. rewrite (IHg g' C C' H). reflexivity.
Qed.

(** the three entry points agree, and none of them depends on earlier calls: two expressions that
    differ in cached results only give the same value and the same Jacobian *)
Theorem calls_independent junk g g' p j : shape g = shape g' ->
  fst (evaluate g p) = fst (evaluate g' p) /\ fst (jacobian junk g p j) = fst (jacobian junk g' p j) /\
  evaluate_with_jacobian junk g p j = evaluate_with_jacobian junk g' p j /\
  evaluate_with_jacobian junk g p j = (fst (evaluate g p), fst (jacobian junk g p j), snd (evaluate g p)).
Proof.
  intros H.
  assert (M : fst (evaluate g p) = fst (evaluate g' p)).
  { rewrite !evaluate_composes. rewrite <- (proj1 (proj1 shape_ok g)), H. apply (proj1 shape_ok). }
  destruct (proj1 (evaluate_ok p) g []) as (_ & C & S). destruct (proj1 (evaluate_ok p) g' []) as (_ & C' & S').
  destruct (parameters_ok p g) as (D & T). destruct (parameters_ok p g') as (D' & T').
  assert (E1 : evaluate_parameters g p = evaluate_parameters g' p) by (apply (current_unique p); congruence).
  assert (E2 : snd (i_evaluate g p []) = snd (i_evaluate g' p [])) by (apply (current_unique p); congruence).
  assert (E3 : snd (i_evaluate g p []) = evaluate_parameters g p) by (apply (current_unique p); congruence).
  split; [exact M|]. split; [unfold jacobian; rewrite E1; reflexivity|].
  assert (W : forall f, evaluate_with_jacobian junk f p j =
    (fst (i_evaluate f p []), multiply (snd (i_evaluate f p [])) p (fsize (snd (i_evaluate f p []))) junk eye j [], snd (i_evaluate f p []))).
  { intros f. unfold evaluate_with_jacobian. destruct (i_evaluate f p []); reflexivity. }
  rewrite !W. unfold evaluate in M. split.
  - rewrite E2, M. reflexivity.
  - unfold jacobian, evaluate. cbn [fst]. rewrite E3. reflexivity.
Qed.

(** * The Jacobian *)

Lemma smooth_shape rows p :
  (forall g args, smooth rows (shape g) p args <-> smooth rows g p args) /\
  (forall q, smooth_p rows (pshape q) p <-> smooth_p rows q p).
Proof.
  apply expr_ind; cbn [shape pshape smooth smooth_p]; try tauto; [|intros g IH m; apply IH].
  intros g IHg q IHq args.
  rewrite IHq, IHg, (proj1 (proj2 (proj2 shape_ok q))), (proj1 (proj2 shape_ok q)).
  assert (E : (exists f, shape g = Base f) <-> (exists f, g = Base f)).
  { destruct g; cbn; split; intros [f' H]; try discriminate; exists f'; exact H. }
  rewrite E. tauto.
Qed.
Lemma eye_rows n D r c : (r < n)%nat -> mmul n eye D r c = D r c.
Proof. intros H. apply (mmul_eye_l n). exact H. Qed.

(** If every function keeps its contract at the point in question and no element of the parameter
    vector is used twice, the Jacobian is the derivative of the composition in the columns of the
    parameters that occur; other columns are left alone (their derivative is zero). *)
Theorem expression_jacobian junk g p j N :
  smooth (fsize g) g p [] -> NoDup (columns g) -> (forall c, In c (columns g) -> (c < N)%nat) ->
  exists D, derivative N (fsize g) (fun x => meaning g x []) p D /\
  forall r c, (r < fsize g)%nat ->
    (In c (columns g) -> fst (jacobian junk g p j) r c = D r c) /\
    (~ In c (columns g) -> fst (jacobian junk g p j) r c = j r c /\ D r c = 0).
Proof.
  intros HS ND LT. destruct (parameters_ok p g) as (C & S).
  set (g' := evaluate_parameters g p) in *.
  assert (Z : fsize g' = fsize g).
  { rewrite <- (proj1 (proj2 (proj1 shape_ok g'))), S. apply (proj1 shape_ok). }
  assert (Cl : columns g' = columns g).
  { rewrite <- (proj1 (proj2 (proj2 (proj1 shape_ok g')))), S. apply (proj1 shape_ok). }
  assert (M : forall x args, meaning g' x args = meaning g x args).
  { intros. rewrite <- (proj1 (proj1 shape_ok g')), S. apply (proj1 shape_ok). }
  destruct (proj1 (chain (fsize g) N junk p) g' []) as (D & Js & _ & HD & _ & HM & HZ); try rewrite Cl; try assumption.
  { apply (smooth_shape (fsize g) p). rewrite S. apply (smooth_shape (fsize g) p). exact HS. }
  exists D. split.
  - intros x e Hx _ r Hr. rewrite <- Z in Hr. destruct (HD x e [] [] Hx I r Hr) as [_ H].
    cbn [total] in H. rewrite Rplus_0_r in H. eapply is_derive_ext; [|exact H]. intros t. cbn [at_times map]. rewrite M. reflexivity.
  - intros r c Hr. unfold jacobian. fold g'. cbn [fst]. rewrite Z. change (@nil vect) with (map (@snd nat vect) []).
    rewrite HM by exact Hr. rewrite Cl, Z, eye_rows by exact Hr. split; intros Hc.
    + unfold covered. destruct (in_dec _ c _); [reflexivity|contradiction].
    + assert (E : covered (columns g) c = false) by (unfold covered; destruct (in_dec _ c _); [contradiction|reflexivity]).
      rewrite E. split; [reflexivity|]. apply HZ. rewrite Cl. exact E.
Qed.
(** into a matrix of zeros: the derivative with respect to the whole parameter vector *)
Theorem expression_jacobian_zero junk g p N :
  smooth (fsize g) g p [] -> NoDup (columns g) -> (forall c, In c (columns g) -> (c < N)%nat) ->
  derivative N (fsize g) (fun x => meaning g x []) p (fst (jacobian junk g p mzero)).
Proof.
  intros HS ND LT. destruct (expression_jacobian junk g p mzero N HS ND LT) as (D & HD & HJ).
  apply (derivative_meq _ _ _ _ _ D); [|exact HD]. intros r c Hr Hc.
  destruct (HJ r c Hr) as (H1 & H2). destruct (in_dec Nat.eq_dec c (columns g)) as [I|I].
  - symmetry. apply H1, I.
  - destruct (H2 I) as (-> & ->). reflexivity.
Qed.

(** * Contracts of the functions *)
Lemma mvec_eye_at n e i : (i < n)%nat -> mvec n eye e i = e i.
Proof. intros H. apply (mvec_eye n e i H). Qed.

Theorem addition_contract rows n v w : contract rows (addition n) [(n, v); (n, w)].
Proof.
  exists [eye; eye]. split; [reflexivity|]. split.
  - intros [|g1 [|g2 [|]]] [|e1 [|e2 [|]]] H; cbn in H; try tauto. destruct H as (H1 & H2 & _). intros i Hi.
    cbn in Hi. cbn [total]. rewrite !mvec_eye_at by exact Hi. destruct (H1 i Hi) as [Z1 D1]. destruct (H2 i Hi) as [Z2 D2].
    split; [cbn; unfold vadd, at_time; rewrite Z1, Z2; reflexivity|].
    replace (e1 i + (e2 i + 0)) with (plus (e1 i) (e2 i)) by (unfold plus; cbn; ring).
    apply (is_derive_plus (g1 i) (g2 i)); assumption.
  - intros [|[|k]] m x J l junk H1 H2; cbn in H1, H2; try (destruct k; discriminate);
      injection H1 as <- <-; injection H2 as <-; intros r c Hr Hc; cbn; symmetry; apply (mmul_eye_r n); exact Hc.
Qed.
Theorem subtraction_contract rows n v w : contract rows (subtraction n) [(n, v); (n, w)].
Proof.
  exists [eye; mscale (-1) eye]. split; [reflexivity|]. split.
  - intros [|g1 [|g2 [|]]] [|e1 [|e2 [|]]] H; cbn in H; try tauto. destruct H as (H1 & H2 & _). intros i Hi.
    cbn in Hi. cbn [total]. rewrite mvec_eye_at by exact Hi. destruct (H1 i Hi) as [Z1 D1]. destruct (H2 i Hi) as [Z2 D2].
    split; [cbn; unfold vsub, at_time; rewrite Z1, Z2; reflexivity|].
    replace (e1 i + (mvec n (mscale (-1) eye) e2 i + 0)) with (minus (e1 i) (e2 i)).
    + apply (is_derive_minus (g1 i) (g2 i)); assumption.
    + rewrite <- (mvec_eye_at n e2 i Hi). unfold mvec, mscale.
      rewrite (sum_ext n (fun k => -1 * eye i k * e2 k) (fun k => -1 * (eye i k * e2 k))) by (intros; ring).
      rewrite sum_scal_l. unfold minus, plus, opp; cbn. ring.
  - intros [|[|k]] m x J l junk H1 H2; cbn in H1, H2; try (destruct k; discriminate);
      injection H1 as <- <-; injection H2 as <-; intros r c Hr Hc; cbn.
    + symmetry; apply (mmul_eye_r n); exact Hc.
    + unfold mmul, mscale. rewrite (sum_ext n (fun k => l r k * (-1 * eye k c)) (fun k => -1 * (l r k * eye k c))) by (intros; ring).
      rewrite sum_scal_l. f_equal. symmetry; apply (mmul_eye_r n); exact Hc.
Qed.
Theorem linear_contract rows m n A v : contract rows (linear_transformation m n A) ((n, v) :: nil).
Proof.
  exists (A :: nil). split; [reflexivity|]. split.
  - intros [|g [|]] [|e [|]] H; cbn in H; try tauto. destruct H as (H & _). intros i Hi. cbn [total]. split.
    + cbn. apply sum_ext. intros k Hk. unfold at_time. rewrite (proj1 (H k Hk)). reflexivity.
    + rewrite Rplus_0_r. cbn. unfold mvec, at_time. apply is_derive_sum. intros k Hk.
      apply (is_derive_scal (g k) 0 (A i k)). apply (proj2 (H k Hk)).
  - intros [|k] x y J l junk H1 H2; cbn in H1, H2; try (destruct k; discriminate).
    injection H1 as <- <-; injection H2 as <-. intros r c Hr Hc. reflexivity.
Qed.
Theorem store_contract rows n v : contract rows (store_intermediate n) ((n, v) :: nil).
Proof.
  exists (eye :: nil). split; [reflexivity|]. split.
  - intros [|g [|]] [|e [|]] H; cbn in H; try tauto. destruct H as (H & _). intros i Hi. cbn in Hi. cbn [total].
    rewrite mvec_eye_at, Rplus_0_r by exact Hi. exact (H i Hi).
  - intros [|k] x y J l junk H1 H2; cbn in H1, H2; try (destruct k; discriminate).
    injection H1 as <- <-; injection H2 as <-. intros r c Hr Hc. symmetry. apply (mmul_eye_r n). exact Hc.
Qed.
(** divides by the last element *)
Theorem dehomogenization_contract rows n v : v n <> 0 -> contract rows (dehomogenization n) ((S n, v) :: nil).
Proof.
  intros Hv. exists ((fun i c => if (c =? n)%nat then - v i / (v n * v n) else if (c =? i)%nat then / v n else 0) :: nil).
  split; [reflexivity|]. split.
  - intros [|g [|]] [|e [|]] H; cbn in H; try tauto. destruct H as (H & _). intros i Hi. cbn in Hi. cbn [total].
    destruct (H i ltac:(lia)) as [Zi Di]. destruct (H n ltac:(lia)) as [Zn Dn]. split.
    + cbn. unfold at_time, arg; cbn. rewrite Zi, Zn. reflexivity.
    + rewrite Rplus_0_r. unfold mvec. cbn [sum]. rewrite Nat.eqb_refl. rewrite (sum_single n _ i Hi).
      * replace (i =? n)%nat with false by (symmetry; apply Nat.eqb_neq; lia). rewrite Nat.eqb_refl.
        cbn. unfold at_time, arg; cbn.
        assert (X : ex_derive (g i) 0) by (eexists; exact Di). assert (Y : ex_derive (g n) 0) by (eexists; exact Dn).
        auto_derive; [repeat split; try assumption; rewrite Zn; exact Hv|].
        rewrite (is_derive_unique (fun x : R => g i x) 0 _ Di), (is_derive_unique (fun x : R => g n x) 0 _ Dn), Zi, Zn. field. exact Hv.
      * intros k Hk Hn. replace (k =? n)%nat with false by (symmetry; apply Nat.eqb_neq; lia).
        replace (k =? i)%nat with false by (symmetry; apply Nat.eqb_neq; lia). ring.
  - intros [|k] x y J l junk H1 H2; cbn in H1, H2; try (destruct k; discriminate).
    injection H1 as <- <-; injection H2 as <-. intros r c Hr Hc. cbn. unfold mmul, arg. cbn.
    destruct (c =? n)%nat eqn:E.
    + unfold vdot. rewrite Ropp_mult_distr_l_reverse, <- Ropp_mult_distr_r_reverse, <- sum_scal_r. apply sum_ext. intros k _. field. exact Hv.
    + apply Nat.eqb_neq in E. rewrite (sum_single n _ c); [|lia|].
      * rewrite Nat.eqb_refl. field. exact Hv.
      * intros k Hk Hkc. replace (c =? k)%nat with false by (symmetry; apply Nat.eqb_neq; lia). ring.
Qed.
(** the norm of a nonzero vector, for a left-hand side of one row *)
Theorem norm_contract m v : 0 < vdot m v v -> contract 1 (vector_norm m) ((m, v) :: nil).
Proof.
  intros Hv. assert (Hs : 0 < sqrt (vdot m v v)) by (apply sqrt_lt_R0, Hv).
  exists ((fun _ c => v c / sqrt (vdot m v v)) :: nil). split; [reflexivity|]. split.
  - intros [|g [|]] [|e [|]] H; cbn in H; try tauto. destruct H as (H & _). intros i Hi. cbn in Hi. cbn [total].
    assert (Z : vdot m (at_time g 0) (at_time g 0) = vdot m v v).
    { unfold vdot, at_time. apply sum_ext. intros k Hk. rewrite (proj1 (H k Hk)). reflexivity. }
    split; [cbn; unfold arg; cbn; rewrite Z; reflexivity|].
    rewrite Rplus_0_r. cbn. unfold arg. cbn.
    assert (D : is_derive (fun h => vdot m (at_time g h) (at_time g h)) 0 (2 * vdot m v e)).
    { unfold vdot, at_time. rewrite <- sum_scal_l. apply is_derive_sum. intros k Hk. destruct (H k Hk) as [Zk Dk].
      assert (X : ex_derive (g k) 0) by (eexists; exact Dk). auto_derive; [repeat split; assumption|].
      rewrite (is_derive_unique (fun x : R => g k x) 0 _ Dk), Zk. ring. }
    replace (mvec m _ e i) with (scal (2 * vdot m v e) (/ (2 * sqrt (vdot m v v)))).
    + apply (is_derive_comp sqrt (fun h => vdot m (at_time g h) (at_time g h))); [|exact D]. rewrite Z.
      auto_derive; [exact Hv|]. field. lra.
    + unfold mvec, scal; cbn. unfold mult; cbn. unfold vdot.
      rewrite (sum_ext m (fun k => v k / sqrt (sum m (fun k => v k * v k)) * e k) (fun k => v k * e k * / sqrt (sum m (fun k => v k * v k)))) by (intros; unfold Rdiv; ring).
      rewrite sum_scal_r. fold (vdot m v v). field. lra.
  - intros [|k] x y J l junk H1 H2; cbn in H1, H2; try (destruct k; discriminate).
    injection H1 as <- <-; injection H2 as <-. intros r c Hr Hc. cbn. replace r with 0%nat by lia. unfold mmul, arg; cbn. field. lra.
Qed.
(** ... with more rows the Jacobian is not written completely *)
Theorem norm_contract_refuted : exists m v, 0 < vdot m v v /\ ~ contract 2 (vector_norm m) ((m, v) :: nil).
Proof.
  exists 1%nat, (fun _ => 1). split; [unfold vdot; cbn; lra|]. intros (Js & L & _ & H).
  destruct Js as [|J [|]]; try discriminate.
  pose proof (H 0%nat 1%nat (fun _ => 1) J mzero (fun _ _ => 1) eq_refl eq_refl 1%nat 0%nat ltac:(lia) ltac:(lia)) as E.
  cbn in E. unfold mmul, mzero in E. cbn in E. lra.
Qed.

(** rotation by an exponential map, as a function of rotation and point *)
Lemma lie_rotate_matrix v r i : (i < 3)%nat -> lie_rotate v r i = mvec 3 (qmat (from_log (vec_of r 0))) v i.
Proof.
  intros Hi. unfold lie_rotate. rewrite qrot_mat by apply from_log_unit. generalize (qmat (from_log (vec_of r 0))). intros M.
  idx i Hi; unfold mvec, mv3, of3, vec_of, vlist; cbn [sum nth vx vy vz Nat.add]; ring.
Qed.
Lemma lie_rotate_basis v r i : (i < 3)%nat -> lie_rotate v r i = sum 3 (fun k => lie_rotate (eye k) r i * v k).
Proof.
  intros Hi. rewrite lie_rotate_matrix by exact Hi. unfold mvec. apply sum_ext. intros k Hk.
  rewrite lie_rotate_matrix by exact Hi. f_equal. unfold mvec. rewrite (sum_single 3 _ k Hk).
  - unfold eye. rewrite Nat.eqb_refl. ring.
  - intros l _ Hl. unfold eye. apply Nat.neq_sym, Nat.eqb_neq in Hl. rewrite Hl. ring.
Qed.
Theorem lie_contract rows r x : / 10 ^ 6 <= sqrt (nsq r) -> contract rows lie_rotation [(3%nat, r); (3%nat, x)].
Proof.
  intros Hr. set (M := qmat (from_log (vec_of r 0))).
  exists [lie_jac x r; M]. split; [reflexivity|]. split.
  - intros [|g1 [|g2 [|]]] [|e1 [|e2 [|]]] H; cbn in H; try tauto. destruct H as (H1 & H2 & _). intros i Hi. cbn in Hi.
    assert (E0 : forall v w, veq 3 v w -> lie_rotate v (at_time g1 0) i = lie_rotate w r i).
    { intros v w E. unfold lie_rotate, vec_of, at_time. cbn [Nat.add].
      rewrite (proj1 (H1 0%nat ltac:(lia))), (proj1 (H1 1%nat ltac:(lia))), (proj1 (H1 2%nat ltac:(lia))).
      rewrite (E 0%nat), (E 1%nat), (E 2%nat) by lia. reflexivity. }
    assert (Dk : forall k, is_derive (fun h => lie_rotate (eye k) (at_time g1 h) i) 0 (mvec 3 (lie_jac (eye k) r) e1 i)).
    { intros k. exact (proj1 (lie_jacobian_exact (eye k) r Hr) g1 e1 H1 (fun _ => I) i Hi). }
    split.
    + apply (E0 (at_time g2 0) x). intros k Hk. apply (H2 k Hk).
    + cbn [total]. rewrite Rplus_0_r.
      apply (is_derive_ext (fun h => sum 3 (fun k => lie_rotate (eye k) (at_time g1 h) i * g2 k h))).
      { intros t. symmetry. apply lie_rotate_basis, Hi. }
      replace (mvec 3 (lie_jac x r) e1 i + mvec 3 M e2 i)
        with (sum 3 (fun k => mvec 3 (lie_jac (eye k) r) e1 i * x k + lie_rotate (eye k) r i * e2 k)).
      * apply is_derive_sum. intros k Hk. destruct (H2 k Hk) as [Z D].
        rewrite <- Z. rewrite <- (E0 (eye k) (eye k)) by (intros ? _; reflexivity).
        apply (is_derive_mult (fun h => lie_rotate (eye k) (at_time g1 h) i) (g2 k) 0); [apply Dk|exact D|intros; apply Rmult_comm].
      * rewrite sum_plus. f_equal.
        -- assert (D1 := proj1 (lie_jacobian_exact x r Hr) g1 e1 H1 (fun _ => I) i Hi).
           apply is_derive_unique in D1. rewrite <- D1. symmetry. apply is_derive_unique.
           apply (is_derive_ext (fun h => sum 3 (fun k => lie_rotate (eye k) (at_time g1 h) i * x k))).
           { intros t. symmetry. apply lie_rotate_basis, Hi. }
           apply is_derive_sum. intros k Hk.
           apply (is_derive_ext (fun h => x k * lie_rotate (eye k) (at_time g1 h) i)); [intros; apply Rmult_comm|].
           rewrite (Rmult_comm (mvec 3 _ e1 i)).
           apply (is_derive_scal (fun h => lie_rotate (eye k) (at_time g1 h) i) 0 (x k)). apply Dk.
        -- rewrite <- (lie_rotate_basis e2 r i Hi). apply lie_rotate_matrix, Hi.
  - intros [|[|k]] m y J l junk H1 H2; cbn in H1, H2; try (destruct k; discriminate);
      injection H1 as <- <-; injection H2 as <-; intros i c Hi Hc; reflexivity.
Qed.
Theorem intrinsics_contract rows a x : contract rows camera_intrinsics [(5%nat, a); (2%nat, x)].
Proof.
  exists [mlist [[- x 0%nat; - x 1%nat; -1; 0; 0]; [0; 0; 0; - x 1%nat; -1]];
          mlist [[- a 0%nat; - a 1%nat]; [0; - a 3%nat]]]. split; [reflexivity|]. split.
  - intros [|g1 [|g2 [|]]] [|e1 [|e2 [|]]] H; cbn in H; try tauto. destruct H as (H1 & H2 & _). intros i Hi. cbn in Hi.
    split.
    + pose proof (proj1 (H1 0%nat ltac:(lia))) as A0. pose proof (proj1 (H1 1%nat ltac:(lia))) as A1.
      pose proof (proj1 (H1 2%nat ltac:(lia))) as A2. pose proof (proj1 (H1 3%nat ltac:(lia))) as A3.
      pose proof (proj1 (H1 4%nat ltac:(lia))) as A4. pose proof (proj1 (H2 0%nat ltac:(lia))) as B0.
      pose proof (proj1 (H2 1%nat ltac:(lia))) as B1.
      idx i Hi; cbn; unfold arg, at_time; cbn; rewrite ?A0, ?A1, ?A2, ?A3, ?A4, ?B0, ?B1; reflexivity.
    + cbn [total]. rewrite Rplus_0_r. take_curve H1 5%nat. take_curve H2 2%nat. clear H1 H2.
      idx i Hi; unfold camera_intrinsics, arg, at_times, at_time, mvec, mlist, vlist; cbn [f_eval map nth sum];
        use_curve; auto_derive; ex_curve; ring.
  - intros [|[|k]] m y J l junk H1 H2; cbn in H1, H2; try (destruct k; discriminate);
      injection H1 as <- <-; injection H2 as <-; intros i c Hi Hc; unfold mmul;
      idx c Hc; cbn; unfold arg, mlist, vlist; cbn; ring.
Qed.

(** * Parameters that occur twice *)
(** p + p: the second occurrence overwrites what the first has contributed *)
Definition doubled (n : nat) : fexp := Bind (Bind (Base (addition n)) (Param 0 n)) (Param 0 n).
Theorem repeated_parameter_refuted : exists g p, smooth (fsize g) g p [] /\
  (forall c, In c (columns g) -> (c < 1)%nat) /\
  forall junk, ~ derivative 1 (fsize g) (fun x => meaning g x []) p (fst (jacobian junk g p mzero)).
Proof.
  exists (doubled 1), (fun _ => 0). split; [|split].
  - cbn -[contract]. repeat split; try (left; lia). apply addition_contract.
  - cbn. intros c [<- |[<- |[]]]; lia.
  - intros junk H.
    assert (C : curve 1 (fun _ h => h) (fun _ => 0) (fun _ => 1)).
    { intros i Hi. split; [reflexivity|]. auto_derive; [exact I|reflexivity]. }
    pose proof (H _ _ C (fun _ => I) 0%nat ltac:(cbn; lia)) as D. apply is_derive_unique in D.
    assert (D2 : is_derive (fun h : R => meaning (doubled 1) (at_time (fun _ h => h) h) [] 0%nat) 0 2).
    { cbn. unfold vadd, at_time. auto_derive; [exact I|ring]. }
    apply is_derive_unique in D2. pose proof (eq_trans (eq_sym D) D2) as E. unfold mvec in E. cbn in E. unfold store, eye in E. cbn in E. lra.
Qed.
(** for n elements: the computed matrix is the identity, half the derivative *)
Theorem repeated_parameter_computes junk n p j r c : (r < n)%nat -> (c < n)%nat ->
  fst (jacobian junk (doubled n) p j) r c = eye r c /\
  derivative n n (fun x => meaning (doubled n) x []) p (mscale 2 eye).
Proof.
  intros Hr Hc. split.
  - change (fst (jacobian junk (doubled n) p j) r c) with (store 0 n n eye (store 0 n n eye j) r c). unfold store at 1.
    rewrite Nat.add_0_l, Nat.sub_0_r. apply Nat.ltb_lt in Hr, Hc. rewrite Hr, Hc. reflexivity.
  - intros g e Hg _ i Hi. cbn. destruct (Hg i Hi) as [Z D].
    replace (mvec n (mscale 2 eye) e i) with (plus (e i) (e i)).
    + apply (is_derive_plus (g i) (g i)); exact D.
    + unfold mvec, mscale. rewrite (sum_ext n _ (fun k => 2 * (eye i k * e k))) by (intros; ring).
      rewrite sum_scal_l. fold (mvec n eye e i). rewrite mvec_eye_at by exact Hi. unfold plus; cbn. ring.
Qed.
(** parameters in both branches of a Subtraction are fine as long as they differ, despite the note in
    Subtraction.h:41 *)
Theorem difference_of_parameters junk n p : derivative (n + n) n (fun x i => x i - x (n + i)%nat) p
  (fst (jacobian junk (Bind (Bind (Base (subtraction n)) (Param 0 n)) (Param n n)) p mzero)).
Proof.
  apply (expression_jacobian_zero junk (Bind (Bind (Base (subtraction n)) (Param 0 n)) (Param n n)) p (n + n)).
  - cbn -[contract]. repeat split; try (left; lia). apply subtraction_contract.
  - cbn. rewrite <- seq_app. apply seq_NoDup.
  - intros c. cbn. rewrite <- seq_app, in_seq. lia.
Qed.

(** * The objective function of the pose optimization with several cameras *)
(** image of a point x under the pose (translation in 0..2, rotation vector in 3..5), camera R, t, K *)
Definition camera_image (R : mat) (t : vect) (K : mat) (x input : vect) : vect :=
  let y := vadd t (mvec 3 R (vadd input (lie_rotate x (fun i => input (3 + i)%nat)))) in
  fun i => mvec 3 K y i / mvec 3 K y 2%nat.

Lemma camera_expression_ok R t K x p :
  let y := vadd t (mvec 3 R (vadd p (lie_rotate x (fun i => p (3 + i)%nat)))) in
  / 10 ^ 6 <= sqrt (nsq (fun i => p (3 + i)%nat)) -> mvec 3 K y 2%nat <> 0 ->
  smooth 2 (camera_expression R t K x) p [] /\ NoDup (columns (camera_expression R t K x)) /\
  (forall c, In c (columns (camera_expression R t K x)) <-> (c < 6)%nat) /\
  forall input i, meaning (camera_expression R t K x) input [] i = camera_image R t K x input i.
Proof.
  intros y Hr Hy. split; [|split; [|split]].
  - cbn -[contract addition subtraction linear_transformation dehomogenization lie_rotation].
    repeat split; try (left; lia).
    + apply lie_contract. exact Hr.
    + apply addition_contract.
    + apply linear_contract.
    + apply addition_contract.
    + apply linear_contract.
    + apply (dehomogenization_contract 2 2). exact Hy.
  - exact (seq_NoDup 6 0).
  - intros c. change (columns (camera_expression R t K x)) with (seq 0 6). rewrite in_seq. lia.
  - intros input i. cbn. unfold camera_image, arg. cbn. unfold Rdiv. rewrite Rmult_1_l. reflexivity.
Qed.

Theorem objective_jacobian junk points Rs ts Ks vis input result J :
  / 10 ^ 6 <= sqrt (nsq (fun i => input (3 + i)%nat)) ->
  (forall pt cam, In (pt, cam) vis ->
     mvec 3 (Ks cam) (vadd (ts cam) (mvec 3 (Rs cam) (vadd input (lie_rotate (points pt) (fun i => input (3 + i)%nat))))) 2%nat <> 0) ->
  let f := fun x k => let (pt, cam) := nth (k / 2) vis (0%nat, 0%nat) in
                      camera_image (Rs cam) (ts cam) (Ks cam) (points pt) x (k mod 2)%nat in
  let n := (2 * length vis)%nat in
  veq n (fst (objective junk points Rs ts Ks vis input result J)) (f input) /\
  derivative 6 n f input (snd (objective junk points Rs ts Ks vis input result J)) /\
  forall k, (n <= k)%nat -> fst (objective junk points Rs ts Ks vis input result J) k = result k /\
                            forall c, snd (objective junk points Rs ts Ks vis input result J) k c = J k c.
Proof.
  intros Hr Hd f n.
  (* one measurement *)
  assert (One : forall pt cam j, In (pt, cam) vis -> exists v S g,
    evaluate_with_jacobian junk (camera_expression (Rs cam) (ts cam) (Ks cam) (points pt)) input j = (v, S, g) /\
    (forall i, v i = camera_image (Rs cam) (ts cam) (Ks cam) (points pt) input i) /\
    derivative 6 2 (camera_image (Rs cam) (ts cam) (Ks cam) (points pt)) input S).
  { intros pt cam j Hin. specialize (Hd pt cam Hin).
    destruct (camera_expression_ok (Rs cam) (ts cam) (Ks cam) (points pt) input Hr Hd) as (HS & ND & LT & M).
    set (g := camera_expression (Rs cam) (ts cam) (Ks cam) (points pt)) in *.
    destruct (calls_independent junk g g input j eq_refl) as (_ & _ & _ & E).
    eexists _, _, _. split; [exact E|]. split; [intros i; rewrite evaluate_composes; apply M|].
    destruct (expression_jacobian junk g input j 6 HS ND (fun c H => proj1 (LT c) H)) as (D & HD & HJ).
    apply (derivative_ext _ _ _ (fun x => meaning g x [])); [intros x _ i _; apply M|].
    apply (derivative_meq _ _ _ _ _ D); [|exact HD]. intros r c Hr' Hc.
    symmetry. apply (HJ r c Hr'). apply LT, Hc. }
  (* the loop *)
  assert (Loop : forall rest i0 result J, (forall v, In v rest -> In v vis) -> forall k,
    let o := objective_from junk points Rs ts Ks rest i0 input result J in
    if (i0 * 2 <=? k)%nat && (k <? (i0 + length rest) * 2)%nat then
      let (pt, cam) := nth (k / 2 - i0) rest (0%nat, 0%nat) in
      fst o k = camera_image (Rs cam) (ts cam) (Ks cam) (points pt) input (k mod 2)%nat /\
      forall x e, curve 6 x input e -> is_derive (fun h => camera_image (Rs cam) (ts cam) (Ks cam) (points pt) (at_time x h) (k mod 2)%nat)
         0 (mvec 6 (snd o) e k)
    else fst o k = result k /\ forall c, snd o k c = J k c).
  { induction rest as [|[pt cam] rest IH]; intros i0 res Jm Sub k.
    - cbn [objective_from length fst snd]. cbv zeta. rewrite Nat.add_0_r.
      destruct ((i0 * 2 <=? k)%nat && (k <? i0 * 2)%nat) eqn:E; [|split; reflexivity].
      apply andb_true_iff in E. rewrite Nat.leb_le, Nat.ltb_lt in E. lia.
    - cbn [objective_from length].
      destruct (One pt cam (rows_of i0 Jm) (Sub _ (or_introl eq_refl))) as (v & S & g & E & Hv & HS).
      rewrite E. cbn [fst snd].
      specialize (IH (Datatypes.S i0) (write_rows i0 v res) (write_block i0 S Jm) (fun w Hw => Sub w (or_intror Hw)) k).
      cbv zeta in IH |- *.
      set (o := objective_from junk points Rs ts Ks rest (Datatypes.S i0) input (write_rows i0 v res) (write_block i0 S Jm)) in *. clearbody o.
      pose proof (Nat.div_mod k 2 ltac:(lia)) as KD. pose proof (Nat.mod_upper_bound k 2 ltac:(lia)) as KM.
      destruct ((i0 * 2 <=? k)%nat && (k <? (i0 + Datatypes.S (length rest)) * 2)%nat) eqn:B1;
      destruct ((Datatypes.S i0 * 2 <=? k)%nat && (k <? (Datatypes.S i0 + length rest) * 2)%nat) eqn:B2.
      + apply andb_true_iff in B2. rewrite Nat.leb_le, Nat.ltb_lt in B2.
        replace (k / 2 - i0)%nat with (Datatypes.S (k / 2 - Datatypes.S i0)) by lia. exact IH.
      + apply andb_true_iff in B1. rewrite Nat.leb_le, Nat.ltb_lt in B1.
        apply andb_false_iff in B2. rewrite Nat.leb_gt, Nat.ltb_ge in B2.
        assert (K : (k / 2 = i0)%nat) by lia.
        replace (k / 2 - i0)%nat with 0%nat by lia. cbn [nth]. destruct IH as [IH1 IH2].
        unfold write_rows in IH1. unfold write_block in IH2. rewrite K, Nat.eqb_refl in IH1, IH2.
        split; [rewrite IH1; apply Hv|]. intros x e Hx.
        replace (mvec 6 (snd o) e k) with (mvec 6 S e (k mod 2)).
        * apply (HS x e Hx (fun _ => I)). lia.
        * apply sum_ext. intros c Hc. rewrite IH2. apply Nat.ltb_lt in Hc. rewrite Hc. reflexivity.
      + exfalso. apply andb_true_iff in B2. rewrite Nat.leb_le, Nat.ltb_lt in B2.
        apply andb_false_iff in B1. rewrite Nat.leb_gt, Nat.ltb_ge in B1. lia.
      + destruct IH as [IH1 IH2].
        assert (K : (k / 2 =? i0)%nat = false).
        { apply Nat.eqb_neq. apply andb_false_iff in B1. rewrite Nat.leb_gt, Nat.ltb_ge in B1. lia. }
        unfold write_rows in IH1. unfold write_block in IH2. rewrite K in IH1, IH2. split; [exact IH1|exact IH2]. }
  specialize (Loop vis 0%nat result J (fun _ H => H)).
  unfold objective. fold (objective junk points Rs ts Ks vis input result J) in *.
  assert (In' : forall k, (k < n)%nat -> (0 * 2 <=? k)%nat && (k <? (0 + length vis) * 2)%nat = true).
  { intros k Hk. apply andb_true_iff. rewrite Nat.leb_le, Nat.ltb_lt. unfold n in Hk. lia. }
  split; [|split].
  - intros k Hk. specialize (Loop k). cbv zeta in Loop. rewrite (In' k Hk), Nat.sub_0_r in Loop. unfold f.
    destruct (nth (k / 2) vis (0%nat, 0%nat)). apply Loop.
  - intros x e Hx _ k Hk. specialize (Loop k). cbv zeta in Loop. rewrite (In' k Hk), Nat.sub_0_r in Loop. unfold f.
    destruct (nth (k / 2) vis (0%nat, 0%nat)) as [pt cam]. apply (proj2 Loop), Hx.
  - intros k Hk. specialize (Loop k). cbv zeta in Loop.
    replace ((0 * 2 <=? k)%nat && (k <? (0 + length vis) * 2)%nat) with false in Loop; [exact Loop|].
    symmetry. apply andb_false_iff. rewrite Nat.ltb_ge. unfold n in Hk. lia.
Qed.

(** ** Cases *)
(** the hypotheses of the objective: two cameras, one point; rotation by 1 about the z axis *)
Example objective_case : let input := vlist [0; 0; 5; 0; 0; 1] in
  / 10 ^ 6 <= sqrt (nsq (fun i => input (3 + i)%nat)) /\
  forall cam, (cam < 2)%nat ->
    mvec 3 eye (vadd (vlist [INR cam; 0; 0]) (mvec 3 eye (vadd input (lie_rotate (vlist [0; 0; 1]) (fun i => input (3 + i)%nat))))) 2%nat <> 0.
Proof.
  intros input. assert (E : nsq (fun i => input (3 + i)%nat) = 1) by (unfold nsq, input, vlist; cbn; ring).
  assert (P12 : eps12 < 1) by (unfold eps12; apply (Rmult_lt_reg_l (10 ^ 12)); [lra|]; rewrite Rinv_r; lra).
  split.
  - rewrite E, sqrt_1. lra.
  - intros cam Hcam.
    assert (L : lie_rotate (vlist [0; 0; 1]) (fun i => input (3 + i)%nat) 2%nat = 1).
    { rewrite lie_rotate_rodrigues; [|rewrite E, sqrt_1; exact P12|lia].
      rewrite E, sqrt_1. unfold rodrigues, input, vlist; cbn. field. }
    unfold vadd at 1. unfold mvec, eye. cbn [sum Nat.eqb]. unfold vadd. rewrite L. unfold input, vlist. cbn. lra.
Qed.
(** an expression with every function: the norm of the image of a parameter *)
Example expression_case : let g := Bind (Base (vector_norm 2)) (Nested (Bind (Base (dehomogenization 2)) (Param 1 3)) (fun _ => 7)) in
  let p := vlist [9; 3; 4; 2] in
  smooth 1 g p [] /\ NoDup (columns g) /\ fst (jacobian mzero g p mzero) 0%nat 1%nat = 3 / 10.
Proof.
  intros g p. split; [|split].
  - cbn -[contract vector_norm dehomogenization]. repeat split; try (left; lia).
    + apply (dehomogenization_contract 1 2). unfold p, vlist; cbn; lra.
    + apply norm_contract. unfold p, vdot, arg, vlist; cbn. lra.
  - exact (seq_NoDup 3 1).
  - cbn. unfold store; cbn. unfold arg, vdot, p, vlist, eye; cbn.
    replace (sqrt _) with (sqrt ((5 / 2) * (5 / 2))) by (f_equal; field). rewrite sqrt_square by lra. field.
Qed.

Print Assumptions evaluate_composes.
Print Assumptions calls_independent.
Print Assumptions expression_jacobian.
Print Assumptions repeated_parameter_refuted.
Print Assumptions objective_jacobian.
