From Coq Require Import Reals Lra Lia List Bool Arith.
From Verif Require Import Mat LevMarq.
Open Scope R_scope.

Section P.
Variable n_meas : nat.
Variable eval : vect -> option (vect * mat).
Variable weights : option (vect -> vect).
Variable normalize : vect -> vect.
Variable lin : solver -> option (mat * vect) -> lapack.
Variable term : nat -> option R -> option R -> bool.
Variable measurement : vect.
Variable factor : R.

Notation linearise := (linearise eval weights measurement).
Notation residual := (residual n_meas).
Notation round := (round n_meas eval weights normalize lin term measurement factor).
Notation loop := (loop n_meas eval weights normalize lin term measurement factor).
Notation initial := (initial n_meas eval weights measurement).
Notation sos := (sum_of_squares n_meas eval weights measurement).

Lemma residual_sos p : weights_nonneg n_meas weights ->
  residual (linearise (Some p)) = sos p.
Proof.
  intros HW. unfold LevMarq.linearise, sum_of_squares, LevMarq.residual.
  destruct (eval p) as [[e J]|]; [|reflexivity]. destruct weights as [wf|]; cbn; [|reflexivity].
  f_equal. unfold vdot. apply sum_ext. intros i Hi.
  pose proof (sqrt_sqrt (wf (vsub measurement e) i) (HW _ i Hi)) as E.
  unfold vsub in *. 
  transitivity ((measurement i - e i) * (measurement i - e i) * (sqrt (wf (fun j => measurement j - e j) i) * sqrt (wf (fun j => measurement j - e j) i))).
  - ring.
  - rewrite E. ring.
Qed.

(** consistency: the stored values belong to the stored parameters *)
Definition consistent (s : state) : Prop :=
  lin_prev s = linearise (params s) /\ err_prev s = residual (linearise (params s)).

Lemma round_consistent s s' b : round s = Some (s', b) -> consistent s -> consistent s'.
Proof.
  unfold LevMarq.round. intros H HC.
  destruct (lin _ _) as [dx|].
  - cbv zeta in H. destruct (ge _ _); injection H as <- _; [exact HC|].
    split; reflexivity.
  - destruct (kind s); try discriminate. injection H as <- _. exact HC.
Qed.

Lemma initial_consistent p ss k : consistent (initial p ss k).
Proof. split; reflexivity. Qed.

(** progress: where all residuals are numbers, parameters change only for a smaller residual *)
Definition progressed (p0 : option vect) (r0 : option R) (s : state) : Prop :=
  (params s = p0 /\ err_prev s = r0) \/
  exists a b, r0 = Some a /\ err_prev s = Some b /\ b < a.

Definition defined : Prop := forall p, linearise p <> None.

Lemma round_progress s s' b : (forall p, linearise (Some p) <> None) ->
  (forall k e x, lin k e = Solution x -> x <> None) ->
  (exists p e, params s = Some p /\ err_prev s = Some e) ->
  round s = Some (s', b) ->
  (exists p e, params s' = Some p /\ err_prev s' = Some e) /\
  ((params s' = params s /\ err_prev s' = err_prev s) \/
   exists e e', err_prev s = Some e /\ err_prev s' = Some e' /\ e' < e).
Proof.
  intros HD HL (p & e & Hp & He) H. unfold LevMarq.round in H.
  destruct (lin _ _) as [dx|] eqn:EL.
  - cbv zeta in H. specialize (HL _ _ _ EL). destruct dx as [dx|]; [|congruence]. rewrite Hp, He in H.
    specialize (HD (normalize (vadd p dx))).
    destruct (linearise (Some (normalize (vadd p dx)))) as [dj|] eqn:E; [|congruence].
    cbn [LevMarq.residual option_map ge] in H.
    destruct (Rle_dec e _) as [L|L]; injection H as <- _; cbn.
    + split; [exists p, e; auto|left; auto].
    + split; [eauto|]. right. exists e. eexists. split; [exact He|]. split; [reflexivity|lra].
  - destruct (kind s); try discriminate. injection H as <- _. cbn. split; [exists p, e; auto|left; auto].
Qed.

Lemma loop_invariant fuel s (I : state -> Prop) p e :
  (forall s s' b, I s -> round s = Some (s', b) -> I s') -> I s ->
  loop fuel s = Done p e -> exists s', I s' /\ p = params s' /\ e = err_prev s'.
Proof.
  intros HI. revert s. induction fuel as [|fuel IH]; intros s Hs H; cbn in H; [discriminate|].
  destruct (round s) as [[s' [|]]|] eqn:E; [|apply (IH s'); [eapply HI; eassumption|exact H]|discriminate].
  injection H as <- <-. exists s'. split; [eapply HI; eassumption|auto].
Qed.

(** ** Termination *)
Lemma round_iteration s s' b : round s = Some (s', b) -> iteration s' = S (iteration s).
Proof.
  unfold LevMarq.round. intros H. destruct (lin _ _).
  - cbv zeta in H. destruct (ge _ _); injection H as <- _; reflexivity.
  - destruct (kind s); try discriminate. injection H as <- _. reflexivity.
Qed.

(** a pass either asks the termination criterion or is the single switch to SVD *)
Lemma round_stop s s' b : round s = Some (s', b) ->
  (exists e, b = term (iteration s') e (err_prev s)) /\ kind s' = kind s \/
  (b = false /\ kind s = Cholesky /\ kind s' = SVD).
Proof.
  unfold LevMarq.round. intros H. destruct (lin _ _).
  - cbv zeta in H. left. destruct (ge _ _); injection H as <- <-; cbn; (split; [eexists; reflexivity|reflexivity]).
  - right. destruct (kind s); try discriminate. injection H as <- <-. auto.
Qed.

Definition spare (s : state) : nat := match kind s with Cholesky => 1 | _ => 0 end.

Lemma loop_bounded max fuel s :
  (forall it a b, (max <= it)%nat -> term it a b = true) ->
  (max + spare s <= fuel + iteration s)%nat -> (spare s < fuel)%nat ->
  forall s', loop fuel s <> Running s'.
Proof.
  intros HT. revert s. induction fuel as [|fuel IH]; intros s Hf H0 s' H; [lia|]. cbn in H.
  destruct (round s) as [[s1 b]|] eqn:E; [|discriminate].
  pose proof (round_iteration _ _ _ E) as EI. pose proof (round_stop _ _ _ E) as ES.
  destruct b; [discriminate|].
  destruct ES as [[(e & Eb) EK]|(_ & EK & EK')].
  - assert (iteration s1 < max)%nat.
    { destruct (le_lt_dec max (iteration s1)) as [L|L]; [|exact L]. rewrite (HT _ _ _ L) in Eb. discriminate. }
    assert (spare s1 = spare s) by (unfold spare; rewrite EK; reflexivity).
    apply (IH s1) in H; [exact H|lia|lia].
  - unfold spare in *. rewrite EK in *. apply (IH s1) in H; [exact H| |]; rewrite EK'; lia.
Qed.

(** a criterion that never fires and solvers that never fail: the loop never ends *)
Lemma loop_forever fuel s (I : state -> Prop) :
  (forall s, I s -> exists s', round s = Some (s', false) /\ I s') -> I s ->
  exists s', loop fuel s = Running s'.
Proof.
  intros HI. revert s. induction fuel as [|fuel IH]; intros s Hs; [exists s; reflexivity|]. cbn.
  destruct (HI s Hs) as (s' & -> & Hs'). apply IH. exact Hs'.
Qed.

Lemma round_no_stop s : (forall e, term (S (iteration s)) e (err_prev s) = false) ->
  (forall k e, lin k e <> Failure \/ k = Cholesky) ->
  exists s', round s = Some (s', false) /\ (err_prev s' = err_prev s \/ ge (err_prev s') (err_prev s) = false).
Proof.
  intros HT HL. unfold LevMarq.round. destruct (lin (kind s) _) as [dx|] eqn:E.
  - cbv zeta. rewrite HT. destruct (ge _ _) eqn:EG; eexists; (split; [reflexivity|]); cbn; auto.
  - destruct (HL (kind s) (normal_equations n_meas (lambda s) (lin_prev s))) as [N|N]; [congruence|].
    rewrite N. eexists. split; [reflexivity|]. left. reflexivity.
Qed.
End P.

(** ** OptTerminate *)
Lemma opt_terminate_limit max prec it a b : (0 < max)%nat -> (max <= it)%nat ->
  opt_terminate max prec it a b = true.
Proof.
  intros H1 H2. unfold opt_terminate. apply Nat.ltb_lt in H1. apply Nat.leb_le in H2. rewrite H1, H2. reflexivity.
Qed.

Lemma opt_terminate_never it a b : opt_terminate 0 0 it a b = false.
Proof. unfold opt_terminate. destruct (Req_EM_T 0 0); [reflexivity|congruence]. Qed.

(** a vanishing previous residual never fires the relative criterion *)
Lemma opt_terminate_zero prec it a : opt_terminate 0 prec it a (Some 0) = false.
Proof.
  unfold opt_terminate. cbn. destruct (Req_EM_T prec 0); [reflexivity|]. cbn.
  destruct a as [a|]; [|reflexivity]. unfold Rltb. destruct (Rlt_dec _ _) as [H|_]; [|reflexivity].
  exfalso. pose proof (Rabs_pos (a - 0)). lra.
Qed.

(** ** The step *)
Lemma vdot_comm n x y : vdot n x y = vdot n y x.
Proof. apply sum_ext. intros. ring. Qed.
Lemma vdot_self_nonneg n x : 0 <= vdot n x x.
Proof. apply sum_nonneg. intros. apply Rle_0_sqr. Qed.

Lemma vdot_sub_sq n x y : vdot n (vsub x y) (vsub x y) = vdot n x x - 2 * vdot n x y + vdot n y y.
Proof.
  unfold vdot, vsub. rewrite <- sum_scal_l, <- sum_minus, <- sum_plus. apply sum_ext. intros. ring.
Qed.

Lemma step_linear_decrease m n (J : mat) (d x : vect) lam :
  veq n (mvec n (madd (mmul m (tr J) J) (mscale lam eye)) x) (mvec m (tr J) d) ->
  vdot m (vsub d (mvec n J x)) (vsub d (mvec n J x)) =
  vdot m d d - vdot m (mvec n J x) (mvec n J x) - 2 * lam * vdot n x x.
Proof.
  intros H. rewrite vdot_sub_sq.
  assert (E : vdot m d (mvec n J x) = vdot m (mvec n J x) (mvec n J x) + lam * vdot n x x).
  { rewrite vdot_tr.
    rewrite (vdot_ext n _ _ x x (fun i Hi => eq_sym (H i Hi)) (fun i _ => eq_refl)).
    rewrite vdot_comm. fold (quad n (madd (mmul m (tr J) J) (mscale lam eye)) x).
    rewrite quad_add, quad_scale. f_equal.
    - unfold quad. transitivity (vdot n x (mvec m (tr J) (mvec n J x))).
      + apply vdot_ext; [intros i _; reflexivity|]. intros i _. apply mvec_mmul.
      + rewrite vdot_comm. symmetry. apply vdot_tr.
    - f_equal. unfold quad. apply vdot_ext; [intros i _; reflexivity|]. intros i Hi. apply mvec_eye. exact Hi. }
  rewrite E. ring.
Qed.

Lemma vdot_self_pos n x : (exists i, (i < n)%nat /\ x i <> 0) -> 0 < vdot n x x.
Proof.
  intros (i & Hi & Hx). destruct (Rle_lt_or_eq_dec 0 (vdot n x x) (vdot_self_nonneg n x)) as [H|H]; [exact H|].
  exfalso. apply Hx. apply Rsqr_0_uniq.
  apply (sum_nonneg_zero n (fun i => x i * x i)); [intros; apply Rle_0_sqr|symmetry; exact H|exact Hi].
Qed.
