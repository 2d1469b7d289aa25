(** C10-C13, C67, C68: small linear algebra.  Properties of the model in LinAlg.v *)
From Coq Require Import Reals List Arith Bool Lia Lra Psatz.
Import ListNotations.
From Verif Require Import Mat Quat LinAlg LinAlgProofs.
Open Scope R_scope.

Ltac small H := repeat match type of H with
  | (_ < 0)%nat => exfalso; lia
  | (?i < S _)%nat => destruct i; [clear H|apply Nat.succ_lt_mono in H]
  end.

(** ** C10 *)
Theorem inverse2_two_sided m x : inverse2 m = Some x ->
  meq 2 2 (mmul 2 m x) eye /\ meq 2 2 (mmul 2 x m) eye.
Proof.
  unfold inverse2. match goal with |- context [Req_EM_T ?d 0] => destruct (Req_EM_T d 0) as [|N] end.
  discriminate. intro E; injection E as <-.
  split; intros i j Hi Hj; small Hi; small Hj; cbv [mmul sum eye Nat.eqb of_array vlist Nat.mul Nat.add nth]; field; exact N.
Qed.
Theorem inverse3_two_sided m x : inverse3 m = Some x ->
  meq 3 3 (mmul 3 m x) eye /\ meq 3 3 (mmul 3 x m) eye.
Proof.
  unfold inverse3. match goal with |- context [Req_EM_T ?d 0] => destruct (Req_EM_T d 0) as [|N] end.
  discriminate. intro E; injection E as <-.
  split; intros i j Hi Hj; small Hi; small Hj; cbv [mmul sum eye Nat.eqb of_array vlist Nat.mul Nat.add nth]; field; exact N.
Qed.
(** the functors agree on which matrices are invertible *)
Theorem inverse_defined_iff_det m :
  ((exists x, inverse2 m = Some x) <-> det2 m <> 0) /\ ((exists x, inverse3 m = Some x) <-> det3 m <> 0).
Proof.
  split.
  - unfold inverse2, det2. match goal with |- context [Req_EM_T ?d 0] => destruct (Req_EM_T d 0) as [Z|N] end.
    + split; [intros [x H]; discriminate|intro H; contradiction].
    + split; [intros _; exact N|intros _; eexists; reflexivity].
  - unfold inverse3, det3. match goal with |- context [Req_EM_T ?d 0] => destruct (Req_EM_T d 0) as [Z|N] end.
    + split; [intros [x H]; discriminate|]. intro H; exfalso; apply H; rewrite <- Z; ring.
    + split; [|intros _; eexists; reflexivity]. intros _ H; apply N; rewrite <- H; ring.
Qed.
Theorem det2_laws a b : det2 (mmul 2 a b) = det2 a * det2 b /\ det2 eye = 1 /\
  det2 (fun i j => a (1 - i)%nat j) = - det2 a /\ det2 (tr a) = det2 a.
Proof. repeat split; cbv [det2 mmul sum eye Nat.eqb tr Nat.sub]; ring. Qed.
(** swapping any two rows negates, scaling one row scales, adding a multiple of one row to another keeps *)
Definition swap_rows (p q : nat) (a : mat) : mat := fun i j => a (if (i =? p)%nat then q else if (i =? q)%nat then p else i) j.
Definition scale_row (p : nat) (c : R) (a : mat) : mat := fun i j => if (i =? p)%nat then c * a i j else a i j.
Definition add_row (p q : nat) (c : R) (a : mat) : mat := fun i j => if (i =? p)%nat then a i j + c * a q j else a i j.
Theorem det3_laws a b : det3 (mmul 3 a b) = det3 a * det3 b /\ det3 eye = 1 /\ det3 (tr a) = det3 a /\
  (forall p q, (p < q < 3)%nat -> det3 (swap_rows p q a) = - det3 a) /\
  (forall p c, (p < 3)%nat -> det3 (scale_row p c a) = c * det3 a) /\
  (forall p q c, (p < 3)%nat -> (q < 3)%nat -> p <> q -> det3 (add_row p q c a) = det3 a).
Proof.
  repeat split; try (cbv [det3 mmul sum eye Nat.eqb tr]; ring).
  - intros p q H. destruct q as [|[|[|q]]]; destruct p as [|[|[|p]]]; try lia;
      cbv [det3 swap_rows Nat.eqb]; ring.
  - intros p c H. small H; cbv [det3 scale_row Nat.eqb]; ring.
  - intros p q c H K N. small H; small K; try congruence; cbv [det3 add_row Nat.eqb]; ring.
Qed.
Example ex_inverse3 : exists x, inverse3 (mlist [[2;1;0];[0;3;1];[1;0;1]]) = Some x /\ x 0%nat 0%nat = 3 / 7.
Proof.
  unfold inverse3. cbv [mlist nth]. match goal with |- context [Req_EM_T ?d 0] => destruct (Req_EM_T d 0) as [Z|N] end.
  - exfalso; lra.
  - eexists; split; [reflexivity|]. cbv [of_array vlist nth Nat.mul Nat.add]. field.
Qed.
Print Assumptions inverse3_two_sided. Print Assumptions inverse_defined_iff_det. Print Assumptions det3_laws.

(** ** C11 *)
Theorem inner_product_exact n a b : inner_fixed n a b = vdot n a b.
Proof. unfold inner_fixed, vdot; rewrite inner_impl_sum; ring. Qed.
Theorem inner_dynamic_exact a b : length a = length b ->
  inner_dynamic a b = Some (vdot (length a) (vlist a) (vlist b)).
Proof.
  intro H. unfold inner_dynamic. rewrite H, Nat.eqb_refl, <- H. f_equal.
  rewrite (fold_seq_sum _ (fun i => nth i a 0 * nth i b 0)). unfold vdot, vlist. ring.
Qed.
Theorem norms_exact n a b :
  norm1 n a = sum n (fun i => Rabs (a i)) /\ 0 <= norm2 n a /\ norm2 n a * norm2 n a = vdot n a a /\
  (norm2 n a = 0 -> veq n a (fun _ => 0)) /\
  squared_distance n a b = distance n a b * distance n a b /\ distance n a b = distance n b a.
Proof.
  assert (P : forall c, 0 <= vdot n c c).
  { intro c. apply sum_nonneg; intros; nra. }
  assert (Q : forall c, norm2 n c * norm2 n c = vdot n c c).
  { intro c. unfold norm2. rewrite inner_product_exact. apply sqrt_sqrt, P. }
  repeat split.
  - unfold norm1; rewrite norm1_impl_sum; ring.
  - apply sqrt_pos.
  - apply Q.
  - intros Z i Hi. assert (V : vdot n a a = 0) by (rewrite <- Q, Z; ring).
    assert (W := sum_nonneg_zero n (fun i => a i * a i) (fun i _ => Rle_0_sqr (a i)) V i Hi). cbn in W. nra.
  - unfold distance. rewrite Q. unfold squared_distance. apply inner_product_exact.
  - unfold distance, norm2. rewrite !inner_product_exact. f_equal. unfold vdot.
    apply sum_ext; intros i _; unfold vsub; ring.
Qed.
Theorem normalize_exact n a x : normalize n a = Some x ->
  vdot n x x = 1 /\ (forall i, a i = norm2 n a * x i) /\ 0 < norm2 n a.
Proof.
  unfold normalize. destruct (Req_EM_T (norm2 n a) 0) as [|N]; [discriminate|].
  intro E; injection E as <-. destruct (norms_exact n a a) as (_ & P & Q & _).
  assert (0 < norm2 n a) by lra.
  repeat split; auto.
  - unfold vdot. transitivity (sum n (fun i => (/ norm2 n a * / norm2 n a) * (a i * a i))).
    + apply sum_ext; intros i _. field; lra.
    + rewrite sum_scal_l. change (sum n (fun i => a i * a i)) with (vdot n a a).
      rewrite <- Q. field; lra.
  - intro i. field; lra.
Qed.
Theorem cross_product_laws a b c :
  vdot 3 (cross_product a b) a = 0 /\ vdot 3 (cross_product a b) b = 0 /\
  (forall i, (i < 3)%nat -> cross_product b a i = - cross_product a b i) /\
  vdot 3 (cross_product a b) c = det3 (fun i => match i with 0%nat => a | 1%nat => b | _ => c end) /\
  vdot 3 (cross_product a b) (cross_product a b) = vdot 3 a a * vdot 3 b b - vdot 3 a b * vdot 3 a b.
Proof.
  repeat split; try (cbv [vdot sum cross_product vlist nth det3]; ring).
  intros i H; small H; cbv [cross_product vlist nth]; ring.
Qed.
(** every template recursion terminates, computes the product and leaves all other storage alone,
    whatever the result storage contained before *)
Theorem outer_product_exact M N v1 v2 res : exists depth res',
  (forall f, (depth <= f)%nat -> outer_impl f M M N v1 v2 res = Some res') /\
  (forall i j, (i < M)%nat -> (j < N)%nat -> res' (j * M + i)%nat = v1 i * v2 j) /\
  (forall c, (M * N <= c)%nat -> res' c = res c).
Proof.
  destruct (outer_all M v1 v2 N res) as (k & r & _ & F & G & K).
  exists k, r. repeat split; auto.
  - intros f Hf. replace f with (k + (f - k))%nat by lia. apply F.
  - intros i j Hi Hj. rewrite (Nat.mul_comm j M). apply G; assumption.
Qed.
Lemma col_major_at M A i j : (i < M)%nat -> col_major M A (j * M + i)%nat = A i j.
Proof.
  intro H. unfold col_major. rewrite Nat.add_comm, Nat.mod_add by lia. rewrite Nat.div_add by lia.
  rewrite Nat.mod_small, Nat.div_small by lia. reflexivity.
Qed.
Theorem matrix_vector_exact M N A v res : (0 < N)%nat -> exists depth res',
  (forall f, (depth <= f)%nat -> mv_backward f M N M N (col_major M A) v res = Some res') /\
  veq M res' (mvec N A v) /\ (forall c, (M <= c)%nat -> res' c = res c).
Proof.
  intro HN. destruct (mvb_all M N (col_major M A) v HN M res (Nat.le_refl _)) as (k & r & F & G & K).
  exists k, r. repeat split; auto.
  - intros f Hf. replace f with (k + (f - k))%nat by lia. apply F.
  - intros i Hi. rewrite G by exact Hi. apply sum_ext; intros l _. rewrite col_major_at by exact Hi. reflexivity.
Qed.
Theorem matrix_vector_forward_exact M N A v res : (0 < N)%nat -> exists depth res',
  (forall f, (depth <= f)%nat -> mv_forward f M N 0 0 (col_major M A) v res = Some res') /\
  veq M res' (mvec N A v) /\ (forall c, (M <= c)%nat -> res' c = res c).
Proof.
  intro HN. destruct (mvf_all M N (col_major M A) v HN M 0%nat res ltac:(lia)) as (k & r & F & G & K).
  exists k, r. repeat split; auto.
  - intros f Hf. replace f with (k + (f - k))%nat by lia. apply F.
  - intros i Hi. rewrite G by lia. apply sum_ext; intros l _. rewrite col_major_at by exact Hi. reflexivity.
Qed.
Theorem matrix_matrix_exact M1 N1 N2 A B res : (0 < N1)%nat -> exists depth res',
  (forall f, (depth <= f)%nat ->
     mm_forward f M1 N1 N2 0 0 0 (col_major M1 A) (col_major N1 B) res = Some res') /\
  (forall c, (c < M1 * N2)%nat -> res' c = col_major M1 (mmul N1 A B) c) /\
  (forall c, (M1 * N2 <= c)%nat -> res' c = res c).
Proof.
  intro HN. destruct (mm_all M1 N1 N2 (col_major M1 A) (col_major N1 B) HN N2 0%nat res ltac:(lia)) as (k & r & F & G & K).
  exists k, r. repeat split.
  - intros f Hf. replace f with (k + (f - k))%nat by lia. apply F.
  - intros c Hc. assert (M1 <> 0)%nat by (intro; subst; lia).
    assert (E := Nat.div_mod c M1 H).
    assert (Hm : (c mod M1 < M1)%nat) by (apply Nat.mod_upper_bound; exact H).
    assert (Hd : (c / M1 < N2)%nat) by (apply Nat.div_lt_upper_bound; [exact H|lia]).
    replace c with (c / M1 * M1 + c mod M1)%nat at 1 by lia.
    rewrite G by lia. unfold col_major at 3. unfold mmul.
    apply sum_ext; intros l Hl. rewrite !col_major_at by lia. reflexivity.
  - intros c Hc. apply K. right. lia.
Qed.
(** a matrix with no columns: the recursion reads v(-1) and never reaches its end *)
Theorem matrix_vector_zero_columns_refuted A v res : forall f, mv_backward f 1 0 1 0 A v res = None.
Proof.
  intro f. revert res. induction f as [|f IH]; intro res; [reflexivity|].
  cbn [mv_backward]. cbn [Nat.eqb andb Nat.sub]. apply IH.
Qed.
Example ex_matrix_matrix : exists r,
  mm_forward 20 2 2 1 0 0 0 (vlist [1;2;3;4]) (vlist [5;6]) (fun _ => 99) = Some r /\
  r 0%nat = 23 /\ r 1%nat = 34 /\ r 2%nat = 99.
Proof. eexists; split; [reflexivity|]. cbn. repeat split; ring. Qed.
Print Assumptions matrix_matrix_exact. Print Assumptions matrix_vector_exact.
Print Assumptions outer_product_exact. Print Assumptions norms_exact. Print Assumptions normalize_exact.
Print Assumptions cross_product_laws.

(** ** C12: the homogeneous vector of a point *)
Definition hom2 (v : vect) : vect := vlist [v 0%nat; v 1%nat; 1].
Definition hom2_3d (v : vect) : vect := vlist [v 0%nat; v 1%nat; 0; 1].
Definition hom3 (v : vect) : vect := vlist [v 0%nat; v 1%nat; v 2%nat; 1].
Theorem transform_point_exact m v :
  veq 2 (tp23_2 m v) (mvec 3 m (hom2 v)) /\ veq 2 (tp23_3 m v) (mvec 3 m v) /\
  veq 3 (tp33_2 m v) (mvec 3 m (hom2 v)) /\ veq 3 (tp33_3 m v) (mvec 3 m v) /\
  veq 3 (tp34_2 m v) (mvec 4 m (hom2_3d v)) /\ veq 3 (tp34_3 m v) (mvec 4 m (hom3 v)) /\
  veq 3 (tp34_4 m v) (mvec 4 m v) /\
  veq 4 (tp44_2 m v) (mvec 4 m (hom2_3d v)) /\ veq 4 (tp44_3 m v) (mvec 4 m (hom3 v)) /\
  veq 3 (tp44_4 m v) (mvec 4 m v).
Proof.
  repeat split; intros i H; small H;
    cbv [tp23_2 tp23_3 tp33_2 tp33_3 tp34_2 tp34_3 tp34_4 tp44_2 tp44_3 tp44_4 mvec sum hom2 hom2_3d hom3 vlist nth]; ring.
Qed.
(** the fourth coordinate of the 4x4 overload for homogeneous points is wrong ... *)
Theorem transform_point_44_4_refuted : exists m v, ~ veq 4 (tp44_4 m v) (mvec 4 m v).
Proof.
  exists eye, (vlist [0; 0; 1; 1]). intro H. specialize (H 3%nat ltac:(lia)).
  cbv [tp44_4 mvec sum eye Nat.eqb vlist nth] in H. lra.
Qed.
(** ... for exactly these matrices and points; for a rigid motion it misplaces every point with z <> 0 *)
Theorem transform_point_44_4_exact_iff m v :
  veq 4 (tp44_4 m v) (mvec 4 m v) <-> (m 3%nat 2%nat = m 3%nat 3%nat \/ v 2%nat = 0).
Proof.
  assert (E : tp44_4 m v 3%nat - mvec 4 m v 3%nat = (m 3%nat 3%nat - m 3%nat 2%nat) * v 2%nat).
  { cbv [tp44_4 mvec sum]; ring. }
  split.
  - intro H. rewrite (H 3%nat ltac:(lia)) in E.
    assert (Z : (m 3%nat 3%nat - m 3%nat 2%nat) * v 2%nat = 0) by lra.
    apply Rmult_integral in Z. destruct Z; [left; lra|right; assumption].
  - intros H i Hi. destruct (transform_point_exact m v) as (_ & _ & _ & _ & _ & _ & _ & _ & _ & T).
    destruct (Nat.eq_dec i 3) as [->|N]; [|apply T; lia].
    assert (Z : (m 3%nat 3%nat - m 3%nat 2%nat) * v 2%nat = 0) by (destruct H as [H|H]; rewrite H; ring).
    lra.
Qed.
Definition projected (e p : vect) : Prop := e 2%nat <> 0 /\ e 0%nat = e 2%nat * p 0%nat /\ e 1%nat = e 2%nat * p 1%nat.
Theorem project_point_exact m v :
  (forall p, pp33_2 m v = Some p -> projected (mvec 3 m (hom2 v)) p) /\
  (forall p, pp34_2 m v = Some p -> projected (mvec 4 m (hom2_3d v)) p) /\
  (forall p, pp34_3 m v = Some p -> projected (mvec 4 m (hom3 v)) p) /\
  (forall p, pp34_4 m v = Some p -> projected (mvec 4 m v) p).
Proof.
  assert (P : forall e e' p, veq 3 e e' -> project e = Some p -> projected e' p).
  { intros e e' p H. unfold project. destruct (Req_EM_T (e 2%nat) 0) as [|N]; [discriminate|].
    intro E; injection E as <-. unfold projected. rewrite <- !H by lia.
    cbv [vlist nth]. repeat split; [exact N|field; exact N|field; exact N]. }
  destruct (transform_point_exact m v) as (_ & _ & T1 & _ & T2 & T3 & T4 & _).
  split; [|split; [|split]]; intro p; apply P; assumption.
Qed.
(** a projection does not depend on the scale of the projection matrix *)
Theorem project_point_scale m c v : c <> 0 -> forall p, pp34_3 m v = Some p ->
  exists p', pp34_3 (mscale c m) v = Some p' /\ veq 2 p' p.
Proof.
  intros Hc p. unfold pp34_3, project. destruct (Req_EM_T (tp34_3 m v 2%nat) 0) as [|N]; [discriminate|].
  intro E; injection E as <-.
  assert (S : forall i, tp34_3 (mscale c m) v i = c * tp34_3 m v i).
  { intro i; unfold tp34_3, mscale; ring. }
  rewrite !S. destruct (Req_EM_T (c * tp34_3 m v 2%nat) 0) as [Z|N'].
  - exfalso. apply Rmult_integral in Z. tauto.
  - eexists; split; [reflexivity|]. intros i H; small H; cbv [vlist nth]; field; auto.
Qed.
Example ex_project : exists p, pp34_3 (mlist [[1;0;0;0];[0;1;0;0];[0;0;1;2]]) (vlist [3;4;2]) = Some p /\ p 0%nat = 3 / 4.
Proof.
  unfold pp34_3, project. cbv [tp34_3 mlist vlist nth].
  match goal with |- context [Req_EM_T ?d 0] => destruct (Req_EM_T d 0) as [Z|N] end; [exfalso; lra|].
  eexists; split; [reflexivity|]. cbv [nth]. lra.
Qed.
Print Assumptions transform_point_exact. Print Assumptions transform_point_44_4_exact_iff.
Print Assumptions transform_point_44_4_refuted. Print Assumptions project_point_exact. Print Assumptions project_point_scale.

(** ** C13 *)
(** the normalised coordinate i of a point *)
Definition normalized (sh sc p : vect) : vect := fun i => (p i - sh i) / sc i.
Theorem normalization_centres pts sh sc i : norm_params pts = Some (sh, sc) -> sc i <> 0 ->
  lsum (fun p => normalized sh sc p i) pts = 0 /\
  lsum (fun p => normalized sh sc p i * normalized sh sc p i) pts = INR (length pts).
Proof.
  intros H N. destruct (norm_params_spec _ _ _ H) as (P & Hm & Hs). split.
  - rewrite (lsum_ext _ (fun p => / sc i * p i + - (/ sc i * sh i))).
    + rewrite (lsum_lin (fun p => p i)), <- Hm. ring.
    + intro p; unfold normalized; field; exact N.
  - rewrite (lsum_ext _ (fun p => (/ sc i * / sc i) * ((p i - sh i) * (p i - sh i)) + 0)).
    + rewrite (lsum_lin (fun p => (p i - sh i) * (p i - sh i))).
      assert (Q : sc i * sc i = / INR (length pts) * lsum (fun p => (p i - sh i) * (p i - sh i)) pts).
      { rewrite Hs. apply sqrt_sqrt. apply Rmult_le_pos; [left; apply Rinv_0_lt_compat, P|].
        apply lsum_nonneg; intro p; apply Rle_0_sqr. }
      assert (Q2 : lsum (fun p => (p i - sh i) * (p i - sh i)) pts = INR (length pts) * (sc i * sc i)).
      { rewrite Q. field. lra. }
      rewrite Q2. field. exact N.
    + intro p; unfold normalized; field; exact N.
Qed.
(** a scale is zero exactly when all points agree in that coordinate *)
Theorem normalization_scale_zero pts sh sc i : norm_params pts = Some (sh, sc) ->
  (sc i = 0 <-> forall p q, In p pts -> In q pts -> p i = q i).
Proof.
  intro H. destruct (norm_params_spec _ _ _ H) as (P & Hm & Hs).
  set (V := lsum (fun p => (p i - sh i) * (p i - sh i)) pts) in *.
  assert (V0 : 0 <= V) by (apply lsum_nonneg; intro p; apply Rle_0_sqr).
  assert (I : 0 < / INR (length pts)) by (apply Rinv_0_lt_compat, P).
  split.
  - intro Z. assert (VZ : V = 0).
    { rewrite Hs in Z. apply sqrt_eq_0 in Z; [|apply Rmult_le_pos; [left; exact I|exact V0]].
      apply Rmult_integral in Z. destruct Z; [lra|assumption]. }
    assert (G : forall l, lsum (fun p => (p i - sh i) * (p i - sh i)) l = 0 -> forall p, In p l -> p i = sh i).
    { induction l as [|a l IH]; intros E p Hp; [destruct Hp|]. rewrite lsum_cons in E.
      assert (L := lsum_nonneg (fun p => (p i - sh i) * (p i - sh i)) l (fun p => Rle_0_sqr (p i - sh i))).
      assert (Q := Rle_0_sqr (a i - sh i)). unfold Rsqr in Q.
      destruct Hp as [->|Hp]; [|apply IH; [lra|exact Hp]].
      assert (Q2 : (p i - sh i) * (p i - sh i) = 0) by lra. apply Rmult_integral in Q2. lra. }
    intros p q Hp Hq. rewrite (G pts VZ p Hp), (G pts VZ q Hq). reflexivity.
  - intro E. rewrite Hs. fold V. assert (VZ : V = 0).
    { destruct pts as [|p0 l]; [cbn in P; lra|].
      assert (A : forall l' c, (forall p, In p l' -> p i = c) -> lsum (fun p => p i) l' = INR (length l') * c).
      { induction l' as [|a l' IH]; intros c Hc; [cbn; ring|].
        cbn [length]. rewrite S_INR, lsum_cons.
        rewrite (IH c) by (intros; apply Hc; right; assumption). rewrite (Hc a) by (left; reflexivity). ring. }
      assert (M : sh i = p0 i).
      { assert (M := Hm i). rewrite (A _ (p0 i)) in M by (intros p Hp; apply E; [exact Hp|left; reflexivity]).
        apply Rmult_eq_reg_l in M; [exact M|apply Rgt_not_eq, P]. }
      unfold V. clear V V0 Hm Hs H P I A.
      assert (B : forall l', (forall p, In p l' -> p i = sh i) -> lsum (fun p => (p i - sh i) * (p i - sh i)) l' = 0).
      { induction l' as [|a l' IH]; intro Hc; [reflexivity|]. rewrite lsum_cons, IH by (intros; apply Hc; right; assumption). rewrite (Hc a) by (left; reflexivity). ring. }
      apply B. intros p Hp. rewrite M. apply E; [exact Hp|left; reflexivity]. }
    rewrite VZ, Rmult_0_r. apply sqrt_0.
Qed.
Definition homogeneous (n : nat) (p : vect) : vect := fun i => if (i =? n)%nat then 1 else p i.
Lemma norm_matrix_apply n sh sc b (x : vect) : veq (S n) (mvec (S n) (norm_matrix n sh sc b) x)
  (fun i => if (i =? n)%nat then x n
            else if b then sc i * x i + sh i * x n else 1 / sc i * x i - 1 / sc i * sh i * x n).
Proof.
  intros i Hi. unfold mvec. destruct (Nat.eq_dec i n) as [->|N].
  - rewrite (sum_single _ _ n) by (try lia; intros l Hl Nl; unfold norm_matrix; rewrite Nat.eqb_refl;
      apply Nat.eqb_neq in Nl; rewrite Nl; ring).
    unfold norm_matrix. rewrite !Nat.eqb_refl. ring.
  - rewrite sum_S. rewrite (sum_single _ _ i).
    + unfold norm_matrix. rewrite (proj2 (Nat.eqb_neq i n) N), !Nat.eqb_refl. destruct b; ring.
    + lia.
    + intros l Hl Nl. unfold norm_matrix. rewrite (proj2 (Nat.eqb_neq i n) N).
      rewrite (proj2 (Nat.eqb_neq l n)) by lia. rewrite (proj2 (Nat.eqb_neq i l)) by congruence. ring.
Qed.
Theorem normalization_matrix_normalizes n sh sc p : (forall i, (i < n)%nat -> sc i <> 0) ->
  veq (S n) (mvec (S n) (norm_matrix n sh sc false) (homogeneous n p)) (homogeneous n (normalized sh sc p)) /\
  veq (S n) (mvec (S n) (norm_matrix n sh sc true) (homogeneous n (normalized sh sc p))) (homogeneous n p).
Proof.
  intro H. split; intros i Hi; rewrite norm_matrix_apply by exact Hi; unfold homogeneous; rewrite Nat.eqb_refl;
    destruct (i =? n)%nat eqn:E; try reflexivity; apply Nat.eqb_neq in E; unfold normalized; field; apply H; lia.
Qed.
Theorem normalization_matrix_inverse n sh sc : (forall i, (i < n)%nat -> sc i <> 0) ->
  meq (S n) (S n) (mmul (S n) (norm_matrix n sh sc true) (norm_matrix n sh sc false)) eye /\
  meq (S n) (S n) (mmul (S n) (norm_matrix n sh sc false) (norm_matrix n sh sc true)) eye.
Proof.
  intro H. split; intros i j Hi Hj.
  - change (mvec (S n) (norm_matrix n sh sc true) (fun l => norm_matrix n sh sc false l j) i = eye i j).
    rewrite norm_matrix_apply by exact Hi. unfold norm_matrix, eye. rewrite Nat.eqb_refl.
    destruct (i =? n)%nat eqn:E.
    + apply Nat.eqb_eq in E; subst. rewrite (Nat.eqb_sym n j). destruct (j =? n)%nat; reflexivity.
    + apply Nat.eqb_neq in E. assert (sc i <> 0) by (apply H; lia).
      destruct (j =? n)%nat eqn:F.
      * apply Nat.eqb_eq in F; subst. rewrite (proj2 (Nat.eqb_neq i n) E). field; assumption.
      * destruct (i =? j)%nat; field; assumption.
  - change (mvec (S n) (norm_matrix n sh sc false) (fun l => norm_matrix n sh sc true l j) i = eye i j).
    rewrite norm_matrix_apply by exact Hi. unfold norm_matrix, eye. rewrite Nat.eqb_refl.
    destruct (i =? n)%nat eqn:E.
    + apply Nat.eqb_eq in E; subst. rewrite (Nat.eqb_sym n j). destruct (j =? n)%nat; reflexivity.
    + apply Nat.eqb_neq in E. assert (sc i <> 0) by (apply H; lia).
      destruct (j =? n)%nat eqn:F.
      * apply Nat.eqb_eq in F; subst. rewrite (proj2 (Nat.eqb_neq i n) E). field; assumption.
      * destruct (i =? j)%nat; field; assumption.
Qed.
Example ex_normalization : exists sh sc, norm_params [vlist [1; 5]; vlist [3; 5]] = Some (sh, sc) /\
  sh 0%nat = 2 /\ sc 0%nat = 1 /\ sc 1%nat = 0.
Proof.
  eexists _, _; split; [reflexivity|]. cbn. unfold vscale, vadd; cbn.
  assert (E : 1 / (1 + 1) * (0 + 1 + 3) = 2) by field.
  assert (F : 1 / (1 + 1) * (0 + 1 * 1 + 3 * 3) = 5) by field.
  assert (G : 1 / (1 + 1) * (0 + 5 + 5) = 5) by field.
  assert (I : 1 / (1 + 1) * (0 + 5 * 5 + 5 * 5) = 25) by field.
  rewrite E, F, G, I. repeat split.
  - replace (5 - 2 * 2) with 1 by ring. apply sqrt_1.
  - replace (25 - 5 * 5) with 0 by ring. apply sqrt_0.
Qed.
Print Assumptions normalization_centres. Print Assumptions normalization_scale_zero.
Print Assumptions normalization_matrix_normalizes. Print Assumptions normalization_matrix_inverse.

(** ** C67: the pseudo-inverse satisfies the four Penrose conditions, for every rank and shape *)
(** what gesvd promises: A = U diag(s) Vt with orthonormal columns of U and rows of Vt *)
Definition svd (n m : nat) (A U : mat) (s : vect) (Vt : mat) : Prop :=
  let r := Nat.min n m in
  (forall i j, (i < n)%nat -> (j < m)%nat -> A i j = sum r (fun k => U i k * s k * Vt k j)) /\
  meq r r (mmul n (tr U) U) eye /\ meq r r (mmul m Vt (tr Vt)) eye.
Definition penrose (n m : nat) (A X : mat) : Prop :=
  meq n m (mmul n (mmul m A X) A) A /\ meq m n (mmul m (mmul n X A) X) X /\
  meq n n (tr (mmul m A X)) (mmul m A X) /\ meq m m (tr (mmul n X A)) (mmul n X A).
Theorem pseudo_invert_penrose n m A U s Vt : svd n m A U s Vt -> penrose n m A (pseudo_invert n m U s Vt).
Proof.
  intros (HA & HU & HV). set (r := Nat.min n m) in *.
  set (X := pseudo_invert n m U s Vt).
  assert (FA : forall i j, (i < n)%nat -> (j < m)%nat -> A i j = form r U s Vt i j) by exact HA.
  assert (FX : forall i j, X i j = form r (tr Vt) (pinv_s s) (tr U) i j)
    by (intros; apply pseudo_invert_form).
  assert (AX : forall i j, (i < n)%nat -> mmul m A X i j = form r U (fun k => s k * pinv_s s k) (tr U) i j).
  { intros i j Hi. rewrite <- (form_mul r m U s Vt (tr Vt) (pinv_s s) (tr U) HV).
    apply sum_ext; intros l Hl. rewrite FA, FX by assumption. reflexivity. }
  assert (XA : forall i j, (j < m)%nat -> mmul n X A i j = form r (tr Vt) (fun k => pinv_s s k * s k) Vt i j).
  { intros i j Hj. rewrite <- (form_mul r n (tr Vt) (pinv_s s) (tr U) U s Vt HU).
    apply sum_ext; intros l Hl. rewrite FA, FX by assumption. reflexivity. }
  repeat split.
  - intros i j Hi Hj. rewrite FA by assumption.
    transitivity (mmul n (form r U (fun k => s k * pinv_s s k) (tr U)) (form r U s Vt) i j).
    + apply sum_ext; intros l Hl. rewrite AX, FA by assumption. reflexivity.
    + rewrite (form_mul r n _ _ _ _ _ _ HU). apply form_ext; intros k _. apply pinv_s_l.
  - intros i j Hi Hj. rewrite FX.
    transitivity (mmul m (form r (tr Vt) (fun k => pinv_s s k * s k) Vt) (form r (tr Vt) (pinv_s s) (tr U)) i j).
    + apply sum_ext; intros l Hl. rewrite XA, FX by assumption. reflexivity.
    + rewrite (form_mul r m _ _ _ _ _ _ HV). apply form_ext; intros k _. apply pinv_s_r.
  - intros i j Hi Hj. unfold tr at 1. rewrite !AX by assumption.
    unfold form, tr. apply sum_ext; intros; ring.
  - intros i j Hi Hj. unfold tr at 1. rewrite !XA by assumption.
    unfold form, tr. apply sum_ext; intros; ring.
Qed.
(** the Penrose conditions determine the matrix, so the result is THE pseudo-inverse *)
Lemma mmul_symm_swap n P Q p q : (p < n)%nat -> (q < n)%nat ->
  meq n n (tr P) P -> meq n n (tr Q) Q -> mmul n P Q q p = mmul n Q P p q.
Proof.
  intros Hp Hq HP HQ. unfold mmul. apply sum_ext; intros l Hl.
  rewrite <- (HP q l Hq Hl), <- (HQ l p Hl Hp). unfold tr. ring.
Qed.
Lemma mmul_ext_l n A A' B i j : (forall l, (l < n)%nat -> A i l = A' i l) -> mmul n A B i j = mmul n A' B i j.
Proof. intro H; apply sum_ext; intros l Hl; rewrite H by exact Hl; reflexivity. Qed.
Lemma mmul_ext_r n A B B' i j : (forall l, (l < n)%nat -> B l j = B' l j) -> mmul n A B i j = mmul n A B' i j.
Proof. intro H; apply sum_ext; intros l Hl; rewrite H by exact Hl; reflexivity. Qed.
Theorem penrose_unique n m A X Y : penrose n m A X -> penrose n m A Y -> meq m n X Y.
Proof.
  intros (X1 & X2 & X3 & X4) (Y1 & Y2 & Y3 & Y4) i j Hi Hj.
  assert (PX : forall p q, (p < n)%nat -> (q < n)%nat -> mmul m A X p q = mmul m A Y p q).
  { intros p q Hp Hq. rewrite <- X3 by assumption. unfold tr at 1.
    rewrite (mmul_ext_l m A (mmul n (mmul m A Y) A)) by (intros l Hl; symmetry; apply Y1; assumption).
    rewrite mmul_assoc. rewrite (mmul_symm_swap n (mmul m A Y) (mmul m A X) p q Hp Hq Y3 X3).
    rewrite <- mmul_assoc. apply mmul_ext_l; intros l Hl. apply X1; assumption. }
  assert (QX : forall p q, (p < m)%nat -> (q < m)%nat -> mmul n X A p q = mmul n Y A p q).
  { intros p q Hp Hq. rewrite <- X4 by assumption. unfold tr at 1.
    rewrite (mmul_ext_r n X A (mmul m A (mmul n Y A))) by (intros l Hl; rewrite <- mmul_assoc; symmetry; apply Y1; assumption).
    rewrite <- mmul_assoc. rewrite (mmul_symm_swap m (mmul n X A) (mmul n Y A) p q Hp Hq X4 Y4).
    rewrite mmul_assoc. apply mmul_ext_r; intros l Hl. rewrite <- mmul_assoc. apply X1; assumption. }
  rewrite <- X2, <- Y2 by assumption.
  rewrite (mmul_ext_l m (mmul n X A) (mmul n Y A)) by (intros l Hl; apply QX; assumption).
  rewrite !mmul_assoc. apply mmul_ext_r; intros l Hl. apply PX; assumption.
Qed.
(** consequence: x = A^+ b is a least-squares solution of A x = b *)
Theorem pseudo_invert_least_squares n m A X b y : penrose n m A X ->
  let res v := fun i => mvec m A v i - b i in
  vdot n (res (mvec n X b)) (res (mvec n X b)) <= vdot n (res y) (res y).
Proof.
  intros (H1 & _ & H3 & _). cbv beta zeta.
  set (e := fun i => mvec m A (mvec n X b) i - b i).
  set (d := fun i => mvec m A (fun k => y k - mvec n X b k) i).
  assert (O : forall k, (k < m)%nat -> sum n (fun i => A i k * e i) = 0).
  { intros k Hk.
    transitivity (sum n (fun i => A i k * (mvec n (mmul m A X) b i)) - sum n (fun i => A i k * b i)).
    { rewrite <- sum_minus. apply sum_ext; intros i Hi. unfold e. rewrite <- mvec_mmul. ring. }
    assert (Z : sum n (fun i => A i k * mvec n (mmul m A X) b i) = sum n (fun i => A i k * b i)).
    { transitivity (sum n (fun l => b l * sum n (fun i => mmul m A X l i * A i k))).
      - unfold mvec. transitivity (sum n (fun i => sum n (fun l => b l * (mmul m A X l i * A i k)))).
        + apply sum_ext; intros i Hi. rewrite <- sum_scal_l. apply sum_ext; intros l Hl.
          rewrite <- (H3 i l Hi Hl). unfold tr. ring.
        + rewrite sum_swap. apply sum_ext; intros l _. apply sum_scal_l.
      - apply sum_ext; intros l Hl. change (sum n (fun i => mmul m A X l i * A i k)) with (mmul n (mmul m A X) A l k).
        rewrite H1 by assumption. ring. }
    rewrite Z. ring. }
  assert (OD : sum n (fun i => d i * e i) = 0).
  { unfold d, mvec at 1. transitivity (sum m (fun k => (y k - mvec n X b k) * sum n (fun i => A i k * e i))).
    - transitivity (sum n (fun i => sum m (fun k => (y k - mvec n X b k) * (A i k * e i)))).
      + apply sum_ext; intros i _. rewrite <- sum_scal_r. apply sum_ext; intros k _. ring.
      + rewrite sum_swap. apply sum_ext; intros k _. apply sum_scal_l.
    - apply sum_zero; intros k Hk. rewrite O by exact Hk. ring. }
  assert (E : vdot n (fun i => mvec m A y i - b i) (fun i => mvec m A y i - b i) =
              vdot n e e + 2 * sum n (fun i => d i * e i) + vdot n d d).
  { unfold vdot. rewrite <- sum_scal_l, <- !sum_plus. apply sum_ext; intros i _.
    assert (D : mvec m A y i - b i = e i + d i).
    { unfold e, d. set (x := mvec n X b).
      assert (L : mvec m A (fun k => y k - x k) i = mvec m A y i - mvec m A x i).
      { unfold mvec. rewrite <- sum_minus. apply sum_ext; intros; ring. }
      rewrite L. ring. }
    rewrite D. ring. }
  rewrite E, OD. assert (0 <= vdot n d d) by (apply sum_nonneg; intros; nra). fold e. lra.
Qed.
(** a rank-deficient example meeting the hypotheses *)
Example ex_svd : svd 2 1 (mlist [[3];[4]]) (mlist [[3/5];[4/5]]) (vlist [5]) (mlist [[1]]) /\
  svd 2 2 (mlist [[2;0];[0;0]]) eye (vlist [2;0]) eye.
Proof.
  split; repeat split; intros i j Hi Hj; cbv [Nat.min] in *; small Hi; small Hj; cbv [mlist vlist nth sum eye Nat.eqb tr mmul]; field.
Qed.
Print Assumptions pseudo_invert_penrose. Print Assumptions penrose_unique. Print Assumptions pseudo_invert_least_squares.

(** ** C68: change of handedness *)
(** mirroring the z axis *)
Definition mirror : mat := mlist [[1;0;0;0];[0;1;0;0];[0;0;-1;0];[0;0;0;1]].
Theorem lh_to_rh_conjugation m : meq 4 4 (lh_to_rh m) (mmul 4 (mmul 4 mirror m) mirror).
Proof.
  intros i j Hi Hj. small Hi; small Hj;
    cbv [lh_to_rh neg_at Nat.eqb andb mmul sum mirror mlist nth]; ring.
Qed.
Theorem lh_to_rh_involutive m : meq 4 4 (lh_to_rh (lh_to_rh m)) m.
Proof.
  intros i j Hi Hj. small Hi; small Hj; cbv [lh_to_rh neg_at Nat.eqb andb]; ring.
Qed.
Theorem lh_to_rh_multiplicative a b : meq 4 4 (lh_to_rh (mmul 4 a b)) (mmul 4 (lh_to_rh a) (lh_to_rh b)).
Proof.
  intros i j Hi Hj. small Hi; small Hj; cbv [lh_to_rh neg_at Nat.eqb andb mmul sum]; ring.
Qed.
(** a mirrored point is moved to the mirrored image, and rotations stay rotations *)
Theorem lh_to_rh_points m p : veq 4 (mvec 4 (lh_to_rh m) (mvec 4 mirror p)) (mvec 4 mirror (mvec 4 m p)).
Proof.
  intros i Hi. small Hi; cbv [lh_to_rh neg_at Nat.eqb andb mvec sum mirror mlist nth]; ring.
Qed.
Theorem lh_to_rh_rotation m : det3 (lh_to_rh m) = det3 m /\
  (meq 3 3 (mmul 3 m (tr m)) eye -> meq 3 3 (mmul 3 (lh_to_rh m) (tr (lh_to_rh m))) eye).
Proof.
  split; [cbv [det3 lh_to_rh neg_at Nat.eqb andb]; ring|].
  intros H i j Hi Hj.
  transitivity ((if (i =? 2)%nat then -1 else 1) * (if (j =? 2)%nat then -1 else 1) * mmul 3 m (tr m) i j).
  - small Hi; small Hj; cbv [lh_to_rh neg_at Nat.eqb andb mmul sum tr]; ring.
  - rewrite H by assumption. small Hi; small Hj; cbv [eye Nat.eqb]; ring.
Qed.
Print Assumptions lh_to_rh_conjugation. Print Assumptions lh_to_rh_multiplicative. Print Assumptions lh_to_rh_rotation.
