(** Symmetric matrices have an orthonormal basis of eigenvectors, and all matrices have a singular
    value decomposition; specification support for the contracts of the LAPACK routines, models no
    code. *)
From Coq Require Import Reals List Arith Bool Lra Lia Psatz Classical.
Import ListNotations.
From Verif Require Import Mat MatPd.
Open Scope R_scope.

(** * Homogeneous systems *)
(** fewer equations than unknowns have a nonzero solution *)
Lemma kernel_exists n (rows : list vect) : (length rows < n)%nat -> exists x j, (j < n)%nat /\ x j <> 0 /\ forall r, In r rows -> vdot n r x = 0.
Proof.
  revert rows. induction n as [|n IH]; intros rows L; [lia|].
  destruct (Forall_Exists_dec (fun r : vect => r n = 0) (fun r => Req_EM_T (r n) 0) rows) as [Z|N].
  - exists (fun j => if (j =? n)%nat then 1 else 0), n. split; [lia|]. split; [rewrite Nat.eqb_refl; lra|].
    intros r Hr. rewrite Forall_forall in Z. unfold vdot. cbn [sum]. rewrite Nat.eqb_refl, (Z r Hr).
    rewrite sum_zero; [ring|]. intros i Hi. rewrite (proj2 (Nat.eqb_neq i n)) by lia. ring.
  - apply Exists_exists in N. destruct N as (r & Hr & NZ). apply in_split in Hr. destruct Hr as (l1 & l2 & ->).
    set (e := fun s : vect => (fun j => s j - s n / r n * r j) : vect).
    destruct (IH (map e (l1 ++ l2))) as (x & j & Hj & NX & HS).
    { rewrite map_length, app_length. rewrite app_length in L. cbn [length] in L. lia. }
    set (x' := fun k => if (k =? n)%nat then - vdot n r x / r n else x k).
    assert (EX : forall s, vdot (S n) s x' = vdot n s x + s n * (- vdot n r x / r n)).
    { intros s. unfold vdot. cbn [sum]. unfold x' at 2. rewrite Nat.eqb_refl. f_equal. apply sum_ext. intros i Hi. unfold x'. rewrite (proj2 (Nat.eqb_neq i n)) by lia. reflexivity. }
    exists x', j. split; [lia|]. split; [unfold x'; rewrite (proj2 (Nat.eqb_neq j n)) by lia; exact NX|].
    intros s Hs. rewrite EX. assert (K : In s (l1 ++ l2) \/ s = r).
    { apply in_app_or in Hs. destruct Hs as [Hs|[Hs|Hs]]; [left; apply in_or_app; tauto|right; symmetry; exact Hs|left; apply in_or_app; tauto]. }
    destruct K as [I| ->].
    + assert (E := HS (e s) (in_map e _ _ I)). unfold vdot in *. unfold e in E.
      rewrite (sum_ext _ _ (fun k => s k * x k + (- (s n / r n)) * (r k * x k))), sum_plus, sum_scal_l in E by (intros; ring).
      transitivity (sum n (fun k => s k * x k) + - (s n / r n) * sum n (fun k => r k * x k)); [field; exact NZ|exact E].
    + field. exact NZ.
Qed.
Lemma dot_pos n x j : (j < n)%nat -> x j <> 0 -> 0 < vdot n x x.
Proof.
  intros Hj NX. assert (NN : forall i, (i < n)%nat -> 0 <= x i * x i) by (intros; apply Rle_0_sqr).
  destruct (Req_dec (vdot n x x) 0) as [Z|Z]; [|pose proof (sum_nonneg n _ NN); unfold vdot in *; lra].
  exfalso. apply NX. pose proof (sum_nonneg_zero n _ NN Z j Hj) as E. cbv beta in E. nra.
Qed.
Lemma dot_scale n c x y : vdot n (fun i => c * x i) y = c * vdot n x y.
Proof. unfold vdot. rewrite <- sum_scal_l. apply sum_ext. intros; ring. Qed.
Lemma dot_scale_r n c x y : vdot n x (fun i => c * y i) = c * vdot n x y.
Proof. unfold vdot. rewrite <- sum_scal_l. apply sum_ext. intros; ring. Qed.
Lemma dot_comm n x y : vdot n x y = vdot n y x.
Proof. unfold vdot. apply sum_ext. intros; ring. Qed.
(** ... and one of length one *)
Lemma kernel_unit n (rows : list vect) : (length rows < n)%nat -> exists x, vdot n x x = 1 /\ forall r, In r rows -> vdot n r x = 0.
Proof.
  intros L. destruct (kernel_exists n rows L) as (x & j & Hj & NX & HS). assert (PD := dot_pos n x j Hj NX).
  exists (fun i => / sqrt (vdot n x x) * x i). split.
  - rewrite dot_scale, dot_scale_r, <- Rmult_assoc, <- Rinv_mult, sqrt_sqrt by lra. field. lra.
  - intros r Hr. rewrite dot_scale_r, (HS r Hr). ring.
Qed.

(** * Orthonormal columns *)
Definition cols_orthonormal (m n : nat) (U : mat) : Prop := forall k l, (k < n)%nat -> (l < n)%nat -> sum m (fun i => U i k * U i l) = eye k l.
(** some orthonormal columns can be completed *)
Lemma complete_columns m n (U : mat) (good : nat -> bool) : (n <= m)%nat ->
  (forall k l, (k < n)%nat -> (l < n)%nat -> good k = true -> good l = true -> sum m (fun i => U i k * U i l) = eye k l) ->
  exists U', (forall k i, good k = true -> U' i k = U i k) /\ cols_orthonormal m n U'.
Proof.
  intros L HO.
  assert (ST : forall j, (j <= n)%nat -> exists U', (forall k i, good k = true -> U' i k = U i k) /\
    forall k l, (k < n)%nat -> (l < n)%nat -> (good k || (k <? j)%nat) = true -> (good l || (l <? j)%nat) = true -> sum m (fun i => U' i k * U' i l) = eye k l).
  { induction j as [|j IH]; intros Hj.
    - exists U. split; [reflexivity|]. intros k l Hk Hl Gk Gl. rewrite orb_false_r in Gk, Gl. auto.
    - destruct (IH ltac:(lia)) as (U' & AG & OR). destruct (good j) eqn:GJ.
      + exists U'. split; [exact AG|]. intros k l Hk Hl Gk Gl. apply OR; try assumption.
        * destruct (good k) eqn:G; [reflexivity|]. cbn [orb] in *. apply Nat.ltb_lt in Gk. apply Nat.ltb_lt. destruct (Nat.eq_dec k j); [congruence|lia].
        * destruct (good l) eqn:G; [reflexivity|]. cbn [orb] in *. apply Nat.ltb_lt in Gl. apply Nat.ltb_lt. destruct (Nat.eq_dec l j); [congruence|lia].
      + set (sel := fun k => good k || (k <? j)%nat).
        destruct (kernel_unit m (map (fun k i => if sel k then U' i k else 0) (seq 0 j ++ seq (S j) (n - j - 1)))) as (x & XX & XO).
        { rewrite map_length, app_length, !seq_length. lia. }
        assert (XK : forall k, (k < n)%nat -> k <> j -> sel k = true -> sum m (fun i => U' i k * x i) = 0).
        { intros k Hk NK SK. assert (I : In (fun i => if sel k then U' i k else 0) (map (fun k i => if sel k then U' i k else 0) (seq 0 j ++ seq (S j) (n - j - 1)))).
          { apply (in_map (fun k i => if sel k then U' i k else 0)). apply in_or_app. destruct (le_lt_dec j k); [right; apply in_seq; lia|left; apply in_seq; lia]. }
          specialize (XO _ I). unfold vdot in XO. rewrite SK in XO. exact XO. }
        exists (fun i k => if (k =? j)%nat then x i else U' i k). split.
        * intros k i G. destruct (Nat.eqb_spec k j) as [->|_]; [congruence|apply AG, G].
        * assert (SEL : forall k, k <> j -> (good k || (k <? S j)%nat) = true -> sel k = true).
          { intros k N G. unfold sel. destruct (good k); [reflexivity|]. cbn [orb] in *. apply Nat.ltb_lt in G. apply Nat.ltb_lt. lia. }
          intros k l Hk Hl Gk Gl. destruct (Nat.eqb_spec k j) as [->|Nk]; destruct (Nat.eqb_spec l j) as [->|Nl].
          -- unfold eye. rewrite Nat.eqb_refl. exact XX.
          -- unfold eye. rewrite (proj2 (Nat.eqb_neq j l)) by lia. rewrite <- (XK l Hl Nl (SEL l Nl Gl)). apply sum_ext. intros; ring.
          -- unfold eye. rewrite (proj2 (Nat.eqb_neq k j)) by lia. exact (XK k Hk Nk (SEL k Nk Gk)).
          -- apply OR; try assumption; apply SEL; assumption. }
  destruct (ST n (le_n n)) as (U' & AG & OR). exists U'. split; [exact AG|]. intros k l Hk Hl.
  apply OR; try assumption; apply orb_true_iff; right; apply Nat.ltb_lt; assumption.
Qed.
(** the rows of a square matrix with orthonormal columns are orthonormal *)
Lemma square_orthonormal n H : cols_orthonormal n n H -> meq n n (mmul n (tr H) H) eye /\ meq n n (mmul n H (tr H)) eye.
Proof.
  intros HO. assert (HC : meq n n (mmul n (tr H) H) eye) by (intros k l Hk Hl; exact (HO k l Hk Hl)). split; [exact HC|].
  (* every vector is H (H^T x) *)
  assert (EX : forall x i, (i < n)%nat -> sum n (fun k => H i k * sum n (fun j => H j k * x j)) = x i).
  { intros x i0 Hi0. set (y := fun i => x i - sum n (fun k => H i k * sum n (fun j => H j k * x j))).
    destruct (Req_dec (y i0) 0) as [Z|NZ]; [unfold y in Z; lra|exfalso].
    assert (YO : forall k, (k < n)%nat -> sum n (fun i => H i k * y i) = 0).
    { intros k Hk. unfold y. rewrite (sum_ext _ _ (fun i => H i k * x i - sum n (fun l => H i k * H i l * sum n (fun j => H j l * x j)))).
      2:{ intros i Hi. rewrite Rmult_minus_distr_l, <- sum_scal_l. f_equal. apply sum_ext. intros; ring. }
      rewrite sum_minus, sum_swap. rewrite (sum_single n (fun j => sum n (fun i => H i k * H i j * sum n (fun j0 => H j0 j * x j0))) k Hk).
      - cbv beta; rewrite sum_scal_r, (HO k k Hk Hk). unfold eye. rewrite Nat.eqb_refl. ring.
      - intros l Hl N. rewrite sum_scal_r, (HO k l Hk Hl). unfold eye. rewrite (proj2 (Nat.eqb_neq k l)) by lia. ring. }
    set (row := fun i => (fun k => if (k <? n)%nat then H i k else y i) : vect).
    destruct (kernel_exists (S n) (map row (seq 0 n))) as (c & j & Hj & NC & HS); [rewrite map_length, seq_length; lia|].
    assert (EQ : forall i, (i < n)%nat -> sum n (fun k => H i k * c k) + y i * c n = 0).
    { intros i Hi. assert (I : In i (seq 0 n)) by (apply in_seq; lia). assert (E := HS (row i) (in_map row _ _ I)). unfold vdot in E. cbn [sum] in E.
      rewrite (sum_ext n _ (fun k => H i k * c k)) in E by (intros k Hk; unfold row; rewrite (proj2 (Nat.ltb_lt k n) Hk); reflexivity).
      unfold row in E. rewrite Nat.ltb_irrefl in E. exact E. }
    assert (YY := dot_pos n y i0 Hi0 NZ).
    assert (C0 : c n = 0).
    { assert (E : sum n (fun i => y i * (sum n (fun k => H i k * c k) + y i * c n)) = 0) by (apply sum_zero; intros i Hi; rewrite EQ by exact Hi; ring).
      rewrite (sum_ext _ _ (fun i => sum n (fun k => H i k * y i * c k) + y i * y i * c n)) in E.
      2:{ intros i Hi. rewrite Rmult_plus_distr_l, <- sum_scal_l. f_equal; [apply sum_ext; intros|]; ring. }
      rewrite sum_plus, sum_swap, sum_scal_r in E. rewrite (sum_zero n) in E; [unfold vdot in YY; nra|].
      intros k Hk. rewrite sum_scal_r, YO by exact Hk. ring. }
    destruct (Nat.eq_dec j n) as [->|N]; [contradiction|]. assert (Hjn : (j < n)%nat) by lia. apply NC.
    assert (E : sum n (fun i => H i j * (sum n (fun k => H i k * c k) + y i * c n)) = 0) by (apply sum_zero; intros i Hi; rewrite EQ by exact Hi; ring).
    rewrite (sum_ext _ _ (fun i => sum n (fun k => H i j * H i k * c k))) in E.
    2:{ intros i Hi. rewrite C0, Rmult_0_r, Rplus_0_r, <- sum_scal_l. apply sum_ext; intros; ring. }
    rewrite sum_swap, (sum_single n _ j Hjn) in E.
    - cbv beta in E. rewrite sum_scal_r, (HO j j Hjn Hjn) in E. unfold eye in E. rewrite Nat.eqb_refl in E. lra.
    - intros l Hl NL. rewrite sum_scal_r, (HO j l Hjn Hl). unfold eye. rewrite (proj2 (Nat.eqb_neq j l)) by lia. ring. }
  intros i j Hi Hj. rewrite <- (EX (fun l => eye l j) i Hi). unfold mmul, tr. apply sum_ext. intros k Hk. f_equal.
  rewrite (sum_single n _ j Hj); [unfold eye; rewrite Nat.eqb_refl; ring|]. intros l Hl N. unfold eye. rewrite (proj2 (Nat.eqb_neq l j)) by lia. ring.
Qed.

(** * The smallest eigenvalue *)
Lemma coord_le n x i : (i < n)%nat -> x i * x i <= vdot n x x.
Proof.
  intros Hi. unfold vdot. apply Rle_trans with (sum n (fun j => if (j =? i)%nat then x j * x j else 0)).
  - rewrite (sum_single n _ i Hi); [rewrite Nat.eqb_refl; lra|]. intros j Hj N. rewrite (proj2 (Nat.eqb_neq j i)) by lia. reflexivity.
  - apply sum_le. intros j Hj. destruct (j =? i)%nat; [lra|apply Rle_0_sqr].
Qed.
Lemma quad_bound n A : exists C, 0 < C /\ forall x, - C * vdot n x x <= quad n A x <= C * vdot n x x.
Proof.
  set (D := sum n (fun i => sum n (fun j => Rabs (A i j)))).
  assert (P0 : 0 <= D) by (apply sum_nonneg; intros; apply sum_nonneg; intros; apply Rabs_pos).
  exists (1 + D). split; [lra|]. intros x.
  assert (XN : 0 <= vdot n x x) by (apply sum_nonneg; intros; apply Rle_0_sqr).
  assert (T : forall i j, (i < n)%nat -> (j < n)%nat -> Rabs (A i j) * - vdot n x x <= x i * (A i j * x j) <= Rabs (A i j) * vdot n x x).
  { intros i j Hi Hj. assert (XI := coord_le n x i Hi). assert (XJ := coord_le n x j Hj).
    assert (M : - vdot n x x <= x i * x j <= vdot n x x) by nra.
    assert (AP := Rabs_pos (A i j)). unfold Rabs in *. destruct (Rcase_abs (A i j)); nra. }
  assert (U : D * - vdot n x x <= quad n A x <= D * vdot n x x).
  { unfold quad, vdot at 2 3, mvec, D. rewrite <- !sum_scal_r. split; apply sum_le; intros i Hi; rewrite <- sum_scal_r, <- sum_scal_l; apply sum_le; intros j Hj; apply (T i j Hi Hj). }
  nra.
Qed.
Lemma quad_line n B x y t : symm n B -> quad n B (fun i => x i + t * y i) = quad n B x + 2 * t * vdot n y (mvec n B x) + t * t * quad n B y.
Proof.
  intros HS. unfold quad, vdot, mvec.
  assert (SW : sum n (fun i => x i * sum n (fun j => B i j * y j)) = sum n (fun i => y i * sum n (fun j => B i j * x j))).
  { rewrite (sum_ext n (fun i => x i * _) (fun i => sum n (fun j => x i * (B i j * y j)))) by (intros; rewrite <- sum_scal_l; reflexivity).
    rewrite sum_swap. apply sum_ext. intros i Hi. rewrite <- sum_scal_l. apply sum_ext. intros j Hj. rewrite (HS j i Hj Hi). ring. }
  rewrite (sum_ext n _ (fun i => x i * sum n (fun j => B i j * x j) + (t * (x i * sum n (fun j => B i j * y j)) + (t * (y i * sum n (fun j => B i j * x j)) + t * t * (y i * sum n (fun j => B i j * y j)))))).
  2:{ intros i Hi. rewrite (sum_ext n _ (fun j => B i j * x j + t * (B i j * y j))) by (intros; ring). rewrite sum_plus, sum_scal_l. ring. }
  rewrite !sum_plus, !sum_scal_l, SW. ring.
Qed.
(** a positive definite form is bounded below by a multiple of the squared length *)
Lemma pd_uniform n B : symm n B -> pd n B -> exists d, 0 < d /\ forall x, d * vdot n x x <= quad n B x.
Proof.
  intros HS HP. set (W := pd_inverse n B). destruct (pd_inverse_spec n B HS HP) as [WS BW]. fold W in WS, BW.
  destruct (quad_bound n W) as (C & CP & HB). exists (/ C). split; [apply Rinv_0_lt_compat, CP|]. intros x.
  assert (PP : psd n B) by (apply pd_psd; exact HP).
  pose proof (PP (fun i => x i + (- / C) * mvec n W x i)) as Q. rewrite quad_line in Q by exact HS.
  assert (E1 : forall i, (i < n)%nat -> mvec n B (mvec n W x) i = x i).
  { intros i Hi. rewrite <- mvec_mmul. rewrite (mvec_ext n n _ eye x x BW (fun _ _ => eq_refl) i Hi). apply mvec_eye. exact Hi. }
  assert (E2 : vdot n (mvec n W x) (mvec n B x) = vdot n x x).
  { unfold vdot, mvec. transitivity (sum n (fun j => mvec n B (mvec n W x) j * x j)); [|apply sum_ext; intros j Hj; rewrite E1 by exact Hj; reflexivity].
    rewrite (sum_ext n _ (fun i => sum n (fun j => mvec n W x i * (B i j * x j)))) by (intros; rewrite <- sum_scal_l; reflexivity).
    rewrite sum_swap. apply sum_ext. intros j Hj. unfold mvec at 2. rewrite <- sum_scal_r. apply sum_ext. intros i Hi. rewrite (HS i j Hi Hj). ring. }
  assert (E3 : quad n B (mvec n W x) = quad n W x).
  { unfold quad. rewrite (dot_comm n x). apply sum_ext. intros i Hi. rewrite E1 by exact Hi. reflexivity. }
  rewrite E2, E3 in Q. assert (HX := proj2 (HB x)).
  assert (CI : 0 < / C) by (apply Rinv_0_lt_compat, CP).
  assert (Z : / C * / C * quad n W x <= / C * vdot n x x).
  { apply Rle_trans with (/ C * / C * (C * vdot n x x)); [apply Rmult_le_compat_l; [nra|exact HX]|]. right. field. lra. }
  lra.
Qed.
(** a vector on which a positive semidefinite form vanishes is in the kernel *)
Lemma psd_kernel n B x : symm n B -> psd n B -> quad n B x = 0 -> forall i, (i < n)%nat -> mvec n B x i = 0.
Proof.
  intros HS HP Q0. set (y := mvec n B x).
  destruct (quad_bound n B) as (C & CP & HB).
  assert (Y0 : vdot n y y = 0).
  { assert (YN : 0 <= vdot n y y) by (apply sum_nonneg; intros; apply Rle_0_sqr).
    pose proof (HP (fun i => x i + (- / C) * y i)) as Q. rewrite quad_line, Q0 in Q by exact HS. fold y in Q.
    assert (CI : 0 < / C) by (apply Rinv_0_lt_compat, CP). assert (HX := proj2 (HB y)).
    assert (Z : / C * / C * quad n B y <= / C * vdot n y y).
    { apply Rle_trans with (/ C * / C * (C * vdot n y y)); [apply Rmult_le_compat_l; [nra|exact HX]|]. right. field. lra. }
    nra. }
  intros i Hi. pose proof (coord_le n y i Hi). rewrite Y0 in *. fold y. nra.
Qed.
Definition shift (A : mat) (l : R) : mat := fun i j => A i j - l * eye i j.
Lemma quad_shift n A l x : quad n (shift A l) x = quad n A x - l * vdot n x x.
Proof.
  unfold quad, vdot, mvec, shift. rewrite <- sum_scal_l, <- sum_minus. apply sum_ext. intros i Hi.
  rewrite (sum_ext n _ (fun j => A i j * x j - l * (eye i j * x j))) by (intros; ring). rewrite sum_minus, sum_scal_l.
  rewrite (sum_single n (fun j => eye i j * x j) i Hi); [unfold eye; rewrite Nat.eqb_refl; ring|].
  intros j Hj N. unfold eye. rewrite (proj2 (Nat.eqb_neq i j)) by lia. ring.
Qed.
(** the smallest eigenvalue of a symmetric matrix, with a unit eigenvector *)
Lemma least_eigenvalue n A : (0 < n)%nat -> symm n A ->
  exists l v, vdot n v v = 1 /\ (forall i, (i < n)%nat -> mvec n A v i = l * v i) /\ (forall x, l * vdot n x x <= quad n A x).
Proof.
  intros Hn HS. destruct (quad_bound n A) as (C & CP & HB).
  set (E := fun l => forall x, l * vdot n x x <= quad n A x).
  destruct (completeness E) as (l & UB & LUB).
  - exists (quad n A (fun i => if (i =? 0)%nat then 1 else 0)). intros l HL. specialize (HL (fun i => if (i =? 0)%nat then 1 else 0)).
    replace (vdot n _ _) with 1 in HL; [lra|]. unfold vdot. rewrite (sum_single n _ 0%nat Hn); [rewrite Nat.eqb_refl; ring|].
    intros j Hj N. rewrite (proj2 (Nat.eqb_neq j 0)) by lia. ring.
  - exists (- C). intros x. apply (HB x).
  - assert (EL : E l).
    { intros x. assert (XN : 0 <= vdot n x x) by (apply sum_nonneg; intros; apply Rle_0_sqr).
      destruct (Rle_dec (l * vdot n x x) (quad n A x)) as [H|H]; [exact H|exfalso].
      assert (XP : 0 < vdot n x x). { destruct XN as [|Z]; [assumption|]. exfalso. pose proof (HB x). rewrite <- Z in *. lra. }
      assert (U : l <= quad n A x / vdot n x x).
      { apply LUB. intros m HM. apply Rmult_le_reg_r with (vdot n x x); [exact XP|]. unfold Rdiv. rewrite Rmult_assoc, Rinv_l, Rmult_1_r by lra. apply HM. }
      apply H. apply Rmult_le_compat_r with (r := vdot n x x) in U; [|lra]. unfold Rdiv in U. rewrite Rmult_assoc, Rinv_l, Rmult_1_r in U by lra. exact U. }
    assert (SS : symm n (shift A l)) by (intros i j Hi Hj; unfold shift, eye; rewrite (HS i j Hi Hj), (Nat.eqb_sym i j); reflexivity).
    assert (PS : psd n (shift A l)) by (intros x; rewrite quad_shift; specialize (EL x); lra).
    assert (NP : ~ pd n (shift A l)).
    { intros HP. destruct (pd_uniform n _ SS HP) as (d & DP & HD). assert (X : E (l + d)).
      { intros x. specialize (HD x). rewrite quad_shift in HD. lra. }
      specialize (UB _ X). lra. }
    assert (EX : exists x, (exists i, (i < n)%nat /\ x i <> 0) /\ ~ 0 < quad n (shift A l) x).
    { apply not_all_not_ex. intros N. apply NP. intros x NX. destruct (Rlt_dec 0 (quad n (shift A l) x)); [assumption|]. exfalso. apply (N x). split; assumption. }
    destruct EX as (x & (i & Hi & NX) & NQ). assert (Q0 : quad n (shift A l) x = 0) by (specialize (PS x); lra).
    assert (K := psd_kernel n _ x SS PS Q0). assert (XP := dot_pos n x i Hi NX).
    assert (AX : forall j, (j < n)%nat -> mvec n A x j = l * x j).
    { intros j Hj. specialize (K j Hj). unfold mvec, shift in *. rewrite (sum_ext n _ (fun k => A j k * x k - l * (eye j k * x k))) in K by (intros; ring).
      rewrite sum_minus, sum_scal_l, (sum_single n (fun k => eye j k * x k) j Hj) in K.
      - unfold eye in K. rewrite Nat.eqb_refl in K. lra.
      - intros k Hk N. unfold eye. rewrite (proj2 (Nat.eqb_neq j k)) by lia. ring. }
    exists l, (fun j => / sqrt (vdot n x x) * x j). split; [|split; [|exact EL]].
    + rewrite dot_scale, dot_scale_r, <- Rmult_assoc, <- Rinv_mult, sqrt_sqrt by lra. field. lra.
    + intros j Hj. transitivity (/ sqrt (vdot n x x) * mvec n A x j); [|rewrite AX by exact Hj; ring].
      unfold mvec. rewrite <- sum_scal_l. apply sum_ext. intros; ring.
Qed.

(** * The spectral theorem *)
(** columns [k] of Z are orthonormal eigenvectors with eigenvalue [w k], in descending order *)
Definition eigen_desc (n : nat) (A : mat) (w : vect) (Z : mat) : Prop :=
  cols_orthonormal n n Z /\ (forall i j, (i < n)%nat -> (j < n)%nat -> A i j = sum n (fun k => Z i k * w k * Z j k)) /\
  (forall k l, (k <= l)%nat -> (l < n)%nat -> w l <= w k).
Lemma eigen_value n A w Z k : eigen_desc n A w Z -> (k < n)%nat -> quad n A (fun i => Z i k) = w k.
Proof.
  intros (HO & EA & _) Hk. unfold quad, vdot, mvec.
  assert (EI : forall i, (i < n)%nat -> sum n (fun j => A i j * Z j k) = Z i k * w k).
  { intros i Hi. rewrite (sum_ext n _ (fun j => sum n (fun l => Z i l * w l * (Z j l * Z j k)))) by (intros j Hj; rewrite EA, <- sum_scal_r by assumption; apply sum_ext; intros; ring).
    rewrite sum_swap, (sum_single n _ k Hk).
    - cbv beta. rewrite sum_scal_l, (HO k k Hk Hk). unfold eye. rewrite Nat.eqb_refl. ring.
    - intros l Hl N. rewrite sum_scal_l, (HO l k Hl Hk). unfold eye. rewrite (proj2 (Nat.eqb_neq l k)) by lia. ring. }
  rewrite (sum_ext n _ (fun i => w k * (Z i k * Z i k))) by (intros i Hi; rewrite EI by exact Hi; ring).
  rewrite sum_scal_l, (HO k k Hk Hk). unfold eye. rewrite Nat.eqb_refl. ring.
Qed.
Theorem eigenvectors_exist n : forall A, symm n A -> exists w Z, eigen_desc n A w Z.
Proof.
  induction n as [|n IH]; intros A HS.
  { exists (fun _ => 0), eye. split; [|split]; [intros k l Hk; lia|intros i j Hi; lia|intros k l _ Hl; lia]. }
  destruct (least_eigenvalue (S n) A ltac:(lia) HS) as (l & v & VV & AV & LE).
  destruct (complete_columns (S n) (S n) (fun i _ => v i) (fun k => (k =? n)%nat) (le_n _)) as (H & HG & HO).
  { intros k k' Hk Hk' Gk Gk'. apply Nat.eqb_eq in Gk, Gk'. subst k k'. unfold eye. rewrite Nat.eqb_refl. exact VV. }
  assert (HV : forall i, H i n = v i) by (intros i; rewrite (HG n i) by apply Nat.eqb_refl; reflexivity).
  destruct (square_orthonormal _ _ HO) as [_ HR].
  set (A' := fun p q => sum (S n) (fun i => sum (S n) (fun j => H i p * A i j * H j q))).
  assert (SA : forall p q, A' p q = A' q p).
  { intros p q. unfold A'. rewrite sum_swap. apply sum_ext. intros j Hj. apply sum_ext. intros i Hi. rewrite (HS i j Hi Hj). ring. }
  assert (AN : forall p, (p < S n)%nat -> A' p n = l * eye p n).
  { intros p Hp. unfold A'. rewrite <- (HO p n Hp ltac:(lia)), <- sum_scal_l. apply sum_ext. intros i Hi.
    transitivity (H i p * mvec (S n) A v i); [|rewrite AV, HV by exact Hi; ring].
    unfold mvec. rewrite <- sum_scal_l. apply sum_ext. intros j Hj. rewrite HV. ring. }
  destruct (IH A') as (w & Z & ED); [intros p q _ _; apply SA|].
  set (w' := fun k => if (k <? n)%nat then w k else l).
  set (Z' := fun i k => if (k <? n)%nat then sum n (fun p => H i p * Z p k) else H i n).
  assert (ZL : forall i k, (k < n)%nat -> Z' i k = sum n (fun p => H i p * Z p k)) by (intros i k Hk; unfold Z'; rewrite (proj2 (Nat.ltb_lt k n) Hk); reflexivity).
  assert (ZN : forall i, Z' i n = H i n) by (intros i; unfold Z'; rewrite Nat.ltb_irrefl; reflexivity).
  assert (WL : forall k, (k < n)%nat -> w' k = w k) by (intros k Hk; unfold w'; rewrite (proj2 (Nat.ltb_lt k n) Hk); reflexivity).
  assert (WN : w' n = l) by (unfold w'; rewrite Nat.ltb_irrefl; reflexivity).
  (* A in terms of A' *)
  assert (EA : forall i j, (i < S n)%nat -> (j < S n)%nat -> A i j = sum (S n) (fun p => sum (S n) (fun q => H i p * A' p q * H j q))).
  { intros i j Hi Hj. unfold A'.
    rewrite (sum_ext (S n) _ (fun p => sum (S n) (fun a => sum (S n) (fun b => (H i p * H a p) * (A a b * sum (S n) (fun q => H b q * H j q)))))).
    2:{ intros p Hp. rewrite (sum_ext (S n) _ (fun q => sum (S n) (fun a => sum (S n) (fun b => H i p * (H a p * A a b * H b q) * H j q)))).
        2:{ intros q Hq. rewrite <- sum_scal_l, <- sum_scal_r. apply sum_ext. intros a Ha. rewrite <- sum_scal_l, <- sum_scal_r. reflexivity. }
        rewrite sum_swap. apply sum_ext. intros a Ha. rewrite sum_swap. apply sum_ext. intros b Hb. rewrite <- !sum_scal_l. apply sum_ext. intros; ring. }
    rewrite sum_swap. rewrite (sum_single (S n) _ i Hi).
    - rewrite sum_swap. rewrite (sum_single (S n) _ j Hj).
      + cbv beta. rewrite sum_scal_r. change (A i j = mmul (S n) H (tr H) i i * (A i j * mmul (S n) H (tr H) j j)). rewrite (HR i i Hi Hi), (HR j j Hj Hj). unfold eye. rewrite !Nat.eqb_refl. ring.
      + intros b Hb N. apply sum_zero. intros p Hp. change (sum (S n) (fun q => H b q * H j q)) with (mmul (S n) H (tr H) b j). rewrite (HR b j Hb Hj). unfold eye. rewrite (proj2 (Nat.eqb_neq b j)) by lia. ring.
    - intros a Ha N. rewrite sum_swap. apply sum_zero. intros b Hb. rewrite sum_scal_r.
      change (sum (S n) (fun p => H i p * H a p)) with (mmul (S n) H (tr H) i a). rewrite (HR i a Hi Ha). unfold eye. rewrite (proj2 (Nat.eqb_neq i a)) by lia. ring. }
  assert (ZZ : forall k k', (k < n)%nat -> (k' < n)%nat -> sum (S n) (fun i => Z' i k * Z' i k') = eye k k').
  { intros k k' Hk Hk'. rewrite <- (proj1 ED k k' Hk Hk').
    rewrite (sum_ext (S n) _ (fun i => sum n (fun p => sum n (fun q => (H i p * H i q) * (Z p k * Z q k'))))).
    2:{ intros i Hi. rewrite (ZL i k Hk), (ZL i k' Hk'), <- sum_scal_r. apply sum_ext. intros p Hp. rewrite <- sum_scal_l. apply sum_ext. intros; ring. }
    rewrite sum_swap. apply sum_ext. intros p Hp. rewrite sum_swap. rewrite (sum_single n _ p Hp).
    - cbv beta. rewrite sum_scal_r, (HO p p ltac:(lia) ltac:(lia)). unfold eye. rewrite Nat.eqb_refl. ring.
    - intros q Hq N. rewrite sum_scal_r, (HO p q ltac:(lia) ltac:(lia)). unfold eye. rewrite (proj2 (Nat.eqb_neq p q)) by lia. ring. }
  assert (ZV : forall k, (k < n)%nat -> sum (S n) (fun i => Z' i k * Z' i n) = 0).
  { intros k Hk. rewrite (sum_ext (S n) _ (fun i => sum n (fun p => (H i p * H i n) * Z p k))).
    2:{ intros i Hi. rewrite (ZL i k Hk), ZN, <- sum_scal_r. apply sum_ext. intros; ring. }
    rewrite sum_swap. apply sum_zero. intros p Hp. rewrite sum_scal_r, (HO p n ltac:(lia) ltac:(lia)). unfold eye. rewrite (proj2 (Nat.eqb_neq p n)) by lia. ring. }
  exists w', Z'. split; [|split].
  - intros k k' Hk Hk'. destruct (Nat.eq_dec k n) as [->|Nk]; destruct (Nat.eq_dec k' n) as [->|Nk'].
    + rewrite (sum_ext (S n) _ (fun i => H i n * H i n)) by (intros; rewrite ZN; reflexivity). apply HO; lia.
    + unfold eye. rewrite (proj2 (Nat.eqb_neq n k')) by lia. rewrite <- (ZV k') by lia. apply sum_ext. intros; ring.
    + unfold eye. rewrite (proj2 (Nat.eqb_neq k n)) by lia. apply ZV. lia.
    + apply ZZ; lia.
  - intros i j Hi Hj. rewrite EA by assumption. rewrite !sum_Sn, ZN, WN.
    assert (A' n n = l) as ->. { rewrite AN by lia. unfold eye. rewrite Nat.eqb_refl. ring. }
    rewrite (sum_zero n (fun q => H i n * A' n q * H j q)).
    2:{ intros q Hq. rewrite SA, AN by lia. unfold eye. rewrite (proj2 (Nat.eqb_neq q n)) by lia. ring. }
    rewrite (sum_ext n _ (fun p => sum n (fun q => H i p * A' p q * H j q))).
    2:{ intros p Hp. rewrite sum_Sn, AN by lia. unfold eye. rewrite (proj2 (Nat.eqb_neq p n)) by lia. ring. }
    rewrite ZN. rewrite Rplus_0_l. f_equal.
    rewrite (sum_ext n _ (fun p => sum n (fun k => sum n (fun q => (H i p * Z p k) * w k * (H j q * Z q k))))).
    2:{ intros p Hp. rewrite sum_swap. apply sum_ext. intros q Hq. rewrite (proj1 (proj2 ED) p q Hp Hq), <- sum_scal_l, <- sum_scal_r. apply sum_ext. intros; ring. }
    rewrite sum_swap. apply sum_ext. intros k Hk. rewrite (ZL i k Hk), (ZL j k Hk), (WL k Hk).
    rewrite <- !sum_scal_r. apply sum_ext. intros p Hp. rewrite <- sum_scal_l. reflexivity.
  - intros k k' L Hk'. destruct (Nat.eq_dec k' n) as [->|N].
    + rewrite WN. destruct (Nat.eq_dec k n) as [->|Nk]; [rewrite WN; lra|]. assert (Hk : (k < n)%nat) by lia. rewrite (WL k Hk).
      rewrite <- (eigen_value n A' w Z k ED Hk).
      replace (quad n A' (fun i => Z i k)) with (quad (S n) A (fun i => Z' i k)).
      * pose proof (LE (fun i => Z' i k)) as B. unfold vdot in B. rewrite (ZZ k k Hk Hk) in B. unfold eye in B. rewrite Nat.eqb_refl in B. lra.
      * unfold quad, vdot, mvec. 
        rewrite (sum_ext (S n) _ (fun i => sum (S n) (fun j => sum n (fun p => sum n (fun q => Z p k * (H i p * A i j * H j q) * Z q k))))).
        2:{ intros i Hi. rewrite <- sum_scal_l. apply sum_ext. intros j Hj. rewrite (ZL i k Hk), (ZL j k Hk), <- sum_scal_r. apply sum_ext. intros p Hp. rewrite <- !sum_scal_l. apply sum_ext. intros; ring. }
        rewrite (sum_ext (S n) _ (fun i => sum n (fun p => sum (S n) (fun j => sum n (fun q => Z p k * (H i p * A i j * H j q) * Z q k))))) by (intros; apply sum_swap).
        rewrite sum_swap. apply sum_ext. intros p Hp. rewrite <- sum_scal_l.
        rewrite (sum_ext (S n) _ (fun i => sum n (fun q => sum (S n) (fun j => Z p k * (H i p * A i j * H j q) * Z q k)))) by (intros; apply sum_swap).
        rewrite sum_swap. apply sum_ext. intros q Hq. unfold A'. rewrite <- sum_scal_r, <- sum_scal_l. apply sum_ext. intros i Hi.
        rewrite <- sum_scal_r, <- sum_scal_l. apply sum_ext. intros; ring.
    + rewrite (WL k), (WL k') by lia. apply (proj2 (proj2 ED)); lia.
Qed.

(** * Singular values *)
Lemma svd_thin m n A : exists U s Z, cols_orthonormal n n Z /\
  (forall i j, (i < m)%nat -> (j < n)%nat -> A i j = sum n (fun k => U i k * s k * Z j k)) /\
  (forall k l, (k < n)%nat -> (l < n)%nat -> s k <> 0 -> s l <> 0 -> sum m (fun i => U i k * U i l) = eye k l) /\
  (forall k, 0 <= s k) /\ (forall k l, (k <= l)%nat -> (l < n)%nat -> s l <= s k).
Proof.
  set (B := fun p q => sum m (fun i => A i p * A i q)).
  destruct (eigenvectors_exist n B) as (w & Z & ED). { intros p q _ _. unfold B. apply sum_ext. intros; ring. }
  set (y := fun k i => sum n (fun p => A i p * Z p k)).
  (* the images of the eigenvectors are orthogonal *)
  assert (YY : forall k l, (k < n)%nat -> (l < n)%nat -> sum m (fun i => y k i * y l i) = w k * eye k l).
  { intros k l Hk Hl. destruct ED as (HO & EB & _).
    transitivity (sum n (fun p => sum n (fun q => Z p k * (B p q * Z q l)))).
    - unfold y, B. rewrite (sum_ext m _ (fun i => sum n (fun p => sum n (fun q => Z p k * (A i p * A i q * Z q l))))).
      2:{ intros i Hi. rewrite <- sum_scal_r. apply sum_ext. intros p Hp. rewrite <- sum_scal_l. apply sum_ext. intros; ring. }
      rewrite sum_swap. apply sum_ext. intros p Hp. rewrite sum_swap. apply sum_ext. intros q Hq. rewrite <- sum_scal_r, <- sum_scal_l. reflexivity.
    - rewrite (sum_ext n _ (fun p => w l * (Z p k * Z p l))).
      + rewrite sum_scal_l, (HO k l Hk Hl). unfold eye. destruct (Nat.eqb_spec k l) as [->|]; ring.
      + intros p Hp. rewrite sum_scal_l. rewrite (sum_ext n _ (fun q => sum n (fun r => Z p r * w r * (Z q r * Z q l)))) by (intros q Hq; rewrite EB, <- sum_scal_r by assumption; apply sum_ext; intros; ring).
        rewrite sum_swap, (sum_single n _ l Hl).
        * cbv beta. rewrite sum_scal_l, (HO l l Hl Hl). unfold eye. rewrite Nat.eqb_refl. ring.
        * intros r Hr N. rewrite sum_scal_l, (HO r l Hr Hl). unfold eye. rewrite (proj2 (Nat.eqb_neq r l)) by lia. ring. }
  assert (WP : forall k, (k < n)%nat -> 0 <= w k).
  { intros k Hk. pose proof (YY k k Hk Hk) as E. unfold eye in E. rewrite Nat.eqb_refl, Rmult_1_r in E. rewrite <- E. apply sum_nonneg. intros; apply Rle_0_sqr. }
  set (s := fun k => sqrt (w k)).
  assert (SS : forall k, (k < n)%nat -> s k * s k = w k) by (intros k Hk; apply sqrt_sqrt, WP, Hk).
  assert (YZ : forall k i, (k < n)%nat -> (i < m)%nat -> s k = 0 -> y k i = 0).
  { intros k i Hk Hi Z0. pose proof (YY k k Hk Hk) as E. rewrite <- (SS k Hk), Z0, !Rmult_0_l in E.
    assert (NN : forall j, (j < m)%nat -> 0 <= y k j * y k j) by (intros; apply Rle_0_sqr).
    pose proof (sum_nonneg_zero m _ NN E i Hi) as E1. cbv beta in E1. nra. }
  exists (fun i k => y k i / s k), s, Z. destruct (square_orthonormal n Z (proj1 ED)) as [_ HR].
  split; [exact (proj1 ED)|]. split; [|split; [|split]].
  - intros i j Hi Hj. rewrite (sum_ext n _ (fun k => y k i * Z j k)).
    2:{ intros k Hk. destruct (Req_dec (s k) 0) as [Z0|N]; [rewrite (YZ k i Hk Hi Z0), Z0; unfold Rdiv; ring|]. field. exact N. }
    unfold y. rewrite (sum_ext n _ (fun k => sum n (fun p => A i p * (Z p k * Z j k)))) by (intros; rewrite <- sum_scal_r; apply sum_ext; intros; ring).
    rewrite sum_swap, (sum_single n _ j Hj).
    + cbv beta. rewrite sum_scal_l. change (A i j = A i j * mmul n Z (tr Z) j j). rewrite (HR j j Hj Hj). unfold eye. rewrite Nat.eqb_refl. ring.
    + intros p Hp N. rewrite sum_scal_l. change (A i p * mmul n Z (tr Z) p j = 0). rewrite (HR p j Hp Hj). unfold eye. rewrite (proj2 (Nat.eqb_neq p j)) by lia. ring.
  - intros k l Hk Hl Nk Nl. rewrite (sum_ext m _ (fun i => / (s k * s l) * (y k i * y l i))) by (intros; field; auto).
    rewrite sum_scal_l, YY, <- (SS k Hk) by assumption. unfold eye. destruct (Nat.eqb_spec k l) as [->|]; field; auto.
  - intros k. apply sqrt_pos.
  - intros k l L Hl. apply sqrt_le_1_alt. apply (proj2 (proj2 ED)); assumption.
Qed.
(** with at least as many rows as columns all columns of U can be taken orthonormal *)
Lemma svd_tall m n A : (n <= m)%nat -> exists U s Z, cols_orthonormal n n Z /\ cols_orthonormal m n U /\
  (forall i j, (i < m)%nat -> (j < n)%nat -> A i j = sum n (fun k => U i k * s k * Z j k)) /\
  (forall k, 0 <= s k) /\ (forall k l, (k <= l)%nat -> (l < n)%nat -> s l <= s k).
Proof.
  intros L. destruct (svd_thin m n A) as (U & s & Z & HZ & HA & HU & S0 & SD).
  destruct (complete_columns m n U (fun k => if Req_EM_T (s k) 0 then false else true) L) as (U' & AG & HO).
  { intros k l Hk Hl Gk Gl. apply HU; try assumption; [destruct (Req_EM_T (s k) 0)|destruct (Req_EM_T (s l) 0)]; congruence. }
  exists U', s, Z. split; [exact HZ|]. split; [exact HO|]. split; [|split; assumption].
  intros i j Hi Hj. rewrite (HA i j Hi Hj). apply sum_ext. intros k Hk. destruct (Req_EM_T (s k) 0) as [E|N]; [rewrite E; ring|].
  rewrite (AG k i); [reflexivity|]. destruct (Req_EM_T (s k) 0); [contradiction|reflexivity].
Qed.
